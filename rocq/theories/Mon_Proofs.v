(** Proofs about directions. *)
From Coq Require Import QArith Reals ZArith List Lia Lra.
From Verif Require Import Base CField GMath_Model CplxField QTac Grid_Model Maxwell_Model Fs_Model Fs_Spec Mon_Model Mon_Spec.
Set Implicit Arguments.
Local Open Scope R_scope.

Lemma norm_len3 v : norm (comps v) = len3 v.
Proof. unfold norm, comps, len3, dot. cbn [map fold_right]. f_equal. ring. Qed.
Lemma len3_pos v : 0 <= len3 v. Proof. apply sqrt_pos. Qed.
Lemma dot_self v : 0 <= dot v v. Proof. unfold dot. Lra.nra. Qed.
Lemma len3_sq v : len3 v * len3 v = v 0%nat * v 0%nat + v 1%nat * v 1%nat + v 2%nat * v 2%nat.
Proof. unfold len3. rewrite sqrt_sqrt by apply dot_self. reflexivity. Qed.
Lemma len3_zero v : len3 v = 0 -> forall a, (a < 3)%nat -> v a = 0.
Proof.
  intros H a Ha. pose proof (len3_sq v) as E. rewrite H in E.
  assert (v 0%nat = 0 /\ v 1%nat = 0 /\ v 2%nat = 0) as (H0 & H1 & H2) by (repeat split; Lra.nra).
  destruct a as [|[|[|a]]]; try lia; assumption.
Qed.

Definition big (v : vec3) (i : nat) : bool := if Rlt_dec (len3 v / 1000000) (Rabs (v i)) then true else false.
Lemma above_comps v : above (comps v) = filter (big v) [0; 1; 2]%nat.
Proof.
  unfold above. change (seq 0 (length (comps v))) with [0; 1; 2]%nat. unfold delta. rewrite norm_len3.
  assert (E : 1 / 1000000 * len3 v = len3 v / 1000000) by field. rewrite E. cbn [filter]. unfold big, comps. cbn [nth]. reflexivity.
Qed.
Lemma big_iff v i : big v i = true <-> len3 v / 1000000 < Rabs (v i).
Proof. unfold big. destruct (Rlt_dec _ _); split; intros; auto; discriminate. Qed.
Lemma big_false v i : big v i = false <-> Rabs (v i) <= len3 v / 1000000.
Proof. unfold big. destruct (Rlt_dec _ _); split; intros; auto; try discriminate; Lra.lra. Qed.
Lemma small_sq v b : Rabs (v b) <= len3 v / 1000000 -> v b * v b <= len3 v * len3 v / 1000000000000.
Proof.
  intros H. pose proof (Rabs_pos (v b)) as P. pose proof (len3_pos v) as L.
  assert (E : v b * v b = Rabs (v b) * Rabs (v b)) by (rewrite <- Rabs_mult; symmetry; apply Rabs_pos_eq; Lra.nra).
  rewrite E. apply Rle_trans with (len3 v / 1000000 * (len3 v / 1000000)); [apply Rmult_le_compat; auto|]. right. field.
Qed.
(** the entry along the axis carries nearly all of the length *)
Lemma main_sq v a : along_axis v a -> len3 v * len3 v - v a * v a <= 2 * (len3 v * len3 v / 1000000000000).
Proof.
  intros (Ha & _ & H). pose proof (len3_sq v) as E.
  destruct a as [|[|[|a]]]; try lia.
  - pose proof (@small_sq v _ (H 1%nat ltac:(lia) ltac:(lia))). pose proof (@small_sq v _ (H 2%nat ltac:(lia) ltac:(lia))). Lra.lra.
  - pose proof (@small_sq v _ (H 0%nat ltac:(lia) ltac:(lia))). pose proof (@small_sq v _ (H 2%nat ltac:(lia) ltac:(lia))). Lra.lra.
  - pose proof (@small_sq v _ (H 0%nat ltac:(lia) ltac:(lia))). pose proof (@small_sq v _ (H 1%nat ltac:(lia) ltac:(lia))). Lra.lra.
Qed.
Lemma len3_of_entry v a : (a < 3)%nat -> v a <> 0 -> 0 < len3 v.
Proof.
  intros Ha Hv. destruct (len3_pos v) as [L|L]; [exact L|]. exfalso. apply Hv. symmetry in L. now apply (@len3_zero v L).
Qed.
Lemma abs_sq x : Rabs x * Rabs x = x * x.
Proof. rewrite <- Rabs_mult. apply Rabs_pos_eq. Lra.nra. Qed.
Lemma main_abs v a : along_axis v a -> len3 v - len3 v / 1000000 <= Rabs (v a) <= len3 v.
Proof.
  intros H. pose proof (main_sq H) as M. destruct H as (Ha & Hv & _). pose proof (@len3_of_entry v a Ha Hv) as L. pose proof (Rabs_pos (v a)) as P. pose proof (abs_sq (v a)) as S.
  pose proof (len3_sq v) as E.
  assert (U : v a * v a <= len3 v * len3 v).
  { rewrite E. destruct a as [|[|[|a]]]; try lia; Lra.nra. }
  set (l := len3 v) in *. set (x := Rabs (v a)) in *. rewrite <- S in *. clearbody l x.
  split; [|Lra.nra]. apply Rnot_lt_le. intros C.
  assert (x * x < (l - l / 1000000) * (l - l / 1000000)) by Lra.nra. Lra.nra.
Qed.
Lemma main_big v a : along_axis v a -> big v a = true.
Proof. intros H. apply big_iff. pose proof (main_abs H). destruct H as (Ha & Hv & _). pose proof (@len3_of_entry v a Ha Hv). Lra.lra. Qed.

Lemma axis_pf v a : axisvec2axis (comps v) = Ok a <-> along_axis v a.
Proof.
  unfold axisvec2axis. rewrite above_comps. cbn [filter]. split.
  - destruct (big v 0) eqn:B0, (big v 1) eqn:B1, (big v 2) eqn:B2; intros [= <-];
    rewrite ?big_iff, ?big_false in *; (split; [lia|split]).
    all: try (intros Z; rewrite Z, Rabs_R0 in *; pose proof (len3_pos v); Lra.lra).
    all: intros [|[|[|b]]] Hb Hn; try lia; assumption.
  - intros H. pose proof (main_big H) as B. destruct H as (Ha & _ & H).
    assert (N : forall b, (b < 3)%nat -> b <> a -> big v b = false) by (intros; apply big_false; auto).
    destruct a as [|[|[|a]]]; try lia; rewrite B, ?(N 0%nat), ?(N 1%nat), ?(N 2%nat) by lia; reflexivity.
Qed.
Lemma some_big v a : (a < 3)%nat -> v a <> 0 -> exists b, (b < 3)%nat /\ big v b = true.
Proof.
  intros Ha Hv. pose proof (@len3_of_entry v a Ha Hv) as L. pose proof (len3_sq v) as E.
  destruct (big v 0) eqn:B0; [exists 0%nat; split; [lia|auto]|]. destruct (big v 1) eqn:B1; [exists 1%nat; split; [lia|auto]|].
  destruct (big v 2) eqn:B2; [exists 2%nat; split; [lia|auto]|]. exfalso. rewrite big_false in *.
  pose proof (@small_sq v _ B0). pose proof (@small_sq v _ B1). pose proof (@small_sq v _ B2). Lra.nra.
Qed.
Lemma axis_errors_pf v e : axisvec2axis (comps v) = Err e <->
  e = ValueError /\ ((forall a, (a < 3)%nat -> v a = 0) \/
    exists a b, (a < 3)%nat /\ (b < 3)%nat /\ a <> b /\ len3 v / 1000000 < Rabs (v a) /\ len3 v / 1000000 < Rabs (v b)).
Proof.
  assert (T : forall a b, (a < 3)%nat -> (b < 3)%nat -> a <> b -> big v a = true -> big v b = true -> exists a b, (a < 3)%nat /\ (b < 3)%nat /\ a <> b /\ len3 v / 1000000 < Rabs (v a) /\ len3 v / 1000000 < Rabs (v b)).
  { intros a b Ha Hb Hn A B. exists a, b. rewrite big_iff in A, B. auto. }
  split.
  - unfold axisvec2axis. rewrite above_comps. cbn [filter].
    destruct (big v 0) eqn:B0, (big v 1) eqn:B1, (big v 2) eqn:B2; intros [= <-]; (split; [reflexivity|]).
    all: try (right; first [apply (T 0%nat 1%nat); [lia|lia|lia|assumption|assumption] | apply (T 0%nat 2%nat); [lia|lia|lia|assumption|assumption] | apply (T 1%nat 2%nat); [lia|lia|lia|assumption|assumption]]).
    left. intros a Ha. destruct (Req_dec (v a) 0) as [Z|Z]; [exact Z|]. exfalso. destruct (@some_big v a Ha Z) as (b & Hb & B).
    destruct b as [|[|[|b]]]; try lia; congruence.
  - intros (-> & H). destruct (axisvec2axis (comps v)) as [a|e] eqn:A.
    + exfalso. apply axis_pf in A. destruct A as (Ha & Hv & A). destruct H as [H|(b & c & Hb & Hc & Hn & H1 & H2)]; [now apply Hv, H|].
      destruct (Nat.eq_dec b a) as [->|N]; [specialize (A c Hc ltac:(lia)); Lra.lra|specialize (A b Hb N); Lra.lra].
    + f_equal. unfold axisvec2axis in A. destruct (above (comps v)) as [|x [|y l]]; congruence.
Qed.
Lemma nth_comps v a : (a < 3)%nat -> nth a (comps v) 0 = v a.
Proof. intros Ha. destruct a as [|[|[|a]]]; try lia; reflexivity. Qed.
Lemma npsign_pos x : 0 < x -> npsign x = 1%Z.
Proof. intros H. unfold npsign. destruct (Rlt_dec 0 x); [reflexivity|Lra.lra]. Qed.
Lemma npsign_neg x : x < 0 -> npsign x = (-1)%Z.
Proof. intros H. unfold npsign. destruct (Rlt_dec 0 x); [Lra.lra|]. destruct (Rlt_dec x 0); [reflexivity|Lra.lra]. Qed.
Lemma polarity_eq v a : axisvec2axis (comps v) = Ok a -> axisvec2polarity (comps v) = Ok (npsign (v a)).
Proof. intros H. unfold axisvec2polarity. rewrite H. cbn [bind]. apply axis_pf in H. destruct H as (Ha & _). now rewrite nth_comps. Qed.
Lemma polarity_pf v a s : axisvec2axis (comps v) = Ok a -> axisvec2polarity (comps v) = Ok s ->
  (s = 1 \/ s = -1)%Z /\ 0 < IZR s * v a /\ forall b, (b < 3)%nat -> Rabs (v b - len3 v * (IZR s * unit_vec a b)) <= len3 v / 1000000.
Proof.
  intros A. rewrite (polarity_eq _ A). intros [= <-]. apply axis_pf in A. pose proof (main_abs A) as M. destruct A as (Ha & Hv & H).
  assert (O : forall b t, (b < 3)%nat -> b <> a -> Rabs (v b - len3 v * (t * unit_vec a b)) <= len3 v / 1000000).
  { intros b t Hb Hn. unfold unit_vec. destruct (Nat.eqb_spec b a); [contradiction|]. replace (v b - len3 v * (t * 0)) with (v b) by ring. auto. }
  destruct (Rtotal_order (v a) 0) as [L|[L|L]]; [|contradiction|].
  - rewrite npsign_neg by auto. rewrite Rabs_left in M by auto. split; [auto|]. split; [cbn; Lra.lra|]. intros b Hb. destruct (Nat.eq_dec b a) as [->|N]; [|auto].
    unfold unit_vec. rewrite Nat.eqb_refl. rewrite Rabs_pos_eq; cbn; Lra.lra.
  - rewrite npsign_pos by auto. rewrite Rabs_right in M by Lra.lra. split; [auto|]. split; [cbn; Lra.lra|]. intros b Hb. destruct (Nat.eq_dec b a) as [->|N]; [|auto].
    unfold unit_vec. rewrite Nat.eqb_refl. rewrite Rabs_left1; cbn; Lra.lra.
Qed.
(** *** scaling *)
Lemma len3_scale t v : len3 (cscale_by t v) = Rabs t * len3 v.
Proof.
  unfold len3. assert (E : dot (cscale_by t v) (cscale_by t v) = Rabs t * Rabs t * dot v v) by (rewrite abs_sq; unfold dot, cscale_by; ring).
  rewrite E, sqrt_mult; [|rewrite abs_sq; Lra.nra|apply dot_self]. rewrite sqrt_square by apply Rabs_pos. reflexivity.
Qed.
Lemma along_scale t v a : t <> 0 -> along_axis v a -> along_axis (cscale_by t v) a.
Proof.
  intros Ht (Ha & Hv & H). split; [auto|]. split; [unfold cscale_by; now apply Rmult_integral_contrapositive|]. intros b Hb Hn.
  rewrite len3_scale. unfold cscale_by. rewrite Rabs_mult. specialize (H b Hb Hn). apply Rle_trans with (Rabs t * (len3 v / 1000000)); [apply Rmult_le_compat_l; [apply Rabs_pos|auto]|right; field].
Qed.
Lemma along_scale_inv t v a : t <> 0 -> along_axis (cscale_by t v) a -> along_axis v a.
Proof.
  intros Ht H. apply (along_scale (Rinv_neq_0_compat t Ht)) in H. destruct H as (Ha & Hv & H).
  assert (E : forall b, cscale_by (/ t) (cscale_by t v) b = v b) by (intros b; unfold cscale_by; field; auto).
  rewrite E in Hv. split; [auto|]. split; [auto|]. intros b Hb Hn. specialize (H b Hb Hn). rewrite E in H.
  assert (L : len3 (cscale_by (/ t) (cscale_by t v)) = len3 v) by (unfold len3, dot; rewrite !E; reflexivity). now rewrite L in H.
Qed.
Lemma axis_scale_pf t v : t <> 0 -> axisvec2axis (comps (cscale_by t v)) = axisvec2axis (comps v).
Proof.
  intros Ht. destruct (axisvec2axis (comps v)) as [a|e] eqn:A.
  - apply axis_pf in A. apply axis_pf. now apply along_scale.
  - destruct (axisvec2axis (comps (cscale_by t v))) as [a|e'] eqn:B.
    + exfalso. apply axis_pf in B. apply along_scale_inv in B; [|auto]. apply axis_pf in B. congruence.
    + apply axis_errors_pf in A, B. destruct A as (-> & _), B as (-> & _). reflexivity.
Qed.
Lemma polarity_scale_pf t v : t <> 0 ->
  axisvec2polarity (comps (cscale_by t v)) = bind (axisvec2polarity (comps v)) (fun s => Ok (if Rlt_dec 0 t then s else - s)%Z).
Proof.
  intros Ht. destruct (axisvec2axis (comps v)) as [a|e] eqn:A.
  - rewrite (polarity_eq _ A). rewrite (@polarity_eq (cscale_by t v) a) by now rewrite axis_scale_pf. cbn [bind]. f_equal.
    apply axis_pf in A. destruct A as (Ha & Hv & _). unfold cscale_by. destruct (Rlt_dec 0 t) as [P|P].
    + destruct (Rtotal_order (v a) 0) as [L|[L|L]]; [|contradiction|]; [rewrite !npsign_neg by Lra.nra|rewrite !npsign_pos by Lra.nra]; reflexivity.
    + destruct (Rtotal_order (v a) 0) as [L|[L|L]]; [|contradiction|]; [rewrite npsign_pos by Lra.nra; rewrite npsign_neg by Lra.nra|rewrite npsign_neg by Lra.nra; rewrite npsign_pos by Lra.nra]; reflexivity.
  - unfold axisvec2polarity. rewrite axis_scale_pf by auto. rewrite A. reflexivity.
Qed.
