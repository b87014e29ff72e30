(** apply_scpml: all six sides, errors, and what happens to the caller's arrays. *)
From Verif Require Import Base QTac Pml_Model Pml_Spec Pml_Proofs.
From Coq Require Import ZArith Setoid.
Set Implicit Arguments.

Section Chain.
Variable A : Type.
Variable f : A -> nat -> bool -> nat -> res A.
Definition gstep (d : A) (axis : nat) (front : bool) (t : nat) : res A := match t with O => Ok d | S _ => f d axis front t end.
Definition gchain (t : nat -> bool -> nat) (s : list (nat * bool)) (r : res A) : res A :=
  fold_left (fun r s => bind r (fun d => gstep d (fst s) (snd s) (t (fst s) (snd s)))) s r.
Lemma gstep_z d axis front z : (if Z.ltb 0 z then f d axis front (Z.to_nat z) else Ok d) = gstep d axis front (Z.to_nat z).
Proof.
  unfold gstep. destruct (Z.ltb_spec 0 z) as [H|H].
  - destruct (Z.to_nat z) eqn:E; [lia|reflexivity].
  - destruct (Z.to_nat z) eqn:E; [reflexivity|lia].
Qed.
Lemma bind_Ok B (r : res B) : bind r (fun x => Ok x) = r.
Proof. now destruct r. Qed.
Lemma zip_steps (L : list (Z * (nat * bool))) : forall r,
  fold_left (fun r x => bind r (fun d => if Z.ltb 0 (fst x) then f d (fst (snd x)) (snd (snd x)) (Z.to_nat (fst x)) else Ok d)) L r =
  fold_left (fun r x => bind r (fun d => gstep d (fst (snd x)) (snd (snd x)) (Z.to_nat (fst x)))) L r.
Proof.
  induction L as [|x L IH]; intros r; cbn [fold_left]; [reflexivity|]. rewrite IH. f_equal.
  destruct r as [d|e]; simpl; [apply gstep_z|reflexivity].
Qed.
Lemma zip_chain l r :
  fold_left (fun r x => bind r (fun d => if Z.ltb 0 (fst x) then f d (fst (snd x)) (snd (snd x)) (Z.to_nat (fst x)) else Ok d)) (combine l sides) r =
  gchain (nlayers l) sides r.
Proof.
  rewrite zip_steps. unfold gchain, sides, nlayers.
  destruct l as [|z0 [|z1 [|z2 [|z3 [|z4 [|z5 l]]]]]];
    cbn [combine fold_left fst snd nth Nat.mul Nat.add]; change (Z.to_nat 0) with 0%nat; cbn [gstep]; rewrite ?bind_Ok; try reflexivity.
  assert (E : combine l (@nil (nat * bool)) = []) by (now destruct l). now rewrite E.
Qed.
End Chain.

Definition sstep (om : Q) := gstep (stretch_axis om).
Lemma apply_chain om l d : apply_scpml d (LSeq l) om = gchain (stretch_axis om) (nlayers l) sides (Ok d).
Proof.
  unfold apply_scpml, layer_list. destruct l as [|z l].
  - unfold gchain, sides, nlayers. reflexivity.
  - apply (zip_chain (stretch_axis om)).
Qed.
Lemma apply_none om d : apply_scpml d LNone om = Ok d.
Proof. reflexivity. Qed.
Lemma apply_int om k d : apply_scpml d (LInt k) om = apply_scpml d (LSeq (repeat k 6)) om.
Proof.
  unfold apply_scpml at 1. cbn [layer_list]. destruct (Z.eqb_spec k 0) as [->|H]; [rewrite apply_chain; reflexivity|]. reflexivity.
Qed.

(** *** lengths and errors *)
Definition same_len (d d' : spacing) : Prop := forall g k, length (d' g k) = length (d g k).
Lemma sstep_len om (d : spacing) axis front t :
  if Nat.leb t (length (d 0%nat axis)) then exists d', sstep om d axis front t = Ok d' /\ same_len d d'
  else sstep om d axis front t = Err IndexError.
Proof.
  unfold sstep, gstep. destruct t as [|t]; [exists d; split; [reflexivity|intros g k; reflexivity]|].
  unfold stretch_axis, stretch. set (a := d 0%nat axis). destruct (Nat.leb_spec (S t) (length a)) as [H|H].
  - destruct (Nat.ltb_spec (length a) (S t)); [lia|]. cbn [bind fst snd]. eexists. split; [reflexivity|].
    intros g k. unfold set_axis. destruct (Nat.eqb_spec k axis) as [->|]; [|reflexivity].
    destruct g as [|[|g]]; rewrite ?scale_sel_length; try reflexivity.
  - destruct (Nat.ltb_spec (length a) (S t)); [|lia]. reflexivity.
Qed.
Lemma gchain_err A (f : A -> nat -> bool -> nat -> res A) t s e : gchain f t s (Err e) = Err e.
Proof. induction s as [|x s IH]; [reflexivity|]. exact IH. Qed.
Lemma gchain_cons A (f : A -> nat -> bool -> nat -> res A) t x s d :
  gchain f t (x :: s) (Ok d) = bind (gstep f d (fst x) (snd x) (t (fst x) (snd x))) (fun d' => gchain f t s (Ok d')).
Proof. unfold gchain. cbn [fold_left bind]. destruct (gstep f d _ _ _); [reflexivity|]. apply (@gchain_err A f t s). Qed.
Lemma chain_len om t s : forall d : spacing,
  ((forall x, In x s -> (t (fst x) (snd x) <= length (d 0%nat (fst x)))%nat) -> exists d', gchain (stretch_axis om) t s (Ok d) = Ok d' /\ same_len d d') /\
  (forall x, In x s -> (length (d 0%nat (fst x)) < t (fst x) (snd x))%nat -> gchain (stretch_axis om) t s (Ok d) = Err IndexError).
Proof.
  induction s as [|x s IH]; intros d.
  - split; [|intros x []]. intros _. exists d. split; [reflexivity|intros g k; reflexivity].
  - rewrite gchain_cons. pose proof (sstep_len om d (fst x) (snd x) (t (fst x) (snd x))) as Hs. unfold sstep in Hs.
    destruct (Nat.leb_spec (t (fst x) (snd x)) (length (d 0%nat (fst x)))) as [Hle|Hgt].
    + destruct Hs as (d1 & E & Hl). rewrite E. cbn [bind]. destruct (IH d1) as [I1 I2]. split.
      * intros H. destruct I1 as (d2 & E2 & Hl2). { intros y Hy. rewrite (Hl 0%nat). apply H. now right. }
        exists d2. split; [exact E2|]. intros g k. now rewrite Hl2, Hl.
      * intros y [<-|Hy] Hlt; [lia|]. apply (I2 y Hy). now rewrite (Hl 0%nat).
    + rewrite Hs. cbn [bind]. split; [|reflexivity]. intros H. specialize (H x (or_introl eq_refl)). lia.
Qed.
Lemma sides_In k (front : bool) : (k < 3)%nat -> In (k, front) sides.
Proof. intros H. unfold sides. destruct k as [|[|[|k]]]; [| | |lia]; destruct front; simpl; tauto. Qed.
Lemma sides_inv x : In x sides -> (fst x < 3)%nat.
Proof. unfold sides. simpl. intuition subst; simpl; lia. Qed.
Lemma apply_defined om l (d : spacing) :
  (exists d', apply_scpml d (LSeq l) om = Ok d') <->
  (forall k front, (k < 3)%nat -> (nlayers l k front <= length (d 0%nat k))%nat).
Proof.
  rewrite apply_chain. destruct (chain_len om (nlayers l) sides d) as [H1 H2]. split.
  - intros [d' E] k front Hk. destruct (Nat.le_gt_cases (nlayers l k front) (length (d 0%nat k))) as [H|H]; [exact H|].
    rewrite (H2 (k, front) (sides_In front Hk) H) in E. discriminate.
  - intros H. destruct H1 as (d' & E & _); [|now exists d']. intros x Hx. apply H. now apply sides_inv.
Qed.
Lemma apply_error om p d e : apply_scpml d p om = Err e -> e = IndexError.
Proof.
  assert (H : forall l e, apply_scpml d (LSeq l) om = Err e -> e = IndexError).
  { intros l e' E. destruct (Forall_Exists_dec (fun x => (nlayers l (fst x) (snd x) <= length (d 0%nat (fst x)))%nat)) with (l := sides) as [H|H].
    - intros x. apply Compare_dec.le_dec.
    - rewrite Forall_forall in H. rewrite apply_chain in E. destruct (chain_len om (nlayers l) sides d) as [H1 _].
      destruct (H1 H) as (d' & E' & _). congruence.
    - apply Exists_exists in H. destruct H as (x & Hx & Hn). rewrite apply_chain in E.
      destruct (chain_len om (nlayers l) sides d) as [_ H2]. rewrite (H2 x Hx ltac:(lia)) in E. congruence. }
  destruct p as [|k|l]; [discriminate| |apply H]. rewrite apply_int. apply H.
Qed.

(** *** values *)
Lemma step_maybe om (d : spacing) k front t :
  match maybe front om t (d 0%nat k, d 1%nat k) with
  | Ok (a, b) => exists d', sstep om d k front t = Ok d' /\ d' 0%nat k = a /\ d' 1%nat k = b /\ (forall g j, j <> k -> d' g j = d g j)
  | Err e => sstep om d k front t = Err e
  end.
Proof.
  unfold maybe, sstep, gstep. destruct t as [|t]; [exists d; auto|]. cbn [fst snd]. unfold stretch_axis.
  destruct (stretch s_default om front (S t) (d 0%nat k) (d 1%nat k)) as [[a b]|e]; [|reflexivity].
  cbn [bind fst snd]. eexists. split; [reflexivity|]. unfold set_axis. rewrite Nat.eqb_refl. split; [reflexivity|]. split; [reflexivity|].
  intros g j Hj. destruct (Nat.eqb_spec j k); [lia|reflexivity].
Qed.
Definition axis_ok (om : Q) (r y : list Q) (p q : nat) (d' : spacing) (k : nat) : Prop :=
  length (d' 0%nat k) = length r /\ length (d' 1%nat k) = length r /\
  forall i, (i < length r)%nat ->
    ceq (cn (d' 0%nat k) i) (qn r i, qn r i * absorption om r p q i (centre r i)) /\
    ceq (cn (d' 1%nat k) i) (qn y i, qn y i * absorption om r p q i (edge r i)).
Lemma two_steps om (d : spacing) k r y p q : ~ om == 0 -> d 0%nat k = map creal r -> d 1%nat k = map creal y ->
  length y = length r -> all_positive r -> (p + q <= length r)%nat ->
  exists d1 d', sstep om d k true p = Ok d1 /\ sstep om d1 k false q = Ok d' /\ (forall g j, j <> k -> d' g j = d g j) /\ axis_ok om r y p q d' k.
Proof.
  intros Ho E0 E1 Hl Hr Hpq. destruct (@axis_lemma om r y p q Ho Hl Hr Hpq) as (a' & b' & E & L1 & L2 & H).
  pose proof (step_maybe om d k true p) as S1. rewrite E0, E1 in S1.
  destruct (maybe true om p (map creal r, map creal y)) as [[a1 b1]|e]; [|discriminate].
  destruct S1 as (d1 & Es & Ea & Eb & Hd). cbn [bind] in E.
  pose proof (step_maybe om d1 k false q) as S2. rewrite Ea, Eb, E in S2. destruct S2 as (d2 & Es2 & Ea2 & Eb2 & Hd2).
  exists d1, d2. split; [exact Es|]. split; [exact Es2|]. split; [intros g j Hj; now rewrite Hd2, Hd|].
  unfold axis_ok. rewrite Ea2, Eb2. auto.
Qed.
Lemma scpml_lemma om l (r y : nat -> list Q) (d : spacing) : ~ om == 0 ->
  (forall k, (k < 3)%nat -> d 0%nat k = map creal (r k) /\ d 1%nat k = map creal (y k) /\ length (y k) = length (r k) /\
     all_positive (r k) /\ (nlayers l k true + nlayers l k false <= length (r k))%nat) ->
  exists d', apply_scpml d (LSeq l) om = Ok d' /\
    forall k, (k < 3)%nat -> axis_ok om (r k) (y k) (nlayers l k true) (nlayers l k false) d' k.
Proof.
  intros Ho H. rewrite apply_chain. unfold sides.
  destruct (H 0%nat) as (A1 & A2 & A3 & A4 & A5); [lia|].
  destruct (@two_steps om d 0%nat _ _ _ _ Ho A1 A2 A3 A4 A5) as (d1 & d2 & E1 & E2 & N2 & K0).
  destruct (H 1%nat) as (B1 & B2 & B3 & B4 & B5); [lia|]. rewrite <- N2 in B1, B2 by lia.
  destruct (@two_steps om d2 1%nat _ _ _ _ Ho B1 B2 B3 B4 B5) as (d3 & d4 & E3 & E4 & N4 & K1).
  destruct (H 2%nat) as (C1 & C2 & C3 & C4 & C5); [lia|]. rewrite <- N2, <- N4 in C1, C2 by lia.
  destruct (@two_steps om d4 2%nat _ _ _ _ Ho C1 C2 C3 C4 C5) as (d5 & d6 & E5 & E6 & N6 & K2).
  exists d6. unfold sstep in *. rewrite !gchain_cons. cbn [fst snd]. rewrite E1. cbn [bind]. rewrite gchain_cons. cbn [fst snd]. rewrite E2. cbn [bind].
  rewrite gchain_cons. cbn [fst snd]. rewrite E3. cbn [bind]. rewrite gchain_cons. cbn [fst snd]. rewrite E4. cbn [bind].
  rewrite gchain_cons. cbn [fst snd]. rewrite E5. cbn [bind]. rewrite gchain_cons. cbn [fst snd]. rewrite E6. cbn [bind].
  split; [reflexivity|]. intros k Hk. destruct k as [|[|[|k]]]; [| | |lia].
  - unfold axis_ok in *. rewrite !N6, !N4 by lia. exact K0.
  - unfold axis_ok in *. rewrite !N6 by lia. exact K1.
  - exact K2.
Qed.

(** *** sign and growth of the absorption *)
Lemma qpow4_nonneg x : 0 <= qpow x 4.
Proof. cbn [qpow]. assert (x * (x * (x * (x * 1))) == (x * x) * (x * x)) as -> by ring. nra. Qed.
Lemma edge_mono r i j : all_positive r -> (i <= j <= length r)%nat -> edge r i <= edge r j.
Proof.
  intros Hr H. destruct (Nat.eq_dec i j) as [->|]; [lra|]. apply Qlt_le_weak. apply edge_lt; [exact Hr|lia].
Qed.
Lemma absorption_sign om r p q i x : 0 < om -> all_positive r -> (p + q <= length r)%nat -> (i < length r)%nat ->
  absorption om r p q i x <= 0.
Proof.
  intros Ho Hr Hpq Hi. unfold absorption.
  assert (D : forall t th, 0 < th -> -40 * qpow t 4 / th / om <= 0).
  { intros t th Hth. pose proof (qpow4_nonneg t). unfold Qdiv. assert (0 < / th) by now apply Qinv_lt_0_compat.
    assert (0 < / om) by now apply Qinv_lt_0_compat. assert (0 < / th * / om) by nra. 
    assert (-40 * qpow t 4 * / th * / om == - (40 * qpow t 4 * (/ th * / om))) as -> by ring. nra. }
  destruct (Nat.ltb_spec i p).
  - apply D. change 0 with (edge r 0). apply edge_lt; [exact Hr|lia].
  - destruct (Nat.leb_spec (length r - q) i); [|lra]. apply D.
    assert (edge r (length r - q) < edge r (length r)) by (apply edge_lt; [exact Hr|lia]). lra.
Qed.
Lemma qpow4_mono x y : 0 <= x -> x < y -> qpow x 4 < qpow y 4.
Proof.
  intros Hx Hxy. cbn [qpow]. assert (x * (x * (x * (x * 1))) == (x * x) * (x * x)) as -> by ring.
  assert (y * (y * (y * (y * 1))) == (y * y) * (y * y)) as -> by ring. assert (0 <= x * x < y * y) by nra. nra.
Qed.
Lemma depth_absorb om th t u : 0 < om -> 0 < th -> 0 <= t -> t < u -> -40 * qpow (u / th) 4 / th / om < -40 * qpow (t / th) 4 / th / om.
Proof.
  intros Ho Hth Ht Htu. assert (Hi : 0 < / th) by now apply Qinv_lt_0_compat. assert (Hio : 0 < / om) by now apply Qinv_lt_0_compat.
  assert (H : qpow (t / th) 4 < qpow (u / th) 4). { apply qpow4_mono; unfold Qdiv; nra. }
  revert H. generalize (qpow (t / th) 4) (qpow (u / th) 4). intros v w Hvw. unfold Qdiv.
  assert (-40 * w * / th * / om == -40 * w * (/ th * / om)) as -> by ring. assert (-40 * v * / th * / om == -40 * v * (/ th * / om)) as -> by ring.
  assert (0 < / th * / om) by nra. nra.
Qed.
(** deeper cells of the front layer absorb more; likewise for the back layer *)
Lemma absorption_front om r p q i j : 0 < om -> all_positive r -> (p + q <= length r)%nat -> (i < j < p)%nat ->
  absorption om r p q i (centre r i) < absorption om r p q j (centre r j) /\
  absorption om r p q i (edge r i) < absorption om r p q j (edge r j).
Proof.
  intros Ho Hr Hpq Hij. unfold absorption. destruct (Nat.ltb_spec i p); [|lia]. destruct (Nat.ltb_spec j p); [|lia].
  assert (Hp : 0 < edge r p). { change 0 with (edge r 0). apply edge_lt; [exact Hr|lia]. }
  pose proof (@edge_lt r Hr i j ltac:(lia)). pose proof (@edge_lt r Hr (S i) (S j) ltac:(lia)).
  pose proof (@edge_mono r (S j) p Hr ltac:(lia)). pose proof (@edge_lt r Hr j (S j) ltac:(lia)).
  split; apply depth_absorb; auto; unfold centre; rewrite ?(Qeq_refl 0);
    repeat match goal with |- context [(?x + ?y) / 2] => setoid_replace ((x + y) / 2) with ((x + y) * (1 # 2)) by field end; lra.
Qed.
Lemma absorption_back om r p q i j : 0 < om -> all_positive r -> (p + q <= length r)%nat -> (length r - q <= j)%nat -> (j < i < length r)%nat ->
  absorption om r p q i (centre r i) < absorption om r p q j (centre r j) /\
  absorption om r p q i (edge r i) < absorption om r p q j (edge r j).
Proof.
  intros Ho Hr Hpq Hj Hij. unfold absorption. destruct (Nat.ltb_spec i p); [lia|]. destruct (Nat.ltb_spec j p); [lia|].
  destruct (Nat.leb_spec (length r - q) i); [|lia]. destruct (Nat.leb_spec (length r - q) j); [|lia].
  assert (Hp : 0 < edge r (length r) - edge r (length r - q)).
  { assert (edge r (length r - q) < edge r (length r)) by (apply edge_lt; [exact Hr|lia]). lra. }
  pose proof (@edge_lt r Hr j i ltac:(lia)). pose proof (@edge_lt r Hr (S j) (S i) ltac:(lia)).
  pose proof (@edge_mono r (length r - q) j Hr ltac:(lia)). pose proof (@edge_lt r Hr j (S j) ltac:(lia)).
  split; apply depth_absorb; auto; unfold centre;
    repeat match goal with |- context [(?x + ?y) / 2] => setoid_replace ((x + y) / 2) with ((x + y) * (1 # 2)) by field end; lra.
Qed.

(** *** the caller's arrays *)
Definition inv (h0 h : heap) (D : spacing) : Prop :=
  exists extra l0 l1, arrs h = arrs h0 ++ extra /\ lists h = lists h0 ++ [l0; l1] /\ length l0 = 3%nat /\ length l1 = 3%nat /\
  (forall k, (k < 3)%nat -> (length (arrs h0) <= nth k l0 0%nat)%nat /\ nth_error (arrs h) (nth k l0 0%nat) = Some (D 0%nat k) /\
                            (length (arrs h0) <= nth k l1 0%nat)%nat /\ nth_error (arrs h) (nth k l1 0%nat) = Some (D 1%nat k)).
Definition hd (h0 : heap) : dxes := (length (lists h0), S (length (lists h0))).
Lemma get_arr_gen h l rs k a : nth_error (lists h) l = Some rs -> (k < length rs)%nat ->
  nth_error (arrs h) (nth k rs 0%nat) = Some a -> get_arr h l k = Ok a.
Proof.
  intros H1 H2 H3. unfold get_arr. rewrite H1. rewrite (nth_error_nth' rs 0%nat H2). now rewrite H3.
Qed.
Lemma inv_get h0 h D k : inv h0 h D -> (k < 3)%nat ->
  get_arr h (fst (hd h0)) k = Ok (D 0%nat k) /\ get_arr h (snd (hd h0)) k = Ok (D 1%nat k).
Proof.
  intros (extra & l0 & l1 & Ea & El & L0 & L1 & H) Hk. destruct (H k Hk) as (_ & H2 & _ & H4). split.
  - apply get_arr_gen with (rs := l0); [|lia|exact H2]. rewrite El. unfold hd; cbn [fst]. rewrite nth_error_app2 by lia. now rewrite Nat.sub_diag.
  - apply get_arr_gen with (rs := l1); [|lia|exact H4]. rewrite El. unfold hd; cbn [snd]. rewrite nth_error_app2 by lia.
    replace (S (length (lists h0)) - length (lists h0))%nat with 1%nat by lia. reflexivity.
Qed.
Lemma lset_app2 {A} (a b : list A) i v : (length a <= i)%nat -> lset (a ++ b) i v = a ++ lset b (i - length a) v.
Proof.
  revert i. induction a as [|x a IH]; intros i H; simpl in *; [now rewrite Nat.sub_0_r|]. destruct i as [|i]; [lia|].
  f_equal. rewrite IH by lia. reflexivity.
Qed.
Lemma inv_stretch om h0 h (D : spacing) axis front t : (axis < 3)%nat -> inv h0 h D ->
  match stretch_axis om D axis front t with
  | Ok D' => exists h', hstretch s_default om h (hd h0) axis front t = Ok h' /\ inv h0 h' D'
  | Err e => hstretch s_default om h (hd h0) axis front t = Err e
  end.
Proof.
  intros Hax Hinv. unfold stretch_axis, hstretch. destruct (inv_get Hinv Hax) as [-> ->]. cbn [bind].
  destruct (stretch s_default om front t (D 0%nat axis) (D 1%nat axis)) as [[a b]|e]; [|reflexivity]. cbn [bind fst snd].
  destruct Hinv as (extra & l0 & l1 & Ea & El & L0 & L1 & H). eexists. split; [reflexivity|].
  unfold put_arr, hd. cbn [arrs lists fst snd]. rewrite El, Ea.
  set (m := length (lists h0)). 
  assert (E1 : nth m (lists h0 ++ [l0; l1]) [] = l0) by (unfold m; rewrite app_nth2 by lia; now rewrite Nat.sub_diag). rewrite E1.
  assert (E2 : forall x, lset (lists h0 ++ [l0; l1]) m x = lists h0 ++ [x; l1]).
  { intros x. rewrite lset_app2 by lia. unfold m. now rewrite Nat.sub_diag. } rewrite E2.
  assert (E3 : forall x, nth (S m) (lists h0 ++ [x; l1]) [] = l1).
  { intros x. unfold m. rewrite app_nth2 by lia. replace (S (length (lists h0)) - length (lists h0))%nat with 1%nat by lia. reflexivity. } rewrite E3.
  assert (E4 : forall x y, lset (lists h0 ++ [x; l1]) (S m) y = lists h0 ++ [x; y]).
  { intros x y. rewrite lset_app2 by (unfold m; lia). unfold m. replace (S (length (lists h0)) - length (lists h0))%nat with 1%nat by lia. reflexivity. } rewrite E4.
  unfold inv. cbn [arrs lists]. set (n := length (arrs h0 ++ extra)).
  assert (Ln : length ((arrs h0 ++ extra) ++ [a]) = S n) by (rewrite app_length; simpl; fold n; lia). rewrite Ln.
  exists (extra ++ [a] ++ [b]), (lset l0 axis n), (lset l1 axis (S n)).
  split; [now rewrite !app_assoc|]. split; [reflexivity|]. split; [now rewrite lset_length|]. split; [now rewrite lset_length|].
  assert (Hn : (length (arrs h0) <= n)%nat) by (unfold n; rewrite app_length; lia).
  intros k Hk. rewrite !lset_nth by lia. unfold set_axis. destruct (Nat.eqb_spec k axis) as [->|Hne].
  - split; [lia|]. split; [|split; [lia|]].
    + rewrite nth_error_app1 by lia. rewrite nth_error_app2 by (fold n; lia). fold n. now rewrite Nat.sub_diag.
    + rewrite nth_error_app2 by lia. rewrite Ln. now rewrite Nat.sub_diag.
  - destruct (H k Hk) as (G1 & G2 & G3 & G4). rewrite Ea in G2, G4.
    assert (Hlt : forall i v, nth_error (arrs h0 ++ extra) i = Some v -> nth_error (((arrs h0 ++ extra) ++ [a]) ++ [b]) i = Some v).
    { intros i v Hv. assert (i < length (arrs h0 ++ extra))%nat by (apply nth_error_Some; congruence).
      rewrite nth_error_app1 by (rewrite app_length; lia). now rewrite nth_error_app1 by lia. }
    auto.
Qed.
Lemma inv_chain om h0 (t : nat -> bool -> nat) s : (forall x, In x s -> (fst x < 3)%nat) -> forall h (D : spacing), inv h0 h D ->
  match gchain (stretch_axis om) t s (Ok D) with
  | Ok D' => exists h', gchain (fun h axis front t => hstretch s_default om h (hd h0) axis front t) t s (Ok h) = Ok h' /\ inv h0 h' D'
  | Err e => gchain (fun h axis front t => hstretch s_default om h (hd h0) axis front t) t s (Ok h) = Err e
  end.
Proof.
  induction s as [|x s IH]; intros Hs h D Hi; [exists h; split; [reflexivity|exact Hi]|].
  rewrite !gchain_cons. destruct (t (fst x) (snd x)) as [|t']; cbn [gstep].
  - cbn [bind]. apply IH; auto. intros y Hy. apply Hs. now right.
  - pose proof (@inv_stretch om h0 h D (fst x) (snd x) (S t') (Hs x (or_introl eq_refl)) Hi) as H.
    destruct (stretch_axis om D (fst x) (snd x) (S t')) as [D1|e].
    + destruct H as (h1 & E1 & Hi1). rewrite E1. cbn [bind]. apply IH; auto. intros y Hy. apply Hs. now right.
    + rewrite H. reflexivity.
Qed.
Lemma inv_copy h d D : contents h d D -> exists h1, hcopy h d = Ok (h1, hd h) /\ inv h h1 D.
Proof.
  intros H. unfold hcopy. cbn [mapM]. destruct (H 0%nat) as [-> ->]; [lia|]. destruct (H 1%nat) as [-> ->]; [lia|]. destruct (H 2%nat) as [-> ->]; [lia|].
  cbn [bind]. eexists. split; [reflexivity|]. set (k := length (arrs h)).
  eexists _, _, _. cbn [arrs lists]. split; [reflexivity|]. split; [reflexivity|]. split; [reflexivity|]. split; [reflexivity|].
  intros j Hj. assert (A : forall i l, nth_error (arrs h ++ l) (k + i) = nth_error l i).
  { intros i l. unfold k. rewrite nth_error_app2 by lia. f_equal. lia. }
  pose proof (A 0%nat) as A0. rewrite Nat.add_0_r in A0.
  destruct j as [|[|[|j]]]; [| | |lia]; cbn [nth]; rewrite ?A, ?A0; repeat split; try lia; reflexivity.
Qed.
Lemma inv_unchanged h0 h D : inv h0 h D -> unchanged h0 h.
Proof.
  intros (extra & l0 & l1 & Ea & El & _). unfold unchanged. rewrite Ea, El. split; intros r Hr; now rewrite nth_error_app1 by lia.
Qed.

Lemma inv_contents h0 h D : inv h0 h D -> contents h (hd h0) D.
Proof. intros H k Hk. now apply inv_get. Qed.
(** the arrays of a spacing are not arrays of an older heap *)
Lemma inv_fresh h0 h D : inv h0 h D -> fresh_arrays h0 h (hd h0).
Proof.
  intros (extra & l0 & l1 & Ea & El & L0 & L1 & H). unfold fresh_arrays, hd. cbn [fst snd]. split; [lia|]. split; [lia|].
  intros rs r [E|E] Hin; rewrite El in E; rewrite nth_error_app2 in E by lia.
  - rewrite Nat.sub_diag in E. injection E as <-. apply (In_nth _ _ 0%nat) in Hin. destruct Hin as (k & Hk & <-). apply (H k). lia.
  - replace (S (length (lists h0)) - length (lists h0))%nat with 1%nat in E by lia. injection E as <-.
    apply (In_nth _ _ 0%nat) in Hin. destruct Hin as (k & Hk & <-). apply (H k). lia.
Qed.
Lemma happly_lemma h d (D : spacing) p om : contents h d D ->
  match apply_scpml D p om with
  | Ok D' => exists h' d', happly h d p om = Ok (h', d') /\ contents h' d' D' /\ unchanged h h' /\ fresh_arrays h h' d'
  | Err e => happly h d p om = Err e
  end.
Proof.
  intros Hc. unfold happly. destruct (inv_copy Hc) as (h1 & -> & Hi). cbn [bind].
  unfold apply_scpml. destruct (layer_list p) as [l|].
  - unfold apply_layers, hlayers. cbn [fst snd]. rewrite (zip_chain (stretch_axis om)).
    rewrite (zip_chain (fun h2 axis front t => hstretch s_default om h2 (hd h) axis front t)).
    pose proof (@inv_chain om h (nlayers l) sides sides_inv h1 D Hi) as H.
    destruct (gchain (stretch_axis om) (nlayers l) sides (Ok D)) as [D'|e].
    + destruct H as (h' & E & Hi'). rewrite E. cbn [bind]. exists h', (hd h). split; [reflexivity|].
      split; [now apply inv_contents|]. split; [eapply inv_unchanged; eassumption|eapply inv_fresh; eassumption].
    + rewrite H. reflexivity.
  - exists h1, (hd h). split; [reflexivity|]. split; [now apply inv_contents|]. split; [eapply inv_unchanged; eassumption|eapply inv_fresh; eassumption].
Qed.
