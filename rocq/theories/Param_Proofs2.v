From Coq Require Import Qround Qabs.
From Verif Require Import QTac Raster_Model Raster_Spec Raster_Proofs Grid_Model Grid_Proofs Param_Model Param_Spec Param_Proofs.
Set Implicit Arguments.
Open Scope Q_scope.

(** *** gratings *)
Lemma overlap_ext a a' b b' l l' r r' : a == a' -> b == b' -> l == l' -> r == r' -> overlap a b l r == overlap a' b' l' r'.
Proof. intros H1 H2 H3 H4. unfold overlap. qlra. Qed.
Lemma x_coords_length n : length (x_coords n) = (n + 1)%nat.
Proof. unfold x_coords. now rewrite map_length, seq_length. Qed.
Lemma x_coords_nth n i : (i <= n)%nat -> qn (x_coords n) i = qnat i.
Proof. intros H. unfold x_coords. apply map_seq_nth. lia. Qed.
Lemma x_coords_increasing n : increasing (x_coords n).
Proof.
  intros i j Hij. rewrite x_coords_length in Hij. rewrite !x_coords_nth by lia. pose proof (@qnat_lt i j ltac:(lia)). lra.
Qed.
Lemma raster_tooth n a b : (1 <= n)%nat -> a <= b ->
  exists l, raster_1D [(1 # 2) * (b + a) - (1 # 2) * (b - a); (1 # 2) * (b + a) + (1 # 2) * (b - a)] (x_coords n) = Ok l /\ length l = n /\
  forall j, (j < n)%nat -> qn l j == overlap a b (qnat j) (qnat j + 1).
Proof.
  intros Hn Hab. destruct (@raster_1D_pf ((1 # 2) * (b + a) - (1 # 2) * (b - a)) ((1 # 2) * (b + a) + (1 # 2) * (b - a)) (x_coords n) (x_coords_increasing n)) as (l & E & L & N).
  { rewrite x_coords_length. lia. }
  rewrite x_coords_length in *. exists l. split; [assumption|]. split; [lia|]. intros j Hj. rewrite N by lia. unfold covered.
  rewrite !x_coords_nth by lia.
  assert (HS : qnat (S j) == qnat j + 1) by apply qnat_S.
  assert (Hw : qnat (S j) - qnat j == 1) by (rewrite HS; ring). replace (j + 1)%nat with (S j) by lia. rewrite Hw. unfold Qdiv. change (/ 1) with 1. rewrite Qmult_1_r.
  apply overlap_ext; [qlra|qlra|reflexivity|assumption].
Qed.
(** teeth as (width, centre) pairs *)
Fixpoint teeth_pairs (e : list Q) : list (Q * Q) :=
  match e with a :: b :: r => (b - a, (1 # 2) * (b + a)) :: teeth_pairs r | _ => [] end.
Lemma even_ind (P : list Q -> Prop) : P [] -> (forall a b l, P l -> P (a :: b :: l)) -> forall l, Nat.even (length l) = true -> P l.
Proof.
  intros H0 H2. assert (forall n l, (length l <= n)%nat -> Nat.even (length l) = true -> P l) as H.
  { induction n as [|n IH]; intros [|a [|b l]] Hl He; simpl in *; auto; try lia; try discriminate. apply H2. apply IH; [lia|assumption]. }
  intros l. now apply (H (length l)).
Qed.
Lemma evens_odds_length l : Nat.even (length l) = true -> length (odds l) = length (evens l) /\ length (odds l) = length (teeth_pairs l).
Proof. revert l. apply even_ind; [split; reflexivity|]. intros a b l [IH1 IH2]. simpl. lia. Qed.
Lemma teeth_of_pairs e : Nat.even (length e) = true -> teeth_of e = Ok (teeth_pairs e).
Proof.
  intros He. destruct (evens_odds_length e He) as [H1 H2]. unfold teeth_of. rewrite H1, bcast_len_same. cbn [bind]. f_equal.
  transitivity (map (fun i => (nth i (odds e) 0 - nth i (evens e) 0, (1 # 2) * (nth i (odds e) 0 + nth i (evens e) 0))) (seq 0 (length (evens e)))).
  - apply map_ext_in. intros i Hi. apply in_seq in Hi. rewrite !bcast_nth_same by lia. reflexivity.
  - clear H1 H2. revert e He. apply (even_ind (fun e => map _ (seq 0 (length (evens e))) = teeth_pairs e)); [reflexivity|].
    intros a b l IH. cbn [teeth_pairs evens odds length seq map nth]. f_equal. rewrite <- seq_shift, map_map. exact IH.
Qed.
Lemma vadd_length a b : length (vadd a b) = length a.
Proof. unfold vadd. now rewrite map_length, seq_length. Qed.
Lemma vadd_nth a b i : (i < length a)%nat -> qn (vadd a b) i = qn a i + qn b i.
Proof. intros H. unfold vadd. now rewrite map_seq_nth. Qed.
Lemma render_teeth_pf n e acc : (1 <= n)%nat -> Nat.even (length e) = true -> nondecreasing e -> length acc = n ->
  exists z, render_teeth n acc (teeth_pairs e) = Ok z /\ length z = n /\
  forall j, (j < n)%nat -> qn z j == qn acc j + teeth_cover e (qnat j) (qnat j + 1).
Proof.
  intros Hn He. revert e He acc. apply (even_ind (fun e => forall acc, nondecreasing e -> length acc = n -> exists z, render_teeth n acc (teeth_pairs e) = Ok z /\ length z = n /\
    forall j, (j < n)%nat -> qn z j == qn acc j + teeth_cover e (qnat j) (qnat j + 1))).
  - intros acc _ L. exists acc. split; [reflexivity|]. split; [assumption|]. intros j Hj. simpl. ring.
  - intros a b l IH acc Hs L. apply nondecreasing_In in Hs as [Hab Hs]. apply nondecreasing_In in Hs as [_ Hs].
    specialize (Hab b ltac:(now left)). cbn [teeth_pairs render_teeth].
    destruct (@raster_tooth n a b Hn Hab) as (r & -> & Lr & Nr). cbn [bind].
    destruct (IH (vadd acc r) Hs) as (z & E & Lz & Nz); [now rewrite vadd_length|]. exists z. split; [assumption|]. split; [assumption|].
    intros j Hj. rewrite Nz by assumption. rewrite vadd_nth by lia. rewrite Nr by assumption. cbn [teeth_cover]. ring.
Qed.
Lemma grating_structure_pf e n inv : (1 <= n)%nat -> wf (Grating e n inv) ->
  exists z, get_structure (Grating e n inv) = Ok z /\ length z = n /\
  forall j, (j < n)%nat -> let c := teeth_cover e (qnat j) (qnat j + 1) in qn z j == if inv then 1 - c else c.
Proof.
  intros Hn [Hs He]. cbn [get_structure]. unfold grating_structure. rewrite teeth_of_pairs by assumption. cbn [bind].
  destruct (@render_teeth_pf n e (repeat 0 n) Hn He Hs (repeat_length _ _)) as (z & -> & L & N). cbn [bind].
  assert (N' : forall j, (j < n)%nat -> qn z j == teeth_cover e (qnat j) (qnat j + 1)).
  { intros j Hj. rewrite N by assumption. unfold qn. rewrite nth_repeat. ring. }
  eexists. split; [reflexivity|]. destruct inv.
  - rewrite map_length. split; [assumption|]. intros j Hj. rewrite map_qn by lia. now rewrite N'.
  - split; [assumption|]. exact N'.
Qed.
Lemma teeth_cover_bounds e l r : Nat.even (length e) = true -> l <= r -> forall x, (forall y, In y e -> x <= y) -> nondecreasing e ->
  0 <= teeth_cover e l r /\ teeth_cover e l r <= qmax 0 (r - qmax l x).
Proof.
  intros He Hlr. revert e He. apply (even_ind (fun e => forall x, (forall y, In y e -> x <= y) -> nondecreasing e ->
    0 <= teeth_cover e l r /\ teeth_cover e l r <= qmax 0 (r - qmax l x))).
  - intros x _ _. simpl. split; qlra.
  - intros a b e IH x Hx Hs. apply nondecreasing_In in Hs as [Hab Hs]. apply nondecreasing_In in Hs as [Hb Hs].
    specialize (Hab b ltac:(now left)). specialize (Hx a ltac:(now left)). destruct (IH b Hb Hs) as [I1 I2].
    cbn [teeth_cover]. set (tc := teeth_cover e l r) in *. clearbody tc. clear IH Hb Hs. unfold overlap. split; qlra.
Qed.
Lemma teeth_cover_unit e l r : Nat.even (length e) = true -> nondecreasing e -> l <= r -> 0 <= teeth_cover e l r /\ teeth_cover e l r <= r - l.
Proof.
  intros He Hs Hlr. assert (exists x, forall y, In y e -> x <= y) as [x Hx].
  { destruct e as [|a e]; [exists 0; intros y []|]. exists a. apply nondecreasing_In in Hs as [H _]. intros y [<-|Hy]; [apply Qle_refl|auto]. }
  destruct (@teeth_cover_bounds e l r He Hlr x Hx Hs) as [H1 H2]. split; [assumption|]. clear - H2 Hlr. qlra.
Qed.
Lemma overlap_add_r a b l m r : a <= b -> l <= m -> m <= r -> overlap a b l m + overlap a b m r == overlap a b l r.
Proof. intros H1 H2 H3. unfold overlap. qlra. Qed.
Lemma teeth_cover_add e l m r : Nat.even (length e) = true -> nondecreasing e -> l <= m -> m <= r ->
  teeth_cover e l m + teeth_cover e m r == teeth_cover e l r.
Proof.
  intros He Hs Hl Hr. revert e He Hs. apply (even_ind (fun e => nondecreasing e -> teeth_cover e l m + teeth_cover e m r == teeth_cover e l r)).
  - intros _. simpl. ring.
  - intros a b e IH Hs. apply nondecreasing_In in Hs as [Hab Hs]. apply nondecreasing_In in Hs as [_ Hs].
    specialize (Hab b ltac:(now left)). cbn [teeth_cover]. rewrite <- (overlap_add_r Hab Hl Hr), <- IH by assumption. ring.
Qed.
Lemma teeth_cover_ext e l l' r r' : Nat.even (length e) = true -> l == l' -> r == r' -> teeth_cover e l r == teeth_cover e l' r'.
Proof.
  intros He H1 H2. revert e He. apply even_ind; [reflexivity|]. intros a b e IH. cbn [teeth_cover]. rewrite IH.
  apply Qplus_comp; [|reflexivity]. now apply overlap_ext.
Qed.
Lemma teeth_cover_sum e n : Nat.even (length e) = true -> nondecreasing e ->
  sumn n (fun j => teeth_cover e (qnat j) (qnat j + 1)) == teeth_cover e 0 (qnat n).
Proof.
  intros He Hs. induction n as [|n IH]; simpl.
  - destruct (@teeth_cover_unit e 0 (qnat 0) He Hs) as [H1 H2]; [vm_compute; congruence|]. assert (qnat 0 - 0 == 0) as H by reflexivity. rewrite H in H2. lra.
  - rewrite IH, (@teeth_cover_ext e 0 0 (qnat (S n)) (qnat n + 1) He) by (try reflexivity; apply qnat_S).
    apply teeth_cover_add; try assumption; [apply qnat_nonneg|]. pose proof (qnat_nonneg n). lra.
Qed.
Lemma grating_range_pf e n inv z : (1 <= n)%nat -> wf (Grating e n inv) -> get_structure (Grating e n inv) = Ok z ->
  (forall j, (j < n)%nat -> 0 <= qn z j /\ qn z j <= 1) /\
  qsum z == (if inv then qnat n - teeth_cover e 0 (qnat n) else teeth_cover e 0 (qnat n)).
Proof.
  intros Hn Hw E. destruct (grating_structure_pf Hn Hw) as (z' & E' & L & N). rewrite E in E'. injection E' as <-. destruct Hw as [Hs He]. split.
  - intros j Hj. destruct (@teeth_cover_unit e (qnat j) (qnat j + 1) He Hs) as [H1 H2]; [lra|]. specialize (N j Hj). cbv zeta in N.
    set (c := teeth_cover e (qnat j) (qnat j + 1)) in *. clearbody c. rewrite N. destruct inv; lra.
  - rewrite qsum_sumn, L. rewrite (@sumn_ext n (qn z) _ N). cbv zeta. destruct inv.
    + rewrite <- teeth_cover_sum by assumption. clear. induction n as [|n IH]; [reflexivity|]. simpl. rewrite IH, qnat_S. ring.
    + now apply teeth_cover_sum.
Qed.
Lemma grating_inverted_pf e n z z' : (1 <= n)%nat -> wf (Grating e n false) ->
  get_structure (Grating e n false) = Ok z -> get_structure (Grating e n true) = Ok z' ->
  forall j, (j < n)%nat -> qn z j + qn z' j == 1.
Proof.
  intros Hn Hw E E' j Hj. destruct (@grating_structure_pf e n false Hn Hw) as (y & Ey & _ & N). destruct (@grating_structure_pf e n true Hn Hw) as (y' & Ey' & _ & N').
  rewrite E in Ey. injection Ey as <-. rewrite E' in Ey'. injection Ey' as <-. rewrite N, N' by assumption. cbv zeta. ring.
Qed.
(** no pixels: drawing any tooth fails *)
Lemma grating_no_pixels_pf e inv : wf (Grating e 0 inv) -> e <> [] -> get_structure (Grating e 0 inv) = Err ValueError.
Proof.
  intros [Hs He] Hne. cbn [get_structure]. unfold grating_structure. rewrite teeth_of_pairs by assumption. cbn [bind].
  destruct e as [|a [|b e]]; [congruence|discriminate|]. reflexivity.
Qed.

(** *** the Jacobian of a grating *)
Definition edge_dir (inv : bool) (i : nat) : Q :=
  let d := if Nat.eqb (Nat.modulo i 2) 0 then 1 else -(1) in if inv then - d else d.
Definition edge_coef (npix : nat) (inv : bool) (i : nat) (edge : Q) (k : nat) : Q :=
  if Qle_bool 0 edge && qlt edge (qnat npix) && Nat.eqb (Z.to_nat (Qfloor edge)) k then - edge_dir inv i else 0.
Lemma Qfloor_nonneg x : 0 <= x -> (0 <= Qfloor x)%Z.
Proof. intros H. replace 0%Z with (Qfloor 0) by reflexivity. now apply Qfloor_resp_le. Qed.
Lemma Qfloor_lt x n : 0 <= x -> x < qnat n -> (Z.to_nat (Qfloor x) < n)%nat.
Proof.
  intros H0 H. pose proof (Qfloor_nonneg H0). destruct (Qfloor_bounds x) as [F _]. unfold qnat in H.
  assert (inject_Z (Qfloor x) < inject_Z (Z.of_nat n)) as Hz by lra. rewrite <- Zlt_Qlt in Hz. lia.
Qed.
Lemma jac_vec_prod_pf npix inv : forall edges vec i acc k, length acc = npix -> (k < npix)%nat -> length vec = length edges ->
  qn (jac_vec_prod npix inv i edges vec acc) k == qn acc k + sumn (length edges) (fun j => edge_coef npix inv (i + j) (qn edges j) k * qn vec j).
Proof.
  induction edges as [|e edges IH]; intros [|x vec] i acc k La Hk Lv; try discriminate; cbn [jac_vec_prod].
  - simpl. ring.
  - cbv zeta. fold (edge_dir inv i). rewrite IH; [|destruct (Qle_bool 0 e && qlt e (qnat npix)); [now rewrite lset_length|assumption]|assumption|simpl in Lv; lia].
    assert (Hacc : qn (if Qle_bool 0 e && qlt e (qnat npix) then lset acc (Z.to_nat (Qfloor e)) (qn acc (Z.to_nat (Qfloor e)) - edge_dir inv i * x) else acc) k
      == qn acc k + edge_coef npix inv i e k * x).
    { unfold edge_coef. destruct (Qle_bool 0 e && qlt e (qnat npix)) eqn:E; cbn [andb]; [|ring].
      apply andb_true_iff in E as [E1 E2]. qhyps. assert (Z.to_nat (Qfloor e) < npix)%nat by now apply Qfloor_lt.
      unfold qn at 1. rewrite lset_nth by lia. rewrite Nat.eqb_sym. destruct (Nat.eqb_spec (Z.to_nat (Qfloor e)) k) as [->|]; [ring|]. fold (qn acc k). ring. }
    change (if inv then - (if Nat.eqb (i mod 2) 0 then 1 else - (1)) else if Nat.eqb (i mod 2) 0 then 1 else - (1)) with (edge_dir inv i).
    rewrite Hacc. clear Hacc.
    assert (Hsum : forall n f, sumn (S n) f == f 0%nat + sumn n (fun j => f (S j))).
    { clear. induction n as [|n IH]; intros f; [simpl; ring|]. change (sumn (S (S n)) f) with (sumn (S n) f + f (S n)). rewrite IH. simpl. ring. }
    cbn [length]. rewrite Hsum. cbn [qn nth]. rewrite Nat.add_0_r.
    rewrite <- Qplus_assoc. apply Qplus_comp; [reflexivity|]. apply Qplus_comp; [reflexivity|].
    apply sumn_ext. intros j Hj. replace (i + S j)%nat with (S i + j)%nat by lia. reflexivity.
Qed.
Lemma unit_vec_length n j : length (unit_vec n j) = n.
Proof. unfold unit_vec. now rewrite lset_length, repeat_length. Qed.
Lemma unit_vec_nth n j k : (j < n)%nat -> qn (unit_vec n j) k = if Nat.eqb k j then 1 else 0.
Proof. intros H. unfold unit_vec, qn. rewrite lset_nth by now rewrite repeat_length. now rewrite nth_repeat. Qed.
Lemma grating_jac_coef e npix inv i j : (i < npix)%nat -> (j < length e)%nat -> grating_jac e npix inv i j == edge_coef npix inv j (qn e j) i.
Proof.
  intros Hi Hj. unfold grating_jac. rewrite jac_vec_prod_pf; [|apply repeat_length|assumption|apply unit_vec_length].
  unfold qn at 1. rewrite nth_repeat.
  etransitivity; [apply Qplus_comp; [reflexivity|apply (@sumn_single (length e) j); [assumption|]]|].
  - intros k Hk Hne. cbv beta. rewrite unit_vec_nth by assumption. destruct (Nat.eqb_spec k j); [congruence|ring].
  - cbv beta. rewrite unit_vec_nth, Nat.eqb_refl by assumption. simpl. ring.
Qed.
Lemma lset_move_cover e : Nat.even (length e) = true -> forall j t l r, (j < length e)%nat -> 0 <= t -> l <= r -> nondecreasing e ->
  nondecreasing (lset e j (qn e j + t)) ->
  teeth_cover (lset e j (qn e j + t)) l r == teeth_cover e l r + (if Nat.even j then - overlap (qn e j) (qn e j + t) l r else overlap (qn e j) (qn e j + t) l r).
Proof.
  revert e. apply (even_ind (fun e => forall j t l r, (j < length e)%nat -> 0 <= t -> l <= r -> nondecreasing e ->
    nondecreasing (lset e j (qn e j + t)) ->
    teeth_cover (lset e j (qn e j + t)) l r == teeth_cover e l r + (if Nat.even j then - overlap (qn e j) (qn e j + t) l r else overlap (qn e j) (qn e j + t) l r))).
  - intros j t l r Hj. simpl in Hj. lia.
  - intros a b e IH j t l r Hj Ht Hlr Hs Hs'. apply nondecreasing_In in Hs as [Hab Hs]. apply nondecreasing_In in Hs as [_ Hs].
    specialize (Hab b ltac:(now left)). destruct j as [|[|j]].
    + cbn [lset qn nth] in *. cbn [teeth_cover Nat.even]. apply nondecreasing_In in Hs' as [Hab' _]. specialize (Hab' b ltac:(now left)). unfold qn in *. cbn [nth] in *.
      set (tc := teeth_cover e l r). clearbody tc. clear IH Hs. unfold overlap. qlra.
    + cbn [lset qn nth] in *. cbn [teeth_cover Nat.even]. unfold qn in *. cbn [nth] in *.
      set (tc := teeth_cover e l r). clearbody tc. clear IH Hs Hs'. unfold overlap. qlra.
    + change (qn (a :: b :: e) (S (S j))) with (qn e j) in *. cbn [lset] in *. cbn [teeth_cover]. change (Nat.even (S (S j))) with (Nat.even j).
      rewrite IH; [ring|simpl in Hj; lia|assumption|assumption|assumption|].
      apply nondecreasing_In in Hs' as [_ Hs']. now apply nondecreasing_In in Hs' as [_ Hs'].
Qed.
Lemma edge_step_overlap x t i npix : (i < npix)%nat -> 0 <= t -> x + t <= inject_Z (Qfloor x) + 1 ->
  overlap x (x + t) (qnat i) (qnat i + 1) == if Qle_bool 0 x && qlt x (qnat npix) && Nat.eqb (Z.to_nat (Qfloor x)) i then t else 0.
Proof.
  intros Hi Ht Hx. destruct (Qfloor_bounds x) as [F1 F2].
  destruct (Qle_bool 0 x) eqn:E1; qhyps; cbn [andb].
  - pose proof (Qfloor_nonneg E1) as Hf. assert (Hq : qnat (Z.to_nat (Qfloor x)) == inject_Z (Qfloor x)) by (unfold qnat; rewrite Z2Nat.id by assumption; reflexivity).
    destruct (qlt x (qnat npix)) eqn:E2; qhyps; cbn [andb].
    + destruct (Nat.eqb_spec (Z.to_nat (Qfloor x)) i) as [Hk|Hk].
      * rewrite Hk in Hq. rewrite <- Hq in *. set (u := qnat i) in *. clearbody u. clear - F1 F2 Hx Ht. unfold overlap. qlra.
      * rewrite <- Hq in *. destruct (lt_dec (Z.to_nat (Qfloor x)) i) as [Hlt|Hge].
        -- pose proof (qnat_lt Hlt) as Hl. set (u := qnat i) in *. set (w := qnat (Z.to_nat (Qfloor x))) in *. clearbody u w. clear - F1 F2 Hx Ht Hl. unfold overlap. qlra.
        -- pose proof (@qnat_lt i (Z.to_nat (Qfloor x)) ltac:(lia)) as Hl. set (u := qnat i) in *. set (w := qnat (Z.to_nat (Qfloor x))) in *. clearbody u w. clear - F1 F2 Hx Ht Hl. unfold overlap. qlra.
    + pose proof (qnat_lt Hi) as Hl. set (u := qnat i) in *. set (w := qnat npix) in *. clearbody u w. clear - E2 Ht Hl. unfold overlap. qlra.
  - assert (Qfloor x < 0)%Z as Hf. { rewrite Zlt_Qlt. change (inject_Z 0) with 0. lra. }
    assert (inject_Z (Qfloor x) + 1 <= 0) as Hz. { change 1 with (inject_Z 1). rewrite <- inject_Z_plus. change 0 with (inject_Z 0). rewrite <- Zle_Qle. lia. }
    pose proof (qnat_nonneg i). set (u := qnat i) in *. clearbody u. clear - Hz H Hx Ht. unfold overlap. qlra.
Qed.
Lemma even_mod2 j : Nat.eqb (j mod 2) 0 = Nat.even j.
Proof.
  destruct (Nat.even j) eqn:E.
  - apply Nat.even_spec in E as [k ->]. rewrite Nat.mul_comm, Nat.mod_mul by lia. reflexivity.
  - assert (Nat.odd j = true) as Ho by (rewrite <- Nat.negb_even, E; reflexivity). apply Nat.odd_spec in Ho as [k ->].
    replace (2 * k + 1)%nat with (1 + k * 2)%nat by lia. rewrite Nat.mod_add by lia. reflexivity.
Qed.
Lemma grating_derivative_pf e npix inv j t i z z' : (i < npix)%nat -> (j < length e)%nat -> 0 <= t ->
  wf (Grating e npix inv) -> nondecreasing (lset e j (qn e j + t)) -> qn e j + t <= inject_Z (Qfloor (qn e j)) + 1 ->
  get_structure (Grating e npix inv) = Ok z -> get_structure (Grating (lset e j (qn e j + t)) npix inv) = Ok z' ->
  qn z' i - qn z i == t * grating_jac e npix inv i j.
Proof.
  intros Hi Hj Ht Hw Hs' Hfl E E'. rewrite grating_jac_coef by assumption.
  assert (Hw' : wf (Grating (lset e j (qn e j + t)) npix inv)) by (simpl; rewrite lset_length; simpl in Hw; tauto).
  destruct (@grating_structure_pf e npix inv ltac:(lia) Hw) as (y & Ey & _ & N). rewrite E in Ey. injection Ey as <-.
  destruct (@grating_structure_pf _ npix inv ltac:(lia) Hw') as (y' & Ey' & _ & N'). rewrite E' in Ey'. injection Ey' as <-.
  rewrite N, N' by assumption. cbv zeta. destruct Hw as [Hs He].
  pose proof (@lset_move_cover e He j t (qnat i) (qnat i + 1) Hj Ht ltac:(lra) Hs Hs') as HM.
  pose proof (@edge_step_overlap (qn e j) t i npix Hi Ht Hfl) as HO. unfold edge_coef, edge_dir. rewrite even_mod2.
  set (tc' := teeth_cover (lset _ _ _) _ _) in *. set (tc := teeth_cover e _ _) in *. set (ov := overlap _ _ _ _) in *. clearbody tc tc' ov.
  destruct (Qle_bool 0 (qn e j) && qlt (qn e j) (qnat npix) && Nat.eqb (Z.to_nat (Qfloor (qn e j))) i), inv, (Nat.even j); rewrite HM, HO; ring.
Qed.

(** *** the Jacobian of a composite acts on each component separately *)
Fixpoint zip_apply (ps : list param) (vs : list (list Q)) : res (list (list Q)) :=
  match ps, vs with
  | p :: ps', x :: vs' => bind (jac_apply p x) (fun y => bind (zip_apply ps' vs') (fun ys => Ok (y :: ys)))
  | _, _ => Ok []
  end.
Lemma composite_jac_pf ps sz es vs ys : wf (Composite ps sz es) -> map (@length Q) vs = map psize ps ->
  Forall2 (fun pv y => jac_apply (fst pv) (snd pv) = Ok y) (combine ps vs) ys ->
  jac_apply (Composite ps sz es) (concat vs) = Ok (concat ys).
Proof.
  intros (Hne & -> & -> & Hw) L H. cbn [jac_apply]. rewrite split_concat; [|assumption|intros ->; destruct ps; [congruence|discriminate]].
  assert (length (concat vs) = list_sum (map psize ps)) as ->.
  { rewrite <- L. clear. induction vs as [|v vs IH]; [reflexivity|]. simpl. rewrite app_length, IH. reflexivity. }
  rewrite Nat.eqb_refl. change (bind (zip_apply ps vs) hstack = Ok (concat ys)).
  assert (zip_apply ps vs = Ok ys) as ->.
  { clear Hne Hw. revert vs ys L H. induction ps as [|p ps IH]; intros [|v vs] ys L H; try discriminate; simpl in H.
    - inversion H. reflexivity.
    - inversion H as [|? y ? ys' Hy Hys]; subst. simpl in Hy |- *. rewrite Hy. cbn [bind]. rewrite (IH vs ys'); [reflexivity| |assumption]. now injection L. }
  cbn [bind]. apply hstack_ok. destruct ps; [congruence|]. destruct vs; [discriminate|]. simpl in H. inversion H. discriminate.
Qed.
Lemma composite_structure_pf ps sz es zs : ps <> [] -> Forall2 (fun p z => get_structure p = Ok z) ps zs ->
  get_structure (Composite ps sz es) = Ok (concat zs).
Proof.
  intros Hne H. cbn [get_structure]. apply mapR_Forall2 in H as H'. rewrite H'. cbn [bind]. apply hstack_ok. intros ->. inversion H. congruence.
Qed.

(** *** slack *)
Lemma slack_bounds_tuple_pf v lo hi n s : wf (Slack (Direct v (KTuple, lo) (KTuple, hi)) n s) ->
  get_bounds (Slack (Direct v (KTuple, lo) (KTuple, hi)) n s) = Ok (Some ((KTuple, lo ++ repeat (Some 0) n), (KTuple, hi ++ repeat None n))).
Proof. reflexivity. Qed.
Lemma mapR_first_err {A B} (f : A -> res B) l x : In x l -> is_ok (f x) = false -> is_ok (mapR f l) = false.
Proof.
  induction l as [|y l IH]; intros H E; [destruct H|]. destruct H as [<-|H]; simpl.
  - destruct (f y); [discriminate|reflexivity].
  - destruct (f y); [|reflexivity]. cbn [bind]. specialize (IH H E). destruct (mapR f l); [discriminate|reflexivity].
Qed.
Lemma plus_tuple_none_err l n : (1 <= n)%nat -> (1 <= length l)%nat -> is_ok (plus_tuple (KArray, l) n None) = false.
Proof.
  intros Hn Hl. unfold plus_tuple. cbn [fst snd]. destruct (bcast_len (length l) n) as [m|] eqn:E; [|reflexivity]. cbn [bind].
  assert (1 <= m)%nat as Hm.
  { unfold bcast_len in E. destruct (Nat.eqb_spec (length l) n); [injection E as <-; lia|]. destruct (Nat.eqb_spec (length l) 1); [injection E as <-; lia|].
    destruct (Nat.eqb_spec n 1); [injection E as <-; lia|discriminate]. }
  set (f := fun i => _). assert (is_ok (mapR f (seq 0 m)) = false) as H.
  { apply (@mapR_first_err _ _ f _ 0%nat); [apply in_seq; lia|]. unfold f. destruct (bcast_nth l None 0); reflexivity. }
  destruct (mapR f (seq 0 m)); [discriminate|reflexivity].
Qed.
Lemma slack_bounds_composite_pf ps sz es n s : wf (Composite ps sz es) -> slack_free (Composite ps sz es) -> (1 <= psize (Composite ps sz es))%nat -> (1 <= n)%nat ->
  is_ok (get_bounds (Slack (Composite ps sz es) n s)) = false.
Proof.
  intros Hw Hf Hp Hn. destruct (get_bounds_ok_pf _ Hw Hf) as (b & E & L1 & L2 & _).
  assert (exists lo hi, b = Some ((KArray, lo), (KArray, hi))) as (lo & hi & ->).
  { cbn [get_bounds] in E. destruct (mapR get_bounds ps); [|discriminate]. cbn [bind] in E.
    destruct (hstack (map fst _)) as [lo|]; [|discriminate]. cbn [bind] in E. destruct (hstack (map snd _)) as [hi|]; [|discriminate]. injection E as <-. eauto. }
  cbn [get_bounds] in E |- *. rewrite E. cbn [bind fst snd]. cbn [eff_bounds fst snd] in L1, L2.
  destruct (plus_tuple (KArray, lo) n (Some 0)); [|reflexivity]. cbn [bind].
  pose proof (@plus_tuple_none_err hi n Hn ltac:(lia)) as H. destruct (plus_tuple (KArray, hi) n None); [discriminate|reflexivity].
Qed.

Lemma combine_seq_In {A} (l : list A) i x : forall k, In (i, x) (combine (seq k (length l)) l) <-> (k <= i)%nat /\ nth_error l (i - k) = Some x.
Proof.
  induction l as [|a l IH]; intros k; simpl.
  - split; [intros []|]. intros [_ H]. destruct (i - k)%nat; discriminate.
  - rewrite IH. split.
    + intros [H|[H1 H2]]; [injection H as -> ->; split; [lia|now rewrite Nat.sub_diag]|]. split; [lia|]. replace (i - k)%nat with (S (i - S k)) by lia. assumption.
    + intros [H1 H2]. destruct (Nat.eq_dec i k) as [->|Hne]; [left; rewrite Nat.sub_diag in H2; injection H2 as ->; reflexivity|].
      right. split; [lia|]. replace (i - k)%nat with (S (i - S k)) in H2 by lia. assumption.
Qed.
(** value of the constraints of the slack problem *)
Lemma slack_cons_In pr f : In f (cons_eq (slack_problem pr)) <->
  (exists g, In g (cons_eq pr) /\ f = slack_remover g (length (cons_ineq pr))) \/
  (exists i g, nth_error (cons_ineq pr) i = Some g /\ f = ofun_add (slack_remover g (length (cons_ineq pr))) (slack_variable (length (cons_ineq pr)) i)).
Proof.
  simpl. rewrite in_app_iff, !in_map_iff. split.
  - intros [(g & <- & Hg)|([i g] & <- & Hg)]; [left; eauto|]. right. apply combine_seq_In in Hg as [_ Hg]. rewrite Nat.sub_0_r in Hg. eauto.
  - intros [(g & Hg & ->)|(i & g & Hg & ->)]; [left; eauto|]. right. exists (i, g). split; [reflexivity|]. apply combine_seq_In. split; [lia|now rewrite Nat.sub_0_r].
Qed.
Lemma slack_feasible_iff_pf pr p s : length s = length (cons_ineq pr) -> (forall i, (i < length s)%nat -> 0 <= qn s i) ->
  feasible (slack_problem pr) (Slack p (length s) s) -> feasible pr p.
Proof.
  intros L Hpos [H _]. split.
  - intros f Hf. destruct (H (slack_remover f (length (cons_ineq pr)))) as (x & Ex & Hx); [apply slack_cons_In; left; eauto|].
    exists x. split; [exact Ex|assumption].
  - intros f Hf. apply In_nth_error in Hf as [i Hi].
    destruct (H (ofun_add (slack_remover f (length (cons_ineq pr))) (slack_variable (length (cons_ineq pr)) i))) as (x & Ex & Hx).
    { apply slack_cons_In. right. eauto. }
    assert (Hil : (i < length s)%nat) by (rewrite L; apply nth_error_Some; congruence).
    cbn [ofun_add slack_remover slack_variable value get_param bind get_slack_variable] in Ex. destruct (value f p) as [h|] eqn:Eh; [|discriminate].
    cbn [bind] in Ex. apply Nat.ltb_lt in Hil as Hil'. rewrite Hil' in Ex. injection Ex as <-. exists h. split; [assumption|].
    specialize (Hpos i Hil). lra.
Qed.
Lemma slack_feasible_exists_pf pr p : feasible pr p ->
  exists s, length s = length (cons_ineq pr) /\ (forall i, (i < length s)%nat -> 0 <= qn s i) /\ feasible (slack_problem pr) (Slack p (length s) s).
Proof.
  intros [H1 H2]. set (hv f := match value f p with Ok x => - x | Err _ => 0 end).
  exists (map hv (cons_ineq pr)). rewrite map_length. split; [reflexivity|].
  assert (Hn : forall i f, nth_error (cons_ineq pr) i = Some f -> qn (map hv (cons_ineq pr)) i = hv f).
  { intros i f Hi. unfold qn. apply nth_error_nth. now rewrite nth_error_map, Hi. }
  split.
  - intros i Hi. destruct (nth_error (cons_ineq pr) i) as [f|] eqn:Ei; [|apply nth_error_None in Ei; lia]. rewrite (Hn i f Ei).
    destruct (H2 f) as (x & Ex & Hx); [now apply nth_error_In in Ei|]. unfold hv. rewrite Ex. lra.
  - split; [|intros f []]. intros f Hf. apply slack_cons_In in Hf as [(g & Hg & ->)|(i & g & Hg & ->)].
    + destruct (H1 g Hg) as (x & Ex & Hx). exists x. split; assumption.
    + destruct (H2 g) as (x & Ex & Hx); [now apply nth_error_In in Hg|]. exists (x + - x). split; [|ring].
      cbn [ofun_add slack_remover slack_variable value get_param bind get_slack_variable]. rewrite Ex. cbn [bind]. rewrite map_length.
      assert (Hil : (i < length (cons_ineq pr))%nat) by (apply nth_error_Some; congruence). apply Nat.ltb_lt in Hil. rewrite Hil. cbn [bind].
      rewrite (Hn i g Hg). unfold hv. now rewrite Ex.
Qed.
Lemma slack_equivalent_pf pr v : (exists p, feasible pr p /\ value (objective pr) p = Ok v) <->
  (exists p s, length s = length (cons_ineq pr) /\ (forall i, (i < length s)%nat -> 0 <= qn s i) /\
     feasible (slack_problem pr) (Slack p (length s) s) /\ value (objective (slack_problem pr)) (Slack p (length s) s) = Ok v).
Proof.
  split.
  - intros (p & F & E). destruct (slack_feasible_exists_pf F) as (s & L & P & F'). exists p, s. repeat split; try assumption; apply F'.
  - intros (p & s & L & P & F & E). exists p. split; [now apply (@slack_feasible_iff_pf pr p s L P)|exact E].
Qed.
Lemma slack_gradient_pf pr i g p s gr : nth_error (cons_ineq pr) i = Some g -> wf p -> length s = length (cons_ineq pr) ->
  gradient g p = Ok gr -> length gr = psize p ->
  exists f gr', In f (cons_eq (slack_problem pr)) /\ gradient f (Slack p (length s) s) = Ok gr' /\ length gr' = (psize p + length s)%nat /\
    (forall x, value f (Slack p (length s) s) = Ok x <-> exists h, value g p = Ok h /\ x = h + qn s i) /\
    (forall k, (k < psize p)%nat -> qn gr' k == qn gr k) /\
    (forall k, (k < length s)%nat -> qn gr' (psize p + k) == if Nat.eqb k i then 1 else 0).
Proof.
  intros Hg Hw L Eg Lg. set (n := length (cons_ineq pr)) in *. assert (Hi : (i < n)%nat) by (apply nth_error_Some; unfold n in *; congruence).
  exists (ofun_add (slack_remover g n) (slack_variable n i)).
  destruct (encode_ok p Hw) as (v & Ev & Lv).
  assert (Egr : gradient (ofun_add (slack_remover g n) (slack_variable n i)) (Slack p (length s) s) =
    Ok (vadd (gr ++ repeat 0 n) (lset (repeat 0 (psize p + n)) (psize p + i) 1))).
  { cbn [ofun_add slack_remover slack_variable gradient get_param bind to_vector encode]. rewrite Eg. cbn [bind]. rewrite Ev. cbn [bind].
    unfold set_from_end. apply Nat.ltb_lt in Hi as Hi'. rewrite Hi'. rewrite repeat_length, app_length, Lv, L.
    assert (Nat.leb (n - i) (psize p + n) = true) as -> by (apply Nat.leb_le; lia). cbn [bind]. do 2 f_equal. f_equal. lia. }
  eexists. split; [apply slack_cons_In; right; exists i, g; split; [assumption|reflexivity]|]. split; [exact Egr|].
  split; [rewrite vadd_length, app_length, repeat_length; lia|]. split; [|split].
  - intros x. cbn [ofun_add slack_remover slack_variable value get_param bind get_slack_variable]. destruct (value g p) as [h|]; cbn [bind].
    + assert (Nat.ltb i (length s) = true) as -> by (apply Nat.ltb_lt; lia). cbn [bind]. split; [intros H; injection H as <-; eauto|]. intros (h' & E & ->). injection E as <-. reflexivity.
    + split; [discriminate|intros (h & E & _); discriminate].
  - intros k Hk. rewrite vadd_nth by (rewrite app_length, repeat_length; lia). rewrite app_qn, Lg. assert (Nat.ltb k (psize p) = true) as -> by now apply Nat.ltb_lt.
    unfold qn at 2. rewrite lset_nth by (rewrite repeat_length; lia). rewrite nth_repeat. destruct (Nat.eqb_spec k (psize p + i)); [lia|ring].
  - intros k Hk. rewrite vadd_nth by (rewrite app_length, repeat_length; lia). rewrite app_qn, Lg. assert (Nat.ltb (psize p + k) (psize p) = false) as -> by (apply Nat.ltb_ge; lia).
    unfold qn. rewrite lset_nth by (rewrite repeat_length; lia). rewrite !nth_repeat. destruct (Nat.eqb_spec (psize p + k) (psize p + i)), (Nat.eqb_spec k i); try lia; ring.
Qed.

(** *** bounds of a composite are listed component after component *)
Lemma composite_bounds_pf ps sz es bs : wf (Composite ps sz es) -> Forall2 (fun p b => get_bounds p = Ok b) ps bs ->
  let parts := map (fun pb => eff_bounds (psize (fst pb)) (snd pb)) (combine ps bs) in
  get_bounds (Composite ps sz es) = Ok (Some ((KArray, concat (map fst parts)), (KArray, concat (map snd parts)))).
Proof.
  intros (Hne & -> & -> & _) H. cbn [get_bounds]. apply mapR_Forall2 in H as E. rewrite E. cbn [bind]. cbv zeta.
  match goal with |- context [map ?g (combine bs _)] => set (f := g) end.
  assert (map f (combine bs (map psize ps)) = map (fun pb => eff_bounds (psize (fst pb)) (snd pb)) (combine ps bs)) as ->.
  { clear. revert bs. induction ps as [|p ps IH]; intros [|b bs]; try reflexivity. simpl. rewrite IH. destruct b as [[lo hi]|]; reflexivity. }
  assert (combine ps bs <> []) as Hc. { inversion H; subst; [congruence|discriminate]. }
  rewrite !hstack_ok; [reflexivity|..]; destruct (combine ps bs); try congruence; discriminate.
Qed.
(** projection of a direct parametrization *)
Lemma direct_project_pf v lo hi : wf (Direct v lo hi) -> bounds_consistent (Direct v lo hi) ->
  exists v', project (Direct v lo hi) = Ok (Direct v' lo hi) /\ length v' = length v /\
  (forall i, (i < length v)%nat -> above (on (snd lo) i) (qn v' i) /\ below (qn v' i) (on (snd hi) i)) /\
  (forall i, (i < length v)%nat -> above (on (snd lo) i) (qn v i) -> below (qn v i) (on (snd hi) i) -> qn v' i = qn v i) /\
  (forall i y, (i < length v)%nat -> above (on (snd lo) i) y -> below y (on (snd hi) i) -> Qabs (qn v' i - qn v i) <= Qabs (y - qn v i)) /\
  project (Direct v' lo hi) = Ok (Direct v' lo hi).
Proof.
  intros [L1 L2] C. destruct (@clip_pf v (snd lo) (snd hi) L1 L2) as (v' & E & L & N).
  assert (Ep : project (Direct v lo hi) = Ok (Direct v' lo hi)) by (cbn [project]; now rewrite E).
  exists v'. split; [assumption|]. split; [assumption|]. split; [|split; [|split]].
  - intros i Hi. rewrite N by assumption. apply clip1_within, C.
  - intros i Hi Ha Hb. rewrite N by assumption. now apply clip1_id.
  - intros i y Hi Ha Hb. rewrite N by assumption. set (c := clip1 _ _ _).
    destruct (@clip1_nearest (qn v i) _ _ y Ha Hb) as [[H1 H2]|[[H1 H2]|H1]]; fold c in H1; try fold c in H2; clearbody c;
      apply Qabs_case; intros; apply Qabs_case; intros; lra.
  - apply (project_idem_pf (Direct v lo hi)); [split; assumption|assumption..].
Qed.
