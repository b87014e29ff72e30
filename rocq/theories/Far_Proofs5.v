(** Far fields: the six sides of a box *)
From Coq Require Import Reals List ZArith Lra.
From Verif Require Import Base CField CField_Proofs GMath_Model GMath_Proofs CplxField Maxwell_Model Maxwell_Spec Maxwell_Proofs Maxwell_Proofs2 Maxwell_Proofs3 Wg_Model Wg_Model2 Wg_Spec Fs_Model Ov_Model Ov_Spec Ov_Proofs Ov_Proofs2 Ov_Proofs3 Far_Model Far_Spec Far_Proofs Far_Proofs2 Far_Proofs3 Far_Proofs4.
From Verif Require Ff_Model.
Set Implicit Arguments.
Local Open Scope K_scope.

Section Sides.
Definition low_end (axis : nat) (l u : nat -> nat) (a : nat) : nat := if Nat.eqb a axis then l a else u a.
Definition high_first (axis : nat) (l u : nat -> nat) (a : nat) : nat := if Nat.eqb a axis then u a else l a.
Lemma before_pick l u axis x y z : (axis < 3)%nat ->
  before l u axis x y z = true <-> (forall a, (a < 3)%nat -> a <> axis -> (l a <= pick a x y z < u a)%nat) /\ (l axis < pick axis x y z <= u axis)%nat.
Proof.
  intros Ha. ax3 axis; cbn [before pick].
  - destruct x as [|x]; [split; [discriminate|intros [_ H]; lia]|]. rewrite block_pick. split.
    + intros H. split; [intros a Hl Hn; specialize (H a Hl); ax3 a; cbn [pick] in *; [congruence|lia|lia]|]. specialize (H 0%nat ltac:(lia)). cbn [pick] in H. lia.
    + intros [H H0] a Hl. destruct (Nat.eq_dec a 0) as [->|Hn]; [cbn [pick]; lia|]. specialize (H a Hl Hn). ax3 a; cbn [pick] in *; [congruence|lia|lia].
  - destruct y as [|y]; [split; [discriminate|intros [_ H]; lia]|]. rewrite block_pick. split.
    + intros H. split; [intros a Hl Hn; specialize (H a Hl); ax3 a; cbn [pick] in *; [lia|congruence|lia]|]. specialize (H 1%nat ltac:(lia)). cbn [pick] in H. lia.
    + intros [H H0] a Hl. destruct (Nat.eq_dec a 1) as [->|Hn]; [cbn [pick]; lia|]. specialize (H a Hl Hn). ax3 a; cbn [pick] in *; [lia|congruence|lia].
  - destruct z as [|z]; [split; [discriminate|intros [_ H]; lia]|]. rewrite block_pick. split.
    + intros H. split; [intros a Hl Hn; specialize (H a Hl); ax3 a; cbn [pick] in *; [lia|lia|congruence]|]. specialize (H 2%nat ltac:(lia)). cbn [pick] in H. lia.
    + intros [H H0] a Hl. destruct (Nat.eq_dec a 2) as [->|Hn]; [cbn [pick]; lia|]. specialize (H a Hl Hn). ax3 a; cbn [pick] in *; [lia|lia|congruence].
Qed.
Lemma low_side l u axis x y z : (axis < 3)%nat -> (l axis < u axis)%nat -> block l (thick axis (low_end axis l u)) x y z = block l u x y z && negb (before l u axis x y z).
Proof.
  intros Ha Hl. apply Bool.eq_true_iff_eq. rewrite andb_true_iff, negb_true_iff, <- not_true_iff_false, before_pick, !block_pick by auto. unfold thick, low_end. split.
  - intros H. split.
    + intros a A. specialize (H a A). destruct (Nat.eqb_spec a axis) as [Ea|]; [rewrite Ea in *|]; lia.
    + intros [_ B]. specialize (H axis Ha). rewrite Nat.eqb_refl in H. lia.
  - intros [H B] a A. pose proof (H a A). destruct (Nat.eqb_spec a axis) as [Ea|]; [rewrite Ea in *|]; [|lia]. split; [lia|]. destruct (Nat.lt_ge_cases (l axis) (pick axis x y z)) as [C|C]; [|lia].
    exfalso. apply B. split; [auto|lia].
Qed.
Lemma high_side l u axis x y z : (axis < 3)%nat -> (l axis < u axis)%nat -> block (high_first axis l u) (thick axis u) x y z = before l u axis x y z && negb (block l u x y z).
Proof.
  intros Ha Hl. apply Bool.eq_true_iff_eq. rewrite andb_true_iff, negb_true_iff, <- not_true_iff_false, before_pick, !block_pick by auto. unfold thick, high_first. split.
  - intros H. split; [split|].
    + intros a A Hn. specialize (H a A). destruct (Nat.eqb_spec a axis); [contradiction|lia].
    + specialize (H axis Ha). rewrite Nat.eqb_refl in H. lia.
    + intros B. specialize (H axis Ha). specialize (B axis Ha). rewrite Nat.eqb_refl in H. lia.
  - intros [[H H0] B] a A. destruct (Nat.eqb_spec a axis) as [->|Hn]; [|now apply H]. split; [|lia]. destruct (Nat.lt_ge_cases (pick axis x y z) (u axis)) as [C|C]; [|lia].
    exfalso. apply B. intros b Hb. destruct (Nat.eq_dec b axis) as [->|Hne]; [lia|now apply H].
Qed.
End Sides.

Section Box.
Add Field CCf6 : (k_field CC).
Variable g : grid CC.
Variable xyz : nat -> nat -> R.
Local Notation N := (vlen g).
Lemma contribution_scale omega mu p axis s E c x y z : contribution g xyz omega mu p axis s E c x y z = rl (IZR s) * contribution g xyz omega mu p axis 1 E c x y z.
Proof.
  unfold contribution. cbv zeta.
  assert (C : forall V r, cross_product (fun a => if Nat.eqb a axis then rl (IZR s) else (0 : CC)) V r = rl (IZR s) * cross_product (fun a => if Nat.eqb a axis then rl (IZR 1) else (0 : CC)) V r).
  { intros V r. rewrite <- cross_scale_l. apply cross_ext; [|reflexivity]. intros a _. destruct (Nat.eqb a axis); [change (rl (IZR 1)) with (1 : CC); ring|ring]. }
  rewrite C. rewrite (@cross_ext (fun a => rl (coordinate p a)) (fun a => rl (coordinate p a)) _ (fun a => rl (IZR s) * cross_product (fun a => if Nat.eqb a axis then rl (IZR 1) else (0 : CC)) (fun a0 => e_there g axis E a0 x y z) a)) by auto.
  rewrite cross_scale_r. ring.
Qed.
Lemma side_sum omega p E c l u axis : (axis < 3)%nat -> (l axis < u axis)%nat ->
  plane_field g xyz omega 1 axis (-1) (block l (thick axis (low_end axis l u))) p E c + plane_field g xyz omega 1 axis 1 (block (high_first axis l u) (thick axis u)) p E c
  = prefactor omega * grid_sum g (fun x y z => contribution g xyz omega 1 p axis (outward l u axis x y z) E c x y z).
Proof.
  intros Ha Hl. unfold plane_field.
  assert (GA : forall f f' : array CC, grid_sum g f + grid_sum g f' = grid_sum g (fun x y z => f x y z + f' x y z)).
  { intros f f'. unfold grid_sum. rewrite <- fsum_add. apply fsum_ext. intros x _. rewrite <- fsum_add. apply fsum_ext. intros y _. now rewrite <- fsum_add. }
  transitivity (prefactor omega * (grid_sum g (fun x y z => if block l (thick axis (low_end axis l u)) x y z then contribution g xyz omega 1 p axis (-1) E c x y z else 0)
     + grid_sum g (fun x y z => if block (high_first axis l u) (thick axis u) x y z then contribution g xyz omega 1 p axis 1 E c x y z else 0))); [ring|]. f_equal. rewrite GA.
  apply grid_sum_ext. intros x y z _. rewrite low_side, high_side by auto. rewrite (contribution_scale _ _ _ _ (-1)), (contribution_scale _ _ _ _ (outward l u axis x y z)). unfold outward.
  destruct (before l u axis x y z), (block l u x y z); cbn [andb negb Z.sub Z.add Z.opp Z.pos_sub].
  - change (rl (IZR 0)) with (0 : CC). ring.
  - change (rl (IZR 1)) with (1 : CC). ring.
  - ring.
  - change (rl (IZR 0)) with (0 : CC). ring.
Qed.
Lemma projects_add pts T T' far far' : projects g pts T far -> projects g pts T' far' -> projects g pts (madd T T') (fun p E c => far p E c + far' p E c).
Proof.
  intros H H' E k p Hk. destruct (H E k p Hk) as (A & B & D). destruct (H' E k p Hk) as (A' & B' & D'). cbv zeta.
  assert (R : forall i, row_of g (madd T T') E i = row_of g T E i + row_of g T' E i) by (intros i; unfold row_of, madd; rewrite <- fsum_add; apply fsum_ext; intros; ring).
  rewrite !R, A, B, D, A', B', D'. split; [ring|]. split; [symmetry; apply along_theta_add|symmetry; apply along_phi_add].
Qed.
Lemma projects_ext pts T far far' : (forall p E c, (c < 3)%nat -> far p E c = far' p E c) -> projects g pts T far -> projects g pts T far'.
Proof.
  intros H HP E k p Hk. destruct (HP E k p Hk) as (A & B & D). cbv zeta. split; [exact A|]. split; [rewrite B; now apply along_theta_ext; intros; apply H|rewrite D; now apply along_phi_ext; intros; apply H].
Qed.
Definition box_cells (center size : nat -> R) (l u : nat -> nat) : Prop := forall a, (a < 3)%nat ->
  nearest (xyz a) (dim g a) (center a - size a / 2) (l a) /\ nearest (xyz a) (dim g a) (center a + size a / 2) (u a).
Lemma low_faces center size l u axis : (axis < 3)%nat -> box_cells center size l u -> faces g xyz (side_pos center size axis (-1)) (side_width size axis) l (low_end axis l u).
Proof.
  intros Ha H a Hl. destruct (H a Hl) as [H1 H2]. unfold side_pos, side_width, low_end. destruct (Nat.eqb_spec a axis) as [->|Hn].
  - replace (center axis + -1 * (size axis / 2) - 0 / 2)%R with (center axis - size axis / 2)%R by field. replace (center axis + -1 * (size axis / 2) + 0 / 2)%R with (center axis - size axis / 2)%R by field. auto.
  - rewrite Rplus_0_r. auto.
Qed.
Lemma high_faces center size l u axis : (axis < 3)%nat -> box_cells center size l u -> faces g xyz (side_pos center size axis 1) (side_width size axis) (high_first axis l u) u.
Proof.
  intros Ha H a Hl. destruct (H a Hl) as [H1 H2]. unfold side_pos, side_width, high_first. destruct (Nat.eqb_spec a axis) as [->|Hn].
  - replace (center axis + 1 * (size axis / 2) - 0 / 2)%R with (center axis + size axis / 2)%R by field. replace (center axis + 1 * (size axis / 2) + 0 / 2)%R with (center axis + size axis / 2)%R by field. auto.
  - rewrite Rplus_0_r. auto.
Qed.
Lemma box_lemma pts omega center size eps0 mu0 l u :
  (forall a, (a < 3)%nat -> size a <> 0%R) -> omega <> 0%R -> eps0 <> 0%R -> (2 <= length pts)%nat -> (forall p, In p pts -> Ff_Model.norm p <> 0%R) -> box_cells center size l u ->
  (forall a, (a < 3)%nat -> (l a < u a)%nat) -> (forall axis, (axis < 3)%nat -> exists a, (a < 3)%nat /\ a <> axis /\ (S (l a) < u a)%nat) ->
  exists T, make_near2farfield_box_matrix g xyz pts omega center size eps0 mu0 2 = Ok T /\ projects g pts T (surface_field g xyz omega 1 l u).
Proof.
  intros Hs Ho He H2 Hn HB Hlt Htwo.
  assert (LOW : forall axis, (axis < 3)%nat -> exists T, make_near2farfield_matrix g xyz pts omega (side_pos center size axis (-1)) (side_width size axis) (-1) eps0 1 2 = Ok T /\
     projects g pts T (plane_field g xyz omega 1 axis (-1) (block l (thick axis (low_end axis l u))))).
  { intros axis Ha. apply plane_lemma; auto.
    - unfold side_width. now rewrite Nat.eqb_refl.
    - intros a A. unfold side_width. destruct (Nat.eqb_spec a axis); [lia|]. apply Hs. lia.
    - now apply low_faces.
    - intros a A B. unfold low_end. destruct (Nat.eqb_spec a axis); [contradiction|auto].
    - destruct (Htwo axis Ha) as (a & A & B & D). exists a. unfold low_end. destruct (Nat.eqb_spec a axis); [contradiction|auto]. }
  assert (HIGH : forall axis, (axis < 3)%nat -> exists T, make_near2farfield_matrix g xyz pts omega (side_pos center size axis 1) (side_width size axis) 1 eps0 1 2 = Ok T /\
     projects g pts T (plane_field g xyz omega 1 axis 1 (block (high_first axis l u) (thick axis u)))).
  { intros axis Ha. apply plane_lemma; auto.
    - unfold side_width. now rewrite Nat.eqb_refl.
    - intros a A. unfold side_width. destruct (Nat.eqb_spec a axis); [lia|]. apply Hs. lia.
    - now apply high_faces.
    - intros a A B. unfold high_first. destruct (Nat.eqb_spec a axis); [contradiction|auto].
    - destruct (Htwo axis Ha) as (a & A & B & D). exists a. unfold high_first. destruct (Nat.eqb_spec a axis); [contradiction|auto]. }
  destruct (LOW 0%nat ltac:(lia)) as (x0 & E0 & P0). destruct (HIGH 0%nat ltac:(lia)) as (x1 & E1 & P1).
  destruct (LOW 1%nat ltac:(lia)) as (y0 & E2 & P2). destruct (HIGH 1%nat ltac:(lia)) as (y1 & E3 & P3).
  destruct (LOW 2%nat ltac:(lia)) as (z0 & E4 & P4). destruct (HIGH 2%nat ltac:(lia)) as (z1 & E5 & P5).
  unfold make_near2farfield_box_matrix. rewrite E0. cbn [bind]. rewrite E1. cbn [bind]. rewrite E2. cbn [bind]. rewrite E3. cbn [bind]. rewrite E4. cbn [bind]. rewrite E5. cbn [bind].
  eexists. split; [reflexivity|].
  eapply projects_ext; [|exact (projects_add (projects_add (projects_add (projects_add (projects_add P0 P1) P2) P3) P4) P5)].
  intros p E c Hc. cbv beta. unfold surface_field. cbn [fsum].
  pose proof (side_sum omega p E c l u (axis := 0)) as S0. pose proof (side_sum omega p E c l u (axis := 1)) as S1. pose proof (side_sum omega p E c l u (axis := 2)) as S2.
  rewrite S0 by auto. 
  transitivity (prefactor omega * grid_sum g (fun x y z => contribution g xyz omega 1 p 0 (outward l u 0 x y z) E c x y z)
    + (plane_field g xyz omega 1 1 (-1) (block l (thick 1 (low_end 1 l u))) p E c + plane_field g xyz omega 1 1 1 (block (high_first 1 l u) (thick 1 u)) p E c)
    + (plane_field g xyz omega 1 2 (-1) (block l (thick 2 (low_end 2 l u))) p E c + plane_field g xyz omega 1 2 1 (block (high_first 2 l u) (thick 2 u)) p E c)); [ring|].
  rewrite S1, S2 by auto. ring.
Qed.
End Box.
