(** C156-C157: projection of near fields to the far field. *)
From Coq Require Import Reals List ZArith Lra.
From Verif Require Import Base CField GMath_Model CplxField Maxwell_Model Wg_Model Wg_Model2 Ov_Spec Far_Model Far_Spec Far_Proofs4 Far_Proofs5.
From Verif Require Ff_Model.
Set Implicit Arguments.
Local Open Scope R_scope.

(** C156.  A plane across [axis], the first axis along which the width is zero.  l and u are the cells
    nearest to the lower and the upper edges.  The matrix takes the cells from l up to, not including,
    u along the other two axes and the cell nearest to the plane along its own; for each point it gives
    no radial component, and along the polar angle and the azimuth
      - i omega exp(- i omega) / (4 pi) sum exp(i omega p.r / |p|) dA (mu nu x H + p x (nu x E)),
    whatever eps_0 is.  On the unit sphere this is the far field of the equivalent currents. *)
Theorem far_plane (g : grid CC) xyz (pts : list point) omega pos width polarity eps0 mu0 axis l u :
  (axis < 3)%nat -> width axis = 0 -> (forall a, (a < axis)%nat -> width a <> 0) -> Z.abs polarity = 1%Z -> omega <> 0 -> eps0 <> 0 ->
  (2 <= length pts)%nat -> (forall p, In p pts -> length3 p <> 0) ->
  (forall a, (a < 3)%nat -> nearest (xyz a) (dim g a) (pos a - width a / 2) (l a) /\ nearest (xyz a) (dim g a) (pos a + width a / 2) (u a)) ->
  (forall a, (a < 3)%nat -> a <> axis -> (l a < u a)%nat) -> (exists a, (a < 3)%nat /\ a <> axis /\ (S (l a) < u a)%nat) ->
  exists T, make_near2farfield_matrix g xyz pts omega pos width polarity eps0 mu0 2 = Ok T /\
    projects g pts T (plane_field g xyz omega mu0 axis polarity (block l (fun a => if Nat.eqb a axis then S (u a) else u a))).
Proof. exact (@plane_lemma g xyz pts omega pos width polarity eps0 mu0 axis l u). Qed.
Print Assumptions far_plane.
(** A single far field point, or a plane that covers a single cell, raises IndexError. *)
Theorem far_single (g : grid CC) xyz (pts : list point) omega pos width polarity eps0 mu0 spherical_axis axis l u :
  (axis < 3)%nat -> width axis = 0 -> (forall a, (a < axis)%nat -> width a <> 0) -> Z.abs polarity = 1%Z ->
  (forall a, (a < 3)%nat -> nearest (xyz a) (dim g a) (pos a - width a / 2) (l a) /\ nearest (xyz a) (dim g a) (pos a + width a / 2) (u a)) ->
  length pts = 1%nat \/ (forall a, (a < 3)%nat -> a <> axis -> u a = S (l a)) ->
  make_near2farfield_matrix g xyz pts omega pos width polarity eps0 mu0 spherical_axis = Err IndexError.
Proof. exact (@single_error g xyz pts omega pos width polarity eps0 mu0 spherical_axis axis l u). Qed.
Print Assumptions far_single.

(** C157.  A box: the sum over the closed surface of the block of cells from l to u (not included), each
    side counted once with its outward normal: [outward] is 1 or -1 where exactly one of the two cells
    that share the side belongs to the block and 0 elsewhere.  The permeability given to the function
    has no effect, it is always 1. *)
Theorem far_box (g : grid CC) xyz (pts : list point) omega center size eps0 mu0 l u :
  (forall a, (a < 3)%nat -> size a <> 0) -> omega <> 0 -> eps0 <> 0 -> (2 <= length pts)%nat -> (forall p, In p pts -> length3 p <> 0) ->
  (forall a, (a < 3)%nat -> nearest (xyz a) (dim g a) (center a - size a / 2) (l a) /\ nearest (xyz a) (dim g a) (center a + size a / 2) (u a)) ->
  (forall a, (a < 3)%nat -> (l a < u a)%nat) -> (forall axis, (axis < 3)%nat -> exists a, (a < 3)%nat /\ a <> axis /\ (S (l a) < u a)%nat) ->
  exists T, make_near2farfield_box_matrix g xyz pts omega center size eps0 mu0 2 = Ok T /\ projects g pts T (surface_field g xyz omega 1 l u).
Proof. exact (@box_lemma g xyz pts omega center size eps0 mu0 l u). Qed.
Print Assumptions far_box.

(** *** example: 3 x 3 x 3 cells with coordinates 0, 1, 2 *)
Definition ex_grid : grid CC := @Grid CC (fun _ => 3%nat) (fun _ _ => rl 1) (fun _ _ => rl 1).
Definition ex_xyz (a i : nat) : R := INR i.
Definition ex_pts : list point := [(0, 0, 1); (1, 0, 0)].
Lemma ex_nearest i : (i < 3)%nat -> nearest INR 3 (INR i) i.
Proof.
  intros Hi. split; [exact Hi|]. replace (INR i - INR i) with 0 by ring. rewrite Rabs_R0. split; intros j Hj; [apply Rabs_pos|].
  apply Rabs_pos_lt. intros E. assert (INR i = INR j) by Lra.lra. apply INR_eq in H. lia.
Qed.
Lemma ex_points p : In p ex_pts -> length3 p <> 0.
Proof. intros [<-|[<-|[]]]; unfold length3; cbn [fst snd]; [replace (0 * 0 + 0 * 0 + 1 * 1) with 1 by ring|replace (1 * 1 + 0 * 0 + 0 * 0) with 1 by ring]; rewrite sqrt_1; Lra.lra. Qed.
Example far_plane_ex : exists T,
  make_near2farfield_matrix ex_grid ex_xyz ex_pts 1 (fun _ => 1) (fun a => if Nat.eqb a 2 then 0 else 2) (-1) 3 1 2 = Ok T /\
  projects ex_grid ex_pts T (plane_field ex_grid ex_xyz 1 1 2 (-1) (block (fun a => if Nat.eqb a 2 then 1%nat else 0%nat) (fun _ => 2%nat))).
Proof.
  destruct (@far_plane ex_grid ex_xyz ex_pts 1 (fun _ => 1) (fun a => if Nat.eqb a 2 then 0 else 2) (-1) 3 1 2 (fun a => if Nat.eqb a 2 then 1%nat else 0%nat) (fun a => if Nat.eqb a 2 then 1%nat else 2%nat)) as (T & E & P);
    try Lra.lra; try lia; try exact ex_points.
  - reflexivity.
  - intros a Ha. destruct (Nat.eqb_spec a 2); [lia|Lra.lra].
  - cbn. lia.
  - intros a Ha. cbn [dim ex_grid]. unfold ex_xyz. destruct (Nat.eqb_spec a 2); split.
    + replace (1 - 0 / 2) with (INR 1) by (simpl; field). apply ex_nearest. lia.
    + replace (1 + 0 / 2) with (INR 1) by (simpl; field). apply ex_nearest. lia.
    + replace (1 - 2 / 2) with (INR 0) by (simpl; field). apply ex_nearest. lia.
    + replace (1 + 2 / 2) with (INR 2) by (simpl; field). apply ex_nearest. lia.
  - intros a _ Hn. destruct (Nat.eqb_spec a 2); [contradiction|lia].
  - exists 0%nat. cbn. lia.
  - exists T. split; [exact E|]. intros F k p Hk. destruct (P F k p Hk) as (A & B & C).
    assert (W : forall c, plane_field ex_grid ex_xyz 1 1 2 (-1) (block (fun a => if Nat.eqb a 2 then 1%nat else 0%nat) (fun a => if Nat.eqb a 2 then S (if Nat.eqb a 2 then 1%nat else 2%nat) else if Nat.eqb a 2 then 1%nat else 2%nat)) p F c
      = plane_field ex_grid ex_xyz 1 1 2 (-1) (block (fun a => if Nat.eqb a 2 then 1%nat else 0%nat) (fun _ => 2%nat)) p F c) by reflexivity.
    split; [exact A|]. split; [rewrite B|rewrite C]; unfold along_theta, along_phi; now rewrite !W.
Qed.
Example far_single_ex : make_near2farfield_matrix ex_grid ex_xyz ex_pts 1 (fun _ => 1 / 2) (fun a => if Nat.eqb a 2 then 0 else 1) 1 3 1 2 = Err IndexError.
Proof.
  apply (@far_single ex_grid ex_xyz ex_pts 1 (fun _ => 1 / 2) (fun a => if Nat.eqb a 2 then 0 else 1) 1 3 1 2 2 (fun _ => 0%nat) (fun a => if Nat.eqb a 2 then 0%nat else 1%nat)); try lia; [reflexivity| | |].
  - intros a Ha. destruct (Nat.eqb_spec a 2); [lia|Lra.lra].
  - intros a Ha. cbn [dim ex_grid]. unfold ex_xyz. destruct (Nat.eqb_spec a 2); split.
    1,2: (split; [lia|]; split; [|intros j Hj; lia]); intros j Hj; assert (J : j = 0%nat \/ j = 1%nat \/ j = 2%nat) by lia; destruct J as [-> | [-> | ->]]; simpl; unfold Rabs; repeat destruct Rcase_abs; Lra.lra.
    + replace (1 / 2 - 1 / 2) with (INR 0) by (simpl; field). apply ex_nearest. lia.
    + replace (1 / 2 + 1 / 2) with (INR 1) by (simpl; field). apply ex_nearest. lia.
  - right. intros a _ Hn. destruct (Nat.eqb_spec a 2); [contradiction|reflexivity].
Qed.
Example far_box_ex : exists T, make_near2farfield_box_matrix ex_grid ex_xyz ex_pts 1 (fun _ => 1) (fun _ => 2) 3 7 2 = Ok T /\
  projects ex_grid ex_pts T (surface_field ex_grid ex_xyz 1 1 (fun _ => 0%nat) (fun _ => 2%nat)) /\
  (outward (fun _ => 0%nat) (fun _ => 2%nat) 0 0 1 1 = -1 /\ outward (fun _ => 0%nat) (fun _ => 2%nat) 0 1 1 1 = 0 /\ outward (fun _ => 0%nat) (fun _ => 2%nat) 0 2 1 1 = 1 /\
   outward (fun _ => 0%nat) (fun _ => 2%nat) 0 2 2 1 = 0)%Z.
Proof.
  destruct (@far_box ex_grid ex_xyz ex_pts 1 (fun _ => 1) (fun _ => 2) 3 7 (fun _ => 0%nat) (fun _ => 2%nat)) as (T & E & P); try Lra.lra; try lia; try exact ex_points.
  - intros a _. Lra.lra.
  - cbn. lia.
  - intros a Ha. cbn [dim ex_grid]. unfold ex_xyz. split.
    + replace (1 - 2 / 2) with (INR 0) by (simpl; field). apply ex_nearest. lia.
    + replace (1 + 2 / 2) with (INR 2) by (simpl; field). apply ex_nearest. lia.
  - intros axis Ha. destruct axis as [|axis]; [exists 1%nat|exists 0%nat]; lia.
  - exists T. split; [exact E|]. split; [exact P|]. repeat split.
Qed.
