(** Vocabulary of the statements about mode overlaps. *)
From Coq Require Import Reals.
From Verif Require Import Base CField GMath_Model CplxField Maxwell_Model Wg_Model Wg_Model2 Wg_Spec.
Set Implicit Arguments.

Section Spec.
Variable K : cfield.
Local Open Scope K_scope.
Variable g : grid K.
(** sum over all cells of the grid *)
Definition grid_sum (f : array K) : K := fsum (dim g 0) (fun x => fsum (dim g 1) (fun y => fsum (dim g 2) (fun z => f x y z))).
(** sum over cells and components of C F: what a simulation computes for the overlap C of a field F *)
Definition grid_dot (C F : field3 K) : K := fsum 3 (fun c => grid_sum (fun x y z => C c x y z * F c x y z)).
(** mean of a value and the one in the next (previous) cell along axis a, periodically *)
Definition mean_next (f : array K) (a : nat) : array K := fun x y z => (f x y z + roll_forward g f a x y z) / (1 + 1).
Definition mean_prev (f : array K) (a : nat) : array K := fun x y z => (f x y z + roll_back g f a x y z) / (1 + 1).
(** component c times the size of its cell along c *)
Definition tall_e (E : field3 K) (c : nat) : array K := fun x y z => dxe g c (pick c x y z) * E c x y z.
Definition tall_h (H : field3 K) (c : nat) : array K := fun x y z => dxh g c (pick c x y z) * H c x y z.
(** The two ways in which the code forms component [axis] of E x H times the area of a cell;
    u, v and axis are a right-handed triple.  [flux_h] takes the means of E along the axis before
    multiplying with H, [flux_e] the mean of the products. *)
Definition flux_h (axis : nat) (E H : field3 K) : array K := fun x y z =>
  let u := ((axis + 1) mod 3)%nat in let v := ((axis + 2) mod 3)%nat in
  mean_prev (fun x y z => tall_h H v x y z * mean_next (tall_e E u) axis x y z) u x y z
  - mean_prev (fun x y z => tall_h H u x y z * mean_next (tall_e E v) axis x y z) v x y z.
Definition flux_e (axis : nat) (E H : field3 K) : array K := fun x y z =>
  let u := ((axis + 1) mod 3)%nat in let v := ((axis + 2) mod 3)%nat in
  mean_next (fun x y z => tall_e E u x y z * mean_prev (tall_h H v) u x y z) axis x y z
  - mean_next (fun x y z => tall_e E v x y z * mean_prev (tall_h H u) v x y z) axis x y z.
(** the cells that the slices select *)
Definition in_window (st len : nat -> nat) (x y z : nat) : bool :=
  ((st 0 <=? x) && (x <? st 0 + len 0) && ((st 1 <=? y) && (y <? st 1 + len 1)) && ((st 2 <=? z) && (z <? st 2 + len 2)))%nat%bool.
(** sum over the window of (E x Hm + Em x H) . n, H being the magnetic field that belongs to E *)
Definition pairing (axis : nat) (st len : nat -> nat) (omega : K) (mu : option (field3 K)) (Em Hm E : field3 K) : K :=
  grid_sum (fun x y z => if in_window st len x y z then flux_h axis E Hm x y z + flux_e axis Em (fe2h g omega mu E) x y z else 0).
End Spec.

(** the permeability, where it is given, is nowhere zero *)
Definition nz_mu (g : grid CC) (mu : option (field3 CC)) : Prop :=
  match mu with None => True | Some m => forall c x y z, (c < 3)%nat -> in_grid g x y z -> m c x y z <> (0 : CC)%K end.
Local Open Scope R_scope.
(** The field F of the plane s carried along the axis: its phase advances with the real parts of
    the cell sizes [d], by - k per unit forward and by + k backward.  [away d s l] is the distance
    from cell s to cell l. *)
Fixpoint span (d : nat -> CC) (n : nat) : R := match n with O => 0 | S n' => span d n' + re (d n) end.
Definition away (d : nat -> CC) (s l : nat) : R := span d l - span d s.
Definition carried (axis : nat) (back : bool) (s : nat) (k : CC) (d : nat -> CC) (F : field3 CC) : field3 CC := fun c x y z =>
  let p a := (if Nat.eqb a axis then s else pick a x y z)%nat in
  (cexp ((if back then 1 else - (1)) * ki * k * rl (away d s (pick axis x y z))) * F c (p 0%nat) (p 1%nat) (p 2%nat))%K.
(** the two fields agree in the planes s, s + 1, s + 2 (modulo the period) across the axis *)
Definition agree_near (g : grid CC) (axis s : nat) (F F' : field3 CC) : Prop := forall c x y z,
  (c < 3)%nat -> (x < dim g 0)%nat -> (y < dim g 1)%nat -> (z < dim g 2)%nat ->
  (exists i, (i < 3)%nat /\ pick axis x y z = Nat.modulo (s + i) (dim g axis)) -> F c x y z = F' c x y z.
(** the fields of the mode that the solver finds for the slices, with power normalized by its own
    measure, in the plane of the slices *)
Definition mode_fields (g : grid CC) (axis : nat) (back : bool) (st len : nat -> nat) (omega : CC) (eps mu : field3 CC) (v : array CC * array CC) (beta : CC) : res (field3 CC * field3 CC) :=
  let g2 := plane g axis st len in let eps2 := in_plane axis st eps in let mu2 := in_plane axis st mu in
  bind (norm_factor g2 (v2e g2 omega eps2 mu2 beta v) (v2h g2 mu2 beta v)) (fun nf =>
  Ok (solve_waveguide_mode cexp g axis back st len omega eps mu v beta nf (corrected_solvers beta))).
Definition mu_or_1 (mu : option (field3 CC)) : field3 CC := match mu with Some m => m | None => fun _ _ _ _ => (1 : CC)%K end.
