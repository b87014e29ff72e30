(** Vocabulary of the statements about waveguide modes and their sources. *)
From Verif Require Import Base CField Maxwell_Model Wg_Model.
Set Implicit Arguments.

Section Spec.
Variable K : cfield.
Local Open Scope K_scope.
Definition in_grid (g : grid K) (x y z : nat) : Prop := (x < dim g 0 /\ y < dim g 1 /\ z < dim g 2)%nat.
(** curl (1/mu curl E) - omega^2 eps E, the equation that simulations solve for
    -i omega J *)
Definition wave_equation (g : grid K) (omega : K) (eps mu E : field3 K) : field3 K := fun c x y z =>
  fcurl_h g (fun c x y z => fcurl_e g E c x y z / mu c x y z) c x y z - omega * omega * eps c x y z * E c x y z.
(** the cells that a source in plane s radiates into: forward from plane s on, backward the
    planes before s *)
Definition lit (back : bool) (s l : nat) : bool := if back then Nat.ltb l s else Nat.leb s l.
(** minus the field in the lit cells, nothing elsewhere *)
Definition one_sided (axis : nat) (back : bool) (s : nat) (E : field3 K) : field3 K := fun c x y z =>
  if lit back s (pick axis x y z) then - E c x y z else 0.
(** the material does not change along the axis *)
Definition invariant_along (g : grid K) (axis : nat) (f : field3 K) : Prop := forall c x y z x' y' z',
  (c < 3)%nat -> in_grid g x y z -> in_grid g x' y' z' -> (forall a, (a < 3)%nat -> a <> axis -> pick a x y z = pick a x' y' z') ->
  f c x y z = f c x' y' z'.
(** the slices that select the whole cross-section at index s *)
Definition whole_start (axis s : nat) : nat -> nat := fun a => if Nat.eqb a axis then s else 0%nat.
Definition whole_len (g : grid K) (axis : nat) : nat -> nat := fun a => if Nat.eqb a axis then 1%nat else dim g a.
(** the part of a field in the lit cells *)
Definition lit_part (axis : nat) (back : bool) (s : nat) (F : field3 K) : field3 K := fun c x y z =>
  if lit back s (pick axis x y z) then F c x y z else 0.
(** n x F for the unit vector n along the axis *)
Definition axial (axis : nat) (F : field3 K) : field3 K := fun c x y z =>
  if Nat.eqb c (src_order axis 1) then - F (src_order axis 2) x y z else
  if Nat.eqb c (src_order axis 2) then F (src_order axis 1) x y z else 0.
(** the current by which a source misses its mark, per unit of the dispersion error; [u] is the
    phase of half a step along the axis *)
Definition missing (g : grid K) (axis : nat) (back : bool) (s : nat) (omega u : K) (mu Et Ht : field3 K) : field3 K := fun c x y z =>
  fcurl_h g (lit_part axis back s (fun c x y z => u * axial axis Et c x y z / mu c x y z)) c x y z
  - ki * omega * lit_part axis back s (fun c x y z => axial axis Ht c x y z / u) c x y z.
(** dispersion error of the wavenumber k for a mode with eigenvalue beta^2 on a grid with spacing
    d along the axis; it vanishes iff 2 sin(k d / 2) / d = beta *)
Definition dispersion (cexp : K -> K) (k d beta : K) : K :=
  (cexp (- ki * k * d / (1 + 1)) - cexp (ki * k * d / (1 + 1))) / d + ki * beta.
(** the phase gained over half a cell in the direction of propagation *)
Definition half_phase (cexp : K -> K) (back : bool) (k d : K) : K := cexp (- polarity K back * ki * (1 / two K) * k * d).
(** Maxwell's equations for fields that vary as e(x, y) exp(-i beta z), at the cell (i, j) of a
    cross-section: derivatives in z are products with -i beta *)
Definition maxwell_mode (g : grid K) (omega beta : K) (eps mu e h : field3 K) (i j : nat) : Prop :=
  de g (e 2%nat) 1 i j 0%nat + ki * beta * e 1%nat i j 0%nat = - ki * omega * mu 0%nat i j 0%nat * h 0%nat i j 0%nat /\
  - ki * beta * e 0%nat i j 0%nat - de g (e 2%nat) 0 i j 0%nat = - ki * omega * mu 1%nat i j 0%nat * h 1%nat i j 0%nat /\
  de g (e 1%nat) 0 i j 0%nat - de g (e 0%nat) 1 i j 0%nat = - ki * omega * mu 2%nat i j 0%nat * h 2%nat i j 0%nat /\
  dh g (h 2%nat) 1 i j 0%nat + ki * beta * h 1%nat i j 0%nat = ki * omega * eps 0%nat i j 0%nat * e 0%nat i j 0%nat /\
  - ki * beta * h 0%nat i j 0%nat - dh g (h 2%nat) 0 i j 0%nat = ki * omega * eps 1%nat i j 0%nat * e 1%nat i j 0%nat /\
  dh g (h 1%nat) 0 i j 0%nat - dh g (h 0%nat) 1 i j 0%nat = ki * omega * eps 2%nat i j 0%nat * e 2%nat i j 0%nat.
(** [v] is an eigenvector of the operator of the mode solver *)
Definition eigenvector (g : grid K) (omega beta : K) (eps mu : field3 K) (v : array K * array K) : Prop := forall i j, (i < dim g 0)%nat -> (j < dim g 1)%nat ->
  fst (wg_operator g omega eps mu v) i j 0%nat = beta * beta * fst v i j 0%nat /\
  snd (wg_operator g omega eps mu v) i j 0%nat = beta * beta * snd v i j 0%nat.
(** no cell and no material constant is zero *)
Definition proper (g : grid K) (eps mu : field3 K) : Prop :=
  (forall a i, (a < 3)%nat -> (i < dim g a)%nat -> dxe g a i <> 0 /\ dxh g a i <> 0) /\
  (forall c x y z, (c < 3)%nat -> in_grid g x y z -> eps c x y z <> 0 /\ mu c x y z <> 0).
(** all of them are real *)
Definition lossless (g : grid K) (omega : K) (eps mu : field3 K) : Prop :=
  kconj omega = omega /\
  (forall c x y z, (c < 3)%nat -> in_grid g x y z -> kconj (eps c x y z) = eps c x y z /\ kconj (mu c x y z) = mu c x y z) /\
  (forall a i, (a < 3)%nat -> (i < dim g a)%nat -> kconj (dxe g a i) = dxe g a i /\ kconj (dxh g a i) = dxh g a i).
(** the cells along the axis have the size d *)
Definition evenly (g : grid K) (axis : nat) (d : K) : Prop := forall l, (l < dim g axis)%nat -> dxe g axis l = d /\ dxh g axis l = d.
(** the cells of the cross-section are all alike *)
Definition uniform_plane (g : grid K) : Prop := exists d0 d1, kconj d0 = d0 /\ kconj d1 = d1 /\
  forall i, dxe g 0 i = d0 /\ dxh g 0 i = d0 /\ dxe g 1 i = d1 /\ dxh g 1 i = d1.
(** the eigenvector times a number *)
Definition scaled (a : K) (v : array K * array K) : array K * array K := (fun i j l => a * fst v i j l, fun i j l => a * snd v i j l).
End Spec.
Arguments dispersion {K}. Arguments half_phase {K}.

(** Twice the power that flows through the plane before index l along the axis, for fields on
    staggered grids: E at index l, H at index l - 1, both with the area of their cell face
    (complex; the power is the real part).  x and y are the two other directions. *)
Section Flux.
Variable K : cfield.
Local Open Scope K_scope.
Definition sum_over (g : grid K) (axis : nat) (f : nat -> nat -> K) : K :=
  fsum (dim g (order axis 0)) (fun i => fsum (dim g (order axis 1)) (fun j => f i j)).
Definition flux (g : grid K) (axis : nat) (E H : field3 K) (l : nat) : K :=
  let x := order axis 0 in let y := order axis 1 in
  sum_over g axis (fun i j =>
    turned axis (E x) i j l * kconj (turned axis (H y) i j (l - 1)%nat) * dxe g x i * dxh g y j
    - turned axis (E y) i j l * kconj (turned axis (H x) i j (l - 1)%nat) * dxh g x i * dxe g y j).
(** Twice the power that the mode with transverse fields E and H in a cross-section carries: each
    component of E with the component of H at the same place, times the area of its cell *)
Definition plane_flux (g : grid K) (E H : field3 K) : K :=
  fsum (dim g 0) (fun i => fsum (dim g 1) (fun j =>
    E 0%nat i j 0%nat * kconj (H 1%nat i j 0%nat) * dxe g 0 i * dxh g 1 j
    - E 1%nat i j 0%nat * kconj (H 0%nat i j 0%nat) * dxh g 0 i * dxe g 1 j)).
End Flux.
