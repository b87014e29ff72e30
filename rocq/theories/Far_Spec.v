(** Vocabulary of the statements about the projection to the far field. *)
From Coq Require Import Reals List ZArith.
From Verif Require Import Base CField GMath_Model CplxField Maxwell_Model Maxwell_Spec Wg_Model Wg_Model2 Fs_Model Ov_Spec.
From Verif Require Ff_Model.
Set Implicit Arguments.
Local Open Scope R_scope.
Notation point := Ff_Model.vec3.

(** cell i of n is the first of those whose coordinate is nearest to x *)
Definition nearest (v : nat -> R) (n : nat) (x : R) (i : nat) : Prop :=
  (i < n)%nat /\ (forall j, (j < n)%nat -> Rabs (x - v i) <= Rabs (x - v j)) /\ (forall j, (j < i)%nat -> Rabs (x - v i) < Rabs (x - v j)).
Definition coordinate (p : point) (a : nat) : R := match a with 0 => fst (fst p) | 1 => snd (fst p) | _ => snd p end%nat.
Definition length3 (p : point) : R := sqrt (fst (fst p) * fst (fst p) + snd (fst p) * snd (fst p) + snd p * snd p).

Section Spec.
Variable g : grid CC.
(** Along which axes a component lies half way between the corners of the cell *)
Definition half_e (c b : nat) : bool := Nat.eqb b c.
Definition half_h (c b : nat) : bool := negb (Nat.eqb b c).
(** values given at the places [from], interpolated to the places [to], along one axis and along all *)
Definition interpolated1 (from to : nat -> bool) (b : nat) (f : array CC) : array CC :=
  match from b, to b with
  | false, true => mean_next g f b
  | true, false => mean_prev g f b
  | _, _ => f
  end.
Definition interpolated (from to : nat -> bool) (f : array CC) : array CC :=
  interpolated1 from to 2 (interpolated1 from to 1 (interpolated1 from to 0 f)).
(** The tangential currents on a plane of normal axis [axis] are formed from the fields at the places
    of the magnetic field along that axis. *)
Definition e_there (axis : nat) (E : field3 CC) (c : nat) : array CC := interpolated (half_e c) (half_h axis) (E c).
Definition h_there (axis : nat) (omega : R) (E : field3 CC) (c : nat) : array CC := interpolated (half_h c) (half_h axis) (fe2h g (rl omega) None E c).

Variable xyz : nat -> nat -> R.
(** (direction of p) . r for the cell *)
Definition path (p : point) (x y z : nat) : R :=
  (coordinate p 0 * xyz 0%nat x + coordinate p 1 * xyz 1%nat y + coordinate p 2 * xyz 2%nat z) / length3 p.
(** product of the cell sizes of H along the two other axes *)
Definition cell_area (axis x y z : nat) : CC :=
  match axis with
  | 0%nat => dxh g 1 y * dxh g 2 z
  | 1%nat => dxh g 0 x * dxh g 2 z
  | _ => dxh g 0 x * dxh g 1 y
  end%K.
(** component c of  mu nu x H + p x (nu x E)  in a cell, nu being [s] times the unit vector of the axis,
    times the area of the cell and the phase of the path *)
Definition contribution (omega mu : R) (p : point) (axis : nat) (s : Z) (E : field3 CC) (c x y z : nat) : CC :=
  let nu a := if Nat.eqb a axis then rl (IZR s) else (0 : CC)%K in
  let nxH := cross_product nu (fun a => h_there axis omega E a x y z) in
  let nxE := cross_product nu (fun a => e_there axis E a x y z) in
  (turn (omega * path p x y z) * cell_area axis x y z *
    (rl mu * nxH c + cross_product (fun a => rl (coordinate p a)) nxE c))%K.
(** - i omega exp(- i omega) / (4 pi) *)
Definition prefactor (omega : R) : CC := (- ki * rl omega * turn (- omega) / rl (4 * PI))%K.
(** a vector with components f along x, y and z, along the unit vectors of the polar angle and of the
    azimuth at p, the polar axis being z; on this axis the azimuth is 0 *)
Definition along_theta (p : point) (f : nat -> CC) : CC :=
  let x := coordinate p 0 in let y := coordinate p 1 in let z := coordinate p 2 in let rho := sqrt (x * x + y * y) in
  let u := if Req_EM_T rho 0 then (1, 0) else (x / rho, y / rho) in
  (rl (z / length3 p * fst u) * f 0%nat + rl (z / length3 p * snd u) * f 1%nat - rl (rho / length3 p) * f 2%nat)%K.
Definition along_phi (p : point) (f : nat -> CC) : CC :=
  let x := coordinate p 0 in let y := coordinate p 1 in let rho := sqrt (x * x + y * y) in
  let u := if Req_EM_T rho 0 then (1, 0) else (x / rho, y / rho) in
  (rl (fst u) * f 1%nat - rl (snd u) * f 0%nat)%K.
(** what row i of a matrix gives for the vectorized field *)
Definition row_of (T : mat CC) (E : field3 CC) (i : nat) : CC := fsum (vlen g) (fun j => T i j * at_ (vec g E) j)%K.
(** T projects to far fields: for each of the points no radial component, and the components along
    the polar angle and the azimuth of the vector [far p E] *)
Definition projects (pts : list point) (T : mat CC) (far : point -> field3 CC -> nat -> CC) : Prop := forall E k p,
  nth_error pts k = Some p ->
  let P := length pts in
  row_of T E k = (0 : CC)%K /\ row_of T E (P + k) = along_theta p (far p E) /\ row_of T E (2 * P + k) = along_phi p (far p E).
(** the vector for the cells of one plane *)
Definition plane_field (omega mu : R) (axis : nat) (s : Z) (W : nat -> nat -> nat -> bool) (p : point) (E : field3 CC) (c : nat) : CC :=
  (prefactor omega * grid_sum g (fun x y z => if W x y z then contribution omega mu p axis s E c x y z else 0))%K.
(** cells l a <= . < u a along each axis *)
Definition block (l u : nat -> nat) (x y z : nat) : bool :=
  forallb (fun a => Nat.leb (l a) (pick a x y z) && Nat.ltb (pick a x y z) (u a)) (seq 0 3).
(** How the lower side (along the axis) of a cell bounds the block: 1 if the block lies before it only,
    -1 if it lies behind it only, else 0. *)
Definition before (l u : nat -> nat) (axis x y z : nat) : bool :=
  match axis with
  | 0 => match x with O => false | S x' => block l u x' y z end
  | 1 => match y with O => false | S y' => block l u x y' z end
  | _ => match z with O => false | S z' => block l u x y z' end
  end%nat.
Definition outward (l u : nat -> nat) (axis x y z : nat) : Z :=
  ((if before l u axis x y z then 1 else 0) - (if block l u x y z then 1 else 0))%Z.
(** the vector for the whole surface of the block *)
Definition surface_field (omega mu : R) (l u : nat -> nat) (p : point) (E : field3 CC) (c : nat) : CC :=
  (prefactor omega * fsum 3 (fun axis => grid_sum g (fun x y z => contribution omega mu p axis (outward l u axis x y z) E c x y z)))%K.
End Spec.
