(** Functions on the integer lattice that continue the values on the cells. *)
From Coq Require Import Reals ZArith.
From Verif Require Import Base CField Maxwell_Model.
Set Implicit Arguments.
Section Lattice.
Variable K : cfield.
Definition lattice := Z -> Z -> Z -> K.
(** the values on the cells, in Fortran order *)
Definition sampled (g : grid K) (F : lattice) : list K :=
  vbuild (cellsn g) (fun t => F (Z.of_nat (coord g 0 t)) (Z.of_nat (coord g 1 t)) (Z.of_nat (coord g 2 t))).
Definition moved (axis : nat) (f : Z -> Z) (F : lattice) : lattice := fun x y z =>
  match axis with 0 => F (f x) y z | 1 => F x (f y) z | _ => F x y (f z) end.
(** continued by mirrors at both ends of the n cells along the axis *)
Definition mirror_symmetric (axis : nat) (n : Z) (F : lattice) : Prop :=
  forall x y z, moved axis (fun i => -1 - i)%Z F x y z = F x y z /\ moved axis (fun i => 2 * n - 1 - i)%Z F x y z = F x y z.
(** continued with a factor after n cells *)
Definition bloch_periodic (axis : nat) (n : Z) (c : K) (F : lattice) : Prop :=
  forall x y z, moved axis (fun i => i + n)%Z F x y z = kmul c (F x y z).
End Lattice.
(** shapes of two or three sizes, none zero *)
Definition good_shape (shape : list nat) : Prop := (length shape = 2 \/ length shape = 3) /\ Forall (fun n => 0 < n) shape.
