(** Vocabulary for directions, monitors, dipoles and the Bloch vectors of plans. *)
From Coq Require Import QArith Reals ZArith List.
From Verif Require Import Base CField GMath_Model CplxField QTac Grid_Model Maxwell_Model Fs_Model Fs_Spec.
Set Implicit Arguments.
Local Open Scope R_scope.

(** the list that a vector is given as, and its length *)
Definition comps (v : vec3) : list R := [v 0%nat; v 1%nat; v 2%nat].
Definition len3 (v : vec3) : R := sqrt (dot v v).
(** v lies along the axis a but for a millionth of its length *)
Definition along_axis (v : vec3) (a : nat) : Prop :=
  (a < 3)%nat /\ v a <> 0 /\ forall b, (b < 3)%nat -> b <> a -> Rabs (v b) <= len3 v / 1000000.
(** edge coordinates of a grid with these numbers of cells *)
Definition edges_of (e : nat -> list Q) (n : nat -> nat) : Prop :=
  forall a, (a < 3)%nat -> increasing (e a) /\ length (e a) = S (n a) /\ (1 <= n a)%nat.
(** the i-th cell between the edges e holds the coordinate r; the upper edge belongs to the last cell *)
Definition cell_holds (e : list Q) (r : Q) (i : nat) : Prop :=
  (S i < length e)%nat /\ (nth i e 0 <= r)%Q /\ (r < nth (S i) e 0 \/ S (S i) = length e)%Q.
(** r lies between the first and the last edge *)
Definition inside (e : list Q) (r : Q) : Prop := (nth 0 e 0 <= r /\ r <= nth (length e - 1) e 0)%Q.
(** the index i where the axis is a, otherwise the own index *)
Definition put (a i b own : nat) : nat := if Nat.eqb b a then i else own.
(** the three entries of a position *)
Definition three (r : nat -> Q) : list Q := [r 0%nat; r 1%nat; r 2%nat].
(** no absorbing layers at either end of the axis a; the layers are listed as x-, x+, y-, y+, z-, z+ *)
Definition bare (p : nat -> Z) (a : nat) : Prop := p (2 * a)%nat = 0%Z /\ p (2 * a + 1)%nat = 0%Z.
