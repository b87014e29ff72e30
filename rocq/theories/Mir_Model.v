(** Model of the other shift matrices of /repo/spins/fdfd_tools/operators.py: 375-414
    (shift_with_mirror), 480-542 (rotation_bloch) and 545-600 (deriv_forward, deriv_back, which the
    waveguide solver uses).
    A shape is the list of the sizes; a shape of two sizes has the cells of the same shape with a
    third size 1.  Exceptions that the code raises as Exception are UserError.  Sizes zero, for which
    scipy refuses the matrix, are not considered. *)
From Coq Require Import Reals ZArith.
From Verif Require Import Base CField Maxwell_Model GMath_Model CplxField Wg_Model2.
Set Implicit Arguments.

Definition sizes (shape : list nat) (a : nat) : nat := nth a shape 1%nat.
(** the first checks of both functions *)
Definition check_shape (axis : nat) (shape : list nat) : res unit :=
  if negb (Nat.eqb (length shape) 2 || Nat.eqb (length shape) 3) then Err (UserError 0) else
  if negb (Nat.ltb axis (length shape)) then Err (UserError 1) else Ok tt.

Section Shifts.
Variable K : cfield.
Local Open Scope K_scope.
(** the cells of the shape *)
Definition shape_grid (shape : list nat) : grid K := @Grid K (sizes shape) (fun _ _ => 1) (fun _ _ => 1).
Definition ones_at (N : nat) (j_ind : nat -> nat) : res (mat K) :=
  if existsb (fun t => Nat.leb N (j_ind t)) (seq 0 N) then Err ValueError else
  Ok (fun i j => if Nat.eqb (j_ind i) j then 1 else 0).
(** mirrored_range, lines 396-400 *)
Definition mirrored (n s i : Z) : Z :=
  let v := (i + s)%Z in
  let v := if (n <=? v)%Z then (2 * n - v - 1)%Z else v in
  if (v <? 0)%Z then (-1 - v)%Z else v.
(** shift_with_mirror, lines 375-414.  The constructor csr_matrix raises for a column beyond the last *)
Definition shift_with_mirror (axis : nat) (shape : list nat) (shift_distance : Z) : res (mat K) :=
  bind (check_shape axis shape) (fun _ =>
  if (Z.of_nat (sizes shape axis) <=? shift_distance)%Z then Err (UserError 2) else
  let g := shape_grid shape in
  let index a t := Z.to_nat (mirrored (Z.of_nat (sizes shape a)) (if Nat.eqb a axis then shift_distance else 0) (Z.of_nat (coord g a t))) in
  ones_at (cellsn g) (fun t => index 0 t + index 1 t * sizes shape 0 + index 2 t * sizes shape 0 * sizes shape 1)%nat).
End Shifts.

Section Bloch.
Variable shape : list nat.
Local Notation g := (shape_grid CC shape).
Local Notation N := (cellsn g).
(** rotation_bloch, lines 480-542 *)
Definition ring_matrix (axis : nat) : mat CC := fun t j =>
  let index a := if Nat.eqb a axis then ((coord g a t + 1) mod sizes shape a)%nat else coord g a t in
  if Nat.eqb (index 0 + index 1 * sizes shape 0 + index 2 * sizes shape 0 * sizes shape 1)%nat j then (1 : CC)%K else (0 : CC)%K.
Definition edge_matrix (axis : nat) : mat CC := fun t j =>
  if forallb (fun a => if Nat.eqb a axis then Nat.eqb (coord g a t) (sizes shape a - 1) && Nat.eqb (coord g a j) 0
                       else Nat.eqb (coord g a t) (coord g a j)) (seq 0 3)
  then (1 : CC)%K else (0 : CC)%K.
Definition rotation_bloch (axis : nat) (bloch_phase : CC) (shift_distance : Z) : res (mat CC) :=
  bind (check_shape axis shape) (fun _ =>
  if negb ((shift_distance =? -1)%Z || (shift_distance =? 1)%Z) then Err (UserError 2) else
  let df : mat CC := fun t j => (ring_matrix axis t j - edge_matrix axis t j + cexp (- ki * bloch_phase) * edge_matrix axis t j)%K in
  Ok (if (shift_distance =? -1)%Z then mherm df else df)).
End Bloch.

(** deriv_forward, deriv_back, lines 545-600: the matrix along one axis, for the cell sizes dx *)
Definition cells_of (dims : list nat) (dx : nat -> nat -> CC) : grid CC := @Grid CC (sizes dims) dx dx.
Definition axis_phase (dims : list nat) (dx : nat -> nat -> CC) (bloch : nat -> CC) (a : nat) : CC :=
  (bloch a * fsum (sizes dims a) (dx a))%K.
Definition old_deriv_forward (dims : list nat) (dx : nat -> nat -> CC) (bloch : nat -> CC) (a : nat) : res (mat CC) :=
  bind (rotation_bloch dims a (axis_phase dims dx bloch a) 1) (fun R =>
  Ok (mmul (cellsn (shape_grid CC dims)) (mdiag (fun t => (1 / dx a (coord (shape_grid CC dims) a t))%K)) (msub R meye))).
Definition old_deriv_back (dims : list nat) (dx : nat -> nat -> CC) (bloch : nat -> CC) (a : nat) : res (mat CC) :=
  bind (rotation_bloch dims a (axis_phase dims dx bloch a) (-1)) (fun R =>
  Ok (mmul (cellsn (shape_grid CC dims)) (mdiag (fun t => (- (1) / dx a (coord (shape_grid CC dims) a t))%K)) (msub R meye))).
