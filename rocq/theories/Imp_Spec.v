(** What an imported overlap should be: the data of the file, read as the function that is affine
    in each coordinate between neighbouring points of the file, at the positions of the
    components. *)
From Verif Require Import QTac Grid_Model Imp_Model.
Set Implicit Arguments.
Open Scope Q_scope.

Definition ceq (a b : C) : Prop := fst a == fst b /\ snd a == snd b.

(** [f] is affine in each of its three arguments *)
Definition multi_affine (f : Q -> Q -> Q -> Q) : Prop :=
  exists c0 c1 c2 c3 c4 c5 c6 c7, forall x y z,
    f x y z == c0 + c1 * x + c2 * y + c3 * z + c4 * (x * y) + c5 * (x * z) + c6 * (y * z) + c7 * (x * y * z).

(** the coordinates of a file along an axis, moved to the centre of the overlap *)
Definition placed (rows : list (list Q)) (c : Q) : list Q := map (fun q => q + c) (nth 0 rows []).

(** [lo, hi] is the interval between two neighbouring points [i], [j] of the file; a file with one
    point is taken to fill the width [w] around it *)
Definition cell (l : list Q) (w : Q) (i j : nat) (lo hi : Q) : Prop :=
  ((j = S i /\ (S i < length l)%nat /\ lo = qn l i /\ hi = qn l j) \/
   (length l = 1%nat /\ i = 0%nat /\ j = 0%nat /\ lo = qn l 0 - w / 2 /\ hi = qn l 0 + w / 2)).
(** the position is not covered by the file *)
Definition outside (l : list Q) (w x : Q) : Prop :=
  if Nat.eqb (length l) 1 then x < qn l 0 - w / 2 \/ qn l 0 + w / 2 < x
  else x < qn l 0 \/ qlast l < x.

(** the width of the first cell of the grid along an axis *)
Definition first_width (e : list Q) : Q := qn e 1 - qn e 0.
(** the documented position of an entry (gridlock/grid.py:34-39): the centre of its cell, moved by
    the shift of the component in units of the cell *)
Definition position (e : list Q) (s : Q) (k : nat) : Q :=
  (qn e k + qn e (S k)) / 2 + s * (qn e (S k) - qn e k).

(** the entry of the result at the indices [p 0], [p 1], [p 2] *)
Definition entry (E : list (list (list (list C)))) (i : nat) (p : nat -> nat) : C :=
  nth (p 2%nat) (nth (p 1%nat) (nth (p 0%nat) (nth i E []) []) []) (0, 0).

(** everything the code reads from the file is there, along each axis at least one point *)
Definition complete (m : mat) (rows : nat -> list (list Q)) (field : nat -> nd) : Prop :=
  forall a, (a < 3)%nat ->
    m_coord m a = Some (rows a) /\ nth 0 (rows a) [] <> [] /\ m_field m a = Some (field a) /\ (length (sh (field a)) <= 3)%nat.
(** strictly increasing coordinates and fields of that shape *)
Definition consistent (rows : nat -> list (list Q)) (field : nat -> nd) : Prop :=
  forall a, (a < 3)%nat -> increasing (nth 0 (rows a) []) /\
    sh (field a) = [length (nth 0 (rows 0%nat) []); length (nth 0 (rows 1%nat) []); length (nth 0 (rows 2%nat) [])].
(** the grid: at least one cell, of positive width, along each axis *)
Definition proper_grid (g : grid3) : Prop :=
  forall a, (a < 3)%nat -> increasing (g_edges g a) /\ (2 <= length (g_edges g a))%nat.
Definition in_grid (g : grid3) (p : nat -> nat) : Prop := forall a, (a < 3)%nat -> (p a < length (g_edges g a) - 1)%nat.
(** cells of the same width along an axis *)
Definition uniform (e : list Q) : Prop := forall k, (S k < length e)%nat -> qn e (S k) - qn e k == first_width e.
