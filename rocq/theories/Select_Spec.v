(** Vocabulary for selection matrices. *)
From Verif Require Import Base QTac Select_Model.
From Coq Require Import ZArith.
Set Implicit Arguments.

(** number of a cell in the vectorized grid *)
Definition cell (nx ny nz comp a b z : nat) : nat := (comp * (nx * ny * nz) + ((z * ny + b) * nx + a))%nat.
(** the direct lattice has twice the resolution and is periodic; the four points of a Yee cell *)
Definition left_of (n i : nat) : nat := match i with O => (n - 1)%nat | S j => j end.
Definition quadrant (nx ny comp a b p q : nat) : nat * nat :=
  match comp with
  | 0%nat => ((2 * a + p)%nat, left_of (2 * ny) (2 * b + q))
  | 1%nat => (left_of (2 * nx) (2 * a + p), (2 * b + q)%nat)
  | _ => (left_of (2 * nx) (2 * a + p), left_of (2 * ny) (2 * b + q))
  end.
Definition over_quadrants (nx ny comp a b : nat) (f : nat * nat -> Q) : Q :=
  sumn 2 (fun p => sumn 2 (fun q => f (quadrant nx ny comp a b p q))).
Definition inside (x0 y0 x1 y1 : nat) (pt : nat * nat) : bool :=
  Nat.leb x0 (fst pt) && Nat.leb (fst pt) x1 && Nat.leb y0 (snd pt) && Nat.leb (snd pt) y1.
(** how many of the four points lie in the design area *)
Definition touching (nx ny x0 y0 x1 y1 comp a b : nat) : Q :=
  over_quadrants nx ny comp a b (fun pt => if inside x0 y0 x1 y1 pt then 1 else 0).
(** the structure averaged over the points of the cell that lie in the design area, zero if there are none *)
Definition cell_average (nx ny x0 y0 x1 y1 : nat) (u : nat * nat -> Q) (comp a b : nat) : Q :=
  let n := touching nx ny x0 y0 x1 y1 comp a b in
  if Qeq_bool n 0 then 0 else over_quadrants nx ny comp a b (fun pt => if inside x0 y0 x1 y1 pt then u pt else 0) / n.
(** a structure on the design area as a vector, x fastest *)
Definition flat (w x0 y0 : nat) (u : nat * nat -> Q) (c : nat) : Q := u ((x0 + c mod w)%nat, (y0 + c / w)%nat).
Definition amid (a b c : Q) : Prop := (a <= b /\ b <= c) \/ (c <= b /\ b <= a).

(** The older matrices count the points of the direct lattice from another origin: the z component of
    cell (a, b) covers the points 2a, 2a+1 and 2b, 2b+1; the x component lies one point further in x,
    the y component one further in y. *)
Definition right_of (n i : nat) : nat := if Nat.eqb (S i) n then 0%nat else S i.
Definition old_quadrant (nx ny comp a b p q : nat) : nat * nat :=
  match comp with
  | 0%nat => (right_of (2 * nx) (2 * a + p), (2 * b + q)%nat)
  | 1%nat => ((2 * a + p)%nat, right_of (2 * ny) (2 * b + q))
  | _ => ((2 * a + p)%nat, (2 * b + q)%nat)
  end.
Definition sum4 (quad : nat -> nat -> nat * nat) (f : nat * nat -> Q) : Q := sumn 2 (fun p => sumn 2 (fun q => f (quad p q))).
(** the average of [u] over those of four points that are inside, zero if there are none *)
Definition mean4 (quad : nat -> nat -> nat * nat) (ins : nat * nat -> bool) (u : nat * nat -> Q) : Q :=
  let n := sum4 quad (fun pt => if ins pt then 1 else 0) in
  if Qeq_bool n 0 then 0 else sum4 quad (fun pt => if ins pt then u pt else 0) / n.

(** Averaging each design pixel with a neighbour: what [average_2xFarEdge] computes for the design
    pixel (i, j) of a w times h design area. *)
Definition far_x (w : nat) (u : nat -> nat -> Q) (i j : nat) : Q :=
  if Nat.eqb w 1 then u i j
  else if Nat.eqb i 0 then (u i j + u (w - 1)%nat j) / 2
  else if Nat.eqb i (w - 1) then (if Nat.eqb w 2 then u i j else (u i j + u (i - 1)%nat j + u i j) / 2)
  else (u i j + u (i - 1)%nat j) / 2.
Definition far_y (h : nat) (u : nat -> nat -> Q) (i j : nat) : Q :=
  if Nat.leb j 1 then (u i j + u i (h - 1)%nat) / 2 else (u i j + u i (j - 1)%nat) / 2.

(** A point of the direct lattice belongs to the design if, in all three components, the cell it lies in differs
    between foreground and background by more than a thousandth of the largest difference anywhere. *)
Definition differs (nx ny nz : nat) (bg fg : field) (i j : nat) : Prop := forall comp a b p q, (comp < 3)%nat -> (a < nx)%nat -> (b < ny)%nat -> (p < 2)%nat -> (q < 2)%nat -> quadrant nx ny comp a b p q = (i, j) ->
  forall comp' a' b', (comp' < 3)%nat -> (a' < nx)%nat -> (b' < ny)%nat -> (1 # 1000) * sumn nz (fun z => qabs (fg comp' a' b' z - bg comp' a' b' z)) < sumn nz (fun z => qabs (fg comp a b z - bg comp a b z)).
