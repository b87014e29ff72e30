(** Vocabulary for the statements about absorbing layers and grid spacings. *)
From Verif Require Import Base QTac Pml_Model.
From Coq Require Import ZArith.
Set Implicit Arguments.

(** equal complex numbers *)
Definition ceq (z w : cq) : Prop := cre z == cre w /\ cim z == cim w.
(** edge positions and cell centres of real cells [l] *)
Definition edge (l : list Q) (i : nat) : Q := sumn i (qn l).
Definition centre (l : list Q) (i : nat) : Q := (edge l i + edge l (S i)) / 2.
Fixpoint qpow (x : Q) (m : nat) : Q := match m with O => 1 | S m' => x * qpow x m' end.
(** relative imaginary part that an absorbing layer gives a cell at position [x]: the first
    [p] and the last [q] cells of [l] are layers, [-40 depth^4 / thickness / omega] *)
Definition absorption (omega : Q) (l : list Q) (p q i : nat) (x : Q) : Q :=
  let n := length l in
  if Nat.ltb i p then -40 * qpow ((edge l p - x) / edge l p) 4 / edge l p / omega
  else if Nat.leb (n - q) i then
    let th := edge l n - edge l (n - q) in -40 * qpow ((x - edge l (n - q)) / th) 4 / th / omega
  else 0.
Definition all_positive (l : list Q) : Prop := forall i, (i < length l)%nat -> 0 < qn l i.
(** number of layers at the front (first) and back of an axis *)
Definition nlayers (l : list Z) (axis : nat) (front : bool) : nat := Z.to_nat (nth (2 * axis + (if front then 0 else 1)) l 0%Z).
(** contents of the arrays of a grid spacing *)
Definition contents (h : heap) (d : dxes) (D : spacing) : Prop :=
  forall k, (k < 3)%nat -> get_arr h (fst d) k = Ok (D 0%nat k) /\ get_arr h (snd d) k = Ok (D 1%nat k).
Definition unchanged (h h' : heap) : Prop :=
  (forall r, (r < length (arrs h))%nat -> nth_error (arrs h') r = nth_error (arrs h) r) /\
  (forall r, (r < length (lists h))%nat -> nth_error (lists h') r = nth_error (lists h) r).
(** the lists and arrays of [d'] did not exist in the older heap [h] *)
Definition fresh_arrays (h h' : heap) (d' : dxes) : Prop :=
  (length (lists h) <= fst d')%nat /\ (length (lists h) <= snd d')%nat /\
  forall rs r, nth_error (lists h') (fst d') = Some rs \/ nth_error (lists h') (snd d') = Some rs -> In r rs -> (length (arrs h) <= r)%nat.
(** where a mesh box starts and ends *)
Definition in_box (b : box) (x : Q) : Prop := b_pos b - b_size b / 2 <= x /\ x <= b_pos b + b_size b / 2.
(** the point of the fine auxiliary grid at which the mesh size for a cell starting at [x] is looked up *)
Definition lookup_point (lo hi step x : Q) : Q :=
  fine_point lo hi step (Z.to_nat (Qround.Qfloor ((x - inject_Z (Qround.Qfloor lo)) / step))).
