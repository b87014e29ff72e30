(** Vocabulary for positions, slices and slabs. *)
From Coq Require Import Reals Qreals.
From Verif Require Import QTac Grid_Model Layer_Model Layer_Spec Slice_Model.
Set Implicit Arguments.
Open Scope Q_scope.

(** increasing shifted edges, cell sizes their differences *)
Definition axis_good (a : ax) : Prop :=
  increasing (x_sedges a) /\ (2 <= length (x_sedges a))%nat /\
  forall i, (S i < length (x_sedges a))%nat -> qn (x_ssizes a) i == qn (x_sedges a) (S i) - qn (x_sedges a) i.
(** r is in cell i *)
Definition in_cell (e : list Q) (i : nat) (r : Q) : Prop := (S i < length e)%nat /\ qn e i <= r /\ r < qn e (S i).
(** the part of the cell below r *)
Definition fraction (e : list Q) (i : nat) (r : Q) : Q := (r - qn e i) / (qn e (S i) - qn e i).
(** the two other axes, in increasing order *)
Definition across (ext : nat) : nat * nat := (if Nat.eqb ext 0 then 1 else 0, if Nat.ltb ext 2 then 2 else 1)%nat.
(** the block drawn for the extrusion axis [ext] contains the point [p], a vector over the axes *)
Definition covers (ext : nat) (b : block) (p : nat -> R) : Prop := contains b (p (fst (across ext))) (p (snd (across ext))) (p ext).
(** a grid: three axes with at least one cell each, an extrusion axis *)
Definition grid3 (exyz : nat -> list Q) (ext : nat) : Prop := (ext < 3)%nat /\ forall a, (a < 3)%nat -> increasing (exyz a) /\ (2 <= length (exyz a))%nat.
(** between the first and the last edge of an axis *)
Definition within (e : list Q) (x : R) : Prop := (Q2R (qn e 0) <= x <= Q2R (qlast e))%R.
(** between the ghost cell at the start and the last edge, where the cells of the Yee grid are *)
Definition reached (e : list Q) (per : bool) (x : R) : Prop := (Q2R (qn e 0) - Q2R (ghost_size e per) / 2 < x <= Q2R (qlast e))%R.
(** the first cell is not much larger than the last; only needed for periodic axes *)
Definition balanced (e : list Q) (per : bool) : Prop := per = false \/ qn e 1 - qn e 0 <= 3 * (qlast e - qn e (length e - 2)).
(** the axes of a component are those of the grid *)
Definition axis_of (a : axis) (e : list Q) : Prop := a_edges a = e /\ 0 <= a_comp a /\ a_comp a <= 1 # 2 /\ balanced e (a_periodic a).
Definition component_of (ext : nat) (exyz : nat -> list Q) (c : component) : Prop :=
  axis_of (c_x c) (exyz (fst (across ext))) /\ axis_of (c_y c) (exyz (snd (across ext))) /\ axis_of (c_z c) (exyz ext).
Definition axis_at (ext : nat) (c : component) (a : nat) : axis :=
  if Nat.eqb a (fst (across ext)) then c_x c else if Nat.eqb a (snd (across ext)) then c_y c else c_z c.
Definition at_axis (ext : nat) (i j k : nat) (a : nat) : nat :=
  if Nat.eqb a (fst (across ext)) then i else if Nat.eqb a (snd (across ext)) then j else k.
(** extent of a surface along another axis *)
Definition lateral (dir : nat) (l : list Q) (a : nat) : Q := if Nat.ltb a dir then qn l a else qn l (a - 1).
