(** Model of 1D rastering: /repo/spins/gridlock/float_raster.py:14-87 and
    /repo/spins/goos_sim/maxwell/render.py:198-225.
    Coordinates are exact rationals; arrays are lists. *)
From Verif Require Import QTac.
Set Implicit Arguments.
Open Scope Q_scope.

(** np.clip(i - 1, 0, hi) for an index i = digitize(..) >= 0 *)
Definition clip_pred (i hi : nat) : nat := Nat.min (Nat.pred i) hi.

(** raster_1D, float_raster.py:14-87.  [poly_x] is the list of end points; the two
    ValueErrors are lines 38-43.  np.digitize also raises when the grid is not
    monotonic: not modelled, the grid of a caller is increasing. *)
Definition raster_1D (poly_x grid_x : list Q) : res (list Q) :=
  match poly_x with
  | [a; b] =>
      if Nat.ltb (length grid_x) 2 then Err ValueError else
      let dim := length grid_x in
      let (p0, p1) := if qlt b a then (b, a) else (a, b) in             (* lines 50-51 *)
      if Qle_bool p1 (qn grid_x 0) || Qle_bool (qn grid_x (dim - 1)) p0  (* lines 55-56 *)
      then Ok (repeat 0 (dim - 1)) else
      let i0 := clip_pred (digitize p0 grid_x) (dim - 2) in              (* line 59 *)
      let i1 := clip_pred (digitize p1 grid_x) (dim - 2) in
      let area := map (fun j => if Nat.leb (i0 + 1) j && Nat.ltb j i1 then 1 else 0)
                      (seq 0 (dim - 1)) in                               (* lines 62-63 *)
      let start_frac := if qlt p0 (qn grid_x 0) then 1                   (* lines 66-70 *)
        else (qn grid_x (i0 + 1) - p0) / (qn grid_x (i0 + 1) - qn grid_x i0) in
      let end_frac := if qlt (qn grid_x (dim - 1)) p1 then 1             (* lines 72-76 *)
        else (p1 - qn grid_x i1) / (qn grid_x (i1 + 1) - qn grid_x i1) in
      Ok (if Nat.eqb i0 i1 then lset area i0 (start_frac + end_frac - 1) (* lines 79-85 *)
          else lset (lset area i0 start_frac) i1 end_frac)
  | _ => Err ValueError
  end.

(** get_rendering_matrix_1d, render.py:198-225.  A matrix is the list of its
    (row, column, weight) triples, as passed to csr_matrix. *)
Definition triple := (nat * nat * Q)%type.
(** the inner loop over [range(start, end)], lines 209-215: emitted triples and the
    final [last_coord]; [n] iterations left *)
Fixpoint render_inner (g : list Q) (i : nat) (n j : nat) (last : Q) : list triple * Q :=
  match n with
  | O => ([], last)
  | S n' =>
      let (ts, l) := render_inner g i n' (S j) (qn g j) in
      ((if Nat.leb 1 j then [(Nat.pred j, i, (qn g j - last) / (qn g j - qn g (Nat.pred j)))] else []) ++ ts, l)
  end.
(** one shape cell, lines 204-221 *)
Definition render_cell (s g : list Q) (i : nat) : list triple :=
  let start := digitize (qn s i) g in
  let stop := digitize (qn s (i + 1)) g in
  if Nat.ltb stop 1 then [] else
  let (ts, last) := render_inner g i (stop - start) start (qn s i) in
  ts ++ (if negb (Qeq_bool last (qn s (i + 1))) && Nat.ltb stop (length g)
         then [(Nat.pred stop, i, (qn s (i + 1) - last) / (qn g stop - qn g (Nat.pred stop)))] else []).
Definition rendering_matrix_1d (s g : list Q) : list triple :=
  flat_map (render_cell s g) (seq 0 (length s - 1)).
(** entry of the matrix: csr_matrix adds duplicates *)
Definition entry (m : list triple) (r c : nat) : Q :=
  qsum (map snd (filter (fun t => Nat.eqb (fst (fst t)) r && Nat.eqb (snd (fst t)) c) m)).
(** matrix times vector, one row *)
Definition mat_row (m : list triple) (r : nat) (v : list Q) : Q :=
  qsum (map (fun t => if Nat.eqb (fst (fst t)) r then snd t * qn v (snd (fst t)) else 0) m).
