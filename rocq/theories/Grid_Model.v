(** Model of grid construction and region slicing, one axis at a time (the code
    treats the axes independently).  Coordinates are exact rationals. *)
From Coq Require Import Qround.
From Verif Require Import QTac.
Set Implicit Arguments.
Open Scope Q_scope.

Definition qnat (n : nat) : Q := inject_Z (Z.of_nat n).
(** np.arange(start, stop, step), step > 0 *)
Definition arange_len (start stop step : Q) : nat := Z.to_nat (Qceiling ((stop - start) / step)).
Definition arange (start stop step : Q) : list Q :=
  map (fun i => start + qnat i * step) (seq 0 (arange_len start stop step)).
(** [e[-1]] *)
Definition qlast (l : list Q) : Q := qn l (length l - 1).

(** goos_sim/maxwell/simspace.py:65-111, create_edge_coords for one axis *)
Definition is_integer (x : Q) : bool := Qeq_bool (inject_Z (Qfloor x)) x.
Definition sim_extent (ext dx : Q) (sym : bool) : Q :=
  let e := qmax ext dx in                                                    (* line 85 *)
  if sym && negb (is_integer (e / (2 * dx)))                                 (* lines 89-92 *)
  then inject_Z (Qfloor (e / (2 * dx))) * 2 * dx else e.
Definition create_edge_coords (ext c dx : Q) (sym : bool) : list Q :=
  let e := sim_extent ext dx sym in
  let l := arange (c - e / 2) (c + e / 2 + dx / 2) dx in                     (* lines 99-104 *)
  map (fun x => x - (qn l 0 + qlast l) / 2 + c) l.                           (* lines 107-110 *)

(** invdes/problem_graph/simspace.py:173-193, _create_edge_coords for one axis *)
Definition create_edge_coords_invdes (ext c dx : Q) : list Q :=
  arange (c - ext / 2 - dx / 2) (c + ext / 2 + dx / 2) dx.

(** goos/shapes.py:239-267, get_relative_edge_coords for one axis (pixel size p) *)
Definition relative_edge_coords (ext p : Q) : list Q :=
  let n0 := Qceiling (ext / p) in
  let n := if qlt (inject_Z n0 * p) ext then (n0 + 1)%Z else n0 in           (* lines 256-258 *)
  let k := Z.to_nat (n + 1) in                                               (* np.arange(0, n + 1) *)
  let l := map (fun i => p * qnat i) (seq 0 k) in
  let l := map (fun x => x - (qn l 0 + qlast l) / 2) l in
  let l := lset l 0 (- ext / 2) in                                           (* lines 264-266 *)
  lset l (length l - 1) (ext / 2).
(** goos/shapes.py:275-293, get_shape for one axis; [int] truncates *)
Definition pixel_count (ext p : Q) : Z :=
  let size := (Qfloor (ext / p) + 1)%Z in
  if Qle_bool ext (p * inject_Z (size - 1)) then (size - 1)%Z else size.
(** goos/shapes.py:207-221, get_relative_cell_coords *)
Definition relative_cell_coords (ext p : Q) : list Q :=
  let e := relative_edge_coords ext p in
  map (fun i => (qn e i + qn e (S i)) / 2) (seq 0 (length e - 1)).

(** gridlock/grid.py:69-76: cell centres *)
Definition centers (e : list Q) : list Q := map (fun i => qn e i + (qn e (S i) - qn e i) / 2) (seq 0 (length e - 1)).
(** gridlock/grid.py:269-319, pos2ind with round_ind=True, check_bounds=True, which_shifts=None *)
Definition pos2ind (e : list Q) (r : Q) : res nat :=
  let n := (length e - 1)%nat in
  if Nat.ltb 1 n && (qlt r (qn e 0) || qlt (qlast e) r) then Err GridError
  else Ok (Nat.min (Nat.pred (digitize r e)) (length e - 2)).
(** create_region_slices for one axis: goos_sim/maxwell/simspace.py:117-172,
    invdes/problem_graph/grid_utils.py:14-69 (same text) *)
Definition region_slice (e : list Q) (center extent : Q) : res (nat * nat) :=
  let mn := center - extent / 2 in
  let mx := center + extent / 2 in
  let cs := centers e in
  let mnc := qmax (qn cs 0) mn in
  let mxc := qmin (qlast cs) mx in
  bind (pos2ind e mnc) (fun i0 =>
  bind (pos2ind e mxc) (fun i1 =>
  let i0 := if qlt mn mnc then 0%nat else i0 in
  let i1 := if qlt mxc mx then (i1 + 1)%nat else i1 in
  Ok (i0, Nat.max i1 (i0 + 1)))).

(** *** shifted grids, gridlock/grid.py, one axis *)
(** lines 59-66 *)
Definition dxyz (e : list Q) : list Q := map (fun i => qn e (S i) - qn e i) (seq 0 (length e - 1)).
(** lines 88-103: the ghost cell repeats the first cell if periodic, else the last *)
Definition ghost_size (e : list Q) (periodic : bool) : Q :=
  if periodic then qn (dxyz e) 0 else qlast (dxyz e).
Definition dxyz_with_ghost (e : list Q) (periodic : bool) : list Q := dxyz e ++ [ghost_size e periodic].
(** lines 130-157; [comp] selects the complementary grid *)
Definition shifted_edges (e : list Q) (periodic comp : bool) (s : Q) : list Q :=
  let d := dxyz_with_ghost e periodic in
  let l := map (fun i => qn e i + qn d i * s) (seq 0 (length e)) in
  if comp && negb (Qeq_bool s 0) then (qn e 0 - qlast d * s) :: l else l.
(** lines 159-190 *)
Definition shifted_sizes (e : list Q) (periodic comp : bool) (s : Q) : list Q :=
  let d := dxyz_with_ghost e periodic in
  let l := map (fun i => qn d i * (1 - s) + qn d (S i) * s) (seq 0 (length e - 1)) in
  if comp && negb (Qeq_bool s 0) then (qlast d * (1 - s) + qn d 0 * s) :: l else l.
(** goos_sim/maxwell/render.py:124-131: edges used for rendering; the ghost cell at
    the end is removed *)
Definition render_edges (e : list Q) (periodic : bool) (s : Q) : list Q :=
  let l := shifted_edges e periodic true s in
  if Nat.eqb (length l) (length e) then l else firstn (length l - 1) l.
