(** Model of drawing and rendering blocks: /repo/spins/gridlock/grid.py.
    Coordinates and permittivities are exact rationals (the code's complex permittivities
    enter linearly, so real and imaginary part behave alike).  An array over the cells is a
    function of three indices: the two planar axes in their order, then the extrusion axis;
    the transposition of lines 876-877 to the order of the axes is left out. *)
From Verif Require Import QTac Raster_Model Grid_Model Raster2_Model.
Set Implicit Arguments.
Open Scope Q_scope.

Definition polygon := list pt.
(** an entry of [list_polygons] and of [list_z]; one permittivity per grid component *)
Record block := mkblock { b_poly : polygon; b_lo : Q; b_hi : Q; b_eps : list Q }.

(** draw_polygon, lines 468-510, for well-shaped arrays and a scalar permittivity or one per
    component (other lengths are not rejected there); [cx], [cy] are the planar coordinates of the
    center and [cz] the one along the extrusion axis *)
Definition draw_polygon (bs : list block) (cx cy cz : Q) (poly : polygon) (thickness : Q) (eps : list Q) : res (list block) :=
  if Nat.leb (length poly) 2 then Err GridError else
  if Qle_bool thickness 0 then Err GridError else
  Ok (bs ++ [mkblock (map (fun p => (fst p + cx, snd p + cy)) poly) (cz - (1 # 2) * thickness) (cz + (1 # 2) * thickness) eps]).
(** draw_cuboid, lines 512-547; the extents along the planar axes and the extrusion axis *)
Definition draw_cuboid (bs : list block) (cx cy cz ex ey ez : Q) (eps : list Q) : res (list block) :=
  let h x := (1 # 2) * x in
  draw_polygon bs cx cy cz [(h (- ex), h ey); (h ex, h ey); (h ex, h (- ey)); (h (- ex), h (- ey))] ez eps.

(** np.searchsorted, side left: the number of smaller elements *)
Definition searchsorted (l : list Q) (x : Q) : nat := length (filter (fun y => qlt y x) l).
(** compute_layers, lines 680-697 *)
Definition layer_z (bs : list block) : list Q := unique (map b_lo bs ++ map b_hi bs).
Definition layer_polygons (bs : list block) : list (list (polygon * list Q)) :=
  let z := layer_z bs in
  map (fun k => map (fun b => (b_poly b, b_eps b))
                 (filter (fun b => Nat.leb (searchsorted z (b_lo b)) k && Nat.ltb k (searchsorted z (b_hi b))) bs))
      (seq 0 (length z - 1)).

Section clipper.
(** gdspy.fast_boolean(p, q, 'not') is external; None reads as no polygons, lines 739-744 *)
Variable boolean_not : polygon -> polygon -> list polygon.

(** check_bounding_box, lines 708-728; the second comparisons compare the second polygon with itself *)
Definition check_bounding_box (p q : polygon) : bool :=
  let mx f l := amax (map f l) in let mn f l := amin (map f l) in
  if qlt (mx fst p) (mn fst q) || qlt (mx fst q) (mn fst q) then false
  else if qlt (mx snd p) (mn snd q) || qlt (mx snd q) (mn snd q) then false
  else true.
(** lines 730-747 *)
Definition compute_intersection (p q : polygon) : list polygon :=
  if check_bounding_box p q then boolean_not p q else [p].
(** remove_intersection for one layer, lines 751-770 *)
Definition reduce_step (red : list (polygon * list Q)) (x : polygon * list Q) : list (polygon * list Q) :=
  flat_map (fun r => map (fun p => (p, snd r)) (compute_intersection (fst r) (fst x))) red ++ [x].
Definition reduce_layer (l : list (polygon * list Q)) : list (polygon * list Q) :=
  match l with [] => [] | x :: l' => fold_left reduce_step l' [x] end.

(** one axis of one component: the cell edges, periodicity, shift and complementary shift *)
Record axis := mkaxis { a_edges : list Q; a_periodic : bool; a_shift : Q; a_comp : Q }.
Definition array := nat -> nat -> nat -> Q.
Record component := mkcomp { c_x : axis; c_y : axis; c_z : axis; c_bg : array }.
Definition num_cells (a : axis) : nat := (length (a_edges a) - 1)%nat.
(** pos2ind on the primary grid without bounds check, lines 305-316 *)
Definition cell_index (a : axis) (r : Q) : nat :=
  let e := shifted_edges (a_edges a) (a_periodic a) false (a_shift a) in
  Nat.min (Nat.pred (digitize r e)) (length e - 2).
(** the affected cells and the edges passed on, lines 813-863 (the same along all axes);
    the bound by [comp_shape] in lines 843-844 and 860-861 is not reached *)
Definition corners (a : axis) (lo hi : Q) : nat * nat := (cell_index a lo, Nat.min (cell_index a hi + 1) (num_cells a - 1)).
Definition comp_shape (a : axis) : nat := if Qeq_bool (a_comp a) 0 then (num_cells a + 2)%nat else (num_cells a + 1)%nat.
Definition edge_slice (a : axis) (lo hi : Q) : list Q :=
  let (j, m) := corners a lo hi in
  let f := Nat.min (m + 1) (comp_shape a - 1) in
  firstn (f + 1 - j) (skipn j (shifted_edges (a_edges a) (a_periodic a) true (a_comp a))).
(** the weights of one polygon in one component, 0 outside the affected cells, lines 812-877 *)
Definition weights (c : component) (poly : polygon) (z0 z1 : Q) : res array :=
  let bx := (amin (map fst poly), amax (map fst poly)) in
  let by_ := (amin (map snd poly), amax (map snd poly)) in
  let bz := (qmin z0 z1, qmax z0 z1) in
  bind (raster_2D poly (edge_slice (c_x c) (fst bx) (snd bx)) (edge_slice (c_y c) (fst by_) (snd by_))) (fun w_xy =>
  bind (raster_1D [z0; z1] (edge_slice (c_z c) (fst bz) (snd bz))) (fun w_z =>
  let inside a b n := let (j, f) := corners a (fst b) (snd b) in Nat.leb j n && Nat.leb n f in
  let start a b := fst (corners a (fst b) (snd b)) in
  Ok (fun i j k => if inside (c_x c) bx i && inside (c_y c) by_ j && inside (c_z c) bz k
                   then pixel w_xy (i - start (c_x c) bx) (j - start (c_y c) by_) * qn w_z (k - start (c_z c) bz)
                   else 0))).
(** render_polygon, lines 774-895; the state holds [grids] and [frac_bg] of every component *)
Definition render_polygon (cs : list component) (poly : polygon) (z0 z1 : Q) (eps : list Q) (st : list (array * array))
  : res (list (array * array)) :=
  if Nat.leb (length poly) 2 then Err GridError else
  mapM (fun x => let '(n, (c, (g, f))) := x in
         bind (weights c poly z0 z1) (fun w =>
         match nth_error eps n with
         | Some e => Ok ((fun i j k => g i j k + e * w i j k), (fun i j k => f i j k - w i j k))
         | None => Err IndexError
         end))
       (combine (seq 0 (length cs)) (combine cs st)).
Fixpoint render_layer (cs : list component) (ps : list (polygon * list Q)) (z0 z1 : Q) (st : list (array * array))
  : res (list (array * array)) :=
  match ps with
  | [] => Ok st
  | (p, eps) :: ps' => bind (render_polygon cs p z0 z1 eps st) (render_layer cs ps' z0 z1)
  end.
Fixpoint render_layers (cs : list component) (ls : list (list (polygon * list Q))) (z : list Q) (i : nat) (st : list (array * array))
  : res (list (array * array)) :=
  match ls with
  | [] => Ok st
  | l :: ls' => bind (render_layer cs l (qn z i) (qn z (i + 1)) st) (render_layers cs ls' z (S i))
  end.
(** render, lines 916-968; [num_shifts] is the number of shifts, at least the number of components *)
Definition render (cs : list component) (num_shifts : nat) (bs : list block) (disable_intersection : bool)
  : res (list array) :=
  let ls := layer_polygons bs in
  let ls := if disable_intersection then ls else map reduce_layer ls in
  bind (render_layers cs ls (layer_z bs) 0 (repeat ((fun _ _ _ => 0), (fun _ _ _ => 1)) (length cs))) (fun st =>
  if Nat.ltb (length cs) num_shifts then Err IndexError else
  Ok (map (fun x => let '(c, (g, f)) := x in fun i j k => g i j k + c_bg c i j k * f i j k) (combine cs st))).
End clipper.
