(** Model of drawing a pixelated shape into the simulation grid and of the gradient:
    /repo/spins/goos_sim/maxwell/render.py:109-159, 190-195.
    Three-dimensional arrays are flat lists in C order (ndarray.flatten and np.reshape
    are the identity on this representation); complex numbers are pairs of rationals. *)
From Verif Require Import QTac Raster_Model Grid_Model.
Set Implicit Arguments.
Open Scope Q_scope.

Definition cplx := (Q * Q)%type.
Definition cn (l : list cplx) (i : nat) : cplx := nth i l (0, 0).
(** scipy.sparse.kron of matrices given as triples; [rb], [cb] is the shape of [b] *)
Definition kron (a b : list triple) (rb cb : nat) : list triple :=
  flat_map (fun t => map (fun u => ((fst (fst t) * rb + fst (fst u))%nat, (snd (fst t) * cb + snd (fst u))%nat, snd t * snd u)) b) a.
Definition cells (e : list Q) : nat := (length e - 1)%nat.
(** three edge lists, one per axis *)
Record edges3 := Edges { ex : list Q; ey : list Q; ez : list Q }.
Definition size3 (e : edges3) : nat := (cells (ex e) * cells (ey e) * cells (ez e))%nat.
(** position of cell (i,j,k) in the flattened array *)
Definition flat3 (e : edges3) (i j k : nat) : nat := ((i * cells (ey e) + j) * cells (ez e) + k)%nat.
(** get_rendering_matrix, lines 190-195 *)
Definition rendering_matrix (s g : edges3) : list triple :=
  kron (kron (rendering_matrix_1d (ex s) (ex g)) (rendering_matrix_1d (ey s) (ey g)) (cells (ey g)) (cells (ey s)))
       (rendering_matrix_1d (ez s) (ez g)) (cells (ez g)) (cells (ez s)).
(** grid coordinates used for component [axis], lines 124-131, with the default
    complementary shifts Yee_Shifts_H (grid.py:55-56): half a cell along the other axes.
    [per] is self.periodic of the grid. *)
Definition comp_edges (g : edges3) (per : bool) (axis : nat) : edges3 :=
  let sh a := if Nat.eqb a axis then 0 else 1 # 2 in
  Edges (render_edges (ex g) per (sh 0%nat)) (render_edges (ey g) per (sh 1%nat)) (render_edges (ez g) per (sh 2%nat)).
(** PixelatedContShapeFlowImpl.eval, the grid returned for component [axis] (lines 132-135) *)
Definition eval_component (contrast : cplx) (s g : edges3) (per : bool) (array : list Q) (axis : nat) : list cplx :=
  map (fun r => let x := mat_row (rendering_matrix s (comp_edges g per axis)) r array in
                (fst contrast * x, snd contrast * x)) (seq 0 (size3 g)).
(** one entry of mat.T @ v *)
Definition mat_col (m : list triple) (c : nat) (v : nat -> Q) : Q :=
  qsum (map (fun t => if Nat.eqb (snd (fst t)) c then snd t * v (fst (fst t)) else 0) m).
(** one turn of the loop of PixelatedContShapeFlowImpl.grad (lines 144-157); [gk] is
    grid.grids[axis], [isc] the value of np.iscomplexobj(grid_vals), [acc] is grad *)
Definition grad_axis (contrast : cplx) (s g : edges3) (per : bool) (axis : nat) (gk : list cplx) (isc : bool) (acc : list Q) : list Q :=
  let m := rendering_matrix s (comp_edges g per axis) in
  map (fun c =>
         let re := mat_col m c (fun r => fst (cn gk r)) in
         let im := mat_col m c (fun r => snd (cn gk r)) in
         let x := qn acc c + (fst contrast * re - snd contrast * im) in  (* grad += np.real(..) *)
         if isc then x * 2 else x)                                        (* lines 156-157 *)
      (seq 0 (size3 s)).
Definition render_grad (contrast : cplx) (s g : edges3) (per : bool) (grids : nat -> list cplx) (isc : bool) : list Q :=
  let step axis := grad_axis contrast s g per axis (grids axis) isc in
  step 2%nat (step 1%nat (step 0%nat (repeat 0 (size3 s)))).
