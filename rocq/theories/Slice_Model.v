(** Positions and indices, slices, slabs and fills: /repo/spins/gridlock/grid.py.
    Coordinates and permittivities are exact rationals. *)
From Coq Require Import Qround.
From Verif Require Import QTac Grid_Model Layer_Model.
Set Implicit Arguments.
Open Scope Q_scope.

(** an axis of a grid: its edges, and for the shift asked for the shifted edges and cell sizes
    (lines 130-190, [Grid_Model.shifted_edges] and [shifted_sizes]) *)
Record ax := Ax { x_edges : list Q; x_sedges : list Q; x_ssizes : list Q }.
Definition cells (a : ax) : nat := (length (x_edges a) - 1)%nat.
(** the axis without shift, and with one *)
Definition plain (e : list Q) : ax := Ax e e (dxyz e).
Definition shifted (e : list Q) (per comp : bool) (s : Q) : ax := Ax e (shifted_edges e per comp s) (shifted_sizes e per comp s).
(** np.interp for increasing xs *)
Definition interp (x : Q) (xs ys : list Q) : Q :=
  if Qle_bool x (qn xs 0) then qn ys 0 else
  if Qle_bool (qlast xs) x then qlast ys else
  let i := Nat.pred (digitize x xs) in qn ys i + (x - qn xs i) / (qn xs (S i) - qn xs i) * (qn ys (S i) - qn ys i).
(** ind2pos, lines 220-267; [valid]: which_shifts is None or the number of a shift.  With round_ind
    the rounded index is a float, which numpy does not take as an index (line 258) *)
Definition ind2pos (g : list ax) (valid : bool) (ind : list Q) (round_ind check : bool) : res (list Q) :=
  if negb valid then Err GridError else
  let low := if round_ind then 0 else - (1 # 2) in
  let high := if round_ind then - (1) else - (1 # 2) in
  if check && existsb (fun p => qlt (snd p) low || qlt (qnat (cells (fst p)) - high) (snd p)) (combine g ind) then Err GridError else
  if round_ind then Err IndexError else
  Ok (map (fun p => interp (snd p) (map (fun i => qnat i - (1 # 2)) (seq 0 (length (x_sedges (fst p))))) (x_sedges (fst p))) (combine g ind)).
(** np.clip *)
Definition clip (x lo hi : Q) : Q := qmin (qmax x lo) hi.
(** pos2ind, lines 302-319, for one axis *)
Definition pos2ind_axis (a : ax) (r : Q) (round_ind : bool) : Q :=
  let d := digitize r (x_sedges a) in
  let n := length (x_sedges a) in
  let clipped := Nat.min (Nat.pred d) (n - 2) in
  if round_ind || Nat.eqb d 0 || negb (Nat.eqb (Nat.pred d) clipped) then qnat clipped
  else clip (qnat (Nat.pred d) + (r - qn (x_sedges a) (Nat.pred d)) / qn (x_ssizes a) (Nat.pred d)) 0 (qnat (n - 1)).
(** pos2ind, lines 269-319 *)
Definition pos2ind3 (g : list ax) (valid : bool) (r : list Q) (round_ind check : bool) : res (list Q) :=
  if negb (Nat.eqb (length r) 3) then Err GridError else
  if negb valid then Err GridError else
  if check && existsb (fun p => Nat.ltb 1 (cells (fst p)) && (qlt (snd p) (qn (x_sedges (fst p)) 0) || qlt (qlast (x_sedges (fst p))) (snd p))) (combine g r)
  then Err GridError else
  Ok (map (fun p => pos2ind_axis (fst p) (snd p) round_ind) (combine g r)).
(** coord2ind, lines 321-335: the other coordinates are those of the center, lines 105-116 *)
Definition grid_center (e : list Q) : Q := (qn e 0 + qn e 1 + qn e (length e - 2) + qlast e) / 4.
Definition coord2ind (g : list ax) (valid : bool) (r : Q) (axis : nat) (round_ind check : bool) : res Q :=
  bind (pos2ind3 g valid (map (fun p => if Nat.eqb (fst p) axis then r else grid_center (x_edges (snd p))) (combine (seq 0 3) g)) round_ind check)
       (fun l => Ok (qn l axis)).

(** conversion of a float to an integer array, as done by np.insert into an integer array *)
Definition trunc (x : Q) : Z := if Qle_bool 0 x then Qfloor x else (- Qfloor (- x))%Z.
(** number of elements of [::sp], sp > 0 *)
Definition strided (n sp : nat) : nat := ((n + sp - 1) / sp)%nat.
(** in-place addition of an array of length [strided n sp] to one of length [n] *)
Definition fits (n sp : nat) : bool := Nat.eqb (strided n sp) n || Nat.eqb (strided n sp) 1.
Definition source (n sp i : nat) : nat := if Nat.eqb (strided n sp) n then (i * sp)%nat else 0%nat.
(** get_slice, lines 970-1032, for valid normal and shift; [a] is the axis of the normal, [n1], [n2]
    the lengths of the others, [grid] the array with the normal first, [cplx] whether its type is
    complex (always, unless the arrays made in lines 421-423 are replaced).  The last squeeze drops
    axes of length one, which does not change values. *)
Definition get_slice (a : ax) (n1 n2 : nat) (cplx : bool) (grid : nat -> nat -> nat -> Q) (center : Q) (sp : Z) : res (nat -> nat -> Q) :=
  if Z.leb sp 0 then Err GridError else
  let s := Z.to_nat sp in
  let index := pos2ind_axis a (inject_Z (trunc center)) false in
  let planes := if Z.eqb (Qfloor index) (Qceiling index) then [(Qfloor index, 1)]
                else [(Qfloor index, 1 - (index - inject_Z (Qfloor index))); (Qceiling index, index - inject_Z (Qfloor index))] in
  let c := centers (x_edges a) in
  if qlt center (qn c 0) || qlt (qlast c) center then Err GridError else
  fold_left (fun acc p => bind acc (fun v =>
    if Z.ltb (fst p) (- Z.of_nat (cells a)) || Z.leb (Z.of_nat (cells a)) (fst p) then Err IndexError else
    let ci := Z.to_nat (if Z.ltb (fst p) 0 then fst p + Z.of_nat (cells a) else fst p) in
    if cplx then Err TypeError else
    if fits n1 s && fits n2 s then Ok (fun j k => v j k + snd p * grid ci (source n1 s j) (source n2 s k)) else Err ValueError))
    planes (Ok (fun _ _ => 0)).

(** *** slabs and fills.  Vectors over the three axes are functions of the axis. *)
Definition planar (ext : nat) : nat * nat := match ext with 0 => (1, 2) | 1 => (0, 2) | _ => (0, 1) end%nat.
(** draw_cuboid for the extrusion axis [ext], lines 512-547 *)
Definition cuboid3 (ext : nat) (bs : list block) (center extent : nat -> Q) (eps : list Q) : res (list block) :=
  let p := planar ext in
  draw_cuboid bs (center (fst p)) (center (snd p)) (center ext) (extent (fst p)) (extent (snd p)) (extent ext) eps.
(** a permittivity: a number, or an array with one for each component *)
Inductive epsarg := EScalar (q : Q) | EArray (l : list Q).
(** lines 527-532, 599-605 *)
Definition eps_list (num_shifts : nat) (e : epsarg) : res (list Q) :=
  match e with
  | EScalar q => Ok (repeat (1 * q) num_shifts)
  | EArray l => if Nat.eqb (length l) num_shifts then Ok l else Err GridError
  end.
(** a direction: a member of the enumeration, a number, or something with a length *)
Inductive dirarg := DDir (a : nat) | DInt (z : Z) | DSized.
Definition slab_dir (d : dirarg) : res nat :=
  match d with DDir a => Ok a | DSized => Err GridError | DInt z => if Z.leb 0 z && Z.ltb z 3 then Ok (Z.to_nat z) else Err GridError end.
(** lines 626-631, 657-662 name an undefined variable *)
Definition fill_dir (d : dirarg) : res nat := match d with DDir a => Ok a | DSized => Err GridError | DInt _ => Err NameError end.
Definition qabs (x : Q) : Q := if Qle_bool 0 x then x else - x.
Section Draw.
Variables (exyz : nat -> list Q) (ext num_shifts : nat).
(** draw_slab, lines 583-613, for a scalar center *)
Definition draw_slab (bs : list block) (d : dirarg) (center thickness : Q) (eps : epsarg) : res (list block) :=
  bind (slab_dir d) (fun dir => bind (eps_list num_shifts eps) (fun e =>
  cuboid3 ext bs (fun a => if Nat.eqb a dir then center else grid_center (exyz a))
                 (fun a => if Nat.eqb a dir then thickness else 2 * qabs (qlast (exyz a) - qn (exyz a) 0)) e)).
Definition edge_lim (dir : nat) (pol : Z) : Q := if Z.eqb pol (-1) then qn (exyz dir) 0 else qlast (exyz dir).
(** fill_slab, lines 653-678 *)
Definition fill_slab (bs : list block) (d : dirarg) (pol : Z) (surf : Q) (eps : epsarg) : res (list block) :=
  bind (fill_dir d) (fun dir =>
  if negb (Z.eqb pol (-1) || Z.eqb pol 1) then Err GridError else
  let thickness := 2 * qabs (edge_lim dir pol - surf) in
  draw_slab bs (DInt (Z.of_nat dir)) (surf + (1 # 2) * inject_Z pol * thickness) thickness eps).
(** fill_cuboid, lines 615-651, for arrays of the right shape; [surf_extent] are the extents along the
    other axes, [int] tells whether their array is one of integers *)
Definition fill_cuboid (bs : list block) (d : dirarg) (pol : Z) (surf : nat -> Q) (surf_extent : list Q) (int : bool) (eps : epsarg) : res (list block) :=
  bind (fill_dir d) (fun dir =>
  if negb (Z.eqb pol (-1) || Z.eqb pol 1) then Err GridError else
  let t := 2 * qabs (edge_lim dir pol - surf dir) in
  let thickness := if int then inject_Z (trunc t) else t in
  let extent a := qn (firstn dir surf_extent ++ thickness :: skipn dir surf_extent) a in
  bind (eps_list num_shifts eps) (fun e =>
  cuboid3 ext bs (fun a => if Nat.eqb a dir then surf a + (1 # 2) * inject_Z pol * extent a else surf a) extent e)).
End Draw.
