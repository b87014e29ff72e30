(** Overlap fields imported from a file: invdes/problem_graph/creator_em.py:585-668
    (ImportOverlap).  Coordinates and fields are exact rationals; fields are complex.

    scipy's loadmat and RegularGridInterpolator are not part of the project: the first is an
    argument (the contents of the file), the second is written out below from its source
    (method linear, bounds_error False, fill_value 0). *)
From Verif Require Import QTac Grid_Model.
Set Implicit Arguments.
Open Scope Q_scope.

Definition C := (Q * Q)%type.
Definition cz : C := (0, 0).
Definition cplus (a b : C) : C := (fst a + fst b, snd a + snd b).
Definition cscale (k : Q) (a : C) : C := (k * fst a, k * snd a).

(** an ndarray: its shape and its entries *)
Record nd := Nd { sh : list nat; el : list nat -> C }.

(** what loadmat returns: coordinates x, y, z (0, 1, 2) as matrices, fields Ex, Ey, Ez (0, 1, 2) *)
Record mat := Mat { m_coord : dict (list (list Q)); m_field : dict nd }.

(** np.repeat(a, k, axis): every entry k times, one copy after the other; AxisError (a subclass
    of ValueError) if there is no such axis *)
Definition nd_repeat (a : nd) (k axis : nat) : res nd :=
  if Nat.ltb axis (length (sh a))
  then Ok (Nd (lset (sh a) axis (nth axis (sh a) 0 * k)%nat) (fun i => el a (lset i axis (nth axis i 0 / k)%nat)))
  else Err ValueError.

(** *** scipy.interpolate.RegularGridInterpolator *)
(** __init__: the coordinates strictly ascending, their number that of the entries *)
Fixpoint ascending (l : list Q) : bool :=
  match l with
  | a :: ((b :: _) as t) => qlt a b && ascending t
  | _ => true
  end.
(** arrays with more than three axes are not modelled (the reshape of line 664 rejects them
    unless the further axes have one entry each) *)
Definition interpolator_ok (cs : list (list Q)) (v : nd) : res unit :=
  if negb (Nat.eqb (length (sh v)) 3) then Err ValueError
  else if forallb (fun a => ascending (nth a cs []) && Nat.eqb (nth a (sh v) 0%nat) (length (nth a cs []))) [0; 1; 2]%nat
  then Ok tt else Err ValueError.
(** _find_indices: [searchsorted(grid, x) - 1], clipped to [0, size - 2] *)
Definition find_index (g : list Q) (x : Q) : nat :=
  Nat.min (Nat.pred (length (filter (fun b => qlt b x) g))) (length g - 2).
Definition norm_distance (g : list Q) (x : Q) : Q :=
  let i := find_index g x in (x - qn g i) / (qn g (S i) - qn g i).
Definition out_of_bounds (g : list Q) (x : Q) : bool := qlt x (qn g 0) || qlt (qlast g) x.
(** _evaluate_linear: one side ([false]: i, [true]: i + 1) per axis *)
Definition side_weight (side : bool) (t : Q) : Q := if side then t else 1 - t.
Definition corners : list (bool * bool * bool) :=
  [(false, false, false); (false, false, true); (false, true, false); (false, true, true);
   (true, false, false); (true, false, true); (true, true, false); (true, true, true)].
Definition b2n (b : bool) : nat := if b then 1%nat else 0%nat.
Definition evaluate_linear (gx gy gz : list Q) (v : nd) (x y z : Q) : C :=
  let i := find_index gx x in let j := find_index gy y in let k := find_index gz z in
  let tx := norm_distance gx x in let ty := norm_distance gy y in let tz := norm_distance gz z in
  fold_left (fun acc c =>
    match c with
    | (a, b, d) => cplus acc (cscale (side_weight a tx * side_weight b ty * side_weight d tz) (el v [i + b2n a; j + b2n b; k + b2n d]%nat))
    end) corners cz.
Definition interpolate (gx gy gz : list Q) (v : nd) (x y z : Q) : C :=
  if out_of_bounds gx x || out_of_bounds gy y || out_of_bounds gz z then cz
  else evaluate_linear gx gy gz v x y z.

(** *** ImportOverlap.__call__ *)
(** the grid of the background permittivity: its edges along each axis, the shifts of its components *)
Record grid3 := Grid3 { g_edges : nat -> list Q; g_shift : nat -> nat -> Q }.

(** lines 617-621: overlap["x"][0] + overlap_center[0] *)
Definition load_axis (m : mat) (center : nat -> Q) (a : nat) : res (list Q) :=
  match m_coord m a with
  | None => Err KeyError
  | Some [] => Err IndexError
  | Some (row :: _) => Ok (map (fun q => q + center a) row)
  end.
(** lines 638-642 *)
Fixpoint repeat_fields (comps : list nat) (f : dict nd) (k axis : nat) : res (dict nd) :=
  match comps with
  | [] => Ok f
  | c :: t => bind (dget f c) (fun v => bind (nd_repeat v k axis) (fun w => repeat_fields t (dset f c w) k axis))
  end.
(** lines 623-642, one axis *)
Definition widen_axis (g : grid3) (a : nat) (st : list (list Q) * dict nd) : res (list (list Q) * dict nd) :=
  let (cs, f) := st in
  let l := nth a cs [] in
  if Nat.eqb (length l) 1
  then let dx := qn (dxyz (g_edges g a)) 0 in
       let c := qn l 0 in
       let l' := [c - dx / 2; c; c + dx / 2] in
       bind (repeat_fields [0; 1; 2]%nat f (length l') a) (fun f' => Ok (lset cs a l', f'))
  else Ok st.
(** lines 654-656 *)
Definition sample_axis (g : grid3) (i a : nat) : list Q :=
  map (fun k => qn (centers (g_edges g a)) k + qn (dxyz (g_edges g a)) k * g_shift g i a) (seq 0 (length (g_edges g a) - 1)).
(** lines 644-666; the points of meshgrid(indexing='ij') in C order, and the values put back in
    the same order, are written as three nested maps.  An axis without coordinates makes the
    bounds test fail with IndexError. *)
Definition component (g : grid3) (cs : list (list Q)) (f : dict nd) (i : nat) : res (list (list (list C))) :=
  bind (dget f i) (fun v =>
  bind (interpolator_ok cs v) (fun _ =>
  if existsb (fun a => Nat.eqb (length (nth a cs [])) 0) [0; 1; 2]%nat then Err IndexError else
  Ok (map (fun x => map (fun y => map (fun z => interpolate (nth 0 cs []) (nth 1 cs []) (nth 2 cs []) v x y z)
        (sample_axis g i 2)) (sample_axis g i 1)) (sample_axis g i 0)))).
Definition import_overlap (g : grid3) (center : nat -> Q) (m : mat) : res (list (list (list (list C)))) :=
  bind (load_axis m center 0) (fun cx =>
  bind (load_axis m center 1) (fun cy =>
  bind (load_axis m center 2) (fun cz =>
  bind (widen_axis g 0 ([cx; cy; cz], m_field m)) (fun s0 =>
  bind (widen_axis g 1 s0) (fun s1 =>
  bind (widen_axis g 2 s1) (fun s2 =>
  bind (component g (fst s2) (snd s2) 0) (fun e0 =>
  bind (component g (fst s2) (snd s2) 1) (fun e1 =>
  bind (component g (fst s2) (snd s2) 2) (fun e2 => Ok [e0; e1; e2]))))))))).

(** gridlock/grid.py:192-206, shifted_xyz on the primary grid, one axis: where the grid itself
    says that the entries of a component are *)
Definition shifted_centers (e : list Q) (periodic : bool) (s : Q) : list Q :=
  map (fun k => qn (shifted_edges e periodic false s) k + qn (shifted_sizes e periodic false s) k / 2) (seq 0 (length e - 1)).
