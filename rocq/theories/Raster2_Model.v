(** Model of 2D rastering: /repo/spins/gridlock/float_raster.py:90-477.
    Coordinates are exact rationals; a 2 x N array of vertices is a list of points;
    a complex number x + iy is a point.  Grid edges are increasing lists. *)
From Verif Require Import QTac.
Set Implicit Arguments.
Open Scope Q_scope.

Definition pt := (Q * Q)%type.

(** [min] and [max] of an array, which raise ValueError when it is empty (here 0: the
    caller checks first) *)
Definition amin (l : list Q) : Q := fold_left qmin (tl l) (hd 0 l).
Definition amax (l : list Q) : Q := fold_left qmax (tl l) (hd 0 l).
(** np.unique: sorted without repetitions *)
Fixpoint uinsert (x : Q) (l : list Q) : list Q :=
  match l with
  | [] => [x]
  | y :: l' => if qlt x y then x :: l else if Qeq_bool x y then l else y :: uinsert x l'
  end.
Definition unique (l : list Q) : list Q := fold_right uinsert [] l.
(** each element with its successor, the last with the first: np.roll(-1), line 276 *)
Definition cyclic {A} (l : list A) : list (A * A) := combine l (tl l ++ firstn 1 l).

(** _compute_intersections, lines 90-248, for one segment of each set: [frac_a] and the
    point where [adj_mat] is true (lines 202-246).  For parallel segments the fractions
    are infinite or nan and the comparisons false. *)
Definition intersection (a b c d : pt) : option (Q * pt) :=
  let numerator_a := (fst c - fst a) * (snd d - snd c) - (snd c - snd a) * (fst d - fst c) in
  let numerator_b := (fst c - fst a) * (snd b - snd a) - (snd c - snd a) * (fst b - fst a) in
  let denominator := (snd d - snd c) * (fst b - fst a) - (fst d - fst c) * (snd b - snd a) in
  if Qeq_bool denominator 0 then None else
  let frac_a := numerator_a / denominator in
  let frac_b := numerator_b / denominator in
  if Qle_bool 0 frac_a && Qle_bool frac_a 1 && Qle_bool 0 frac_b && Qle_bool frac_b 1
  then Some (frac_a, (fst a + (fst b - fst a) * frac_a, snd a + (snd b - snd a) * frac_a))
  else None.

(** the grid lines within the bounding box, and the box itself, lines 286-303 *)
Definition local_grid (coords grid : list Q) : list Q :=
  unique (amin coords :: filter (fun g => Qle_bool (amin coords) g && Qle_bool g (amax coords)) grid ++ [amax coords]).
(** end points of the grid lines: the horizontal ones, then the vertical ones, lines 304-325 *)
Definition grid_lines (lx ly : list Q) : list (pt * pt) :=
  let x0 := hd 0 lx in let x1 := last lx 0 in let y0 := hd 0 ly in let y1 := last ly 0 in
  map (fun y => ((x0, y), (x1, y))) ly ++ map (fun x => ((x, y0), (x, y1))) lx.

(** np.clip *)
Definition clip (lo hi x : Q) : Q := qmin (qmax x lo) hi.
Definition clip_pt (gx gy : list Q) (p : pt) : pt :=
  (clip (hd 0 gx) (last gx 0) (fst p), clip (hd 0 gy) (last gy 0) (snd p)).

(** sorting by [frac_a]: the argsort of line 357 restricted to the retained entries *)
Fixpoint insert_by (x : Q * pt) (l : list (Q * pt)) : list (Q * pt) :=
  match l with
  | [] => [x]
  | y :: l' => if Qle_bool (fst x) (fst y) then x :: l else y :: insert_by x l'
  end.
Definition sort_by (l : list (Q * pt)) : list (Q * pt) := fold_right insert_by [] l.
Definition crossings (lines : list (pt * pt)) (a b : pt) : list (Q * pt) :=
  sort_by (flat_map (fun cd => match intersection a b (fst cd) (snd cd) with Some x => [x] | None => [] end) lines).

(** lines 403-408 *)
Definition inside (gx gy : list Q) (p : pt) : bool :=
  Qle_bool (fst p) (last gx 0) && Qle_bool (hd 0 gx) (fst p) && Qle_bool (snd p) (last gy 0) && Qle_bool (hd 0 gy) (snd p).
(** lines 410-411: vertices that differ from the one before *)
Definition same_pt (p q : pt) : bool := Qeq_bool (fst p) (fst q) && Qeq_bool (snd p) (snd q).
Fixpoint drop_repeats (prev : pt) (l : list pt) : list pt :=
  match l with
  | [] => []
  | v :: l' => if same_pt v prev then drop_repeats v l' else v :: drop_repeats v l'
  end.
Definition consecutive_unique (l : list pt) : list pt :=
  match l with [] => [] | v :: l' => v :: drop_repeats v l' end.

(** _expand_polygon_vertices, lines 251-413, for a nonempty polygon *)
Definition expand_polygon (poly : list pt) (gx gy : list Q) : list pt :=
  let lines := grid_lines (local_grid (map fst poly) gx) (local_grid (map snd poly) gy) in
  let rows := flat_map (fun ab => fst ab :: map (fun c => clip_pt gx gy (snd c)) (crossings lines (fst ab) (snd ab))) (cyclic poly) in
  consecutive_unique (filter (inside gx gy) rows).

(** one segment: its pixel, [area] and [cover], lines 450-465; None for the segments
    dropped by [non_edge] *)
Definition segment (gx gy : list Q) (p q : pt) : option (nat * nat * Q * Q) :=
  let mx := (fst p + fst q) * (1 # 2) in
  let my := (snd p + snd q) * (1 # 2) in
  if qlt mx (last gx 0) && qlt my (last gy 0) then
    let xs := (digitize mx gx - 1)%nat in
    let ys := (digitize my gy - 1)%nat in
    let cover := (snd q - snd p) / (qn gy (ys + 1) - qn gy ys) in
    let area := (mx - qn gx xs) * cover / (qn gx (xs + 1) - qn gx xs) in
    Some (xs, ys, area, cover)
  else None.
(** entry (i, j) of the coo_matrix, which adds duplicates, lines 467-474: real and imaginary part *)
Definition poly_grid_re (segs : list (nat * nat * Q * Q)) (i j : nat) : Q :=
  qsum (map (fun s => match s with (xs, ys, area, _) => if Nat.eqb xs i && Nat.eqb ys j then - area else 0 end) segs).
Definition poly_grid_im (segs : list (nat * nat * Q * Q)) (i j : nat) : Q :=
  qsum (map (fun s => match s with (xs, ys, _, cover) => if Nat.eqb xs i && Nat.eqb ys j then cover else 0 end) segs).
Definition qabs (x : Q) : Q := if qlt x 0 then - x else x.

(** raster_2D, lines 416-477.  The ValueError of line 446 cannot occur with a list of
    points; an empty polygon raises ValueError in [min]. *)
Definition raster_2D (poly : list pt) (gx gy : list Q) : res (list (list Q)) :=
  if Nat.ltb (length gx) 2 || Nat.ltb (length gy) 2 then Err ValueError else
  match poly with
  | [] => Err ValueError
  | _ =>
    let vertices := expand_polygon poly gx gy in
    let table f := map (fun i => map (f i) (seq 0 (length gy - 1))) (seq 0 (length gx - 1)) in
    match vertices with
    | [] => Ok (table (fun _ _ => 0))
    | _ =>
      let segs := flat_map (fun pq => match segment gx gy (fst pq) (snd pq) with Some s => [s] | None => [] end) (cyclic vertices) in
      Ok (table (fun i j => qabs (poly_grid_re segs i j + sumn (i + 1) (fun k => poly_grid_im segs k j))))
    end
  end.
(** entry of the result *)
Definition pixel (r : list (list Q)) (i j : nat) : Q := nth j (nth i r []) 0.
