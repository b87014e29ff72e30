(** Model of /repo/spins/goos/grating.py (discretization, constraints, multi-etch structures)
    and /repo/spins/invdes/problem/grating.py.  Floats are exact rationals. *)
From Verif Require Import Base QTac.
From Coq Require Import ZArith Qround.
Set Implicit Arguments.

(** *** GratingFeatureConstraint, invdes/problem/grating.py:12-138 *)
(** _diff_matrix: the matrix of np.diff, lines 12-23.  For fewer than two entries the circulant
    matrix does not have the right number of columns and the product raises ValueError *)
Definition diff_matrix (n : nat) : list (list Q) :=
  map (fun r => map (fun c => if Nat.eqb c r then -1 else if Nat.eqb c (S r) then 1 else 0) (seq 0 n)) (seq 0 (n - 1)).
Definition matvec (m : list (list Q)) (v : list Q) : list Q := map (fun row => qsum (map (fun p => fst p * snd p) (combine row v))) m.
(** lines 91-118 *)
Definition build_constraints (scale mf : Q) (vec : list Q) (len : Q) : res (list Q) :=
  if Nat.ltb (length vec) 2 then Err ValueError
  else Ok (map (fun d => - (d - mf)) (matvec (diff_matrix (length vec)) vec)
           ++ [- qn vec 0 + scale * mf; - len + scale * mf + qn vec (length vec - 1)]).
Definition unit_row (n i : nat) (a : Q) : list Q := map (fun c => if Nat.eqb c i then a else 0) (seq 0 n).
(** lines 120-138 *)
Definition build_grads (n : nat) : list (list Q) :=
  map (map Qopp) (diff_matrix n) ++ [unit_row n 0 (-1); unit_row n (n - 1) 1].
(** __init__ and calculate_objective_function for one grating *)
Definition feature_constraint (scale mf : Q) (vec : list Q) (len : Q) : res (list Q) :=
  if qlt mf 0 then Err ValueError else build_constraints scale mf vec len.
(** composite: concatenated constraints and block-diagonal gradients, lines 62-89 *)
Definition composite_constraints (scale mf : Q) (ps : list (list Q * Q)) : res (list Q) :=
  if qlt mf 0 then Err ValueError
  else bind (mapM (fun p => build_constraints scale mf (fst p) (snd p)) ps) (fun l => match l with [] => Err ValueError | _ => Ok (concat l) end).
Fixpoint block_diag (before : nat) (total : nat) (bs : list (nat * list (list Q))) : list (list Q) :=
  match bs with
  | [] => []
  | (w, b) :: bs' => map (fun row => repeat 0 before ++ row ++ repeat 0 (total - before - w)) b ++ block_diag (before + w) total bs'
  end.
Definition composite_grads (ps : list (list Q)) : list (list Q) :=
  block_diag 0 (fold_right Nat.add 0%nat (map (@length Q) ps)) (map (fun p => (length p, build_grads (length p))) ps).

(** *** EdgeLocConstraint, goos/grating.py:690-739 *)
(** [mf]: minimum feature of segment i (a scalar, or looked up by the level of the segment) *)
Definition edge_loc_eval (mf : nat -> Q) (len : Q) (vec : list Q) : res (list Q) :=
  match vec with
  | [] => Err IndexError
  | _ => Ok (map (fun i => mf i - (qn vec (S i) - qn vec i)) (seq 0 (length vec - 1)) ++ [- qn vec 0; qn vec (length vec - 1) - len])
  end.
(** lines 714-739; the incoming gradient is one number that multiplies the matrix *)
Definition edge_loc_grad (g : Q) (n : nat) : list (list Q) :=
  map (map (Qmult g)) (map (map Qopp) (diff_matrix n) ++ [unit_row n 0 1; unit_row n (n - 1) 1]).

(** *** _get_general_edge_loc_dp, goos/grating.py:542-687 *)
Section DP.
Variables (x hx : list Q).              (* target profile, depths *)
Variables (D : nat) (dmin dmax : list Z) (start stop : nat).
Definition big : Q := 1073741824.
Definition func (a b : Q) : Q := (a - b) * (a - b).
Definition npix : nat := length x.
Definition ndep : nat := length hx.
Definition max_k : nat := D * npix.
Definition k_int (k : nat) : nat := (k / D)%nat.
Definition k_frac (k : nat) : Q := inject_Z (Z.of_nat (k mod D)) / inject_Z (Z.of_nat D).
(** level_values[l][i] *)
Fixpoint level_value (l i : nat) : Q :=
  match i with O => 0 | S i' => level_value l i' + func (qn x i') (qn hx l) end.
(** the arrays A and choices, (-1, -1) as None *)
Record dp := Dp { dA : nat -> nat -> nat -> Q; dC : nat -> nat -> nat -> option (nat * nat) }.
Definition upd {B} (f : nat -> nat -> nat -> B) (k a b : nat) (v : B) : nat -> nat -> nat -> B :=
  fun k' a' b' => if Nat.eqb k' k && (Nat.eqb a' a && Nat.eqb b' b) then v else f k' a' b'.
Definition dp_init : dp :=
  Dp (fun k a _ => if Nat.eqb k 0 && Nat.eqb a start then 0 else big) (fun _ _ _ => None).
Definition zn (l : list Z) (i : nat) : Z := nth i l 0%Z.
(** range(max(0, k - d_max), k - d_min + 1) *)
Definition edge_range (k this : nat) : list nat :=
  let lo := Z.max 0 (Z.of_nat k - zn dmax this) in
  let hi := (Z.of_nat k - zn dmin this + 1)%Z in
  seq (Z.to_nat lo) (Z.to_nat (hi - lo)).
(** value of the pixel holding the edge *)
Definition next_pixel (k this next : nat) : Q := qn hx this * k_frac k + qn hx next * (1 - k_frac k).
Definition last_pixel (i prev this : nat) : Q := qn hx this * (1 - k_frac i) + qn hx prev * k_frac i.
Definition tail_cost (k this next : nat) : Q :=
  if Nat.ltb (k_int k) npix then func (qn x (k_int k)) (next_pixel k this next) * k_frac k else 0.
(** loop over prev_level, lines 611-626; x[i_int] raises IndexError *)
Definition try_prev (st : dp) (k this next i : nat) (best : Q * option (nat * nat)) (prev : nat) : res (Q * option (nat * nat)) :=
  if Nat.eqb prev this then Ok best
  else if Nat.leb npix (k_int i) then Err IndexError
  else
    let v := dA st i prev this + func (qn x (k_int i)) (last_pixel i prev this) * (1 - k_frac i)
             + level_value this (k_int k) - level_value this (k_int i + 1) + tail_cost k this next in
    Ok (if qlt v (fst best) then (v, Some (i, prev)) else best).
Fixpoint foldM {A B} (f : B -> A -> res B) (l : list A) (b : B) : res B :=
  match l with [] => Ok b | a :: l' => bind (f b a) (foldM f l') end.
(** lines 591-628 *)
Definition dp_cell (st : dp) (k this next : nat) : res (Q * option (nat * nat)) :=
  let v0 := if Nat.eqb this start && Z.leb (Z.of_nat k) (zn dmax start)
            then level_value this (k_int k) + tail_cost k this next else big in
  foldM (fun best i => foldM (try_prev st k this next i) (seq 0 ndep) best) (edge_range k this) (v0, None).
Definition dp_step (k this : nat) (st : dp) (next : nat) : res dp :=
  if Nat.eqb this next then Ok st
  else bind (dp_cell st k this next) (fun r => Ok (Dp (upd (dA st) k this next (fst r)) (upd (dC st) k this next (snd r)))).
Definition dp_fill : res dp :=
  foldM (fun st k => foldM (fun st this => foldM (dp_step k this) (seq 0 ndep) st) (seq 0 ndep) st) (seq 0 (max_k + 1)) dp_init.
(** lines 630-643, the entries with next level [stop]; entries at max_k are not changed *)
Definition backfilled (st : dp) (k level : nat) : Q :=
  if Nat.ltb k max_k then
    if Nat.eqb level stop then big
    else dA st k level stop + (func (qn x (k_int k)) (qn hx stop * (1 - k_frac k) + qn hx level * k_frac k) * (1 - k_frac k)
         + level_value stop npix - level_value stop (k_int k + 1))
  else dA st k level stop.
(** lines 645-656: (best value, struct_ind, level_ind) *)
Definition dp_best (st : dp) : Q * (nat * nat) :=
  let lo := Z.to_nat (Z.max 0 (Z.of_nat max_k - zn dmax stop)) in
  fold_left (fun b k => fold_left (fun b level => if qlt (backfilled st k level) (fst b) then (backfilled st k level, (k, level)) else b) (seq 0 ndep) b)
    (seq lo (max_k + 1 - lo)) (big, (0, 0)%nat).
(** lines 658-671: (edge, level before it), last edge first *)
Fixpoint backtrack (fuel : nat) (st : dp) (k level next : nat) : res (list (nat * nat)) :=
  match fuel with
  | O => Err OutOfFuel
  | S f => match dC st k level next with
           | None => Ok [(k, level)]
           | Some (i, prev) => bind (backtrack f st i prev level) (fun r => Ok ((k, level) :: r))
           end
  end.
(** lines 672-687 *)
Fixpoint filter_edges (last : nat) (es : list (Q * nat)) : list (Q * nat) :=
  match es with
  | [] => []
  | (e, l) :: es' => if Nat.eqb last l then filter_edges last es' else (e, l) :: filter_edges l es'
  end.
Definition pos_of (k : nat) : Q := inject_Z (Z.of_nat k) / inject_Z (Z.of_nat D).
Definition finish (rev_path : list (nat * nat)) : list (Q * nat) :=
  let p := rev rev_path in
  let es := combine (map (fun e => pos_of (fst e)) p) (tl (map snd p) ++ [stop]) in
  match es with [] => [] | (e, l) :: es' => (e, l) :: filter_edges l es' end.
(** the whole function on limits already in grid units; lists of limits shorter than the list of
    depths raise IndexError, as do depth indices out of range (for one depth the code accepts a
    missing minimum) *)
Definition dp_run : res (list (Q * nat)) :=
  if Nat.eqb D 0 then Err ZeroDivisionError
  else if Nat.ltb start ndep && Nat.ltb stop ndep && Nat.leb ndep (length dmin) && Nat.leb ndep (length dmax) then
    bind dp_fill (fun st =>
    let b := dp_best st in
    bind (backtrack (max_k + 2) st (fst (snd b)) (snd (snd b)) stop) (fun p => Ok (finish p)))
  else Err IndexError.
End DP.
(** lines 549-568: features in pixels to grid units; None is 2**30 *)
Definition grid_min (D : nat) (f : list Q) : list Z := map (fun m => Qceiling (m * inject_Z (Z.of_nat D))) f.
Definition grid_max (D : nat) (f : list Q) : list Z := map (fun m => Qfloor (m * inject_Z (Z.of_nat D))) f.
Definition edge_loc_dp (x hx minf maxf : list Q) (start stop D : nat) : res (list (Q * nat)) :=
  dp_run x hx D (grid_min D minf) (grid_max D maxf) start stop.

(** *** GratingL2D, goos/grating.py:212-326; per-depth features *)
Record l2d_result := L2d { r_value : list Q; r_bounds : option (list (Q * Q)); r_levels : list nat }.
Fixpoint diffs (prev : Q) (l : list Q) : list Q := match l with [] => [] | a :: l' => (a - prev) :: diffs a l' end.
(** bounds None: no bounds; [maxf] are the maximum features (None of the source: large numbers) *)
Definition l2d_run (target depths minf maxf : list Q) (pixel : Q) (start stop D : nat) (use_edges : bool) : res l2d_result :=
  if existsb (fun m => qlt m pixel) minf then Err ValueError
  else
    bind (edge_loc_dp target depths (map (fun m => m / pixel) minf) (map (fun m => m / pixel) maxf) start stop D) (fun r =>
    let edges := map (fun e => fst e * pixel) r in
    let levels := map snd r in
    if use_edges then Ok (L2d edges None levels)
    else Ok (L2d (diffs 0 edges) (Some (map (fun l => (qn minf l, qn maxf l)) levels)) levels)).

(** *** BarcodeGrating.eval, goos/grating.py:742-781: one axis; (centre, extent, height factor) *)
Definition barcode (pos ext : Q) (locs heights : list Q) : res (list (Q * Q * Q)) :=
  let edges := map (fun l => l * ext) locs in
  let hs := match heights with [h] => repeat h (length edges) | _ => heights end in
  Ok (map (fun p => match p with (l, r, h) => (pos - ext / 2 + (l + r) / 2, r - l, h) end)
        (combine (combine (removelast edges) (tl edges)) hs)).

(** *** MultiEtchEdgeParametrization, goos/grating.py:369-539 *)
Definition lset_or (l : list Q) (i : nat) (v : Q) : res (list Q) := if Nat.ltb i (length l) then Ok (lset l i v) else Err IndexError.
Definition ifloor (q : Q) : nat := Z.to_nat (Qfloor q).
(** one hole, lines 404-421; positions are not negative *)
Definition zero_range (lo hi : nat) (v : list Q) : list Q :=
  map (fun i => if Nat.leb lo i && Nat.ltb i hi then 0 else qn v i) (seq 0 (length v)).
Definition frac (q : Q) : Q := q - inject_Z (Qfloor q).
Definition dig (v : list Q) (a b : Q) : res (list Q) :=
  let s := ifloor a in let e := ifloor b in
  let v := zero_range (S s) e v in
  if Nat.eqb s e then (if Nat.ltb s (length v) then Ok (lset v s (qn v s - (b - a))) else Err IndexError)
  else
    bind (lset_or v s (qn v s - (1 - frac a))) (fun v => lset_or v e (qn v e - frac b)).
(** lines 398-422 *)
Fixpoint raster_holes (edges : list Q) (v : list Q) : res (list Q) :=
  match edges with
  | [] => Ok v
  | [_] => Err IndexError
  | a :: b :: edges' => bind (dig v a b) (raster_holes edges')
  end.
Definition raster_1d (n : nat) (edges : list Q) : res (list Q) := raster_holes edges (repeat 1 n).
(** get_level_vecs, lines 424-436, as edges of each level [k] (before the reversal) *)
Fixpoint level_edges (k last : nat) (es : list (Q * nat)) : list Q :=
  match es with
  | [] => []
  | (e, l) :: es' => (if Nat.leb (Nat.min l last) k && Nat.ltb k (Nat.max l last) then [e] else []) ++ level_edges k l es'
  end.
Definition level_vecs (nlev : nat) (es : list (Q * nat)) : list (list Q) := rev (map (fun k => level_edges k nlev es) (seq 0 nlev)).
(** get_structure, lines 438-471.  The code handles all positions along the grating at once; its
    control flow does not depend on the position, so the model runs it for one position: one column
    of the structure, as (column, z_ind, partial_pixels).  A layer is (value, thickness in pixels).
    [tiny] is the tolerance 0.001 *)
Definition tiny : Q := 1 # 1000.
Definition trunc (q : Q) : Z := if Qle_bool 0 q then Qfloor q else (- Qfloor (- q))%Z.
Definition qabs (q : Q) : Q := if Qle_bool 0 q then q else - q.
Definition add_at (v : list Q) (i : nat) (a : Q) : res (list Q) := lset_or v i (qn v i + a).
(** total_z[:, i:i+c] = the same value [c] times; numpy accepts a shorter slice for one value only *)
Definition set_slice (v : list Q) (i c : nat) (a : Q) : res (list Q) :=
  if Nat.leb (i + c) (length v) || Nat.eqb c 1
  then Ok (map (fun z => if Nat.leb i z && Nat.ltb z (i + c) then a else qn v z) (seq 0 (length v)))
  else Err ValueError.
Definition column_state := (list Q * nat * Q)%type.
Definition layer_step (first : bool) (s : column_state) (layer : Q * Q) : res column_state :=
  let '(v, zi, part) := s in
  let '(r, t) := layer in
  bind (if negb first && qlt tiny (qabs part)
        then bind (add_at v zi (r * (1 - part))) (fun v => Ok (v, S zi, t - (1 - part)))
        else Ok (v, zi, t)) (fun s1 =>
  let '(v, zi, todo) := s1 in
  let full := trunc todo in
  let part := todo - inject_Z full in
  bind (if Z.ltb 0 full then bind (set_slice v zi (Z.to_nat full) r) (fun v => Ok (v, (zi + Z.to_nat full)%nat)) else Ok (v, zi)) (fun s2 =>
  let '(v, zi) := s2 in
  bind (if qlt tiny (qabs part) then add_at v zi (r * part) else Ok v) (fun v => Ok (v, zi, part)))).
Fixpoint layers_run (first : bool) (s : column_state) (ls : list (Q * Q)) : res column_state :=
  match ls with [] => Ok s | l :: ls' => bind (layer_step first s l) (fun s => layers_run false s ls') end.
Definition column (nz : nat) (layers : list (Q * Q)) : res (list Q) :=
  bind (layers_run true (repeat 0 nz, 0%nat, 0) layers) (fun s =>
  let '(v, zi, part) := s in
  bind (if qlt tiny (qabs part) then bind (add_at v zi (1 - part)) (fun v => Ok (v, S zi)) else Ok (v, zi)) (fun s =>
  let '(v, zi) := s in Ok (map (fun z => if Nat.leb zi z then 1 else qn v z) (seq 0 (length v))))).
(** [es]: edges and the levels after them; [depths]: etch depths in pixels; columns along the grating *)
Definition get_structure (nx nz : nat) (depths : list Q) (es : list (Q * nat)) : res (list (list Q)) :=
  if existsb (fun e => Nat.ltb (length depths) (snd e)) es then Err IndexError
  else
    bind (mapM (raster_1d nx) (level_vecs (length depths) es)) (fun rasters =>
    mapM (fun x => column nz (combine (map (fun v => qn v x) rasters) (diffs 0 depths))) (seq 0 nx)).

(** *** PixelatedGrating, goos/grating.py:32-209; level indices are natural numbers.  [nx], [nz]: number
    of pixels along the grating and the etch direction; material fractions by (x, z) *)
Fixpoint cumsum_from (a : Q) (l : list Q) : list Q := match l with [] => [] | b :: l' => (a + b) :: cumsum_from (a + b) l' end.
Definition decreases (l : list Q) : bool := existsb (fun d => qlt d 0) (match l with [] => [] | a :: l' => diffs a l' end).
Definition clip_edge (nx : nat) (e : Q) : Q := qmin (qmax e 0) (inject_Z (Z.of_nat nx) - (1 # 100000)).
Definition pixelated (fracs : list Q) (ext pix : Q) (nx nz : nat) (polarity : Z) (use_edges : bool) (vals : list Q) (index : list nat) : res (list (list Q)) :=
  if decreases fracs then Err ValueError
  else
    let nlev := length fracs in
    let depths := map (fun f => inject_Z (Z.of_nat nz) * (1 - f)) (rev fracs) in
    let edges := 0 :: (if use_edges then vals else cumsum_from 0 vals) ++ [ext] in
    let levels := nlev :: index ++ [nlev] in
    if Nat.ltb (length levels) (length edges) then Err IndexError
    else
      bind (get_structure nx nz depths (combine (map (fun e => clip_edge nx (e / pix)) edges) levels)) (fun s =>
      Ok (if Z.ltb polarity 0 then map (@rev Q) s else s)).
(** grad, lines 183-209: from the derivative by edges to the derivative by widths *)
Definition widths_grad (g : list Q) : list Q := rev (cumsum_from 0 (rev g)).
