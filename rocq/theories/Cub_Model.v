(** Bicubic parametrizations: control points on a coarse grid, interpolated to
    the fine grid on which the structure is defined.
    spins/invdes/parametrization/cubic_utils.py, CubicParam of
    spins/invdes/parametrization/parametrization.py, and the two functions that
    build the grids (problem_graph/creator_param.py, goos/compat.py).

    Coordinates and values are real numbers; rounding, nan and inf are not
    modelled.  A matrix whose rows hold a single 1 is represented by the column
    of that 1 ([smat]); a matrix multiplied with a vector is represented by the
    product.  Vectors of control points are functions of the flat index
    (order "F": first coordinate fastest). *)
From Coq Require Import Reals Lra.
From Verif Require Import Base.
Set Implicit Arguments.
Open Scope R_scope.

(** ** Matrices with a single 1 in each row *)

(** [rows], [cols]: the shape; row [r] has its 1 in column [at_ r]. *)
Record smat := SMat { rows : nat; cols : nat; at_ : nat -> nat }.

(** sparse.eye(n) *)
Definition eye (n : nat) : smat := SMat n n (fun r => r).
(** sparse.hstack([a, zeros of k columns]) *)
Definition hstack0 (a : smat) (k : nat) : smat :=
  SMat (rows a) (cols a + k) (at_ a).
(** sparse.vstack([a, b]) *)
Definition vstack (a b : smat) : smat :=
  SMat (rows a + rows b) (cols a)
    (fun r => if Nat.ltb r (rows a) then at_ a r else at_ b (r - rows a)).
(** sparse.vstack(p * [a]) *)
Definition vstack_n (p : nat) (a : smat) : smat :=
  SMat (p * rows a) (cols a) (fun r => at_ a (r mod rows a)).
(** sparse.block_diag(tuple(n * [a])) *)
Definition block_diag (n : nat) (a : smat) : smat :=
  SMat (n * rows a) (n * cols a)
    (fun r => r / rows a * cols a + at_ a (r mod rows a))%nat.
(** m.indices = -1 * m.indices + m.shape[1] - 1 *)
Definition rev_cols (a : smat) : smat :=
  SMat (rows a) (cols a) (fun r => cols a - 1 - at_ a r)%nat.
(** a @ b: scipy raises ValueError when the shapes do not fit. *)
Definition smul (a b : smat) : res smat :=
  if Nat.eqb (cols a) (rows b)
  then Ok (SMat (rows a) (cols b) (fun r => at_ b (at_ a r)))
  else Err ValueError.
(** a @ v *)
Definition sapply (a : smat) (v : nat -> R) : nat -> R := fun r => v (at_ a r).

(** ** Grids with boundaries, periods and mirror symmetry *)

(** cubic_utils.py:729-758, duplicate_boundary_data, axis 0: (per, per_reverse).
    Shapes with an empty axis are not modelled. *)
Definition dup_x (s0 s1 : nat) : smat * smat :=
  let block_a := eye (s0 - 1) in
  let block_b := SMat 1 (s0 - 1) (fun _ => 0%nat) in
  (block_diag s1 (vstack block_a block_b), block_diag s1 (hstack0 block_a 1)).

(** the same, axis 1 *)
Definition dup_y (s0 s1 : nat) : smat * smat :=
  let block_1 := eye (s0 * (s1 - 1)) in
  let block_2 := hstack0 (eye s0) (s0 * (s1 - 2)) in
  (vstack block_1 block_2, hstack0 block_1 s0).

(** cubic_utils.py:1227-1273, periodic_matrix, axis 0; the transposed matrix of
    the code is written as the selection of the first period. *)
Definition periodic_x (n_x n_y periods : nat) : smat * smat :=
  let n := (n_x / periods)%nat in
  (block_diag n_y (vstack_n periods (eye n)),
   block_diag n_y (hstack0 (eye n) ((periods - 1) * n))).

Definition periodic_y (n_x n_y periods : nat) : smat * smat :=
  let n := (n_y / periods * n_x)%nat in
  (vstack_n periods (eye n), hstack0 (eye n) ((periods - 1) * n)).

(** np.ceil(n / 2) *)
Definition half_up (n : nat) : nat := ((n + 1) / 2)%nat.

(** cubic_utils.py:1061-1072, symmetry_matrix with axis 0: the second
    coordinate is mirrored.  An axis of one point (an empty block) is not
    modelled. *)
Definition symmetry_0 (n_x n_y : nat) : smat * smat :=
  let block_1 := eye (n_x * half_up n_y) in
  let block_b := rev_cols (eye n_x) in
  let block_2 := rev_cols (block_diag (n_y / 2) block_b) in
  let block_2 := if Nat.eqb (n_y mod 2) 0 then block_2 else hstack0 block_2 n_x in
  (vstack block_1 block_2, hstack0 block_1 (rows block_2)).

(** cubic_utils.py:1073-1084, axis 1: the first coordinate is mirrored. *)
Definition symmetry_1 (n_x n_y : nat) : smat * smat :=
  let block_a := eye (half_up n_x) in
  let block_b := rev_cols (eye (n_x / 2)) in
  let block_b := if Nat.eqb (n_x mod 2) 1 then hstack0 block_b 1 else block_b in
  (block_diag n_y (vstack block_a block_b),
   block_diag n_y (hstack0 block_a (rows block_b))).

(** A pair of flags or numbers, one for each axis. *)
Record two (A : Type) := Two { ax0 : A; ax1 : A }.
Arguments Two {A} _ _.

(** The chain of products [m1 @ m2 @ ... ]. *)
Fixpoint schain (a : smat) (l : list smat) : res smat :=
  match l with
  | [] => Ok a
  | b :: l' => bind (smul a b) (fun c => schain c l')
  end.

(** cubic_utils.py:765-885, make_geometry_matrix_cubic: the geometry matrix, the
    reverse geometry matrix and the final value of geometry_shape.  [full] is
    full_geometry_matrix. *)
Definition make_geometry_matrix (shape : two nat) (symm per : two bool)
    (periods : two nat) (full : bool) : res (smat * smat * two nat) :=
  let unitcell := Two (negb (Nat.eqb (ax0 periods) 0) && ax0 symm)
                      (negb (Nat.eqb (ax1 periods) 0) && ax1 symm) in
  let g0 := ax0 shape in
  let g1 := ax1 shape in
  let '(add_y, rev_add_y) :=
    if ax1 per then dup_y g0 g1 else (eye (g0 * g1), eye (g0 * g1)) in
  let g1 := if ax1 per then (g1 - 1)%nat else g1 in
  let '(add_x, rev_add_x) :=
    if ax0 per then dup_x g0 g1 else (eye (cols add_y), eye (rows rev_add_y)) in
  let g0 := if ax0 per then (g0 - 1)%nat else g0 in
  bind (if Nat.eqb (ax1 periods) 0
        then Ok (eye (cols add_x), eye (rows rev_add_x))
        else if Nat.eqb (g1 mod ax1 periods) 0
        then Ok (periodic_y g0 g1 (ax1 periods)) else Err ValueError)
  (fun py =>
  let g1 := if Nat.eqb (ax1 periods) 0 then g1 else (g1 / ax1 periods)%nat in
  bind (if Nat.eqb (ax0 periods) 0
        then Ok (eye (cols (fst py)), eye (rows (snd py)))
        else if Nat.eqb (g0 mod ax0 periods) 0
        then Ok (periodic_x g0 g1 (ax0 periods)) else Err ValueError)
  (fun px =>
  let g0 := if Nat.eqb (ax0 periods) 0 then g0 else (g0 / ax0 periods)%nat in
  let g1 := if ax1 unitcell then (g1 + 1)%nat else g1 in
  let '(add_uy, rev_add_uy) :=
    if ax1 unitcell then dup_y g0 g1
    else (eye (cols (fst px)), eye (rows (snd px))) in
  let g0 := if ax0 unitcell then (g0 + 1)%nat else g0 in
  let '(add_ux, rev_add_ux) :=
    if ax0 unitcell then dup_x g0 g1
    else (eye (rows add_uy), eye (cols rev_add_uy)) in
  let '(sym_y, rev_sym_y) :=
    if ax1 symm then symmetry_0 g0 g1
    else (eye (cols rev_add_ux), eye (rows add_ux)) in
  let g1 := if ax1 symm then half_up g1 else g1 in
  let '(sym_x, rev_sym_x) :=
    if ax0 symm then symmetry_1 g0 g1
    else (eye (cols sym_y), eye (rows rev_sym_y)) in
  let g0 := if ax0 symm then half_up g0 else g0 in
  bind (if full
        then schain add_y [add_x; fst py; fst px; rev_add_uy; rev_add_ux; sym_y; sym_x]
        else schain (fst py) [fst px; rev_add_uy; rev_add_ux; sym_y; sym_x])
  (fun geo =>
  bind (schain rev_sym_x [rev_sym_y; add_ux; add_uy; snd px; snd py; rev_add_x; rev_add_y])
  (fun rev => Ok (geo, rev, Two g0 g1))))).

(** ** The interpolation matrices *)

(** np.digitize(x, bins) for increasing bins: the number of bins at or below x. *)
Fixpoint digitize (bins : list R) (x : R) : nat :=
  match bins with
  | [] => 0%nat
  | b :: r => if Rle_dec b x then S (digitize r x) else digitize r x
  end.

(** np.digitize raises ValueError for bins that are not monotonic.  Decreasing
    bins, which numpy accepts, are not modelled. *)
Fixpoint monotonic (bins : list R) : bool :=
  match bins with
  | a :: ((b :: _) as r) => (if Rle_dec a b then true else false) && monotonic r
  | _ => true
  end.

(** cubic_utils.py:97-104, 125-126: the index of the cell.  A point below the
    first bin (or a single bin) has cell -1, for which np.ravel_multi_index
    raises ValueError (419-426). *)
Definition cell (bins : list R) (x : R) : res nat :=
  match Nat.min (digitize bins x) (length bins - 1) with
  | O => Err ValueError
  | S c => Ok c
  end.

Definition nthR (l : list R) (i : nat) : R := nth i l 0.

(** cubic_utils.py:600-606: the coordinates with the point before the first one
    appended at the end. *)
Definition per_ext (per : bool) (x : list R) : list R :=
  let n := length x in
  if per then x ++ [nthR x 0 - (nthR x (n - 1) - nthR x (n - 2))] else x.

(** cubic_utils.py:641-725: one row of makeDmatrix_quad, applied to the values
    [g] along the axis; [n] is n_x (the number of points without the duplicated
    one) and [x] the extended coordinates. *)
Definition dquad (x : list R) (per : bool) (n ind : nat) (g : nat -> R) : R :=
  if Nat.eqb ind (n - 1) && negb per then
    let xmin := nthR x (ind - 2) - nthR x (ind - 1) in
    let xplus := nthR x ind - nthR x (ind - 1) in
    let denum := xmin * xplus * (xmin - xplus) in
    xplus ^ 2 / denum * g (ind - 2)%nat
    + - (xmin ^ 2 - 2 * xmin * xplus + xplus ^ 2) / denum * g (ind - 1)%nat
    + - (2 * xmin * xplus - xmin ^ 2) / denum * g ind
  else if Nat.eqb ind 0 && negb per then
    let xmin := nthR x ind - nthR x (ind + 1) in
    let xplus := nthR x (ind + 2) - nthR x (ind + 1) in
    let denum := xmin * xplus * (xmin - xplus) in
    (2 * xmin * xplus - xplus ^ 2) / denum * g ind
    + (xmin ^ 2 - 2 * xmin * xplus + xplus ^ 2) / denum * g (ind + 1)%nat
    + - xmin ^ 2 / denum * g (ind + 2)%nat
  else
    (* x[-1] is the last entry of the extended coordinates; per_i[-1] is n - 1,
       per_i[n] is 0 *)
    let before := match ind with O => nthR x (length x - 1) | S k => nthR x k end in
    let i_before := match ind with O => (n - 1)%nat | S k => k end in
    let i_after := if Nat.eqb (ind + 1) n then 0%nat else (ind + 1)%nat in
    let xmin := before - nthR x ind in
    let xplus := nthR x (ind + 1) - nthR x ind in
    let denum := xmin * xplus * (xmin - xplus) in
    - xplus ^ 2 / denum * g i_before
    + (xplus ^ 2 - xmin ^ 2) / denum * g ind
    + xmin ^ 2 / denum * g i_after.

(** the number of control points along an axis *)
Definition n_red (per : bool) (q : list R) : nat :=
  (length q - if per then 1 else 0)%nat.

(** makeDmatrix_quad(xq, yq, 0, periodicity) @ v *)
Definition diff_x (xq yq : list R) (per : two bool) (v : nat -> R) : nat -> R :=
  let n_x := n_red (ax0 per) xq in
  fun r => dquad (per_ext (ax0 per) xq) (ax0 per) n_x (r mod n_x)
             (fun k => v (k + n_x * (r / n_x))%nat).
(** makeDmatrix_quad(xq, yq, 1, periodicity) @ v *)
Definition diff_y (xq yq : list R) (per : two bool) (v : nat -> R) : nat -> R :=
  let n_x := n_red (ax0 per) xq in
  let n_y := n_red (ax1 per) yq in
  fun r => dquad (per_ext (ax1 per) yq) (ax1 per) n_y (r / n_x)
             (fun k => v (r mod n_x + n_x * k)%nat).

(** cubic_utils.py:649, 675: a coordinate that does not exist.  The products are
    not formed for a single point, see [cell]. *)
Definition dquad_check (per : bool) (q : list R) : res unit :=
  if negb per && Nat.ltb (length q) 3 then Err IndexError else Ok tt.

(** cubic_utils.py:435-445, periodicity_matrix *)
Definition periodicity_matrix (nx ny : nat) (per : two bool) : smat :=
  let m := eye ((nx - if ax0 per then 1 else 0) * (ny - if ax1 per then 1 else 0)) in
  let m := if ax0 per
           then let d := fst (dup_x nx (ny - if ax1 per then 1 else 0)) in
                SMat (rows d) (cols m) (fun r => at_ m (at_ d r)) else m in
  if ax1 per
  then let d := fst (dup_y nx ny) in
       SMat (rows d) (cols m) (fun r => at_ m (at_ d r)) else m.

(** cubic_utils.py:397-480, the 16 blocks of Phi2fii @ v at one fine point in
    cell (cx, cy).  (The option derivatives=True is not modelled.) *)
Definition corners (xq yq : list R) (per : two bool) (v : nat -> R) (cx cy : nat)
    : list R :=
  let nx := length xq in
  let P w i j := sapply (periodicity_matrix nx (length yq) per) w (i + nx * j)%nat in
  let four w := [P w cx cy; P w (cx + 1) cy; P w cx (cy + 1); P w (cx + 1) (cy + 1)]%nat in
  four v ++ four (diff_x xq yq per v) ++ four (diff_y xq yq per v)
  ++ four (diff_x xq yq per (diff_y xq yq per v)).

(** cubic_utils.py:358-375 *)
Definition a_single : list (list Z) := [
  [1; 0; 0; 0; 0; 0; 0; 0; 0; 0; 0; 0; 0; 0; 0; 0];
  [0; 0; 0; 0; 1; 0; 0; 0; 0; 0; 0; 0; 0; 0; 0; 0];
  [-3; 3; 0; 0; -2; -1; 0; 0; 0; 0; 0; 0; 0; 0; 0; 0];
  [2; -2; 0; 0; 1; 1; 0; 0; 0; 0; 0; 0; 0; 0; 0; 0];
  [0; 0; 0; 0; 0; 0; 0; 0; 1; 0; 0; 0; 0; 0; 0; 0];
  [0; 0; 0; 0; 0; 0; 0; 0; 0; 0; 0; 0; 1; 0; 0; 0];
  [0; 0; 0; 0; 0; 0; 0; 0; -3; 3; 0; 0; -2; -1; 0; 0];
  [0; 0; 0; 0; 0; 0; 0; 0; 2; -2; 0; 0; 1; 1; 0; 0];
  [-3; 0; 3; 0; 0; 0; 0; 0; -2; 0; -1; 0; 0; 0; 0; 0];
  [0; 0; 0; 0; -3; 0; 3; 0; 0; 0; 0; 0; -2; 0; -1; 0];
  [9; -9; -9; 9; 6; 3; -6; -3; 6; -6; 3; -3; 4; 2; 2; 1];
  [-6; 6; 6; -6; -3; -3; 3; 3; -4; 4; -2; 2; -2; -2; -1; -1];
  [2; 0; -2; 0; 0; 0; 0; 0; 1; 0; 1; 0; 0; 0; 0; 0];
  [0; 0; 0; 0; 2; 0; -2; 0; 0; 0; 0; 0; 1; 0; 1; 0];
  [-6; 6; 6; -6; -4; -2; 4; 2; -3; 3; -3; 3; -2; -1; -2; -1];
  [4; -4; -4; 4; 2; 2; -2; -2; 2; -2; 2; -2; 1; 1; 1; 1]]%Z.

(** cubic_utils.py:260-268, MakeDXDYcorr_inv at one point *)
Definition dxdy_corr (dx dy : R) : list R :=
  repeat 1 4 ++ repeat dx 4 ++ repeat dy 4 ++ repeat (dx * dy) 4.

(** cubic_utils.py:225-241, MakeDXDY_inv at one point *)
Definition dxdy_inv (dx dy : R) : list R :=
  flat_map (fun i => map (fun j => / dy ^ i * / dx ^ j) [0; 1; 2; 3]%nat)
    [0; 1; 2; 3]%nat.

Fixpoint dot3 (a : list Z) (b c : list R) : R :=
  match a, b, c with
  | x :: a', y :: b', z :: c' => IZR x * y * z + dot3 a' b' c'
  | _, _, _ => 0
  end.

(** (dxdy_inv @ A @ dxdy_corr_inv) @ f: the 16 coefficients *)
Definition coefficients (dx dy : R) (f : list R) : list R :=
  map (fun p => snd p * dot3 (fst p) (dxdy_corr dx dy) f)
    (combine a_single (dxdy_inv dx dy)).

(** cubic_utils.py:157-173: powers and their derivatives *)
Definition pow4 (x : R) : list R := [1; x; x ^ 2; x ^ 3].
Definition dpow4 (x : R) : list R := [0; 1; 2 * x; 3 * x ^ 2].

(** cubic_utils.py:183-192: the entry for x^i y^j is in column block i + 4 j *)
Definition xy_row (px py co : list R) : R :=
  fold_right Rplus 0
    (flat_map (fun i => map (fun j => nthR px i * nthR py j * nthR co (i + 4 * j))
                          [0; 1; 2; 3]%nat) [0; 1; 2; 3]%nat).

(** The three matrices of CubicMatrices, applied to [v], at one fine point
    (x, y) in cell (cx, cy). *)
Definition point_value (xq yq : list R) (per : two bool) (v : nat -> R)
    (cx cy : nat) (x y : R) : R * R * R :=
  let x_rem := x - nthR xq cx in
  let dx := nthR xq (cx + 1) - nthR xq cx in
  let y_rem := y - nthR yq cy in
  let dy := nthR yq (cy + 1) - nthR yq cy in
  let co := coefficients dx dy (corners xq yq per v cx cy) in
  (xy_row (pow4 x_rem) (pow4 y_rem) co,
   xy_row (dpow4 x_rem) (pow4 y_rem) co,
   xy_row (pow4 x_rem) (dpow4 y_rem) co).

Fixpoint mapM {A B} (f : A -> res B) (l : list A) : res (list B) :=
  match l with
  | [] => Ok []
  | a :: r => bind (f a) (fun b => bind (mapM f r) (fun s => Ok (b :: s)))
  end.

(** x_vector[0], x_vector[-1] *)
Definition first_last (l : list R) : res (R * R) :=
  match l with [] => Err IndexError | a :: _ => Ok (a, last l a) end.

(** cubic_utils.py:10-75, CubicMatrices: the matrices as functions of the control
    vector; results in order "F" (x fastest). *)
Definition cubic_matrices (xs ys xq yq : list R) (per : two bool)
    : res ((nat -> R) -> list (R * R * R)) :=
  bind (first_last xs) (fun fx => bind (first_last xq) (fun qx =>
  bind (first_last ys) (fun fy => bind (first_last yq) (fun qy =>
  if (if Rlt_dec (fst fx) (fst qx) then true else false)
     || (if Rlt_dec (fst fy) (fst qy) then true else false)
     || (if Rlt_dec (snd qx) (snd fx) then true else false)
     || (if Rlt_dec (snd qy) (snd fy) then true else false)
  then Err ValueError
  else if negb (monotonic xq && monotonic yq) then Err ValueError
  else
  bind (mapM (cell xq) xs) (fun cxs => bind (mapM (cell yq) ys) (fun cys =>
  bind (dquad_check (ax0 per) xq) (fun _ => bind (dquad_check (ax1 per) yq) (fun _ =>
  Ok (fun v =>
    flat_map (fun yc => map (fun xc =>
        point_value xq yq per v (snd xc) (snd yc) (fst xc) (fst yc))
      (combine xs cxs)) (combine ys cys)))))))))).

(** ** CubicParam *)

(** initial_value: a number or an array *)
Inductive initial := Scalar (c : R) | Array (l : list R).

Record cparam := CParam {
  c_cols : nat;                    (* geometry_matrix.shape[1] *)
  c_z : (nat -> R) -> list (R * R * R); (* vec2f @ vector (and its derivatives) *)
  c_vector : list R;
  c_k : R;
  c_lower : R; c_upper : R }.

(** parametrization.py:189-234, CubicParam.__init__.  Bounds are numbers. *)
Definition cubic_param (init : initial) (coarse_x coarse_y fine_x fine_y : list R)
    (symm per : two bool) (periods : two nat) (lower upper : R)
    (bounds : option (R * R)) : res cparam :=
  bind (make_geometry_matrix (Two (length coarse_x) (length coarse_y)) symm per
          periods false) (fun g =>
  let '(geo, rev, _) := g in
  bind (match init with
        | Scalar c => Ok (repeat c (cols geo))
        | Array l =>
            if Nat.eqb (length l) (rows rev) then Ok l
            else if Nat.eqb (length l) (cols rev)
            then Ok (map (sapply rev (nthR l)) (seq 0 (rows rev)))
            else Err ValueError
        end) (fun vector =>
  bind (cubic_matrices fine_x fine_y coarse_x coarse_y per) (fun phi2f =>
  let (lo, up) := match bounds with Some b => b | None => (lower, upper) end in
  (* phi2f @ geometry_matrix: phi2f has a column for every point without the
     duplicated boundaries *)
  if Nat.eqb (n_red (ax0 per) coarse_x * n_red (ax1 per) coarse_y) (rows geo)
  then Ok (CParam (cols geo) (fun v => phi2f (sapply geo v)) vector 4 lo up)
  else Err ValueError))).

(** parametrization.py:236-238 *)
Definition set_k (p : cparam) (k : R) : cparam :=
  CParam (c_cols p) (c_z p) (c_vector p) k (c_lower p) (c_upper p).

(** parametrization.py:266-267, decode; from_vector *)
Definition set_vector (p : cparam) (v : list R) : cparam :=
  CParam (c_cols p) (c_z p) v (c_k p) (c_lower p) (c_upper p).

(** vec2f @ vector, ValueError for a vector of the wrong length *)
Definition z_cubic (p : cparam) : res (list R) :=
  if Nat.eqb (length (c_vector p)) (c_cols p)
  then Ok (map (fun t => fst (fst t)) (c_z p (nthR (c_vector p))))
  else Err ValueError.

(** parametrization.py:240-245, get_structure *)
Definition get_structure (p : cparam) : res (list R) :=
  bind (z_cubic p) (fun z =>
  Ok (if Req_EM_T (c_k p) 0 then z
      else map (fun t => 1 / (1 + exp (- c_k p * (2 * t - 1)))) z)).

(** parametrization.py:247-254, calculate_gradient() @ w *)
Definition gradient (p : cparam) (w : list R) : res (list R) :=
  bind (z_cubic p) (fun z =>
  if Nat.eqb (length w) (c_cols p) then
    let vw := map (fun t => fst (fst t)) (c_z p (nthR w)) in
    Ok (if Req_EM_T (c_k p) 0 then vw
        else map (fun tw => 2 * c_k p * exp (- c_k p * (2 * fst tw - 1))
                            / (1 + exp (- c_k p * (2 * fst tw - 1))) ^ 2 * snd tw)
               (combine z vw))
  else Err ValueError).

(** parametrization.py:256-258 *)
Definition get_bounds (p : cparam) : list R * list R :=
  (repeat (c_lower p) (length (c_vector p)), repeat (c_upper p) (length (c_vector p))).

(** parametrization.py:260-261, np.clip *)
Definition project (p : cparam) : cparam :=
  set_vector p (map (fun t => Rmin (Rmax t (c_lower p)) (c_upper p)) (c_vector p)).

(** ** The grids built from the size of the design area *)

(** np.ceil, np.round (half to even) on nonnegative numbers *)
Definition Rceil (x : R) : Z := (- Int_part (- x))%Z.
Definition Rround (x : R) : Z :=
  let f := Int_part x in
  let r := x - IZR f in
  if Rlt_dec r (/ 2) then f
  else if Rlt_dec (/ 2) r then (f + 1)%Z
  else if Z.even f then f else (f + 1)%Z.

(** np.arange(a, b, step) *)
Definition arange (a b step : R) : list R :=
  map (fun k => a + INR k * step) (seq 0 (Z.to_nat (Rceil ((b - a) / step)))).
(** np.linspace(a, b, n) *)
Definition linspace (a b : R) (n : nat) : list R :=
  map (fun k => a + INR k * ((b - a) / INR (n - 1))) (seq 0 n).
(** x -= (x[-1] + x[0]) / 2 *)
Definition center (l : list R) : res (list R) :=
  bind (first_last l) (fun fl => Ok (map (fun t => t - (snd fl + fst fl) / 2) l)).

(** creator_param.py:92-96, compat.py: the fine grid of [d] pixels *)
Definition fine_grid (d : nat) : res (list R) :=
  center (arange (- INR d / 2) (INR d / 2) 1).

(** creator_param.py:98-116: the coarse grid for [periods] (0: not periodic) *)
Definition coarse_creator (d : nat) (undersample : R) (periods : nat) : res (list R) :=
  bind (fine_grid d) (fun f => bind (first_last f) (fun fl =>
  center (if negb (Nat.eqb periods 0)
    then linspace (fst fl) (snd fl + 1)
           (Z.to_nat (Rround ((snd fl - fst fl) / undersample) + 1))
    else arange (- INR d / 2 - undersample) (INR d / 2 + undersample) undersample))).

(** compat.py:173-195: the same for goos *)
Definition coarse_compat (d : nat) (undersample : R) (periods : nat) : res (list R) :=
  bind (fine_grid d) (fun f => bind (first_last f) (fun fl =>
  center (if negb (Nat.eqb periods 0)
    then linspace (fst fl) (snd fl + 1)
           (Z.to_nat (Rround ((snd fl + 1 - fst fl) / (INR periods * undersample))
                      * Z.of_nat periods + 1))
    else arange (- INR d / 2 - undersample) (INR d / 2 + undersample) undersample))).

(** compat.py:197-204: the shape of the variable *)
Definition var_axis (n periods : nat) (symm : bool) : nat :=
  let per := negb (Nat.eqb periods 0) in
  let n := ((n - if per then 1 else 0) / Nat.max periods 1)%nat in
  if symm then half_up (n + if per then 1 else 0) else n.

(** creator_param.py:73-141, create_cubic_or_hermite_levelset for the cubic
    parametrization: design area of d0 x d1 pixels; [init] is the (smoothed)
    array of the init method on the coarse grid. *)
Definition periodic_axes (periods : two nat) : two bool :=
  Two (negb (Nat.eqb (ax0 periods) 0)) (negb (Nat.eqb (ax1 periods) 0)).
Definition create_plan (d0 d1 : nat) (undersample : R) (symm : two bool) (periods : two nat)
    (init : nat -> nat -> list R) : res cparam :=
  bind (fine_grid d0) (fun fx => bind (fine_grid d1) (fun fy =>
  bind (coarse_creator d0 undersample (ax0 periods)) (fun cx =>
  bind (coarse_creator d1 undersample (ax1 periods)) (fun cy =>
  cubic_param (Array (init (length cx) (length cy))) cx cy fx fy symm
    (periodic_axes periods) periods 0 1 None)))).

(** compat.py:144-240, create_spins_param and create_cubic_param: the same for
    goos, with sigmoid switched off.  The random initial value is overwritten
    (compat.py:60, 76, 113), only its length matters; the in-place change of its
    first two entries (compat.py:208-211) is not modelled. *)
Definition create_goos (d0 d1 : nat) (undersample : R) (symm : two bool) (periods : two nat)
    (init : nat -> list R) : res cparam :=
  bind (fine_grid d0) (fun fx => bind (fine_grid d1) (fun fy =>
  bind (coarse_compat d0 undersample (ax0 periods)) (fun cx =>
  bind (coarse_compat d1 undersample (ax1 periods)) (fun cy =>
  let n := (var_axis (length cx) (ax0 periods) (ax0 symm)
            * var_axis (length cy) (ax1 periods) (ax1 symm))%nat in
  bind (cubic_param (Array (init n)) cx cy fx fy symm
    (periodic_axes periods) periods 0 1 None) (fun p => Ok (set_k p 0)))))).
