(** Selection matrices: spins/gridlock/selection_matrix.py and spins/invdes/problem/selection_matrix.py.
    A matrix is a function of row and column numbers; its shape is kept separately.  Permittivities
    are rational (the code allows complex ones; every step below is linear in their difference apart
    from the absolute values that find the design bounds). *)
From Verif Require Import Base QTac.
From Coq Require Import ZArith.
Set Implicit Arguments.

Definition mat := nat -> nat -> Q.
(** [scipy.sparse.csr_matrix((v, (rows, cols)))]: entries given twice are added *)
Definition coo (n : nat) (row col : nat -> nat) (v : Q) : mat :=
  fun r c => sumn n (fun k => if Nat.eqb (row k) r && Nat.eqb (col k) c then v else 0).
Definition matmul (k : nat) (a b : mat) : mat := fun r c => sumn k (fun i => a r i * b i c).
Definition apply (m : mat) (cols : nat) (u : nat -> Q) (r : nat) : Q := sumn cols (fun c => m r c * u c).

(** *** gridlock/selection_matrix.py: the direct lattice *)
Section Direct.
Variables (nx ny nz : nat).   (* shape of the Yee grid *)
Definition ncell : nat := (nx * ny * nz)%nat.
(** position in an array of shape (2 nx, 2 ny, nz), flattened in Fortran order *)
Definition at_x (k : nat) : nat := (k mod (2 * nx))%nat.
Definition at_y (k : nat) : nat := (k / (2 * nx) mod (2 * ny))%nat.
Definition at_z (k : nat) : nat := (k / (2 * nx) / (2 * ny))%nat.
(** [ind_yee], lines 319-328: every element doubled in x and y *)
Definition ind_yee (k : nat) : nat := (at_x k / 2 + nx * (at_y k / 2) + at_z k * (nx * ny))%nat.
(** [np.roll(..., shift=1)] of an axis of n elements: which element ends up at position i *)
Definition roll1 (n i : nat) : nat := ((i + (n - 1)) mod n)%nat.
(** which axes are rolled for the x, y and z components, lines 335, 343, 351-353 *)
Definition rolls_x (comp : nat) : bool := match comp with 0%nat => false | _ => true end.
Definition rolls_y (comp : nat) : bool := match comp with 1%nat => false | _ => true end.
(** [ind_direct_shift] *)
Definition ind_direct (comp k : nat) : nat :=
  ((if rolls_x comp then roll1 (2 * nx) (at_x k) else at_x k) + 2 * nx * (if rolls_y comp then roll1 (2 * ny) (at_y k) else at_y k))%nat.
(** [direct_lattice_to_yee_grid], lines 309-357; the three matrices are stacked *)
Definition to_yee (comp : nat) : mat := coo (2 * nx * (2 * ny) * nz) ind_yee (ind_direct comp) (1 # 4).
Definition direct_to_yee : mat := fun r d => to_yee (r / ncell) (r mod ncell) d.

(** [direct_lattice], lines 360-414; bounds x0 <= x1, y0 <= y1 *)
Variables (x0 y0 x1 y1 : nat).
Definition area_x : nat := (x1 - x0 + 1)%nat.
Definition area_y : nat := (y1 - y0 + 1)%nat.
Definition mapping (c : nat) : nat := ((x0 + c mod area_x) + 2 * nx * (y0 + c / area_x))%nat.
Definition struct_to_direct : mat := coo (area_x * area_y) mapping (fun c => c) 1.
Definition ndirect : nat := (4 * (nx * ny))%nat.
Definition row_norm (r : nat) : Q :=
  let s := sumn (area_x * area_y) (fun c => matmul ndirect direct_to_yee struct_to_direct r c) in
  if Qeq_bool s 0 then 1 else s.
Definition direct_lattice : res mat :=
  if Nat.leb (2 * nx) x1 || Nat.leb (2 * ny) y1 then Err ValueError   (* np.ravel_multi_index *)
  else Ok (matmul ndirect (fun r d => 1 / row_norm r * direct_to_yee r d) struct_to_direct).
End Direct.

(** permittivity on the grid: component, x, y, z; [vec] of it *)
Definition field := nat -> nat -> nat -> nat -> Q.
Definition vec (nx ny nz : nat) (f : field) (r : nat) : Q :=
  let m := (r mod (ncell nx ny nz))%nat in f (r / ncell nx ny nz)%nat (m mod nx)%nat (m / nx mod ny)%nat (m / nx / ny)%nat.
Definition qabs (q : Q) : Q := if Qle_bool 0 q then q else - q.

(** *** [calculate_design_bounds], lines 259-306 *)
Section Bounds.
Variables (nx ny nz : nat) (bg fg : field).
Definition diff_grid (comp i j : nat) : Q := sumn nz (fun z => qabs (fg comp i j z - bg comp i j z)).
(** [np.roll(..., shift=-1)] *)
Definition rollm1 (n i : nat) : nat := ((i + 1) mod n)%nat.
Definition des_grid (comp i j : nat) : Q :=
  diff_grid comp ((if rolls_x comp then rollm1 (2 * nx) i else i) / 2) ((if rolls_y comp then rollm1 (2 * ny) j else j) / 2).
Definition grid_points (n m : nat) : list (nat * nat) := flat_map (fun i => map (fun j => (i, j)) (seq 0 m)) (seq 0 n).
(** the entries are nonnegative, so the maximum may start from zero *)
Definition threshold : Q :=
  (1 # 1000) * fold_right qmax 0 (flat_map (fun comp => map (fun p => des_grid comp (fst p) (snd p)) (grid_points (2 * nx) (2 * ny))) [0; 1; 2]%nat).
Definition in_design (i j : nat) : bool := forallb (fun comp => qlt threshold (des_grid comp i j)) [0; 1; 2]%nat.
(** smallest rectangle around the marked points, or ValueError *)
Definition rectangle (n m : nat) (mark : nat -> nat -> bool) : res (nat * nat * nat * nat) :=
  let ix := filter (fun i => existsb (mark i) (seq 0 m)) (seq 0 n) in
  let iy := filter (fun j => existsb (fun i => mark i j) (seq 0 n)) (seq 0 m) in
  match ix, iy with
  | a :: _, b :: _ => Ok (a, b, List.last ix a, List.last iy b)
  | _, _ => Err ValueError
  end.
Definition design_bounds : res (nat * nat * nat * nat) := rectangle (2 * nx) (2 * ny) in_design.
(** [create_selection_matrix], lines 417-474, [reduced=False]; with the design area *)
Definition selection_matrix : res (mat * (nat * nat)) :=
  bind design_bounds (fun b => match b with (x0, y0, x1, y1) =>
  bind (direct_lattice nx ny nz x0 y0 x1 y1) (fun s =>
  Ok (fun r c => (vec nx ny nz fg r - vec nx ny nz bg r) * s r c, (area_x x0 x1, area_y y0 y1))) end).

(** *** [calculate_design_bounds_yee], lines 185-218 *)
Definition yee_mark (i j : nat) : bool :=
  existsb (fun z => qlt (1 # 1000000) (sumn 3 (fun comp => qabs (fg comp i j z - bg comp i j z)))) (seq 0 nz).
Definition design_bounds_yee : res (nat * nat * nat * nat) := rectangle nx ny yee_mark.
End Bounds.

(** *** [direct_lattice_deprecated], gridlock/selection_matrix.py:91-182, the same as [direct_lattice]
    of invdes/problem/selection_matrix.py:85-178; default [wrap_or_clip] *)
Section Old.
Variables (nx ny nz x0 y0 x1' y1' : nat).
Definition x1 : nat := Nat.min x1' (nx - 1).
Definition y1 : nat := Nat.min y1' (ny - 1).
Definition ax : nat := (x1 - x0 + 1)%nat.
Definition ay : nat := (y1 - y0 + 1)%nat.
Definition wrap (n : nat) (i : Z) : nat := Z.to_nat (i mod Z.of_nat n).
Definition clip (n : nat) (i : Z) : nat := Z.to_nat (Z.max 0 (Z.min i (Z.of_nat n - 1))).
Definition old_x (k : nat) : nat := (k mod (2 * ax))%nat.
Definition old_y (k : nat) : nat := (k / (2 * ax))%nat.
Definition old_map (comp k : nat) : nat :=
  let zx := Z.of_nat x0 in let zy := Z.of_nat y0 in
  match comp with
  | 0%nat => (wrap nx (zx + Z.of_nat ((old_x k + 1) / 2) - 1) + nx * wrap ny (zy + Z.of_nat (old_y k / 2)))%nat
  | 1%nat => (wrap nx (zx + Z.of_nat (old_x k / 2)) + nx * wrap ny (zy + Z.of_nat ((old_y k + 1) / 2) - 1))%nat
  | _ => (clip nx (zx + Z.of_nat (old_x k / 2)) + nx * clip ny (zy + Z.of_nat (old_y k / 2)))%nat
  end.
Definition num_design : nat := (2 * ax * (2 * ay))%nat.
Definition old_flat (comp : nat) : mat := coo num_design (old_map comp) (fun k => k) 1.
(** [normalize_rows] *)
Definition normalize (cols : nat) (s : mat) : mat := fun r c =>
  let sum := sumn cols (s r) in (if Qeq_bool sum 0 then 0 else 1 / sum) * s r c.
(** stacked nz times for each component *)
Definition direct_lattice_old : mat := fun r c =>
  normalize num_design (old_flat (r / ncell nx ny nz)) (r mod ncell nx ny nz mod (nx * ny))%nat c.
(** [create_selection_matrix_deprecated] with [reduced]: lines 241-254 collapse four columns into one *)
Definition collapse (k : nat) : nat := (old_x k / 2 + ax * (old_y k / 2))%nat.
Definition reduced_lattice : mat := matmul num_design direct_lattice_old (fun k c => coo num_design collapse (fun k => k) 1 c k).
End Old.
Definition reduced_matrix (nx ny nz : nat) (bg fg : field) : res (mat * (nat * nat)) :=
  bind (design_bounds_yee nx ny nz bg fg) (fun b => match b with (x0, y0, x1, y1) =>
  Ok (fun r c => (vec nx ny nz fg r - vec nx ny nz bg r) * reduced_lattice nx ny nz x0 y0 x1 y1 r c, (ax nx x0 x1, ay ny y0 y1)) end).

(** *** [average_2xFarEdge], gridlock/selection_matrix.py:11-88 = invdes/problem/selection_matrix.py:5-82 *)
Record dmat := Dm { drows : nat; dcols : nat; dent : mat }.
Definition dzero (r c : nat) : dmat := Dm r c (fun _ _ => 0).
Definition dident (n : nat) : dmat := Dm n n (fun r c => if Nat.eqb r c then 1 else 0).
Definition dv (a b : dmat) : dmat := Dm (drows a + drows b) (dcols a) (fun r c => if Nat.ltb r (drows a) then dent a r c else dent b (r - drows a)%nat c).
Definition dh (a b : dmat) : dmat := Dm (drows a) (dcols a + dcols b) (fun r c => if Nat.ltb c (dcols a) then dent a r c else dent b r (c - dcols a)%nat).
Definition dfrom (a : dmat) (k : nat) : dmat := Dm (drows a) (dcols a - k) (fun r c => dent a r (k + c)%nat).   (* a[:, k:] *)
Definition dupto (a : dmat) (k : nat) : dmat := Dm (drows a) (Nat.min k (dcols a)) (dent a).                       (* a[:, :k] *)
Definition dset (a : dmat) (i j : nat) (v : Q) : dmat := Dm (drows a) (dcols a) (fun r c => if Nat.eqb r i && Nat.eqb c j then v else dent a r c).
Definition dplus (a b : dmat) : dmat := Dm (drows a) (dcols a) (fun r c => dent a r c + dent b r c).
Definition dhalf (a : dmat) : dmat := Dm (drows a) (dcols a) (fun r c => dent a r c / 2).
(** [block_diag([a] * n)] *)
Definition dblock (a : dmat) (n : nat) : dmat :=
  Dm (n * drows a) (n * dcols a) (fun r c => if Nat.eqb (r / drows a) (c / dcols a) then dent a (r mod drows a)%nat (c mod dcols a)%nat else 0).
Section Average.
Variables (gx gy gz x0 y0 x1 y1 : nat).   (* grid and design bounds, inside the grid *)
Definition dx : nat := (x1 - x0 + 1)%nat.
Definition dy : nat := (y1 - y0 + 1)%nat.
Definition pad_rows (m : dmat) : dmat := dv (dv (dzero x0 dx) m) (dzero (gx - x1 - 1) dx).
Definition pad_all (m : dmat) : dmat := dv (dv (dzero (y0 * gx) (dx * dy)) m) (dzero ((gy - y1 - 1) * gx) (dx * dy)).
(** lines 43-47 *)
Definition shift_x : dmat :=
  let i0 := dident dx in
  let s := dh (dfrom i0 1) (dupto i0 1) in
  let s := dset s (dx - 1) 0 0 in
  dset s (dx - 1) (dx - 1) 1.
Definition avg_x : dmat := pad_all (dblock (pad_rows (dhalf (dplus (dident dx) shift_x))) dy).
Definition preshift : dmat := dblock (pad_rows (dident dx)) dy.
(** lines 62-72 *)
Definition shift_y : dmat :=
  let s := dh (dfrom preshift dx) (dupto preshift dx) in
  let excess := dupto s dx in
  let s := Dm (drows s) (dcols s) (fun r c => if Nat.ltb c dx then 0 else dent s r c) in
  Dm (drows s) (dcols s) (fun r c => if Nat.leb (dcols s - dx) c then dent s r c + dent excess r (c - (dcols s - dx))%nat else dent s r c).
Definition avg_y : dmat := pad_all (dhalf (dplus preshift shift_y)).
Definition avg_z : dmat := pad_all preshift.
Definition average_far_edge : mat := fun r c =>
  dent (match (r / (gx * gy * gz))%nat with 0%nat => avg_x | 1%nat => avg_y | _ => avg_z end) (r mod (gx * gy * gz) mod (gx * gy))%nat c.
End Average.
