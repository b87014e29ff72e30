(** Model of the matrix that projects the fields on a plane, or on the six sides of a box, to the
    far field: /repo/spins/invdes/problem/farfield.py:26-427 (make_near2farfield_matrix,
    make_near2farfield_box_matrix, fields_on_slice, move2H_matrix, make_fourier_matrix), 569-616
    (cart2spheric_matrix, on vectors in Ff_Model.v) and
    /repo/spins/fdfd_tools/operators.py:431-447 (vec_cross).

    Simplifications.  Numbers are exact; omegas is a real number and not zero.  The coordinates
    grid.xyz are functions of axis and index, of the same lengths as dxes.  The coordinates and cell
    sizes that fields_on_slice crops are read at the selected cells instead of being multiplied
    with the crop matrix.  An empty window, where the result depends on the version of scipy, and a
    far field point at the origin, where numpy gives nan, are ValueError. *)
From Coq Require Import Reals List ZArith.
From Verif Require Import Base CField GMath_Model CplxField Maxwell_Model Wg_Model Wg_Model2 Fs_Model Ov_Model.
From Verif Require Ff_Model.
Set Implicit Arguments.
Local Open Scope R_scope.
Notation point := Ff_Model.vec3.

(** abs(x - vec).argmin(): the first of the smallest *)
Fixpoint argmin_from (best : nat) (b : R) (i : nat) (l : list R) : nat :=
  match l with
  | [] => best
  | x :: l' => if Rlt_dec x b then argmin_from i x (S i) l' else argmin_from best b (S i) l'
  end.
Definition argmin (l : list R) : nat := match l with [] => 0%nat | x :: l' => argmin_from 0 x 1 l' end.
(** find_ind, line 86 *)
Definition find_ind (x : R) (n : nat) (v : nat -> R) : nat := argmin (map (fun i => Rabs (x - v i)) (seq 0 n)).

Section Far.
Variable g : grid CC.
Local Notation n := (cellsn g).
Local Notation N := (vlen g).
Definition mzero : mat CC := fun _ _ => (0 : CC)%K.
(** sparse.vstack and hstack of blocks with r rows and c columns *)
Definition rblocks (r c : nat) (B : nat -> nat -> mat CC) : mat CC := fun i j => B (i / r)%nat (j / c)%nat (i mod r)%nat (j mod c)%nat.
Definition block_diag (r c : nat) (B : nat -> mat CC) : mat CC := rblocks r c (fun a b => if Nat.eqb a b then B a else mzero).
(** vec_cross, operators.py:431-447, of a vector of length 3 m *)
Definition vec_cross (m : nat) (b : nat -> CC) : mat CC :=
  let D k := mdiag (fun t => b (k * m + t)%nat) in
  bmat m (fun r c => match r, c with
    | 0, 1 => mneg (D 2) | 0, 2 => D 1
    | 1, 0 => D 2 | 1, 2 => mneg (D 0)
    | 2, 0 => mneg (D 1) | 2, 1 => D 0
    | _, _ => mzero
    end)%nat.
(** move2H_matrix, lines 325-383 *)
Definition av_E (axis c : nat) : mat CC :=
  let mm := mmul n in let fw := avgf g in let bw := avgb g in
  match axis, c with
  | 0, 0 => mm (mm (fw 2) (fw 1)) (bw 0) | 0, 1 => fw 2 | 0, _ => fw 1
  | 1, 0 => fw 2 | 1, 1 => mm (mm (fw 2) (fw 0)) (bw 1) | 1, _ => fw 0
  | _, 0 => fw 1 | _, 1 => fw 0 | _, _ => mm (mm (fw 1) (fw 0)) (bw 2)
  end%nat.
Definition av_H (axis c : nat) : mat CC :=
  let mm := mmul n in let fw := avgf g in let bw := avgb g in
  match axis, c with
  | 0, 0 => meye | 0, 1 => mm (fw 1) (bw 0) | 0, _ => mm (fw 2) (bw 0)
  | 1, 0 => mm (fw 0) (bw 1) | 1, 1 => meye | 1, _ => mm (fw 2) (bw 1)
  | _, 0 => mm (fw 0) (bw 2) | _, 1 => mm (fw 1) (bw 2) | _, _ => meye
  end%nat.
Definition move2H_E (axis : nat) : mat CC := bmat n (fun a b => if Nat.eqb a b then av_E axis a else mzero).
Definition move2H_H (axis : nat) : mat CC := bmat n (fun a b => if Nat.eqb a b then av_H axis a else mzero).

Variable xyz : nat -> nat -> R.
(** the slices, lines 86-96, the first index and the end along axis a *)
Definition slice_first (pos width : nat -> R) (a : nat) : nat := find_ind (pos a - width a / 2) (dim g a) (xyz a).
Definition slice_end (pos width : nat -> R) (axis : nat) (polarity : Z) (a : nat) : nat :=
  (find_ind (pos a + width a / 2) (dim g a) (xyz a) + if Nat.eqb a axis then Z.abs_nat polarity else 0)%nat.
(** fields_on_slice, lines 274-322: nonzero_rows, the flat indices where pos_vector is 1 *)
Definition in_slices (s e : nat -> nat) (t : nat) : bool :=
  forallb (fun a => Nat.leb (s a) (coord g a t) && Nat.ltb (coord g a t) (e a)) (seq 0 3).
Definition selected_cells (s e : nat -> nat) : list nat := filter (in_slices s e) (seq 0 n).
Definition crop_matrix (cells : list nat) : mat CC := fun r t => if Nat.eqb t (nth r cells 0%nat) then (1 : CC)%K else (0 : CC)%K.
Definition crop_fields (cells : list nat) : mat CC := block_diag (length cells) n (fun _ => crop_matrix cells).
(** d_area, lines 100-103 *)
Definition d_area (axis : nat) (t : nat) : CC :=
  let d a := if Nat.eqb a axis then (1 : CC)%K else dxh g a (coord g a t) in (d 0%nat * d 1%nat * d 2%nat)%K.

(** make_fourier_matrix, lines 386-427, with x, y, z at the selected cells.  np.squeeze of one point
    or of one cell is no longer an array with an axis: IndexError *)
Definition fourier_entry (omega : R) (axis : nat) (p : point) (t : nat) : CC :=
  let r_ff := Ff_Model.norm p in
  let kx := omega * Ff_Model.px p / r_ff in let ky := omega * Ff_Model.py p / r_ff in let kz := omega * Ff_Model.pz p / r_ff in
  (turn (kx * xyz 0 (coord g 0 t) + ky * xyz 1 (coord g 1 t) + kz * xyz 2 (coord g 2 t)) * d_area axis t)%K.
Definition origin : point := (0, 0, 0).
Definition make_fourier_matrix (omega : R) (axis : nat) (pts : list point) (cells : list nat) : res (mat CC) :=
  if Nat.eqb (length pts) 1 || Nat.eqb (length cells) 1 then Err IndexError else
  if Nat.eqb (length cells) 0 then Err ValueError else
  Ok (block_diag (length pts) (length cells) (fun _ i j => fourier_entry omega axis (nth i pts origin) (nth j cells 0%nat))).

(** cart2spheric_matrix, lines 569-616: the columns are the images of the three unit vectors *)
Definition unit3 (c : nat) : point := match c with 0%nat => (1, 0, 0) | 1%nat => (0, 1, 0) | _ => (0, 0, 1) end.
Definition comp3 (c : nat) (p : point) : R := match c with 0 => Ff_Model.px p | 1 => Ff_Model.py p | _ => Ff_Model.pz p end%nat.
Definition cart2spheric_matrix (axis : nat) (pts : list point) : res (mat CC) :=
  bind (mapM (fun p => mapM (fun c => Ff_Model.cart2spheric axis p (unit3 c)) (seq 0 3)) pts) (fun cols =>
  Ok (bmat (length pts) (fun r c => mdiag (fun k => rl (comp3 r (nth c (nth k cols []) origin)))))).

(** make_near2farfield_matrix, lines 26-143 *)
Definition normal (axis : nat) (polarity : Z) (a : nat) : CC := if Nat.eqb a axis then rl (IZR polarity) else (0 : CC)%K.
Definition flux_matrix (mv_ cn : mat CC) (fourier crop : mat CC) (cells : list nat) : mat CC :=
  mmul N (mmul N (mmul (3 * length cells) fourier crop) cn) mv_.
Definition make_near2farfield_matrix (pts : list point) (omega : R) (pos width : nat -> R) (polarity : Z) (eps0 mu0 : R) (spherical_axis : nat) : res (mat CC) :=
  let axis := argmin (map (fun a => Rabs (width a)) (seq 0 3)) in
  let to_h := e2h g (Phases (fun _ => (1 : CC)%K) (fun _ => (1 : CC)%K) (fun _ => (1 : CC)%K) (fun _ => (1 : CC)%K)) (rl omega) None None in
  let cross_normal := vec_cross n (at_ (vec g (fun c _ _ _ => normal axis polarity c))) in
  let cells := selected_cells (slice_first pos width) (slice_end pos width axis polarity) in
  let fos := crop_fields cells in
  let P := length pts in
  bind (make_fourier_matrix omega axis pts cells) (fun fourier =>
  let k_vec := fun i => rl (omega * comp3 (i / P) (nth (i mod P) pts origin)) in
  let cross_k := vec_cross P k_vec in
  let A := mmul N (flux_matrix (move2H_H axis) cross_normal fourier fos cells) to_h in
  let F := flux_matrix (move2H_E axis) (mneg cross_normal) fourier fos cells in
  if Req_EM_T eps0 0 then Err ZeroDivisionError else
  let t_cart : mat CC := fun i j =>
    ((- ki) * rl omega * (rl (mu0 / (4 * PI * 1)) * cexp (- ki * rl omega * rl 1) * A i j)
     - (- ki) / rl eps0 * rl eps0 / rl (4 * PI * 1) * cexp (- ki * rl omega * rl 1) * mmul (3 * P) cross_k F i j)%K in
  bind (cart2spheric_matrix spherical_axis pts) (fun cart2sp =>
  let t_sp := mmul (3 * P) cart2sp t_cart in
  let rm_radial := bmat P (fun r c => if Nat.eqb r c then if Nat.eqb r 0 then mzero else meye else mzero) in
  Ok (mmul (3 * P) rm_radial t_sp))).

(** make_near2farfield_box_matrix, lines 146-269.  mu_0 is not handed on to the sides. *)
Definition side_pos (center size : nat -> R) (axis : nat) (s : R) (a : nat) : R :=
  center a + (if Nat.eqb a axis then s * (size axis / 2) else 0).
Definition side_width (size : nat -> R) (axis : nat) (a : nat) : R := if Nat.eqb a axis then 0 else size a.
Definition make_near2farfield_box_matrix (pts : list point) (omega : R) (center size : nat -> R) (eps0 mu0 : R) (spherical_axis : nat) : res (mat CC) :=
  let side axis s polarity := make_near2farfield_matrix pts omega (side_pos center size axis s) (side_width size axis) polarity eps0 1 spherical_axis in
  bind (side 0%nat (-1) (-1)%Z) (fun x0 => bind (side 0%nat 1 1%Z) (fun x1 =>
  bind (side 1%nat (-1) (-1)%Z) (fun y0 => bind (side 1%nat 1 1%Z) (fun y1 =>
  bind (side 2%nat (-1) (-1)%Z) (fun z0 => bind (side 2%nat 1 1%Z) (fun z1 =>
  Ok (madd (madd (madd (madd (madd x0 x1) y0) y1) z0) z1))))))).
End Far.
