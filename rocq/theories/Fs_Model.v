(** Model of the free space sources, /repo/spins/fdfd_tools/free_space_sources.py:
    rotation_matrix (18-37), gaussian_beam_z_axis_x_pol (40-65), plane_wave_z_axis_x_pol
    (68-77), scalar2rotated_vector_fields (80-200, with full_fields=True as all callers do),
    build_plane_wave_source (203-363), build_gaussian_source (366-449) and
    normalize_source_by_sim (452-508), with compute_transmission_chew of
    /repo/spins/fdfd_solvers/waveguide_mode.py:598-634 and the Bloch phases of
    /repo/spins/fdfd_tools/operators.py:657-728.
    Numbers are exact.  The polarity is [back]: true for -1, false for 1; other values are not
    modelled.  A slice is the pair of its start and stop, which are integers and may be
    negative; slices other than the one along the axis lie within the grid.  Lists that
    a caller passes and the function changes are returned beside the result. *)
From Coq Require Import Reals ZArith List.
From Verif Require Import Base CField GMath_Model CplxField Maxwell_Model Wg_Model Wg_Model2.
Import ListNotations.
Set Implicit Arguments.
Local Open Scope R_scope.

(** *** vectors and matrices of length three *)
Definition vec3 := nat -> R.
Definition mat3 := nat -> nat -> R.
Definition v3 (x y z : R) : vec3 := fun i => match i with 0 => x | 1 => y | _ => z end%nat.
(** M @ v, M @ N *)
Definition mv3 (M : mat3) (v : vec3) : vec3 := fun r => M r 0%nat * v 0%nat + M r 1%nat * v 1%nat + M r 2%nat * v 2%nat.
Definition mm3 (M N : mat3) : mat3 := fun r c => M r 0%nat * N 0%nat c + M r 1%nat * N 1%nat c + M r 2%nat * N 2%nat c.
(** np.linalg.inv, for matrices that have an inverse *)
Definition cof3 (M : mat3) (r c : nat) : R :=
  let p i := Nat.modulo (i + 1) 3 in let q i := Nat.modulo (i + 2) 3 in
  M (p r) (p c) * M (q r) (q c) - M (p r) (q c) * M (q r) (p c).
Definition det3 (M : mat3) : R := M 0%nat 0%nat * cof3 M 0 0 + M 0%nat 1%nat * cof3 M 0 1 + M 0%nat 2%nat * cof3 M 0 2.
Definition inv3 (M : mat3) : mat3 := fun r c => cof3 M c r / det3 M.

(** rotation_matrix, lines 18-37 *)
Definition rotation (v : vec3) (angle : R) : mat3 := fun r c =>
  let x := v 0%nat in let y := v 1%nat in let z := v 2%nat in let C := cos angle in let S := sin angle in
  match r, c with
  | O, O => C + x * x * (1 - C) | O, 1%nat => x * y * (1 - C) - z * S | O, _ => x * z * (1 - C) + y * S
  | 1%nat, O => x * y * (1 - C) + z * S | 1%nat, 1%nat => C + y * y * (1 - C) | 1%nat, _ => y * z * (1 - C) - x * S
  | _, O => x * z * (1 - C) - y * S | _, 1%nat => y * z * (1 - C) + x * S | _, _ => C + z * z * (1 - C)
  end.

Definition sign (back : bool) : R := if back then -1 else 1.
(** the rotations, lines 143-150: direction of propagation and total rotation *)
Definition k_start (back : bool) : vec3 := v3 0 0 (sign back).
Definition e_start : vec3 := v3 1 0 0.
Definition tilt (back : bool) (theta psi : R) : mat3 := mm3 (rotation (k_start back) psi) (rotation e_start theta).
Definition k_turned (back : bool) (theta psi : R) : vec3 := mv3 (tilt back theta psi) (k_start back).
Definition total_rotation (back : bool) (theta psi pol : R) : mat3 :=
  mm3 (mm3 (rotation (k_turned back theta psi) pol) (rotation (k_start back) psi)) (rotation e_start theta).
Definition e_turned (back : bool) (theta psi pol : R) : vec3 := mv3 (total_rotation back theta psi pol) e_start.

(** np.exp(1j * phi) *)
Definition turn (phi : R) : CC := cexp (0, phi).
(** plane_wave_z_axis_x_pol, lines 68-77; [p] is the position, [M] the argument R *)
Definition wavelength (omega eps_val : R) : R := 2 * PI / (omega * sqrt eps_val).
Definition plane_wave (omega eps_val : R) (back : bool) (M : mat3) (p : vec3) : CC :=
  let z := M 2%nat 0%nat * p 0%nat + M 2%nat 1%nat * p 1%nat + M 2%nat 2%nat * p 2%nat in
  let k := 2 * PI / wavelength omega eps_val in
  turn (- sign back * k * z).
(** gaussian_beam_z_axis_x_pol, lines 40-65 *)
Definition gaussian_beam (w0 : R) (center : vec3) (omega eps_val : R) (back : bool) (M : mat3) (p : vec3) : CC :=
  let d : vec3 := fun i => p i - center i in
  let x := M 0%nat 0%nat * d 0%nat + M 0%nat 1%nat * d 1%nat + M 0%nat 2%nat * d 2%nat in
  let y := M 1%nat 0%nat * d 0%nat + M 1%nat 1%nat * d 1%nat + M 1%nat 2%nat * d 2%nat in
  let z := M 2%nat 0%nat * d 0%nat + M 2%nat 1%nat * d 1%nat + M 2%nat 2%nat * d 2%nat in
  let wlen := wavelength omega eps_val in
  let k := 2 * PI / wlen in
  let z_r := PI * (w0 * w0) / wlen in
  let w_z := w0 * sqrt (1 + (z / z_r) * (z / z_r)) in
  let inv_R_z := if Req_EM_T z 0 then 0 else / (z * (1 + (z_r / z) * (z_r / z))) in
  let gouy_z := atan (z / z_r) in
  let r2 := x * x + y * y in
  let imp := sqrt (1 / eps_val) in
  (rl (sqrt imp * 2 / (sqrt PI * w0) * (w0 / w_z) * exp (- r2 / (w_z * w_z)))
   * turn (- sign back * (k * z + k * inv_R_z * (r2 / 2) - gouy_z)))%K.

(** *** slices *)
Definition slices := nat -> Z * Z.
(** index i of an axis with n entries is selected *)
Definition bound (n : nat) (v : Z) : Z := if Z.ltb v 0 then Z.max 0 (v + Z.of_nat n) else Z.min v (Z.of_nat n).
Definition selects (n : nat) (s : Z * Z) (i : nat) : bool :=
  (Z.leb (bound n (fst s)) (Z.of_nat i) && Z.ltb (Z.of_nat i) (bound n (snd s)))%bool.
Definition in_slices (g : grid CC) (sl : slices) (x y z : nat) : bool :=
  (selects (dim g 0) (sl 0%nat) x && selects (dim g 1) (sl 1%nat) y && selects (dim g 2) (sl 2%nat) z)%bool.
(** np.sum(f[tuple(slices)]) *)
Definition sum3 (g : grid CC) (f : array CC) : CC := fsum (dim g 0) (fun x => fsum (dim g 1) (fun y => fsum (dim g 2) (fun z => f x y z))).
(** np.real(np.average(eps[tuple(slices)])), lines 153, 245, 402; of an empty selection: nan *)
Definition average (g : grid CC) (sl : slices) (f : array CC) : R :=
  re (sum3 g (fun x y z => if in_slices g sl x y z then f x y z else 0%K)) / re (sum3 g (fun x y z => if in_slices g sl x y z then 1%K else 0%K)).
Definition size (sl : slices) (a : nat) : Z := (snd (sl a) - fst (sl a))%Z.
Definition set_slice (sl : slices) (axis : nat) (s : Z * Z) : slices := fun a => if Nat.eqb a axis then s else sl a.

(** the factors for the vector [k] on the grid, operators.py:657-728 with shift_orthogonal = 0;
    the cell sizes are real *)
Definition total_length (d : nat -> nat -> CC) (n : nat -> nat) (a : nat) : R := re (fsum (n a) (d a)).
Definition bloch_phases (g : grid CC) (k : vec3) : phases CC :=
  Phases (K := CC) (fun a => turn (- (k a * total_length (dxe g) (dim g) a))) (fun a => turn (k a * total_length (dxe g) (dim g) a))
         (fun a => turn (- (k a * total_length (dxh g) (dim g) a))) (fun a => turn (k a * total_length (dxh g) (dim g) a)).

(** *** scalar2rotated_vector_fields, lines 80-200, with mu = None *)
(** [pos c a i] is the coordinate along axis a of the i-th place of component c of the electric
    field, eps_grid.shifted_xyz(which_shifts=c)[a][i] *)
Definition places := nat -> nat -> nat -> R.
(** the grid with its axes permuted, line 166 *)
Definition turned_grid (g : grid CC) (axis : nat) : grid CC :=
  Grid (K := CC) (fun a => dim g (order axis a)) (fun a => dxe g (order axis a)) (fun a => dxh g (order axis a)).
(** E_fields, lines 125-163 *)
Definition turned_E (pos : places) (axis : nat) (back : bool) (theta psi pol : R) (scalar : mat3 -> vec3 -> CC) : field3 CC := fun o i j l =>
  let xyz := pos (order axis o) in
  (scalar (inv3 (total_rotation back theta psi pol)) (v3 (xyz (order axis 0) i) (xyz (order axis 1) j) (xyz (order axis 2) l))
   * rl (e_turned back theta psi pol o))%K.
(** f.transpose(reverse_order) *)
Definition turned_back (axis : nat) (f : array CC) : array CC := fun x y z =>
  f (pick (order axis 0) x y z) (pick (order axis 1) x y z) (pick (order axis 2) x y z).
Definition unvec_or (g : grid CC) (v : list CC) : field3 CC := fun c x y z => at_ v (c * cellsn g + (x + dim g 0 * (y + dim g 1 * z))).
Record fields := Fields { f_k : vec3; f_E : field3 CC; f_H : field3 CC }.
Definition vector_fields (g : grid CC) (pos : places) (eps : field3 CC) (omega : R) (axis : nat) (sl : slices) (theta psi pol : R) (back : bool) (power : R)
    (scalar : mat3 -> vec3 -> CC) : fields :=
  let ref_index := sqrt (average g sl (eps 0%nat)) in
  let k := k_turned back theta psi in
  let bloch : vec3 := fun a => k a * omega * ref_index in
  let E := turned_E pos axis back theta psi pol scalar in
  let g' := turned_grid g axis in
  let h := mv (vlen g') (e2h g' (bloch_phases g' bloch) (rl omega) None None) (vec g' E) in
  let H := unvec_or g' h in
  {| f_k := fun a => bloch (reverse_order axis a);
     f_E := fun a x y z => (rl (sqrt power) * turned_back axis (E (reverse_order axis a)) x y z)%K;
     f_H := fun a x y z => (rl (sqrt power) * turned_back axis (H (reverse_order axis a)) x y z)%K |}.

(** compute_transmission_chew, waveguide_mode.py:598-634 *)
Definition transmission_chew (g : grid CC) (E H : field3 CC) (axis : nat) (sl : slices) : res R :=
  if negb (Z.eqb (size sl axis) 1) then Err ValueError else
  let s := mv (vlen g) (poynting_chew_e_cross g (vec g E)) (map kconj (vec g H)) in
  Ok (cabs (sum3 g (fun x y z => if in_slices g sl x y z then unvec_or g s axis x y z else 0%K))).

(** *** the current, lines 338-363 and 424-449.  [cut] is the index at which the field is cut
    off; the list of slices that the caller passed is changed *)
Definition cut_index (back : bool) (s : Z * Z) : Z := if back then fst s else (snd s - 1)%Z.
Definition cut_field (g : grid CC) (axis : nat) (back : bool) (ind : Z) (E : field3 CC) : field3 CC := fun c x y z =>
  if selects (dim g axis) (if back then (0%Z, ind) else (ind, Z.of_nat (dim g axis))) (pick axis x y z) then E c x y z else 0%K.
Definition cut_current (g : grid CC) (eps : field3 CC) (omega : R) (axis : nat) (sl : slices) (back : bool) (k : vec3) (E : field3 CC) : field3 CC * slices :=
  let ind := cut_index back (sl axis) in
  let J_slices := set_slice sl axis (ind - 1, ind + 1)%Z in
  let full := e_full g (bloch_phases g k) (rl omega) (at_ (vec g eps)) None None None in
  let J_temp := unvec_or g (map (fun v => 1 / (- ki * rl omega) * v)%K (mv (vlen g) full (vec g (cut_field g axis back ind E)))) in
  (fun c x y z => if in_slices g J_slices x y z then J_temp c x y z else 0%K, J_slices).

(** *** build_gaussian_source, lines 366-449: the current, the wave vector and the list of
    slices as the caller finds it afterwards *)
Definition build_gaussian_source (g : grid CC) (pos : places) (eps : field3 CC) (omega w0 : R) (center : vec3) (axis : nat) (sl : slices)
    (theta psi pol : R) (back : bool) (power : R) : field3 CC * vec3 * slices :=
  let eps_val := average g sl (eps 0%nat) in
  let F := vector_fields g pos eps omega axis sl theta psi pol back power (gaussian_beam w0 center omega eps_val back) in
  let (J, sl') := cut_current g eps omega axis sl back (f_k F) (f_E F) in
  (J, f_k F, sl').

(** *** build_plane_wave_source, lines 203-363 *)
(** x of make_mask, lines 280-288, for borders >= 0: np.arange(1, 0, -d) has b entries and
    np.arange(d, 1 + d, d) has b entries if the division is exact *)
Definition ramp (s b i : Z) : R :=
  if (Z.ltb (2 * b) (s - 1) && Z.ltb 0 b)%bool then
    if Z.ltb i b then 1 - IZR i / IZR b else if Z.ltb i (s - b) then 0 else IZR (i - (s - b) + 1) / IZR b
  else 0.
(** make_mask, lines 264-299 *)
Definition make_mask (g : grid CC) (sl : slices) (axis : nat) (border : nat -> Z) : nat -> nat -> nat -> R := fun x y z =>
  if in_slices g (set_slice sl axis (0, Z.of_nat (dim g axis))%Z) x y z then
    let coord a := if Nat.eqb a axis then 0 else ramp (size sl a) (border a) (Z.of_nat (pick a x y z) - fst (sl a)) in
    let co := sqrt (coord 0%nat * coord 0%nat + coord 1%nat * coord 1%nat + coord 2%nat * coord 2%nat) in
    let co := if Rlt_dec 1 co then 1 else co in
    1 + 2 * (co * co * co) - 3 * (co * co)
  else 0.
(** lines 304-315: the borders that are used *)
Definition check_border (sl : slices) (axis : nat) (border : nat -> Z) : res (nat -> Z) :=
  let b0 a := if Nat.eqb a axis then 0%Z else border a in
  let one a := if Z.ltb (2 * b0 a) (size sl a) then Ok (b0 a) else if Z.eqb (size sl a) 1 then Ok 0%Z else Err ValueError in
  bind (one 0%nat) (fun x => bind (one 1%nat) (fun y => bind (one 2%nat) (fun z =>
  let b1 : nat -> Z := fun a => match a with 0 => x | 1 => y | _ => z end%nat in
  Ok (fun a => if Z.ltb (2 * b1 a) (size sl a) then b1 a else 0%Z)))).
(** the whole function.  Division by P = 0 makes nan: an error here *)
Definition build_plane_wave_source (g : grid CC) (pos : places) (eps : field3 CC) (omega : R) (axis : nat) (sl : slices)
    (theta psi pol : R) (back : bool) (border : nat -> Z) (power : R) : res (field3 CC * vec3 * slices) :=
  let eps_val := average g sl (eps 0%nat) in
  let F := vector_fields g pos eps omega axis sl theta psi pol back power (plane_wave omega eps_val back) in
  bind (check_border sl axis border) (fun b =>
  let mask := make_mask g sl axis b in
  let slices_P : slices := fun a => (fst (sl a) + b a, snd (sl a) - b a)%Z in
  bind (transmission_chew g (f_E F) (f_H F) axis slices_P) (fun P =>
  if Req_EM_T P 0 then Err ZeroDivisionError else
  let E : field3 CC := fun c x y z => (rl (mask x y z) * (f_E F c x y z / rl (sqrt (Rabs P))))%K in
  let (J, sl') := cut_current g eps omega axis sl back (f_k F) E in
  Ok (J, f_k F, sl'))).

(** *** normalize_source_by_sim, lines 452-508.  [solve eps J] is the field that the solver
    returns for the permittivity eps; the division by the sum of |source| makes nan when the
    source is zero: an error here; likewise for a current power of zero and a negative ratio of powers *)
Definition rsum (l : list R) : R := fold_right Rplus 0 l.
Definition csum (l : list CC) : CC := fold_right (@kadd CC) 0%K l.
Definition eps_average (g : grid CC) (source eps : field3 CC) : CC :=
  (csum (map (fun p => rl (cabs (fst p)) * snd p)%K (combine (vec g source) (vec g eps))) / rl (rsum (map cabs (vec g source))))%K.
Definition emitted (g : grid CC) (source : field3 CC) (e : list CC) : R :=
  let dx := re (dxe g 0 0) in
  1 / 2 * rsum (map (fun p => - re (kconj (fst p) * snd p)%K) (combine (vec g source) e)) * (dx * dx * dx).
Definition normalize_source_by_sim (g : grid CC) (solve : list CC -> list CC -> list CC) (source eps : field3 CC) (power : R) : res (field3 CC) :=
  if Req_EM_T (rsum (map cabs (vec g source))) 0 then Err ZeroDivisionError else
  let eps_avg := eps_average g source eps in
  let e := solve (vec g (fun _ _ _ _ => eps_avg)) (vec g source) in
  let cur_power := emitted g source e in
  if Req_EM_T cur_power 0 then Err ZeroDivisionError else
  if Rlt_dec (power / cur_power) 0 then Err ZeroDivisionError else
  Ok (fun c x y z => (source c x y z * rl (sqrt (power / cur_power)))%K).
