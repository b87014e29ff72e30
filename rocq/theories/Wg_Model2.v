(** Model of what is made of the eigenvector that the mode solver finds:
    /repo/spins/fdfd_tools/waveguide.py:82-128 (normalized_fields),
    /repo/spins/fdfd_solvers/waveguide_mode.py:80-99 (wavenumber, its correction) and 688-749
    (build_waveguide_source), /repo/spins/fdfd_tools/waveguide_mode.py:94-95 (the other
    correction).  Complex numbers are exact.  The eigenvalue solver is not modelled: its
    eigenvector and the root of its eigenvalue are arguments.  AssertionError is
    [UserError 1]. *)
From Coq Require Import Reals.
From Verif Require Import Base CField GMath_Model CplxField Maxwell_Model Wg_Model.
Set Implicit Arguments.
Local Open Scope R_scope.

(** a real number *)
Definition rl (r : R) : CC := (r, 0).
(** np.exp *)
Definition cexp (z : CC) : CC := (exp (fst z) * cos (snd z), exp (fst z) * sin (snd z)).
(** fdfd_solvers/waveguide_mode.py:99 with dx = 1 (line 98): the sum is a real number *)
Definition corrected_solvers (w : CC) : CC := (sin (fst w * 1 / 2) / (1 / 2) + snd w, 0).
(** fdfd_tools/waveguide_mode.py:95 *)
Definition corrected_tools (w : CC) : CC := (fst w - (2 * sin (fst w / 2) - fst w), snd w).

(** sum of all entries of a two-dimensional array *)
Definition sum_plane (g : grid CC) (f : array CC) : CC := fsum (dim g 0) (fun i => fsum (dim g 1) (fun j => f i j 0%nat)).
Definition re (z : CC) : R := fst z.
(** P, waveguide.py:103-117; np.roll by one is roll_back *)
Definition mode_power (g : grid CC) (E H : field3 CC) : R :=
  let S1 : array CC := fun i j l => (E 0%nat i j l * roll_back g (fun i j l => kconj (H 1%nat i j l)) 0 i j l * rl (re (dxe g 1 j)) * rl (re (dxh g 0 i)))%K in
  let S2 : array CC := fun i j l => (E 1%nat i j l * roll_back g (fun i j l => kconj (H 0%nat i j l)) 1 i j l * rl (re (dxe g 0 i)) * rl (re (dxh g 1 j)))%K in
  let S : array CC := fun i j l => (rl (1 / 2) * ((S1 i j l + roll_back g S1 0 i j l) - (S2 i j l + roll_back g S2 1 i j l)))%K in
  1 / 2 * re (sum_plane g S).
(** entry m of the vectorized field, column-major *)
Definition entry (g : grid CC) (E : field3 CC) (m : nat) : CC :=
  let n := (dim g 0 * dim g 1)%nat in
  let r := Nat.modulo m n in E (Nat.div m n) (Nat.modulo r (dim g 0)) (Nat.div r (dim g 0)) 0%nat.
(** np.exp(-1j * np.angle(z)); np.angle(0) = 0 *)
Definition unturn (z : CC) : CC := if czero z then (1 : CC)%K else (kconj z / rl (cabs z))%K.
(** norm_factor, waveguide.py:118-123 *)
Definition norm_factor (g : grid CC) (E H : field3 CC) : res CC :=
  let P := mode_power g E H in
  if Rlt_dec 0 P then Ok (rl (1 / sqrt P) * unturn (entry g E (Nat.div (3 * (dim g 0 * dim g 1)) 2)))%K else Err (UserError 1).

(** normalized_fields, waveguide.py:82-128 *)
Definition normalized_fields (g : grid CC) (omega : CC) (eps mu : field3 CC) (beta : CC) (v : array CC * array CC) : res (field3 CC * field3 CC) :=
  let e := v2e g omega eps mu beta v in let h := v2h g mu beta v in
  bind (norm_factor g e h) (fun nf => Ok (scale3 nf e, scale3 nf h)).

(** np.argmax: the first of the largest entries *)
Fixpoint argmax_from (best : nat) (b : R) (i : nat) (l : list R) : nat :=
  match l with
  | [] => best
  | x :: l' => if Rlt_dec b x then argmax_from i x (S i) l' else argmax_from best b (S i) l'
  end.
Definition argmax (l : list R) : nat := match l with [] => 0%nat | x :: l' => argmax_from 0 x 1 l' end.
(** flatten() *)
Definition flattenC {A} (g : grid CC) (f : nat -> nat -> nat -> A) : list A :=
  flat_map (fun x => flat_map (fun y => map (fun z => f x y z) (seq 0 (dim g 2))) (seq 0 (dim g 1))) (seq 0 (dim g 0)).
(** the phase of the largest component where the field is largest, lines 731-737 *)
Definition field_phase (g : grid CC) (E : field3 CC) : CC :=
  let E2 := fun x y z => sqrt (cabs (E 0%nat x y z) ^ 2 + cabs (E 1%nat x y z) ^ 2 + cabs (E 2%nat x y z) ^ 2) in
  let max_ind := argmax (flattenC g E2) in
  let max_field := map (fun i => nth max_ind (flattenC g (E i)) (0 : CC)%K) [0; 1; 2]%nat in
  let max_comp := argmax (map cabs max_field) in
  let m := nth max_comp max_field (0 : CC)%K in
  (m / rl (cabs m))%K.
(** build_waveguide_source, lines 688-749, with wavenumber_correction left at True in
    solve_waveguide_mode; [v], [beta] are what solve_waveguide_mode_2d has found, slices[axis]
    selects one index, power >= 0 *)
Definition build_waveguide_source (g : grid CC) (axis : nat) (back : bool) (st len : nat -> nat) (omega : CC) (eps mu : field3 CC) (power : R)
    (v : array CC * array CC) (beta : CC) : res (field3 CC) :=
  let g2 := plane g axis st len in
  let eps2 := in_plane axis st eps in let mu2 := in_plane axis st mu in
  bind (norm_factor g2 (v2e g2 omega eps2 mu2 beta v) (v2h g2 mu2 beta v)) (fun nf =>
  let k := corrected_solvers beta in
  let (E, H) := solve_waveguide_mode cexp g axis back st len omega eps mu v beta nf k in
  let phase := field_phase g E in
  let J := compute_source cexp g axis back (st axis) omega k mu (fun c x y z => (E c x y z / phase)%K) (fun c x y z => (H c x y z / phase)%K) in
  Ok (fun c x y z => (J c x y z * rl (sqrt power))%K)).
