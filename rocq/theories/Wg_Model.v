(** Model of waveguide modes and of the sources made from them:
    /repo/spins/fdfd_tools/waveguide.py:32-79 (operator), 82-128 (normalized_fields),
    131-178 (v2h, v2e), 201-248 (h2e, curl_e, curl_h) and
    /repo/spins/fdfd_solvers/waveguide_mode.py:14-108 (solve_waveguide_mode_2d), 275-358
    (solve_waveguide_mode), 361-411 (compute_source).
    Arrays are functions of the indices as in Maxwell_Model.v.  Two-dimensional arrays are
    arrays whose third index is not used.  Polarity -1 is [back = true]; other values of
    polarity than 1 and -1 are not modelled.  The eigenvalue solver (power iteration, eigs,
    Rayleigh iteration) is not modelled: its result is an argument.  The exponential
    function is an argument. *)
From Verif Require Import Base CField Maxwell_Model.
Set Implicit Arguments.

Section Wg.
Variable K : cfield.
Local Open Scope K_scope.
Variable cexp : K -> K.        (* np.exp *)

(** np.roll(range(3), 2 - axis)[k], np.roll(range(3), axis - 2)[a], np.roll(range(3), -axis)[k]:
    waveguide_mode.py:308-309, 394 *)
Definition order (axis k : nat) : nat := Nat.modulo (k + axis + 1) 3.
Definition reverse_order (axis a : nat) : nat := Nat.modulo (a + 5 - axis) 3.
Definition src_order (axis k : nat) : nat := Nat.modulo (k + axis) 3.
(** f.transpose(order) *)
Definition turned (axis : nat) (f : array K) : array K := fun i j l =>
  match axis with 0 => f l i j | 1 => f j l i | _ => f i j l end.
(** f[tuple(slices)]; a slice is its first index and its length *)
Definition sliced (st : nat -> nat) (f : array K) : array K := fun x y z => f (st 0 + x)%nat (st 1 + y)%nat (st 2 + z)%nat.
(** the arguments of the two-dimensional problem, lines 312-320; the grid has one cell along
    the axis *)
Definition plane (g : grid K) (axis : nat) (st len : nat -> nat) : grid K :=
  Grid (fun k => match k with 0 | 1 => len (order axis k) | _ => 1 end)%nat
       (fun k i => dxe g (order axis k) (st (order axis k) + i)%nat)
       (fun k i => dxh g (order axis k) (st (order axis k) + i)%nat).
Definition in_plane (axis : nat) (st : nat -> nat) (f : field3 K) : field3 K :=
  fun k => turned axis (sliced st (f (order axis k))).

(** *** waveguide.py on the plane; de and dh are the rows of deriv_forward and deriv_back
    (lines 62-63), products with sparse.diags are products of the entries *)
Section Plane.
Variable g : grid K.
Variables (omega : K) (eps mu : field3 K).
(** operator, lines 65-79: op @ v for v = hstack((hx, hy)).  [astype(float)] is the identity
    because real arguments are assumed. *)
Definition op_cz (hx hy : array K) : array K := fun i j l => 1 / eps 2%nat i j l * (- dh g hx 1 i j l + dh g hy 0 i j l).
Definition op_dv (hx hy : array K) : array K := fun i j l => 1 / mu 2%nat i j l *
  (de g (fun i j l => mu 0%nat i j l * hx i j l) 0 i j l + de g (fun i j l => mu 1%nat i j l * hy i j l) 1 i j l).
Definition wg_operator (v : array K * array K) : array K * array K :=
  let hx := fst v in let hy := snd v in
  (fun i j l => omega * omega * eps 1%nat i j l * mu 0%nat i j l * hx i j l
              + eps 1%nat i j l * - de g (op_cz hx hy) 1 i j l + dh g (op_dv hx hy) 0 i j l,
   fun i j l => omega * omega * eps 0%nat i j l * mu 1%nat i j l * hy i j l
              + eps 0%nat i j l * de g (op_cz hx hy) 0 i j l + dh g (op_dv hx hy) 1 i j l).
(** operators.cross([Dx, Dy, Bz]) @ f with Bz = -1j * wavenumber, lines 217-248 *)
Definition wg_curl (d : array K -> nat -> array K) (beta : K) (f : field3 K) : field3 K := fun c i j l =>
  let bz := - ki * beta in
  match c with
  | 0 => d (f 2%nat) 1%nat i j l - bz * f 1%nat i j l
  | 1 => bz * f 0%nat i j l - d (f 2%nat) 0%nat i j l
  | _ => d (f 1%nat) 0%nat i j l - d (f 0%nat) 1%nat i j l
  end.
Definition wg_curl_e : K -> field3 K -> field3 K := wg_curl (de g).
Definition wg_curl_h : K -> field3 K -> field3 K := wg_curl (dh g).
(** v2h, lines 131-156 (mu is given); v2e, lines 159-178 *)
Definition v2h (beta : K) (v : array K * array K) : field3 K := fun c i j l =>
  match c with 0 => fst v i j l | 1 => snd v i j l | _ => op_dv (fst v) (snd v) i j l / (ki * beta) end.
Definition v2e (beta : K) (v : array K * array K) : field3 K := fun c i j l =>
  1 / (ki * omega * eps c i j l) * wg_curl_h beta (v2h beta v) c i j l.
End Plane.
Definition scale3 (c : K) (f : field3 K) : field3 K := fun a x y z => c * f a x y z.

(** *** waveguide_mode.py *)
Definition two : K := 1 + 1.
Definition polarity (back : bool) : K := if back then - (1) else 1.
(** E[a] = zeros; E[a][tuple(slices)] = f[reverse_order[a]][:, :, None].transpose(reverse_order),
    lines 340-350 *)
Definition expand (axis : nat) (st len : nat -> nat) (f : field3 K) : field3 K := fun a x y z =>
  if forallb (fun k => Nat.leb (st k) (pick k x y z) && Nat.ltb (pick k x y z) (st k + len k)) (seq 0 3)
  then f (reverse_order axis a) (pick (order axis 0) x y z - st (order axis 0))%nat (pick (order axis 1) x y z - st (order axis 1))%nat 0%nat
  else 0.
(** solve_waveguide_mode, lines 275-358, after the eigenvalue solver has found [v] with
    eigenvalue beta**2 for the plane; [nf] is norm_factor of normalized_fields and [k] the
    wavenumber that solve_waveguide_mode_2d returns.  Only one cell is selected along the axis. *)
Definition solve_waveguide_mode (g : grid K) (axis : nat) (back : bool) (st len : nat -> nat) (omega : K) (eps mu : field3 K)
    (v : array K * array K) (beta nf k : K) : field3 K * field3 K :=
  let g2 := plane g axis st len in
  let eps2 := in_plane axis st eps in let mu2 := in_plane axis st mu in
  let e := scale3 nf (v2e g2 omega eps2 mu2 beta v) in
  let h := scale3 nf (v2h g2 mu2 beta v) in
  let e := if back then fun c i j l => kconj (e c i j l) else e in
  let h := if back then fun c i j l => - kconj (h c i j l) else h in
  let d_prop := 1 / two * (dxe g axis (st axis) + dxh g axis (st axis)) in
  let h := scale3 (cexp (- polarity back * ki * (1 / two) * k * d_prop)) h in
  (expand axis st len e, expand axis st len h).
(** compute_source, lines 361-411; [s] is the index that slices[axis] selects, mu = None is
    the constant 1 *)
Definition compute_source (g : grid K) (axis : nat) (back : bool) (s : nat) (omega wavenumber : K) (mu E H : field3 K) : field3 K :=
  let pol := polarity back in
  let exp_iphi := cexp (ki * pol * wavenumber * dxh g axis s) in
  let J : field3 K := fun c x y z =>
    if Nat.eqb c (src_order axis 1) then exp_iphi * H (src_order axis 2) x y z * pol else
    if Nat.eqb c (src_order axis 2) then - exp_iphi * H (src_order axis 1) x y z * pol else 0 in
  let M : field3 K := fun c x y z =>
    if Nat.eqb c (src_order axis 1) then roll_forward g (E (src_order axis 2)) axis x y z * pol else
    if Nat.eqb c (src_order axis 2) then - roll_forward g (E (src_order axis 1)) axis x y z * pol else 0 in
  let Jm := fcurl_h g (fun c x y z => M c x y z / mu c x y z) in
  fun c x y z => (J c x y z + Jm c x y z / (- ki * omega)) / dxh g axis s.
End Wg.
