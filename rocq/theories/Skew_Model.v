(** Model of the wave operators with sideways shifts at the periodic boundaries
    (argument shift_orthogonal) and of the phases computed from the cell sizes:
    /repo/spins/fdfd_tools/operators.py:44-98, 241-276, 603-728.
    shift_orthogonal is a matrix of integers (the code applies int to its entries); the
    rotations are those of Maxwell_Model. *)
From Verif Require Import Base CField Maxwell_Model CplxField GMath_Model Fs_Model.
From Coq Require Import ZArith Reals.
Set Implicit Arguments.

Section Skew.
Variable K : cfield.
Local Open Scope K_scope.
Variable g : grid K.

(** deriv_forward_shift, lines 657-691: the list Ds is made for the axes 0, 1, 2 in order *)
Definition forward_axis (u w : nat -> K) (so : nat -> nat -> Z) (a : nat) : res (mat K) :=
  bind (rotation_bloch_shift g a 1 u w (so a)) (fun R =>
  Ok (mmul (cellsn g) (mdiag (fun t => 1 / dxe g a (coord g a t))) (msub R meye))).
Definition back_axis (u w : nat -> K) (so : nat -> nat -> Z) (a : nat) : res (mat K) :=
  bind (rotation_bloch_shift g a (-1) u w (so a)) (fun R =>
  Ok (mmul (cellsn g) (mdiag (fun t => - (1) / dxh g a (coord g a t))) (msub R meye))).
Definition three (f : nat -> res (mat K)) : res (nat -> mat K) :=
  bind (f 0%nat) (fun x => bind (f 1%nat) (fun y => bind (f 2%nat) (fun z =>
  Ok (fun a => match a with 0 => x | 1 => y | _ => z end)))).
Definition deriv_forward_shift (u w : nat -> K) (so : nat -> nat -> Z) : res (nat -> mat K) := three (forward_axis u w so).
(** deriv_back_shift, lines 694-728 *)
Definition deriv_back_shift (u w : nat -> K) (so : nat -> nat -> Z) : res (nat -> mat K) := three (back_axis u w so).
(** curl_e, curl_h, lines 241-276 *)
Definition curl_e_shift (u w : nat -> K) (so : nat -> nat -> Z) : res (mat K) :=
  bind (deriv_forward_shift u w so) (fun D => Ok (cross g D)).
Definition curl_h_shift (u w : nat -> K) (so : nat -> nat -> Z) : res (mat K) :=
  bind (deriv_back_shift u w so) (fun D => Ok (cross g D)).
(** e_full, lines 44-98 *)
Definition e_full_shift (ph : phases K) (so : nat -> nat -> Z) (omega : K) (eps : nat -> K) (mu : option (nat -> K))
  (pec pmc : option (nat -> bool)) : res (mat K) :=
  bind (curl_e_shift (ue ph) (we ph) so) (fun ce =>
  bind (curl_h_shift (uh ph) (wh ph) so) (fun ch =>
  let mm := mmul (vlen g) in
  let pe := mask pec in let pm := mask pmc in
  let m_div := match mu with None => meye | Some m => mdiag (fun i => 1 / m i) end in
  let op := mm (mm (mm ch pm) m_div) ce in
  Ok (mm (mm pe (msub op (mscale (omega * omega) (mdiag eps)))) pe))).
End Skew.

(** *** the phases, lines 676-680 and 713-717, for a real Bloch vector *)
Local Open Scope R_scope.
Definition rsum (n : nat) (f : nat -> R) : R := fold_right Rplus 0 (map f (seq 0 n)).
(** (np.diag(L_sim) - shift_orthogonal @ np.diag(dx_0)) @ bloch_vec *)
Definition phase (dim : nat -> nat) (dx : nat -> nat -> R) (so : nat -> nat -> Z) (k : nat -> R) (a : nat) : R :=
  rsum 3 (fun b => ((if Nat.eqb a b then rsum (dim a) (dx a) else 0) - IZR (so a b) * dx b 0%nat) * k b).
(** the arrays dx_e and dx_h are real; the operators are complex *)
Definition real_grid (dim : nat -> nat) (de dh : nat -> nat -> R) : grid CC :=
  @Grid CC dim (fun a i => (de a i, 0)) (fun a i => (dh a i, 0)).
(** np.exp(-1j * phase), np.exp(1j * phase) *)
Definition bloch_phases (dim : nat -> nat) (de dh : nat -> nat -> R) (so : nat -> nat -> Z) (k : nat -> R) : phases CC :=
  @Phases CC (fun a => turn (- phase dim de so k a)) (fun a => turn (phase dim de so k a))
             (fun a => turn (- phase dim dh so k a)) (fun a => turn (phase dim dh so k a)).
(** e_full(omega, dxes, epsilon, mu, pec, pmc, bloch_vec, shift_orthogonal) *)
Definition wave_operator (dim : nat -> nat) (de dh : nat -> nat -> R) (k : nat -> R) (so : nat -> nat -> Z) (omega : CC) (eps : nat -> CC)
  (mu : option (nat -> CC)) (pec pmc : option (nat -> bool)) : res (mat CC) :=
  e_full_shift (real_grid dim de dh) (bloch_phases dim de dh so k) so omega eps mu pec pmc.
