(** The interpolant in one cell is a product of Hermite cubics. *)
From Coq Require Import Reals Lra Lia.
From Verif Require Import Base Cub_Model Cub_Spec Cub_Proofs Cub_Proofs2.
Set Implicit Arguments.
Open Scope R_scope.

(** The cubic on [0, d] with values f0, f1 and slopes g0, g1 at the ends. *)
Definition herm (d f0 f1 g0 g1 t : R) : R :=
  let u := t / d in
  f0 * (1 - 3 * u ^ 2 + 2 * u ^ 3) + f1 * (3 * u ^ 2 - 2 * u ^ 3)
  + d * g0 * (u - 2 * u ^ 2 + u ^ 3) + d * g1 * (u ^ 3 - u ^ 2).
Definition herm' (d f0 f1 g0 g1 t : R) : R :=
  let u := t / d in
  f0 / d * (6 * u ^ 2 - 6 * u) + f1 / d * (6 * u - 6 * u ^ 2)
  + g0 * (1 - 4 * u + 3 * u ^ 2) + g1 * (3 * u ^ 2 - 2 * u).

Section rows.
  Variables dx dy : R.
  Hypothesis Hx : dx <> 0.
  Hypothesis Hy : dy <> 0.
  Variables f0 f1 f2 f3 x0 x1 x2 x3 y0 y1 y2 y3 w0 w1 w2 w3 x y : R.
  Let F := [f0; f1; f2; f3; x0; x1; x2; x3; y0; y1; y2; y3; w0; w1; w2; w3].

  Lemma row_f : xy_row (pow4 x) (pow4 y) (coefficients dx dy F) =
    herm dx (herm dy f0 f2 y0 y2 y) (herm dy f1 f3 y1 y3 y)
            (herm dy x0 x2 w0 w2 y) (herm dy x1 x3 w1 w3 y) x.
  Proof.
    unfold xy_row, pow4, coefficients, F, dxdy_corr, dxdy_inv, a_single, nthR, herm.
    cbn [map combine fst snd dot3 repeat app flat_map nth fold_right Nat.add Nat.mul].
    field; auto.
  Qed.
  Lemma row_fx : xy_row (dpow4 x) (pow4 y) (coefficients dx dy F) =
    herm' dx (herm dy f0 f2 y0 y2 y) (herm dy f1 f3 y1 y3 y)
             (herm dy x0 x2 w0 w2 y) (herm dy x1 x3 w1 w3 y) x.
  Proof.
    unfold xy_row, pow4, dpow4, coefficients, F, dxdy_corr, dxdy_inv, a_single, nthR, herm, herm'.
    cbn [map combine fst snd dot3 repeat app flat_map nth fold_right Nat.add Nat.mul].
    field; auto.
  Qed.
  Lemma row_fy : xy_row (pow4 x) (dpow4 y) (coefficients dx dy F) =
    herm dx (herm' dy f0 f2 y0 y2 y) (herm' dy f1 f3 y1 y3 y)
            (herm' dy x0 x2 w0 w2 y) (herm' dy x1 x3 w1 w3 y) x.
  Proof.
    unfold xy_row, pow4, dpow4, coefficients, F, dxdy_corr, dxdy_inv, a_single, nthR, herm, herm'.
    cbn [map combine fst snd dot3 repeat app flat_map nth fold_right Nat.add Nat.mul].
    field; auto.
  Qed.
End rows.
