(** Wavenumbers, normalization and phase. *)
From Coq Require Import Reals Lra.
From Verif Require Import Base CField CField_Proofs GMath_Model GMath_Proofs CplxField Maxwell_Model Wg_Model Wg_Model2 Wg_Spec.
From Coq Require Import Lia.
Set Implicit Arguments.
Local Open Scope R_scope.

Lemma cexp_add (a b : CC) : cexp (a + b)%K = (cexp a * cexp b)%K.
Proof.
  destruct a as [a1 a2], b as [b1 b2]. change (cexp (a1 + b1, a2 + b2) = cmul (cexp (a1, a2)) (cexp (b1, b2))). unfold cexp, cmul. cbn [fst snd].
  rewrite exp_plus, cos_plus, sin_plus. apply c_eq; cbn [fst snd]; ring.
Qed.
Lemma cexp_0 : cexp (0 : CC)%K = (1 : CC)%K.
Proof. unfold cexp. cbn. rewrite exp_0, cos_0, sin_0. apply c_eq; cbn; ring. Qed.
Lemma two_CC : two CC <> (0 : CC)%K.
Proof. unfold two. cbn. intros E. apply (f_equal fst) in E. cbn in E. lra. Qed.
Lemma dispersion_real (k d b : R) : d <> 0 ->
  dispersion cexp (rl k) (rl d) (rl b) = (0, b - 2 * sin (k * d / 2) / d).
Proof.
  intros Hd. unfold dispersion.
  assert (E1 : (- ki * rl k * rl d / (1 + 1))%K = (0, - (k * d / 2)) :> CC).
  { cbn. unfold cdiv, cinv, cmul, imag_unit, copp, cconj, cscale, rl, cadd, c1, creal. apply c_eq; cbn [fst snd]; field; try lra. }
  assert (E2 : (ki * rl k * rl d / (1 + 1))%K = (0, k * d / 2) :> CC).
  { cbn. unfold cdiv, cinv, cmul, imag_unit, copp, cconj, cscale, rl, cadd, c1, creal. apply c_eq; cbn [fst snd]; field; try lra. }
  rewrite E1, E2. unfold cexp. cbn [fst snd]. rewrite exp_0, cos_neg, sin_neg.
  cbn. unfold cdiv, cinv, cmul, csub, imag_unit, copp, cconj, cscale, rl, cadd, c1, creal. apply c_eq; cbn [fst snd]; field; auto.
Qed.
(** *** the corrections *)
Lemma abs_sin_lt x : 0 < x -> Rabs (sin x) < x.
Proof.
  intros Hx. apply Rabs_def1; [apply sin_lt_x; auto|].
  destruct (Rlt_dec x PI) as [Hp|Hp]; [pose proof (sin_gt_0 x Hx Hp); lra|].
  pose proof (SIN_bound x). pose proof PI2_1. pose proof PI_RGT_0. assert (1 < x) by (pose proof PI2_3_2; lra). lra.
Qed.
Lemma uncorrected_short b d : 0 < b -> 0 < d -> 2 * sin (b * d / 2) / d < b.
Proof.
  intros Hb Hd. assert (0 < b * d) by (apply Rmult_lt_0_compat; auto).
  pose proof (sin_lt_x (b * d / 2) ltac:(lra)) as H0.
  apply (Rmult_lt_reg_r d); auto. replace (2 * sin (b * d / 2) / d * d) with (2 * sin (b * d / 2)) by (field; lra). lra.
Qed.
Lemma corrected_shorter b d : 0 < b -> 0 < d -> b * d <= PI ->
  2 * sin (fst (corrected_solvers (rl b)) * d / 2) / d < 2 * sin (b * d / 2) / d.
Proof.
  intros Hb Hd Hp. assert (Hbd : 0 < b * d) by (apply Rmult_lt_0_compat; auto).
  unfold corrected_solvers, rl. cbn [fst snd].
  set (k := sin (b * 1 / 2) / (1 / 2) + 0).
  assert (Hk : - b < k < b).
  { pose proof (@abs_sin_lt (b / 2) ltac:(lra)) as A. apply Rabs_def2 in A. unfold k. replace (b * 1 / 2) with (b / 2) by field. split; lra. }
  assert (S : sin (k * d / 2) < sin (b * d / 2)).
  { assert (k * d < b * d) by (apply Rmult_lt_compat_r; lra).
    assert (- b * d < k * d) by (apply Rmult_lt_compat_r; lra).
    apply sin_increasing_1; lra. }
  unfold Rdiv. apply Rmult_lt_compat_r; [apply Rinv_0_lt_compat; auto|]. lra.
Qed.
Lemma tools_better b : 0 < b -> b - sin (b / 2) <= PI / 2 ->
  2 * sin (b / 2) < 2 * sin (fst (corrected_tools (rl b)) / 2) <= b.
Proof.
  intros Hb Hp. unfold corrected_tools, rl. cbn [fst snd].
  replace ((b - (2 * sin (b / 2) - b)) / 2) with (b - sin (b / 2)) by field.
  pose proof (sin_lt_x (b / 2) ltac:(lra)) as H0. set (x := b / 2) in *. assert (Eb : b = 2 * x) by (unfold x; field). rewrite Eb in *. clearbody x.
  split.
  - assert (sin x < sin (2 * x - sin x)) by (apply sin_increasing_1; try lra; pose proof PI_RGT_0; lra). lra.
  - (* sin (x + t) <= sin x + t *)
    set (t := x - sin x) in *. replace (2 * x - sin x) with (x + t) by (unfold t; ring).
    assert (Ht : 0 < t) by (unfold t; lra).
    assert (L : sin (x + t) - sin x <= t).
    { rewrite form4. replace ((x + t - x) / 2) with (t / 2) by field. replace ((x + t + x) / 2) with (x + t / 2) by field.
      pose proof (COS_bound (x + t / 2)). pose proof (@abs_sin_lt (t / 2) ltac:(lra)) as A.
      assert (B : Rabs (cos (x + t / 2) * sin (t / 2)) <= 1 * (t / 2)).
      { rewrite Rabs_mult. apply Rmult_le_compat; try apply Rabs_pos; [apply Rabs_le; lra|lra]. }
      pose proof (Rle_abs (cos (x + t / 2) * sin (t / 2))). lra. }
    unfold t in *. lra.
Qed.
