(** The backward shift and the forward shift; the derivatives. *)
From Coq Require Import Reals ZArith Lia.
From Coq Require Lra.
From Verif Require Import Base CField CField_Proofs Maxwell_Model Maxwell_Proofs GMath_Model GMath_Proofs CplxField Wg_Model2 Mir_Model Mir_Spec Mir_Proofs Mir_Proofs2.
Set Implicit Arguments.
Section P.
Local Open Scope K_scope.
Add Field CCF3 : (k_field CC).
Variable shape : list nat.
Hypothesis G : good_shape shape.
Local Notation g := (shape_grid CC shape).
Local Notation N := (cellsn g).
Variable axis : nat.
Hypothesis Ha : (axis < length shape)%nat.
Local Notation sz := (sizes shape axis).
Variable phi : CC.
Lemma both_factor : cexp (ki * kconj phi) * cexp (- ki * phi) = rl (exp (2 * snd phi)).
Proof.
  destruct phi as [a b]. apply c_eq; unfold cexp, rl; cbn.
  - replace (exp (2 * b)) with (exp b * exp b)%R by (rewrite <- exp_plus; f_equal; Lra.lra).
    replace (0 * a - 1 * - b)%R with b by Lra.lra. replace (- 0 * a - - (1) * b)%R with b by Lra.lra.
    replace (0 * - b + 1 * a)%R with a by Lra.lra. replace (- 0 * b + - (1) * a)%R with (- a)%R by Lra.lra.
    rewrite cos_neg, sin_neg. pose proof (sin2_cos2 a) as H. unfold Rsqr in H.
    transitivity (exp b * exp b * (sin a * sin a + cos a * cos a))%R; [ring|rewrite H; ring].
  - replace (0 * a - 1 * - b)%R with b by Lra.lra. replace (- 0 * a - - (1) * b)%R with b by Lra.lra.
    replace (0 * - b + 1 * a)%R with a by Lra.lra. replace (- 0 * b + - (1) * a)%R with (- a)%R by Lra.lra.
    rewrite cos_neg, sin_neg. ring.
Qed.
Lemma factor_one_iff : rl (exp (2 * snd phi)) = 1 <-> snd phi = 0%R.
Proof.
  split.
  - intros H. apply (f_equal fst) in H. cbn in H. rewrite <- exp_0 in H. apply exp_inv in H. Lra.lra.
  - intros ->. apply c_eq; cbn; [|reflexivity]. rewrite Rmult_0_r. apply exp_0.
Qed.
Lemma round_trip_at v t : (t < N)%nat -> at_ (mv N (mherm (df shape axis phi)) (mv N (df shape axis phi) v)) t =
  (if Nat.eqb (coord g axis t) 0 then rl (exp (2 * snd phi)) else 1) * at_ v t.
Proof.
  intros Ht. pose proof (a3 G Ha) as A3. rewrite dfH_at by auto. rewrite df_at by (auto using bwd_lt). rewrite fwd_bwd by auto.
  unfold fd, bd. rewrite coord_bwd by auto. rewrite Nat.eqb_refl. cbn [dim shape_grid].
  pose proof (@coord_lt CC g axis t A3 Ht) as C. cbn [dim shape_grid] in C.
  destruct (Nat.eqb_spec (coord g axis t) 0) as [E|E].
  - rewrite E, Nat.mod_small by lia. destruct (Nat.eqb_spec (0 + sz - 1 + 1) sz); [|lia]. rewrite <- both_factor. ring.
  - replace (coord g axis t + sz - 1)%nat with (coord g axis t - 1 + 1 * sz)%nat by lia. rewrite Nat.mod_add, Nat.mod_small by lia.
    destruct (Nat.eqb_spec (coord g axis t - 1 + 1) sz); [lia|]. ring.
Qed.
Lemma round_trip_lemma : (forall v, length v = N -> mv N (mherm (df shape axis phi)) (mv N (df shape axis phi) v) = v) <-> snd phi = 0%R.
Proof.
  rewrite <- factor_one_iff. split.
  - intros H. pose proof (cells_positive CC G) as P. specialize (H (vbuild N (fun _ => (1 : CC))) ltac:(now rewrite vbuild_length)).
    apply (f_equal (fun l => at_ l 0)) in H. rewrite round_trip_at, vbuild_at in H by auto.
    assert (C0 : coord g axis 0 = 0%nat).
    { pose proof (a3 G Ha). assert (A := sizes_pos G 0). assert (B := sizes_pos G 1). destruct axis as [|[|[|a]]]; cbn [coord dim shape_grid]; [| | |lia].
      - apply Nat.mod_0_l; lia.
      - rewrite Nat.div_0_l by lia. apply Nat.mod_0_l; lia.
      - rewrite Nat.div_0_l by lia. apply Nat.div_0_l; lia. }
    rewrite C0 in H. cbn [Nat.eqb] in H. rewrite <- H. ring.
  - intros H v Lv. apply vec_ext; [rewrite mv_length; auto|]. rewrite mv_length. intros t Ht. rewrite round_trip_at, H by auto.
    destruct (Nat.eqb (coord g axis t) 0); ring.
Qed.
(** agreement with the newer function *)
Lemma new_forward t j u w : (t < N)%nat -> (j < N)%nat -> u axis = cexp (- ki * phi) -> rotation_matrix g axis 1 u w no_shift t j = df shape axis phi t j.
Proof.
  intros Ht Hj Hu. rewrite df_entry by auto. unfold rotation_matrix. rewrite bloch_data_fwd by (auto; exact (a3 G Ha)). fold (fwd g axis t). unfold fd. now rewrite Hu.
Qed.
Lemma new_back t j u w : (t < N)%nat -> (j < N)%nat -> w axis = cexp (ki * kconj phi) -> rotation_matrix g axis (-1) u w no_shift t j = mherm (df shape axis phi) t j.
Proof.
  intros Ht Hj Hw. rewrite dfH_entry by auto. unfold rotation_matrix. rewrite bloch_data_bwd by (auto; exact (a3 G Ha)). fold (bwd g axis t). unfold bd. now rewrite Hw.
Qed.
End P.

Section D.
Local Open Scope K_scope.
Variables (dims : list nat) (dx : nat -> nat -> CC) (bloch : nat -> CC) (a : nat).
Hypothesis G : good_shape dims.
Hypothesis Ha : (a < length dims)%nat.
Local Notation g := (cells_of dims dx).
Lemma deriv_forward_lemma u w : u a = cexp (- ki * (bloch a * fsum (sizes dims a) (dx a))) ->
  exists D, old_deriv_forward dims dx bloch a = Ok D /\ forall t j, (t < cellsn g)%nat -> (j < cellsn g)%nat -> D t j = deriv_forward g u w a t j.
Proof.
  intros Hu. unfold old_deriv_forward. rewrite rotation_ok by auto. cbn [bind Z.eqb]. eexists. split; [reflexivity|]. intros t j Ht Hj.
  unfold deriv_forward. rewrite !mmul_mdiag_l by exact Ht. unfold msub. f_equal. f_equal. symmetry.
  exact (@new_forward dims G a Ha (axis_phase dims dx bloch a) t j u w Ht Hj Hu).
Qed.
Lemma deriv_back_lemma u w : w a = cexp (ki * kconj (bloch a * fsum (sizes dims a) (dx a))) ->
  exists D, old_deriv_back dims dx bloch a = Ok D /\ forall t j, (t < cellsn g)%nat -> (j < cellsn g)%nat -> D t j = deriv_back g u w a t j.
Proof.
  intros Hw. unfold old_deriv_back. rewrite rotation_ok by auto. cbn [bind Z.eqb]. eexists. split; [reflexivity|]. intros t j Ht Hj.
  unfold deriv_back. rewrite !mmul_mdiag_l by exact Ht. unfold msub. f_equal. f_equal. symmetry.
  exact (@new_back dims G a Ha (axis_phase dims dx bloch a) t j u w Ht Hj Hw).
Qed.
End D.
