(** Far fields: the action of the matrices *)
From Coq Require Import Reals List ZArith.
From Verif Require Import Base CField CField_Proofs GMath_Model CplxField Maxwell_Model Maxwell_Spec Maxwell_Proofs Maxwell_Proofs2 Maxwell_Proofs3 Wg_Model Wg_Model2 Fs_Model Ov_Model Ov_Spec Ov_Proofs Ov_Proofs3 Far_Model Far_Spec.
From Verif Require Ff_Model.
Set Implicit Arguments.
Local Open Scope K_scope.

Section App.
Add Field CCf1 : (k_field CC).
Definition act (m : nat) (A : mat CC) (v : nat -> CC) : nat -> CC := fun i => fsum m (fun j => A i j * v j).
Lemma act_mmul m k A B v i : act m (mmul k A B) v i = act k A (act m B v) i.
Proof.
  unfold act, mmul. transitivity (fsum m (fun j => fsum k (fun l => A i l * B l j * v j))).
  - apply fsum_ext. intros j _. now rewrite <- fsum_scale_r.
  - rewrite fsum_swap. apply fsum_ext. intros l _. rewrite <- fsum_scale. apply fsum_ext. intros. ring.
Qed.
Lemma act_ext m A v w i : (forall j, (j < m)%nat -> v j = w j) -> act m A v i = act m A w i.
Proof. intros H. apply fsum_ext. intros j Hj. now rewrite H. Qed.
Lemma act_mneg m A v i : act m (mneg A) v i = - act m A v i.
Proof. unfold act, mneg. rewrite <- fsum_opp. apply fsum_ext. intros. ring. Qed.
Lemma act_opp m A v i : act m A (fun j => - v j) i = - act m A v i.
Proof. unfold act. rewrite <- fsum_opp. apply fsum_ext. intros. ring. Qed.
Lemma act_mzero m v i : act m mzero v i = 0.
Proof. unfold act, mzero. apply fsum_zero. intros. ring. Qed.
Lemma act_mdiag m d v i : (i < m)%nat -> act m (mdiag d) v i = d i * v i.
Proof.
  intros Hi. unfold act. rewrite (@fsum_single CC m i) by (auto; intros j Hj Hn; unfold mdiag; destruct (Nat.eqb_spec i j); try congruence; ring).
  unfold mdiag. now rewrite Nat.eqb_refl.
Qed.
Lemma act_meye m v i : (i < m)%nat -> act m meye v i = v i.
Proof. intros Hi. unfold meye. rewrite act_mdiag by auto. ring. Qed.
Lemma act_blocks R C (B : nat -> nat -> mat CC) v r s : (s < R)%nat ->
  act (3 * C) (rblocks R C B) v (r * R + s) = act C (B r 0%nat) (fun t => v (0 * C + t)%nat) s + act C (B r 1%nat) (fun t => v (1 * C + t)%nat) s + act C (B r 2%nat) (fun t => v (2 * C + t)%nat) s.
Proof.
  intros Hs. unfold act. rewrite fsum_3.
  apply f_equal2; [apply f_equal2|]; apply fsum_ext; intros j Hj; unfold rblocks; rewrite !block_div, !block_mod by auto; reflexivity.
Qed.
Lemma bmat_blocks m (B : nat -> nat -> mat CC) : bmat m B = rblocks m m B.
Proof. reflexivity. Qed.
Lemma act_block_diag R C (B : nat -> mat CC) v r s : (s < R)%nat -> (r < 3)%nat ->
  act (3 * C) (block_diag R C B) v (r * R + s) = act C (B r) (fun t => v (r * C + t)%nat) s.
Proof. intros Hs Hr. unfold block_diag. rewrite act_blocks by auto. ax3 r; cbn [Nat.eqb]; rewrite !act_mzero; ring. Qed.
Lemma act_vec_cross m b v r t : (t < m)%nat -> (r < 3)%nat ->
  act (3 * m) (vec_cross m b) v (r * m + t) = cross_product (fun a => b (a * m + t)%nat) (fun a => v (a * m + t)%nat) r.
Proof.
  intros Ht Hr. unfold vec_cross. rewrite bmat_blocks, act_blocks by auto.
  ax3 r; rewrite !act_mzero, ?act_mneg, !act_mdiag by auto; cbn [cross_product]; ring.
Qed.
Lemma act_crop m cells v r : (nth r cells 0 < m)%nat -> act m (crop_matrix cells) v r = v (nth r cells 0%nat).
Proof.
  intros H. unfold act. rewrite (@fsum_single CC m (nth r cells 0%nat)) by (auto; intros j Hj Hn; unfold crop_matrix; destruct (Nat.eqb_spec j (nth r cells 0%nat)); try congruence; ring).
  unfold crop_matrix. rewrite Nat.eqb_refl. ring.
Qed.
(** sums over selected indices *)
Lemma fsum_filter (p : nat -> bool) (f : nat -> CC) m :
  fsum (length (filter p (seq 0 m))) (fun j => f (nth j (filter p (seq 0 m)) 0%nat)) = fsum m (fun t => if p t then f t else 0).
Proof.
  induction m as [|m IH]; [reflexivity|]. rewrite seq_S, Nat.add_0_l, filter_app. set (l := filter p (seq 0 m)) in *. cbn [filter fsum].
  destruct (p m); cbn [List.app length]; rewrite <- IH.
  - rewrite app_length. cbn [length]. rewrite Nat.add_1_r. cbn [fsum]. f_equal.
    + apply fsum_ext. intros j Hj. now rewrite app_nth1.
    + rewrite app_nth2, Nat.sub_diag by lia. reflexivity.
  - rewrite app_nil_r. ring.
Qed.
End App.

Section Fields.
Add Field CCf2 : (k_field CC).
Variable g : grid CC.
Local Notation n := (cellsn g).
Local Notation N := (vlen g).
Local Notation co := (coord g).
Lemma act_mv m A (v : list CC) i : (i < m)%nat -> act m A (at_ v) i = at_ (mv m A v) i.
Proof. intros Hi. now rewrite mv_at. Qed.
Lemma mv_meye_flat f : mv n meye (flattenF g f) = flattenF g f.
Proof. apply mv_flat. intros t Ht. now rewrite mv_meye_at, flattenF_at by auto. Qed.
(** means along different axes commute *)
Lemma roll_fb a b f x y z : (a < 3)%nat -> (b < 3)%nat -> a <> b -> roll_forward g (roll_back g f b) a x y z = roll_back g (roll_forward g f a) b x y z.
Proof. intros Ha Hb Hn. ax3 a; ax3 b; try congruence; reflexivity. Qed.
Lemma roll_ff a b f x y z : (a < 3)%nat -> (b < 3)%nat -> a <> b -> roll_forward g (roll_forward g f b) a x y z = roll_forward g (roll_forward g f a) b x y z.
Proof. intros Ha Hb Hn. ax3 a; ax3 b; try congruence; reflexivity. Qed.
Lemma means_fb a b f x y z : (a < 3)%nat -> (b < 3)%nat -> a <> b -> mean_next g (mean_prev g f b) a x y z = mean_prev g (mean_next g f a) b x y z.
Proof.
  intros Ha Hb Hn. unfold mean_next, mean_prev.
  ax3 a; ax3 b; try congruence; cbn [roll_forward roll_back]; rewrite !(Fdiv_def (k_field CC)); ring.
Qed.
Lemma means_ff a b f x y z : (a < 3)%nat -> (b < 3)%nat -> a <> b -> mean_next g (mean_next g f b) a x y z = mean_next g (mean_next g f a) b x y z.
Proof.
  intros Ha Hb Hn. unfold mean_next.
  ax3 a; ax3 b; try congruence; cbn [roll_forward]; rewrite !(Fdiv_def (k_field CC)); ring.
Qed.
Ltac to_means := rewrite ?mv_mmul; rewrite ?mv_meye_flat; rewrite ?avgb_flat by lia; rewrite ?avgf_flat by lia; rewrite ?avgf_flat by lia.
Lemma av_E_flat axis c f : (axis < 3)%nat -> (c < 3)%nat -> mv n (av_E g axis c) (flattenF g f) = flattenF g (interpolated g (half_e c) (half_h axis) f).
Proof.
  intros Ha Hc. unfold interpolated, interpolated1, half_e, half_h.
  ax3 axis; ax3 c; cbn [av_E Nat.eqb negb]; to_means; try reflexivity; apply flat_ext; intros x y z _ _ _.
  - apply mean_next_ext. intros. apply means_fb; lia.
  - etransitivity; [apply mean_next_ext; intros; apply means_fb; lia|]. apply means_fb; lia.
Qed.
Lemma av_H_flat axis c f : (axis < 3)%nat -> (c < 3)%nat -> mv n (av_H g axis c) (flattenF g f) = flattenF g (interpolated g (half_h c) (half_h axis) f).
Proof.
  intros Ha Hc. unfold interpolated, interpolated1, half_e, half_h.
  ax3 axis; ax3 c; cbn [av_H Nat.eqb negb]; to_means; try reflexivity; apply flat_ext; intros x y z _ _ _; apply means_fb; lia.
Qed.
Lemma diag_blocks_at (B : nat -> mat CC) (F : field3 CC) c t : (c < 3)%nat -> (t < n)%nat ->
  act N (bmat n (fun a b => if Nat.eqb a b then B a else mzero)) (at_ (vec g F)) (c * n + t) = at_ (mv n (B c) (flattenF g (F c))) t.
Proof.
  intros Hc Ht. rewrite act_mv by now apply blk_lt. rewrite bmat_mv_at, !part_flat by (auto; lia).
  ax3 c; cbn [Nat.eqb]; unfold mzero; rewrite !mv_zero_at by auto; ring.
Qed.
Lemma move_E_at axis E c t : (axis < 3)%nat -> (c < 3)%nat -> (t < n)%nat ->
  act N (move2H_E g axis) (at_ (vec g E)) (c * n + t) = e_there g axis E c (co 0 t) (co 1 t) (co 2 t).
Proof. intros Ha Hc Ht. unfold move2H_E. rewrite diag_blocks_at, av_E_flat, flattenF_at by auto. reflexivity. Qed.
Lemma move_H_at axis H c t : (axis < 3)%nat -> (c < 3)%nat -> (t < n)%nat ->
  act N (move2H_H g axis) (at_ (vec g H)) (c * n + t) = interpolated g (half_h c) (half_h axis) (H c) (co 0 t) (co 1 t) (co 2 t).
Proof. intros Ha Hc Ht. unfold move2H_H. rewrite diag_blocks_at, av_H_flat, flattenF_at by auto. reflexivity. Qed.
End Fields.
