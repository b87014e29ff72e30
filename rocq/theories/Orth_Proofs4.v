(** The relative errors. *)
From Coq Require Import Reals Lra Lia.
From Verif Require Import Base CField CField_Proofs GMath_Model GMath_Proofs GMath_Proofs3 GMath_Proofs5 CplxField Maxwell_Model Wg_Model Wg_Spec Wg_Proofs8 Wg_Proofs11 Fs_Proofs5.
From Verif Require Import Orth_Model Orth_Spec Orth_Proofs Orth_Proofs2 Orth_Proofs3.
Set Implicit Arguments.
Local Open Scope R_scope.

Lemma psum_nonneg n f : (forall i, (i < n)%nat -> 0 <= f i) -> 0 <= psum n f.
Proof. induction n; cbn; intros H; [lra|]. assert (0 <= psum n f) by (apply IHn; auto). assert (0 <= f n) by auto. lra. Qed.
Lemma psum_ext n f f' : (forall i, (i < n)%nat -> f i = f' i) -> psum n f = psum n f'.
Proof. induction n; cbn; intros H; [reflexivity|]. rewrite IHn, H; auto. Qed.
Lemma psum_scale n a f : psum n (fun i => a * f i) = a * psum n f.
Proof. induction n; cbn; [ring|]. rewrite IHn. ring. Qed.
Lemma psum_zero n f : (forall i, (i < n)%nat -> 0 <= f i) -> psum n f = 0 -> forall i, (i < n)%nat -> f i = 0.
Proof.
  induction n; cbn; intros H Z i Hi; [lia|]. assert (0 <= psum n f) by (apply psum_nonneg; auto). assert (0 <= f n) by auto.
  destruct (Nat.eq_dec i n) as [->|]; [lra|]. apply IHn; auto; [lra|lia].
Qed.
Lemma psum_zeros n f : (forall i, (i < n)%nat -> f i = 0) -> psum n f = 0.
Proof. induction n; cbn; intros H; [reflexivity|]. rewrite IHn, H by auto. ring. Qed.
Definition sqn (g : grid CC) (f : field3 CC) := psum 3 (fun c => psum (dim g 0) (fun i => psum (dim g 1) (fun j => cabs (f c i j 0%nat) ^ 2))).
Lemma sq0 (z : CC) : 0 <= cabs z ^ 2.
Proof. apply pow_le, cabs_nonneg. Qed.
Lemma sqn_nonneg g f : 0 <= sqn g f.
Proof. repeat (apply psum_nonneg; intros). apply sq0. Qed.
Lemma norm_zero g f : plane_norm g f = 0 <-> zero_plane g f.
Proof.
  unfold plane_norm. fold (sqn g f). split.
  - intros H. apply sqrt_eq_0 in H; [|apply sqn_nonneg]. intros c i j Hc Hi Hj. unfold sqn in H.
    assert (H1 := @psum_zero 3 _ (fun c _ => @psum_nonneg _ _ (fun i _ => @psum_nonneg _ _ (fun j _ => sq0 (f c i j 0%nat)))) H c Hc). cbn beta in H1.
    assert (H2 := @psum_zero _ _ (fun i _ => @psum_nonneg _ _ (fun j _ => sq0 (f c i j 0%nat))) H1 i Hi). cbn beta in H2.
    assert (H3 := @psum_zero _ _ (fun j _ => sq0 (f c i j 0%nat)) H2 j Hj). cbn beta in H3.
    replace (cabs (f c i j 0%nat) ^ 2) with (cabs (f c i j 0%nat) * cabs (f c i j 0%nat)) in H3 by ring. rewrite cabs_sqr in H3. unfold cn2 in H3.
    apply c_eq; cbn; nra.
  - intros Z. replace (sqn g f) with 0; [apply sqrt_0|]. symmetry. unfold sqn. repeat (apply psum_zeros; intros). rewrite Z by auto. change (@k0 CC) with c0. rewrite cabs_c0. ring.
Qed.
Lemma norm_nonneg g f : 0 <= plane_norm g f.
Proof. apply sqrt_pos. Qed.
Lemma norm_same g f f' : same_plane g f f' -> plane_norm g f = plane_norm g f'.
Proof. intros S. unfold plane_norm. f_equal. apply psum_ext; intros. apply psum_ext; intros. apply psum_ext; intros. now rewrite S. Qed.
Lemma norm_scale g a f : plane_norm g (scale3 a f) = cabs a * plane_norm g f.
Proof.
  unfold plane_norm. rewrite <- (sqrt_Rsqr (cabs a)) by apply cabs_nonneg. rewrite <- sqrt_mult; [|apply Rle_0_sqr|apply sqn_nonneg].
  f_equal. rewrite <- psum_scale. apply psum_ext; intros. rewrite <- psum_scale. apply psum_ext; intros. rewrite <- psum_scale. apply psum_ext; intros.
  unfold scale3. rewrite cabs_mult. unfold Rsqr. ring.
Qed.
Lemma ratio_zero a b : ratio a b = Ok 0 <-> b <> 0 /\ a = 0.
Proof.
  unfold ratio. destruct (Req_EM_T b 0) as [E|E]; split.
  - discriminate.
  - tauto.
  - intros H. split; auto. assert (H' : a / b = 0) by congruence. replace a with (a / b * b) by (field; auto). rewrite H'. ring.
  - intros [_ ->]. f_equal. unfold Rdiv. ring.
Qed.
Lemma h_err_zero_lemma (g : grid CC) omega beta eps mu h : omega <> (k0 : CC) -> beta <> (k0 : CC) -> (1 <= dim g 2)%nat -> proper g eps (mu_given mu) ->
  (h_err g h beta omega eps mu = Ok 0 <-> ~ zero_plane g h /\ eigenvector g omega beta eps (mu_given mu) (h 0%nat, h 1%nat) /\ same_plane g h (v2h g (mu_given mu) beta (h 0%nat, h 1%nat))).
Proof.
  intros Ho Hb Hz Hp. unfold h_err. rewrite ratio_zero, norm_zero, norm_zero, (@h_zero_iff CC g omega beta eps mu Ho Hb Hz Hp). tauto.
Qed.
Lemma e_err_zero_lemma (g : grid CC) omega beta eps mu e : omega <> (k0 : CC) -> beta <> (k0 : CC) -> (1 <= dim g 2)%nat -> proper g eps (mu_given mu) ->
  (e_err g e beta omega eps mu = Ok 0 <-> ~ zero_plane g e /\ exists v, eigenvector g omega beta eps (mu_given mu) v /\ same_plane g e (v2e g omega eps (mu_given mu) beta v)).
Proof.
  intros Ho Hb Hz Hp. unfold e_err. rewrite ratio_zero, norm_zero, norm_zero, (@e_zero_iff CC g omega beta eps mu Ho Hb Hz Hp). tauto.
Qed.
Lemma mode_errs_lemma (g : grid CC) omega beta eps mu v : omega <> (k0 : CC) -> beta <> (k0 : CC) -> (1 <= dim g 2)%nat -> proper g eps (mu_given mu) ->
  eigenvector g omega beta eps (mu_given mu) v -> (exists i j, (i < dim g 0)%nat /\ (j < dim g 1)%nat /\ (fst v i j 0%nat <> (k0 : CC) \/ snd v i j 0%nat <> (k0 : CC))) ->
  let e := v2e g omega eps (mu_given mu) beta v in let h := v2h g (mu_given mu) beta v in
  e_err g e beta omega eps mu = Ok 0 /\ h_err g h beta omega eps mu = Ok 0 /\ same_plane g (wg_e2h g beta omega mu e) h /\ same_plane g (wg_h2e g beta omega eps h) e.
Proof.
  intros Ho Hb Hz Hp V (i & j & Hi & Hj & NZ) e h.
  pose proof (@mode_lemma CC g omega beta eps (mu_given mu) v Ho Hb Hz Hp V) as M.
  assert (EH : same_plane g (wg_e2h g beta omega mu e) h) by exact (@mode_e2h CC g omega beta eps mu Ho Hz Hp _ _ M).
  assert (HE : same_plane g (wg_h2e g beta omega eps h) e) by exact (@mode_h2e CC g omega beta eps mu Ho Hz Hp _ _ M).
  assert (NH : ~ zero_plane g h). { intros Z. pose proof (Z 0%nat i j ltac:(lia) Hi Hj) as Z0. pose proof (Z 1%nat i j ltac:(lia) Hi Hj) as Z1. cbn in Z0, Z1. destruct NZ; contradiction. }
  split; [|split; [|split; auto]].
  - apply e_err_zero_lemma; auto. split; [|exists v; split; auto; intros c i' j' _ _ _; reflexivity].
    intros Z. apply NH. intros c i' j' Hc Hi' Hj'. rewrite <- EH by auto. rewrite (@e2h_eq CC g omega beta mu) by auto.
    assert (X : wg_curl_e g beta e c i' j' 0%nat = (k0 : CC)).
    { rewrite (@curl_e_ext CC g beta e (fun _ _ _ _ => (k0 : CC)) c i' j') by (auto; intros ? ? ? ? ? ?; apply Z; auto).
      unfold wg_curl_e, wg_curl, de, roll_forward. destruct c as [|[|]]; apply c_eq; cbn; try ring; unfold cdiv, cinv; cbn; ring. }
    rewrite X. apply c_eq; cbn; try ring.
  - apply h_err_zero_lemma; auto. split; auto. split; [|intros c i' j' _ _ _; reflexivity]. exact V.
Qed.
Lemma curl_scale_CC (g : grid CC) b a f c i j : (c < 3)%nat -> (i < dim g 0)%nat -> (j < dim g 1)%nat -> wg_curl_e g b (scale3 a f) c i j 0%nat = (a * wg_curl_e g b f c i j 0%nat)%K.
Proof. apply curl_e_scale. Qed.
Add Field CCf4 : (k_field CC).
Lemma op_scale_h (g : grid CC) omega beta eps mu a h : same_plane g (h_op g beta omega eps mu (scale3 a h)) (scale3 a (h_op g beta omega eps mu h)).
Proof.
  intros c i j Hc Hi Hj. rewrite h_op_eq. unfold scale3 at 3. rewrite h_op_eq. 
  rewrite (@curl_e_ext CC g beta _ (scale3 a (fun c i j l => (1 / eps c i j l * wg_curl_h g beta h c i j l)%K)) c i j); auto.
  - unfold scale3 at 1. rewrite (@curl_e_scale CC g) by auto. unfold scale3. ring.
  - intros c' i' j' Hc' Hi' Hj'. unfold scale3. rewrite (@curl_h_scale CC g) by auto. ring.
Qed.
Lemma op_scale_e (g : grid CC) omega beta eps mu a e : same_plane g (e_op g beta omega eps mu (scale3 a e)) (scale3 a (e_op g beta omega eps mu e)).
Proof.
  intros c i j Hc Hi Hj. rewrite e_op_eq by auto. unfold scale3 at 3. rewrite e_op_eq by auto.
  rewrite (@curl_h_ext CC g beta _ (scale3 a (fun c i j l => (1 / mu_given mu c i j l * wg_curl_e g beta e c i j l)%K)) c i j); auto.
  - unfold scale3 at 1. rewrite (@curl_h_scale CC g) by auto. unfold scale3. ring.
  - intros c' i' j' Hc' Hi' Hj'. unfold scale3. rewrite (@curl_e_scale CC g) by auto. ring.
Qed.
Lemma ratio_scale a x y : 0 < a -> ratio (a * x) (a * y) = ratio x y.
Proof.
  intros Ha. unfold ratio. destruct (Req_EM_T y 0) as [->|E].
  - destruct (Req_EM_T (a * 0) 0); [reflexivity|]. exfalso. lra.
  - destruct (Req_EM_T (a * y) 0) as [C|C]; [exfalso; apply Rmult_integral in C; lra|]. f_equal. field. lra.
Qed.
Lemma err_scale_lemma (g : grid CC) omega beta eps mu a f : a <> (k0 : CC) ->
  h_err g (scale3 a f) beta omega eps mu = h_err g f beta omega eps mu /\ e_err g (scale3 a f) beta omega eps mu = e_err g f beta omega eps mu.
Proof.
  intros Ha. assert (P : 0 < cabs a) by (apply GMath_Proofs3.cabs_pos; exact Ha). unfold h_err, e_err. split.
  - rewrite (norm_same (op_scale_h g omega beta eps mu a f)), !norm_scale. apply ratio_scale; auto.
  - rewrite (norm_same (op_scale_e g omega beta eps mu a f)), !norm_scale. apply ratio_scale; auto.
Qed.
Lemma err_domain_lemma (g : grid CC) omega beta eps mu f :
  (zero_plane g f -> h_err g f beta omega eps mu = Err ZeroDivisionError /\ e_err g f beta omega eps mu = Err ZeroDivisionError) /\
  (~ zero_plane g f -> exists x y, h_err g f beta omega eps mu = Ok x /\ e_err g f beta omega eps mu = Ok y /\ 0 <= x /\ 0 <= y).
Proof.
  unfold h_err, e_err, ratio. split; intros Z.
  - apply norm_zero in Z. destruct (Req_EM_T (plane_norm g f) 0); [auto|contradiction].
  - rewrite <- norm_zero in Z. destruct (Req_EM_T (plane_norm g f) 0); [contradiction|]. pose proof (norm_nonneg g f).
    eexists. eexists. split; [reflexivity|]. split; [reflexivity|]. split; apply Rmult_le_pos; try apply norm_nonneg; left; apply Rinv_0_lt_compat; lra.
Qed.
