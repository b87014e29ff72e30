(** Proofs about the generic solver. *)
From Verif Require Import Base CField CField_Proofs Maxwell_Model Maxwell_Spec Maxwell_Proofs Maxwell_Proofs2 Maxwell_Proofs3 Qmr_Model Qmr_Spec.
From Coq Require Import List Arith Lia.
Import ListNotations.

Section Wrapper.
Variable V : Type.
Implicit Types (xs : list V) (s : qstate V).
Lemma augmented_call limit (xk : V) s : snd (call limit Augmented Augmented xk s) = Err RuntimeError /\ user_calls (fst (call limit Augmented Augmented xk s)) = user_calls s.
Proof.
  revert s. induction limit as [|l IH]; intros s; cbn [call]; [auto|]. destruct (IH (print_residual xk s)) as [H1 H2]. split; auto.
Qed.
Lemma callback_lemma limit xs (x : V) : xs <> [] ->
  snd (scipy_qmr limit true xs x) = Err RuntimeError /\ user_calls (fst (scipy_qmr limit true xs x)) = [].
Proof.
  intros Hx. destruct xs as [|xk r]; [congruence|]. unfold scipy_qmr, installed. cbn [iterate].
  pose proof (augmented_call limit xk (QState 0 [] [])) as [H1 H2]. destruct (call limit Augmented Augmented xk (QState 0 [] [])) as [s' r'] eqn:E.
  cbn [fst snd] in *. subst r'. auto.
Qed.
(** the lines printed by a run without callback *)
Fixpoint lines (k : nat) xs : list (nat * V) :=
  match xs with [] => [] | x :: r => (if Nat.eqb (S k mod 100) 0 then [(S k, x)] else []) ++ lines (S k) r end.
Lemma iterate_print l xs s :
  iterate (S l) PrintResidual xs s = (QState (iter s + length xs) (printed s ++ lines (iter s) xs) (user_calls s), Ok tt).
Proof.
  revert s. induction xs as [|x r IH]; intros [i o u].
  - cbn [iterate lines length iter printed user_calls]. now rewrite Nat.add_0_r, app_nil_r.
  - cbn [iterate call]. rewrite IH. unfold print_residual. cbn [iter printed user_calls length lines]. f_equal. f_equal; [lia|].
    destruct (Nat.eqb (S i mod 100) 0); [now rewrite <- app_assoc|]. now cbn [app].
Qed.
Lemma lines_in xs k i x : In (i, x) (lines k xs) <-> k < i /\ i mod 100 = 0 /\ nth_error xs (i - S k) = Some x.
Proof.
  revert k. induction xs as [|y r IH]; intros k.
  - cbn [lines In]. split; [easy|]. intros (_ & _ & H). destruct (i - S k); discriminate.
  - cbn [lines]. rewrite in_app_iff, IH. split.
    + intros [H|(H1 & H2 & H3)].
      * destruct (Nat.eqb_spec (S k mod 100) 0) as [E|E]; [|easy]. destruct H as [H|[]]. injection H as <- <-.
        rewrite Nat.sub_diag. repeat split; auto.
      * repeat split; [lia|auto|]. replace (i - S k) with (S (i - S (S k))) by lia. exact H3.
    + intros (H1 & H2 & H3). destruct (Nat.eq_dec i (S k)) as [->|Hne].
      * left. rewrite Nat.sub_diag in H3. injection H3 as ->. apply Nat.eqb_eq in H2. rewrite H2. now left.
      * right. repeat split; [lia|auto|]. replace (i - S k) with (S (i - S (S k))) in H3 by lia. exact H3.
Qed.
Lemma lines_order xs k : in_order (lines k xs).
Proof.
  revert k. induction xs as [|y r IH]; intros k i j a b Hij Ha Hb; cbn [lines] in Ha, Hb; [destruct i; discriminate|].
  destruct (Nat.eqb (S k mod 100) 0); cbn [app] in Ha, Hb; [|eapply (IH (S k) i j); eauto].
  destruct j as [|j]; [lia|]. cbn [nth_error] in Hb. destruct i as [|i]; cbn [nth_error] in Ha; [|eapply (IH (S k) i j); eauto; lia].
  injection Ha as <-. apply nth_error_In in Hb. destruct b as [m z]. apply lines_in in Hb. cbn [fst]. lia.
Qed.
Lemma report_lemma l xs (x : V) : let (s, r) := scipy_qmr (S l) false xs x in
  r = Ok x /\ every_hundredth xs (printed s) /\ in_order (printed s) /\ user_calls s = [].
Proof.
  unfold scipy_qmr, installed. rewrite iterate_print. cbn [iter printed user_calls app]. repeat split; auto using lines_order.
  1-3: intros; try (apply lines_in in H; destruct H as (H1 & H2 & H3)); auto; try lia.
  intros (H1 & H2 & H3). apply lines_in. repeat split; auto; lia.
Qed.
End Wrapper.

Section Generic.
Variable K : cfield.
Variable g : grid K.
Local Open Scope K_scope.
Add Ring KR : (F_R (k_field K)).
Local Notation N := (vlen g).
Lemma operator_entry omega eps mu pec pmc i j : (i < N)%nat -> (j < N)%nat ->
  (exists b, pec = Some b /\ (b i = true \/ b j = true)) -> operator g omega eps mu pec pmc i j = 0.
Proof.
  intros Hi Hj (b & -> & Hb). unfold operator, e_full, mask. rewrite mmul_mdiag_r, mmul_mdiag_l by auto.
  destruct Hb as [-> | ->]; ring.
Qed.
Lemma diagonal_solve (d1 d2 : nat -> K) (A0 M : mat K) inner b0 E :
  (forall i, (i < N)%nat -> d1 i <> 0) -> (forall i, (i < N)%nat -> d2 i <> 0) ->
  (forall i j, (i < N)%nat -> (j < N)%nat -> M i j = d1 i * A0 i j * d2 j) ->
  exact_for N inner M -> length E = N -> mv N A0 E = b0 ->
  mv N A0 (mv N (mdiag d2) (inner M (mv N (mdiag d1) b0))) = b0.
Proof.
  intros H1 H2 HM Hin HE Hb.
  assert (HMv : forall z, mv N M z = mv N (mdiag d1) (mv N A0 (mv N (mdiag d2) z))).
  { intros z. rewrite <- !mv_mmul. apply mv_ext. intros i j Hi Hj. rewrite HM, mmul_mdiag_r, mmul_mdiag_l by auto. ring. }
  set (y := vbuild N (fun i => 1 / d2 i * at_ E i)).
  assert (Hy : mv N M y = mv N (mdiag d1) b0).
  { rewrite HMv. f_equal. rewrite <- Hb. apply mv_vext. intros i Hi. rewrite mv_mdiag_at by auto. unfold y. rewrite vbuild_at by auto.
    transitivity (1 / d2 i * d2 i * at_ E i); [ring|]. rewrite kinv_l by auto. ring. }
  destruct (Hin y) as [_ Hs]; [apply vbuild_length|]. rewrite Hy in Hs. rewrite HMv in Hs.
  apply vec_ext; [rewrite <- Hb; now rewrite !mv_length|]. intros i Hi. rewrite mv_length in Hi.
  apply (f_equal (fun v => at_ v i)) in Hs. rewrite !mv_mdiag_at in Hs by auto. exact (@kmul_cancel K _ _ _ (H1 i Hi) Hs).
Qed.
Hypothesis Hnz : nonzero_cells g.
Variable p : nat -> K.
Hypothesis Hp : is_sqrt g p.
Lemma inv_neq0 i : (i < N)%nat -> 1 / p i <> 0.
Proof. intros Hi E. apply (k1_neq_0 K). rewrite <- (@kinv_l K _ (p_neq0 Hnz Hp Hi)), E. ring. Qed.
Lemma generic_forward_lemma inner omega J eps mu pec pmc E :
  exact_for N inner (preconditioned g p (operator g omega eps mu pec pmc)) ->
  solution g (operator g omega eps mu pec pmc) omega J E ->
  solution g (operator g omega eps mu pec pmc) omega J (generic g inner p omega J eps mu pec pmc false).
Proof.
  intros Hin [HE Hb]. split; [apply mv_length|].
  apply (@diagonal_solve p (fun i => 1 / p i) (operator g omega eps mu pec pmc) (preconditioned g p (operator g omega eps mu pec pmc)) inner _ E); auto.
  - intros i Hi. now apply (p_neq0 Hnz Hp).
  - apply inv_neq0.
  - intros i j Hi Hj. now apply precond_entry.
Qed.
Lemma generic_adjoint_lemma inner omega J eps mu pec pmc E :
  exact_for N inner (mherm (preconditioned g p (operator g omega eps mu pec pmc))) ->
  solution g (mherm (operator g omega eps mu pec pmc)) omega J E ->
  solution g (mherm (operator g omega eps mu pec pmc)) omega J (generic g inner p omega J eps mu pec pmc true).
Proof.
  intros Hin [HE Hb]. split; [apply mv_length|].
  assert (H := @diagonal_solve (fun i => kconj (1 / p i)) (fun i => kconj (p i)) (mherm (operator g omega eps mu pec pmc)) (mherm (preconditioned g p (operator g omega eps mu pec pmc))) inner (vscale (- ki * omega) J) E
     (fun i Hi => @kconj_neq0 K _ (@inv_neq0 i Hi)) (fun i Hi => @kconj_neq0 K _ (p_neq0 Hnz Hp Hi))).
  unfold generic. rewrite (@mv_ext K N (mherm (precond_left p)) (mdiag (fun k => kconj (p k)))) by (intros; apply mherm_diag).
  rewrite (@mv_ext K N (mherm (precond_right p)) (mdiag (fun k => kconj (1 / p k)))) by (intros; apply mherm_diag).
  apply H; auto. intros i j Hi Hj. unfold mherm. rewrite precond_entry by auto. rewrite !kconj_mul. ring.
Qed.
End Generic.

Section Conductors.
Variable K : cfield.
Variable g : grid K.
Local Open Scope K_scope.
Add Ring KR2 : (F_R (k_field K)).
Local Notation N := (vlen g).
Lemma pec_source_lemma omega J eps mu b pmc i x :
  (i < N)%nat -> b i = true -> omega <> 0 -> at_ J i <> 0 ->
  ~ solution g (operator g omega eps mu (Some b) pmc) omega J x /\
  ~ solution g (mherm (operator g omega eps mu (Some b) pmc)) omega J x.
Proof.
  intros Hi Hb Ho HJ.
  assert (Hr : at_ (vscale (- ki * omega) J) i <> 0).
  { rewrite vscale_at. pose proof (ki_neq0 K). auto using kmul_neq0, kopp_neq0. }
  split; intros [Hx H]; apply Hr; rewrite <- H; rewrite mv_at by auto; apply fsum_zero; intros j Hj; unfold mherm.
  - rewrite operator_entry by (eauto 6). ring.
  - rewrite operator_entry by (eauto 6). rewrite kconj_0. ring.
Qed.
Lemma pec_field_lemma omega J eps mu b pmc x y :
  length y = N -> (forall i, (i < N)%nat -> b i = false -> at_ x i = at_ y i) ->
  solution g (operator g omega eps mu (Some b) pmc) omega J x -> solution g (operator g omega eps mu (Some b) pmc) omega J y.
Proof.
  intros Hy Hxy [Hx H]. split; auto. rewrite <- H. apply vec_ext; [now rewrite !mv_length|]. intros i Hi. rewrite mv_length in Hi.
  rewrite !mv_at by auto. apply fsum_ext. intros j Hj. destruct (b j) eqn:E.
  - rewrite operator_entry by (eauto 6). ring.
  - now rewrite Hxy.
Qed.
End Conductors.
