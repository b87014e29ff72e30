From Verif Require Import Base Obj_Model Obj_Spec Obj_Proofs Obj_Proofs2 Obj_Proofs4 Fit_Model.
From Coq Require Import Reals Lra Psatz.
Set Implicit Arguments.
Local Open Scope R_scope.

Lemma fst_csum l : fst (csum l) = rsum (map fst l).
Proof. induction l as [|x l IH]; [reflexivity|]. cbn [map]. rewrite rsum_cons, <- IH. reflexivity. Qed.
Lemma snd_csum l : snd (csum l) = rsum (map snd l).
Proof. induction l as [|x l IH]; [reflexivity|]. cbn [map]. rewrite rsum_cons, <- IH. reflexivity. Qed.
Lemma fst_cdot_real row : forall z, fst (cdot row (map creal z)) = dotr (map fst row) z.
Proof.
  unfold cdot. intros z. rewrite fst_csum, map_map. unfold dotr. revert z.
  induction row as [|x row IH]; intros [|y z]; cbn [map combine]; try reflexivity. rewrite !rsum_cons, IH. cbn. ring.
Qed.
Lemma snd_cdot_real row : forall z, snd (cdot row (map creal z)) = dotr (map snd row) z.
Proof.
  unfold cdot. intros z. rewrite snd_csum, map_map. unfold dotr. revert z.
  induction row as [|x row IH]; intros [|y z]; cbn [map combine]; try reflexivity. rewrite !rsum_cons, IH. cbn. ring.
Qed.
Lemma dotr_index n : forall u v, length u = n -> length v = n -> dotr u v = rsum (map (fun j => nth j u 0 * nth j v 0) (seq 0 n)).
Proof.
  induction n as [|n IH]; intros [|x u] [|y v] Hu Hv; try discriminate; [reflexivity|].
  rewrite dotr_cons, (IH u v) by (cbn in *; lia). cbn [seq map]. rewrite rsum_cons, <- seq_shift, map_map. reflexivity.
Qed.
Lemma derive_rsum_map {A} (f : A -> R -> R) (f' : A -> R) t0 l : (forall x, In x l -> derivable_pt_lim (f x) t0 (f' x)) ->
  derivable_pt_lim (fun t => rsum (map (fun x => f x t) l)) t0 (rsum (map f' l)).
Proof.
  induction l as [|x l IH]; intros H; cbn [map].
  - apply (derivable_pt_lim_const 0).
  - rewrite rsum_cons. eapply derive_ext; [|exact (derivable_pt_lim_plus _ _ _ _ _ (H x (or_introl eq_refl)) (IH (fun y Hy => H y (or_intror Hy))))].
    intros t. reflexivity.
Qed.
Lemma rsum_zero {A} (l : list A) : rsum (map (fun _ => 0) l) = 0.
Proof. induction l as [|x l IH]; cbn [map]; [reflexivity|]. rewrite rsum_cons, IH. ring. Qed.
Lemma rsum_swap {A B} (f : A -> B -> R) la lb :
  rsum (map (fun a => rsum (map (fun b => f a b) lb)) la) = rsum (map (fun b => rsum (map (fun a => f a b) la)) lb).
Proof.
  induction la as [|a la IH]; cbn [map].
  - symmetry. apply rsum_zero.
  - rewrite rsum_cons, IH, <- rsum_plus. apply rsum_ext. intros b _. now rewrite rsum_cons.
Qed.

Lemma nth_map_dotr (J : list (list R)) d j : (j < length J)%nat -> nth j (map (fun row => dotr row d) J) 0 = dotr (nth j J []) d.
Proof. intros H. rewrite (nth_indep _ 0 (dotr [] d)) by now rewrite map_length. apply (map_nth (fun row => dotr row d)). Qed.

Lemma nth_fst (l : list cplx) : forall j, nth j (map fst l) 0 = fst (nth j l c0).
Proof. induction l as [|x l IH]; intros [|j]; cbn; auto. Qed.
Lemma nth_snd (l : list cplx) : forall j, nth j (map snd l) 0 = snd (nth j l c0).
Proof. induction l as [|x l IH]; intros [|j]; cbn; auto. Qed.

Section Fit.
Variable eps_bg : list cplx.
Variable S : list (list cplx).
Variable eps : list cplx.
Variable structure : list R -> list R.
Variable jac : list R -> list (list R).
Variable N : nat.
Variable p : list R.
Hypothesis Hpar : param_ok structure jac N p.
Hypothesis Hbg : length eps_bg = length S.
Hypothesis Heps : length eps = length S.
Hypothesis HS : Forall (fun row => length row = N) S.

Notation objective := (fit_objective eps_bg S eps structure).
Notation gradient := (fit_gradient eps_bg S eps structure jac).

Lemma fits_ok q : length q = length p -> fits eps_bg S eps structure q = true.
Proof.
  intros Hq. unfold fits. rewrite Hbg, Heps, Nat.eqb_refl. cbn [andb]. apply forallb_forall. intros row Hr. apply Nat.eqb_eq.
  destruct Hpar as (H1 & _). rewrite H1 by assumption. now apply (proj1 (Forall_forall _ _) HS).
Qed.

(** one entry per row: background, target, row *)
Definition rows : list (cplx * cplx * list cplx) := combine (combine eps_bg eps) S.
Definition re (x : cplx * cplx * list cplx) (q : list R) : R := fst (fst (fst x)) + dotr (map fst (snd x)) (structure q) - fst (snd (fst x)).
Definition im (x : cplx * cplx * list cplx) (q : list R) : R := snd (fst (fst x)) + dotr (map snd (snd x)) (structure q) - snd (snd (fst x)).
Lemma error_rows q : fit_error eps_bg S eps structure q = map (fun x => (re x q, im x q)) rows.
Proof.
  unfold fit_error, rows, mat_vec. clear - Hbg Heps. revert eps_bg eps Hbg Heps.
  induction S as [|row S' IH]; intros [|b bs] [|e es] Hb He; try discriminate; [reflexivity|].
  cbn [map combine fst snd]. f_equal; [|apply IH; cbn in *; lia].
  unfold csub, cadd, re, im. cbn [fst snd]. now rewrite fst_cdot_real, snd_cdot_real.
Qed.
Lemma rows_snd : map snd rows = S.
Proof.
  unfold rows. clear - Hbg Heps. revert eps_bg eps Hbg Heps.
  induction S as [|row S' IH]; intros [|b bs] [|e es] Hb He; try discriminate; [reflexivity|]. cbn [combine map snd]. f_equal. apply IH; cbn in *; lia.
Qed.
Lemma rows_length x : In x rows -> length (snd x) = N.
Proof. intros H. apply (proj1 (Forall_forall _ _) HS). rewrite <- rows_snd. now apply in_map. Qed.

Lemma objective_rows q : length q = length p -> objective q = Ok (rsum (map (fun x => re x q * re x q + im x q * im x q) rows)).
Proof. intros Hq. unfold fit_objective. rewrite fits_ok by assumption. rewrite error_rows, map_map. reflexivity. Qed.

(** the gradient with respect to the structure *)
Definition w (j : nat) : R := rsum (map (fun x => re x p * fst (nth j (snd x) c0) + im x p * snd (nth j (snd x) c0)) rows).
Lemma inner_vec : map fst (vec_mat_c N (map conj (fit_error eps_bg S eps structure p)) S) = map w (seq 0 N).
Proof.
  unfold vec_mat_c. rewrite map_map. apply map_ext. intros j. rewrite error_rows. rewrite <- rows_snd at 1.
  unfold cdot, w. rewrite fst_csum, !map_map. induction rows as [|x l IH]; [reflexivity|]. cbn [map combine]. rewrite !rsum_cons, IH.
  unfold cmul, conj. cbn [fst snd]. ring.
Qed.
Lemma cdot_fst u : forall r, fst (cdot u (map creal r)) = dotr (map fst u) r.
Proof. exact (fst_cdot_real u). Qed.
Lemma outer_vec v : map fst (vec_mat_c (length p) v (map (map creal) (jac p)))
  = map (fun j => rsum (map (fun xr => fst xr * nth j (snd xr) 0) (combine (map fst v) (jac p)))) (seq 0 (length p)).
Proof.
  unfold vec_mat_c. rewrite map_map. apply map_ext. intros j. rewrite map_map.
  assert (He : map (fun x => nth j (map creal x) c0) (jac p) = map creal (map (fun x => nth j x 0) (jac p))).
  { rewrite map_map. apply map_ext. intros r. exact (map_nth creal r 0 j). }
  rewrite He, fst_cdot_real. unfold dotr. generalize (map fst v). intros u. clear. revert u.
  induction (jac p) as [|r J IH]; intros [|x u]; cbn [map combine]; try reflexivity. rewrite !rsum_cons, IH. reflexivity.
Qed.

Lemma fit_half : exists gr, gradient p = Ok gr /\ length gr = length p /\
  (forall q, length q = length p -> exists v, objective q = Ok v) /\
  forall P t0 d, moves P t0 p d -> derivable_pt_lim (fun t => real (objective (P t))) t0 (2 * dotr gr d).
Proof.
  assert (Hl : length (structure p) = N) by now apply Hpar. assert (HJ : length (jac p) = N) by apply Hpar.
  unfold fit_gradient. rewrite (fits_ok p eq_refl), Hl, HJ, Nat.eqb_refl. cbn [andb]. eexists. split; [reflexivity|].
  rewrite outer_vec, inner_vec. split; [now rewrite map_length, seq_length|]. split; [intros q Hq; eexists; now apply objective_rows|].
  intros P t0 d Hm.
  assert (HJrows : Forall (fun r => length r = length p) (jac p)).
  { apply Forall_forall. intros r Hrin. apply (In_nth _ _ []) in Hrin as (i & Hi & <-). apply Hpar. now rewrite <- HJ. }
  rewrite dotr_vec_mat by assumption.
  set (tv := map (fun row => dotr row d) (jac p)).
  assert (HP0 : P t0 = p) by apply Hm.
  (* velocity of the structure *)
  assert (Hst : forall j, (j < N)%nat -> derivable_pt_lim (fun t => nth j (structure (P t)) 0) t0 (nth j tv 0)).
  { intros j Hj. unfold tv. rewrite nth_map_dotr by now rewrite HJ. destruct Hpar as (_ & _ & Hs). destruct (Hs j Hj) as (_ & Hg). now apply Hg. }
  assert (Hdot : forall u, length u = N -> derivable_pt_lim (fun t => dotr u (structure (P t))) t0 (dotr u tv)).
  { intros u Hu. rewrite (@dotr_index N u tv) by (auto; unfold tv; now rewrite map_length).
    eapply derive_ext; [|apply (@derive_rsum_map nat (fun j t => nth j u 0 * nth j (structure (P t)) 0))].
    - intros t. cbn beta. symmetry. apply dotr_index; [assumption|apply Hpar, Hm].
    - intros j Hj. apply in_seq in Hj. apply (derivable_pt_lim_scal (fun t => nth j (structure (P t)) 0) (nth j u 0)). apply Hst. lia. }
  set (re' := fun x : cplx * cplx * list cplx => dotr (map fst (snd x)) tv).
  set (im' := fun x : cplx * cplx * list cplx => dotr (map snd (snd x)) tv).
  assert (Hre : forall x, In x rows -> derivable_pt_lim (fun t => re x (P t)) t0 (re' x)).
  { intros x Hx. unfold re, re'. set (a := fst (fst (fst x))). set (b := fst (snd (fst x))).
    eapply derive_eq; [|exact (derivable_pt_lim_minus _ _ _ _ _ (derivable_pt_lim_plus _ _ _ _ _ (derivable_pt_lim_const a t0) (Hdot (map fst (snd x)) ltac:(now rewrite map_length, rows_length))) (derivable_pt_lim_const b t0))].
    ring. }
  assert (Him : forall x, In x rows -> derivable_pt_lim (fun t => im x (P t)) t0 (im' x)).
  { intros x Hx. unfold im, im'. set (a := snd (fst (fst x))). set (b := snd (snd (fst x))).
    eapply derive_eq; [|exact (derivable_pt_lim_minus _ _ _ _ _ (derivable_pt_lim_plus _ _ _ _ _ (derivable_pt_lim_const a t0) (Hdot (map snd (snd x)) ltac:(now rewrite map_length, rows_length))) (derivable_pt_lim_const b t0))].
    ring. }
  eapply derive_ext; [intros t; rewrite objective_rows by apply Hm; reflexivity|].
  eapply derive_eq; [|apply (@derive_rsum_map _ (fun x t => re x (P t) * re x (P t) + im x (P t) * im x (P t)) (fun x => 2 * (re x p * re' x + im x p * im' x)))].
  - rewrite rsum_scale. f_equal.
    rewrite (@dotr_index N (map w (seq 0 N)) tv) by (try (unfold tv; now rewrite map_length); now rewrite map_length, seq_length).
    transitivity (rsum (map (fun j => rsum (map (fun x => (re x p * fst (nth j (snd x) c0) + im x p * snd (nth j (snd x) c0)) * nth j tv 0) rows)) (seq 0 N))).
    + rewrite rsum_swap. apply rsum_ext. intros x Hx. assert (Hlx := rows_length x Hx). unfold re', im'.
      rewrite (@dotr_index N (map fst (snd x)) tv), (@dotr_index N (map snd (snd x)) tv) by (try (unfold tv; now rewrite map_length); now rewrite map_length).
      rewrite <- !rsum_scale, <- rsum_plus. apply rsum_ext. intros j _.
      rewrite nth_fst, nth_snd. ring.
    + apply rsum_ext. intros j Hj. apply in_seq in Hj.
      rewrite (nth_indep (map w (seq 0 N)) 0 (w 0)) by (rewrite map_length, seq_length; lia). rewrite map_nth, seq_nth by lia. cbn [Nat.add].
      rewrite (Rmult_comm (w j)). unfold w. rewrite <- rsum_scale. apply rsum_ext. intros x _. ring.
  - intros x Hx. eapply derive_eq; [|exact (derivable_pt_lim_plus _ _ _ _ _ (derivable_pt_lim_mult _ _ _ _ _ (Hre x Hx) (Hre x Hx)) (derivable_pt_lim_mult _ _ _ _ _ (Him x Hx) (Him x Hx)))].
    cbv beta. rewrite HP0. ring.
Qed.
End Fit.

(** ** Constraints *)
Lemma parallel_mapM {C V} (f : C -> res V) l : parallel f l = mapM f l.
Proof. destruct l as [|a [|b l]]; cbn; try reflexivity; now destruct (f a). Qed.
Lemma constraints_ok {C V} (f : C -> res V) a b x y :
  calculate_constraints f a b = Ok (x, y) <-> mapM f a = Ok x /\ mapM f b = Ok y.
Proof.
  unfold calculate_constraints. rewrite parallel_mapM.
  assert (Happ : mapM f (a ++ b) = bind (mapM f a) (fun u => bind (mapM f b) (fun v => Ok (u ++ v)))).
  { clear. induction a as [|e a IH]; cbn [app mapM bind].
    - destruct (mapM f b); reflexivity.
    - destruct (f e); [|reflexivity]. cbn [bind]. rewrite IH. destruct (mapM f a); [|reflexivity]. cbn [bind]. destruct (mapM f b); reflexivity. }
  assert (Hlen : forall l u, mapM f l = Ok u -> length u = length l).
  { clear. induction l as [|e l IH]; intros u H; cbn [mapM] in H; [inversion H; reflexivity|].
    destruct (f e); [|discriminate]. cbn [bind] in H. destruct (mapM f l); [|discriminate]. cbn [bind] in H. inversion H; subst. cbn. f_equal. now apply IH. }
  rewrite Happ. destruct (mapM f a) as [u|] eqn:Ea; cbn [bind]; [|split; [discriminate|intros (H & _); discriminate]].
  destruct (mapM f b) as [v|] eqn:Eb; cbn [bind]; [|split; [discriminate|intros (_ & H); discriminate]].
  rewrite <- (Hlen a u Ea). rewrite firstn_app, Nat.sub_diag, firstn_all, firstn_O, app_nil_r, skipn_app, Nat.sub_diag, skipn_all. cbn [app skipn].
  split; [intros H; inversion H; now split|intros (H1 & H2); now inversion H1; inversion H2].
Qed.
