(** Gradients of the overlap objectives. *)
From Coq Require Import Reals Lra Psatz Ring Field.
From Verif Require Obj_Model.
From Verif Require Import Obj_Spec Obj_Proofs.
From Verif Require Import Base CField CField_Proofs LinAlg Maxwell_Model Maxwell_Spec SimCache_Model.
From Verif Require Import Shape_Model GMath_Model GMath_Spec GMath_Proofs GMath_Proofs2 GMath_Proofs3 GMath_Proofs4 GMath_Proofs5 CplxField.
From Verif Require Adj_Model.
From Verif Require Import Adj_Spec Adj_Proofs Adj_Proofs2 Adj_Proofs3 Adj_Proofs4 Adj_Proofs7 EmObj_Model EmObj_Spec EmObj_Proofs EmObj_Proofs2 EmObj_Proofs3.
Set Implicit Arguments.
Local Open Scope R_scope.
Local Notation at_ := (at_ (K:=CC)).

Section Em.
Variable g : grid CC.
Variable ph : phases CC.
Variables p pc : nat -> C.
Variable inner : mat CC -> list C -> list C.
Variable omega : R.
Variable src bg : list C.
Variable S : nat -> nat -> C.
Variable n : nat.
Local Notation N := (vlen g).
Hypothesis OK : sim_ok g p inner omega.
Hypothesis Hpc : is_sqrt (conj_grid g) pc.
Hypothesis Hsrc : length src = N.
Variable cache_size : nat.
Hypothesis Hcache : (1 <= cache_size)%nat.
Local Notation run_fields := (run_fields g ph p inner omega src bg S n).
Local Notation history := (do_calls g ph p pc inner omega src bg S n (new_sim cache_size)).
Local Notation value o l z := (snd (em_value g ph p inner omega src bg S n o (history l) z)).
Local Notation gradient o l z m jac := (snd (em_gradient g ph p pc inner omega src bg S n o (history l) z m jac)).
Lemma eps_len z eps : get_epsilon g bg S n z = Ok eps -> length z = n /\ eps = eps_of g bg S n z.
Proof. unfold get_epsilon. destruct (Nat.eqb_spec (length z) n) as [H|H]; [|discriminate]. intros E. injection E as <-. now split. Qed.
Lemma em_fields z eps : get_epsilon g bg S n z = Ok eps -> no_resonance g ph omega eps -> exists E, run_fields z = Ok E /\ length E = N.
Proof. intros He Hr. apply eps_len in He as [Hz ->]. eapply fields_exist; eauto. Qed.
Lemma em_value_eq o l z : value o l z = bind (run_fields z) (fun E => o_f o E z).
Proof. eapply value_pure. now apply reachable_sane. Qed.
Lemma em_gradient_eq o l z m jac : gradient o l z m jac = pure_gradient g ph p pc inner omega src bg S n o z m jac.
Proof. eapply gradient_pure. now apply reachable_sane. Qed.
Lemma is_gradient_ext f h q gr : (forall w, f w = h w) -> is_gradient f q gr -> is_gradient h q gr.
Proof. intros E [H1 H2]. split; [exact H1|]. intros P t0 d HP. eapply (@derive_ext_near (fun t => f (P t))); [|now apply H2]. apply (@near_open _ t0 1); [lra|]. intros; now rewrite E. Qed.
Lemma em_gradient_pf o structure jac q eps E px :
  param_ok structure jac n q -> get_epsilon g bg S n (structure q) = Ok eps -> no_resonance g ph omega eps -> run_fields (structure q) = Ok E ->
  differentiates N o E (structure q) px -> outside_layers g px S n ->
  exists gr, (forall l, gradient o l (structure q) (length q) (jac q) = Ok gr) /\
    forall l', is_gradient (fun w => real (value o l' (structure w))) q gr.
Proof.
  intros Hp He Hr HE Hd Ho. apply eps_len in He as [Hz ->].
  destruct (@gradient_lemma g ph p pc inner omega src bg S n OK Hpc Hsrc o structure jac q E px Hp Hr HE Hd Ho) as (gr & H1 & H2).
  exists gr. split; [intros l; now rewrite em_gradient_eq|]. intros l'. eapply is_gradient_ext; [|exact H2]. intros w. now rewrite em_value_eq.
Qed.
Lemma support_outside px (vecs : list (list C)) : (forall c, In c vecs -> outside_layers g c S n) ->
  (forall k, (k < N)%nat -> snd (cell_volume g k) = 0 \/ forall i, (i < n)%nat -> S k i = creal 0) ->
  (forall k, (forall c, In c vecs -> at_ c k = c0) -> at_ px k = c0) -> outside_layers g px S n.
Proof.
  intros H HS Hp k Hk. destruct (Req_dec (snd (cell_volume g k)) 0) as [Hv|Hv]; [now left|right]. split.
  - apply Hp. intros c Hc. destruct (H c Hc k Hk) as [Hv'|[H1 _]]; [contradiction|exact H1].
  - destruct (HS k Hk) as [Hv'|H1]; [contradiction|exact H1].
Qed.
Lemma no_vecs c (vecs : list (list C)) : In c vecs -> (forall c, In c vecs -> outside_layers g c S n) ->
  forall k, (k < N)%nat -> snd (cell_volume g k) = 0 \/ forall i, (i < n)%nat -> S k i = creal 0.
Proof. intros Hc H k Hk. destruct (H c Hc k Hk) as [H1|[_ H1]]; auto. Qed.

Lemma overlap_gradient_pf c T structure jac q eps E :
  param_ok structure jac n q -> get_epsilon g bg S n (structure q) = Ok eps -> no_resonance g ph omega eps -> run_fields (structure q) = Ok E ->
  length c = N -> outside_layers g c S n -> cdot c E <> T ->
  exists gr, (forall l, gradient (overlap_obj g (c, T)) l (structure q) (length q) (jac q) = Ok gr) /\
    forall l', is_gradient (fun w => real (value (overlap_obj g (c, T)) l' (structure w))) q gr.
Proof.
  intros Hp He Hr HE Hc Ho Hn. destruct (@em_fields (structure q) eps He Hr) as (E' & HE' & HlE). rewrite HE in HE'. injection HE' as <-.
  destruct (@overlap_differentiates g c T E (structure q) Hc) as (px & Hd & Hs).
  { rewrite project_cdot by assumption. intros H. apply Hn. apply c_eq; [apply (f_equal fst) in H|apply (f_equal snd) in H]; cbn in H; lra. }
  eapply em_gradient_pf; eauto. apply (@support_outside px [c]).
  - intros c' [<-|[]]. exact Ho.
  - apply (@no_vecs c [c]); [now left|]. intros c' [<-|[]]. exact Ho.
  - intros k H. apply Hs, H. now left.
Qed.
Lemma overlap_value_pf c T l z E : run_fields z = Ok E -> length c = N -> length E = N -> value (overlap_obj g (c, T)) l z = Ok (cabs (csub (cdot c E) T)).
Proof. intros H Hc HE. rewrite em_value_eq, H. cbn [bind overlap_obj o_f]. now rewrite project_cdot. Qed.
Lemma phase_gradient_pf ms structure jac q eps E :
  param_ok structure jac n q -> get_epsilon g bg S n (structure q) = Ok eps -> no_resonance g ph omega eps -> run_fields (structure q) = Ok E ->
  ms <> [] -> (forall m, In m ms -> length (fst m) = N /\ outside_layers g (fst m) S n /\ cdot (fst m) E <> snd m) ->
  exists gr, (forall l, gradient (phase_obj g ms) l (structure q) (length q) (jac q) = Ok gr) /\
    forall l', is_gradient (fun w => real (value (phase_obj g ms) l' (structure w))) q gr.
Proof.
  intros Hp He Hr HE Hne Hms. destruct (@em_fields (structure q) eps He Hr) as (E' & HE' & HlE). rewrite HE in HE'. injection HE' as <-.
  destruct (@phase_differentiates g ms E (structure q)) as (px & Hd & Hs).
  { intros m Hm. destruct (Hms m Hm) as (H1 & _ & H2). split; [exact H1|]. rewrite project_cdot by assumption. intros H. apply H2. apply c_eq; [apply (f_equal fst) in H|apply (f_equal snd) in H]; cbn in H; lra. }
  eapply em_gradient_pf; eauto. assert (Ho : forall c, In c (map fst ms) -> outside_layers g c S n).
  { intros c Hc. apply in_map_iff in Hc as (m & <- & Hm). apply Hms, Hm. }
  apply (@support_outside px (map fst ms) Ho).
  - destruct ms as [|m ms']; [contradiction|]. apply (@no_vecs (fst m) (map fst (m :: ms'))); [now left|exact Ho].
  - intros k H. apply Hs. intros m Hm. apply H. now apply in_map.
Qed.
Lemma basic_gradient_pf r ms structure jac q eps E :
  param_ok structure jac n q -> get_epsilon g bg S n (structure q) = Ok eps -> no_resonance g ph omega eps -> run_fields (structure q) = Ok E ->
  ms <> [] -> (forall m, In m ms -> length (fst m) = N /\ outside_layers g (fst m) S n /\ cdot (fst m) E <> c0 /\ fst (snd m) <= snd (snd m) /\
     ((1 <= r)%nat \/ amplitude (fst m) E <> fst (snd m) /\ amplitude (fst m) E <> snd (snd m))) ->
  exists gr, (forall l, gradient (basic_obj g r ms) l (structure q) (length q) (jac q) = Ok gr) /\
    forall l', is_gradient (fun w => (-1) ^ Datatypes.S r * real (value (basic_obj g r ms) l' (structure w))) q gr.
Proof.
  intros Hp He Hr HE Hne Hms. destruct (@em_fields (structure q) eps He Hr) as (E' & HE' & HlE). rewrite HE in HE'. injection HE' as <-.
  destruct (@basic_differentiates g r ms E (structure q)) as (px & Hd & Hs).
  { intros m Hm. destruct (Hms m Hm) as (H1 & _ & H2 & H3 & H4). rewrite project_cdot by assumption. auto. }
  assert (Ho : forall c, In c (map fst ms) -> outside_layers g c S n).
  { intros c Hc. apply in_map_iff in Hc as (m & <- & Hm). apply Hms, Hm. }
  assert (Hout : outside_layers g px S n).
  { apply (@support_outside px (map fst ms) Ho).
    - destruct ms as [|m ms']; [contradiction|]. apply (@no_vecs (fst m) (map fst (m :: ms'))); [now left|exact Ho].
    - intros k H. apply Hs. intros m Hm. apply H. now apply in_map. }
  destruct (@em_gradient_pf (signed g r ms) structure jac q eps E px Hp He Hr HE Hd Hout) as (gr & H1 & H2).
  exists gr. split.
  - intros l. rewrite <- (H1 l). rewrite !em_gradient_eq. reflexivity.
  - intros l'. eapply is_gradient_ext; [|exact (H2 l')]. intros w. rewrite !em_value_eq. destruct (run_fields (structure w)) as [F|e]; cbn [bind signed basic_obj o_f real]; [reflexivity|].
    ring.
Qed.
Lemma basic_value_pf r ms l z E : run_fields z = Ok E -> length E = N -> (forall m, In m ms -> length (fst m) = N /\ fst (snd m) <= snd (snd m)) ->
  exists v, value (basic_obj g r ms) l z = Ok v /\ v = Obj_Model.rsum (map (fun m => excess (fst (snd m)) (snd (snd m)) (amplitude (fst m) E) ^ Datatypes.S r) ms) /\
    0 <= v /\ (v = 0 <-> forall m, In m ms -> fst (snd m) <= amplitude (fst m) E <= snd (snd m)).
Proof.
  intros H HE Hms. rewrite em_value_eq, H. cbn [bind basic_obj o_f]. eexists. split; [reflexivity|]. rewrite basic_value by assumption. split; [reflexivity|].
  destruct (@rsum_zero_iff _ (fun m : list C * (R * R) => excess (fst (snd m)) (snd (snd m)) (amplitude (fst m) E) ^ Datatypes.S r) ms) as [H1 H2].
  { intros m _. apply pow_le, excess_nonneg. }
  split; [exact H1|]. rewrite H2. split; intros Hz m Hm.
  - specialize (Hz m Hm). apply excess_zero. destruct (Req_dec (excess (fst (snd m)) (snd (snd m)) (amplitude (fst m) E)) 0) as [E0|E0]; [exact E0|]. now apply (pow_nonzero _ (Datatypes.S r)) in E0.
  - specialize (Hz m Hm). apply excess_zero in Hz. cbv beta. rewrite Hz. apply pow_i, Nat.lt_0_succ.
Qed.
Lemma mapM_err {A B} (f : A -> res B) l x e : In x l -> f x = Err e -> (forall y, In y l -> f y = Err e \/ exists b, f y = Ok b) -> mapM f l = Err e.
Proof.
  intros Hx Hf Hall. induction l as [|y l IH]; [destruct Hx|]. cbn. destruct (Hall y ltac:(now left)) as [H|[b H]]; rewrite H; cbn; [reflexivity|].
  destruct Hx as [->|Hx]; [congruence|]. rewrite IH; auto. intros; apply Hall; now right.
Qed.
Lemma gradient_nan o l z m jac E : run_fields z = Ok E -> o_dx o E z = Err ValueError -> gradient o l z m jac = Err ValueError.
Proof. intros H1 H2. rewrite em_gradient_eq. unfold pure_gradient. rewrite H1. cbn [bind]. now rewrite H2. Qed.
Lemma overlap_nan c T l z m jac E : run_fields z = Ok E -> length c = N -> length E = N -> cdot c E = T -> gradient (overlap_obj g (c, T)) l z m jac = Err ValueError.
Proof.
  intros H1 H2 H3 H4. eapply gradient_nan; [exact H1|]. cbn [overlap_obj o_dx]. rewrite project_cdot by assumption. rewrite H4.
  destruct (czero (csub T T)) eqn:Ez; [reflexivity|]. assert (czero (csub T T) = true) by (apply czero_spec; apply c_eq; cbn; ring). congruence.
Qed.
Lemma phase_nan ms l z m' jac E m : run_fields z = Ok E -> (forall m, In m ms -> length (fst m) = N) -> length E = N -> In m ms -> cdot (fst m) E = snd m ->
  gradient (phase_obj g ms) l z m' jac = Err ValueError.
Proof.
  intros H1 H2 H3 Hm H4. eapply gradient_nan; [exact H1|]. cbn [phase_obj o_dx]. rewrite (@mapM_err _ _ _ _ m ValueError Hm); [reflexivity| |].
  - unfold phase_coef. rewrite project_cdot by auto. rewrite H4. destruct (czero (csub (snd m) (snd m))) eqn:Ez; [reflexivity|]. assert (czero (csub (snd m) (snd m)) = true) by (apply czero_spec; apply c_eq; cbn; ring). congruence.
  - intros y _. unfold phase_coef. destruct (czero _); eauto.
Qed.
Lemma basic_nan r ms l z m' jac E m : run_fields z = Ok E -> (forall m, In m ms -> length (fst m) = N) -> length E = N -> In m ms -> cdot (fst m) E = c0 ->
  gradient (basic_obj g r ms) l z m' jac = Err ValueError.
Proof.
  intros H1 H2 H3 Hm H4. eapply gradient_nan; [exact H1|]. cbn [basic_obj o_dx]. rewrite (@mapM_err _ _ _ _ m ValueError Hm); [reflexivity| |].
  - unfold basic_coef. destruct m as [c [a b]]. rewrite project_cdot by (auto; exact (H2 _ Hm)). cbn [fst] in H4. rewrite H4. destruct (czero c0) eqn:Ez; [reflexivity|]. assert (czero c0 = true) by (now apply czero_spec). congruence.
  - intros [c [a b]] _. unfold basic_coef. destruct (czero _); eauto.
Qed.
End Em.

(** The range of a mode *)
Lemma bind_ok {A B} (r : res A) (f : A -> res B) b : bind r f = Ok b -> exists a, r = Ok a /\ f a = Ok b.
Proof. destruct r as [a|e]; cbn; [eauto|discriminate]. Qed.
Lemma fold_min_spec l : forall a, (forall x, In x (a :: l) -> fold_left Rmin l a <= x) /\ In (fold_left Rmin l a) (a :: l).
Proof.
  induction l as [|y l IH]; intros a; cbn [fold_left].
  - split; [intros x [->|[]]; lra|now left].
  - destruct (IH (Rmin a y)) as [H1 H2]. split.
    + intros x Hx. assert (fold_left Rmin l (Rmin a y) <= Rmin a y) by (apply H1; now left). destruct Hx as [<-|[<-|Hx]]; [pose proof (Rmin_l a y); lra|pose proof (Rmin_r a y); lra|]. apply H1. now right.
    + destruct H2 as [H2|H2]; [|now do 2 right]. rewrite <- H2. unfold Rmin. destruct (Rle_dec a y); [now left|now right; left].
Qed.
Lemma fold_max_spec l : forall a, (forall x, In x (a :: l) -> x <= fold_left Rmax l a) /\ In (fold_left Rmax l a) (a :: l).
Proof.
  induction l as [|y l IH]; intros a; cbn [fold_left].
  - split; [intros x [->|[]]; lra|now left].
  - destruct (IH (Rmax a y)) as [H1 H2]. split.
    + intros x Hx. assert (Rmax a y <= fold_left Rmax l (Rmax a y)) by (apply H1; now left). destruct Hx as [<-|[<-|Hx]]; [pose proof (Rmax_l a y); lra|pose proof (Rmax_r a y); lra|]. apply H1. now right.
    + destruct H2 as [H2|H2]; [|now do 2 right]. rewrite <- H2. unfold Rmax. destruct (Rle_dec a y); [now right; left|now left].
Qed.
Lemma np_sqrt_ok x a : np_sqrt x = Ok a -> 0 <= x /\ a = sqrt x.
Proof. unfold np_sqrt. destruct (Rle_dec 0 x); [|discriminate]. intros E. injection E as <-. auto. Qed.
Lemma mode_range out c a b : basic_mode out = Ok (c, (a, b)) ->
  exists pw, m_power out = Some pw /\ a <= b /\ 0 <= a /\ In (a * a) pw /\ In (b * b) pw /\ (forall x, In x pw -> a * a <= x <= b * b).
Proof.
  unfold basic_mode. intros H. apply bind_ok in H as (v & _ & H). apply bind_ok in H as (pw & Hp & H). apply bind_ok in H as (lo & Hlo & H). apply bind_ok in H as (a' & Ha & H).
  apply bind_ok in H as (hi & Hhi & H). apply bind_ok in H as (b' & Hb & H). injection H as <- <- <-.
  exists pw. split; [destruct (m_power out); cbn in Hp; [now injection Hp as ->|discriminate]|].
  apply np_sqrt_ok in Ha as [Ha1 ->]. apply np_sqrt_ok in Hb as [Hb1 ->]. rewrite !sqrt_sqrt by assumption.
  destruct pw as [|x pw]; [discriminate|]. cbn in Hlo, Hhi. injection Hlo as <-. injection Hhi as <-.
  destruct (fold_min_spec pw x) as [L1 L2]. destruct (fold_max_spec pw x) as [M1 M2].
  split; [apply sqrt_le_1; [assumption|assumption|now apply M1]|]. split; [apply sqrt_pos|]. split; [exact L2|]. split; [exact M2|]. intros y Hy. split; [now apply L1|now apply M1].
Qed.
