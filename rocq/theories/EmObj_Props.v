(** Objectives of simulations: values and adjoint gradients (C120), overlap objectives with a target
    amplitude (C121), overlap objectives with a range of powers (C122).  Vocabulary: EmObj_Spec.v. *)
From Coq Require Import Reals Lra.
From Verif Require Obj_Model.
From Verif Require Import Base CField LinAlg Maxwell_Model Maxwell_Spec SimCache_Model Shape_Model GMath_Model GMath_Spec GMath_Proofs CplxField Adj_Model Adj_Spec Adj_Proofs7.
From Verif Require Import EmObj_Model EmObj_Spec EmObj_Proofs4 EmObj_Proofs5.
Local Open Scope R_scope.

(** ** C120 *)
(** What was simulated before does not show: value and gradient after any two histories agree, and
    the value is the function of the objective at the fields of the structure. *)
Theorem objective_history_free g ph p pc inner omega src bg S n cache_size cache_size' o l l' z m jac :
  (1 <= cache_size)%nat -> (1 <= cache_size')%nat ->
  let s := do_calls g ph p pc inner omega src bg S n (new_sim cache_size) l in
  let s' := do_calls g ph p pc inner omega src bg S n (new_sim cache_size') l' in
  snd (em_value g ph p inner omega src bg S n o s z) = bind (run_fields g ph p inner omega src bg S n z) (fun E => o_f o E z) /\
  snd (em_value g ph p inner omega src bg S n o s' z) = snd (em_value g ph p inner omega src bg S n o s z) /\
  snd (em_gradient g ph p pc inner omega src bg S n o s' z m jac) = snd (em_gradient g ph p pc inner omega src bg S n o s z m jac).
Proof.
  intros H H' s s'. unfold s, s'. split; [now apply em_value_eq|]. split.
  - now rewrite !em_value_eq.
  - now rewrite !em_gradient_eq.
Qed.
(** Off resonance the fields exist; there the vector computed with the adjoint simulation is the
    gradient of the value with respect to the parameters, for every objective that differentiates
    its own function correctly. *)
Theorem objective_gradient_exact g ph p pc inner omega src bg S n cache_size o structure jac q eps :
  sim_ok g p inner omega -> is_sqrt (conj_grid g) pc -> length src = vlen g -> (1 <= cache_size)%nat ->
  param_ok structure jac n q -> get_epsilon g bg S n (structure q) = Ok eps -> no_resonance g ph omega eps ->
  exists E, run_fields g ph p inner omega src bg S n (structure q) = Ok E /\ length E = vlen g /\
    forall px, differentiates (vlen g) o E (structure q) px -> outside_layers g px S n ->
    exists gr,
      (forall l, snd (em_gradient g ph p pc inner omega src bg S n o (do_calls g ph p pc inner omega src bg S n (new_sim cache_size) l) (structure q) (length q) (jac q)) = Ok gr) /\
      forall l', is_gradient (fun w => real (snd (em_value g ph p inner omega src bg S n o (do_calls g ph p pc inner omega src bg S n (new_sim cache_size) l') (structure w)))) q gr.
Proof.
  intros OK Hpc Hsrc Hc Hp He Hr. destruct (@em_fields g ph p inner omega src bg S n OK Hsrc _ _ He Hr) as (E & HE & Hl). exists E. split; [exact HE|]. split; [exact Hl|].
  intros px Hd Ho. eapply em_gradient_pf; eassumption.
Qed.
Example objective_case :
  sim_ok cells2 one_p solver2 1 /\ is_sqrt (conj_grid cells2) one_p /\ param_ok direct unit_jac 2 [1; 1] /\
  get_epsilon cells2 bg2 sel2 2 (direct [1; 1]) = Ok [c1; c1; c1; c1; c1; c1] /\ no_resonance cells2 flat_phases 1 [c1; c1; c1; c1; c1; c1] /\
  run_fields cells2 flat_phases one_p solver2 1 src2 bg2 sel2 2 (direct [1; 1]) = Ok (E2 1 1) /\
  exists px, differentiates (vlen cells2) (overlap_obj cells2 (probe2, c0)) (E2 1 1) (direct [1; 1]) px /\ outside_layers cells2 px sel2 2.
Proof.
  split; [exact sim_ok2|]. split; [exact conj_sqrt2|]. split; [exact direct_ok|]. split; [exact eps_11|]. split; [exact no_res11|]. split; [apply fields2; lra|].
  destruct (@EmObj_Proofs3.overlap_differentiates cells2 probe2 c0 (E2 1 1) (direct [1; 1]) eq_refl) as (px & H & _).
  - rewrite EmObj_Proofs3.project_cdot by reflexivity. intros H. apply probe_nz. apply c_eq; [apply (f_equal fst) in H|apply (f_equal snd) in H]; cbn in *; lra.
  - exists px. split; [exact H|apply outside2].
Qed.

(** ** C121 *)
(** Overlap: the value is the distance of the amplitude of the mode from the target, the gradient is
    exact wherever the two differ, and not a number where they agree. *)
Theorem overlap_objective g ph p pc inner omega src bg S n cache_size c T structure jac q eps E :
  sim_ok g p inner omega -> is_sqrt (conj_grid g) pc -> length src = vlen g -> (1 <= cache_size)%nat ->
  param_ok structure jac n q -> get_epsilon g bg S n (structure q) = Ok eps -> no_resonance g ph omega eps ->
  run_fields g ph p inner omega src bg S n (structure q) = Ok E -> length c = vlen g -> outside_layers g c S n ->
  let o := overlap_obj g (c, T) in
  let value l z := snd (em_value g ph p inner omega src bg S n o (do_calls g ph p pc inner omega src bg S n (new_sim cache_size) l) z) in
  let gradient l := snd (em_gradient g ph p pc inner omega src bg S n o (do_calls g ph p pc inner omega src bg S n (new_sim cache_size) l) (structure q) (length q) (jac q)) in
  (forall l, value l (structure q) = Ok (cabs (csub (cdot c E) T))) /\
  (cdot c E <> T -> exists gr, (forall l, gradient l = Ok gr) /\ forall l', is_gradient (fun w => real (value l' (structure w))) q gr) /\
  (cdot c E = T -> forall l, gradient l = Err ValueError).
Proof.
  intros OK Hpc Hsrc Hc Hp He Hr HE Hl Ho o value gradient. destruct (@em_fields g ph p inner omega src bg S n OK Hsrc _ _ He Hr) as (E' & HE' & HlE). rewrite HE in HE'. injection HE' as <-.
  split; [|split].
  - intros l. now apply overlap_value_pf.
  - intros Hn. eapply overlap_gradient_pf; eassumption.
  - intros Ht l. now apply (@overlap_nan g ph p pc inner omega src bg S n cache_size Hc c T l (structure q) (length q) (jac q) E).
Qed.
(** PhaseOverlapObjective: the sum of the squared distances. *)
Theorem phase_objective g ph p pc inner omega src bg S n cache_size ms structure jac q eps E :
  sim_ok g p inner omega -> is_sqrt (conj_grid g) pc -> length src = vlen g -> (1 <= cache_size)%nat ->
  param_ok structure jac n q -> get_epsilon g bg S n (structure q) = Ok eps -> no_resonance g ph omega eps ->
  run_fields g ph p inner omega src bg S n (structure q) = Ok E -> ms <> [] ->
  (forall m, In m ms -> length (fst m) = vlen g /\ outside_layers g (fst m) S n) ->
  let o := phase_obj g ms in
  let value l z := snd (em_value g ph p inner omega src bg S n o (do_calls g ph p pc inner omega src bg S n (new_sim cache_size) l) z) in
  let gradient l := snd (em_gradient g ph p pc inner omega src bg S n o (do_calls g ph p pc inner omega src bg S n (new_sim cache_size) l) (structure q) (length q) (jac q)) in
  (forall l, value l (structure q) = Ok (Obj_Model.rsum (map (fun m => cabs (csub (cdot (fst m) E) (snd m)) ^ 2) ms))) /\
  ((forall m, In m ms -> cdot (fst m) E <> snd m) -> exists gr, (forall l, gradient l = Ok gr) /\ forall l', is_gradient (fun w => real (value l' (structure w))) q gr) /\
  ((exists m, In m ms /\ cdot (fst m) E = snd m) -> forall l, gradient l = Err ValueError).
Proof.
  intros OK Hpc Hsrc Hc Hp He Hr HE Hne Hms o value gradient. destruct (@em_fields g ph p inner omega src bg S n OK Hsrc _ _ He Hr) as (E' & HE' & HlE). rewrite HE in HE'. injection HE' as <-.
  split; [|split].
  - intros l. unfold value. rewrite em_value_eq by assumption. rewrite HE. cbn [bind o phase_obj o_f]. rewrite EmObj_Proofs3.phase_value; [reflexivity| |exact HlE]. intros m Hm. apply Hms, Hm.
  - intros Hn. eapply phase_gradient_pf; try eassumption. intros m Hm. destruct (Hms m Hm). auto.
  - intros (m & Hm & Ht) l. apply (@phase_nan g ph p pc inner omega src bg S n cache_size Hc ms l (structure q) (length q) (jac q) E m); auto. intros m' Hm'. apply Hms, Hm'.
Qed.
(** The two classes read the vector of an arbitrary mode differently: the same mode is on target for
    one and off target for the other. *)
Theorem arbitrary_modes_agree_refuted : exists g out ct cp E, m_type out = Arbitrary /\ length E = vlen g /\
  overlap_new out = Ok ct /\ phase_mode out = Ok cp /\
  o_f (overlap_obj g ct) E [] = Ok 0 /\ exists v, o_f (phase_obj g [cp]) E [] = Ok v /\ v <> 0.
Proof.
  exists cells2, (Mode Arbitrary (Err ValueError) (Some [imag_unit; c0; c0; c0; c0; c0]) None (Some imag_unit)).
  exists ([imag_unit; c0; c0; c0; c0; c0], imag_unit), ([cconj imag_unit; cconj c0; cconj c0; cconj c0; cconj c0; cconj c0], imag_unit), [c1; c0; c0; c0; c0; c0].
  split; [reflexivity|]. split; [reflexivity|]. split; [reflexivity|]. split; [reflexivity|]. cbn [overlap_obj o_f phase_obj]. split.
  - f_equal. rewrite EmObj_Proofs3.project_cdot by reflexivity. unfold cabs. rewrite <- sqrt_0. f_equal. cbn. ring.
  - eexists. split; [reflexivity|]. rewrite EmObj_Proofs3.phase_value; [|intros m [<-|[]]; reflexivity|reflexivity]. unfold Obj_Model.rsum. cbn [map fold_right fst snd].
    rewrite Rplus_0_r. apply pow_nonzero. unfold cabs. apply Rgt_not_eq. apply sqrt_lt_R0. cbn. lra.
Qed.
(** at the parameters (1, 1) the amplitude of the probed field is sqrt(5/9) *)
Example overlap_objective_case : cdot probe2 (E2 1 1) <> c0 /\ length probe2 = vlen cells2 /\ outside_layers cells2 probe2 sel2 2 /\
  snd (em_value cells2 flat_phases one_p solver2 1 src2 bg2 sel2 2 (overlap_obj cells2 (probe2, c0)) (new_sim 1) (direct [1; 1])) = Ok (sqrt (5 / 9)).
Proof.
  split; [exact probe_nz|]. split; [reflexivity|]. split; [apply outside2|].
  etransitivity; [apply (@overlap_value_pf cells2 flat_phases one_p one_p solver2 1 src2 bg2 sel2 2 1 (le_n 1) probe2 c0 [] (direct [1; 1]) (E2 1 1)); [apply fields2; lra|reflexivity..]|].
  f_equal. rewrite probe_field. unfold cabs. f_equal. cbn. field.
Qed.

(** ** C122 *)
(** The range of amplitudes of a mode is that of the square roots of its powers. *)
Theorem power_range out c a b : basic_mode out = Ok (c, (a, b)) ->
  exists pw, m_power out = Some pw /\ a <= b /\ 0 <= a /\ In (a * a) pw /\ In (b * b) pw /\ (forall x, In x pw -> a * a <= x <= b * b).
Proof. exact (@mode_range out c a b). Qed.
(** BasicOverlapObjective: the value is the sum of the powers of the distances of the amplitudes from
    their ranges; it is zero exactly when every mode is within its range. *)
Theorem range_objective_value g ph p pc inner omega src bg S n cache_size r ms l z E :
  (1 <= cache_size)%nat -> run_fields g ph p inner omega src bg S n z = Ok E -> length E = vlen g ->
  (forall m, In m ms -> length (fst m) = vlen g /\ fst (snd m) <= snd (snd m)) ->
  exists v, snd (em_value g ph p inner omega src bg S n (basic_obj g r ms) (do_calls g ph p pc inner omega src bg S n (new_sim cache_size) l) z) = Ok v /\
    v = Obj_Model.rsum (map (fun m => excess (fst (snd m)) (snd (snd m)) (amplitude (fst m) E) ^ (1 + r)) ms) /\
    0 <= v /\ (v = 0 <-> forall m, In m ms -> fst (snd m) <= amplitude (fst m) E <= snd (snd m)).
Proof. intros Hc HE Hl Hms. now apply basic_value_pf. Qed.
(** The vector returned is the gradient for even exponents, and the opposite of the gradient for odd
    exponents; it is not a number where an amplitude is zero. *)
Theorem range_objective_gradient g ph p pc inner omega src bg S n cache_size r ms structure jac q eps E :
  sim_ok g p inner omega -> is_sqrt (conj_grid g) pc -> length src = vlen g -> (1 <= cache_size)%nat ->
  param_ok structure jac n q -> get_epsilon g bg S n (structure q) = Ok eps -> no_resonance g ph omega eps ->
  run_fields g ph p inner omega src bg S n (structure q) = Ok E -> ms <> [] ->
  (forall m, In m ms -> length (fst m) = vlen g /\ outside_layers g (fst m) S n /\ fst (snd m) <= snd (snd m) /\
     ((2 <= 1 + r)%nat \/ amplitude (fst m) E <> fst (snd m) /\ amplitude (fst m) E <> snd (snd m))) ->
  let o := basic_obj g r ms in
  let value l z := snd (em_value g ph p inner omega src bg S n o (do_calls g ph p pc inner omega src bg S n (new_sim cache_size) l) z) in
  let gradient l := snd (em_gradient g ph p pc inner omega src bg S n o (do_calls g ph p pc inner omega src bg S n (new_sim cache_size) l) (structure q) (length q) (jac q)) in
  ((forall m, In m ms -> cdot (fst m) E <> c0) -> exists gr, (forall l, gradient l = Ok gr) /\
     forall l', is_gradient (fun w => (-1) ^ (1 + r) * real (value l' (structure w))) q gr) /\
  ((exists m, In m ms /\ cdot (fst m) E = c0) -> forall l, gradient l = Err ValueError).
Proof.
  intros OK Hpc Hsrc Hc Hp He Hr HE Hne Hms o value gradient. destruct (@em_fields g ph p inner omega src bg S n OK Hsrc _ _ He Hr) as (E' & HE' & HlE). rewrite HE in HE'. injection HE' as <-.
  split.
  - intros Hn. eapply basic_gradient_pf; try eassumption. intros m Hm. destruct (Hms m Hm) as (H1 & H2 & H3 & H4). repeat split; auto. destruct H4 as [H4|H4]; [left; lia|now right].
  - intros (m & Hm & Ht) l. apply (@basic_nan g ph p pc inner omega src bg S n cache_size Hc r ms l (structure q) (length q) (jac q) E m); auto. intros m' Hm'. apply Hms, Hm'.
Qed.
(** with exponent 1 the vector returned is not the gradient *)
Theorem range_gradient_refuted : exists g ph p pc inner omega src bg S n r ms structure jac q eps E gr,
  sim_ok g p inner omega /\ is_sqrt (conj_grid g) pc /\ length src = vlen g /\ param_ok structure jac n q /\
  get_epsilon g bg S n (structure q) = Ok eps /\ no_resonance g ph omega eps /\ run_fields g ph p inner omega src bg S n (structure q) = Ok E /\
  (forall m, In m ms -> length (fst m) = vlen g /\ outside_layers g (fst m) S n /\ cdot (fst m) E <> c0 /\ fst (snd m) <= snd (snd m) /\
     amplitude (fst m) E <> fst (snd m) /\ amplitude (fst m) E <> snd (snd m)) /\
  snd (em_gradient g ph p pc inner omega src bg S n (basic_obj g r ms) (new_sim 1) (structure q) (length q) (jac q)) = Ok gr /\
  ~ is_gradient (fun w => real (snd (em_value g ph p inner omega src bg S n (basic_obj g r ms) (new_sim 1) (structure w)))) q gr.
Proof. exact basic_refuted_pf. Qed.
Example range_case : basic_mode (Mode Arbitrary (Err ValueError) (Some probe2) (Some [4; 4]) None) = Ok (probe2, (2, 2)) /\
  amplitude probe2 (E2 1 1) < 2 /\ cdot probe2 (E2 1 1) <> c0.
Proof.
  split; [|split; [exact amp11|exact probe_nz]]. unfold basic_mode. cbn. unfold np_sqrt. rewrite Rmin_left, Rmax_left by lra. destruct (Rle_dec 0 4); [|lra].
  replace 4 with (2 * 2) by ring. rewrite sqrt_square by lra. reflexivity.
Qed.

Print Assumptions objective_history_free.
Print Assumptions objective_gradient_exact.
Print Assumptions objective_case.
Print Assumptions overlap_objective.
Print Assumptions phase_objective.
Print Assumptions arbitrary_modes_agree_refuted.
Print Assumptions overlap_objective_case.
Print Assumptions power_range.
Print Assumptions range_objective_value.
Print Assumptions range_objective_gradient.
Print Assumptions range_gradient_refuted.
Print Assumptions range_case.
