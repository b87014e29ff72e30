(** Adjoint gradients of simulations (C86, C87) and the simulation node of goos (C88).
    Vocabulary: Adj_Spec.v. *)
From Coq Require Import Reals Lra.
From Verif Require Obj_Model.
From Verif Require Import Obj_Spec Obj_Proofs.
From Verif Require Import Base CField CField_Proofs LinAlg Maxwell_Model Maxwell_Spec SimCache_Model.
From Verif Require Import Shape_Model GMath_Model GMath_Spec GMath_Proofs CplxField Adj_Model Adj_Spec Adj_Proofs3 Adj_Proofs4 Adj_Proofs5 Adj_Proofs6 Adj_Proofs7 Adj_Proofs8.
Local Open Scope R_scope.

Lemma eps_len g cplx bg S n z eps : eps_eval g cplx bg S n z = Ok eps -> length z = n /\ dat eps = eps_of g bg S n z.
Proof.
  unfold eps_eval. destruct (Nat.eqb_spec (length z) n) as [H|H]; [|discriminate]. intros E. injection E as <-. split; [exact H|reflexivity].
Qed.

(** ** C86 *)
(** The caches of a simulation are invisible: whatever was computed before, the fields are those of
    the solver for the permittivity asked for. *)
Theorem simulation_history_free g ph p inner omega src cache_size l eps : (1 <= cache_size)%nat ->
  snd (sim_eval g ph p inner omega src (do_calls g ph p inner omega src (new_sim cache_size) l) eps) = run g ph p inner omega false src (dat eps).
Proof. intros H. exact (proj2 (sim_fields_sane (dat eps) (reachable_sane g ph p inner omega src l H))). Qed.
(** One call of grad: along any curve of permittivities the rate of change of Re(sum gv E) is
    Re(sum grad d), [d] being the velocity of the curve. *)
Theorem simulation_backprop g ph p inner omega src cache_size l l' cplx eps gv :
  sim_ok g p inner omega -> length src = vlen g -> (1 <= cache_size)%nat -> no_resonance g ph omega eps -> length eps = vlen g -> length gv = vlen g ->
  let s := do_calls g ph p inner omega src (new_sim cache_size) l in
  let s' := do_calls g ph p inner omega src (new_sim cache_size) l' in
  exists grad, snd (sim_grad g ph p inner omega src s (mkarr cplx eps) gv) = Ok grad /\ length grad = vlen g /\
    forall u d t0, cmoves (vlen g) u t0 d -> u t0 = eps -> (cplx = false -> real_entries d) ->
      derivable_pt_lim (fun t => fst (cdot gv (vector (snd (sim_eval g ph p inner omega src s' (mkarr cplx (u t))))))) t0 (fst (cdot grad d)).
Proof.
  intros OK Hsrc Hn Hr Hle Hg s s'. pose proof (reachable_sane g ph p inner omega src l Hn) as Hs. pose proof (reachable_sane g ph p inner omega src l' Hn) as Hs'. fold s in Hs. fold s' in Hs'.
  destruct (sim_grad_sane (mkarr cplx eps) gv Hs) as [_ HG].
  assert (Hc : exists grad, pure_grad g ph p inner omega src (mkarr cplx eps) gv = Ok grad /\ length grad = vlen g).
  { destruct (@node_gradient g ph p inner omega src OK Hsrc cplx (fun _ => eps) (repeat c0 (vlen g)) 0) as (E' & _ & _ & _ & H); [|exact Hr| |].
    - split; [intros; exact Hle|]. split; [apply repeat_length|]. intros k Hk. rewrite nth_repeat. apply cd_const.
    - intros _. apply Forall_forall. intros w Hw. apply repeat_spec in Hw as ->. reflexivity.
    - destruct (H gv Hg) as (grad & H1 & H2 & _). eauto. }
  destruct Hc as (grad & Hgr & Hlg). exists grad. split; [now rewrite HG|]. split; [exact Hlg|].
  intros u d t0 Hu Hu0 Hd. destruct (@node_gradient g ph p inner omega src OK Hsrc cplx u d t0 Hu) as (E' & HlE' & Hnear & Hder & H); [now rewrite Hu0|exact Hd|].
  destruct (H gv Hg) as (grad' & H1 & _ & _ & H2 & _). rewrite Hu0, Hgr in H1. injection H1 as <-.
  rewrite (@cdot_fsum (vlen g) grad d Hlg ltac:(apply Hu)). rewrite <- H2.
  apply (@derive_ext_near (fun t => fst (fsum (K:=CC) (vlen g) (fun k => cmul (at_ (K:=CC) gv k) (at_ (K:=CC) (Adj_Proofs2.fld g ph p inner omega src u t) k))))).
  - eapply near_impl; [|exact Hnear]. cbv beta. intros t [Hrun Hl]. f_equal. unfold sim_eval. cbn [dat].
    rewrite (proj2 (sim_fields_sane (u t) Hs')), Hrun. cbn [vector]. symmetry. now apply cdot_fsum.
  - apply derive_fst. apply (@Adj_Proofs.cd_fsum (vlen g) (fun k t => cmul (at_ (K:=CC) gv k) (at_ (K:=CC) (Adj_Proofs2.fld g ph p inner omega src u t) k)) (fun k => cmul (at_ (K:=CC) gv k) (at_ (K:=CC) E' k))).
    intros k Hk. apply Adj_Proofs.cd_scale. now apply Hder.
Qed.
(** parametrization -> permittivity -> simulation -> overlap -> absolute value: the vector returned
    is the gradient of the value, whatever was simulated before. *)
Theorem overlap_gradient_exact g ph p inner omega src cplx bg S n c cache_size l l' z eps gv :
  sim_ok g p inner omega -> length src = vlen g -> length c = vlen g -> (1 <= cache_size)%nat ->
  (cplx = false -> forall k i, (k < vlen g)%nat -> (i < n)%nat -> snd (S k i) = 0) ->
  eps_eval g cplx bg S n z = Ok eps -> no_resonance g ph omega (dat eps) ->
  let s := do_calls g ph p inner omega src (new_sim cache_size) l in
  let s' := do_calls g ph p inner omega src (new_sim cache_size) l' in
  real (snd (abs_overlap_value g ph p inner omega src cplx bg S n c s z)) <> 0 ->
  exists gr, snd (abs_overlap_gradient g ph p inner omega src cplx bg S n c s z gv) = Ok gr /\
    is_gradient (fun w => gv * real (snd (abs_overlap_value g ph p inner omega src cplx bg S n c s' w))) z gr.
Proof.
  intros OK Hsrc Hc Hn HS He Hr s s' Hnz. destruct (eps_len _ _ _ _ _ _ _ He) as [Hz Hd]. rewrite Hd in Hr.
  destruct (@overlap_graph g ph p inner omega src cplx bg S n OK Hsrc HS c s z gv (reachable_sane g ph p inner omega src l Hn) Hc Hz Hr Hnz) as (gr & H1 & H2).
  exists gr. split; [exact H1|]. apply H2. now apply reachable_sane.
Qed.
(** two cells, the permittivity of two entries being the parameters, both equal to 1; the field
    there is (-1-2i)/3 *)
Definition probe : list C := [c0; c0; c1; c0; c0; c0].
Example overlap_case :
  sim_ok cells2 one_p solver2 1 /\ eps_eval cells2 true bg2 sel2 2 [1; 1] = Ok (mkarr true [c1; c1; c1; c1; c1; c1]) /\
  no_resonance cells2 flat_phases 1 [c1; c1; c1; c1; c1; c1] /\
  snd (abs_overlap_value cells2 flat_phases one_p solver2 1 src2 true bg2 sel2 2 probe (new_sim 1) [1; 1]) = Ok (sqrt (5 / 9)) /\
  exists gr, snd (abs_overlap_gradient cells2 flat_phases one_p solver2 1 src2 true bg2 sel2 2 probe (new_sim 1) [1; 1] 1) = Ok gr /\
    is_gradient (fun w => 1 * real (snd (abs_overlap_value cells2 flat_phases one_p solver2 1 src2 true bg2 sel2 2 probe (new_sim 1) w))) [1; 1] gr.
Proof.
  assert (He : eps_eval cells2 true bg2 sel2 2 [1; 1] = Ok (mkarr true [c1; c1; c1; c1; c1; c1])) by (rewrite eps_eval_ok by reflexivity; now rewrite eps2).
  assert (Hr : no_resonance cells2 flat_phases 1 [c1; c1; c1; c1; c1; c1]) by (apply no_res_xy; lra).
  assert (Hv : snd (abs_overlap_value cells2 flat_phases one_p solver2 1 src2 true bg2 sel2 2 probe (new_sim 1) [1; 1]) = Ok (sqrt (5 / 9))).
  { assert (Hs : sane cells2 flat_phases one_p solver2 1 src2 (new_sim 1)) by (apply (reachable_sane cells2 flat_phases one_p solver2 1 src2 []); lia).
    unfold abs_overlap_value. rewrite (@value_eq cells2 flat_phases one_p solver2 1 src2 true bg2 sel2 2 R (fun e => abs_eval (overlap_eval cells2 probe e)) (new_sim 1) [1; 1] Hs eq_refl).
    rewrite eps2, run2 by lra. cbn [bind]. f_equal. unfold abs_eval, cabs, overlap_eval. change (vlen cells2) with 6%nat. unfold E2. cbn. f_equal. field. }
  split; [exact sim_ok2|]. split; [exact He|]. split; [exact Hr|]. split; [exact Hv|].
  refine (@overlap_gradient_exact cells2 flat_phases one_p solver2 1 src2 true bg2 sel2 2 probe 1 [] [] [1; 1] _ 1 sim_ok2 eq_refl eq_refl (le_n 1) ltac:(discriminate) He Hr _).
  cbn [do_calls fold_left]. rewrite Hv. cbn [real]. apply Rgt_not_eq. apply sqrt_lt_R0. lra.
Qed.
(** the squared distance from a reference permittivity *)
Theorem diff_gradient_exact g cplx bg S n ref z gv : length ref = vlen g -> length z = n ->
  exists gr, diff_gradient g cplx bg S n ref z gv = Ok gr /\
    is_gradient (fun w => gv * real (diff_value g cplx bg S n ref w)) z gr.
Proof. intros Hr Hz. exact (@diff_graph g ref cplx bg S n Hr ref z gv Hr Hz). Qed.

Example diff_case : diff_value cells2 true bg2 sel2 2 [c1; c1; c0; c0; c1; c1] [1; 2] = Ok 5.
Proof. unfold diff_value. rewrite eps_eval_ok by reflexivity. rewrite eps2. cbn [bind dat]. f_equal. unfold diff_eval. cbn [combine map Obj_Model.rsum fold_right fst snd].
  assert (H : forall x : C, cabs x ^ 2 = fst x * fst x + snd x * snd x) by (intros x; unfold cabs; rewrite <- Rsqr_pow2; apply Rsqr_sqrt; nra).
  rewrite !H. cbn. ring. Qed.

(** ** C87 *)
(** parametrization -> permittivity -> simulation -> power through a plane: the vector returned is
    half the gradient. *)
Theorem power_gradient_is_half g ph p inner omega src cplx bg S n gd plane pol cache_size l l' z eps gv :
  sim_ok g p inner omega -> length src = vlen g -> (1 <= cache_size)%nat ->
  (cplx = false -> forall k i, (k < vlen g)%nat -> (i < n)%nat -> snd (S k i) = 0) ->
  vlen gd = vlen g -> real_cells gd ->
  eps_eval g cplx bg S n z = Ok eps -> no_resonance g ph omega (dat eps) ->
  let s := do_calls g ph p inner omega src (new_sim cache_size) l in
  let s' := do_calls g ph p inner omega src (new_sim cache_size) l' in
  exists gr, snd (power_gradient g ph p inner omega src cplx bg S n gd plane pol s z gv) = Ok gr /\
    is_gradient (fun w => gv * real (snd (power_value g ph p inner omega src cplx bg S n gd plane pol s' w))) z (map (Rmult 2) gr).
Proof.
  intros OK Hsrc Hn HS Hgd Hrc He Hr s s'. destruct (eps_len _ _ _ _ _ _ _ He) as [Hz Hd]. rewrite Hd in Hr.
  destruct (@power_graph g ph p inner omega src cplx bg S n OK Hsrc HS gd Hgd Hrc plane pol s z gv (reachable_sane g ph p inner omega src l Hn) Hz Hr) as (gr & H1 & H2).
  exists gr. split; [exact H1|]. apply H2. now apply reachable_sane.
Qed.
Theorem power_gradient_refuted : exists g ph p inner omega src cplx bg S n gd plane pol z gr,
  sim_ok g p inner omega /\ length src = vlen g /\ (forall k i, snd (S k i) = 0) /\ real_cells gd /\ vlen gd = vlen g /\ length z = n /\
  no_resonance g ph omega (dat (match eps_eval g cplx bg S n z with Ok e => e | Err _ => mkarr false [] end)) /\
  snd (power_gradient g ph p inner omega src cplx bg S n gd plane pol (new_sim 1) z 1) = Ok gr /\
  ~ is_gradient (fun w => real (snd (power_value g ph p inner omega src cplx bg S n gd plane pol (new_sim 1) w))) z gr.
Proof. exact power_refuted_pf. Qed.
(** the case of the counterexample, where the power is 1/6 *)
Example power_case :
  snd (power_value cells2 flat_phases one_p solver2 1 src2 true bg2 sel2 2 cells2 plane2 1 (new_sim 1) [1; 1]) = Ok (1 / 6) /\
  exists gr, snd (power_gradient cells2 flat_phases one_p solver2 1 src2 true bg2 sel2 2 cells2 plane2 1 (new_sim 1) [1; 1] 1) = Ok gr /\
    is_gradient (fun w => 1 * real (snd (power_value cells2 flat_phases one_p solver2 1 src2 true bg2 sel2 2 cells2 plane2 1 (new_sim 1) w))) [1; 1] (map (Rmult 2) gr).
Proof.
  assert (He : eps_eval cells2 true bg2 sel2 2 [1; 1] = Ok (mkarr true [c1; c1; c1; c1; c1; c1])) by (rewrite eps_eval_ok by reflexivity; now rewrite eps2).
  assert (Hr : no_resonance cells2 flat_phases 1 [c1; c1; c1; c1; c1; c1]) by (apply no_res_xy; lra).
  split.
  - assert (Hs : sane cells2 flat_phases one_p solver2 1 src2 (new_sim 1)) by (apply (reachable_sane cells2 flat_phases one_p solver2 1 src2 []); lia).
    unfold power_value. rewrite (@value_eq cells2 flat_phases one_p solver2 1 src2 true bg2 sel2 2 R (power_eval 1 cells2 plane2 1) (new_sim 1) [1; 1] Hs eq_refl).
    rewrite eps2, run2 by lra. cbn [bind]. rewrite power2 by lra. f_equal. field.
  - refine (@power_gradient_is_half cells2 flat_phases one_p solver2 1 src2 true bg2 sel2 2 cells2 plane2 1 1 [] [] [1; 1] _ 1 sim_ok2 eq_refl (le_n 1) ltac:(discriminate) eq_refl _ He Hr).
    intros a i _ _. split; cbn; apply c_eq; cbn; ring.
Qed.

(** ** C88 *)
(** The outputs of the node are those of the current structure, except that sources and overlaps
    keep the modes of the first structure ever evaluated. *)
Theorem goos_simulation_history g p inner omega sources outputs l eps :
  fields_of_size (vlen g) sources outputs -> Forall (cplx_eps (vlen g)) l -> cplx_eps (vlen g) eps ->
  let first := dat (hd eps l) in
  exists E, run g flat_phases p inner omega false (current (vlen g) sources first (dat eps)) (dat eps) = Ok E /\
    snd (node_eval g p inner omega false sources outputs (node_evals g p inner omega false sources outputs (new_node sources outputs) l) eps)
      = Ok (map (out_value first (dat eps) E) outputs).
Proof. intros H. exact (@history_pf g p inner omega sources outputs H l eps). Qed.
Theorem goos_simulation_history_refuted : exists g p inner omega sources outputs l eps, sim_ok g p inner omega /\ fields_of_size (vlen g) sources outputs /\
  Forall (cplx_eps (vlen g)) (eps :: l) /\ Forall (fun e => no_resonance g flat_phases omega (dat e)) (eps :: l) /\
  snd (node_eval g p inner omega false sources outputs (node_evals g p inner omega false sources outputs (new_node sources outputs) l) eps) <>
  snd (node_eval g p inner omega false sources outputs (new_node sources outputs) eps).
Proof. exact goos_memory_pf. Qed.
(** The gradient at the structure evaluated last: complex derivative of any linear combination of the
    overlaps, along any curve that leaves the beams of the sources unchanged. *)
Theorem goos_simulation_gradient g p inner omega sources outputs e0 l gs :
  sim_ok g p inner omega -> fields_of_size (vlen g) sources outputs -> Forall (cplx_eps (vlen g)) (e0 :: l) ->
  let eps := last l e0 in
  no_resonance g flat_phases omega (dat eps) -> overlap_weights outputs gs ->
  let s := node_evals g p inner omega false sources outputs (new_node sources outputs) (e0 :: l) in
  exists grad, node_grad g p inner omega false outputs s eps gs = Ok grad /\ length grad = vlen g /\
    forall u d t0, cmoves (vlen g) u t0 d -> u t0 = dat eps -> (forall f, In (SFresh f) sources -> near t0 (fun t => f (u t) = f (u t0))) ->
      cderive (fun t => weighted gs (values (snd (node_eval g p inner omega false sources outputs s (mkarr true (u t)))))) t0 (cdot grad d).
Proof.
  intros OK HS Hl eps Hr Hw s. exact (@gradient_pf g p inner omega sources outputs HS OK (dat e0) s eps gs (@history_visited g p inner omega sources outputs HS e0 l Hl) Hr Hw).
Qed.
(** An overlap that does not enter the objective makes the gradient raise; so does an objective of the
    fields or of the permittivity. *)
Theorem goos_simulation_gradient_errors g p inner omega sources outputs e0 l l1 o l2 gs1 gv gs2 e :
  fields_of_size (vlen g) sources outputs -> Forall (cplx_eps (vlen g)) (e0 :: l) -> outputs = l1 ++ o :: l2 -> overlap_weights l1 gs1 ->
  (match o, gv with OOverlap _, None => e = AttributeError | OOverlap _, Some _ => False | _, Some _ => e = TypeError | _, None => False end) ->
  node_grad g p inner omega false outputs (node_evals g p inner omega false sources outputs (new_node sources outputs) (e0 :: l)) (last l e0) (gs1 ++ gv :: gs2) = Err e.
Proof. intros HS. exact (@bad_grad_pf g p inner omega sources outputs HS e0 l l1 o l2 gs1 gv gs2 e). Qed.
(** Reflection symmetry is refused by the direct solver, a real permittivity by the sources. *)
Theorem goos_simulation_symmetry g p inner omega sources outputs l eps :
  Forall (fun e => cpx e = true) l -> cpx eps = true ->
  snd (node_eval g p inner omega true sources outputs (node_evals g p inner omega true sources outputs (new_node sources outputs) l) eps) = Err NotImplementedError.
Proof. exact (@symmetry_pf g p inner omega sources outputs l eps). Qed.
Theorem goos_simulation_real g p inner omega sources outputs sym l eps :
  sources <> [] -> Forall (fun e => cpx e = false) l -> cpx eps = false ->
  snd (node_eval g p inner omega sym sources outputs (node_evals g p inner omega sym sources outputs (new_node sources outputs) l) eps) = Err TypeError.
Proof. exact (@real_pf g p inner omega sources outputs sym l eps). Qed.
(** one source keeping its mode, one overlap and the field; two structures evaluated, the objective is
    the overlap *)
Example goos_case : let outs := [OOverlap (fun _ => probe); OField] in
  fields_of_size (vlen cells2) [SKept whole] outs /\ Forall (cplx_eps (vlen cells2)) [eps_b; eps_a] /\
  no_resonance cells2 flat_phases 1 (dat eps_a) /\ overlap_weights outs [Some [c1]; None] /\
  (exists vals, snd (node_eval cells2 one_p solver2 1 false [SKept whole] outs (node_evals cells2 one_p solver2 1 false [SKept whole] outs (new_node [SKept whole] outs) [eps_b]) eps_a) = Ok vals /\ length vals = 2%nat) /\
  (exists grad, node_grad cells2 one_p solver2 1 false outs (node_evals cells2 one_p solver2 1 false [SKept whole] outs (new_node [SKept whole] outs) [eps_b; eps_a]) eps_a [Some [c1]; None] = Ok grad /\ length grad = 6%nat) /\
  node_grad cells2 one_p solver2 1 false outs (node_evals cells2 one_p solver2 1 false [SKept whole] outs (new_node [SKept whole] outs) [eps_b; eps_a]) eps_a [None; None] = Err AttributeError /\
  node_grad cells2 one_p solver2 1 false outs (node_evals cells2 one_p solver2 1 false [SKept whole] outs (new_node [SKept whole] outs) [eps_b; eps_a]) eps_a [Some [c1]; Some probe] = Err TypeError.
Proof.
  intros outs.
  assert (HS : fields_of_size (vlen cells2) [SKept whole] outs).
  { split; [intros f eps [[H|[]]|[H|[]]]; [|discriminate]; injection H as <-; apply (@vbuild_length CC)|intros f eps [H|[H|[]]]; [injection H as <-; reflexivity|discriminate]]. }
  assert (Hc : Forall (cplx_eps (vlen cells2)) [eps_b; eps_a]) by (repeat constructor).
  assert (Hr : no_resonance cells2 flat_phases 1 (dat eps_a)) by (apply no_res_xy; lra).
  assert (Hw : overlap_weights outs [Some [c1]; None]) by (repeat constructor; eauto).
  split; [exact HS|]. split; [exact Hc|]. split; [exact Hr|]. split; [exact Hw|]. split; [|split; [|split]].
  - destruct (@goos_simulation_history cells2 one_p solver2 1 [SKept whole] outs [eps_b] eps_a HS) as (E & _ & H); [repeat constructor|split; reflexivity|].
    eexists. split; [exact H|reflexivity].
  - destruct (@goos_simulation_gradient cells2 one_p solver2 1 [SKept whole] outs eps_b [eps_a] [Some [c1]; None] sim_ok2 HS Hc Hr Hw) as (grad & H1 & H2 & _). eauto.
  - exact (@goos_simulation_gradient_errors cells2 one_p solver2 1 [SKept whole] outs eps_b [eps_a] [] (OOverlap (fun _ => probe)) [OField] [] None [None] AttributeError HS Hc eq_refl ltac:(constructor) eq_refl).
  - refine (@goos_simulation_gradient_errors cells2 one_p solver2 1 [SKept whole] outs eps_b [eps_a] [OOverlap (fun _ => probe)] OField [] [Some [c1]] (Some probe) [] TypeError HS Hc eq_refl _ eq_refl). repeat constructor. eauto.
Qed.

Print Assumptions simulation_history_free.
Print Assumptions simulation_backprop.
Print Assumptions overlap_gradient_exact.
Print Assumptions diff_gradient_exact.
Print Assumptions power_gradient_is_half.
Print Assumptions power_gradient_refuted.
Print Assumptions goos_simulation_history.
Print Assumptions goos_simulation_history_refuted.
Print Assumptions goos_simulation_gradient.
Print Assumptions goos_simulation_gradient_errors.
Print Assumptions goos_simulation_symmetry.
Print Assumptions goos_simulation_real.
