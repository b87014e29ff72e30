(** Errors of the simulation nodes and the counterexamples. *)
From Coq Require Import Reals Lra Psatz Ring Field.
From Verif Require Obj_Model.
From Verif Require Import Obj_Spec Obj_Proofs.
From Verif Require Import Base CField CField_Proofs LinAlg Maxwell_Model Maxwell_Spec Maxwell_Proofs Maxwell_Proofs2 Maxwell_Proofs3 Maxwell_Proofs4 SimCache_Model SimCache_Spec SimCache_Proofs.
From Verif Require Import Shape_Model GMath_Model GMath_Spec GMath_Proofs GMath_Proofs2 GMath_Proofs3 GMath_Proofs4 GMath_Proofs5 CplxField Adj_Model Adj_Spec Adj_Proofs Adj_Proofs2 Adj_Proofs3 Adj_Proofs4 Adj_Proofs5 Adj_Proofs6 Adj_Proofs7.
Set Implicit Arguments.
Local Open Scope R_scope.
Local Notation at_ := (at_ (K:=CC)).

Section Errors.
Variable g : grid CC.
Variable p : nat -> C.
Variable inner : mat CC -> list C -> list C.
Variable omega : R.
Variable sources : list source.
Variable outputs : list output.
Local Notation N := (vlen g).

Lemma before_cplx eps : cpx eps = true -> forall l ms J, exists ms' J', before_sources eps l ms J = (ms', Ok J').
Proof.
  intros Hc. induction l as [|s l IH]; intros ms J; [exists ms, J; reflexivity|]. destruct ms as [|m ms]; [exists [], J; reflexivity|]. cbn [before_sources]. rewrite Hc.
  destruct s as [f|f].
  - destruct (IH ms (vadd J match m with Some v => v | None => f (dat eps) end)) as (ms' & J' & E). rewrite E. eauto.
  - destruct (IH ms (vadd J (f (dat eps)))) as (ms' & J' & E). rewrite E. eauto.
Qed.
Lemma symmetry_eval s eps : n_last s = None -> cpx eps = true ->
  n_last (fst (node_eval g p inner omega true sources outputs s eps)) = None /\ snd (node_eval g p inner omega true sources outputs s eps) = Err NotImplementedError.
Proof.
  intros Hs Hc. unfold node_eval. rewrite Hs. destruct (before_cplx eps Hc sources (n_modes s) (repeat c0 (size eps))) as (ms & J & E). rewrite E. cbn. auto.
Qed.
Lemma symmetry_pf l eps : Forall (fun e => cpx e = true) l -> cpx eps = true ->
  snd (node_eval g p inner omega true sources outputs (node_evals g p inner omega true sources outputs (new_node sources outputs) l) eps) = Err NotImplementedError.
Proof.
  intros Hl Hc. apply symmetry_eval; [|exact Hc].
  assert (H : forall s, n_last s = None -> n_last (node_evals g p inner omega true sources outputs s l) = None).
  { induction l as [|x l IH]; intros s Hs; [exact Hs|]. inversion Hl; subst. cbn. apply IH; auto. now apply symmetry_eval. }
  apply H. reflexivity.
Qed.
Variable sym : bool.
Lemma before_real eps : cpx eps = false -> forall l ms J, l <> [] -> length ms = length l ->
  exists ms', before_sources eps l ms J = (ms', Err TypeError) /\ length ms' = length l.
Proof.
  intros Hc [|s l] [|m ms] J Hn Hl; try discriminate; [congruence|]. cbn [before_sources]. rewrite Hc. destruct s; eexists; (split; [reflexivity|]); cbn in *; congruence.
Qed.
Lemma real_eval s eps : n_last s = None -> length (n_modes s) = length sources -> sources <> [] -> cpx eps = false ->
  let s' := fst (node_eval g p inner omega sym sources outputs s eps) in
  n_last s' = None /\ length (n_modes s') = length sources /\ snd (node_eval g p inner omega sym sources outputs s eps) = Err TypeError.
Proof.
  intros Hs Hm Hn Hc. unfold node_eval. rewrite Hs. destruct (@before_real eps Hc sources (n_modes s) (repeat c0 (size eps)) Hn Hm) as (ms & E & Hl). rewrite E. cbn. auto.
Qed.
Lemma real_pf l eps : sources <> [] -> Forall (fun e => cpx e = false) l -> cpx eps = false ->
  snd (node_eval g p inner omega sym sources outputs (node_evals g p inner omega sym sources outputs (new_node sources outputs) l) eps) = Err TypeError.
Proof.
  intros Hn Hl Hc.
  assert (H : forall s, n_last s = None -> length (n_modes s) = length sources ->
     n_last (node_evals g p inner omega sym sources outputs s l) = None /\ length (n_modes (node_evals g p inner omega sym sources outputs s l)) = length sources).
  { induction l as [|x l IH]; intros s Hs Hm; [now split|]. inversion Hl; subst. cbn [node_evals fold_left]. destruct (@real_eval s x Hs Hm Hn) as (A & B & _); [assumption|]. apply IH; auto. }
  destruct (H (new_node sources outputs)) as [A B]; [reflexivity|cbn; now rewrite map_length|]. now apply real_eval.
Qed.
(** the gradient *)
Hypothesis Hsize : fields_of_size N sources outputs.
Lemma before_adjoint_bad first eps e : cpx eps = true -> forall l1 gs1, overlap_weights l1 gs1 ->
  forall o gv l2 gs2, (match o, gv with OOverlap _, None => e = AttributeError | OOverlap _, Some _ => False | _, Some _ => e = TypeError | _, None => False end) ->
  forall J, before_adjoint eps (combine (l1 ++ o :: l2) (map (kept_out first) (l1 ++ o :: l2))) (gs1 ++ gv :: gs2) J = Err e.
Proof.
  intros Hc l1 gs1 H. induction H as [|o1 g1 l1 gs1 Ho H IH]; intros o gv l2 gs2 Hb J.
  - cbn [app map combine before_adjoint]. destruct o, gv; try contradiction; subst; reflexivity.
  - destruct o1 as [| |f].
    + subst g1. cbn [app map combine before_adjoint kept_out]. now apply IH.
    + subst g1. cbn [app map combine before_adjoint kept_out]. now apply IH.
    + destruct Ho as [x ->]. cbn [app map combine before_adjoint kept_out]. rewrite Hc. now apply IH.
Qed.
Lemma bad_grad_pf e0 l l1 o l2 gs1 gv gs2 e : Forall (cplx_eps N) (e0 :: l) -> outputs = l1 ++ o :: l2 -> overlap_weights l1 gs1 ->
  (match o, gv with OOverlap _, None => e = AttributeError | OOverlap _, Some _ => False | _, Some _ => e = TypeError | _, None => False end) ->
  node_grad g p inner omega false outputs (node_evals g p inner omega false sources outputs (new_node sources outputs) (e0 :: l)) (last l e0) (gs1 ++ gv :: gs2) = Err e.
Proof.
  intros Hl Ho Hg Hb. destruct (@history_visited g p inner omega sources outputs Hsize e0 l Hl) as (_ & Hov & E & HL & (Hc & _) & _).
  unfold node_grad. rewrite Hov. pose proof (@before_adjoint_bad (dat e0) (last l e0) e Hc l1 gs1 Hg o gv l2 gs2 Hb (repeat c0 (size (last l e0)))) as HB.
  rewrite <- Ho in HB. now rewrite HB.
Qed.
End Errors.

(** ** the power gradient is not the gradient *)
Lemma power_refuted_pf : exists g ph p inner omega src cplx bg S n gd plane pol z gr,
  sim_ok g p inner omega /\ length src = vlen g /\ (forall k i, snd (S k i) = 0) /\ real_cells gd /\ vlen gd = vlen g /\ length z = n /\
  no_resonance g ph omega (dat (match eps_eval g cplx bg S n z with Ok e => e | Err _ => mkarr false [] end)) /\
  snd (power_gradient g ph p inner omega src cplx bg S n gd plane pol (new_sim 1) z 1) = Ok gr /\
  ~ is_gradient (fun w => real (snd (power_value g ph p inner omega src cplx bg S n gd plane pol (new_sim 1) w))) z gr.
Proof.
  exists cells2, flat_phases, one_p, solver2, 1, src2, true, bg2, sel2, 2%nat, cells2, plane2, 1, [1; 1].
  assert (Hrc : real_cells cells2) by (intros a i _ _; split; cbn; apply c_eq; cbn; ring).
  assert (Hs : sane cells2 flat_phases one_p solver2 1 src2 (new_sim 1)) by (apply new_sane; lia).
  assert (Hr : no_resonance cells2 flat_phases 1 (eps_of cells2 bg2 sel2 2 [1; 1])) by (rewrite eps2; apply no_res_xy; lra).
  destruct (@power_graph cells2 flat_phases one_p solver2 1 src2 true bg2 sel2 2 sim_ok2 eq_refl ltac:(discriminate) cells2 eq_refl Hrc plane2 1 (new_sim 1) [1; 1] 1 Hs eq_refl Hr) as (gr & Hgr & HG).
  exists gr. split; [exact sim_ok2|]. split; [reflexivity|]. split; [exact sel2_real|]. split; [exact Hrc|]. split; [reflexivity|]. split; [reflexivity|].
  split; [rewrite eps_eval_ok by reflexivity; exact Hr|]. split; [exact Hgr|].
  intros [Hl Hbad]. specialize (HG (new_sim 1) Hs). destruct HG as [_ HG].
  set (P := fun t : R => [1 + t; 1]).
  assert (HP : Obj_Spec.moves P 0 [1; 1] [1; 0]).
  { split; [unfold P; now rewrite Rplus_0_r|]. split; [reflexivity|]. split; [reflexivity|]. intros j Hj. destruct j as [|[|j]]; [..|cbn in Hj; lia]; unfold P; cbn [nth].
    - eapply derive_eq; [|apply (derivable_pt_lim_plus (fun _ => 1) (fun t => t) 0 0 1); [apply derivable_pt_lim_const|apply derivable_pt_lim_id]]. ring.
    - apply derivable_pt_lim_const. }
  specialize (HG P 0 [1; 0] HP). specialize (Hbad P 0 [1; 0] HP). cbv beta in HG, Hbad.
  assert (HV : near 0 (fun t => real (snd (power_value cells2 flat_phases one_p solver2 1 src2 true bg2 sel2 2 cells2 plane2 1 (new_sim 1) (P t))) = - (1 / 2) / ((1 - t) * 1 - 4))).
  { exists 1. split; [lra|]. intros t Ht.
    assert (Hd : (2 - (1 + t)) * (2 - 1) - 4 <> 0) by (apply Rabs_def2 in Ht; lra).
    unfold power_value. rewrite (@value_eq cells2 flat_phases one_p solver2 1 src2 true bg2 sel2 2 R (power_eval 1 cells2 plane2 1) (new_sim 1) (P t) Hs eq_refl).
    unfold P. rewrite eps2, run2 by exact Hd. cbn [bind real]. rewrite power2 by exact Hd. replace ((2 - (1 + t)) * (2 - 1) - 4) with ((1 - t) * 1 - 4) by ring. reflexivity. }
  assert (HD : derivable_pt_lim (fun t => - (1 / 2) / ((1 - t) * 1 - 4)) 0 (- (1 / 18))).
  { eapply derive_eq; [|apply (derivable_pt_lim_div (fun _ => - (1 / 2)) (fun t => (1 - t) * 1 - 4) 0 0 (-1)); [apply derivable_pt_lim_const| |lra]].
    - unfold Rsqr. field.
    - apply (@derive_ext (fun t => -3 + -1 * t)); [intros t; ring|]. eapply derive_eq; [|apply (derivable_pt_lim_plus (fun _ => -3) (fun t => -1 * t) 0 0 (-1)); [apply derivable_pt_lim_const|]]; [ring|].
      eapply derive_eq; [|apply derive_scale; apply derivable_pt_lim_id]. ring. }
  assert (HD' : derivable_pt_lim (fun t => real (snd (power_value cells2 flat_phases one_p solver2 1 src2 true bg2 sel2 2 cells2 plane2 1 (new_sim 1) (P t)))) 0 (- (1 / 18))).
  { eapply derive_ext_near; [|exact HD]. eapply near_impl; [|exact HV]. cbv beta. intros t Ht. now rewrite Ht. }
  pose proof (uniqueness_limite _ _ _ _ Hbad HD') as U1.
  assert (HG' : derivable_pt_lim (fun t => real (snd (power_value cells2 flat_phases one_p solver2 1 src2 true bg2 sel2 2 cells2 plane2 1 (new_sim 1) (P t)))) 0 (dotr (map (Rmult 2) gr) [1; 0])).
  { apply (@derive_ext _ _ 0 _ (fun t => Rmult_1_l _) HG). }
  pose proof (uniqueness_limite _ _ _ _ HG' HD') as U2.
  destruct gr as [|a [|b [|]]]; try discriminate. unfold dotr in U1, U2. cbn in U1, U2. lra.
Qed.

(** ** goos: the value depends on the structures seen before *)
Definition whole (eps : list C) : list C := vbuild (K:=CC) 6 (at_ eps).
Definition eps_a : arr := mkarr true [c1; c1; c1; c1; c1; c1].
Definition eps_b : arr := mkarr true [creal 2; c1; c1; c1; c1; c1].
Lemma goos_memory_pf : exists g p inner omega sources outputs l eps, sim_ok g p inner omega /\ fields_of_size (vlen g) sources outputs /\
  Forall (cplx_eps (vlen g)) (eps :: l) /\ Forall (fun e => no_resonance g flat_phases omega (dat e)) (eps :: l) /\
  snd (node_eval g p inner omega false sources outputs (node_evals g p inner omega false sources outputs (new_node sources outputs) l) eps) <>
  snd (node_eval g p inner omega false sources outputs (new_node sources outputs) eps).
Proof.
  exists cells2, one_p, solver2, 1, [SKept whole], [OField], [eps_b], eps_a.
  assert (HS : fields_of_size (vlen cells2) [SKept whole] [OField]).
  { split; [intros f eps [[H|[]]|[H|[]]]; [|discriminate]; injection H as <-; apply (@vbuild_length CC)|intros f eps [H|[]]; discriminate]. }
  assert (Hc : forall e, In e [eps_a; eps_b] -> cplx_eps (vlen cells2) e) by (intros e [<-|[<-|[]]]; split; reflexivity).
  assert (Hr : forall e, In e [eps_a; eps_b] -> no_resonance cells2 flat_phases 1 (dat e)).
  { assert (Two : creal 2 <> c0) by (intros E; apply (f_equal fst) in E; cbn in E; lra).
    intros e [<-|[<-|[]]]; cbn [dat eps_a eps_b]; apply no_resonance2; try exact c1_nz; try exact Two; intros E; apply (f_equal fst) in E; cbn in E; lra. }
  split; [exact sim_ok2|]. split; [exact HS|]. split; [apply Forall_forall; exact Hc|]. split; [apply Forall_forall; exact Hr|].
  destruct (@history_pf cells2 one_p solver2 1 [SKept whole] [OField] HS [eps_b] eps_a) as (E1 & HE1 & HV1); [constructor; [apply Hc; cbn; auto|constructor]|apply Hc; cbn; auto|].
  destruct (@history_pf cells2 one_p solver2 1 [SKept whole] [OField] HS [] eps_a) as (E2' & HE2 & HV2); [constructor|apply Hc; cbn; auto|].
  cbn [node_evals fold_left] in HV2. rewrite HV1, HV2. intros E. cbn [map out_value] in E. injection E as <-.
  cbn [hd] in HE1, HE2.
  destruct (@run_forward cells2 flat_phases one_p solver2 1 sim_ok2 (dat eps_a) (current (vlen cells2) [SKept whole] (dat eps_b) (dat eps_a)) (Hr eps_a ltac:(cbn; auto))) as (x1 & Hx1 & _ & Hm1); [reflexivity|].
  destruct (@run_forward cells2 flat_phases one_p solver2 1 sim_ok2 (dat eps_a) (current (vlen cells2) [SKept whole] (dat eps_a) (dat eps_a)) (Hr eps_a ltac:(cbn; auto))) as (x2 & Hx2 & _ & Hm2); [reflexivity|].
  rewrite HE1 in Hx1. rewrite HE2 in Hx2. injection Hx1 as <-. injection Hx2 as <-. rewrite Hm1 in Hm2.
  apply (f_equal (fun v => at_ v 0)) in Hm2. rewrite !vscale_c in Hm2. apply (f_equal snd) in Hm2. cbn in Hm2. lra.
Qed.
