(** Curves of values through a graph. *)
From Coq Require Import Reals ZArith Relations Lra Psatz Permutation.
From Verif Require Obj_Model.
From Verif Require Import Obj_Spec Obj_Proofs.
From Verif Require Import Base GraphExec_Model GraphExec_Spec GraphExec_Proofs GraphExec_Proofs2 GraphExec_Proofs3 GradHeap_Model.
From Verif Require Import Shape_Model GMath_Model GMath_Spec GMath_Proofs GMath_Proofs2 GMath_Proofs6 GMath_Proofs7.
Set Implicit Arguments.
Local Open Scope R_scope.

(** *** gradients are stored for nodes of the graph only *)
Section Known.
Variables V A : Type.
Variable g : graph.
Variable heavy : nat -> bool.
Variable ga : A -> A -> A.
Variable hpb : nat -> list V -> nat -> mem A -> res (list nat * mem A).
Variable vals : dict V.
Hypothesis Hclosed : forall n c, In n (keys g) -> In c (adj g n) -> In c (keys g).
Definition known (hg : dict nat) : Prop := forall c, hg c <> None -> In c (keys g).
Lemma known_add cs : forall ls h hg h' hg', hadd_grads ga cs ls h hg = (h', hg') -> incl cs (keys g) -> known hg -> known hg'.
Proof.
  induction cs as [|c cs IH]; intros ls h hg h' hg' He Hi Hk; destruct ls as [|l ls]; cbn [hadd_grads] in He; try (inversion He; now subst).
  assert (Hc : In c (keys g)) by (apply Hi; now left). assert (Hi' : incl cs (keys g)) by (intros x Hx; apply Hi; now right).
  destruct (hg c) as [lc|] eqn:E; (eapply IH; [exact He|exact Hi'|]); [exact Hk|].
  intros x Hx. unfold dset in Hx. destruct (Nat.eqb x c) eqn:Ex; [apply Nat.eqb_eq in Ex; now subst|now apply Hk].
Qed.
Lemma known_light m hg n m' hg' : In n (keys g) -> hgrad_light g ga hpb vals m hg n = Ok (m', hg') -> known hg -> known hg'.
Proof.
  intros Hn He Hk. unfold hgrad_light in He. destruct (get_inputs g vals n) as [ivs|]; cbn [bind] in He; [|discriminate].
  destruct (dget hg n) as [l|]; cbn [bind] in He; [|discriminate]. destruct (hpb n ivs l m) as [(ls, (h', nx))|]; cbn [bind] in He; [|discriminate].
  destruct (hadd_grads ga (adj g n) ls h' hg) as (h2, hg2) eqn:E. injection He as <- <-. eapply known_add; [exact E| |exact Hk]. intros c. now apply Hclosed.
Qed.
Lemma known_block blk : forall lss h hg h' hg', incl blk (keys g) -> hupdate_block g ga blk lss h hg = (h', hg') -> known hg -> known hg'.
Proof.
  induction blk as [|n blk IH]; intros lss h hg h' hg' Hi He Hk; destruct lss as [|ls lss]; cbn [hupdate_block] in He; try (inversion He; now subst).
  destruct (hadd_grads ga (adj g n) ls h hg) as (h2, hg2) eqn:E. eapply IH; [|exact He|]; [intros x Hx; apply Hi; now right|].
  eapply known_add; [exact E| |exact Hk]. intros c. apply Hclosed. apply Hi. now left.
Qed.
Lemma known_gblock m hg blk m' hg' : incl blk (keys g) -> hgrad_block g ga hpb vals m hg blk = Ok (m', hg') -> known hg -> known hg'.
Proof.
  intros Hi He Hk. unfold hgrad_block in He. destruct (mapM _ blk) as [args|]; cbn [bind] in He; [|discriminate].
  destruct (hpb_all hpb args m) as [(lss, (h', nx))|]; cbn [bind] in He; [|discriminate].
  destruct (hupdate_block g ga blk lss h' hg) as (h2, hg2) eqn:E. injection He as <- <-. eapply known_block; eassumption.
Qed.
Lemma known_loop sched : forall blk m hg m' hg', incl (blk ++ sched) (keys g) -> hgrad_loop g heavy ga hpb vals sched blk m hg = Ok (m', hg') -> known hg -> known hg'.
Proof.
  induction sched as [|n sched IH]; intros blk m hg m' hg' Hi He Hk; cbn [hgrad_loop] in He.
  - rewrite app_nil_r in Hi. destruct blk; [injection He as <- <-; exact Hk|]. eapply known_gblock; eassumption.
  - assert (Hn : In n (keys g)) by (apply Hi, in_or_app; right; now left). assert (Hs : incl sched (keys g)) by (intros x Hx; apply Hi, in_or_app; right; now right).
    assert (Hb : incl blk (keys g)) by (intros x Hx; apply Hi, in_or_app; now left).
    assert (HL : forall m hg, known hg -> bind (hgrad_light g ga hpb vals m hg n) (fun '(m', hg') => hgrad_loop g heavy ga hpb vals sched [] m' hg') = Ok (m', hg') -> known hg').
    { intros m1 hg1 Hk1 H1. destruct (hgrad_light g ga hpb vals m1 hg1 n) as [(m2, hg2)|] eqn:E; cbn [bind] in H1; [|discriminate].
      eapply (IH []); [exact Hs|exact H1|]. eapply known_light; eassumption. }
    assert (HH : hgrad_loop g heavy ga hpb vals sched (blk ++ [n]) m hg = Ok (m', hg') -> known hg').
    { intros H1. eapply IH; [|exact H1|exact Hk]. rewrite <- app_assoc. exact Hi. }
    destruct blk as [|b blk].
    + destruct (heavy n); [apply HH; exact He|]. eapply HL; eassumption.
    + destruct (heavy n); [apply HH; exact He|]. destruct (hgrad_block g ga hpb vals m hg (b :: blk)) as [(m1, hg1)|] eqn:E; cbn [bind] in He; [|discriminate].
      eapply HL; [|exact He]. eapply known_gblock; eassumption.
Qed.
Lemma known_backward sched out seed m hg : incl sched (keys g) -> In out (keys g) -> hbackward g heavy ga hpb vals sched out seed = Ok (m, hg) -> known hg.
Proof.
  intros Hs Ho He. unfold hbackward in He. eapply known_loop; [|exact He|]; [exact Hs|]. intros c Hc. unfold dset, dempty in Hc.
  destruct (Nat.eqb c out) eqn:E; [apply Nat.eqb_eq in E; now subst|congruence].
Qed.
End Known.

(** *** values along curves *)
Lemma keval_nil k v : keval k [] = Ok v -> (exists a, k = KConst a /\ v = a) \/ (exists h fn gr, k = KExt h fn gr /\ fn [] = Ok v).
Proof.
  destruct k; cbn; intros H; try discriminate.
  - left. injection H as <-. eauto.
  - destruct ord; discriminate.
  - right. eauto 6.
Qed.
Lemma memb_spec n l : memb n l = true <-> In n l.
Proof.
  unfold memb. rewrite existsb_exists. split; [intros (x & Hx & E); apply Nat.eqb_eq in E; now subst|]. intros H. exists n. split; [exact H|apply Nat.eqb_refl].
Qed.

Section Values.
Variable kinds : nat -> kind.
Variable inputs : nat -> list nat.
Variable ov : dict arr.
Variable vars : list nat.
Variable out : nat.
Variable U : list nat.
Hypothesis HG : goos_graph kinds inputs ov vars out U.
Hypothesis HD : differentiable kinds inputs ov vars U.
Notation f := (fun n ivs => keval (kinds n) ivs).
Notation den W := (Den inputs f W).
Notation val := (value_of kinds inputs ov).

Lemma closed n c : In n U -> In c (inputs n) -> In c U.
Proof. intros Hn Hc. destruct (g_nodes HG) as (_ & H). apply H. apply reachable_step with n; [now apply H|exact Hc]. Qed.
Lemma over_leaf n a : ov n = Some a -> inputs n = [].
Proof. intros H. destruct (g_over HG n) as (x & E); [congruence|]. pose proof (g_leaf HG n) as Hl. now rewrite E in Hl. Qed.
(** the inputs of a node with a value have values *)
Lemma value_inputs n v : val n v -> exists ivs, Forall2 val (inputs n) ivs /\ (ov n = None -> keval (kinds n) ivs = Ok v).
Proof.
  intros H. destruct H as [n v E|n ivs v E HF Hf].
  - exists []. rewrite (over_leaf E). split; [constructor|congruence].
  - exists ivs. split; [exact HF|]. auto.
Qed.
Lemma all_values v : val out v -> forall n, In n U -> exists w, val n w.
Proof.
  intros Hv n Hn. apply (proj2 (g_nodes HG)) in Hn. destruct Hn as (o & [<-|[]] & Hr). apply clos_rt_rtn1 in Hr.
  induction Hr as [|y z Hyz Hr IH]; [eauto|]. destruct IH as (w & Hw). destruct (value_inputs Hw) as (ivs & HF & _). unfold depends in Hyz.
  clear - HF Hyz. induction HF as [|c x l l' Hx HF IH]; [destruct Hyz|]. destruct Hyz as [->|Hy]; eauto.
Qed.

Lemma leaf_value n v : val n v -> In n U -> inputs n = [] -> proper v.
Proof.
  intros Hv Hn Hl. destruct Hv as [n v E|n ivs v E HF Hf]; [exact (proj1 (g_proper HG) n v E)|]. rewrite Hl in HF. inversion HF; subst.
  destruct (keval_nil _ Hf) as [(a & Ek & ->)|(h & fn & gr & Ek & Ef)]; [exact (proj2 (g_proper HG) n a Hn Ek)|exact (g_ext HG n Hn Hl Ek Ef)].
Qed.

Variable W : R -> dict arr.
Variable t0 : R.
Variable dv : list (list C).
Hypothesis HW : varying ov vars W t0 dv.

Definition goes (n : nat) (v : arr) (w : R -> arr) (d : list C) : Prop :=
  near t0 (fun t => den (W t) n (w t)) /\ moves w t0 v d /\ (fixed inputs vars n = true -> forall t, w t = v).

Lemma var_goes x a : In x vars -> ov x = Some a -> exists u d, moves u t0 a d /\ (forall t, W t x = Some (u t)) /\ exists i, nth_error vars i = Some x /\ nth_error dv i = Some d.
Proof.
  intros Hx Ha. destruct HW as (HF & _). clear - Hx Ha HF. induction HF as [|y d l l' (a' & u & E1 & E2 & E3) HF IH]; [destruct Hx|].
  destruct Hx as [->|Hx].
  - rewrite Ha in E1. injection E1 as <-. exists u, d. split; [exact E3|]. split; [exact E2|]. exists 0%nat. auto.
  - destruct (IH Hx) as (u' & d' & H1 & H2 & i & H3). exists u', d'. split; [exact H1|]. split; [exact H2|]. exists (S i). exact H3.
Qed.
Lemma fixed_not_var n : fixed inputs vars n = true -> inputs n = [] /\ ~ In n vars.
Proof.
  unfold fixed. destruct (inputs n); [|discriminate]. intros H. apply negb_true_iff in H. split; [reflexivity|]. intros Hn. apply memb_spec in Hn. congruence.
Qed.

Lemma curves_of_inputs l ivs : Forall2 (fun c a => exists w d, goes c a w d) l ivs -> exists us ds,
  curves t0 (map (fixed inputs vars) l) ivs us ds /\ near t0 (fun t => Forall2 (den (W t)) l (map (fun u => u t) us)).
Proof.
  induction 1 as [|c a l ivs (w & d & H1 & H2 & H3) HF IH].
  - exists [], []. split; [constructor|]. apply near_all. intros t. constructor.
  - destruct IH as (us & ds & Hc & Hn). exists (w :: us), (d :: ds). split; [now constructor|].
    eapply near_impl; [|exact (near_and H1 Hn)]. cbv beta. intros t (Ha & Hb). cbn. now constructor.
Qed.
Lemma sizes_nonzero l ivs : incl l U -> Forall2 val l ivs -> Forall (fun a => size a <> 0%nat) ivs.
Proof.
  intros Hi HF. induction HF as [|c a l ivs Ha HF IH]; constructor; [exact (d_nonempty HD (Hi c (or_introl eq_refl)) Ha)|].
  apply IH. intros x Hx. apply Hi. now right.
Qed.
Lemma inner_kind n : inputs n <> [] -> match kinds n with KVar _ | KConst _ => False | _ => True end.
Proof. intros Hne. pose proof (g_leaf HG n) as Hl. destruct (kinds n); auto. Qed.

(** the curve of an inner node, given those of its inputs *)
Lemma inner_goes n v ivs us ds : In n U -> inputs n <> [] -> Forall2 val (inputs n) ivs -> val n v ->
  curves t0 (map (fixed inputs vars) (inputs n)) ivs us ds -> near t0 (fun t => Forall2 (den (W t)) (inputs n) (map (fun u => u t) us)) ->
  exists w e, goes n v w e /\ forall g, grad_for v g -> exists gs, kgrad (kinds n) ivs g = Ok gs /\
    Forall2 (fun fa g' => length g' = arrival (kinds n) v (snd fa) /\ (fst fa = false -> grad_for (snd fa) g')) (combine (map (fixed inputs vars) (inputs n)) ivs) gs /\
    total_rate (map cpx ivs) gs ds = rate (cpx v) g e.
Proof.
  intros Hn Hne HF Hv Hc Hnear.
  assert (Hov : ov n = None). { destruct (ov n) as [a|] eqn:E; [|reflexivity]. apply over_leaf in E. contradiction. }
  assert (Hf : keval (kinds n) ivs = Ok v).
  { destruct (value_inputs Hv) as (ivs' & HF' & Hk). rewrite (Den_det_list _ _ _ _ _ _ HF _ HF'). now apply Hk. }
  assert (Hine : ivs <> []) by (intros ->; inversion HF; congruence).
  assert (Hsz : Forall (fun a => size a <> 0%nat) ivs) by (eapply sizes_nonzero; [|exact HF]; intros c; now apply closed).
  destruct (@node_ok (kinds n) (map (fixed inputs vars) (inputs n)) ivs v us ds t0 (d_suits HD Hn HF Hv) Hine Hsz (inner_kind Hne) Hf Hc) as (w & e & H1 & H2 & H3).
  exists w, e. split; [|exact H3]. split; [|split; [exact H2|]].
  - eapply near_impl; [|exact (near_and H1 Hnear)]. cbv beta. intros t (E & HFt). apply Den_eval with (map (fun u => u t) us); [|exact HFt|exact E].
    rewrite (proj2 HW); [exact Hov|]. intros Hx. apply (proj2 (g_vars HG)) in Hx. contradiction.
  - unfold fixed. destruct (inputs n); [contradiction|discriminate].
Qed.
Lemma leaf_goes n v : In n U -> inputs n = [] -> val n v -> exists w d, goes n v w d.
Proof.
  intros Hn Hl Hv. assert (Hp := leaf_value Hv Hn Hl). destruct (in_dec Nat.eq_dec n vars) as [Hx|Hx].
  - destruct (ov n) as [a|] eqn:E; [|apply (proj2 (g_vars HG)) in Hx; contradiction].
    assert (v = a) as ->. { inversion Hv; congruence. }
    destruct (var_goes Hx E) as (u & d & H1 & H2 & _). exists u, d. split; [|split; [exact H1|]].
    + apply near_all. intros t. now apply Den_override.
    + intros Hf. apply fixed_not_var in Hf. tauto.
  - exists (fun _ => v), (zeros (size v)). split; [|split; [now apply moves_const|auto]].
    apply near_all. intros t. destruct Hv as [n v E|n ivs v E HF Hf].
    + apply Den_override. now rewrite (proj2 HW).
    + apply Den_eval with []; [now rewrite (proj2 HW)|rewrite Hl; constructor|]. rewrite Hl in HF. now inversion HF; subst.
Qed.
Lemma node_goes n v : val n v -> In n U -> exists w d, goes n v w d.
Proof.
  intros Hv. pattern n, v. revert n v Hv. apply Den_ind2.
  - intros n v E Hn. apply leaf_goes; [exact Hn|exact (over_leaf E)|now apply Den_override].
  - intros n ivs v E HF Hf Hn. assert (HFv : Forall2 val (inputs n) ivs) by (eapply Forall2_impl; [|exact HF]; cbv beta; tauto).
    assert (Hv : val n v) by (eapply Den_eval; eassumption). destruct (inputs n) as [|c l] eqn:El.
    + apply leaf_goes; assumption.
    + rewrite <- El in *. assert (Hg : Forall2 (fun c a => exists w d, goes c a w d) (inputs n) ivs).
      { assert (Hi : incl (inputs n) U) by (intros x; now apply closed). clear - HF Hi. induction HF as [|x a l ivs (Ha & Hb) HF IH]; constructor; [apply Hb, Hi; now left|].
        apply IH. intros y Hy. apply Hi. now right. }
      destruct (curves_of_inputs Hg) as (us & ds & Hc & Hnear). destruct (@inner_goes n v ivs us ds) as (w & e & H & _); try assumption; [congruence|]. eauto.
Qed.
Lemma goes_unique n v w d v' w' d' : goes n v w d -> goes n v' w' d' -> v = v' /\ d = d'.
Proof.
  intros (H1 & H2 & _) (H1' & H2' & _). assert (He : near t0 (fun t => w t = w' t)).
  { eapply near_impl; [|exact (near_and H1 H1')]. cbv beta. intros t (Ha & Hb). exact (Den_det _ _ _ _ _ _ Ha _ Hb). }
  exact (moves_unique (@moves_near_ext _ _ _ _ _ He H2) H2').
Qed.
End Values.
