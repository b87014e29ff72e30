(** The first run of the penalty optimizer, and plans of optimizations. *)
From Coq Require Import ZArith QArith.
From stdpp Require Import gmap.
From Verif Require Import Base Solver_Model Solver_Spec Solver_Proofs2 OptRun_Model OptRun_Spec OptRun_Proofs OptRun_Proofs2.
Set Implicit Arguments.
Local Open Scope Q_scope.

Lemma cycle_events_app {X} (l1 l2 : list (X * Z * Q)) : forall i,
  cycle_events i (l1 ++ l2) = cycle_events i l1 ++ cycle_events (i + Z.of_nat (length l1))%Z l2.
Proof.
  induction l1 as [|[[x k] mu] l1 IH]; intros i; simpl.
  - now rewrite Z.add_0_r.
  - rewrite IH. do 3 f_equal. lia.
Qed.
Lemma cycle_events_map {X} k mu (l : list (X * list Q)) : forall i,
  cycle_events i (map (fun p => (fst p, k, mu)) l) = numbered (fun i => Event SOptimizing (Some i) (Some k) (Some mu)) i (map fst l).
Proof. induction l as [|x l IH]; intros i; simpl; [reflexivity|]. now rewrite IH. Qed.

Section Pen.
Variables X A : Type.
Variable minimize : Q -> Q -> Q -> X * list Q -> strategy (X * list Q) A.
Variable pw : Q -> Q -> Q.
Variable slacks : nat.
Variable pf_obj : Q -> Q -> nat -> X * list Q -> A.
Lemma cycles_do_eq d n : forall k mu it y, exists l,
  cycles_do (cyc minimize d) (cyc_obj pf_obj d) (fun m => pw m (oget_or d KTau (3 # 2))) n k mu y l
     (snd (penalty_cycles minimize pw pf_obj d n k mu it y)) /\
  fst (penalty_cycles minimize pw pf_obj d n k mu it y) = cycle_events (it + 1)%Z l.
Proof.
  induction n as [|n IH]; intros k mu it y.
  - exists []. split; [constructor|reflexivity].
  - destruct (does_total (cyc_obj pf_obj d mu) (cyc minimize d k y)) as (tr & y' & Hd).
    rewrite (@cycles_step X A minimize pw pf_obj d n _ _ it _ _ _ Hd). cbv zeta. cbn [fst snd].
    destruct (IH (k + 1)%Z (pw mu (oget_or d KTau (3 # 2))) (it + Z.of_nat (length (reported tr)))%Z y') as (l & H1 & H2).
    eexists. split; [econstructor; [exact Hd|exact H1]|].
    rewrite cycle_events_app, cycle_events_map, map_length, H2. do 2 f_equal. lia.
Qed.

Lemma penalty_first_pf d mon x : exists l v,
  cycles_do (fun k => minimize (qmax (1 / 100 ^ (k + 1)) (option_or d KFtol (1 # 1000000000)))
                        (option_or d KGtol (1 # 10000000)) (option_or d KMaxiter 30))
            (fun mu => pf_obj mu (option_or d KPf 2)) (fun mu => pw mu (option_or d KTau (3 # 2)))
            (Z.to_nat (Qnum (Qred (option_or d KNumCycles 10)))) 0 (option_or d KMu0 2) (x, repeat 0 slacks) l v /\
  penalty_run minimize pw slacks pf_obj (ModelOptions d) mon None x =
    ((x, start_event) :: (if mon then cycle_events 1 l else []) ++ [(v, end_event)], Ok v).
Proof.
  rewrite (@prun_first X A minimize pw slacks pf_obj (ModelOptions d) (KeptModel (set_options d)) (keep_model d)).
  unfold body. cbn [ev_cycle ev_mu iteration_of kept_dict].
  destruct (@cycles_do_eq (set_options d) (Z.to_nat (num_cycles (set_options d) - 0)) 0 (oget_or (set_options d) KMu0 2) 0 (x, repeat 0 slacks)) as (l & H1 & H2).
  eexists l, _. split; [|rewrite H2; reflexivity].
  rewrite Z.sub_0_r in H1 |- *. exact H1.
Qed.
Lemma penalty_defaults_pf d mon ev x :
  penalty_run minimize pw slacks pf_obj (ModelOptions d) mon ev x = penalty_run minimize pw slacks pf_obj (DictOptions (set_options d)) mon ev x.
Proof.
  unfold penalty_run. rewrite keep_model. cbn [keep_options].
  replace (forallb (fun kv => qtrue (snd kv)) (set_options d)) with true; [reflexivity|].
  symmetry. apply forallb_forall. intros [k v] Hin. unfold set_options in Hin. apply in_flat_map in Hin as ([k' [v'|]] & _ & H); [|destruct H].
  destruct (Qeq_bool v' 0) eqn:E; [destruct H|]. destruct H as [H|[]]. injection H as <- <-. unfold qtrue. simpl. now rewrite E.
Qed.
Lemma penalty_nothing_pf mon ev x :
  penalty_run minimize pw slacks pf_obj NoOptions mon ev x = penalty_run minimize pw slacks pf_obj (DictOptions []) mon ev x.
Proof. reflexivity. Qed.
Lemma penalty_zero_pf d mon ev x : Exists (fun kv => snd kv == 0) d ->
  penalty_run minimize pw slacks pf_obj (DictOptions d) mon ev x = ([], Err RuntimeError).
Proof.
  intros He. unfold penalty_run. cbn [keep_options]. destruct (forallb _ d) eqn:E; [|reflexivity].
  rewrite forallb_forall in E. apply List.Exists_exists in He as (kv & Hin & Hq). specialize (E kv Hin).
  unfold qtrue in E. apply Qeq_bool_iff in Hq. rewrite Hq in E. discriminate.
Qed.
End Pen.

Section Plans.
Variables X A W : Type.
Variable jobs : nat -> job X A W.
Variable dflt : pval X.
Variable vinit : nat -> pval X.
Variable winit : nat -> W.
Definition good_job (t : transf (pval X) W) : Prop :=
  match jobs (t_name t) with
  | JStrength _ _ _ _ => True
  | JScipy minimize (ModelOptions d) mon f => t_sets t = [] /\
      (mon = true -> forall ps k, restartable (f ps k) (fun i x => minimize (scipy_tol d) (scipy_options d i) x))
  | JScipy _ _ _ _ => False
  end.
Lemma good_job_safe t : good_job t -> safe_midway (job_sem jobs dflt) t.
Proof.
  unfold good_job. destruct (jobs (t_name t)) as [minimize o mon f|v] eqn:E; intros H.
  - destruct o as [| |d]; try contradiction. destruct H as [Hs Hr]. right. split; [|exact Hs].
    apply (@scipy_resumable X A W jobs dflt t _ _ _ _ E Hr).
  - left. intros e ev. apply (@strength_no_log X A W jobs dflt t v E).
Qed.
End Plans.
