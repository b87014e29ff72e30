(** Theorems about the transformations of a plan that optimize (C116-C119). *)
From Coq Require Import ZArith QArith Qround.
From stdpp Require Import gmap.
From Verif Require Import Base Solver_Model Solver_Spec Solver_Props OptRun_Model OptRun_Spec OptRun_Proofs OptRun_Proofs2 OptRun_Proofs3.
Local Open Scope Q_scope.

Section Theorems.
Context {X A : Type} (minimize : option Q -> odict -> X -> strategy X A) (f : nat -> X -> A) (d : list (okey * option Q)) (mon : bool).
Context (pminimize : Q -> Q -> Q -> X * list Q -> strategy (X * list Q) A) (pw : Q -> Q -> Q) (slacks : nat)
  (pobj : Q -> Q -> nat -> X * list Q -> A).

(** *** C116: what is logged and which options reach scipy.  With options from a plan, a run logs the
    start; with callback monitors one numbered entry per report, holding the point evaluated last; and the
    end.  scipy gets the options that are set and not zero. *)
Theorem scipy_run_logs : forall x tr v, does f (minimize (scipy_tol d) (scipy_options d 0) x) tr v ->
  scipy_run minimize (ModelOptions d) mon f None x =
    ((x, start_event) :: (if mon then events_from 1 (last_evaluated x tr) else []) ++ [(v, end_event)], Ok v).
Proof. exact (@run_first X A minimize f d mon). Qed.
(** Restarted from an event, it goes on with the number of the event and a limit reduced by it; after the
    end event nothing happens. *)
Theorem scipy_rerun_logs : forall e x tr v, e_stage e = SStart \/ e_stage e = SOptimizing ->
  does f (minimize (scipy_tol d) (scipy_options d (iteration_of (Some e))) x) tr v ->
  scipy_run minimize (ModelOptions d) mon f (Some e) x =
    ((if mon then events_from (iteration_of (Some e) + 1)%Z (last_evaluated x tr) else []) ++ [(v, end_event)], Ok v).
Proof. exact (@run_resumed X A minimize f d mon). Qed.
Theorem scipy_ended : forall x, scipy_run minimize (ModelOptions d) mon f (Some end_event) x = ([], Ok x).
Proof. exact (@run_end X A minimize f d mon). Qed.
(** Without options, or with a dictionary, the run fails: after logging the start, or at once when an option is
    zero. *)
Theorem scipy_without_options : forall x,
  scipy_run minimize NoOptions mon f None x = ([(x, start_event)], Err AttributeError).
Proof. exact (@no_options_pf X A minimize mon f). Qed.
Theorem scipy_dict_options : forall dd x,
  (Forall (fun kv => ~ snd kv == 0) dd -> scipy_run minimize (DictOptions dd) mon f None x = ([(x, start_event)], Err AttributeError)) /\
  (Exists (fun kv => snd kv == 0) dd -> scipy_run minimize (DictOptions dd) mon f None x = ([], Err RuntimeError)).
Proof. exact (fun dd x => @dict_options_pf X A minimize dd mon f x). Qed.

(** *** C117: restarting from any logged entry gives the rest of the log and the same result, if the
    optimizer can be restarted from the logged point, and for any optimizer without callback monitors. *)
Theorem scipy_resumes : forall ev x l1 y e l2 r,
  (mon = true -> restartable f (fun i x => minimize (scipy_tol d) (scipy_options d i) x)) ->
  scipy_run minimize (ModelOptions d) mon f ev x = (l1 ++ (y, e) :: l2, r) ->
  scipy_run minimize (ModelOptions d) mon f (Some e) y = (l2, r).
Proof. exact (@resume_pf X A minimize f d mon). Qed.

(** *** C118: however often the run is interrupted and restarted, no iteration number exceeds the limit, if the
    optimizer respects the limit it is given. *)
Theorem scipy_limit_across_restarts : forall M ev x, (0 <= M)%Z ->
  (forall i x tr v, does f (minimize (scipy_tol d) (scipy_options d i) x) tr v ->
     (Z.of_nat (length (reported tr)) <= Z.max 0 (M - i))%Z) ->
  reached (scipy_run minimize (ModelOptions d) mon f) ev x ->
  forall e i, ev = Some e -> e_iter e = Some i -> (1 <= i <= M)%Z.
Proof. exact (@budget_pf X A minimize f d mon). Qed.

(** *** C119: the penalty optimizer logs the points reported, with cycle and weight; options that are not set or
    zero have their defaults. *)
Theorem penalty_run_logs : forall x, exists l v,
  cycles_do (fun k => pminimize (qmax (1 / 100 ^ (k + 1)) (option_or d KFtol (1 # 1000000000)))
                        (option_or d KGtol (1 # 10000000)) (option_or d KMaxiter 30))
            (fun mu => pobj mu (option_or d KPf 2)) (fun mu => pw mu (option_or d KTau (3 # 2)))
            (Z.to_nat (Qnum (Qred (option_or d KNumCycles 10)))) 0 (option_or d KMu0 2) (x, repeat 0 slacks) l v /\
  penalty_run pminimize pw slacks pobj (ModelOptions d) mon None x =
    ((x, start_event) :: (if mon then cycle_events 1 l else []) ++ [(v, end_event)], Ok v).
Proof. exact (penalty_first_pf pminimize pw slacks pobj d mon). Qed.
Theorem penalty_dict_options : forall ev x,
  penalty_run pminimize pw slacks pobj (DictOptions (set_options d)) mon ev x =
    penalty_run pminimize pw slacks pobj (ModelOptions d) mon ev x /\
  penalty_run pminimize pw slacks pobj NoOptions mon ev x = penalty_run pminimize pw slacks pobj (ModelOptions []) mon ev x /\
  forall dd, Exists (fun kv => snd kv == 0) dd ->
    penalty_run pminimize pw slacks pobj (DictOptions dd) mon ev x = ([], Err RuntimeError).
Proof.
  exact (fun ev x => conj (eq_sym (penalty_defaults_pf pminimize pw slacks pobj d mon ev x))
    (conj (penalty_nothing_pf pminimize pw slacks pobj mon ev x)
          (fun dd => @penalty_zero_pf X A pminimize pw slacks pobj dd mon ev x))).
Qed.
(** However often it is interrupted and restarted, the logged weight is that of the cycle, and the cycle
    is one of those configured. *)
Theorem penalty_schedule_across_restarts : forall ev x,
  reached (penalty_run pminimize pw slacks pobj (ModelOptions d) mon) ev x ->
  forall e, ev = Some e -> e_stage e = SOptimizing ->
  exists k i, e_cycle e = Some k /\ e_iter e = Some i /\ (1 <= i)%Z /\
    (0 <= k < Qnum (Qred (option_or d KNumCycles 10)))%Z /\
    e_mu e = Some (weight (fun mu => pw mu (option_or d KTau (3 # 2))) (option_or d KMu0 2) (Z.to_nat k)).
Proof.
  intros ev x H e -> He.
  destruct (@reached_good X A pminimize pw slacks pobj (ModelOptions d) _ (keep_model d) mon _ _ H) as [->|[->|(k & i & H1 & H2 & ->)]];
    [discriminate|discriminate|].
  exists k, i. repeat split; [exact H2|apply H1|apply H1].
Qed.
(** A restart gives the rest of the log and the same result if the optimizer can be restarted from the reported
    point with all slack variables zero and a fresh iteration limit, and always without callback monitors. *)
Theorem penalty_resumes : forall ev x l1 y e l2 r,
  (mon = true -> forall k mu, restartable_stored (pobj mu (option_or d KPf 2)) (fun y => (fst y, repeat 0 slacks))
     (pminimize (qmax (1 / 100 ^ (k + 1)) (option_or d KFtol (1 # 1000000000))) (option_or d KGtol (1 # 10000000)) (option_or d KMaxiter 30))) ->
  penalty_run pminimize pw slacks pobj (ModelOptions d) mon ev x = (l1 ++ (y, e) :: l2, r) ->
  penalty_run pminimize pw slacks pobj (ModelOptions d) mon (Some e) y = (l2, r).
Proof. exact (@presume_pf X A pminimize pw slacks pobj (ModelOptions d) _ (keep_model d) mon). Qed.
End Theorems.
Print Assumptions scipy_run_logs.
Print Assumptions scipy_rerun_logs.
Print Assumptions scipy_ended.
Print Assumptions scipy_without_options.
Print Assumptions scipy_dict_options.
Print Assumptions scipy_resumes.
Print Assumptions scipy_limit_across_restarts.
Print Assumptions penalty_run_logs.
Print Assumptions penalty_dict_options.
Print Assumptions penalty_schedule_across_restarts.
Print Assumptions penalty_resumes.

(** Plans made of such optimizations and of changes of the sigmoid strength survive any number of crashes. *)
Theorem plan_of_optimizations_resumes : forall {X A W} (jobs : nat -> job X A W) dflt vinit winit ts dk,
  unique_names ts -> parameters_listed ts ->
  (forall t, In t ts -> match jobs (t_name t) with
    | JStrength _ _ _ _ => True
    | JScipy minimize (ModelOptions d) mon f => t_sets t = [] /\
        (mon = true -> forall ps k, restartable (f ps k) (fun i x => minimize (scipy_tol d) (scipy_options d i) x))
    | JScipy _ _ _ _ => False
    end) ->
  crash_history vinit winit (fun _ => true) (job_sem jobs dflt) ts dk ->
  exists tr s, process vinit winit (fun _ => true) (job_sem jobs dflt) ts true dk = Ok (tr, s) /\
    s_env s = s_env (snd (full_run vinit winit (fun _ => true) (job_sem jobs dflt) ts)) /\
    apply_writes dk tr = apply_writes empty_disk (fst (full_run vinit winit (fun _ => true) (job_sem jobs dflt) ts)).
Proof.
  intros X A W jobs dflt vinit winit ts dk H1 H2 H3 H4. apply resume_anywhere; [exact H1|exact H2| |exact H4].
  intros t Ht. apply good_job_safe. exact (H3 t Ht).
Qed.
Print Assumptions plan_of_optimizations_resumes.

(** *** Concrete optimizers on numbers.  Functions: x^2 and its derivative. *)
Definition sq : nat -> Q -> Q := fun q x => Qred (match q with O => x * x | _ => 2 * x end).
(** gradient descent *)
Fixpoint descend (n : nat) (x : Q) : strategy Q Q :=
  match n with
  | O => Done x
  | S n' => Ask x 1 (fun g => let y := Qred (x - (1 # 4) * g) in Ask y 0 (fun _ => Report y (descend n' y)))
  end.
Definition limit (d : odict) : Z := match oget d KMaxiter with Some v => Qfloor v | None => 0 end.
Definition gd (_ : option Q) (d : odict) (x : Q) : strategy Q Q := descend (Z.to_nat (limit d)) x.
(** with momentum: the last step is remembered *)
Fixpoint heavy (n : nat) (x v : Q) : strategy Q Q :=
  match n with
  | O => Done x
  | S n' => Ask x 1 (fun g => let w := Qred ((1 # 2) * v - (1 # 4) * g) in let y := Qred (x + w) in
                              Ask y 0 (fun _ => Report y (heavy n' y w)))
  end.
Definition hb (_ : option Q) (d : odict) (x : Q) : strategy Q Q := heavy (Z.to_nat (limit d)) x 0.
(** a line search that reports the better of two points *)
Definition search (_ : option Q) (_ : odict) (x : Q) : strategy Q Q :=
  Ask (x - 1) 0 (fun a => Ask (x + 1) 0 (fun b => let y := if Qle_bool a b then x - 1 else x + 1 in Report y (Done y))).

Definition four : list (okey * option Q) := [(KTol, Some (1 # 10)); (KFtol, None); (KMaxiter, Some 4)].
Example gd_run : scipy_run gd (ModelOptions four) true sq None 8 =
  ([(8, start_event); (4, Event SOptimizing (Some 1%Z) None None); (2, Event SOptimizing (Some 2%Z) None None);
    (1, Event SOptimizing (Some 3%Z) None None); (1 # 2, Event SOptimizing (Some 4%Z) None None); (1 # 2, end_event)], Ok (1 # 2)).
Proof. vm_compute. reflexivity. Qed.
Example gd_resumed : scipy_run gd (ModelOptions four) true sq (Some (Event SOptimizing (Some 2%Z) None None)) 2 =
  ([(1, Event SOptimizing (Some 3%Z) None None); (1 # 2, Event SOptimizing (Some 4%Z) None None); (1 # 2, end_event)], Ok (1 # 2)).
Proof. vm_compute. reflexivity. Qed.

Lemma descend_trace n : forall x tr v l1 y l2, does sq (descend n x) tr v -> last_evaluated x tr = l1 ++ y :: l2 ->
  (length l1 < n)%nat /\ exists tr', does sq (descend (n - length l1 - 1) y) tr' v /\ last_evaluated y tr' = l2.
Proof.
  induction n as [|n IH]; intros x tr v l1 y l2 H Hl.
  - inversion H; subst. destruct l1; discriminate.
  - simpl in H. inversion H as [|? ? ? tr1 ? H1|]; subst. inversion H1 as [|? ? ? tr2 ? H2|]; subst.
    inversion H2 as [| |? ? tr3 ? H3]; subst. cbn [last_evaluated] in Hl. destruct l1 as [|a l1]; cbn [app] in Hl; injection Hl as E1 E2.
    + split; [simpl; lia|]. subst y. exists tr3. cbn [length]. replace (S n - 0 - 1)%nat with n by lia. auto.
    + destruct (IH _ _ _ _ _ _ H3 E2) as (Hn & tr' & Ha & Hb). simpl length. split; [lia|]. exists tr'.
      replace (S n - S (length l1) - 1)%nat with (n - length l1 - 1)%nat by lia. auto.
Qed.
Lemma limit_four i : limit (scipy_options four i) = (4 - i)%Z.
Proof.
  assert (E : oget (scipy_options four i) KMaxiter = Some (4 - inject_Z i)) by reflexivity.
  unfold limit. rewrite E. unfold Qfloor, Qminus, Qplus, Qopp, inject_Z. cbv beta iota zeta delta [Qnum Qden].
  change (1 * 1)%positive with 1%positive. rewrite Z.div_1_r. lia.
Qed.
(** gradient descent can be restarted, so interrupted runs of it lose nothing *)
Example gd_restartable : restartable sq (fun i x => gd (scipy_tol four) (scipy_options four i) x).
Proof.
  intros i x tr v l1 y l2 H Hl. unfold gd in *. rewrite limit_four in *.
  destruct (descend_trace _ _ _ _ _ _ _ H Hl) as (Hn & tr' & Ha & Hb). exists tr'. split; [|exact Hb].
  replace (Z.to_nat (4 - (i + Z.of_nat (length l1) + 1))) with (Z.to_nat (4 - i) - length l1 - 1)%nat by lia. exact Ha.
Qed.
Lemma descend_reports n : forall x tr v, does sq (descend n x) tr v -> length (reported tr) = n.
Proof.
  induction n as [|n IH]; intros x tr v H.
  - inversion H. reflexivity.
  - simpl in H. inversion H as [|? ? ? tr1 ? H1|]; subst. inversion H1 as [|? ? ? tr2 ? H2|]; subst.
    inversion H2 as [| |? ? tr3 ? H3]; subst. simpl. f_equal. apply (IH _ _ _ H3).
Qed.
Example gd_respects_limit : forall i x tr v, does sq (gd (scipy_tol four) (scipy_options four i) x) tr v ->
  (Z.of_nat (length (reported tr)) <= Z.max 0 (4 - i))%Z.
Proof. intros i x tr v H. unfold gd in H. rewrite limit_four in H. apply descend_reports in H. lia. Qed.

(** An optimizer with memory is restarted without it: the result differs. *)
Theorem scipy_resume_memory_refuted : exists (m : option Q -> odict -> Q -> strategy Q Q) d x l1 y e l2 r,
  scipy_run m (ModelOptions d) true sq None x = (l1 ++ (y, e) :: l2, Ok r) /\
  snd (scipy_run m (ModelOptions d) true sq (Some e) y) <> Ok r.
Proof.
  exists hb, four, 8. eexists [_; _; _], _, _, [_; _], _. split.
  - vm_compute. reflexivity.
  - vm_compute. discriminate.
Qed.
Print Assumptions scipy_resume_memory_refuted.
(** The logged vector need not be the iterate that scipy reports: here 1 is reported and 3 is logged. *)
Theorem scipy_logs_other_point_refuted : exists (m : option Q -> odict -> Q -> strategy Q Q) d x tr v y,
  does sq (m (scipy_tol d) (scipy_options d 0) x) tr v /\ reported tr = [y] /\
  exists z, ~ z == y /\ fst (scipy_run m (ModelOptions d) true sq None x) =
    [(x, start_event); (z, Event SOptimizing (Some 1%Z) None None); (v, end_event)].
Proof.
  exists search, four, 2. eexists [_; _; _], _, _. split; [|split; [|eexists; split]].
  - unfold search. do 3 constructor. constructor.
  - vm_compute. reflexivity.
  - cbn. instantiate (1 := 3). discriminate.
  - vm_compute. reflexivity.
Qed.
Print Assumptions scipy_logs_other_point_refuted.
(** A limit of zero is dropped. *)
Example zero_limit : scipy_options [(KMaxiter, Some 0); (KOther 1, Some 3)] 0 = [(KOther 1, 3)].
Proof. vm_compute. reflexivity. Qed.

(** *** penalty: minimize x^2 with x >= 1, i.e. 1 - x + s = 0, by one number and one slack variable *)
Definition pval2 (mu pf : Q) (q : nat) (y : Q * list Q) : Q * Q * Q :=
  let (x, l) := y in let s := match l with s :: _ => s | [] => 0 end in let h := 1 - x + s in
  (Qred (x * x + mu * (h * h)), Qred (2 * x - 2 * mu * h), Qred (2 * mu * h)).
Fixpoint pdescend (n : nat) (y : Q * list Q) : strategy (Q * list Q) (Q * Q * Q) :=
  match n with
  | O => Done y
  | S n' => Ask y 1 (fun g => let z := (Qred (fst y - (1 # 8) * snd (fst g)), match snd y with s :: _ => [Qred (s - (1 # 8) * snd g)] | [] => [] end) in
                              Report z (pdescend n' z))
  end.
Definition pgd (ftol gtol maxiter : Q) (y : Q * list Q) : strategy (Q * list Q) (Q * Q * Q) := pdescend (Z.to_nat (Qfloor maxiter)) y.
Definition two_cycles : list (okey * option Q) := [(KMu0, Some 2); (KTau, None); (KNumCycles, Some 2); (KMaxiter, Some 2)].
Definition squared (m t : Q) : Q := Qred (m * m).
Example penalty_weights : map snd (fst (penalty_run pgd squared 1 pval2 (ModelOptions two_cycles) true None 3)) =
  [start_event; Event SOptimizing (Some 1%Z) (Some 0%Z) (Some 2); Event SOptimizing (Some 2%Z) (Some 0%Z) (Some 2);
   Event SOptimizing (Some 3%Z) (Some 1%Z) (Some 4); Event SOptimizing (Some 4%Z) (Some 1%Z) (Some 4); end_event].
Proof. vm_compute. reflexivity. Qed.
(** Restarts lose the slack variables and start the iterations of a cycle anew: after an interruption the result
    differs, and more iterations are run than two cycles of two have. *)
Theorem penalty_resume_refuted : exists (m : Q -> Q -> Q -> Q * list Q -> strategy (Q * list Q) (Q * Q * Q)) d x l1 y e l2 r,
  penalty_run m squared 1 pval2 (ModelOptions d) true None x = (l1 ++ (y, e) :: l2, Ok r) /\
  snd (penalty_run m squared 1 pval2 (ModelOptions d) true (Some e) y) <> Ok r /\
  option_or d KNumCycles 10 == 2 /\ option_or d KMaxiter 30 == 2 /\
  exists y' i c mu, In (y', Event SOptimizing (Some i) c mu) (fst (penalty_run m squared 1 pval2 (ModelOptions d) true (Some e) y)) /\ (4 < i)%Z.
Proof.
  exists pgd, two_cycles, 3. eexists [_], _, _, [_; _; _; _], _. split; [vm_compute; reflexivity|].
  split; [vm_compute; discriminate|]. split; [reflexivity|]. split; [reflexivity|].
  eexists _, 5%Z, _, _. split; [vm_compute; do 3 right; left; reflexivity|lia].
Qed.
Print Assumptions penalty_resume_refuted.
(** A number of cycles set to zero runs the default of ten. *)
Theorem penalty_zero_cycles_refuted : exists d, In (KNumCycles, Some 0) d /\ option_or d KNumCycles 10 == 10 /\
  forall X A m pw n o mon ev x, @penalty_run X A m pw n o (ModelOptions d) mon ev x = penalty_run m pw n o NoOptions mon ev x.
Proof. exists [(KNumCycles, Some 0)]. split; [left; reflexivity|]. split; reflexivity. Qed.
Print Assumptions penalty_zero_cycles_refuted.
(** without inequalities and with an optimizer that stops by itself, restarts lose nothing *)
Fixpoint down (n : nat) : strategy (nat * list Q) unit :=
  match n with O => Done (0%nat, []) | S n' => Report (n', []) (down n') end.
Example down_restartable : forall k mu : Q, restartable_stored (fun _ _ => tt) (fun y => (fst y, repeat 0 0)) (fun y => down (fst y)).
Proof.
  intros _ _ [n s] tr v l1 y l2. simpl fst. clear s. revert tr l1. induction n as [|n IH]; intros tr l1 H Hr.
  - inversion H; subst. destruct l1; discriminate.
  - simpl in H. inversion H as [| |? ? tr1 ? H1]; subst. simpl in Hr. destruct l1 as [|a l1]; simpl in Hr; injection Hr as E1 E2.
    + subst y. exists tr1. auto.
    + apply (IH _ _ H1 E2).
Qed.
Example down_runs : penalty_run (fun _ _ _ y => down (fst y)) squared 0 (fun _ _ _ _ => tt) (ModelOptions two_cycles) true None 2%nat =
  ([(2%nat, start_event); (1%nat, Event SOptimizing (Some 1%Z) (Some 0%Z) (Some 2)); (0%nat, Event SOptimizing (Some 2%Z) (Some 0%Z) (Some 2)); (0%nat, end_event)], Ok 0%nat).
Proof. vm_compute. reflexivity. Qed.

(** *** a plan: sharpen to 6, then descend from 8 *)
Definition plan_jobs (n : nat) : job Q Q Q := match n with 1%nat => JStrength _ _ _ 6 | _ => JScipy gd (ModelOptions four) true (fun _ _ => sq) end.
Definition plan : list (transf (pval Q) Q) :=
  [{| t_name := 1; t_param := 7; t_sets := []; t_reach := [] |}; {| t_name := 2; t_param := 7; t_sets := []; t_reach := [] |}]%nat.
Definition plan_process := process (fun _ => PVal 8 4) (fun _ => 0) (fun _ => true) (job_sem plan_jobs (PVal 0 0)) plan.
Example plan_hyps : unique_names plan /\ parameters_listed plan /\
  (forall t, In t plan -> match plan_jobs (t_name t) with
    | JStrength _ _ _ _ => True
    | JScipy minimize (ModelOptions d) mon f => t_sets t = [] /\
        (mon = true -> forall ps k, restartable (f ps k) (fun i x => minimize (scipy_tol d) (scipy_options d i) x))
    | JScipy _ _ _ _ => False
    end).
Proof.
  split; [repeat constructor; simpl; intuition discriminate|]. split.
  - intros l t r n Hs Hin. exfalso. assert (Ht : In t plan) by (rewrite Hs; apply in_elt).
    destruct Ht as [<-|[<-|[]]]; destruct Hin.
  - intros t [<-|[<-|[]]]; simpl; [exact I|]. split; [reflexivity|]. intros _ ps k. apply gd_restartable.
Qed.
(** after a crash with three log entries of the descent on disk, the resumed plan ends at 1/2 with strength 6 *)
Example plan_resumed : match plan_process true empty_disk with
  | Ok (tr, s) => match plan_process true (apply_writes empty_disk (firstn 4 tr)) with
                  | Ok (tr', s') => length tr' = 4%nat /\ ptz (s_env s') !! 7%nat = Some (PVal (1 # 2) 6) /\ ptz (s_env s) !! 7%nat = Some (PVal (1 # 2) 6)
                  | Err _ => False
                  end
  | Err _ => False
  end.
Proof. vm_compute. repeat split. Qed.
