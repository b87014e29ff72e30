(** Theorems about running and resuming invdes plans from files (C17, C18, C56, C57). *)
From stdpp Require Import gmap.
From Verif Require Import Base Solver_Model Solver_Spec Solver_Proofs Solver_Proofs2.
Open Scope nat_scope.

Section C17.
Context {V W E : Type} (vinit : nat -> V) (winit : nat -> W) (truthy : E -> bool)
  (sem : transf V W -> env V W -> option E -> list (V * E) * V).
Notation process := (process vinit winit truthy sem).
Notation run_from := (run_from vinit winit truthy sem).
Notation full_run := (full_run vinit winit truthy sem).

(** Crash after [i] completed transformations: the resumed process writes exactly
    the remaining files of the uninterrupted run and ends with the same values. *)
Theorem resume_at_boundary : forall ts i, unique_names ts -> parameters_listed ts ->
  let before := fst (run_from (firstn i ts) None st0) in
  exists after s, process ts true (apply_writes empty_disk before) = Ok (after, s) /\
    fst (full_run ts) = before ++ after /\ s_env s = s_env (snd (full_run ts)).
Proof. exact (resume_boundary_pf vinit winit truthy sem). Qed.

(** Any number of crashes, anywhere between two file writes: if the
    transformations can be continued from their logs and set no parameters, the
    final values and the final files are those of the uninterrupted run. *)
Theorem resume_anywhere : forall ts d, unique_names ts -> parameters_listed ts ->
  (forall t, In t ts -> safe_midway sem t) -> crash_history vinit winit truthy sem ts d ->
  exists tr s, process ts true d = Ok (tr, s) /\ s_env s = s_env (snd (full_run ts)) /\
    apply_writes d tr = apply_writes empty_disk (fst (full_run ts)).
Proof. exact (@resume_anywhere_pf V W E vinit winit truthy sem). Qed.

(** C18: whatever plans ran in the folder before, resuming or not, crashed or not,
    a resuming process numbers its log files consecutively from the next number,
    never overwrites a log file, and at any time the latest-log lookup finds the
    file written last. *)
Theorem resumed_logs_consecutive : forall ts d tr s, folder_history vinit winit truthy sem d ->
  process ts true d = Ok (tr, s) -> exists n, log_numbers tr = List.seq (S (latest_step d)) n.
Proof. exact (@resume_numbers_pf V W E vinit winit truthy sem). Qed.
Theorem resumed_logs_never_overwrite : forall ts d tr s, folder_history vinit winit truthy sem d ->
  process ts true d = Ok (tr, s) -> forall n, In n (log_numbers tr) -> d_log d !! n = None.
Proof. exact (@resume_no_overwrite_pf V W E vinit winit truthy sem). Qed.
Theorem latest_log_is_last_written : forall ts d tr s k, folder_history vinit winit truthy sem d ->
  process ts true d = Ok (tr, s) ->
  latest_step (apply_writes d (firstn k tr)) = List.last (log_numbers (firstn k tr)) (latest_step d).
Proof. exact (@latest_is_last_pf V W E vinit winit truthy sem). Qed.
End C17.
Print Assumptions resume_at_boundary.
Print Assumptions resume_anywhere.
Print Assumptions resumed_logs_consecutive.
Print Assumptions resumed_logs_never_overwrite.
Print Assumptions latest_log_is_last_written.

(** *** Concrete plans: values are numbers.  A transformation adds the value of
    parameter 50 to its parametrization three times, logging after each step with
    the step number as event. *)
Definition toy_step (e : env nat nat) : nat := default 0 (prm e !! 50).
Definition toy_sem (t : transf nat nat) (e : env nat nat) (ev : option nat) : list (nat * nat) * nat :=
  let v0 := default 0 (ptz e !! t_param t) in
  let start := default 0 ev in
  let steps := List.seq (S start) (3 - start) in
  (map (fun i => (v0 + (i - start) * toy_step e, i)) steps, v0 + (3 - start) * toy_step e).
Definition toy_process := @process nat nat nat (fun _ => 1) (fun _ => 10) (fun n => negb (Nat.eqb n 0)) toy_sem.
Definition toy_full := @full_run nat nat nat (fun _ => 1) (fun _ => 10) (fun n => negb (Nat.eqb n 0)) toy_sem.
Definition mk (name param : nat) (sets : list (nat * (env nat nat -> nat))) (reach : list nat) : transf nat nat :=
  {| t_name := name; t_param := param; t_sets := sets; t_reach := reach |}.
Definition final (r : res (list (write nat nat nat) * st nat nat)) (n : nat) : option nat :=
  match r with Ok (_, s) => ptz (s_env s) !! n | Err _ => None end.
Definition after_writes (k : nat) (ts : list (transf nat nat)) := apply_writes empty_disk (firstn k (fst (toy_full ts))).

(** the parameter is set to 2 by the first transformation and kept by the second *)
Definition good_plan := [mk 1 7 [(50, fun _ => 2)] [50]; mk 2 8 [] [50]].
Example C17_case : unique_names good_plan /\
  final (Ok (toy_full good_plan)) 7 = Some 7 /\ final (Ok (toy_full good_plan)) 8 = Some 7 /\
  (* crash after the first transformation's checkpoint *)
  final (toy_process good_plan true (after_writes 4 good_plan)) 8 = Some 7 /\
  (* crash in the second one after two logs *)
  final (toy_process good_plan true (after_writes 6 good_plan)) 8 = Some 7 /\
  log_numbers (fst (toy_full good_plan)) = [1; 2; 3; 4; 5; 6].
Proof. split; [repeat constructor; simpl; intuition lia|]. vm_compute. auto. Qed.
(** a check for [parameters_listed] *)
Fixpoint listed (seen : list nat) (ts : list (transf nat nat)) : bool :=
  match ts with
  | [] => true
  | t :: ts' => let now := seen ++ map fst (t_sets t) in
                (forallb (fun n => memb n now) (t_reach t) && listed now ts')%bool
  end.
Lemma listed_sound ts : listed [] ts = true -> parameters_listed ts.
Proof.
  assert (H : forall ts seen, listed seen ts = true -> forall l t r n, ts = l ++ t :: r -> In n (t_reach t) ->
    In n (seen ++ flat_map (fun t => map fst (t_sets t)) (l ++ [t]))).
  { clear. induction ts as [|a ts IH]; intros seen Hl l t r n E Hn; [destruct l; discriminate|].
    cbn [listed] in Hl. apply andb_true_iff in Hl as [H1 H2]. destruct l as [|a' l]; injection E as -> E.
    - rewrite forallb_forall in H1. apply H1, memb_In in Hn. simpl. now rewrite app_nil_r.
    - specialize (IH _ H2 l t r n E Hn). simpl. now rewrite <- app_assoc in IH. }
  intros Hl l t r n E Hn. exact (H ts [] Hl l t r n E Hn).
Qed.
Example C17_case_listed : parameters_listed good_plan.
Proof. apply listed_sound. reflexivity. Qed.
(** a plan meeting the hypotheses of [resume_anywhere] *)
Definition safe_plan := [mk 1 7 [] []; mk 2 8 [] []].
Lemma toy_resumable t : resumable toy_sem t.
Proof.
  intros e ev l1 v1 e1 l2 v. unfold toy_sem. set (v0 := default 0 (ptz e !! t_param t)).
  set (start := default 0 ev). intros H.
  assert (Hl : map (fun i => (v0 + (i - start) * toy_step e, i)) (List.seq (S start) (3 - start)) = l1 ++ (v1, e1) :: l2)
    by exact (f_equal fst H).
  assert (Hv : v0 + (3 - start) * toy_step e = v) by exact (f_equal snd H). clear H.
  set (j := length l1).
  assert (Hj : j + S (length l2) = 3 - start).
  { apply (f_equal (@length _)) in Hl. rewrite map_length, seq_length, app_length in Hl. simpl in Hl. unfold j. lia. }
  assert (Hseq : List.seq (S start) (3 - start) = List.seq (S start) j ++ (S start + j) :: List.seq (S (S start + j)) (3 - (S start + j))).
  { rewrite <- Hj, seq_app. cbn [List.seq]. do 3 f_equal. lia. }
  rewrite Hseq, map_app in Hl. cbn [map] in Hl.
  apply app_inj_1 in Hl as [Hl1 Hl2]; [|rewrite map_length, seq_length; reflexivity].
  injection Hl2 as E1 E2 E3.
  cbn [ptz prm default]. rewrite lookup_insert. unfold id, toy_step. cbn [prm default]. fold (toy_step e).
  rewrite <- E2. f_equal.
  - rewrite <- E3. apply map_ext_in. intros i Hi. apply in_seq in Hi. f_equal. rewrite <- E1. nia.
  - rewrite <- Hv, <- E1. nia.
Qed.
Example C17_case_safe : unique_names safe_plan /\ parameters_listed safe_plan /\
  (forall t, In t safe_plan -> safe_midway toy_sem t).
Proof.
  split; [repeat constructor; simpl; intuition lia|]. split; [apply listed_sound; reflexivity|].
  intros t Ht. right. split; [apply toy_resumable|]. simpl in Ht. intuition; subst; reflexivity.
Qed.

(** *** C56: crash in the middle of a transformation that sets parameters: the
    resumed process does not set them again and continues with other values. *)
Theorem resume_midway_loses_parameters_refuted : exists ts k,
  unique_names ts /\ parameters_listed ts /\
  final (Ok (toy_full ts)) 7 = Some 7 /\
  final (toy_process ts true (after_writes k ts)) 7 <> Some 7.
Proof.
  exists [mk 1 7 [(50, fun _ => 2)] [50]], 1. repeat split.
  - repeat constructor; simpl; tauto.
  - apply listed_sound. reflexivity.
  - vm_compute. discriminate.
Qed.
Print Assumptions resume_midway_loses_parameters_refuted.

(** *** C57: what else can go wrong on resume. *)
(** A parameter that is used but in nobody's parameter list makes the checkpoint
    unreadable. *)
Theorem resume_unlisted_parameter_refuted : exists ts k,
  unique_names ts /\ toy_process ts true (after_writes k ts) = Err KeyError.
Proof.
  exists [mk 1 7 [] [50]; mk 2 8 [] []], 4. split; [repeat constructor; simpl; intuition lia|]. vm_compute. reflexivity.
Qed.
Print Assumptions resume_unlisted_parameter_refuted.
(** Two transformations with the same name: the ones after the first are skipped. *)
Theorem resume_duplicate_names_refuted : exists ts k,
  parameters_listed ts /\
  final (Ok (toy_full ts)) 7 = Some 19 /\
  exists s, toy_process ts true (after_writes k ts) = Ok ([], s) /\ ptz (s_env s) !! 7 = Some 7.
Proof.
  exists [mk 1 7 [(50, fun _ => 2)] [50]; mk 2 7 [] [50]; mk 1 7 [] [50]], 4. split.
  - apply listed_sound. reflexivity.
  - split; [vm_compute; reflexivity|]. eexists. split; vm_compute; reflexivity.
Qed.
Print Assumptions resume_duplicate_names_refuted.
(** A run without resume in a used folder overwrites log files, and a crash in it
    followed by a resume returns at once with the values of the old run. *)
Theorem rerun_in_used_folder_refuted : exists ts n k,
  let d := apply_writes empty_disk (fst (toy_full ts)) in
  In n (log_numbers (fst (toy_full ts))) /\ is_Some (d_log d !! n) /\
  exists tr s, toy_process ts false d = Ok (tr, s) /\
  exists s', toy_process ts true (apply_writes d (firstn k tr)) = Ok ([], s').
Proof.
  exists safe_plan, 1, 2. split; [vm_compute; auto|]. split; [vm_compute; eauto|].
  eexists _, _. split; [reflexivity|]. eexists. vm_compute. reflexivity.
Qed.
Print Assumptions rerun_in_used_folder_refuted.
