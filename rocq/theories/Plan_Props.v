(** Properties of optimization plans (C06 - C12, C55). *)
From Verif Require Import Base Plan_Model Plan_Spec Plan_Proofs Plan_Proofs2 Plan_Proofs3 Plan_Proofs4 Plan_Proofs5 Plan_Proofs6 Plan_Toy.
From Coq Require Import ZArith.
Open Scope nat_scope.

(** ** C06.  Between runs nothing a user calls changes the value, the frozen flag
    or the bounds of a registered variable; every such attempt raises
    ValueError. *)
Theorem variables_change_only_in_actions : forall V Sc Ev full_like ninf pinf truthy evalx (ops : list (uop V Sc Ev)) (s : st V Sc Ev),
  forallb (@outside V Sc Ev) ops = true -> autorun (fst s) = false -> modifiable (fst s) = false ->
  let s' := fst (usteps full_like ninf pinf truthy evalx ops s) in
  let rs := snd (usteps full_like ninf pinf truthy evalx ops s) in
  modifiable (fst s') = false /\
  (forall k, amem (node_map (data (fst s))) k = true -> var_data (data (fst s')) k = var_data (data (fst s)) k) /\
  Forall2 (fun o r => match o with UCall q => is_mutator q = true -> r = Err ValueError | _ => True end) ops rs.
Proof. exact usteps_outside. Qed.
Print Assumptions variables_change_only_in_actions.

(** A plan starts locked and is locked after every history in which no run,
    resume or add_action raised. *)
Theorem plan_locked_between_runs : forall V Sc Ev full_like ninf pinf truthy evalx (ops : list (uop V Sc Ev)) sv ar w,
  let s := (init_plan V Sc Ev sv ar, w) in
  Forall2 (fun o r => match o with UCall _ | URead _ => True | _ => is_ok r = true end) ops
    (snd (usteps full_like ninf pinf truthy evalx ops s)) ->
  modifiable (fst (fst (usteps full_like ninf pinf truthy evalx ops s))) = false.
Proof. exact (fun V Sc Ev fl ni pi tr ev ops sv ar w => @usteps_locked V Sc Ev fl ni pi tr ev ops (init_plan V Sc Ev sv ar, w) eq_refl). Qed.
Print Assumptions plan_locked_between_runs.

(** Inside a run, a frozen variable keeps its value and stays frozen unless an
    action thaws it or uses the unchecked setter on it. *)
Theorem frozen_variable_constant : forall V Sc Ev full_like ninf pinf evalx x auto (s : st V Sc Ev),
  (forall a, In a (actions (fst s)) -> respects x (a_run a)) ->
  amem (node_map (data (fst s))) x = true -> aget (var_frozen (data (fst s))) x = Some true ->
  aget (var_frozen (data (fst (fst (run full_like ninf pinf evalx auto s))))) x = Some true /\
  aget (var_value (data (fst (fst (run full_like ninf pinf evalx auto s))))) x = aget (var_value (data (fst s))) x.
Proof. exact run_frozen. Qed.
Print Assumptions frozen_variable_constant.

(** Test: assigning from outside fails, running the plan changes x, the
    parameter y stays 7. *)
Example plan_case :
  let s := start [act_inc; act_set; act_inc] in
  snd (ustepsZ [UCall (OSetValue x 5%Z true); UCall (OFreeze x); URun true; UCall (OSetValue x 5%Z true)] s)
    = [Err ValueError; Err ValueError; Ok tt; Err ValueError] /\
  xval s = Some 0%Z /\ xval (fst (runZ true s)) = Some 8%Z /\
  modifiable (fst s) = false /\ autorun (fst s) = false /\
  aget (var_frozen (data (fst s))) 2 = Some true /\
  (forall a, In a (actions (fst s)) -> respects 2 (a_run a)).
Proof.
  vm_compute. repeat split. intros a [<-|[<-|[<-|[]]]]; vm_compute; (split; [exact I|]); intros [[| | | |[|v [|v' l]]]|]; repeat split;
    try (intros []; exact I); discriminate.
Qed.

(** ** C07.  After any sequence of calls made by actions, the thawed variables are
    exactly those whose last freeze/thaw call is a thaw, or that were never
    marked and were not frozen before; each is listed once. *)
Theorem thawed_vars_last_mark : forall V Sc Ev full_like ninf pinf evalx (l : list (aop V Sc Ev)) (s : st V Sc Ev),
  modifiable (fst s) = true -> core_ok (data (fst s)) -> Forall (set_known (data (fst s))) l ->
  let s' := calls full_like ninf pinf evalx l s in
  exists ns, call full_like ninf pinf evalx OGetThawed s' = (s', Ok (ANodes ns)) /\
  NoDup (map (@nname V Sc) ns) /\
  (forall n, In n ns -> aget (node_map (data (fst s'))) (nname n) = Some n) /\
  forall k, amem (var_value (data (fst s))) k = true ->
    (In k (map (@nname V Sc) ns) <->
     match last_mark k l with Some b => b = false | None => aget (var_frozen (data (fst s))) k = Some false end).
Proof. exact thawed_after_calls. Qed.
Print Assumptions thawed_vars_last_mark.

(** The consistency condition holds initially and is kept by every call. *)
Theorem core_ok_kept : forall V Sc Ev full_like ninf pinf evalx (o : aop V Sc Ev) (s : st V Sc Ev),
  core_ok (data (fst s)) -> set_known (data (fst s)) o ->
  core_ok (data (fst (fst (call full_like ninf pinf evalx o s)))).
Proof. exact call_core_ok. Qed.
Print Assumptions core_ok_kept.
Example core_ok_init : forall V Sc Ev sv ar, core_ok (data (init_plan V Sc Ev sv ar)).
Proof. intros. split; [constructor|]. split; intros; discriminate. Qed.

(** Test. *)
Example thaw_case :
  let s := (with_mod (fst (start [act_set])) true, w0) in
  snd (call full (-1000)%Z 1000%Z evalxZ OGetThawed
       (calls full (-1000)%Z 1000%Z evalxZ [OFreeze x; OThaw y; OThaw x; OFreeze x; OSetBounds x (0, 1)%Z] s)) = Ok (ANodes [y]).
Proof. vm_compute. reflexivity. Qed.

(** ** C08.  Reading a checkpoint restores the action pointer and, for every
    variable saved, value, frozen flag and bounds; it leaves other variables,
    the node table, the log counter and the file system alone. *)
Theorem checkpoint_round_trip : forall V Sc Ev f (s s1 s2 : st V Sc Ev),
  NoDup (akeys (var_value (data (fst s)))) ->
  write_checkpoint f s = (s1, Ok tt) ->
  lookup_file (files (snd s2)) f = lookup_file (files (snd s1)) f ->
  fst s1 = fst s /\
  exists s3, read_checkpoint f s2 = (s3, Ok tt) /\ snd s3 = snd s2 /\
    action_ptr (fst s3) = action_ptr (fst s) /\ action_data (fst s3) = None /\
    (forall k, aget (var_value (data (fst s))) k <> None -> var_data (data (fst s3)) k = var_data (data (fst s)) k) /\
    (forall k, aget (var_value (data (fst s))) k = None -> var_data (data (fst s3)) k = var_data (data (fst s2)) k) /\
    node_map (data (fst s3)) = node_map (data (fst s2)) /\ modifiable (fst s3) = modifiable (fst s2) /\
    actions (fst s3) = actions (fst s2) /\ log_counter (fst s3) = log_counter (fst s2).
Proof. exact checkpoint_roundtrip. Qed.
Print Assumptions checkpoint_round_trip.

(** After the last action there is nothing to save: the call raises IndexError. *)
Theorem checkpoint_after_completion_refuted : exists (s : st Z Z evZ),
  let s1 := fst (runZ true s) in
  snd (runZ true s) = Ok tt /\ state_vars (data (fst s1)) <> Err IndexError /\
  snd (write_checkpoint (Other 0) s1) = Err IndexError.
Proof. exists (start [act_inc]). vm_compute. repeat split. discriminate. Qed.
Print Assumptions checkpoint_after_completion_refuted.

Example checkpoint_case :
  let s := (with_data (fst (start [act_set])) (data (fst (fst (runZ true (start [act_set]))))), w0) in
  let '(s1, r) := write_checkpoint (Other 3) s in
  r = Ok tt /\ xval (fst (read_checkpoint (Other 3) (fst (start [act_set]), snd s1))) = Some 7%Z /\
  xval (start [act_set]) = Some 0%Z.
Proof. vm_compute. auto. Qed.

(** ** C09.  Resuming a fresh plan from the checkpoint file of action [N] has the
    outcome of a run in which action [N] is executed twice in a row: the
    checkpoint stores the state after action [N], but its pointer still names
    action [N].  ([p0], [w0]: plan and files at the start of the first run;
    [w]: files seen by the second process.) *)
Theorem resume_runs_action_twice : forall V Sc Ev full_like ninf pinf truthy evalx (p0 : plan V Sc Ev) (w0 w : world V Ev) N d,
  saved p0 = true -> action_ptr p0 = 0 -> core_tight (data p0) ->
  lookup_file (files w0) (Chkpt N) = None ->
  lookup_file (files (snd (fst (run_with full_like ninf pinf evalx p0 (actions p0) w0)))) (Chkpt N) = Some d ->
  lookup_file (files w) (Chkpt N) = Some d ->
  same_keys (data p0) (data (fst (fst (run_with full_like ninf pinf evalx p0 (firstn (S N) (actions p0)) w0)))) ->
  let again := firstn (S N) (actions p0) ++ skipn N (actions p0) in
  let resumed := resume full_like ninf pinf truthy evalx (Some (Chkpt N)) true (p0, w) in
  let twice := run_with full_like ninf pinf evalx p0 again w0 in
  data (fst (fst resumed)) = data (fst (fst twice)) /\ snd resumed = snd twice.
Proof. exact resume_reexecutes'. Qed.
Print Assumptions resume_runs_action_twice.

(** Hence resuming agrees with the uninterrupted run if executing action [N]
    again changes nothing ... *)
Theorem resume_correct_if_idempotent : forall V Sc Ev full_like ninf pinf truthy evalx (p0 : plan V Sc Ev) (w0 w : world V Ev) N d,
  saved p0 = true -> action_ptr p0 = 0 -> core_tight (data p0) ->
  lookup_file (files w0) (Chkpt N) = None ->
  lookup_file (files (snd (fst (run_with full_like ninf pinf evalx p0 (actions p0) w0)))) (Chkpt N) = Some d ->
  lookup_file (files w) (Chkpt N) = Some d ->
  same_keys (data p0) (data (fst (fst (run_with full_like ninf pinf evalx p0 (firstn (S N) (actions p0)) w0)))) ->
  let once := run_with full_like ninf pinf evalx p0 (firstn (S N) (actions p0)) w0 in
  let again := run_with full_like ninf pinf evalx p0 (firstn (S N) (actions p0) ++ firstn 1 (skipn N (actions p0))) w0 in
  data (fst (fst again)) = data (fst (fst once)) -> snd again = Ok tt ->
  let resumed := resume full_like ninf pinf truthy evalx (Some (Chkpt N)) true (p0, w) in
  let uninterrupted := run_with full_like ninf pinf evalx p0 (actions p0) w0 in
  data (fst (fst resumed)) = data (fst (fst uninterrupted)) /\ snd resumed = snd uninterrupted.
Proof. exact resume_idempotent. Qed.
Print Assumptions resume_correct_if_idempotent.

(** ... and disagrees for an action that increments a variable. *)
Theorem resume_differs_refuted : exists (s : st Z Z evZ) N,
  let crashed := fst (runZ true s) in
  snd (runZ true s) = Ok tt /\ xval crashed = Some 2%Z /\
  snd (resumeZ (Some (Chkpt N)) true (fst s, snd crashed)) = Ok tt /\
  xval (fst (resumeZ (Some (Chkpt N)) true (fst s, snd crashed))) = Some 3%Z.
Proof. exists (start [act_inc; act_inc]), 0. vm_compute. auto. Qed.
Print Assumptions resume_differs_refuted.

(** The hypotheses hold for plans built by add_action. *)
Theorem built_plans_tight : forall V Sc full_like ninf pinf (ls : list (list (node V Sc))),
  core_tight (fold_left (fun c l => add_nodes full_like ninf pinf l c) ls
    {| node_map := []; var_value := []; var_frozen := []; var_bounds := [] |}).
Proof. exact built_tight. Qed.
Print Assumptions built_plans_tight.
Example resume_case :
  let s := start [act_set; act_inc] in
  let w := snd (fst (runZ true s)) in
  saved (fst s) = true /\ action_ptr (fst s) = 0 /\ core_tight (data (fst s)) /\
  lookup_file (files (snd s)) (Chkpt 0) = None /\
  same_keys (data (fst s)) (data (fst (fst (run_withZ (fst s) (firstn 1 (actions (fst s))) (snd s))))) /\
  data (fst (fst (run_withZ (fst s) (firstn 1 (actions (fst s)) ++ firstn 1 (skipn 0 (actions (fst s)))) (snd s)))) =
    data (fst (fst (run_withZ (fst s) (firstn 1 (actions (fst s))) (snd s)))) /\
  xval (fst (resumeZ (Some (Chkpt 0)) true (fst s, w))) = Some 8%Z /\ xval (fst (runZ true s)) = Some 8%Z.
Proof.
  vm_compute. repeat split. repeat constructor; simpl; intuition discriminate.
Qed.

(** ** C10.  One process never uses a step number twice, whatever its history,
    exceptions included. *)
Theorem step_files_distinct : forall V Sc Ev full_like ninf pinf truthy evalx (ops : list (uop V Sc Ev)) sv ar,
  NoDup (steps_of (files (snd (fst (usteps full_like ninf pinf truthy evalx ops
    (init_plan V Sc Ev sv ar, {| files := [] |})))))).
Proof. exact numbered_once. Qed.
Print Assumptions step_files_distinct.

(** A successful write_event with a save folder stores event, pointer, variables
    and monitor values under the next number, and no later history of the same
    process changes that file. *)
Theorem event_file_content : forall V Sc Ev full_like ninf pinf truthy evalx ev mons (s : st V Sc Ev) a (ops : list (uop V Sc Ev)),
  saved (fst s) = true ->
  snd (call full_like ninf pinf evalx (OWriteEvent ev mons) s) = Ok a ->
  let s1 := fst (call full_like ninf pinf evalx (OWriteEvent ev mons) s) in
  exists d, lookup_file (files (snd (fst (usteps full_like ninf pinf truthy evalx ops s1)))) (Step (1 + log_counter (fst s))) = Some d /\
    f_ptr d = action_ptr (fst s) /\ f_event d = Some ev /\ f_log d = Some (1 + log_counter (fst s)) /\
    state_vars (data (fst s1)) = Ok (f_vars d) /\
    match mons with
    | [] => f_monitors d = []
    | _ => exists vals, evaln evalx mons (data (fst s1)) = Ok vals /\ f_monitors d = combine (map (@nname V Sc) mons) vals
    end.
Proof. exact event_file_durable. Qed.
Print Assumptions event_file_content.

(** A second process that resumes from a checkpoint starts counting at 1 again
    and overwrites the first process's files. *)
Theorem resumed_process_overwrites_refuted : exists (s : st Z Z evZ) N d d',
  let w := snd (fst (runZ true s)) in
  let r := resumeZ (Some (Chkpt N)) true (fst s, w) in
  snd r = Ok tt /\ lookup_file (files w) (Step 1) = Some d /\
  lookup_file (files (snd (fst r))) (Step 1) = Some d' /\
  f_monitors d = [(1, 1%Z)] /\ f_monitors d' = [(1, 3%Z)].
Proof.
  exists (start [act_inc; act_log; act_inc; act_log]), 2. do 2 eexists. vm_compute. repeat split.
Qed.
Print Assumptions resumed_process_overwrites_refuted.

(** ** C11.  A run that raises leaves the plan writable, its pointer at the
    failing action; a run that returns leaves it locked and complete. *)
Theorem run_exception_leaves_plan_writable : forall V Sc Ev full_like ninf pinf evalx auto (s s' : st V Sc Ev) r,
  run full_like ninf pinf evalx auto s = (s', r) ->
  match r with
  | Ok _ => length (actions (fst s')) <= action_ptr (fst s') /\
      forall o, is_mutator o = true -> call full_like ninf pinf evalx o s' = (s', Err ValueError)
  | Err e => action_ptr (fst s') < length (actions (fst s')) /\
      forall n v, aget (var_frozen (data (fst s'))) (nname n) = Some false ->
        let '(s2, r2) := call full_like ninf pinf evalx (OSetValue n v true) s' in
        r2 = Ok (@AUnit V Sc) /\ aget (var_value (data (fst s2))) (nname n) = Some v
  end.
Proof. exact run_exception_exposes. Qed.
Print Assumptions run_exception_leaves_plan_writable.
Theorem resume_after_completion_refuted : forall V Sc Ev full_like ninf pinf truthy evalx (s : st V Sc Ev),
  length (actions (fst s)) <= action_ptr (fst s) ->
  resume full_like ninf pinf truthy evalx None true s = ((with_mod (fst s) true, snd s), Err IndexError).
Proof. exact resume_completed. Qed.
Print Assumptions resume_after_completion_refuted.
Example failing_run_case :
  let '(s', r) := runZ true (start [act_inc; act_bad; act_inc]) in
  r = Err (UserError 3) /\ action_ptr (fst s') = 1 /\
  snd (ustepsZ [UCall (OSetValue x 99%Z true)] s') = [Ok tt] /\ xval (fst (ustepsZ [UCall (OSetValue x 99%Z true)] s')) = Some 99%Z.
Proof. vm_compute. auto. Qed.

(** ** C12.  Registering a node never touches what is registered already; new
    entries are parts of the node, new variables start with their declared
    value, frozen flag and bounds; registering twice is registering once. *)
Theorem add_node_conservative : forall V Sc full_like ninf pinf (n : node V Sc) c,
  let c' := add_node full_like ninf pinf n c in
  (forall k, amem (node_map c) k = true ->
     aget (node_map c') k = aget (node_map c) k /\ var_data c' k = var_data c k) /\
  (forall k m, aget (node_map c) k = None -> aget (node_map c') k = Some m ->
     sub m n /\ nname m = k /\
     forall d, ndecl m = Some d -> var_data c' k = declared full_like ninf pinf d) /\
  add_node full_like ninf pinf n c' = c'.
Proof. exact add_node_summary. Qed.
Print Assumptions add_node_conservative.
(** With unique names, every direct and indirect input is registered. *)
Theorem add_node_registers_inputs : forall V Sc full_like ninf pinf (U : node V Sc -> Prop) n c,
  (forall n i, U n -> In i (nins n) -> U i) -> (forall a b, U a -> U b -> nname a = nname b -> a = b) ->
  U n ->
  (forall k m, aget (node_map c) k = Some m ->
     nname m = k /\ U m /\ forall i, In i (nins m) -> aget (node_map c) (nname i) = Some i) ->
  let c' := add_node full_like ninf pinf n c in
  (forall m, sub m n -> aget (node_map c') (nname m) = Some m) /\
  (forall k m, aget (node_map c') k = Some m ->
     nname m = k /\ U m /\ forall i, In i (nins m) -> aget (node_map c') (nname i) = Some i).
Proof. exact add_node_closure. Qed.
Print Assumptions add_node_registers_inputs.
(** Without unique names the inputs of the second node are not registered. *)
Theorem name_clash_drops_inputs_refuted : exists (a b v : node Z Z),
  nname a = nname b /\ sub v b /\
  let c := add_nodes full (-1000)%Z 1000%Z [a; b] {| node_map := []; var_value := []; var_frozen := []; var_bounds := [] |} in
  aget (node_map c) (nname v) = None /\ aget (node_map c) (nname b) = Some a /\ a <> b.
Proof.
  exists (Node 3 None []), incx, x. split; [reflexivity|]. split; [eapply sub_step; [now left|apply sub_refl]|].
  vm_compute. repeat split. discriminate.
Qed.
Print Assumptions name_clash_drops_inputs_refuted.
Example registration_case :
  let c := add_node full (-1000)%Z 1000%Z addxy (data (fst (start [act_inc]))) in
  map fst (node_map c) = [3; 1; 4; 2] /\
  var_data c 2 = (Some 7%Z, Some true, Some (0, 1000)%Z).
Proof. vm_compute. auto. Qed.

(** ** C55.  [resume(auto_checkpoint=False)] still writes a checkpoint for every
    action after the resumed one. *)
Theorem resume_ignores_auto_checkpoint_refuted : forall V Sc Ev full_like ninf pinf truthy evalx ck (s s' : st V Sc Ev),
  saved (fst s) = true -> resume full_like ninf pinf truthy evalx ck false s = (s', Ok tt) ->
  exists ptr, (forall i, ptr < i < length (actions (fst s')) -> lookup_file (files (snd s')) (Chkpt i) <> None) /\
    match ck with
    | None => ptr = action_ptr (fst s)
    | Some f => exists d, lookup_file (files (snd s)) f = Some d /\ ptr = f_ptr d
    end.
Proof. exact resume_ckpts_anyway. Qed.
Print Assumptions resume_ignores_auto_checkpoint_refuted.
Example resume_auto_case :
  let '(s', r) := resumeZ None false (start [act_inc; act_inc; act_inc]) in
  r = Ok tt /\ map fst (files (snd s')) = [Chkpt 2; Chkpt 1].
Proof. vm_compute. auto. Qed.

(** ** C66.  The action added by Variable.set assigns the value and changes nothing
    else of any registered variable; it raises ValueError and assigns nothing exactly
    when the variable is frozen and not a parameter. *)
Theorem set_variable_action : forall V Sc Ev full_like ninf pinf evalx (var value : node V Sc) (s : st V Sc Ev) fr v,
  modifiable (fst s) = true ->
  amem (node_map (data (fst s))) (nname var) = true -> aget (var_frozen (data (fst s))) (nname var) = Some fr ->
  evaln evalx [value] (add_nodes full_like ninf pinf [value] (data (fst s))) = Ok [v] ->
  let out := exec full_like ninf pinf evalx (set_variable_run Ev var value) s in
  snd out = (if fr && negb (param_of var) then Err ValueError else Ok tt) /\
  snd (fst out) = snd s /\
  forall k, amem (node_map (data (fst s))) k = true ->
    var_data (data (fst (fst out))) k =
    if Nat.eqb k (nname var) && negb (fr && negb (param_of var)) then
      (Some v, Some fr, aget (var_bounds (data (fst s))) k) else var_data (data (fst s)) k.
Proof. exact set_variable_run_spec. Qed.
Print Assumptions set_variable_action.

(** Whatever is done with Variable.set, .freeze, .thaw and run, a parameter stays
    frozen. *)
Theorem parameters_stay_frozen : forall V Sc Ev full_like ninf pinf evalx x (l : list (vop V Sc)) (s : st V Sc Ev),
  actions (fst s) = [] -> amem (node_map (data (fst s))) x = true -> aget (var_frozen (data (fst s))) x = Some true ->
  (forall o n, In o l -> vop_var o = Some n -> nname n = x -> param_of n = true) ->
  aget (var_frozen (data (fst (fold_left (fun s o => fst (vstep full_like ninf pinf evalx o s)) l s)))) x = Some true.
Proof. exact parameters_frozen_lemma. Qed.
Print Assumptions parameters_stay_frozen.

(** Test: the parameter y is set to 8 although frozen, x only while it is not. *)
Example parameter_case :
  let s := fst (ustepsZ [UCall (OAddNode incx); UCall (OAddNode y)] (init_plan Z Z evZ true false, w0)) in
  let go l := fold_left (fun s o => fst (vstep full (-1000)%Z 1000%Z evalxZ o s)) l s in
  actions (fst s) = [] /\ aget (var_frozen (data (fst s))) 2 = Some true /\
  aget (var_value (data (fst (go [VSet 5 x incx; VFreeze 6 x; VThaw 7 y; VSet 8 y incx; VRun true])))) 2 = Some 2%Z /\
  xval (go [VSet 5 x incx; VFreeze 6 x; VSet 7 x incx; VRun true]) = Some 1%Z /\
  xval (go [VSet 5 x incx; VFreeze 6 x; VThaw 7 x; VSet 8 x incx; VRun true]) = Some 2%Z.
Proof. vm_compute. auto 10. Qed.

(** ** C78.  Resuming from the file that an action wrote when it reported an event:
    the variables are those at the time of the event, the action's own [resume] is given the event
    (if there is one and the event is not empty, otherwise the action is run from its start), and the
    later actions follow. *)
Theorem resume_from_event_file : forall V Sc Ev full_like ninf pinf (truthy : Ev -> bool) evalx (p0 : plan V Sc Ev) (w0 w : world V Ev) (s1 s2 : st V Sc Ev) (ev : Ev) mons v f d (a : action V Sc Ev) before after,
  saved p0 = true -> action_ptr p0 = 0 -> core_tight (data p0) -> actions p0 = before ++ a :: after ->
  saved (fst s1) = true -> action_ptr (fst s1) = length before -> modifiable (fst s1) = true ->
  call full_like ninf pinf evalx (OWriteEvent ev mons) s1 = (s2, Ok v) ->
  lookup_file (files (snd s2)) (Step (log_counter (fst s2))) = Some d -> lookup_file (files w) f = Some d ->
  same_keys (data p0) (data (fst s2)) ->
  let code := if truthy ev then match a_resume a with Some g => g ev | None => a_run a end else a_run a in
  let resumed := resume full_like ninf pinf truthy evalx (Some f) true (p0, w) in
  let rest := run_with full_like ninf pinf evalx (with_data p0 (data (fst s2))) (with_code a code :: after) w0 in
  data (fst (fst resumed)) = data (fst (fst rest)) /\ snd resumed = snd rest.
Proof. exact resume_from_event. Qed.
Print Assumptions resume_from_event_file.
(** Hence nothing is lost or done twice if the action knows how to continue after its event. *)
Theorem resume_continues_action : forall V Sc Ev full_like ninf pinf (truthy : Ev -> bool) evalx (p0 : plan V Sc Ev) (w0 w : world V Ev) (s0 s1 s2 : st V Sc Ev) (ev : Ev) mons k v f d (a : action V Sc Ev) g before after,
  saved p0 = true -> action_ptr p0 = 0 -> core_tight (data p0) -> actions p0 = before ++ a :: after ->
  (* the first process completed the actions before [a] and then ran [a] up to the event *)
  snd (run_with full_like ninf pinf evalx p0 before w0) = Ok tt ->
  saved (fst s0) = true -> modifiable (fst s0) = true -> actions (fst s0) = actions p0 -> action_ptr (fst s0) = length before ->
  data (fst s0) = data (fst (fst (run_with full_like ninf pinf evalx p0 before w0))) ->
  reaches full_like ninf pinf evalx (a_run a) s0 (Do (OWriteEvent ev mons) k) s1 ->
  call full_like ninf pinf evalx (OWriteEvent ev mons) s1 = (s2, Ok v) ->
  lookup_file (files (snd s2)) (Step (log_counter (fst s2))) = Some d -> lookup_file (files w) f = Some d ->
  same_keys (data p0) (data (fst s2)) ->
  truthy ev = true -> a_resume a = Some g -> (forall s, exec full_like ninf pinf evalx (g ev) s = exec full_like ninf pinf evalx (k (Ok v)) s) ->
  let resumed := resume full_like ninf pinf truthy evalx (Some f) true (p0, w) in
  let uninterrupted := run_with full_like ninf pinf evalx p0 (actions p0) w0 in
  data (fst (fst resumed)) = data (fst (fst uninterrupted)) /\ snd resumed = snd uninterrupted.
Proof. exact resume_continues. Qed.
Print Assumptions resume_continues_action.
Example resume_continues_case :
  let s := start [act_inc; act_two [1] true; act_inc] in
  let w := snd (fst (runZ true s)) in
  core_tight (data (fst s)) /\ xval (fst (runZ true s)) = Some 4%Z /\
  snd (resumeZ (Some (Step 1)) true (fst s, w)) = Ok tt /\ xval (fst (resumeZ (Some (Step 1)) true (fst s, w))) = Some 4%Z.
Proof. vm_compute. repeat split. repeat constructor; simpl; intuition discriminate. Qed.
Example reaches_case : exists s1 k,
  reaches full (-1000)%Z 1000%Z evalxZ (a_run (act_two [1] true)) (with_mod (fst (start [act_two [1] true])) true, w0) (Do (OWriteEvent [1] [x]) k) s1 /\
  forall s v, exec full (-1000)%Z 1000%Z evalxZ (inc_then (@Ret _ _ _)) s = exec full (-1000)%Z 1000%Z evalxZ (k (Ok v)) s.
Proof.
  eexists. eexists. split.
  - cbn [a_run act_two]. unfold inc_then at 1. apply reaches_call. cbn. apply reaches_call. cbn. apply reaches_here.
  - intros s v. reflexivity.
Qed.
(** An action without [resume], or one whose event is empty, is run again from its start. *)
Theorem resume_without_support_refuted :
  let s := start [act_inc; act_two [1] false; act_inc] in
  let w := snd (fst (runZ true s)) in
  xval (fst (runZ true s)) = Some 4%Z /\ xval (fst (resumeZ (Some (Step 1)) true (fst s, w))) = Some 5%Z.
Proof. vm_compute. auto. Qed.
Theorem resume_empty_event_refuted :
  let s := start [act_inc; act_two [] true; act_inc] in
  let w := snd (fst (runZ true s)) in
  xval (fst (runZ true s)) = Some 4%Z /\ xval (fst (resumeZ (Some (Step 1)) true (fst s, w))) = Some 5%Z.
Proof. vm_compute. auto. Qed.
