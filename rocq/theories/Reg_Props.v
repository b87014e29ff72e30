(** Registries of node types (C134, C135) and joined monitors (C136). *)
From Verif Require Import Base Reg_Model Reg_Spec Reg_Proofs3.
From Coq Require Import Permutation.

(** ** C134: contexts *)
(** registering succeeds iff the context has no entry of this name, and then changes this
    entry of this context only; otherwise ValueError and nothing changes *)
Theorem context_register : forall (s : ostate) c meta ty model f, exists_in s c ->
  (forall x, ctx_model (obj [] s c) meta ty = Some x -> ostep s (ORegister c meta ty model f) = (Err ValueError, s)) /\
  (ctx_model (obj [] s c) meta ty = None -> exists s',
     ostep s (ORegister c meta ty model f) = (Ok tt, s') /\ rstack s' = rstack s /\
     ctx_model (obj [] s' c) meta ty = Some model /\ ctx_creator (obj [] s' c) meta ty = f /\
     forall c' meta' ty', (c', meta', ty') <> (c, meta, ty) ->
       ctx_model (obj [] s' c') meta' ty' = ctx_model (obj [] s c') meta' ty' /\
       ctx_creator (obj [] s' c') meta' ty' = ctx_creator (obj [] s c') meta' ty').
Proof. exact register_lemma. Qed.
Theorem context_register_top : forall (s : ostate) meta ty model f,
  (rstack s = [] -> ostep s (ORegisterTop meta ty model f) = (Err AttributeError, s)) /\
  (forall st c, rstack s = st ++ [c] -> ostep s (ORegisterTop meta ty model f) = ostep s (ORegister c meta ty model f)).
Proof. exact register_top_lemma. Qed.
(** whatever the program does, an entry stays as it was registered *)
Theorem context_persistent : forall s l c meta ty x, o_reachable s -> o_legal_run s l -> ctx_model (obj [] s c) meta ty = Some x ->
  ctx_model (obj [] (orun s l) c) meta ty = Some x /\ ctx_creator (obj [] (orun s l) c) meta ty = ctx_creator (obj [] s c) meta ty.
Proof. exact persistent_lemma. Qed.
(** lookups give the entry of the topmost context that has one *)
Theorem context_lookup : forall (s : ostate) meta ty,
  (forall x, stack_model s meta ty = Some x <-> exists c, topmost (rstack s) (fun c => ctx_model (obj [] s c) meta ty <> None) c /\ ctx_model (obj [] s c) meta ty = Some x) /\
  (stack_model s meta ty = None <-> nowhere (rstack s) (fun c => ctx_model (obj [] s c) meta ty <> None)) /\
  (forall f, stack_creator s meta ty = Some f <-> exists c, topmost (rstack s) (fun c => ctx_creator (obj [] s c) meta ty <> None) c /\ ctx_creator (obj [] s c) meta ty = Some f) /\
  (stack_creator s meta ty = None <-> nowhere (rstack s) (fun c => ctx_creator (obj [] s c) meta ty <> None)).
Proof. exact lookup_lemma. Qed.
(** the dictionary of all models agrees with the lookups *)
Theorem context_merge : forall s meta, o_reachable s ->
  (forall ty, oget (stack_model_dict s meta) ty = stack_model s meta ty) /\ NoDup (map fst (stack_model_dict s meta)).
Proof. exact Reg_Proofs.stack_dict_lemma. Qed.
(** registrations in a pushed context are gone after the pop *)
Theorem context_scope : forall s l, o_reachable s -> Forall o_top_only l ->
  let s' := orun s (ONew :: OPush (length (objs s)) :: l ++ [OPop]) in
  rstack s' = rstack s /\ forall meta ty, stack_model s' meta ty = stack_model s meta ty /\ stack_creator s' meta ty = stack_creator s meta ty.
Proof. exact scope_lemma. Qed.
(** if every entry has a creator, model and creator are of one registration *)
Theorem context_pair : forall (s : ostate) meta ty x,
  (forall c, In c (rstack s) -> ctx_model (obj [] s c) meta ty <> None -> ctx_creator (obj [] s c) meta ty <> None) ->
  stack_model s meta ty = Some x ->
  exists c, In c (rstack s) /\ ctx_model (obj [] s c) meta ty = Some x /\
    stack_creator s meta ty = ctx_creator (obj [] s c) meta ty /\ stack_creator s meta ty <> None.
Proof. exact pair_lemma. Qed.
(** otherwise not: the model of the upper context, the creator of the lower *)
Definition mixed : list oop := [ONew; ORegister 0 1 2 10 (Some 20); ONew; ORegister 1 1 2 11 None; OPush 0; OPush 1].
Theorem context_pair_refuted : exists s meta ty x f, o_reachable s /\
  stack_model s meta ty = Some x /\ stack_creator s meta ty = Some f /\
  forall c, ~ (ctx_model (obj [] s c) meta ty = Some x /\ ctx_creator (obj [] s c) meta ty = Some f).
Proof.
  exists (orun ostart mixed), 1, 2, 11, 20. split; [|split; [|split]].
  - exists mixed. split; [|reflexivity]. cbv. repeat split; auto.
  - reflexivity.
  - reflexivity.
  - intros c [A B]. destruct c as [|[|[|c]]]; cbv in A, B; try discriminate.
Qed.
(** the contexts of goos *)
Theorem context_goos_register : forall (s : gstate) c name e, exists_in s c ->
  (forall x, oget (obj [] s c) name = Some x -> gregister s c name e = (Err ValueError, s)) /\
  (oget (obj [] s c) name = None -> exists s',
     gregister s c name e = (Ok tt, s') /\ rstack s' = rstack s /\ oget (obj [] s' c) name = Some e /\
     forall c' n, (c', n) <> (c, name) -> oget (obj [] s' c') n = oget (obj [] s c') n).
Proof. exact g_register_lemma. Qed.
Theorem context_goos_lookup : forall (s : gstate) name,
  (forall e, gget s name = Ok e <-> exists c, topmost (rstack s) (fun c => oget (obj [] s c) name <> None) c /\ oget (obj [] s c) name = Some e) /\
  (nowhere (rstack s) (fun c => oget (obj [] s c) name <> None) <-> gget s name = Err ValueError).
Proof. exact g_lookup_lemma. Qed.
Theorem context_goos_merge : forall s, g_reachable context_push s ->
  NoDup (map fst (gmap s)) /\ (forall name e, oget (gmap s) name = Some e <-> gget s name = Ok e).
Proof. exact g_merge_lemma. Qed.
Theorem context_goos_persistent : forall s l c name e, g_reachable context_push s -> g_legal_run context_push s l ->
  oget (obj [] s c) name = Some e -> oget (obj [] (grun context_push s l) c) name = Some e.
Proof. exact g_persistent_lemma. Qed.
Theorem context_goos_scope : forall s l, g_reachable context_push s -> Forall g_top_only l ->
  let s' := grun context_push s (GPush None :: l ++ [GPop]) in
  rstack s' = rstack s /\ forall name, gget s' name = gget s name.
Proof. exact g_scope_lemma. Qed.
Theorem context_goos_empty : forall push (s : gstate), rstack s = [] ->
  gstep push s GPop = (Err IndexError, s) /\ (forall name e, gstep push s (GRegisterTop name e) = (Err IndexError, s)) /\
  (forall name, gget s name = Err ValueError) /\ gmap s = [].
Proof. exact g_empty_lemma. Qed.

(** two contexts with the same name: the upper one shadows, a duplicate is refused, the pop
    uncovers the lower one *)
Definition shadow : list oop := [ONew; ONew; OPush 0; ORegisterTop 1 2 10 (Some 20); ORegisterTop 1 3 12 (Some 22); OPush 1; ORegisterTop 1 2 11 (Some 21)].
Example context_case : let s := orun ostart shadow in o_reachable s /\
  stack_model s 1 2 = Some 11 /\ stack_creator s 1 2 = Some 21 /\ stack_model s 1 3 = Some 12 /\ stack_model s 1 4 = None /\
  stack_model_dict s 1 = [(2, 11); (3, 12)] /\
  ostep s (ORegisterTop 1 2 13 None) = (Err ValueError, s) /\ fst (ostep s (ORegisterTop 1 3 13 None)) = Ok tt /\
  stack_model (orun s [OPop]) 1 2 = Some 10.
Proof. split; [exists shadow; split; [cbv; repeat split; auto|reflexivity]|]. repeat split. Qed.
Example context_goos_case : let s := grun context_push gstart [GRegisterTop 5 (1, 2); GPush None; GRegisterTop 5 (3, 4); GRegisterTop 6 (7, 8)] in
  g_reachable context_push s /\ gget s 5 = Ok (3, 4) /\ gmap s = [(5, (3, 4)); (6, (7, 8))] /\ gget s 7 = Err ValueError /\
  gget (grun context_push s [GPop]) 5 = Ok (1, 2) /\ gget (grun context_push s [GPop]) 6 = Err ValueError.
Proof. split; [eexists; split; [|reflexivity]; cbv; repeat split; auto|]. repeat split. Qed.

(** ** C135: the schema registry *)
(** push always fails, so that there is at most the first registry; names are unique for good *)
Theorem schema_registry_single : forall s, g_reachable registry_push s ->
  (forall c, gstep registry_push s (GPush c) = (Err NameError, s)) /\
  (rstack s = [0] \/ rstack s = []) /\
  (rstack s = [0] ->
     (forall name, gget s name = match oget (obj [] s 0) name with Some e => Ok e | None => Err ValueError end) /\
     (forall name e, fst (gstep registry_push s (GRegisterTop name e)) = if is_ok (gget s name) then Err ValueError else Ok tt)).
Proof. exact registry_lemma. Qed.
Theorem schema_registry_forever : forall s l name e, g_reachable registry_push s -> g_legal_run registry_push s l ->
  rstack (grun registry_push s l) = [0] -> gget s name = Ok e -> gget (grun registry_push s l) name = Ok e.
Proof. exact registry_forever_lemma. Qed.
(** hence a scope around registrations does not work: they stay, or the pop takes everything *)
Theorem schema_registry_scope_refuted : exists s l, g_reachable registry_push s /\ Forall g_top_only l /\
  let s' := grun registry_push s (GPush None :: l ++ [GPop]) in rstack s' <> rstack s /\ exists name e, gget s name = Ok e /\ gget s' name = Err ValueError.
Proof.
  exists (grun registry_push gstart [GRegisterTop 5 (1, 2)]), [GRegisterTop 6 (3, 4)].
  split; [eexists; split; [|reflexivity]; cbv; auto|]. split; [repeat constructor|]. split; [discriminate|]. exists 5, (1, 2). split; reflexivity.
Qed.
Example schema_registry_case : let s := grun registry_push gstart [GRegisterTop 5 (1, 2); GPush None; GRegisterTop 6 (3, 4)] in
  g_reachable registry_push s /\ rstack s = [0] /\ gget s 5 = Ok (1, 2) /\ gget s 6 = Ok (3, 4) /\
  fst (gstep registry_push s (GRegisterTop 5 (9, 9))) = Err ValueError /\
  gget (grun registry_push s [GNew; GRegister 1 5 (8, 8); GRegisterTop 7 (6, 6)]) 5 = Ok (1, 2).
Proof. split; [eexists; split; [|reflexivity]; cbv; auto|]. repeat split. Qed.

(** ** C136: joined monitors *)
(** accepted iff the monitors of each joiner id agree; then one entry for each id, in order of
    first appearance, with the names in order *)
Theorem monitors_join : forall l r, convert_element_list l = Ok r <->
  consistent l /\ r = map (group l) (first_seen (map m_joiner l)).
Proof. exact monitors_ok_lemma. Qed.
Theorem monitors_reject : forall l, ~ consistent l -> Forall (fun m => m_joiner m <> JNone) l -> convert_element_list l = Err ValueError.
Proof. exact monitors_err_lemma. Qed.
(** every monitor is in exactly one entry *)
Theorem monitors_partition : forall l r, convert_element_list l = Ok r -> Permutation (concat (map j_names r)) (map m_name l).
Proof. exact monitors_partition_lemma. Qed.
(** if every monitor has an id, the search by id gives the entry of this id *)
Theorem monitors_find : forall l r n, convert_element_list l = Ok r -> Forall named l ->
  (forall d, get_joined_monitor_description r (JName n) = Some d ->
     (exists m, In m l /\ m_joiner m = JName n) /\ j_id d = JName n /\ j_names d = map m_name (members l (JName n)) /\
     forall m, In m l -> m_joiner m = JName n -> m_type m = j_type d /\ m_scalar m = j_scalar d /\ m_vector m = j_vector d) /\
  (get_joined_monitor_description r (JName n) = None -> forall m, In m l -> m_joiner m <> JName n).
Proof. exact monitors_find_lemma. Qed.
Theorem monitors_objects : forall l, get_monitor_objects l None = map m_name l /\
  forall t n, In n (get_monitor_objects l (Some t)) <-> exists m, In m l /\ m_type m = t /\ m_name m = n.
Proof. exact monitor_objects_lemma. Qed.
(** without ids: two monitors without id become one entry, although nothing joins them; if they
    differ the exception is TypeError; and the entry hides one whose id is the first name *)
Theorem monitors_no_id_refuted :
  (exists l r, convert_element_list l = Ok r /\ (forall a b, In a l -> In b l -> m_joiner a = JNone) /\ length r < length l) /\
  (exists l, convert_element_list l = Err TypeError) /\
  (exists l r n d, convert_element_list l = Ok r /\ get_joined_monitor_description r (JName n) = Some d /\
     exists m, In m l /\ m_joiner m = JName n /\ ~ In (m_name m) (j_names d)).
Proof.
  split; [|split].
  - exists [MDesc 1 JNone 0 0 0; MDesc 2 JNone 0 0 0]. eexists. split; [reflexivity|]. split; [|simpl; auto].
    intros a b [<-|[<-|[]]] _; reflexivity.
  - exists [MDesc 1 JNone 0 0 0; MDesc 2 JNone 1 0 0]. reflexivity.
  - exists [MDesc 1 JNone 0 0 0; MDesc 2 (JName 1) 0 0 0]. eexists _, 1, _. split; [reflexivity|]. split; [reflexivity|].
    exists (MDesc 2 (JName 1) 0 0 0). split; [simpl; auto|]. split; [reflexivity|]. simpl. intros [H|[]]. discriminate.
Qed.
Example monitors_case : let l := [MDesc 1 (JName 9) 0 1 2; MDesc 2 (JName 8) 1 1 2; MDesc 3 (JName 9) 0 1 2] in
  Forall named l /\ consistent l /\
  convert_element_list l = Ok [JDesc (JName 9) [1; 3] 0 1 2; JDesc (JName 8) [2] 1 1 2] /\
  convert_element_list (l ++ [MDesc 4 (JName 8) 1 1 3]) = Err ValueError /\
  ~ consistent (l ++ [MDesc 4 (JName 8) 1 1 3]).
Proof.
  cbv zeta. split; [repeat (constructor; [exact I|]); constructor|]. 
  split; [eapply proj1, (proj1 (monitors_join _ [JDesc (JName 9) [1; 3] 0 1 2; JDesc (JName 8) [2] 1 1 2])); reflexivity|]. split; [reflexivity|]. split; [reflexivity|].
  intros H. specialize (H (MDesc 2 (JName 8) 1 1 2) (MDesc 4 (JName 8) 1 1 3)). simpl in H. intuition discriminate.
Qed.

Print Assumptions context_register. Print Assumptions context_register_top. Print Assumptions context_persistent. Print Assumptions context_lookup.
Print Assumptions context_merge. Print Assumptions context_scope. Print Assumptions context_pair. Print Assumptions context_pair_refuted.
Print Assumptions context_goos_register. Print Assumptions context_goos_lookup. Print Assumptions context_goos_merge. Print Assumptions context_goos_persistent.
Print Assumptions context_goos_scope. Print Assumptions context_goos_empty.
Print Assumptions schema_registry_single. Print Assumptions schema_registry_forever. Print Assumptions schema_registry_scope_refuted.
Print Assumptions monitors_join. Print Assumptions monitors_reject. Print Assumptions monitors_partition. Print Assumptions monitors_find. Print Assumptions monitors_objects. Print Assumptions monitors_no_id_refuted.
