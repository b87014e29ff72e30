(** The statements of Reg_Props from the lemmas. *)
From Verif Require Import Base Reg_Model Reg_Spec Reg_Proofs Reg_Proofs2.
From Coq Require Import Permutation.
Set Implicit Arguments.

Lemma entry_model s c meta ty : ctx_model (obj [] s c) meta ty = option_map fst (entry s c meta ty).
Proof. reflexivity. Qed.
Lemma entry_creator s c meta ty : ctx_creator (obj [] s c) meta ty = match entry s c meta ty with Some (_, f) => f | None => None end.
Proof. reflexivity. Qed.
Lemma register_lemma (s : ostate) c meta ty model f : exists_in s c ->
  (forall x, ctx_model (obj [] s c) meta ty = Some x -> ostep s (ORegister c meta ty model f) = (Err ValueError, s)) /\
  (ctx_model (obj [] s c) meta ty = None -> exists s',
     ostep s (ORegister c meta ty model f) = (Ok tt, s') /\ rstack s' = rstack s /\
     ctx_model (obj [] s' c) meta ty = Some model /\ ctx_creator (obj [] s' c) meta ty = f /\
     forall c' meta' ty', (c', meta', ty') <> (c, meta, ty) ->
       ctx_model (obj [] s' c') meta' ty' = ctx_model (obj [] s c') meta' ty' /\
       ctx_creator (obj [] s' c') meta' ty' = ctx_creator (obj [] s c') meta' ty').
Proof.
  intros Hc. destruct (oregister_cases meta ty model f Hc) as [H1 H2]. split.
  - intros x. rewrite entry_model. destruct (entry s c meta ty) as [e|]; [|discriminate]. intros _. now apply (H1 e).
  - rewrite entry_model. destruct (entry s c meta ty) as [e|] eqn:E; [discriminate|]. intros _.
    destruct (H2 eq_refl) as (s' & Es & Hr & _ & He). exists s'. split; [exact Es|]. split; [exact Hr|].
    rewrite entry_model, entry_creator, He, !Nat.eqb_refl. split; [reflexivity|]. split; [reflexivity|].
    intros c' meta' ty' Hne. rewrite !entry_model, !entry_creator, He.
    destruct (Nat.eqb_spec c' c) as [->|]; [|auto]. destruct (Nat.eqb_spec meta' meta) as [->|]; [|auto].
    destruct (Nat.eqb_spec ty' ty) as [->|]; [congruence|auto].
Qed.
Lemma register_top_lemma (s : ostate) meta ty model f :
  (rstack s = [] -> ostep s (ORegisterTop meta ty model f) = (Err AttributeError, s)) /\
  (forall st c, rstack s = st ++ [c] -> ostep s (ORegisterTop meta ty model f) = ostep s (ORegister c meta ty model f)).
Proof.
  destruct s as [os st0]. simpl. split.
  - intros ->. reflexivity.
  - intros st c ->. now rewrite top_snoc.
Qed.
Lemma persistent_lemma s l c meta ty x : o_reachable s -> o_legal_run s l -> ctx_model (obj [] s c) meta ty = Some x ->
  ctx_model (obj [] (orun s l) c) meta ty = Some x /\ ctx_creator (obj [] (orun s l) c) meta ty = ctx_creator (obj [] s c) meta ty.
Proof.
  intros Hs Hl. destruct (o_reachable_inv Hs) as [Hv _]. rewrite entry_model. destruct (entry s c meta ty) as [e|] eqn:E; [|discriminate].
  intros Hx. rewrite entry_model, !entry_creator. rewrite (@orun_entry l s c meta ty e Hv Hl E), E. auto.
Qed.
Lemma lookup_lemma (s : ostate) meta ty :
  (forall x, stack_model s meta ty = Some x <-> exists c, topmost (rstack s) (fun c => ctx_model (obj [] s c) meta ty <> None) c /\ ctx_model (obj [] s c) meta ty = Some x) /\
  (stack_model s meta ty = None <-> nowhere (rstack s) (fun c => ctx_model (obj [] s c) meta ty <> None)) /\
  (forall f, stack_creator s meta ty = Some f <-> exists c, topmost (rstack s) (fun c => ctx_creator (obj [] s c) meta ty <> None) c /\ ctx_creator (obj [] s c) meta ty = Some f) /\
  (stack_creator s meta ty = None <-> nowhere (rstack s) (fun c => ctx_creator (obj [] s c) meta ty <> None)).
Proof.
  split; [intros; apply first_some_topmost|]. split; [apply first_some_nowhere|]. split; [intros; apply first_some_topmost|apply first_some_nowhere].
Qed.
Lemma pair_list (s : ostate) meta ty x l :
  first_some (fun c => ctx_model (obj [] s c) meta ty) l = Some x ->
  (forall c, In c l -> ctx_model (obj [] s c) meta ty <> None -> ctx_creator (obj [] s c) meta ty <> None) ->
  exists c, In c l /\ ctx_model (obj [] s c) meta ty = Some x /\
    first_some (fun c => ctx_creator (obj [] s c) meta ty) l = ctx_creator (obj [] s c) meta ty /\ ctx_creator (obj [] s c) meta ty <> None.
Proof.
  induction l as [|c l IH]; intros Hx H; [discriminate|]. cbn [first_some] in *.
  destruct (ctx_model (obj [] s c) meta ty) as [y|] eqn:E.
  - assert (y = x) by congruence. subst y. exists c. split; [simpl; auto|]. split; [exact E|]. assert (Hn := H c (or_introl eq_refl) ltac:(congruence)).
    destruct (ctx_creator (obj [] s c) meta ty); [auto|congruence].
  - destruct IH as (c' & A & B & C & D); [exact Hx|intros; apply H; simpl; auto|]. exists c'. split; [simpl; auto|]. split; [exact B|]. split; [|exact D].
    rewrite entry_model in E. rewrite (entry_creator s c). destruct (entry s c meta ty) as [e|]; [discriminate|exact C].
Qed.
Lemma pair_lemma (s : ostate) meta ty x : (forall c, In c (rstack s) -> ctx_model (obj [] s c) meta ty <> None -> ctx_creator (obj [] s c) meta ty <> None) ->
  stack_model s meta ty = Some x ->
  exists c, In c (rstack s) /\ ctx_model (obj [] s c) meta ty = Some x /\ stack_creator s meta ty = ctx_creator (obj [] s c) meta ty /\ stack_creator s meta ty <> None.
Proof.
  intros H Hx. destruct (@pair_list s meta ty x (rev (rstack s)) Hx) as (c & A & B & C & D).
  - intros c Hc. apply H. now rewrite in_rev.
  - exists c. rewrite <- in_rev in A. unfold stack_creator. split; [exact A|]. split; [exact B|]. split; [exact C|]. intros E. apply D. rewrite <- C. exact E.
Qed.
Lemma scope_lemma s l : o_reachable s -> Forall o_top_only l ->
  let s' := orun s (ONew :: OPush (length (objs s)) :: l ++ [OPop]) in
  rstack s' = rstack s /\ forall meta ty, stack_model s' meta ty = stack_model s meta ty /\ stack_creator s' meta ty = stack_creator s meta ty.
Proof.
  intros Hs Hl. destruct (o_reachable_inv Hs) as [Hv _].
  set (s1 := push_addr (length (objs s)) (new_obj [] s) : ostate).
  assert (Er : orun s (ONew :: OPush (length (objs s)) :: l ++ [OPop]) = pop_addr (orun s1 l)).
  { unfold orun. cbn [fold_left]. rewrite fold_left_app. reflexivity. }
  cbv zeta. rewrite Er. clear Er.
  destruct (@orun_top l s1 (rstack s) (length (objs s)) Hl eq_refl) as [A B].
  { unfold exists_in, s1. cbn [objs new_obj push_addr]. rewrite app_length. apply Nat.lt_add_pos_r. exact Nat.lt_0_1. }
  set (s2 := orun s1 l) in *. assert (R : rstack (pop_addr s2) = rstack s). { cbn [rstack pop_addr]. rewrite A. apply removelast_last. }
  split; [exact R|].
  assert (Q : forall c meta ty, In c (rstack s) -> entry (pop_addr s2) c meta ty = entry s c meta ty).
  { intros c meta ty Hc. unfold valid in Hv. rewrite Forall_forall in Hv. specialize (Hv c Hc). change (entry (pop_addr s2) c meta ty) with (entry s2 c meta ty). rewrite B.
    - unfold entry, s1. exact (f_equal (fun x => ctx_entry x meta ty) (@new_obj_at octx [] s c)).
    - unfold exists_in in Hv. apply Nat.lt_neq, Hv. }
  intros meta ty. unfold stack_model, stack_creator. rewrite R.
  split; apply first_some_ext; intros c Hc; rewrite <- in_rev in Hc; rewrite ?entry_model, ?entry_creator, Q by auto; reflexivity.
Qed.

(** *** goos *)
Lemma g_register_lemma (s : gstate) c name e : exists_in s c ->
  (forall x, oget (obj [] s c) name = Some x -> gregister s c name e = (Err ValueError, s)) /\
  (oget (obj [] s c) name = None -> exists s',
     gregister s c name e = (Ok tt, s') /\ rstack s' = rstack s /\ oget (obj [] s' c) name = Some e /\
     forall c' n, (c', n) <> (c, name) -> oget (obj [] s' c') n = oget (obj [] s c') n).
Proof.
  intros Hc. destruct (gregister_cases name e Hc) as [H1 H2]. split; [exact H1|]. intros H. destruct (H2 H) as (s' & Es & Hr & _ & He).
  unfold gentry in He. exists s'. split; [exact Es|]. split; [exact Hr|]. rewrite He, !Nat.eqb_refl. split; [reflexivity|].
  intros c' n Hne. rewrite He. destruct (Nat.eqb_spec c' c) as [->|]; [|reflexivity]. destruct (Nat.eqb_spec n name) as [->|]; [congruence|reflexivity].
Qed.
Lemma g_lookup_lemma (s : gstate) name :
  (forall e, gget s name = Ok e <-> exists c, topmost (rstack s) (fun c => oget (obj [] s c) name <> None) c /\ oget (obj [] s c) name = Some e) /\
  (nowhere (rstack s) (fun c => oget (obj [] s c) name <> None) <-> gget s name = Err ValueError).
Proof.
  unfold gget. split.
  - intros e. rewrite <- (first_some_topmost (fun c => oget (obj [] s c) name)). destruct (first_some _ _); split; congruence.
  - rewrite <- (first_some_nowhere (fun c => oget (obj [] s c) name)). destruct (first_some _ _); split; congruence.
Qed.
Lemma g_merge_lemma (s : gstate) : g_reachable context_push s ->
  NoDup (map fst (gmap s)) /\ (forall name e, oget (gmap s) name = Some e <-> gget s name = Ok e).
Proof.
  intros Hs. destruct (g_reachable_inv context_push_good Hs) as [_ Hw]. destruct (gmap_lemma Hw) as [A B]. split; [exact B|].
  intros name e. rewrite A. unfold gget. destruct (first_some _ _); split; congruence.
Qed.
Lemma g_persistent_lemma (s : gstate) l c name e : g_reachable context_push s -> g_legal_run context_push s l ->
  oget (obj [] s c) name = Some e -> oget (obj [] (grun context_push s l) c) name = Some e.
Proof.
  intros Hs Hl H. destruct (g_reachable_inv context_push_good Hs) as [Hv _].
  destruct (@grun_inv context_push l context_push_good s Hl Hv) as (_ & B & _). exact (B c name e H).
Qed.
Lemma g_scope_lemma (s : gstate) l : g_reachable context_push s -> Forall g_top_only l ->
  let s' := grun context_push s (GPush None :: l ++ [GPop]) in
  rstack s' = rstack s /\ forall name, gget s' name = gget s name.
Proof.
  intros Hs Hl. destruct (g_reachable_inv context_push_good Hs) as [Hv _].
  set (s1 := push_addr (length (objs s)) (new_obj [] s) : gstate).
  assert (Er : grun context_push s (GPush None :: l ++ [GPop]) = snd (gstep context_push (grun context_push s1 l) GPop)).
  { unfold grun. cbn [fold_left]. rewrite fold_left_app. reflexivity. }
  cbv zeta. rewrite Er. clear Er.
  destruct (@grun_top context_push l s1 (rstack s) (length (objs s)) Hl eq_refl) as [A B].
  { unfold exists_in, s1. cbn [objs new_obj push_addr]. rewrite app_length. apply Nat.lt_add_pos_r. exact Nat.lt_0_1. }
  set (s2 := grun context_push s1 l) in *.
  assert (P : snd (gstep context_push s2 GPop) = pop_addr s2). { cbn [gstep]. rewrite A. now destruct (rstack s). }
  rewrite P. assert (R : rstack (pop_addr s2) = rstack s). { cbn [rstack pop_addr]. rewrite A. apply removelast_last. }
  split; [exact R|]. intros name. unfold gget. rewrite R. rewrite (@first_some_ext nat _ (fun c => oget (obj [] (pop_addr s2) c) name) (fun c => oget (obj [] s c) name)); [reflexivity|].
  intros c Hc. rewrite <- in_rev in Hc. unfold valid in Hv. rewrite Forall_forall in Hv. specialize (Hv c Hc).
  change (gentry s2 c name = gentry s c name). rewrite B.
  - exact (f_equal (fun x => oget x name) (@new_obj_at gctx [] s c)).
  - unfold exists_in in Hv. apply Nat.lt_neq, Hv.
Qed.
Lemma g_empty_lemma push (s : gstate) : rstack s = [] ->
  gstep push s GPop = (Err IndexError, s) /\ (forall name e, gstep push s (GRegisterTop name e) = (Err IndexError, s)) /\
  (forall name, gget s name = Err ValueError) /\ gmap s = [].
Proof. destruct s as [os st]. simpl. intros ->. auto. Qed.

(** *** schema registry *)
Lemma registry_lemma s : g_reachable registry_push s ->
  (forall c, gstep registry_push s (GPush c) = (Err NameError, s)) /\
  (rstack s = [0] \/ rstack s = []) /\
  (rstack s = [0] ->
     (forall name, gget s name = match oget (obj [] s 0) name with Some e => Ok e | None => Err ValueError end) /\
     (forall name e, fst (gstep registry_push s (GRegisterTop name e)) = if is_ok (gget s name) then Err ValueError else Ok tt)).
Proof.
  intros (l & Hl & ->). split; [reflexivity|]. split; [apply registry_stack; auto|]. set (s := grun registry_push gstart l). intros R.
  assert (G : forall name, gget s name = match oget (obj [] s 0) name with Some e => Ok e | None => Err ValueError end).
  { intros name. unfold gget. rewrite R. simpl. now destruct (oget (obj [] s 0) name). }
  split; [exact G|]. intros name e. rewrite G. cbn [gstep]. unfold top. rewrite R. simpl. unfold gregister. now destruct (oget (obj [] s 0) name).
Qed.
Lemma registry_forever_lemma s l name e : g_reachable registry_push s -> g_legal_run registry_push s l -> rstack (grun registry_push s l) = [0] ->
  gget s name = Ok e -> gget (grun registry_push s l) name = Ok e.
Proof.
  intros Hs Hl R Hg. destruct (g_reachable_inv registry_push_good Hs) as [Hv _].
  destruct (@grun_inv registry_push l registry_push_good s Hl Hv) as (_ & B & _).
  destruct (registry_lemma Hs) as (_ & [R0|R0] & H0).
  - destruct (H0 R0) as [G _]. rewrite G in Hg. destruct (oget (obj [] s 0) name) as [x|] eqn:E; [|discriminate]. injection Hg as ->.
    unfold gget. rewrite R. cbn [rev app first_some]. assert (Bx := B 0 name e E). unfold gentry in Bx. now rewrite Bx.
  - unfold gget in Hg. rewrite R0 in Hg. discriminate.
Qed.

(** *** monitors *)
Lemma monitors_ok_lemma l r : convert_element_list l = Ok r <-> consistent l /\ r = map (group l) (first_seen (map m_joiner l)).
Proof.
  split.
  - intros H. destruct (consistent_dec l) as [Hc|Hc].
    + split; [exact Hc|]. rewrite (convert_ok_lemma Hc) in H. congruence.
    + destruct (convert_err_lemma Hc) as (m & _ & Hm). congruence.
  - intros [Hc ->]. now apply convert_ok_lemma.
Qed.
Lemma monitors_err_lemma l : ~ consistent l -> Forall (fun m => m_joiner m <> JNone) l -> convert_element_list l = Err ValueError.
Proof.
  intros Hc Hl. destruct (convert_err_lemma Hc) as (m & Hm & ->). rewrite Forall_forall in Hl. specialize (Hl m Hm). now destruct (m_joiner m).
Qed.
Lemma monitors_partition_lemma l r : convert_element_list l = Ok r -> Permutation (concat (map j_names r)) (map m_name l).
Proof.
  rewrite monitors_ok_lemma. intros [_ ->]. rewrite map_map.
  replace (map (fun x => j_names (group l x)) (first_seen (map m_joiner l))) with (map (map m_name) (map (members l) (first_seen (map m_joiner l)))) by (rewrite map_map; reflexivity).
  rewrite <- concat_map. apply Permutation_map, members_partition; [apply first_seen_nodup|]. intros m Hm. rewrite first_seen_in. now apply in_map.
Qed.
Lemma find_group l js n : Forall (fun j => exists k, j = JName k) js -> find (fun d => joiner_eqb (j_id d) (JName n)) (map (group l) js) =
  if in_dec joiner_dec (JName n) js then Some (group l (JName n)) else None.
Proof.
  induction js as [|j js IH]; intros H; [reflexivity|]. inversion H as [|? ? (k & ->) Hj]; subst. cbn [map find]. rewrite IH by auto. unfold joiner_eqb. cbn [j_id group jkey].
  destruct (Nat.eqb_spec (S (S k)) (S (S n))) as [E|E].
  - injection E as ->. destruct (in_dec joiner_dec (JName n) (JName n :: js)) as [|Hx]; [reflexivity|]. elim Hx. simpl. auto.
  - destruct (in_dec joiner_dec (JName n) js), (in_dec joiner_dec (JName n) (JName k :: js)) as [Hx|Hx]; try reflexivity.
    + elim Hx. simpl. auto.
    + destruct Hx as [Hx|Hx]; [congruence|contradiction].
Qed.
Lemma monitors_find_lemma l r n : convert_element_list l = Ok r -> Forall named l ->
  (forall d, get_joined_monitor_description r (JName n) = Some d ->
     (exists m, In m l /\ m_joiner m = JName n) /\ j_id d = JName n /\ j_names d = map m_name (members l (JName n)) /\
     forall m, In m l -> m_joiner m = JName n -> m_type m = j_type d /\ m_scalar m = j_scalar d /\ m_vector m = j_vector d) /\
  (get_joined_monitor_description r (JName n) = None -> forall m, In m l -> m_joiner m <> JName n).
Proof.
  rewrite monitors_ok_lemma. intros [Hc ->] Hn. unfold get_joined_monitor_description. rewrite find_group.
  2:{ rewrite Forall_forall in *. intros j Hj. rewrite first_seen_in in Hj. apply in_map_iff in Hj as (m & <- & Hm). specialize (Hn m Hm). unfold named in Hn. destruct (m_joiner m); [tauto|tauto|eauto]. }
  destruct (in_dec joiner_dec (JName n) (first_seen (map m_joiner l))) as [Hi|Hi]; rewrite first_seen_in in Hi.
  - split; [|discriminate]. intros d Hd. injection Hd as <-. destruct (members_some _ _ Hi) as (m0 & r0 & Em & Hm0 & Hj0).
    split; [eauto|]. split; [reflexivity|]. split; [reflexivity|]. intros m Hm Hj. unfold group. rewrite Em. simpl. apply Hc; auto. congruence.
  - split; [discriminate|]. intros _ m Hm Hj. apply Hi. rewrite <- Hj. now apply in_map.
Qed.
Lemma monitor_objects_lemma l : get_monitor_objects l None = map m_name l /\
  forall t n, In n (get_monitor_objects l (Some t)) <-> exists m, In m l /\ m_type m = t /\ m_name m = n.
Proof.
  split; [reflexivity|]. intros t n. simpl. rewrite in_map_iff. split.
  - intros (m & Hn & Hm). apply filter_In in Hm as [Hm Ht]. apply Nat.eqb_eq in Ht. eauto.
  - intros (m & Hm & Ht & Hn). exists m. split; [exact Hn|]. apply filter_In. split; [exact Hm|]. now apply Nat.eqb_eq.
Qed.
