(** Lemmas about calls, programs, runs, checkpoints. *)
From Verif Require Import Base Plan_Model Plan_Spec Plan_Proofs.
From Coq Require Import Sorted.
Set Implicit Arguments.

Section PP2.
Variables V Sc Ev : Type.
Variable full_like : V -> Sc -> V.
Variables ninf pinf : Sc.
Variable truthy : Ev -> bool.
Variable evalx : list (node V Sc) -> list (node V Sc * V * bool) -> res (list V).
Notation node := (node V Sc).
Notation core := (core V Sc).
Notation prog := (prog V Sc Ev).
Notation st := (st V Sc Ev).
Notation add_node := (add_node full_like ninf pinf).
Notation add_nodes := (add_nodes full_like ninf pinf).
Notation call := (call full_like ninf pinf evalx).
Notation write_event := (write_event full_like ninf pinf evalx).
Notation exec := (exec full_like ninf pinf evalx).
Notation run_loop := (run_loop full_like ninf pinf evalx).
Notation run := (run full_like ninf pinf evalx).
Notation resume := (resume full_like ninf pinf truthy evalx).
Notation ustep := (ustep full_like ninf pinf truthy evalx).
Notation usteps := (usteps full_like ninf pinf truthy evalx).
Notation add_action := (add_action full_like ninf pinf evalx).
Implicit Types (s : st) (c : core).

(** The fields that no API call touches. *)
Definition frame (s s' : st) : Prop :=
  modifiable (fst s') = modifiable (fst s) /\ autorun (fst s') = autorun (fst s) /\
  saved (fst s') = saved (fst s) /\ actions (fst s') = actions (fst s) /\
  action_ptr (fst s') = action_ptr (fst s).
Lemma frame_refl s : frame s s.
Proof. repeat split. Qed.
Lemma frame_trans s1 s2 s3 : frame s1 s2 -> frame s2 s3 -> frame s1 s3.
Proof. intros (A1 & A2 & A3 & A4 & A5) (B1 & B2 & B3 & B4 & B5). repeat split; congruence. Qed.

Lemma write_checkpoint_frame f s : frame s (fst (write_checkpoint f s)).
Proof. unfold write_checkpoint. destruct (get_state_dict (fst s)) as [[ptr vs]|e]; repeat split. Qed.

Lemma write_event_frame ev mons s : frame s (fst (write_event ev mons s)).
Proof.
  unfold Plan_Model.write_event. cbn [actions with_log action_ptr].
  destruct (nth_error (actions (fst s)) (action_ptr (fst s))); [|repeat split].
  destruct mons as [|m mons].
  - destruct (get_state_dict _) as [[ptr vs]|e]; repeat split.
  - destruct (evaln _ _ _) as [vals|e]; [|repeat split].
    destruct (get_state_dict _) as [[ptr vs]|e]; repeat split.
Qed.

Lemma call_frame o s : frame s (fst (call o s)).
Proof.
  destruct o; cbn [Plan_Model.call]; unfold guarded, upd;
    try (destruct (modifiable (fst s)) eqn:Hm; [|apply frame_refl]);
    try (repeat split; fail).
  - destruct (if check then _ else _) as [[|]|e]; repeat split.
  - apply write_event_frame.
  - assert (H := write_checkpoint_frame (Other k) s). destruct (write_checkpoint (Other k) s) as [s' r]. exact H.
Qed.

Lemma exec_frame p : forall s, frame s (fst (exec p s)).
Proof.
  induction p as [|e|o k IH]; intros s; cbn [Plan_Model.exec]; [apply frame_refl|apply frame_refl|].
  assert (H := call_frame o s). destruct (call o s) as [s' r]. cbn [fst] in H.
  eapply frame_trans; [exact H|apply IH].
Qed.

Lemma after_action_frame auto s s' r : after_action auto s = (s', r) ->
  modifiable (fst s') = modifiable (fst s) /\ autorun (fst s') = autorun (fst s) /\ saved (fst s') = saved (fst s) /\
  actions (fst s') = actions (fst s) /\ data (fst s') = data (fst s) /\ log_counter (fst s') = log_counter (fst s) /\
  match r with Ok _ => action_ptr (fst s') = 1 + action_ptr (fst s) /\ action_data (fst s') = None
             | Err _ => action_ptr (fst s') = action_ptr (fst s) end.
Proof.
  unfold after_action, write_checkpoint. destruct (auto && saved (fst s))%bool.
  - destruct (get_state_dict (fst s)) as [[ptr vs]|e]; intros H; inversion H; subst; cbn; repeat split.
  - intros H; inversion H; subst; cbn; repeat split.
Qed.

(** *** C11 *)

Lemma run_loop_mod k auto : forall s s' r, modifiable (fst s) = true ->
  length (actions (fst s)) - action_ptr (fst s) <= k -> run_loop k auto s = (s', r) ->
  actions (fst s') = actions (fst s) /\ action_ptr (fst s) <= action_ptr (fst s') /\ autorun (fst s') = autorun (fst s) /\ saved (fst s') = saved (fst s) /\
  match r with
  | Ok _ => modifiable (fst s') = false /\ length (actions (fst s')) <= action_ptr (fst s')
  | Err e => modifiable (fst s') = true /\ action_ptr (fst s') < length (actions (fst s'))
  end.
Proof.
  induction k as [|k IH]; intros s s' r Hm Hk; cbn [Plan_Model.run_loop];
    destruct (nth_error (actions (fst s)) (action_ptr (fst s))) as [a|] eqn:Ea.
  - (assert (action_ptr (fst s) < length (actions (fst s))) by (apply nth_error_Some; congruence)). lia.
  - intros H; inversion H; subst; cbn. apply nth_error_None in Ea. repeat split; auto.
  - assert (Hlt : action_ptr (fst s) < length (actions (fst s))) by (apply nth_error_Some; congruence).
    assert (Hf := exec_frame (a_run a) s). destruct (exec (a_run a) s) as [s1 r1]. cbn [fst] in Hf.
    destruct Hf as (F1 & F2 & F3 & F4 & F5).
    destruct r1 as [u|e].
    + destruct (after_action auto s1) as [s2 r2] eqn:Eaa. apply after_action_frame in Eaa as (G1 & G2 & G3 & G4 & G5 & G6 & G7).
      destruct r2 as [u2|e].
      * intros H. destruct G7 as [G7 G8].
        destruct (IH s2 s' r) as (I1 & I2 & I3 & I4 & I5); [congruence|rewrite G4, F4, G7, F5; lia|assumption|].
        split; [congruence|]. split; [lia|]. split; [congruence|]. split; [congruence|]. exact I5.
      * intros H; inversion H; subst. rewrite G4, G7, F4, F5, G1, F1, G2, G3. repeat split; auto.
    + intros H; inversion H; subst. rewrite F4, F5, F1. repeat split; auto.
  - intros H; inversion H; subst; cbn. apply nth_error_None in Ea. repeat split; auto.
Qed.


Lemma run_outcome auto s s' r : run auto s = (s', r) ->
  actions (fst s') = actions (fst s) /\ action_ptr (fst s) <= action_ptr (fst s') /\
  match r with
  | Ok _ => modifiable (fst s') = false /\ length (actions (fst s')) <= action_ptr (fst s')
  | Err e => modifiable (fst s') = true /\ action_ptr (fst s') < length (actions (fst s'))
  end.
Proof.
  unfold Plan_Model.run. intros H. apply run_loop_mod in H; [|reflexivity|cbn; lia].
  cbn [fst with_mod actions action_ptr] in H. tauto.
Qed.

Lemma run_frame2 auto s s' r : run auto s = (s', r) -> autorun (fst s') = autorun (fst s) /\ saved (fst s') = saved (fst s).
Proof.
  unfold Plan_Model.run. intros H. apply run_loop_mod in H; [|reflexivity|cbn; lia].
  cbn [fst with_mod autorun saved] in H. tauto.
Qed.


(** *** variable data of registered variables *)
Lemma guarded_false s r : modifiable (fst s) = false -> guarded s r = (s, Err ValueError).
Proof. unfold guarded. now intros ->. Qed.

(** outside an action *)
Lemma call_protected o s : modifiable (fst s) = false ->
  (is_mutator o = true -> call o s = (s, Err ValueError)) /\
  (forall k, amem (node_map (data (fst s))) k = true ->
     var_data (data (fst (fst (call o s)))) k = var_data (data (fst s)) k /\
     amem (node_map (data (fst (fst (call o s))))) k = true).
Proof.
  intros Hm. split.
  - destruct o; cbn [is_mutator Plan_Model.call]; intros H; try discriminate; now apply guarded_false.
  - intros k Hk. destruct o; cbn [Plan_Model.call]; try rewrite guarded_false by assumption; cbn [fst data upd with_data]; auto.
    + destruct (add_node_ext full_like ninf pinf n (data (fst s))) as (A1 & _ & A3 & _).
      split; [now apply A3|]. unfold amem in *. destruct (aget (node_map (data (fst s))) k) eqn:E; [|discriminate]. now rewrite (A1 _ _ E).
    + destruct (add_nodes_ext full_like ninf pinf ns (data (fst s))) as (A1 & _ & A3 & _).
      split; [now apply A3|]. unfold amem in *. destruct (aget (node_map (data (fst s))) k) eqn:E; [|discriminate]. now rewrite (A1 _ _ E).
    + unfold write_checkpoint. destruct (get_state_dict (fst s)) as [[ptr vs]|e]; cbn [fst]; auto.
Qed.

(** *** frozen variables inside actions *)
Lemma write_event_data ev mons s :
  data (fst (fst (write_event ev mons s))) = data (fst s) \/
  data (fst (fst (write_event ev mons s))) = add_nodes mons (data (fst s)).
Proof.
  unfold Plan_Model.write_event. cbn [actions with_log action_ptr].
  destruct (nth_error (actions (fst s)) (action_ptr (fst s))); [|now left].
  destruct mons as [|m mons].
  - left. destruct (get_state_dict _) as [[ptr vs]|e]; reflexivity.
  - right. destruct (evaln _ _ _) as [vals|e]; [|reflexivity].
    destruct (get_state_dict _) as [[ptr vs]|e]; reflexivity.
Qed.

Lemma call_frozen x o s : op_respects x o -> amem (node_map (data (fst s))) x = true ->
  aget (var_frozen (data (fst s))) x = Some true ->
  amem (node_map (data (fst (fst (call o s))))) x = true /\
  aget (var_frozen (data (fst (fst (call o s))))) x = Some true /\
  aget (var_value (data (fst (fst (call o s))))) x = aget (var_value (data (fst s))) x.
Proof.
  intros Ho Hx Hf.
  assert (Hadd : forall Q c', ext full_like ninf pinf Q (data (fst s)) c' ->
     amem (node_map c') x = true /\ aget (var_frozen c') x = Some true /\ aget (var_value c') x = aget (var_value (data (fst s))) x).
  { intros Q c' (A1 & _ & A3 & _). specialize (A3 x Hx). unfold var_data in A3. inversion A3 as [[A31 A32 A33]].
    split; [|split; congruence]. unfold amem in *. destruct (aget (node_map (data (fst s))) x) eqn:E; [|discriminate]. now rewrite (A1 _ _ E). }
  destruct o; cbn [Plan_Model.call]; unfold guarded; try (match goal with |- context [if modifiable _ then _ else _] => destruct (modifiable (fst s)); [|cbn [fst]; auto] end); cbn [fst data upd with_data with_val with_fr with_bnd node_map var_frozen var_value]; auto.
  - destruct check.
    + unfold aidx. destruct (aget (var_frozen (data (fst s))) (nname n)) as [[|]|] eqn:E; cbn [fst data upd with_data with_val node_map var_frozen var_value]; auto.
      rewrite aget_aset_other; auto. intros ->. congruence.
    + cbn [fst data upd with_data with_val node_map var_frozen var_value]. rewrite aget_aset_other; auto.
  - split; [assumption|]. split; [|reflexivity]. destruct (Nat.eq_dec x (nname n)) as [->|]; [apply aget_aset_same|]. now rewrite aget_aset_other.
  - split; [assumption|]. split; [|reflexivity]. simpl in Ho. rewrite aget_aset_other; auto.
  - eapply Hadd. apply add_node_ext.
  - eapply Hadd. apply add_nodes_ext.
  - destruct (write_event_data ev mons s) as [-> | ->]; [auto|]. eapply Hadd. apply add_nodes_ext.
  - unfold write_checkpoint. destruct (get_state_dict (fst s)) as [[ptr vs]|e]; cbn [fst]; auto.
Qed.

Lemma exec_frozen x p : forall s, respects x p -> amem (node_map (data (fst s))) x = true ->
  aget (var_frozen (data (fst s))) x = Some true ->
  aget (var_frozen (data (fst (fst (exec p s))))) x = Some true /\
  aget (var_value (data (fst (fst (exec p s))))) x = aget (var_value (data (fst s))) x.
Proof.
  induction p as [|e|o k IH]; intros s Hr Hx Hf; cbn [Plan_Model.exec]; auto.
  destruct Hr as [Ho Hk]. destruct (call_frozen x o s Ho Hx Hf) as (C1 & C2 & C3).
  destruct (call o s) as [s' r]. cbn [fst] in *. rewrite <- C3. apply IH; auto.
Qed.

(** *** protection between runs *)
Definition passive (o : uop V Sc Ev) : bool := match o with UCall _ => true | URead _ => true | _ => false end.
Lemma ustep_locked o s s' : modifiable (fst s) = false -> ustep o s = (s', Ok tt) -> modifiable (fst s') = false.
Proof.
  intros Hm. destruct o; cbn [Plan_Model.ustep].
  - assert (H := call_frame o s). destruct (call o s) as [s1 r]. cbn [fst] in H. intros He. inversion He; subst.
    destruct H as (H & _). congruence.
  - unfold Plan_Model.add_action. cbn [autorun with_data with_actions]. destruct (autorun (fst s)).
    + intros H. apply run_outcome in H. tauto.
    + intros H. inversion H; subst. exact Hm.
  - intros H. apply run_outcome in H. tauto.
  - unfold Plan_Model.resume. destruct (match ck with None => _ | Some _ => _ end) as [s0 [u|e]]; [|discriminate].
    destruct (nth_error _ _) as [a|]; [|discriminate].
    destruct (exec _ _) as [s2 [u2|e]]; [|discriminate].
    destruct (after_action auto s2) as [s3 [u3|e]]; [|discriminate].
    intros H. apply run_outcome in H. tauto.
  - unfold read_checkpoint. destruct (lookup_file _ _) as [d|]; intros H; inversion H; subst. exact Hm.
Qed.

Lemma ustep_fail_locked o s s' e : modifiable (fst s) = false -> passive o = true -> ustep o s = (s', Err e) -> modifiable (fst s') = false.
Proof.
  intros Hm Hp. destruct o; try discriminate; cbn [Plan_Model.ustep].
  - assert (H := call_frame o s). destruct (call o s) as [s1 r]. cbn [fst] in H. intros He. inversion He; subst.
    destruct H as (H & _). congruence.
  - unfold read_checkpoint. destruct (lookup_file _ _) as [d|]; intros H; inversion H; subst; exact Hm.
Qed.

(** *** C08 *)
Lemma state_vars_spec c vs : state_vars c = Ok vs ->
  akeys vs = akeys (var_value c) /\
  forall k v fr b, In (k, (v, fr, b)) vs -> In (k, v) (var_value c) /\ aget (var_frozen c) k = Some fr /\ aget (var_bounds c) k = Some b.
Proof.
  unfold state_vars. intros H. apply mapM_ok_Forall2 in H.
  induction H as [|[k v] [k' [[v' fr] b]] l l' Hx HF IH]; [split; [reflexivity|intros ? ? ? ? []]|].
  destruct IH as [IH1 IH2]. cbn [fst snd] in Hx. unfold aidx in Hx.
  destruct (aget (var_frozen c) k) as [fr0|] eqn:Ef; cbn [bind] in Hx; [|discriminate].
  destruct (aget (var_bounds c) k) as [b0|] eqn:Eb; cbn [bind] in Hx; [|discriminate].
  inversion Hx; subst. split.
  - cbn. f_equal. exact IH1.
  - intros j w f' b' [Hin|Hin]; [inversion Hin; subst; split; [now left|auto]|].
    apply IH2 in Hin as (A & B). split; [now right|assumption].
Qed.

Definition load1 (c : core) (kv : nat * (V * bool * bounds V)) : core :=
  let '(k, (v, fr, b)) := kv in
  with_bnd (with_fr (with_val c (aset (var_value c) k v)) (aset (var_frozen c) k fr)) (aset (var_bounds c) k b).
Lemma load_vars_fold vs (c : core) : load_vars vs c = fold_left load1 vs c.
Proof. reflexivity. Qed.

Lemma load1_data c k v fr b j : var_data (load1 c (k, (v, fr, b))) j =
  if Nat.eqb j k then (Some v, Some fr, Some b) else var_data c j.
Proof.
  unfold var_data, load1. cbn. destruct (Nat.eqb j k) eqn:Ejk.
  - apply Nat.eqb_eq in Ejk. subst j. now rewrite !aget_aset_same.
  - apply Nat.eqb_neq in Ejk. now rewrite !aget_aset_other by assumption.
Qed.

Lemma load_vars_data vs : forall c, NoDup (akeys vs) -> forall j,
  var_data (load_vars vs c) j = match aget vs j with Some (v, fr, b) => (Some v, Some fr, Some b) | None => var_data c j end.
Proof.
  induction vs as [|[k [[v fr] b]] vs IH]; intros c Hnd j; [reflexivity|].
  inversion Hnd as [|? ? Hn Hnd']; subst. rewrite load_vars_fold. cbn [fold_left]. rewrite <- load_vars_fold.
  rewrite IH by assumption. cbn [aget]. destruct (Nat.eqb k j) eqn:Ekj.
  - apply Nat.eqb_eq in Ekj. subst j. replace (aget vs k) with (@None (V * bool * bounds V)).
    + rewrite load1_data. now rewrite Nat.eqb_refl.
    + symmetry. now apply aget_None.
  - destruct (aget vs j) as [[[v' f'] b']|]; [reflexivity|]. rewrite load1_data. rewrite Nat.eqb_sym in Ekj. now rewrite Ekj.
Qed.

Lemma load_vars_nodemap vs : forall c : core, node_map (load_vars vs c) = node_map c.
Proof. induction vs as [|[k [[v fr] b]] vs IH]; intros c; [reflexivity|]. rewrite load_vars_fold. cbn [fold_left]. rewrite <- load_vars_fold, IH. reflexivity. Qed.

Lemma state_vars_aget c vs : NoDup (akeys (var_value c)) -> state_vars c = Ok vs ->
  forall k, match aget (var_value c) k with
            | Some v => exists fr b, aget vs k = Some (v, fr, b) /\ aget (var_frozen c) k = Some fr /\ aget (var_bounds c) k = Some b
            | None => aget vs k = None
            end.
Proof.
  intros Hnd H k. apply state_vars_spec in H as [Hk Hin].
  destruct (aget (var_value c) k) as [v|] eqn:Ev0.
  - assert (Hkk : In k (akeys vs)) by (rewrite Hk; now apply aget_keys in Ev0).
    apply keys_aget in Hkk as ([[v' fr] b] & Hg). exists fr, b. assert (Hi := aget_In _ _ Hg). apply Hin in Hi as (A & B & C).
    apply In_aget in A; [|assumption]. rewrite Ev0 in A. inversion A; subst. auto.
  - apply aget_None. rewrite Hk. now apply aget_None.
Qed.

Lemma checkpoint_roundtrip f s s1 s2 :
  NoDup (akeys (var_value (data (fst s)))) ->
  write_checkpoint f s = (s1, Ok tt) ->
  lookup_file (files (snd s2)) f = lookup_file (files (snd s1)) f ->
  fst s1 = fst s /\
  exists s3, read_checkpoint f s2 = (s3, Ok tt) /\ snd s3 = snd s2 /\
    action_ptr (fst s3) = action_ptr (fst s) /\ action_data (fst s3) = None /\
    (forall k, aget (var_value (data (fst s))) k <> None -> var_data (data (fst s3)) k = var_data (data (fst s)) k) /\
    (forall k, aget (var_value (data (fst s))) k = None -> var_data (data (fst s3)) k = var_data (data (fst s2)) k) /\
    node_map (data (fst s3)) = node_map (data (fst s2)) /\ modifiable (fst s3) = modifiable (fst s2) /\
    actions (fst s3) = actions (fst s2) /\ log_counter (fst s3) = log_counter (fst s2).
Proof.
  intros Hnd Hw Hl. unfold write_checkpoint, get_state_dict in Hw.
  destruct (state_vars (data (fst s))) as [vs|e] eqn:Hsv; cbn [bind] in Hw; [|discriminate].
  destruct (nth_error (actions (fst s)) (action_ptr (fst s))); [|discriminate].
  inversion Hw; subst s1. split; [reflexivity|].
  cbn [snd write_file files lookup_file] in Hl.
  assert (Hff : fname_eqb f f = true) by (destruct f; apply Nat.eqb_refl). rewrite Hff in Hl.
  eexists. unfold read_checkpoint. rewrite Hl. split; [reflexivity|]. cbn [fst snd with_data with_ptr data action_ptr action_data modifiable actions log_counter f_ptr f_event f_vars].
  assert (Hnv : NoDup (akeys vs)) by (apply state_vars_spec in Hsv as [-> _]; assumption).
  repeat split.
  - intros k Hk. rewrite load_vars_data by assumption. assert (H := state_vars_aget _ Hnd Hsv k).
    unfold var_data. destruct (aget (var_value (data (fst s))) k) as [v|]; [|congruence].
    destruct H as (fr & b & -> & -> & ->). reflexivity.
  - intros k Hk. rewrite load_vars_data by assumption. assert (H := state_vars_aget _ Hnd Hsv k). rewrite Hk in H. now rewrite H.
  - apply load_vars_nodemap.
Qed.
End PP2.
