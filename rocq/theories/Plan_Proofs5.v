(** The variable actions of goos/math.py. *)
From Verif Require Import Base Plan_Model Plan_Spec Plan_Proofs Plan_Proofs2 Plan_Proofs3.
Set Implicit Arguments.

Section PP5.
Variables V Sc Ev : Type.
Variable full_like : V -> Sc -> V.
Variables ninf pinf : Sc.
Variable evalx : list (node V Sc) -> list (node V Sc * V * bool) -> res (list V).
Notation node := (node V Sc).
Notation core := (core V Sc).
Notation prog := (prog V Sc Ev).
Notation st := (st V Sc Ev).
Notation add_nodes := (add_nodes full_like ninf pinf).
Notation call := (call full_like ninf pinf evalx).
Notation exec := (exec full_like ninf pinf evalx).
Notation run := (run full_like ninf pinf evalx).
Notation run_loop := (run_loop full_like ninf pinf evalx).
Notation vstep := (vstep full_like ninf pinf evalx).
Implicit Types (s : st) (c : core).

Lemma set_variable_run_spec (var value : node) s fr v : modifiable (fst s) = true ->
  amem (node_map (data (fst s))) (nname var) = true -> aget (var_frozen (data (fst s))) (nname var) = Some fr ->
  evaln evalx [value] (add_nodes [value] (data (fst s))) = Ok [v] ->
  let out := exec (set_variable_run Ev var value) s in
  snd out = (if fr && negb (param_of var) then Err ValueError else Ok tt) /\
  snd (fst out) = snd s /\
  forall k, amem (node_map (data (fst s))) k = true ->
    var_data (data (fst (fst out))) k =
    if Nat.eqb k (nname var) && negb (fr && negb (param_of var)) then
      (Some v, Some fr, aget (var_bounds (data (fst s))) k) else var_data (data (fst s)) k.
Proof.
  intros Hm Hn Hf Hv. unfold set_variable_run. cbn [Plan_Model.exec]. cbn [Plan_Model.call]. rewrite Hv. cbn [bind].
  destruct (add_nodes_ext full_like ninf pinf [value] (data (fst s))) as (A1 & _ & A3 & _).
  set (c' := add_nodes [value] (data (fst s))) in *.
  assert (Hf' : aget (var_frozen c') (nname var) = Some fr).
  { specialize (A3 _ Hn). unfold var_data in A3. injection A3 as _ H _. congruence. }
  cbn [Plan_Model.exec Plan_Model.call]. unfold guarded, upd. cbn [fst snd with_data modifiable data]. rewrite Hm.
  assert (Hset : var_data (with_val c' (aset (var_value c') (nname var) v)) (nname var) = (Some v, Some fr, aget (var_bounds (data (fst s))) (nname var))).
  { specialize (A3 _ Hn). unfold var_data in A3 |- *. cbn [with_val var_value var_frozen var_bounds]. injection A3 as _ _ Hb. rewrite aget_aset_same, Hf', Hb. reflexivity. }
  assert (Hoth : forall k, k <> nname var -> amem (node_map (data (fst s))) k = true ->
     var_data (with_val c' (aset (var_value c') (nname var) v)) k = var_data (data (fst s)) k).
  { intros k Hk Hk'. rewrite <- (A3 k Hk'). unfold var_data. cbn [with_val var_value var_frozen var_bounds]. now rewrite aget_aset_other by assumption. }
  destruct (param_of var) eqn:Ep; cbn [negb andb].
  - cbn [fst snd]. rewrite Bool.andb_false_r. cbn [Plan_Model.exec fst snd with_data data]. split; [reflexivity|]. split; [reflexivity|].
    intros k Hk. cbn [negb]. rewrite Bool.andb_true_r. destruct (Nat.eqb_spec k (nname var)) as [->|Hne]; auto.
  - unfold aidx. rewrite Hf'. rewrite Bool.andb_true_r. destruct fr; cbn [fst snd Plan_Model.exec negb with_data data]; (split; [reflexivity|]); (split; [reflexivity|]);
      intros k Hk; rewrite ?Bool.andb_false_r, ?Bool.andb_true_r.
    + apply A3; assumption.
    + destruct (Nat.eqb_spec k (nname var)) as [->|Hne]; auto.
Qed.

(** *** parameters *)
Fixpoint never_thaws (x : nat) (p : prog) : Prop :=
  match p with
  | Do o k => match o with OThaw n => nname n <> x | _ => True end /\ forall r, never_thaws x (k r)
  | _ => True
  end.
Definition froz x s := amem (node_map (data (fst s))) x = true /\ aget (var_frozen (data (fst s))) x = Some true.
Lemma call_froz x o s : match o with OThaw n => nname n <> x | _ => True end -> froz x s -> froz x (fst (call o s)).
Proof.
  intros Ho [Hx Hf].
  assert (Hadd : forall Q c', ext full_like ninf pinf Q (data (fst s)) c' ->
     amem (node_map c') x = true /\ aget (var_frozen c') x = Some true).
  { intros Q c' (A1 & _ & A3 & _). specialize (A3 x Hx). unfold var_data in A3. inversion A3 as [[A31 A32 A33]].
    split; [|congruence]. unfold amem in *. destruct (aget (node_map (data (fst s))) x) eqn:E; [|discriminate]. now rewrite (A1 _ _ E). }
  unfold froz. destruct o; cbn [Plan_Model.call]; unfold guarded; try (match goal with |- context [if modifiable _ then _ else _] => destruct (modifiable (fst s)); [|cbn [fst]; auto] end); cbn [fst data upd with_data with_val with_fr with_bnd node_map var_frozen var_value]; auto.
  - destruct (if check then _ else _) as [[|]|e]; cbn [fst data upd with_data with_val node_map var_frozen]; auto.
  - split; [assumption|]. destruct (Nat.eq_dec x (nname n)) as [->|]; [apply aget_aset_same|]. now rewrite aget_aset_other.
  - split; [assumption|]. rewrite aget_aset_other; auto.
  - eapply Hadd. apply add_node_ext.
  - eapply Hadd. apply add_nodes_ext.
  - destruct (write_event_data full_like ninf pinf evalx ev mons s) as [-> | ->]; [auto|]. eapply Hadd. apply add_nodes_ext.
  - unfold write_checkpoint. destruct (get_state_dict (fst s)) as [[ptr vs]|e]; cbn [fst]; auto.
Qed.
Lemma exec_froz x p : forall s, never_thaws x p -> froz x s -> froz x (fst (exec p s)).
Proof.
  induction p as [|e|o k IH]; intros s Hr Hx; cbn [Plan_Model.exec]; auto.
  destruct Hr as [Ho Hk]. assert (C := call_froz o Ho Hx). destruct (call o s) as [s' r]. cbn [fst] in *. apply IH; auto.
Qed.
Definition fine x s := froz x s /\ forall a, In a (actions (fst s)) -> never_thaws x (a_run a).
Lemma run_loop_fine x k auto : forall s, fine x s -> fine x (fst (run_loop k auto s)).
Proof.
  induction k as [|k IH]; intros s [Hf Ha]; cbn [Plan_Model.run_loop]; destruct (nth_error _ _) as [a|] eqn:Ea; try (split; assumption).
  assert (Hin : never_thaws x (a_run a)) by (eapply Ha, nth_error_In, Ea).
  assert (F := @exec_froz x (a_run a) s Hin Hf). assert (Fr := exec_frame full_like ninf pinf evalx (a_run a) s).
  destruct (exec (a_run a) s) as [s1 [u|e]]; cbn [fst] in *;
    (assert (Hact : actions (fst s1) = actions (fst s)) by (destruct Fr as (?&?&?&?&?); congruence)).
  - destruct (after_action auto s1) as [s2 r2] eqn:Eaf. apply after_action_frame in Eaf as (_ & _ & _ & B4 & B5 & _).
    assert (fine x s2) by (split; [unfold froz; rewrite B5; exact F|rewrite B4, Hact; exact Ha]).
    destruct r2; [apply IH; assumption|assumption].
  - split; [exact F|rewrite Hact; exact Ha].
Qed.
Lemma run_fine x auto s : fine x s -> fine x (fst (run auto s)).
Proof. intros [Hf Ha]. unfold Plan_Model.run. apply run_loop_fine. split; assumption. Qed.
Lemma add_action_fine x a s : never_thaws x (a_run a) -> fine x s -> fine x (fst (add_action full_like ninf pinf evalx a s)).
Proof.
  intros Hn [[Hx Hf] Ha]. unfold Plan_Model.add_action.
  set (s' := (with_data _ _, snd s)).
  assert (fine x s').
  { split.
    - destruct (add_nodes_ext full_like ninf pinf (a_inputs a) (data (fst s))) as (A1 & _ & A3 & _). specialize (A3 x Hx).
      unfold var_data in A3. inversion A3 as [[A31 A32 A33]]. unfold froz, s'. cbn. split; [|congruence].
      unfold amem in *. destruct (aget (node_map (data (fst s))) x) eqn:E; [|discriminate]. now rewrite (A1 _ _ E).
    - intros b Hb. unfold s' in Hb. cbn in Hb. apply in_app_or in Hb as [Hb|[<-|[]]]; auto. }
  destruct (autorun _); [apply run_fine; assumption|assumption].
Qed.
Definition vop_var (o : vop V Sc) : option node :=
  match o with VSet _ n _ | VFreeze _ n | VThaw _ n => Some n | VRun _ => None end.
Lemma vstep_fine x o s : (forall n, vop_var o = Some n -> nname n = x -> param_of n = true) -> fine x s -> fine x (fst (vstep o s)).
Proof.
  intros Ho Hs. destruct o as [k var value|k var|k var|auto]; cbn [Plan_Model.vstep].
  - apply add_action_fine; auto. cbn. split; [exact I|]. intros [[| | | |[|v [|v' l]]]|e]; cbn; auto. split; [exact I|]. intros [u|e]; exact I.
  - apply add_action_fine; auto. cbn. split; [exact I|]. intros [u|e]; exact I.
  - specialize (Ho var eq_refl). destruct (param_of var); [exact Hs|]. apply add_action_fine; auto. cbn. split.
    + intros H. specialize (Ho H). discriminate.
    + intros [u|e]; exact I.
  - apply run_fine, Hs.
Qed.
Lemma vsteps_fine x l : forall s, (forall o n, In o l -> vop_var o = Some n -> nname n = x -> param_of n = true) ->
  fine x s -> fine x (fold_left (fun s o => fst (vstep o s)) l s).
Proof.
  induction l as [|o l IH]; intros s Hl Hs; [exact Hs|]. cbn [fold_left]. apply IH; [intros o' n Ho'; apply Hl; now right|].
  apply vstep_fine; auto. intros n. apply Hl. now left.
Qed.
Lemma parameters_frozen_lemma x l s : actions (fst s) = [] ->
  amem (node_map (data (fst s))) x = true -> aget (var_frozen (data (fst s))) x = Some true ->
  (forall o n, In o l -> vop_var o = Some n -> nname n = x -> param_of n = true) ->
  aget (var_frozen (data (fst (fold_left (fun s o => fst (vstep o s)) l s)))) x = Some true.
Proof.
  intros Ha Hx Hf Hl. apply (@vsteps_fine x l s Hl). split; [split; assumption|]. rewrite Ha. intros a [].
Qed.
End PP5.
