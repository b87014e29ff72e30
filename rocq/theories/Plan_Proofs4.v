(** Final lemmas and concrete plans for Plan_Props.v. *)
From Verif Require Import Base Plan_Model Plan_Spec Plan_Proofs Plan_Proofs2 Plan_Proofs3.
From Coq Require Import ZArith.
Open Scope nat_scope.
Set Implicit Arguments.

Section PP4.
Variables V Sc Ev : Type.
Variable full_like : V -> Sc -> V.
Variables ninf pinf : Sc.
Variable truthy : Ev -> bool.
Variable evalx : list (node V Sc) -> list (node V Sc * V * bool) -> res (list V).
Notation node := (node V Sc).
Notation core := (core V Sc).
Notation action := (action V Sc Ev).
Notation st := (st V Sc Ev).
Notation add_node := (add_node full_like ninf pinf).
Notation add_nodes := (add_nodes full_like ninf pinf).
Notation call := (call full_like ninf pinf evalx).
Notation run := (run full_like ninf pinf evalx).
Notation run_with := (run_with full_like ninf pinf evalx).
Notation resume := (resume full_like ninf pinf truthy evalx).
Notation ustep := (ustep full_like ninf pinf truthy evalx).
Notation usteps := (usteps full_like ninf pinf truthy evalx).
Notation srun := (srun full_like ninf pinf evalx).
Implicit Types (s : st) (c : core) (p : plan V Sc Ev).

(** C06: everything a user does between runs *)
Lemma ustep_outside o s : outside o = true -> autorun (fst s) = false -> modifiable (fst s) = false ->
  modifiable (fst (fst (ustep o s))) = false /\ autorun (fst (fst (ustep o s))) = false /\
  (forall k, amem (node_map (data (fst s))) k = true ->
     amem (node_map (data (fst (fst (ustep o s))))) k = true /\
     var_data (data (fst (fst (ustep o s)))) k = var_data (data (fst s)) k) /\
  (match o with UCall q => is_mutator q = true -> snd (ustep o s) = Err ValueError /\ fst (ustep o s) = s | _ => True end).
Proof.
  intros Ho Ha Hm. destruct o; try discriminate; cbn [Plan_Model.ustep].
  - destruct (call_protected full_like ninf pinf evalx o s Hm) as [P1 P2].
    assert (HF := call_frame full_like ninf pinf evalx o s). destruct HF as (F1 & F2 & _).
    destruct (call o s) as [s' r]. cbn [fst snd] in *.
    split; [congruence|]. split; [congruence|]. split; [intros k Hk; destruct (P2 k Hk); auto|].
    intros Hmu. specialize (P1 Hmu). inversion P1; subst. cbn. auto.
  - unfold add_action. cbn [fst autorun with_data with_actions]. rewrite Ha. cbn [fst with_data with_actions modifiable autorun data].
    split; [assumption|]. split; [assumption|]. split; [|exact I]. intros k Hk.
    destruct (add_nodes_ext full_like ninf pinf (a_inputs a) (data (fst s))) as (A1 & _ & A3 & _).
    split; [|now apply A3]. unfold amem in *. destruct (aget (node_map (data (fst s))) k) eqn:E; [|discriminate]. now rewrite (A1 _ _ E).
Qed.

Lemma usteps_outside ops : forall s, forallb (@outside V Sc Ev) ops = true -> autorun (fst s) = false -> modifiable (fst s) = false ->
  modifiable (fst (fst (usteps ops s))) = false /\
  (forall k, amem (node_map (data (fst s))) k = true ->
     var_data (data (fst (fst (usteps ops s)))) k = var_data (data (fst s)) k) /\
  Forall2 (fun o r => match o with UCall q => is_mutator q = true -> r = Err ValueError | _ => True end) ops (snd (usteps ops s)).
Proof.
  induction ops as [|o ops IH]; intros s Ho Ha Hm; cbn [Plan_Model.usteps]; [cbn; auto|].
  cbn [forallb] in Ho. apply andb_true_iff in Ho as [Ho Hops].
  destruct (@ustep_outside o s Ho Ha Hm) as (U1 & U2 & U3 & U4).
  destruct (ustep o s) as [s1 r]. cbn [fst snd] in *. destruct (IH s1 Hops U2 U1) as (I1 & I2 & I3).
  destruct (usteps ops s1) as [s2 rs]. cbn [fst snd] in *. split; [assumption|]. split.
  - intros k Hk. destruct (U3 k Hk) as [W1 W2]. now rewrite (I2 k W1).
  - constructor; [|assumption]. destruct o; auto. intros Hq. now apply U4.
Qed.

(** C06: histories without a failing run leave the plan locked *)
Lemma usteps_locked ops : forall s, modifiable (fst s) = false ->
  Forall2 (fun o r => match o with UCall _ | URead _ => True | _ => is_ok r = true end) ops (snd (usteps ops s)) ->
  modifiable (fst (fst (usteps ops s))) = false.
Proof.
  induction ops as [|o ops IH]; intros s Hm HF; cbn [Plan_Model.usteps] in *; [assumption|].
  assert (HL : forall s', ustep o s = (s', Ok tt) -> modifiable (fst s') = false) by (intros; eapply ustep_locked; eassumption).
  assert (HL2 : forall s' e, passive o = true -> ustep o s = (s', Err e) -> modifiable (fst s') = false) by (intros; eapply ustep_fail_locked; eassumption).
  destruct (ustep o s) as [s1 r]. destruct (usteps ops s1) as [s2 rs] eqn:E2. cbn [fst snd] in *.
  inversion HF as [|? ? ? ? H1 H2]; subst.
  assert (Hm1 : modifiable (fst s1) = false).
  { destruct r as [[]|e]; [now apply HL|]. apply (HL2 s1 e); [|reflexivity]. destruct o; try reflexivity; discriminate. }
  assert (Hgo := IH s1 Hm1). rewrite E2 in Hgo. now apply Hgo.
Qed.

(** C09: readable form *)
Lemma resume_reexecutes' p0 w0 w N d :
  saved p0 = true -> action_ptr p0 = 0 -> core_tight (data p0) ->
  lookup_file (files w0) (Chkpt N) = None ->
  lookup_file (files (snd (fst (run_with p0 (actions p0) w0)))) (Chkpt N) = Some d ->
  lookup_file (files w) (Chkpt N) = Some d ->
  same_keys (data p0) (data (fst (fst (run_with p0 (firstn (S N) (actions p0)) w0)))) ->
  let again := firstn (S N) (actions p0) ++ skipn N (actions p0) in
  data (fst (fst (resume (Some (Chkpt N)) true (p0, w)))) = data (fst (fst (run_with p0 again w0))) /\
  snd (resume (Some (Chkpt N)) true (p0, w)) = snd (run_with p0 again w0).
Proof.
  intros H1 H2 H3 H4 H5 H6 H7 again. apply (@resume_reexecutes V Sc Ev full_like ninf pinf truthy evalx p0 w0 w N d); try assumption.
  unfold Plan_Spec.run_with in H7.
    assert (E := @run_srun V Sc Ev full_like ninf pinf evalx (with_actions p0 (firstn (S N) (actions p0)), w0) H1).
    cbn [fst with_actions action_ptr actions data] in E. rewrite H2 in E. cbn [skipn] in E. rewrite E. exact H7.
Qed.

Lemma run_with_app p0 w0 l1 l2 :
  saved p0 = true -> action_ptr p0 = 0 ->
  (data (fst (fst (run_with p0 (l1 ++ l2) w0))), snd (run_with p0 (l1 ++ l2) w0)) =
  match srun l1 (data p0) with (c', Ok _) => srun l2 c' | r => r end.
Proof.
  intros H1 H2. assert (E := @run_srun V Sc Ev full_like ninf pinf evalx (with_actions p0 (l1 ++ l2), w0) H1).
  cbn [fst with_actions action_ptr actions data] in E. rewrite H2 in E. cbn [skipn] in E.
  unfold Plan_Spec.run_with. rewrite <- E. apply srun_app.
Qed.

(** ... so an idempotent action [N] makes it harmless. *)
Lemma resume_idempotent p0 w0 w N d :
  saved p0 = true -> action_ptr p0 = 0 -> core_tight (data p0) ->
  lookup_file (files w0) (Chkpt N) = None ->
  lookup_file (files (snd (fst (run_with p0 (actions p0) w0)))) (Chkpt N) = Some d ->
  lookup_file (files w) (Chkpt N) = Some d ->
  same_keys (data p0) (data (fst (fst (run_with p0 (firstn (S N) (actions p0)) w0)))) ->
  (* running action N a second time succeeds and changes nothing *)
  data (fst (fst (run_with p0 (firstn (S N) (actions p0) ++ firstn 1 (skipn N (actions p0))) w0))) =
  data (fst (fst (run_with p0 (firstn (S N) (actions p0)) w0))) ->
  snd (run_with p0 (firstn (S N) (actions p0) ++ firstn 1 (skipn N (actions p0))) w0) = Ok tt ->
  data (fst (fst (resume (Some (Chkpt N)) true (p0, w)))) = data (fst (fst (run_with p0 (actions p0) w0))) /\
  snd (resume (Some (Chkpt N)) true (p0, w)) = snd (run_with p0 (actions p0) w0).
Proof.
  intros H1 H2 H3 H4 H5 H6 H7 H8 H9.
  destruct (@resume_reexecutes' p0 w0 w N d H1 H2 H3 H4 H5 H6 H7) as [-> ->].
  assert (E1 := @run_with_app p0 w0 (firstn (S N) (actions p0)) (firstn 1 (skipn N (actions p0))) H1 H2).
  assert (E0 := @run_with_app p0 w0 (firstn (S N) (actions p0)) [] H1 H2). rewrite app_nil_r in E0.
  assert (E2 := @run_with_app p0 w0 (firstn (S N) (actions p0)) (skipn N (actions p0)) H1 H2).
  assert (E3 := @run_with_app p0 w0 (firstn (S N) (actions p0)) (skipn (S N) (actions p0)) H1 H2).
  rewrite firstn_skipn in E3.
  destruct (srun (firstn (S N) (actions p0)) (data p0)) as [c' [u|e]].
  - assert (D1 : data (fst (fst (run_with p0 (firstn (S N) (actions p0)) w0))) = c') by exact (f_equal fst E0). rewrite H8, H9, D1 in E1.
    assert (E4 : srun (skipn N (actions p0)) c' = srun (skipn (S N) (actions p0)) c').
    { rewrite (firstn_skipn_split (actions p0) N), srun_app, <- E1. reflexivity. }
    rewrite E4 in E2. rewrite <- E3 in E2. split; [exact (f_equal fst E2)|exact (f_equal snd E2)].
  - rewrite H9 in E1. inversion E1.
Qed.

(** Plans as built by [add_action] satisfy [core_tight]. *)
Definition tight_reg (c : core) : Prop := core_tight c /\ forall k, In k (akeys (var_value c)) -> amem (node_map c) k = true.
Lemma register_tight c n : aget (node_map c) (nname n) = None -> tight_reg c -> tight_reg (register full_like ninf pinf c n).
Proof.
  intros Hn [(T1 & T2 & T3) T4].
  assert (Hm : forall k, amem (node_map c) k = true -> amem (node_map (register full_like ninf pinf c n)) k = true).
  { intros k Hk. rewrite node_map_register, amem_aset, Hk. apply Bool.orb_true_r. }
  assert (Hself : amem (node_map (register full_like ninf pinf c n)) (nname n) = true).
  { rewrite node_map_register, amem_aset, Nat.eqb_refl. reflexivity. }
  unfold tight_reg, core_tight, Plan_Model.register in *. destruct (ndecl n) as [d|]; cbn [var_value var_frozen var_bounds node_map] in *.
  - assert (Hni : ~ In (nname n) (akeys (var_value c))) by (intros Hin; apply T4 in Hin; unfold amem in Hin; now rewrite Hn in Hin).
    assert (M1 : amem (var_value c) (nname n) = false) by (apply amem_false, aget_None; assumption).
    assert (M2 : amem (var_frozen c) (nname n) = false) by (apply amem_false, aget_None; now rewrite T2).
    assert (M3 : amem (var_bounds c) (nname n) = false) by (apply amem_false, aget_None; now rewrite T3).
    split; [split; [|split]|].
    + now apply NoDup_aset.
    + rewrite !akeys_aset, M1, M2, T2. reflexivity.
    + rewrite !akeys_aset, M1, M3, T3. reflexivity.
    + intros k Hk. apply akeys_aset_In in Hk as [->|Hk]; [exact Hself|]. now apply Hm, T4.
  - split; [split; [|split]|]; auto.
Qed.
Lemma add_node_tight n : forall c, tight_reg c -> tight_reg (add_node n c).
Proof.
  induction n as [k d ins IH] using node_ind2. intros c Hc. rewrite add_node_unfold.
  destruct (amem (node_map c) (nname (Node k d ins))) eqn:E; [assumption|]. apply amem_false in E.
  apply (@register_tight c _ E) in Hc. revert Hc. generalize (register full_like ninf pinf c (Node k d ins)). cbn [nins].
  clear - IH. induction IH as [|i ins Hi HF IHl]; intros c Hc; [assumption|]. cbn [Plan_Model.add_nodes fold_left]. apply IHl. now apply Hi.
Qed.
Lemma add_nodes_tight l : forall c, tight_reg c -> tight_reg (add_nodes l c).
Proof. induction l as [|n l IH]; intros c Hc; [assumption|]. cbn [Plan_Model.add_nodes fold_left]. apply IH. now apply add_node_tight. Qed.

Lemma built_tight (ls : list (list node)) :
  core_tight (fold_left (fun c l => add_nodes l c) ls {| node_map := []; var_value := []; var_frozen := []; var_bounds := [] |}).
Proof.
  assert (H : forall c, tight_reg c -> tight_reg (fold_left (fun c l => add_nodes l c) ls c)).
  { induction ls as [|l ls IH]; intros c Hc; [assumption|]. cbn [fold_left]. apply IH. now apply add_nodes_tight. }
  apply H. split; [split; [constructor|auto]|]. intros k [].
Qed.

(** C12 *)
Lemma add_node_summary n c :
  (forall k, amem (node_map c) k = true ->
     aget (node_map (add_node n c)) k = aget (node_map c) k /\ var_data (add_node n c) k = var_data c k) /\
  (forall k m, aget (node_map c) k = None -> aget (node_map (add_node n c)) k = Some m ->
     sub m n /\ nname m = k /\
     forall d, ndecl m = Some d -> var_data (add_node n c) k = declared full_like ninf pinf d) /\
  add_node n (add_node n c) = add_node n c.
Proof.
  destruct (add_node_ext full_like ninf pinf n c) as (A1 & A2 & A3 & A4 & _). split; [|split].
  - intros k Hk. split; [|now apply A3]. unfold amem in Hk. destruct (aget (node_map c) k) eqn:E; [|discriminate]. now apply A1.
  - intros k m Hn Hm. destruct (A2 k m Hm) as [Ho|[Hs Hk]]; [congruence|]. split; [assumption|]. split; [assumption|].
    intros d Hd. assert (H := A4 k m Hn Hm). now rewrite Hd in H.
  - apply add_node_present, add_node_contains.
Qed.
Lemma add_node_closure (U : node -> Prop) n c :
  (forall n i, U n -> In i (nins n) -> U i) -> (forall a b, U a -> U b -> nname a = nname b -> a = b) ->
  U n ->
  (forall k m, aget (node_map c) k = Some m -> nname m = k /\ U m /\ forall i, In i (nins m) -> aget (node_map c) (nname i) = Some i) ->
  (forall m, sub m n -> aget (node_map (add_node n c)) (nname m) = Some m) /\
  (forall k m, aget (node_map (add_node n c)) k = Some m -> nname m = k /\ U m /\ forall i, In i (nins m) -> aget (node_map (add_node n c)) (nname i) = Some i).
Proof.
  intros HU1 HU2 Hn Hc.
  assert (Hcb : closed_but U (fun _ => False) c) by (intros k m Hm; destruct (Hc k m Hm) as (A & B & C); auto).
  destruct (@add_node_closed V Sc full_like ninf pinf U HU1 HU2 n _ _ Hn Hcb) as [C1 C2]. split.
  - now apply closed_subs with U.
  - intros k m Hm. destruct (C1 k m Hm) as (A & B & [[]|C]). auto.
Qed.

(** C11 *)
Lemma run_exception_exposes auto s s' r : run auto s = (s', r) ->
  match r with
  | Ok _ => length (actions (fst s')) <= action_ptr (fst s') /\
      forall o, is_mutator o = true -> call o s' = (s', Err ValueError)
  | Err e => action_ptr (fst s') < length (actions (fst s')) /\
      forall n v, aget (var_frozen (data (fst s'))) (nname n) = Some false ->
        let '(s2, r2) := call (OSetValue n v true) s' in
        r2 = Ok (@AUnit V Sc) /\ aget (var_value (data (fst s2))) (nname n) = Some v
  end.
Proof.
  intros H. apply run_outcome in H as (_ & _ & H). destruct r as [u|e]; destruct H as [H1 H2]; (split; [assumption|]).
  - intros o Ho. now apply call_protected.
  - intros n v Hf. cbn [Plan_Model.call]. unfold guarded, aidx. rewrite H1, Hf. cbn. split; [reflexivity|]. apply aget_aset_same.
Qed.
Lemma resume_completed s : length (actions (fst s)) <= action_ptr (fst s) ->
  resume None true s = ((with_mod (fst s) true, snd s), Err IndexError).
Proof.
  intros H. unfold Plan_Model.resume. cbn [fst with_mod actions action_ptr].
  apply nth_error_None in H. now rewrite H.
Qed.
End PP4.

