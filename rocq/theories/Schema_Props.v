(** Theorems about names, versions and plan serialization (C13, C14, C15). *)
From Verif Require Import Base Schema_Model Schema_Spec Schema_Proofs Schema_Proofs2.
From Coq Require Import ZArith String Ascii.
Open Scope nat_scope.

(** *** C13 *)
(** Whatever sequence of types names are requested for, and whatever the
    counters were at the start, no name is handed out twice. *)
Theorem generated_names_distinct : forall m ts, NoDup (generate_names m ts).
Proof. exact (fun m ts => generate_names_NoDup_pf ts m). Qed.
Print Assumptions generated_names_distinct.
Example generated_names_case :
  generate_names no_counters ["goos.sum"; "a"; "goos.sum"; "a.1"; "a"]%string
  = ["goos.sum.0"; "a.0"; "goos.sum.1"; "a.1.0"; "a.1"]%string.
Proof. reflexivity. Qed.

(** A name without a dot, as chosen by a user, is never generated. *)
Theorem user_names_without_dot_free : forall m ts n, has_dot n = false -> ~ In n (generate_names m ts).
Proof. exact user_names_free_pf. Qed.
Print Assumptions user_names_without_dot_free.
Example user_name_case : has_dot "my_objective" = false.
Proof. reflexivity. Qed.

(** Across a restart (or [reset_graph]) the counters start again: the first name
    of a type is the same in every process, so adding nodes to a loaded plan
    clashes with the names in it; saving such a plan is rejected. *)
Theorem names_repeat_after_restart_refuted : exists t,
  let first_process := generate_names no_counters [t] in
  let second_process := generate_names no_counters [t] in
  ~ NoDup (first_process ++ second_process).
Proof.
  exists "goos.sum"%string. vm_compute. intros H. inversion H as [|? ? Hn _]. apply Hn. now left.
Qed.
Print Assumptions names_repeat_after_restart_refuted.

(** *** C14 *)
(** Exactly what is accepted. *)
Theorem goos_version_accepted_iff : forall a b v,
  check_version_goos (a :: b :: v) = Ok tt <-> (0 <= a /\ 3 <= b)%Z.
Proof. exact goos_accepts_iff. Qed.
Print Assumptions goos_version_accepted_iff.
(** Within major version 0 this is the documented minimum 0.3.0 ... *)
Theorem goos_version_sound : forall a b c v, (0 <= a)%Z -> check_version_goos (a :: b :: c :: v) = Ok tt ->
  (0 <= c)%Z -> version_le (0, 3, 0)%Z (a, b, c).
Proof. exact goos_sound. Qed.
Print Assumptions goos_version_sound.
Theorem goos_version_complete : forall b c v, version_le (0, 3, 0)%Z (0%Z, b, c) ->
  check_version_goos (0%Z :: b :: c :: v) = Ok tt.
Proof. exact goos_complete. Qed.
Print Assumptions goos_version_complete.
Example goos_version_case : check_version_goos [0; 3; 0]%Z = Ok tt /\ check_version_goos [0; 12; 1]%Z = Ok tt
  /\ check_version_goos [0; 2; 9]%Z = Err ValueError /\ check_version_goos [1]%Z = Err IndexError.
Proof. repeat split; reflexivity. Qed.
(** ... but a later major version is rejected while an older one is accepted. *)
Theorem goos_version_not_monotone_refuted : exists u v,
  version_le (0, 3, 0)%Z u /\ version_le u v /\
  (let '(a, b, c) := u in check_version_goos [a; b; c]) = Ok tt /\
  (let '(a, b, c) := v in check_version_goos [a; b; c]) = Err ValueError.
Proof.
  exists (0, 3, 0)%Z, (1, 0, 0)%Z. vm_compute. repeat split; auto; right; repeat split; auto; right; split; auto; discriminate.
Qed.
Print Assumptions goos_version_not_monotone_refuted.

Theorem invdes_version_accepted_iff : forall a b c v,
  check_version_invdes (a :: b :: c :: v) = Ok tt <-> (0 <= a /\ 2 <= b /\ 3 <= c)%Z.
Proof. exact invdes_accepts_iff. Qed.
Print Assumptions invdes_version_accepted_iff.
Example invdes_version_case : check_version_invdes [0; 2; 3]%Z = Ok tt.
Proof. reflexivity. Qed.
(** The error message promises "at least 0.2.1"; these are not accepted. *)
Theorem invdes_version_message_refuted : exists u v,
  version_le (0, 2, 1)%Z u /\ version_le (0, 2, 3)%Z v /\
  (let '(a, b, c) := u in check_version_invdes [a; b; c]) = Err ValueError /\
  (let '(a, b, c) := v in check_version_invdes [a; b; c]) = Err ValueError.
Proof.
  exists (0, 2, 1)%Z, (0, 3, 0)%Z. vm_compute. repeat split; auto; right; repeat split; auto; right; split; auto; discriminate.
Qed.
Print Assumptions invdes_version_message_refuted.

(** *** C15 *)
Section C15.
Variable isnode : nat -> bool.

(** A plan can be saved exactly when different nodes have different names. *)
Theorem dumps_succeeds_iff : forall p, (exists q, dumps isnode p = Ok q) <-> names_unique isnode p.
Proof. exact (dumps_iff_pf isnode). Qed.
Theorem dumps_fails_with_ValueError : forall p e, dumps isnode p = Err e -> e = ValueError.
Proof. exact (@dumps_error_pf isnode). Qed.
(** The saved plan lists every node occurring anywhere in the plan once, and no
    other. *)
Theorem dumps_lists_every_node_once : forall p q, dumps isnode p = Ok q ->
  NoDup (map oname (p_nodes q)) /\
  (forall n, In n (map oname (p_nodes q)) <-> exists o, node_of isnode p o /\ oname o = n).
Proof. exact (@dumps_names_pf isnode). Qed.
(** Loading a saved plan succeeds and gives back the actions, in order, with
    everything they refer to, and every node under its name. *)
Theorem loads_dumps_round_trip : forall p q, wf_plan isnode p -> dumps isnode p = Ok q ->
  exists q', loads q = Ok q' /\
  (exists fuel, mapM (resolve fuel (p_nodes q')) (p_actions q') = Ok (p_actions p)) /\
  (forall o, node_of isnode p o -> exists o' fuel,
     find_node (p_nodes q') (oname o) = Some o' /\ resolve fuel (p_nodes q') o' = Ok o).
Proof. exact (@round_trip_pf isnode). Qed.
End C15.
Print Assumptions dumps_succeeds_iff.
Print Assumptions dumps_fails_with_ValueError.
Print Assumptions dumps_lists_every_node_once.
Print Assumptions loads_dumps_round_trip.

(** What [loads] accepts, for any text whatsoever (hand-written plans). *)
Theorem loads_succeeds_iff : forall q, (exists q', loads q = Ok q') <->
  NoDup (map oname (p_nodes q)) /\ refs_resolved q.
Proof. exact (loads_ok_iff_pf (fun _ => true)). Qed.
Print Assumptions loads_succeeds_iff.
Theorem loads_errors : forall q e, loads q = Err e ->
  e = ValueError /\ ~ NoDup (map oname (p_nodes q)) \/ e = KeyError /\ ~ refs_resolved q.
Proof. exact (loads_error_pf (fun _ => true)). Qed.
Print Assumptions loads_errors.

(** A plan with a shared node, an embedded model and an unlisted node. *)
Definition ex_isnode (c : nat) : bool := Nat.ltb c 10.
Definition ex_x := Obj 1 100 [FPrim 7].
Definition ex_y := Obj 1 101 [FPrim 7; FRefs 0 [(0, RObj ex_x)]].
Definition ex_s := Obj 2 102 [FRefs 1 [(0, RObj ex_x); (1, RObj ex_y); (2, RObj ex_x)]; FModels 2 [(5, Obj 20 0 [FRefs 0 [(0, RObj ex_y)]])]].
Definition ex_act := Obj 30 200 [FPrim 1; FRefs 0 [(0, RObj ex_s)]].
Definition ex_plan := {| p_nodes := [ex_y]; p_actions := [ex_act; Obj 31 200 []] |}.
Example C15_case : exists q,
  dumps ex_isnode ex_plan = Ok q /\ map oname (p_nodes q) = [101; 100; 102] /\
  loads q = Ok q /\ mapM (resolve 20 (p_nodes q)) (p_actions q) = Ok (p_actions ex_plan).
Proof. eexists. split; [vm_compute; reflexivity|]. repeat split; vm_compute; reflexivity. Qed.
Fixpoint wf_check (k : nat) (o : obj) : bool :=
  match k with
  | 0 => false
  | S k' => (forallb (fun f => match f with
                      | FPrim _ => true
                      | FRefs _ l => forallb (fun x => match snd x with RObj o => ex_isnode (ocls o) | RName _ => false end) l
                      | FModels _ l => forallb (fun x => negb (ex_isnode (ocls (snd x)))) l
                      end) (ofields o) && forallb (wf_check k') (children o))%bool
  end.
Lemma wf_check_sound m o : inside m o -> forall k f, wf_check k o = true -> In f (ofields m) -> wf_field ex_isnode f.
Proof.
  induction 1 as [o|m i o Hi Hm IH]; intros [|k] f Hk Hf; try discriminate Hk; cbn [wf_check] in Hk;
    apply andb_true_iff in Hk as [Hk1 Hk2]; rewrite forallb_forall in Hk1, Hk2.
  - apply Hk1 in Hf. destruct f as [p|kd l|kd l]; simpl in *; [exact I| |]; rewrite forallb_forall in Hf.
    + intros x Hx. apply Hf in Hx. destruct (snd x) as [o'|n]; [eauto|discriminate].
    + intros x Hx. apply Hf in Hx. now apply negb_true_iff.
  - apply (IH k); auto.
Qed.
Example C15_case_wf : wf_plan ex_isnode ex_plan.
Proof.
  split.
  - intros o Ho. simpl in Ho. destruct Ho as [<-|[]]. reflexivity.
  - intros r o f Hr Ho. simpl in Hr. apply (wf_check_sound o r Ho 10).
    destruct Hr as [<-|[<-|[<-|[]]]]; reflexivity.
Qed.
