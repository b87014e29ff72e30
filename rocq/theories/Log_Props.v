(** C54 (joined monitor logs) and C81 (single values of a log). *)
From Coq Require Import ZArith Sorted.
From Verif Require Import Base Log_Model Log_Spec Log_Proofs.

(** *** C54 *)
(** the order in which the directory lists the files does not matter *)
Theorem log_files_any_order : forall V (files files' : list (row V)),
  NoDup (map (@counter V) files) -> Permutation files files' ->
  data_frame files = data_frame files' /\ Permutation (data_frame files) files /\
  StronglySorted (fun a b => counter a <= counter b) (data_frame files).
Proof. intros V f f' H P. split; [exact (files_order H P)|]. split; [apply data_frame_perm|apply data_frame_sorted]. Qed.
(** transformations are listed once each, and exactly those of the log *)
Theorem transformations_listed : forall l, NoDup (unique l) /\ forall x, In x (unique l) <-> In x l.
Proof. intros l. split; [apply unique_NoDup|intros x; apply unique_In]. Qed.
Theorem joined_monitors : forall V (df : list (row V)) ev names op, df <> [] -> numbered df ev names ->
  let ts := unique (map (@trans V) df) in
  get_joined_scalar_monitors df names ev op =
  Ok (map op (flat_map (chosen_values df ev names) ts),
      boundaries (map (chosen_values df ev names) ts) 0,
      shifted (map (chosen_iterations df ev names) ts) 0%Z).
Proof. exact joined_pf. Qed.
Theorem joined_iterations : forall V (df : list (row V)) ev names op d c i, df <> [] -> numbered df ev names ->
  get_joined_scalar_monitors df names ev op = Ok (d, c, i) ->
  length i = length d /\ (counting df ev -> StronglySorted Z.le i).
Proof.
  intros V df ev names op d c i Hd Hn H. rewrite joined_pf in H by assumption. inversion H; subst. split.
  - rewrite map_length. now apply joined_lengths_pf.
  - apply joined_growing_pf.
Qed.
Theorem joined_empty_log : forall V names ev (op : V -> V), get_joined_scalar_monitors [] names ev op = Err KeyError.
Proof. reflexivity. Qed.

(** two transformations (5, 7), one monitor (0); files listed out of order *)
Definition mk (c t e : nat) (i : option Z) (v : option nat) : row nat := mkrow c t e i (fun n => if Nat.eqb n 0 then v else None).
Definition files1 : list (row nat) :=
  [mk 4 7 1 (Some 1%Z) (Some 40); mk 1 5 1 (Some 0%Z) (Some 10); mk 0 5 2 None (Some 99);
   mk 3 7 1 (Some 0%Z) (Some 30); mk 2 5 1 (Some 3%Z) (Some 20)].
Example joined_case : get_joined_scalar_monitors (data_frame files1) [8; 0] 1 S = Ok ([11; 21; 31; 41], [2], [0; 3; 3; 4]%Z).
Proof. reflexivity. Qed.
Example numbered_case : numbered (data_frame files1) 1 [8; 0].
Proof.
  intros r n Hr He Hn Hm. simpl in Hr.
  repeat (destruct Hr as [<-|Hr]; [simpl in *; try discriminate|]). destruct Hr.
Qed.
Example counting_case : counting (data_frame files1) 1.
Proof.
  split.
  - intros r z Hr Hz. simpl in Hr. repeat (destruct Hr as [<-|Hr]; [simpl in Hz; inversion Hz; lia|]). destruct Hr.
  - intros a r b r' c z z' E He He' Ht Hz Hz'. cbn in E.
    repeat (destruct a as [|? a]; [cbn in E; injection E; intros; subst; cbn in *; try discriminate;
      repeat (destruct b as [|? b]; [cbn in *; match goal with H : _ :: _ = _ |- _ => injection H; intros; subst end; cbn in *; try discriminate; injection Hz; injection Hz'; intros; subst; lia | cbn in *; match goal with H : _ :: _ = _ |- _ => injection H; clear H; intros end; subst]) | cbn in E; injection E; clear E; intros E ?; subst]).
    all: try (destruct b; discriminate). all: try (destruct a; discriminate).
Qed.
(** a monitor logged without iteration numbers makes the join fail ... *)
Theorem joined_unnumbered_refuted : exists (df : list (row nat)) names ev,
  df <> [] /\ get_joined_scalar_monitors df names ev (fun v => v) = Err IndexError.
Proof. exists [mk 0 5 1 None (Some 1); mk 1 7 1 None (Some 2)], [0], 1. split; [discriminate|reflexivity]. Qed.
(** ... or gives fewer iteration numbers than values *)
Theorem joined_lengths_refuted : exists (df : list (row nat)) names ev d c i,
  get_joined_scalar_monitors df names ev (fun v => v) = Ok (d, c, i) /\ length i < length d.
Proof.
  exists [mk 0 5 1 None (Some 1); mk 1 5 1 (Some 0%Z) (Some 2)], [0], 1, [1; 2], [], [0%Z]. split; [reflexivity|simpl; lia].
Qed.

(** *** C81 *)
Theorem single_value : forall V (df : list (row V)) names t it ev, df <> [] -> (forall e, numbered df e names) ->
  let ts := match t with Some t => [t] | None => unique (map (@trans V) df) end in
  let evs := match ev with Some e => [e] | None => unique (map (@event V) df) end in
  match find (hit df names) (candidates ts evs) with
  | Some (t', e) => exists n r v, chosen df e t' names = Some n /\ lookup df e t' n it = Some r /\ mons r n = Some v /\
      get_single_monitor_data df names t it ev = Ok (Some v)
  | None => get_single_monitor_data df names t it ev = Ok None
  end.
Proof. exact single_pf. Qed.
Theorem single_value_empty_log : forall V names t it ev, get_single_monitor_data (@nil (row V)) names t it ev = Err KeyError.
Proof. reflexivity. Qed.
Example single_last : get_single_monitor_data (data_frame files1) [0] None None None = Ok (Some 40). Proof. reflexivity. Qed.
Example single_named : get_single_monitor_data (data_frame files1) [0] (Some 5) (Some 0%Z) (Some 1) = Ok (Some 10). Proof. reflexivity. Qed.
Example single_missing : get_single_monitor_data (data_frame files1) [0] (Some 7) None (Some 2) = Ok None. Proof. reflexivity. Qed.
(** asking for an iteration that was not logged silently returns the last value *)
Theorem single_value_iteration_refuted : exists (df : list (row nat)) names t e z v,
  get_single_monitor_data df names (Some t) (Some z) (Some e) = Ok (Some v) /\
  (forall r, In r df -> iter r <> Some z) /\ (forall e, numbered df e names).
Proof.
  exists [mk 0 5 1 (Some 0%Z) (Some 1); mk 1 5 1 (Some 1%Z) (Some 2)], [0], 5, 1, 7%Z, 2. split; [reflexivity|]. split.
  - intros r [<-|[<-|[]]]; discriminate.
  - intros e r n [<-|[<-|[]]] _ _ _; discriminate.
Qed.
(** with rows that lack iteration numbers, the value of another iteration is returned *)
Theorem single_value_unnumbered_refuted : exists (df : list (row nat)) names t e z r v,
  In r df /\ trans r = t /\ event r = e /\ iter r = Some z /\ mons r 0 = Some 2 /\ names = [0] /\ v <> 2 /\
  get_single_monitor_data df names (Some t) (Some z) (Some e) = Ok (Some v).
Proof.
  exists [mk 0 5 1 None (Some 1); mk 1 5 1 (Some 0%Z) (Some 2)], [0], 5, 1, 0%Z, (mk 1 5 1 (Some 0%Z) (Some 2)), 1.
  repeat split; try reflexivity; [simpl; auto|discriminate].
Qed.

Print Assumptions log_files_any_order.
Print Assumptions transformations_listed.
Print Assumptions joined_monitors.
Print Assumptions joined_iterations.
Print Assumptions joined_empty_log.
Print Assumptions joined_unnumbered_refuted.
Print Assumptions joined_lengths_refuted.
Print Assumptions single_value.
Print Assumptions single_value_empty_log.
Print Assumptions single_value_iteration_refuted.
Print Assumptions single_value_unnumbered_refuted.
