(** Lemmas on histories: frozen flags, event files, checkpoints and resuming. *)
From Verif Require Import Base Plan_Model Plan_Spec Plan_Proofs Plan_Proofs2.
From Coq Require Import Sorted.
Set Implicit Arguments.

Section PP3.
Variables V Sc Ev : Type.
Variable full_like : V -> Sc -> V.
Variables ninf pinf : Sc.
Variable truthy : Ev -> bool.
Variable evalx : list (node V Sc) -> list (node V Sc * V * bool) -> res (list V).
Notation node := (node V Sc).
Notation core := (core V Sc).
Notation prog := (prog V Sc Ev).
Notation aop := (aop V Sc Ev).
Notation action := (action V Sc Ev).
Notation st := (st V Sc Ev).
Notation add_node := (add_node full_like ninf pinf).
Notation add_nodes := (add_nodes full_like ninf pinf).
Notation call := (call full_like ninf pinf evalx).
Notation write_event := (write_event full_like ninf pinf evalx).
Notation exec := (exec full_like ninf pinf evalx).
Notation run_loop := (run_loop full_like ninf pinf evalx).
Notation run := (run full_like ninf pinf evalx).
Notation resume := (resume full_like ninf pinf truthy evalx).
Notation ustep := (ustep full_like ninf pinf truthy evalx).
Notation usteps := (usteps full_like ninf pinf truthy evalx).
Notation calls := (calls full_like ninf pinf evalx).
Implicit Types (s : st) (c : core).

(** *** C07 *)
Lemma amem_aset {X} (l : alist X) k x j : amem (aset l k x) j = (Nat.eqb j k || amem l j)%bool.
Proof.
  unfold amem. destruct (Nat.eqb j k) eqn:E.
  - apply Nat.eqb_eq in E. subst. now rewrite aget_aset_same.
  - apply Nat.eqb_neq in E. now rewrite aget_aset_other.
Qed.

Lemma ext_core_ok Q c c' : core_ok c -> ext full_like ninf pinf Q c c' -> core_ok c'.
Proof.
  intros (K1 & K2 & K3) (A1 & A2 & A3 & A4 & A5 & A6 & A7). split; [auto|]. split.
  - intros k Hk. assert (Hmono : amem (node_map c) k = true -> amem (node_map c') k = true).
    { unfold amem. destruct (aget (node_map c) k) eqn:E; [|discriminate]. now rewrite (A1 _ _ E). }
    unfold amem in Hk. destruct (aget (var_value c') k) eqn:Ev'; [|discriminate].
    assert (Hsame : var_data c' k = var_data c k -> amem (var_frozen c') k = true /\ amem (var_bounds c') k = true /\ amem (node_map c') k = true).
    { intros Hd. unfold var_data in Hd. inversion Hd as [[D1 D2 D3]]. destruct (K2 k) as (B1 & B2 & B3); [unfold amem; now rewrite <- D1, Ev'|].
      unfold amem in *. rewrite D2, D3. repeat split; auto. }
    destruct (aget (node_map c) k) as [m0|] eqn:Em0; [apply Hsame, A3; unfold amem; now rewrite Em0|].
    destruct (aget (node_map c') k) as [m1|] eqn:Em1; [|now apply Hsame, A5].
    assert (H4 := A4 k m1 Em0 Em1). destruct (ndecl m1) as [d|]; [|now apply Hsame].
    unfold var_data, declared in H4. inversion H4 as [[D1 D2 D3]]. unfold amem. rewrite D2, D3, Em1. auto.
  - intros k n Hn. apply A2 in Hn as [Hn|[_ Hn]]; [now apply K3|assumption].
Qed.

Lemma call_core_ok o s : core_ok (data (fst s)) -> set_known (data (fst s)) o -> core_ok (data (fst (fst (call o s)))).
Proof.
  intros HK Hs. assert (HK' := HK). destruct HK' as (K1 & K2 & K3).
  destruct o; cbn [Plan_Model.call]; unfold guarded;
    try (match goal with |- context [if modifiable _ then _ else _] => destruct (modifiable (fst s)); [|exact HK] end);
    cbn [fst data upd with_data]; auto.
  - assert (Hset : core_ok (with_val (data (fst s)) (aset (var_value (data (fst s))) (nname n) v))).
    { split; [now apply NoDup_aset|]. split; [|exact K3]. cbn. intros k Hk. rewrite amem_aset in Hk.
      destruct (Nat.eqb k (nname n)) eqn:E; [|now apply K2]. apply Nat.eqb_eq in E. subst. now apply K2. }
    destruct (if check then _ else _) as [[|]|e]; auto.
  - split; [exact K1|]. split; [|exact K3]. cbn. intros k Hk. destruct (K2 k Hk) as (B1 & B2 & B3).
    rewrite amem_aset, B2, Bool.orb_true_r. auto.
  - split; [exact K1|]. split; [|exact K3]. cbn. intros k Hk. destruct (K2 k Hk) as (B1 & B2 & B3).
    rewrite amem_aset, B1, Bool.orb_true_r. auto.
  - split; [exact K1|]. split; [|exact K3]. cbn. intros k Hk. destruct (K2 k Hk) as (B1 & B2 & B3).
    rewrite amem_aset, B1, Bool.orb_true_r. auto.
  - eapply ext_core_ok; [exact HK|apply add_node_ext].
  - eapply ext_core_ok; [exact HK|apply add_nodes_ext].
  - destruct (write_event_data full_like ninf pinf evalx ev mons s) as [-> | ->]; [exact HK|]. eapply ext_core_ok; [exact HK|apply add_nodes_ext].
  - unfold write_checkpoint. destruct (get_state_dict (fst s)) as [[ptr vs]|e]; exact HK.
Qed.

Lemma call_var_mono o s k : amem (node_map (data (fst s))) k = true -> amem (var_value (data (fst s))) k = true ->
  amem (var_value (data (fst (fst (call o s))))) k = true.
Proof.
  intros Hn Hk.
  assert (Hadd : forall Q c', ext full_like ninf pinf Q (data (fst s)) c' -> amem (var_value c') k = true).
  { intros Q c' (_ & _ & A3 & _). specialize (A3 k Hn). unfold var_data in A3. inversion A3 as [[D1 D2 D3]]. unfold amem in *. now rewrite D1. }
  destruct o; cbn [Plan_Model.call]; unfold guarded;
    try (match goal with |- context [if modifiable _ then _ else _] => destruct (modifiable (fst s)); [|exact Hk] end);
    cbn [fst data upd with_data with_bnd with_fr var_value]; auto.
  - destruct (if check then _ else _) as [[|]|e]; auto. cbn. rewrite amem_aset, Hk. apply Bool.orb_true_r.
  - eapply Hadd. apply add_node_ext.
  - eapply Hadd. apply add_nodes_ext.
  - destruct (write_event_data full_like ninf pinf evalx ev mons s) as [-> | ->]; [exact Hk|]. eapply Hadd. apply add_nodes_ext.
  - unfold write_checkpoint. destruct (get_state_dict (fst s)) as [[ptr vs]|e]; exact Hk.
Qed.

Lemma call_mark o s k : modifiable (fst s) = true -> amem (node_map (data (fst s))) k = true ->
  aget (var_frozen (data (fst (fst (call o s))))) k =
  match mark_of k o with Some b => Some b | None => aget (var_frozen (data (fst s))) k end.
Proof.
  intros Hm Hn.
  assert (Hadd : forall Q c', ext full_like ninf pinf Q (data (fst s)) c' -> aget (var_frozen c') k = aget (var_frozen (data (fst s))) k).
  { intros Q c' (_ & _ & A3 & _). specialize (A3 k Hn). unfold var_data in A3. now inversion A3 as [[D1 D2 D3]]. }
  destruct o; cbn [Plan_Model.call mark_of]; unfold guarded; try rewrite Hm;
    cbn [fst data upd with_data with_bnd with_fr with_val var_value var_frozen]; auto.
  - destruct (if check then _ else _) as [[|]|e]; reflexivity.
  - destruct (Nat.eqb (nname n) k) eqn:E; [apply Nat.eqb_eq in E; subst; apply aget_aset_same|].
    apply Nat.eqb_neq in E. now apply aget_aset_other, not_eq_sym.
  - destruct (Nat.eqb (nname n) k) eqn:E; [apply Nat.eqb_eq in E; subst; apply aget_aset_same|].
    apply Nat.eqb_neq in E. now apply aget_aset_other, not_eq_sym.
  - eapply Hadd. apply add_node_ext.
  - eapply Hadd. apply add_nodes_ext.
  - destruct (write_event_data full_like ninf pinf evalx ev mons s) as [-> | ->]; [reflexivity|]. eapply Hadd. apply add_nodes_ext.
  - unfold write_checkpoint. destruct (get_state_dict (fst s)) as [[ptr vs]|e]; reflexivity.
Qed.

Lemma call_node_mono o s k : amem (node_map (data (fst s))) k = true -> amem (node_map (data (fst (fst (call o s))))) k = true.
Proof.
  intros Hn.
  assert (Hadd : forall Q c', ext full_like ninf pinf Q (data (fst s)) c' -> amem (node_map c') k = true).
  { intros Q c' (A1 & _). unfold amem in *. destruct (aget (node_map (data (fst s))) k) eqn:E; [|discriminate]. now rewrite (A1 _ _ E). }
  destruct o; cbn [Plan_Model.call]; unfold guarded;
    try (match goal with |- context [if modifiable _ then _ else _] => destruct (modifiable (fst s)); [|exact Hn] end);
    cbn [fst data upd with_data with_bnd with_fr var_value]; auto.
  - destruct (if check then _ else _) as [[|]|e]; exact Hn.
  - eapply Hadd. apply add_node_ext.
  - eapply Hadd. apply add_nodes_ext.
  - destruct (write_event_data full_like ninf pinf evalx ev mons s) as [-> | ->]; [exact Hn|]. eapply Hadd. apply add_nodes_ext.
  - unfold write_checkpoint. destruct (get_state_dict (fst s)) as [[ptr vs]|e]; exact Hn.
Qed.

Lemma calls_marks l : forall s, modifiable (fst s) = true -> core_ok (data (fst s)) ->
  Forall (set_known (data (fst s))) l ->
  modifiable (fst (calls l s)) = true /\ core_ok (data (fst (calls l s))) /\
  forall k, amem (var_value (data (fst s))) k = true ->
    amem (var_value (data (fst (calls l s)))) k = true /\
    aget (var_frozen (data (fst (calls l s)))) k =
    (match last_mark k l with Some b => Some b | None => aget (var_frozen (data (fst s))) k end).
Proof.
  induction l as [|o l IH]; intros s Hm HK HF; cbn [Plan_Spec.calls fold_left last_mark]; [auto|].
  inversion HF as [|? ? Ho HF']; subst.
  assert (HK' := call_core_ok o s HK Ho). assert (HK0 := HK). destruct HK0 as (K1 & K2 & K3).
  assert (Hmono : forall k, amem (var_value (data (fst s))) k = true -> amem (var_value (data (fst (fst (call o s))))) k = true).
  { intros k Hk. apply call_var_mono; [now apply K2|assumption]. }
  destruct (IH (fst (call o s))) as (I1 & I2 & I3).
  - destruct (call_frame full_like ninf pinf evalx o s) as (F & _). congruence.
  - exact HK'.
  - eapply Forall_impl; [|exact HF']. intros [] Ha; cbn in *; auto.
  - fold (calls l (fst (call o s))). split; [exact I1|]. split; [exact I2|]. intros k Hk. destruct (I3 k (Hmono k Hk)) as [J1 J2].
    split; [exact J1|]. rewrite J2. destruct (last_mark k l); [reflexivity|]. apply call_mark; [assumption|now apply K2].
Qed.

Lemma get_thawed_spec c : core_ok c -> exists ns, get_thawed c = Ok ns /\ NoDup (map (@nname V Sc) ns) /\
  (forall k, In k (map (@nname V Sc) ns) <-> amem (var_value c) k = true /\ aget (var_frozen c) k = Some false) /\
  (forall n, In n ns -> aget (node_map c) (nname n) = Some n).
Proof.
  intros (K1 & K2 & K3). unfold get_thawed.
  assert (H1 : forall ks, (forall k, In k ks -> In k (akeys (var_value c))) ->
     exists fs, mapM (fun k => bind (aidx (var_frozen c) k) (fun fr => Ok (k, fr))) ks = Ok fs /\
       map fst fs = ks /\ forall k b, In (k, b) fs -> aget (var_frozen c) k = Some b).
  { induction ks as [|k ks IH]; intros Hks; [exists []; repeat split; intros ? ? []|].
    destruct IH as (fs & F1 & F2 & F3); [intros j Hj; apply Hks; now right|].
    destruct (K2 k) as (B1 & _); [apply amem_keys, Hks; now left|].
    unfold amem in B1. destruct (aget (var_frozen c) k) as [b|] eqn:Eb; [|discriminate].
    exists ((k, b) :: fs). cbn [mapM]. unfold aidx at 1. rewrite Eb. cbn [bind]. rewrite F1. cbn [bind]. split; [reflexivity|].
    split; [cbn; now rewrite F2|]. intros j b' [Hj|Hj]; [inversion Hj; now subst|now apply F3]. }
  destruct (H1 (akeys (var_value c))) as (fs & F1 & F2 & F3); [auto|]. rewrite F1. cbn [bind].
  set (ks := map fst (filter (fun x => negb (snd x)) fs)).
  assert (Hks : forall k, In k ks <-> In k (akeys (var_value c)) /\ aget (var_frozen c) k = Some false).
  { intros k. unfold ks. rewrite in_map_iff. split.
    - intros ([j b] & <- & Hin). apply filter_In in Hin as [Hin Hb]. cbn in Hb. destruct b; [discriminate|].
      cbn [fst]. split; [rewrite <- F2; now apply (in_map fst) in Hin|now apply F3].
    - intros [Hin Hb]. rewrite <- F2 in Hin. apply in_map_iff in Hin as ([j b] & <- & Hin). cbn [fst] in *.
      exists (j, b). split; [reflexivity|]. apply filter_In. split; [assumption|]. cbn. apply F3 in Hin. rewrite Hb in Hin. now inversion Hin. }
  assert (Hnd : NoDup ks).
  { unfold ks. assert (Hn : NoDup (map fst fs)) by (rewrite F2; exact K1). clear - Hn.
    induction fs as [|[k b] fs IH]; cbn; [constructor|]. inversion Hn as [|? ? Hnk Hn']; subst.
    destruct b; cbn; [now apply IH|]. constructor; [|now apply IH]. intros Hin. apply Hnk.
    apply in_map_iff in Hin as (x & Hx & Hin). apply filter_In in Hin as [Hin _]. rewrite <- Hx. now apply in_map. }
  assert (Hex : forall l, (forall k, In k l -> In k ks) -> exists ns, mapM (fun k => aidx (node_map c) k) l = Ok ns /\
      map (@nname V Sc) ns = l /\ forall n, In n ns -> aget (node_map c) (nname n) = Some n).
  { induction l as [|k l IH]; intros Hl; [exists []; repeat split; intros ? []|].
    destruct IH as (ns & N1 & N2 & N3); [intros j Hj; apply Hl; now right|].
    destruct (K2 k) as (_ & _ & B3). { apply amem_keys. apply Hks. apply Hl. now left. }
    unfold amem in B3. destruct (aget (node_map c) k) as [n|] eqn:En; [|discriminate].
    exists (n :: ns). cbn [mapM]. unfold aidx at 1. rewrite En. cbn [bind]. rewrite N1. cbn [bind]. split; [reflexivity|].
    assert (Hnn : nname n = k) by now apply K3.
    split; [cbn; now rewrite N2, Hnn|]. intros m [<-|Hm]; [now rewrite Hnn|now apply N3]. }
  destruct (Hex ks) as (ns & N1 & N2 & N3); [auto|]. exists ns. split; [exact N1|]. rewrite N2. split; [exact Hnd|].
  split; [|exact N3]. intros k. rewrite Hks, amem_keys. reflexivity.
Qed.

Lemma thawed_after_calls l s : modifiable (fst s) = true -> core_ok (data (fst s)) ->
  Forall (set_known (data (fst s))) l ->
  exists ns, call OGetThawed (calls l s) = (calls l s, Ok (ANodes ns)) /\ NoDup (map (@nname V Sc) ns) /\
  (forall n, In n ns -> aget (node_map (data (fst (calls l s)))) (nname n) = Some n) /\
  forall k, amem (var_value (data (fst s))) k = true ->
    (In k (map (@nname V Sc) ns) <->
     match last_mark k l with Some b => b = false | None => aget (var_frozen (data (fst s))) k = Some false end).
Proof.
  intros Hm HK HF. destruct (@calls_marks l s Hm HK HF) as (C1 & C2 & C3).
  destruct (@get_thawed_spec _ C2) as (ns & N1 & N2 & N3 & N4). exists ns.
  cbn [Plan_Model.call]. unfold guarded. rewrite C1, N1. split; [reflexivity|]. split; [exact N2|]. split; [exact N4|].
  intros k Hk. destruct (C3 k Hk) as [J1 J2]. rewrite N3, J2. destruct (last_mark k l) as [b|].
  - split; [intros [_ H]; now inversion H|intros ->; auto].
  - tauto.
Qed.

(** *** C10: event files *)
(** Execution from [s] to [s'] prepends [new] to the list of writes; the step
    numbers in [new] lie above the old counter and strictly decrease from the
    newest to the oldest. *)
Definition grow (s s' : st) : Prop :=
  log_counter (fst s) <= log_counter (fst s') /\
  exists new, files (snd s') = new ++ files (snd s) /\
    Forall (fun n => log_counter (fst s) < n <= log_counter (fst s')) (steps_of new) /\
    StronglySorted gt (steps_of new).

Lemma steps_of_app (a b : list (fname * fdata V Ev)) : steps_of (a ++ b) = steps_of a ++ steps_of b.
Proof. unfold steps_of. apply flat_map_app. Qed.
Lemma sorted_app (a b : list nat) : StronglySorted gt a -> StronglySorted gt b ->
  (forall x y, In x a -> In y b -> x > y) -> StronglySorted gt (a ++ b).
Proof.
  intros Ha Hb Hab. induction a as [|x a IH]; [assumption|]. cbn. inversion Ha as [|? ? H1 H2]; subst.
  constructor; [apply IH; [assumption|intros; apply Hab; [now right|assumption]]|].
  apply Forall_app. split; [assumption|]. apply Forall_forall. intros y Hy. apply Hab; [now left|assumption].
Qed.

Lemma grow_refl s : grow s s.
Proof. split; [lia|]. exists []. repeat split; constructor. Qed.
Lemma grow_same s s' : log_counter (fst s') = log_counter (fst s) -> files (snd s') = files (snd s) -> grow s s'.
Proof. intros H1 H2. split; [lia|]. exists []. split; [now rewrite H2|]. split; constructor. Qed.
Lemma grow_trans s1 s2 s3 : grow s1 s2 -> grow s2 s3 -> grow s1 s3.
Proof.
  intros (A1 & n1 & A2 & A3 & A4) (B1 & n2 & B2 & B3 & B4). split; [lia|]. exists (n2 ++ n1).
  split; [now rewrite B2, A2, app_assoc|]. rewrite steps_of_app. rewrite !Forall_forall in *. split.
  - intros x Hx. apply in_app_iff in Hx as [Hx|Hx]; [apply B3 in Hx|apply A3 in Hx]; lia.
  - apply sorted_app; [assumption|assumption|]. intros x y Hx Hy. apply B3 in Hx. apply A3 in Hy. lia.
Qed.

Lemma grow_ckpt f s : (forall k, f <> Step k) -> grow s (fst (write_checkpoint f s)).
Proof.
  intros Hf. unfold write_checkpoint. destruct (get_state_dict (fst s)) as [[ptr vs]|e]; [|apply grow_refl].
  split; [cbn; lia|]. eexists [(f, _)]. split; [reflexivity|]. destruct f as [m|m|m]; [split; constructor|exfalso; now apply (Hf m)|split; constructor].
Qed.

(** What [write_event] does to counter and files. *)
Lemma write_event_log ev mons s :
  log_counter (fst (fst (write_event ev mons s))) = 1 + log_counter (fst s) /\
  match snd (write_event ev mons s) with
  | Ok _ => saved (fst s) = true -> exists d,
      files (snd (fst (write_event ev mons s))) = (Step (1 + log_counter (fst s)), d) :: files (snd s) /\
      f_ptr d = action_ptr (fst s) /\ f_event d = Some ev /\ f_log d = Some (1 + log_counter (fst s)) /\
      state_vars (data (fst (fst (write_event ev mons s)))) = Ok (f_vars d) /\
      match mons with
      | [] => f_monitors d = []
      | _ => exists vals, evaln evalx mons (data (fst (fst (write_event ev mons s)))) = Ok vals /\
                          f_monitors d = combine (map (@nname V Sc) mons) vals
      end
  | Err _ => files (snd (fst (write_event ev mons s))) = files (snd s)
  end /\ (saved (fst s) = false -> files (snd (fst (write_event ev mons s))) = files (snd s)).
Proof.
  unfold Plan_Model.write_event. cbn [actions with_log action_ptr].
  destruct (nth_error (actions (fst s)) (action_ptr (fst s))) eqn:Ha; [|repeat split].
  destruct mons as [|m mons].
  - unfold get_state_dict. cbn [data with_log actions action_ptr]. rewrite Ha.
    destruct (state_vars (data (fst s))) as [vs|e] eqn:Hv; cbn [bind]; [|repeat split].
    cbn [fst snd with_ptr with_log log_counter saved data]. split; [reflexivity|]. split.
    + intros ->. eexists. split; [reflexivity|]. cbn. auto.
    + now intros ->.
  - set (c' := add_nodes (m :: mons) (data (with_log (fst s) (1 + log_counter (fst s))))).
    cbn [data with_data].
    destruct (evaln evalx (m :: mons) c') as [vals|e] eqn:Hev; [|repeat split].
    unfold get_state_dict. cbn [data with_data with_log actions action_ptr]. rewrite Ha.
    destruct (state_vars c') as [vs|e] eqn:Hv; cbn [bind]; [|repeat split].
    cbn [fst snd with_ptr with_data with_log log_counter saved data]. split; [reflexivity|]. split.
    + intros ->. eexists. split; [reflexivity|]. cbn [f_ptr f_event f_log f_vars f_monitors with_ptr with_log with_data action_ptr log_counter]. rewrite Hev.
      repeat split; auto. exists vals. auto.
    + now intros ->.
Qed.

Lemma write_event_grow ev mons s : grow s (fst (write_event ev mons s)).
Proof.
  destruct (write_event_log ev mons s) as (H1 & H2 & H3). split; [lia|].
  destruct (snd (write_event ev mons s)) as [a|e] eqn:Hr.
  - destruct (saved (fst s)) eqn:Hs.
    + destruct (H2 eq_refl) as (d & Hf & _). exists [(Step (1 + log_counter (fst s)), d)]. split; [exact Hf|].
      rewrite H1. cbn. split; repeat constructor; lia.
    + exists []. split; [now apply H3|]. split; constructor.
  - exists []. split; [exact H2|]. split; constructor.
Qed.

Lemma call_grow o s : grow s (fst (call o s)).
Proof.
  destruct o; cbn [Plan_Model.call]; unfold guarded;
    try (match goal with |- context [if modifiable _ then _ else _] => destruct (modifiable (fst s)); [|apply grow_refl] end);
    try (now apply grow_same).
  - destruct (if check then _ else _) as [[|]|e]; now apply grow_same.
  - apply write_event_grow.
  - assert (H := @grow_ckpt (Other k) s). destruct (write_checkpoint (Other k) s) as [s' r]. apply H. discriminate.
Qed.
Lemma exec_grow p : forall s, grow s (fst (exec p s)).
Proof.
  induction p as [|e|o k IH]; intros s; cbn [Plan_Model.exec]; [apply grow_refl|apply grow_refl|].
  assert (H := call_grow o s). destruct (call o s) as [s' r]. eapply grow_trans; [exact H|apply IH].
Qed.
Lemma after_action_grow auto s : grow s (fst (after_action auto s)).
Proof.
  unfold after_action. destruct (auto && saved (fst s))%bool.
  - assert (H := @grow_ckpt (Chkpt (action_ptr (fst s))) s). destruct (write_checkpoint _ s) as [s1 r].
    assert (H' : grow s s1) by (apply H; discriminate). destruct r as [u|e]; [|exact H'].
    eapply grow_trans; [exact H'|]. now apply grow_same.
  - now apply grow_same.
Qed.
Lemma run_loop_grow k auto : forall s, grow s (fst (run_loop k auto s)).
Proof.
  induction k as [|k IH]; intros s; cbn [Plan_Model.run_loop]; destruct (nth_error _ _) as [a|];
    try (now apply grow_same).
  assert (H := exec_grow (a_run a) s). destruct (exec (a_run a) s) as [s1 r]. destruct r as [u|e]; [|exact H].
  assert (H2 := after_action_grow auto s1). destruct (after_action auto s1) as [s2 r2].
  assert (H3 : grow s s2) by (eapply grow_trans; eassumption). destruct r2 as [u2|e]; [|exact H3].
  eapply grow_trans; [exact H3|apply IH].
Qed.
Lemma run_grow auto s : grow s (fst (run auto s)).
Proof. unfold Plan_Model.run. eapply grow_trans; [|apply run_loop_grow]. now apply grow_same. Qed.
Lemma read_grow f s : grow s (fst (read_checkpoint f s)).
Proof. unfold read_checkpoint. destruct (lookup_file _ _); now apply grow_same. Qed.
Lemma resume_grow ck auto s : grow s (fst (resume ck auto s)).
Proof.
  unfold Plan_Model.resume.
  assert (H0 : grow s (fst (match ck with None => (s, Ok tt) | Some f => read_checkpoint f s end))).
  { destruct ck; [apply read_grow|apply grow_refl]. }
  destruct (match ck with None => (s, Ok tt) | Some f => read_checkpoint f s end) as [s0 [u|e]]; [|exact H0].
  cbn [fst] in H0. assert (H1 : grow s (with_mod (fst s0) true, snd s0)).
  { eapply grow_trans; [exact H0|]. now apply grow_same. }
  destruct (nth_error _ _) as [a|]; [|exact H1].
  match goal with |- context [exec ?p ?t] => assert (H2 := exec_grow p t); destruct (exec p t) as [s2 [u2|e]] end;
    cbn [fst] in H2; (assert (H3 : grow s s2) by (eapply grow_trans; eassumption)); [|exact H3].
  assert (H4 := after_action_grow auto s2). destruct (after_action auto s2) as [s3 [u3|e]]; cbn [fst] in H4;
    (assert (H5 : grow s s3) by (eapply grow_trans; eassumption)); [|exact H5].
  eapply grow_trans; [exact H5|]. eapply grow_trans; [|apply run_grow]. now apply grow_same.
Qed.
Lemma ustep_grow o s : grow s (fst (ustep o s)).
Proof.
  destruct o; cbn [Plan_Model.ustep].
  - assert (H := call_grow o s). destruct (call o s) as [s' r]. exact H.
  - unfold add_action. destruct (autorun _); [|now apply grow_same]. eapply grow_trans; [|apply run_grow]. now apply grow_same.
  - apply run_grow.
  - apply resume_grow.
  - apply read_grow.
Qed.
Lemma usteps_grow l : forall s, grow s (fst (usteps l s)).
Proof.
  induction l as [|o l IH]; intros s; cbn [Plan_Model.usteps]; [apply grow_refl|].
  assert (H := ustep_grow o s). destruct (ustep o s) as [s1 r]. assert (H2 := IH s1). destruct (usteps l s1) as [s2 rs].
  eapply grow_trans; eassumption.
Qed.

(** A step file, once written, keeps its content. *)
Lemma grow_lookup s s' n : grow s s' -> n <= log_counter (fst s) ->
  lookup_file (files (snd s')) (Step n) = lookup_file (files (snd s)) (Step n).
Proof.
  intros (_ & new & Hf & Hn & _) Hle. rewrite Hf. clear Hf. induction new as [|[f d] new IH]; [reflexivity|].
  cbn [app lookup_file]. unfold steps_of in Hn. cbn [flat_map fst] in Hn. destruct f; cbn [fname_eqb]; try (now apply IH).
  inversion Hn as [|? ? H1 H2]; subst. destruct (Nat.eqb_spec n0 n); [lia|]. now apply IH.
Qed.

Lemma numbered_once ops sv ar : NoDup (steps_of (files (snd (fst (usteps ops (init_plan V Sc Ev sv ar, {| files := [] |})))))).
Proof.
  destruct (usteps_grow ops (init_plan V Sc Ev sv ar, {| files := [] |})) as (_ & new & Hf & _ & Hs).
  cbn [snd files] in Hf. rewrite app_nil_r in Hf. rewrite Hf. clear - Hs.
  induction Hs as [|x l H IH HF]; constructor; [|assumption]. intros Hin. rewrite Forall_forall in HF. apply HF in Hin. lia.
Qed.

(** The newest write wins, and step files survive any later history. *)
Lemma event_file_durable ev mons s a ops :
  saved (fst s) = true -> snd (call (OWriteEvent ev mons) s) = Ok a ->
  exists d, lookup_file (files (snd (fst (usteps ops (fst (call (OWriteEvent ev mons) s)))))) (Step (1 + log_counter (fst s))) = Some d /\
    f_ptr d = action_ptr (fst s) /\ f_event d = Some ev /\ f_log d = Some (1 + log_counter (fst s)) /\
    state_vars (data (fst (fst (call (OWriteEvent ev mons) s)))) = Ok (f_vars d) /\
    match mons with
    | [] => f_monitors d = []
    | _ => exists vals, evaln evalx mons (data (fst (fst (call (OWriteEvent ev mons) s)))) = Ok vals /\
                        f_monitors d = combine (map (@nname V Sc) mons) vals
    end.
Proof.
  intros Hsv Hok. destruct (modifiable (fst s)) eqn:Hm.
  2:{ exfalso. revert Hok. cbn [Plan_Model.call]. unfold guarded. rewrite Hm. discriminate. }
  assert (Hc : call (OWriteEvent ev mons) s = write_event ev mons s) by (cbn [Plan_Model.call]; unfold guarded; now rewrite Hm).
  rewrite Hc in *. destruct (write_event_log ev mons s) as (H1 & H2 & _). rewrite Hok in H2.
  destruct (H2 Hsv) as (d & Hf & Hd). exists d. split; [|exact Hd].
  rewrite (grow_lookup (usteps_grow ops (fst (write_event ev mons s)))) by (rewrite H1; lia).
  rewrite Hf. cbn [lookup_file fname_eqb]. now rewrite Nat.eqb_refl.
Qed.

(** *** frozen variables over whole runs *)
Lemma run_loop_frozen x k auto : forall s, (forall a, In a (actions (fst s)) -> respects x (a_run a)) ->
  amem (node_map (data (fst s))) x = true -> aget (var_frozen (data (fst s))) x = Some true ->
  aget (var_frozen (data (fst (fst (run_loop k auto s))))) x = Some true /\
  aget (var_value (data (fst (fst (run_loop k auto s))))) x = aget (var_value (data (fst s))) x.
Proof.
  induction k as [|k IH]; intros s Hr Hx Hf; cbn [Plan_Model.run_loop]; destruct (nth_error _ _) as [a|] eqn:Ea; auto.
  apply nth_error_In in Ea. assert (Hra := Hr a Ea).
  assert (HX := exec_frozen full_like ninf pinf evalx x (a_run a) s Hra Hx Hf).
  assert (HM : amem (node_map (data (fst (fst (exec (a_run a) s))))) x = true).
  { clear - Hx. revert s Hx. generalize (a_run a) as p. induction p as [|e|o kk IHp]; intros s Hx; cbn [Plan_Model.exec]; auto.
    assert (H := call_node_mono o s x Hx). destruct (call o s) as [s' r]. now apply IHp. }
  assert (HF := exec_frame full_like ninf pinf evalx (a_run a) s).
  destruct (exec (a_run a) s) as [s1 r]. cbn [fst] in HX, HM, HF. destruct HX as [X1 X2].
  destruct r as [u|e]; [|auto]. destruct (after_action auto s1) as [s2 r2] eqn:Eaa.
  apply after_action_frame in Eaa as (G1 & G2 & G3 & G4 & G5 & G6 & G7).
  destruct HF as (F1 & F2 & F3 & F4 & F5).
  destruct r2 as [u2|e]; [|cbn [fst]; rewrite G5; auto].
  rewrite <- X2, <- G5. apply IH; rewrite ?G5; auto. intros a' Ha'. apply Hr. congruence.
Qed.
Lemma run_frozen x auto s : (forall a, In a (actions (fst s)) -> respects x (a_run a)) ->
  amem (node_map (data (fst s))) x = true -> aget (var_frozen (data (fst s))) x = Some true ->
  aget (var_frozen (data (fst (fst (run auto s))))) x = Some true /\
  aget (var_value (data (fst (fst (run auto s))))) x = aget (var_value (data (fst s))) x.
Proof. intros H1 H2 H3. unfold Plan_Model.run. now apply (run_loop_frozen x _ auto (with_mod (fst s) true, snd s)). Qed.

(** *** C09: resuming *)
Definition dummy : action := {| a_name := 0; a_inputs := []; a_run := Ret; a_resume := None |}.
(** A plan state with core [c] inside an action. *)
Definition canon (c : core) : st :=
  ({| modifiable := true; autorun := false; saved := false; log_counter := 0; actions := [dummy];
      action_ptr := 0; action_data := None; data := c |}, {| files := [] |}).
Definition inside (s : st) : Prop := modifiable (fst s) = true /\ nth_error (actions (fst s)) (action_ptr (fst s)) <> None.

(** Calls see nothing but the core. *)
Lemma call_sim o s t : data (fst s) = data (fst t) -> inside s -> inside t ->
  snd (call o s) = snd (call o t) /\ data (fst (fst (call o s))) = data (fst (fst (call o t))).
Proof.
  intros Hd [Hs1 Hs2] [Ht1 Ht2]. destruct s as [p w], t as [q w']. cbn [fst snd] in *.
  destruct o; cbn [Plan_Model.call]; unfold guarded; cbn [fst snd]; rewrite ?Hs1, ?Ht1, ?Hd; cbn [fst snd data upd with_data]; auto.
  - destruct (if check then _ else _) as [[|]|e]; cbn [fst snd data upd with_data]; rewrite ?Hd; auto.
  - unfold Plan_Model.write_event. cbn [fst snd actions with_log action_ptr].
    destruct (nth_error (actions p) (action_ptr p)) eqn:Ep; [|congruence].
    destruct (nth_error (actions q) (action_ptr q)) eqn:Eq; [|congruence].
    destruct mons as [|m mons].
    + unfold get_state_dict. cbn [data with_log actions action_ptr]. rewrite Ep, Eq, Hd.
      destruct (state_vars (data q)) as [vs|e]; cbn; auto.
    + unfold get_state_dict. cbn [data with_data with_log actions action_ptr]. rewrite Ep, Eq, Hd.
      destruct (evaln _ _ _) as [vals|e]; [|cbn; auto].
      destruct (state_vars _) as [vs|e]; cbn; auto.
  - unfold write_checkpoint, get_state_dict. cbn [fst snd]. rewrite Hd.
    destruct (state_vars (data q)) as [vs|e]; cbn [bind]; [|cbn; auto].
    destruct (nth_error (actions p) (action_ptr p)) eqn:Ep; [|congruence].
    destruct (nth_error (actions q) (action_ptr q)) eqn:Eq; [|congruence]. cbn; auto.
Qed.
Lemma frame_inside s s' : frame s s' -> inside s -> inside s'.
Proof. intros (F1 & F2 & F3 & F4 & F5) [H1 H2]. split; congruence. Qed.
Lemma exec_sim p : forall s t, data (fst s) = data (fst t) -> inside s -> inside t ->
  snd (exec p s) = snd (exec p t) /\ data (fst (fst (exec p s))) = data (fst (fst (exec p t))).
Proof.
  induction p as [|e|o k IH]; intros s t Hd Hs Ht; cbn [Plan_Model.exec]; auto.
  destruct (@call_sim o s t Hd Hs Ht) as [H1 H2].
  assert (F1 := call_frame full_like ninf pinf evalx o s). assert (F2 := call_frame full_like ninf pinf evalx o t).
  destruct (call o s) as [s' r], (call o t) as [t' r']. cbn [fst snd] in *. subst r'.
  apply IH; [assumption| |]; eapply frame_inside; eassumption.
Qed.

(** Running a list of actions on a core, with a checkpoint after each. *)
Fixpoint srun (l : list action) (c : core) : core * res unit :=
  match l with
  | [] => (c, Ok tt)
  | a :: l' => let (s', r) := exec (a_run a) (canon c) in
               match r with
               | Err e => (data (fst s'), Err e)
               | Ok _ => match state_vars (data (fst s')) with
                         | Err e => (data (fst s'), Err e)
                         | Ok _ => srun l' (data (fst s'))
                         end
               end
  end.

Lemma srun_app l1 l2 : forall c, srun (l1 ++ l2) c =
  match srun l1 c with (c', Ok _) => srun l2 c' | r => r end.
Proof.
  induction l1 as [|a l1 IH]; intros c; cbn [srun app]; [reflexivity|].
  destruct (exec (a_run a) (canon c)) as [s' [u|e]]; [|reflexivity].
  destruct (state_vars (data (fst s'))); [apply IH|reflexivity].
Qed.

Lemma skipn_nth {A} (l : list A) i a : nth_error l i = Some a -> skipn i l = a :: skipn (S i) l.
Proof.
  revert i. induction l as [|b l IH]; intros [|i] H; cbn in H; try discriminate; [inversion H; reflexivity|].
  cbn [skipn]. rewrite (IH i H). reflexivity.
Qed.
Lemma canon_inside c : inside (canon c).
Proof. split; cbn; [reflexivity|discriminate]. Qed.

(** after a successful action *)
Lemma after_action_ok s s' u : saved (fst s) = true -> after_action true s = (s', Ok u) ->
  exists vs, state_vars (data (fst s)) = Ok vs /\
    files (snd s') = (Chkpt (action_ptr (fst s)), {| f_ptr := action_ptr (fst s); f_vars := vs; f_event := None; f_monitors := []; f_log := None |}) :: files (snd s).
Proof.
  intros Hs. unfold after_action. rewrite Hs. cbn [andb]. unfold write_checkpoint, get_state_dict.
  destruct (state_vars (data (fst s))) as [vs|e]; cbn [bind]; [|discriminate].
  destruct (nth_error _ _); [|discriminate]. intros H; inversion H; subst. exists vs. split; reflexivity.
Qed.
Lemma after_action_err s s' e : saved (fst s) = true -> inside s -> after_action true s = (s', Err e) ->
  state_vars (data (fst s)) = Err e.
Proof.
  intros Hs [_ Hi]. unfold after_action. rewrite Hs. cbn [andb]. unfold write_checkpoint, get_state_dict.
  destruct (state_vars (data (fst s))) as [vs|e']; cbn [bind]; [|intros H; inversion H; reflexivity].
  destruct (nth_error _ _); [discriminate|congruence].
Qed.

Lemma run_loop_srun k : forall s, modifiable (fst s) = true -> saved (fst s) = true ->
  length (actions (fst s)) - action_ptr (fst s) <= k ->
  srun (skipn (action_ptr (fst s)) (actions (fst s))) (data (fst s)) =
  (data (fst (fst (run_loop k true s))), snd (run_loop k true s)).
Proof.
  induction k as [|k IH]; intros s Hm Hsv Hk; cbn [Plan_Model.run_loop];
    destruct (nth_error (actions (fst s)) (action_ptr (fst s))) as [a|] eqn:Ea.
  - assert (action_ptr (fst s) < length (actions (fst s))) by (apply nth_error_Some; congruence). lia.
  - apply nth_error_None in Ea. rewrite skipn_all2 by assumption. reflexivity.
  - rewrite (skipn_nth _ _ Ea). cbn [srun].
    assert (Hin : inside s) by (split; [assumption|congruence]).
    destruct (@exec_sim (a_run a) (canon (data (fst s))) s eq_refl (canon_inside _) Hin) as [E1 E2].
    assert (HF := exec_frame full_like ninf pinf evalx (a_run a) s).
    destruct (exec (a_run a) (canon (data (fst s)))) as [s' r]. destruct (exec (a_run a) s) as [s1 r1]. cbn [fst snd] in *. subst r1.
    rewrite E2. destruct r as [u|e]; [|reflexivity].
    assert (Hin1 := frame_inside HF Hin). destruct HF as (F1 & F2 & F3 & F4 & F5).
    destruct (after_action true s1) as [s2 [u2|e]] eqn:Eaa.
    + destruct (@after_action_ok s1 s2 u2) as (vs & Hvs & _); [congruence|assumption|]. rewrite Hvs.
      apply after_action_frame in Eaa as (G1 & G2 & G3 & G4 & G5 & G6 & G7 & G8).
      rewrite <- G5. rewrite <- F4, <- G4, <- F5. replace (S (action_ptr (fst s1))) with (action_ptr (fst s2)) by lia.
      apply IH; [congruence|congruence|rewrite G4, F4, G7, F5; lia].
    + rewrite (@after_action_err s1 s2 e); [|congruence|assumption|assumption].
      apply after_action_frame in Eaa as (G1 & G2 & G3 & G4 & G5 & G6 & G7). cbn [fst snd]. now rewrite G5.
  - apply nth_error_None in Ea. rewrite skipn_all2 by assumption. reflexivity.
Qed.

Lemma grow_chk s o N : lookup_file (files (snd (fst (call o s)))) (Chkpt N) = lookup_file (files (snd s)) (Chkpt N).
Proof.
  destruct o; cbn [Plan_Model.call]; unfold guarded;
    try (match goal with |- context [if modifiable _ then _ else _] => destruct (modifiable (fst s)); [|reflexivity] end); try reflexivity.
  - destruct (if check then _ else _) as [[|]|e]; reflexivity.
  - destruct (write_event_log ev mons s) as (_ & H2 & H3). destruct (saved (fst s)) eqn:Hs; [|now rewrite H3].
    destruct (snd (write_event ev mons s)) as [a|e] eqn:Hr; [|now rewrite H2].
    destruct (H2 eq_refl) as (d & Hf & _). rewrite Hf. reflexivity.
  - unfold write_checkpoint. destruct (get_state_dict (fst s)) as [[ptr vs]|e]; reflexivity.
Qed.
Lemma exec_chk p N : forall s, lookup_file (files (snd (fst (exec p s)))) (Chkpt N) = lookup_file (files (snd s)) (Chkpt N).
Proof.
  induction p as [|e|o k IH]; intros s; cbn [Plan_Model.exec]; [reflexivity|reflexivity|].
  assert (H := grow_chk s o N). destruct (call o s) as [s' r]. cbn [fst] in H. rewrite <- H. apply IH.
Qed.

(** The checkpoint file of action [N]. *)
Lemma run_loop_ckpt N k : forall s d, modifiable (fst s) = true -> saved (fst s) = true ->
  lookup_file (files (snd (fst (run_loop k true s)))) (Chkpt N) = Some d ->
  lookup_file (files (snd s)) (Chkpt N) = Some d \/
  (action_ptr (fst s) <= N < length (actions (fst s)) /\ f_ptr d = N /\ f_event d = None /\
   exists cN, srun (firstn (S N - action_ptr (fst s)) (skipn (action_ptr (fst s)) (actions (fst s)))) (data (fst s)) = (cN, Ok tt) /\
              state_vars cN = Ok (f_vars d)).
Proof.
  induction k as [|k IH]; intros s d Hm Hsv; cbn [Plan_Model.run_loop];
    destruct (nth_error (actions (fst s)) (action_ptr (fst s))) as [a|] eqn:Ea; try (now left).
  assert (Hlt : action_ptr (fst s) < length (actions (fst s))) by (apply nth_error_Some; congruence).
  rewrite (skipn_nth _ _ Ea).
  assert (Hin : inside s) by (split; [assumption|congruence]).
  destruct (@exec_sim (a_run a) (canon (data (fst s))) s eq_refl (canon_inside _) Hin) as [E1 E2].
  assert (HF := exec_frame full_like ninf pinf evalx (a_run a) s).
  assert (HC := exec_chk (a_run a) N s).
  assert (Hone : forall n l, srun (firstn (S n) (a :: l)) (data (fst s)) =
     (let (s', r) := exec (a_run a) (canon (data (fst s))) in
      match r with
      | Err e => (data (fst s'), Err e)
      | Ok _ => match state_vars (data (fst s')) with
                | Err e => (data (fst s'), Err e)
                | Ok _ => srun (firstn n l) (data (fst s')) end end)) by reflexivity.
  destruct (exec (a_run a) (canon (data (fst s)))) as [s' r]. destruct (exec (a_run a) s) as [s1 r1]. cbn [fst snd] in *. subst r1.
  destruct r as [u|e]; [|cbn [fst]; rewrite HC; now left].
  destruct HF as (F1 & F2 & F3 & F4 & F5).
  destruct (after_action true s1) as [s2 [u2|e]] eqn:Eaa.
  - destruct (@after_action_ok s1 s2 u2) as (vs & Hvs & Hfl); [congruence|assumption|].
    apply after_action_frame in Eaa as (G1 & G2 & G3 & G4 & G5 & G6 & G7 & G8).
    intros Hlook. apply IH in Hlook; [|congruence|congruence].
    destruct Hlook as [Hlook|Hlook].
    + rewrite Hfl in Hlook. cbn [lookup_file fname_eqb] in Hlook.
      destruct (Nat.eqb (action_ptr (fst s1)) N) eqn:EN.
      * right. apply Nat.eqb_eq in EN. inversion Hlook; subst d. cbn [f_ptr f_event f_vars].
        split; [lia|]. split; [assumption|]. split; [reflexivity|].
        replace (S N - action_ptr (fst s)) with 1 by lia. rewrite Hone. rewrite E2, Hvs. cbn [firstn srun].
        exists (data (fst s1)). split; [reflexivity|assumption].
      * rewrite HC in Hlook. now left.
    + right. rewrite G7, G4, F5, F4, G5 in Hlook. destruct Hlook as (L1 & L2 & L3 & cN & L4 & L5).
      split; [lia|]. split; [assumption|]. split; [assumption|]. exists cN.
      replace (S N - action_ptr (fst s)) with (S (S N - (1 + action_ptr (fst s)))) by lia.
      rewrite Hone. rewrite E2, Hvs. split; assumption.
  - intros Hlook. left. unfold after_action, write_checkpoint in Eaa.
    destruct (true && saved (fst s1))%bool; [|discriminate]. destruct (get_state_dict (fst s1)) as [[ptr vs]|e0]; [discriminate|].
    inversion Eaa; subst s2. cbn [fst] in Hlook. now rewrite HC in Hlook.
Qed.

(** Loading a saved state into a core with the same keys. *)
Lemma load_vars_keys vs : forall c, (forall k, In k (akeys vs) -> In k (akeys (var_value c))) -> core_tight c ->
  akeys (var_value (load_vars vs c)) = akeys (var_value c) /\ akeys (var_frozen (load_vars vs c)) = akeys (var_frozen c) /\
  akeys (var_bounds (load_vars vs c)) = akeys (var_bounds c).
Proof.
  induction vs as [|[k [[v fr] b]] vs IH]; intros c Hin HT; [auto|].
  rewrite load_vars_fold. cbn [fold_left]. rewrite <- load_vars_fold.
  assert (Hk : In k (akeys (var_value c))) by (apply Hin; now left).
  assert (HT' := HT). destruct HT' as (T1 & T2 & T3).
  assert (E1 : akeys (aset (var_value c) k v) = akeys (var_value c)).
  { rewrite akeys_aset. apply amem_keys in Hk. now rewrite Hk. }
  assert (E2 : akeys (aset (var_frozen c) k fr) = akeys (var_frozen c)).
  { rewrite akeys_aset. rewrite <- T2 in Hk. apply amem_keys in Hk. now rewrite Hk. }
  assert (E3 : akeys (aset (var_bounds c) k b) = akeys (var_bounds c)).
  { rewrite akeys_aset. rewrite <- T3 in Hk. apply amem_keys in Hk. now rewrite Hk. }
  destruct (IH (load1 c (k, (v, fr, b)))) as (I1 & I2 & I3).
  - intros j Hj. cbn [load1 with_bnd with_fr with_val var_value]. rewrite E1. apply Hin. now right.
  - unfold core_tight. cbn [load1 with_bnd with_fr with_val var_value var_frozen var_bounds]. rewrite E1, E2, E3. exact HT.
  - rewrite I1, I2, I3. cbn [load1 with_bnd with_fr with_val var_value var_frozen var_bounds]. auto.
Qed.

Lemma load_state c0 cN vs : core_tight c0 -> same_keys c0 cN -> state_vars cN = Ok vs -> load_vars vs c0 = cN.
Proof.
  intros HT (S1 & S2 & S3 & S4) Hv. assert (HT' := HT). destruct HT' as (T1 & T2 & T3).
  assert (Hk : akeys vs = akeys (var_value cN)) by (now apply state_vars_spec in Hv).
  destruct (@load_vars_keys vs c0) as (L1 & L2 & L3); [intros k; rewrite Hk, S2; auto|assumption|].
  assert (HndN : NoDup (akeys (var_value cN))) by (now rewrite <- S2).
  assert (Hdat : forall k, var_data (load_vars vs c0) k = var_data cN k).
  { intros k. rewrite load_vars_data by (now rewrite Hk). assert (H := state_vars_aget cN HndN Hv k).
    unfold var_data. destruct (aget (var_value cN) k) as [v|] eqn:E.
    - destruct H as (fr & b & -> & -> & ->). reflexivity.
    - rewrite H. apply aget_None in E. rewrite <- S2 in E.
      assert (A1 : aget (var_value c0) k = None) by now apply aget_None.
      assert (A2 : aget (var_frozen c0) k = None) by (apply aget_None; now rewrite T2).
      assert (A3 : aget (var_bounds c0) k = None) by (apply aget_None; now rewrite T3).
      assert (A4 : aget (var_frozen cN) k = None) by (apply aget_None; now rewrite <- S3, T2).
      assert (A5 : aget (var_bounds cN) k = None) by (apply aget_None; now rewrite <- S4, T3).
      now rewrite A1, A2, A3, A4, A5. }
  assert (Hnm := load_vars_nodemap vs c0).
  assert (N1 : NoDup (akeys (var_value (load_vars vs c0)))) by now rewrite L1.
  assert (N2 : NoDup (akeys (var_frozen (load_vars vs c0)))) by now rewrite L2, T2.
  assert (N3 : NoDup (akeys (var_bounds (load_vars vs c0)))) by now rewrite L3, T3.
  assert (V1 := alist_ext (var_value (load_vars vs c0)) (var_value cN) N1 ltac:(congruence) (fun k => f_equal (fun x => fst (fst x)) (Hdat k))).
  assert (V2 := alist_ext (var_frozen (load_vars vs c0)) (var_frozen cN) N2 ltac:(congruence) (fun k => f_equal (fun x => snd (fst x)) (Hdat k))).
  assert (V3 := alist_ext (var_bounds (load_vars vs c0)) (var_bounds cN) N3 ltac:(congruence) (fun k => f_equal snd (Hdat k))).
  destruct (load_vars vs c0), cN. cbn in *. congruence.
Qed.

(** running from the plan's initial state *)
Lemma run_srun s : saved (fst s) = true -> 
  srun (skipn (action_ptr (fst s)) (actions (fst s))) (data (fst s)) = (data (fst (fst (run true s))), snd (run true s)).
Proof. intros Hs. unfold Plan_Model.run. now apply (@run_loop_srun _ (with_mod (fst s) true, snd s)). Qed.

Lemma firstn_skipn_split {A} (l : list A) N : skipn N l = firstn 1 (skipn N l) ++ skipn (S N) l.
Proof.
  revert N. induction l as [|a l IH]; intros [|N]; try reflexivity. cbn [skipn]. apply IH.
Qed.

Lemma resume_reexecutes p0 w0 w N d :
  saved p0 = true -> action_ptr p0 = 0 -> core_tight (data p0) ->
  lookup_file (files w0) (Chkpt N) = None ->
  lookup_file (files (snd (fst (run true (p0, w0))))) (Chkpt N) = Some d ->
  lookup_file (files w) (Chkpt N) = Some d ->
  same_keys (data p0) (fst (srun (firstn (S N) (actions p0)) (data p0))) ->
  let again := with_actions p0 (firstn (S N) (actions p0) ++ skipn N (actions p0)) in
  data (fst (fst (resume (Some (Chkpt N)) true (p0, w)))) = data (fst (fst (run true (again, w0)))) /\
  snd (resume (Some (Chkpt N)) true (p0, w)) = snd (run true (again, w0)).
Proof.
  intros Hsv Hp HT Hno Hlook Hw Hkeys again.
  unfold Plan_Model.run in Hlook. apply run_loop_ckpt in Hlook; [|reflexivity|exact Hsv].
  cbn [fst snd with_mod action_ptr actions data] in Hlook. rewrite Hp, Hno in Hlook. cbn [skipn] in Hlook.
  destruct Hlook as [Hl|(L1 & L2 & L3 & cN & L4 & L5)]; [discriminate|]. rewrite Nat.sub_0_r in L4.
  rewrite L4 in Hkeys. cbn [fst] in Hkeys.
  (* reference run *)
  assert (HR : (data (fst (fst (run true (again, w0)))), snd (run true (again, w0))) = srun (skipn N (actions p0)) cN).
  { rewrite <- run_srun by exact Hsv. cbn [fst again with_actions action_ptr actions data]. rewrite Hp. cbn [skipn].
    rewrite srun_app, L4. reflexivity. }
  (* resumed run *)
  assert (HX : (data (fst (fst (resume (Some (Chkpt N)) true (p0, w)))), snd (resume (Some (Chkpt N)) true (p0, w))) = srun (skipn N (actions p0)) cN).
  { unfold Plan_Model.resume, read_checkpoint. cbn [fst snd]. rewrite Hw. rewrite (load_state HT Hkeys L5), L2, L3.
    cbn [fst snd with_mod with_data with_ptr actions action_ptr action_data].
    destruct (nth_error (actions p0) N) as [a|] eqn:Ea; [|apply nth_error_None in Ea; lia].
    rewrite (skipn_nth _ _ Ea). cbn [srun].
    set (s1 := (with_mod _ true, w)).
    assert (Hin : inside s1). { split; [reflexivity|]. cbn. congruence. }
    destruct (@exec_sim (a_run a) (canon cN) s1 eq_refl (canon_inside _) Hin) as [E1 E2].
    assert (HF := exec_frame full_like ninf pinf evalx (a_run a) s1).
    destruct (exec (a_run a) (canon cN)) as [s' r]. destruct (exec (a_run a) s1) as [s2 r1]. cbn [fst snd] in *. subst r1.
    rewrite E2. destruct r as [u|e]; [|reflexivity].
    assert (Hin1 := frame_inside HF Hin). destruct HF as (F1 & F2 & F3 & F4 & F5). cbn in F1, F2, F3, F4, F5.
    destruct (after_action true s2) as [s3 [u3|e]] eqn:Eaa.
    - destruct (@after_action_ok s2 s3 u3) as (vs & Hvs & _); [congruence|assumption|]. rewrite Hvs.
      apply after_action_frame in Eaa as (G1 & G2 & G3 & G4 & G5 & G6 & G7 & G8).
      rewrite <- run_srun by (cbn; congruence). cbn [fst with_mod action_ptr actions data].
      rewrite G7, G4, F4, F5, G5. reflexivity.
    - rewrite (@after_action_err s2 s3 e); [|congruence|assumption|assumption].
      apply after_action_frame in Eaa as (G1 & G2 & G3 & G4 & G5 & G6 & G7). cbn [fst snd]. now rewrite G5. }
  rewrite <- HX in HR. inversion HR. auto.
Qed.

(** C55: checkpoints written by the tail of [resume]. *)
Lemma exec_chk_mono p s N : lookup_file (files (snd s)) (Chkpt N) <> None -> lookup_file (files (snd (fst (exec p s)))) (Chkpt N) <> None.
Proof. now rewrite exec_chk. Qed.
Lemma run_loop_all_ckpts k : forall s s', modifiable (fst s) = true -> saved (fst s) = true ->
  run_loop k true s = (s', Ok tt) ->
  (forall i, lookup_file (files (snd s)) (Chkpt i) <> None -> lookup_file (files (snd s')) (Chkpt i) <> None) /\
  (forall i, action_ptr (fst s) <= i < length (actions (fst s)) -> lookup_file (files (snd s')) (Chkpt i) <> None).
Proof.
  induction k as [|k IH]; intros s s' Hm Hsv; cbn [Plan_Model.run_loop];
    destruct (nth_error (actions (fst s)) (action_ptr (fst s))) as [a|] eqn:Ea; try discriminate;
    try (intros H; inversion H; subst; apply nth_error_None in Ea; split; [auto|intros; lia]).
  assert (HF := exec_frame full_like ninf pinf evalx (a_run a) s). assert (HC := fun i => exec_chk (a_run a) i s).
  destruct (exec (a_run a) s) as [s1 [u|e]]; [|discriminate]. cbn [fst] in *. destruct HF as (F1 & F2 & F3 & F4 & F5).
  destruct (after_action true s1) as [s2 [u2|e]] eqn:Eaa; [|discriminate]. intros Hr.
  destruct (@after_action_ok s1 s2 u2) as (vs & Hvs & Hfl); [congruence|assumption|].
  apply after_action_frame in Eaa as (G1 & G2 & G3 & G4 & G5 & G6 & G7 & G8).
  apply IH in Hr as [I1 I2]; [|congruence|congruence]. split.
  - intros i Hi. apply I1. rewrite Hfl. cbn [lookup_file]. destruct (fname_eqb _ _); [discriminate|]. now rewrite HC.
  - intros i Hi. destruct (Nat.eq_dec i (action_ptr (fst s))) as [->|Hne].
    + apply I1. rewrite Hfl. cbn [lookup_file fname_eqb]. rewrite F5, Nat.eqb_refl. discriminate.
    + apply I2. rewrite G7, G4, F4, F5. lia.
Qed.

Lemma resume_ckpts_anyway ck s s' : saved (fst s) = true -> resume ck false s = (s', Ok tt) ->
  exists ptr, (forall i, ptr < i < length (actions (fst s')) -> lookup_file (files (snd s')) (Chkpt i) <> None) /\
    match ck with
    | None => ptr = action_ptr (fst s)
    | Some f => exists d, lookup_file (files (snd s)) f = Some d /\ ptr = f_ptr d
    end.
Proof.
  intros Hsv. unfold Plan_Model.resume.
  destruct (match ck with None => (s, Ok tt) | Some f => read_checkpoint f s end) as [s0 [u|e]] eqn:E0; [|discriminate].
  assert (H0 : saved (fst s0) = true /\ match ck with
    | None => action_ptr (fst s0) = action_ptr (fst s)
    | Some f => exists d, lookup_file (files (snd s)) f = Some d /\ action_ptr (fst s0) = f_ptr d
    end).
  { destruct ck as [f|].
    - unfold read_checkpoint in E0. destruct (lookup_file (files (snd s)) f) as [d|]; [|discriminate].
      inversion E0; subst. split; [exact Hsv|]. exists d. auto.
    - inversion E0; subst. auto. }
  destruct H0 as [Hs0 Hck].
  destruct (nth_error _ _) as [a|] eqn:Ea; [|discriminate].
  match goal with |- context [exec ?p ?t] => assert (HF := exec_frame full_like ninf pinf evalx p t); destruct (exec p t) as [s2 [u2|e]]; [|discriminate] end.
  cbn [fst] in HF. destruct HF as (F1 & F2 & F3 & F4 & F5). cbn [fst with_mod modifiable saved actions action_ptr] in F1, F2, F3, F4, F5.
  destruct (after_action false s2) as [s3 [u3|e]] eqn:Eaa; [|discriminate].
  apply after_action_frame in Eaa as (G1 & G2 & G3 & G4 & G5 & G6 & G7 & G8).
  intros Hr. assert (Hact : actions (fst s') = actions (fst s3)) by (apply run_outcome in Hr; tauto).
  unfold Plan_Model.run in Hr. apply run_loop_all_ckpts in Hr as [_ R]; [|reflexivity|cbn; congruence].
  cbn [fst with_mod action_ptr actions] in R. exists (action_ptr (fst s0)). split; [|exact Hck].
  intros i Hi. apply R. rewrite Hact in Hi. rewrite G7, F5. lia.
Qed.
End PP3.
