(** Lemmas about dictionaries, node registration and API calls. *)
From Verif Require Import Base Plan_Model Plan_Spec.
Set Implicit Arguments.

Section Alist.
Context {X : Type}.
Implicit Types l : alist X.
Lemma aget_aset_same l k x : aget (aset l k x) k = Some x.
Proof.
  induction l as [|[k' y] l IH]; cbn [aset aget]; [now rewrite Nat.eqb_refl|].
  destruct (Nat.eqb k' k) eqn:E; cbn [aget]; rewrite E; [reflexivity|assumption].
Qed.
Lemma aget_aset_other l k x k' : k' <> k -> aget (aset l k x) k' = aget l k'.
Proof.
  intros Hne. induction l as [|[k1 y] l IH]; cbn [aset aget].
  - destruct (Nat.eqb_spec k k'); [congruence|reflexivity].
  - destruct (Nat.eqb_spec k1 k) as [->|]; cbn [aget].
    + destruct (Nat.eqb_spec k k'); [congruence|reflexivity].
    + now rewrite IH.
Qed.
Lemma aget_None l k : aget l k = None <-> ~ In k (akeys l).
Proof.
  induction l as [|[k1 y] l IH]; cbn [aget akeys map fst In]; [tauto|].
  destruct (Nat.eqb_spec k1 k) as [->|Hne].
  - split; [discriminate|]. intros H. exfalso. apply H. now left.
  - rewrite IH. unfold akeys. tauto.
Qed.
Lemma aget_In l k x : aget l k = Some x -> In (k, x) l.
Proof.
  induction l as [|[k1 y] l IH]; cbn [aget]; [discriminate|].
  destruct (Nat.eqb_spec k1 k) as [->|]; [intros H; inversion H; now left|]. right. now apply IH.
Qed.
Lemma aget_keys l k x : aget l k = Some x -> In k (akeys l).
Proof. intros H. apply aget_In in H. apply (in_map fst) in H. exact H. Qed.
Lemma keys_aget l k : In k (akeys l) -> exists x, aget l k = Some x.
Proof. intros H. destruct (aget l k) as [x|] eqn:E; [now exists x|]. apply aget_None in E. contradiction. Qed.
Lemma In_aget l k x : NoDup (akeys l) -> In (k, x) l -> aget l k = Some x.
Proof.
  induction l as [|[k1 y] l IH]; cbn [aget akeys map fst]; intros Hnd Hin; [destruct Hin|].
  inversion Hnd as [|? ? Hn Hnd']; subst. destruct Hin as [Hin|Hin].
  - inversion Hin; subst. now rewrite Nat.eqb_refl.
  - destruct (Nat.eqb_spec k1 k) as [->|]; [|now apply IH].
    exfalso. apply Hn. apply (in_map fst) in Hin. exact Hin.
Qed.
Lemma akeys_aset l k x : akeys (aset l k x) = if amem l k then akeys l else akeys l ++ [k].
Proof.
  unfold amem. induction l as [|[k1 y] l IH]; cbn [aset aget akeys map fst app]; [reflexivity|].
  destruct (Nat.eqb_spec k1 k) as [->|]; cbn [akeys map fst]; [reflexivity|].
  unfold akeys in IH. rewrite IH. destruct (aget l k); reflexivity.
Qed.
Lemma akeys_aset_In l k x k' : In k' (akeys (aset l k x)) <-> k' = k \/ In k' (akeys l).
Proof.
  rewrite akeys_aset. unfold amem. destruct (aget l k) eqn:E.
  - apply aget_keys in E. split; [tauto|]. intros [->|?]; assumption.
  - rewrite in_app_iff. simpl. split; intros H; intuition congruence.
Qed.
Lemma NoDup_aset l k x : NoDup (akeys l) -> NoDup (akeys (aset l k x)).
Proof.
  intros H. rewrite akeys_aset. unfold amem. destruct (aget l k) eqn:E; [assumption|].
  apply aget_None in E. apply NoDup_rev in H. rewrite <- (rev_involutive (akeys l)), <- (rev_involutive [k]), <- rev_app_distr.
  apply NoDup_rev. cbn. constructor; [|assumption]. now rewrite <- in_rev.
Qed.
Lemma amem_keys l k : amem l k = true <-> In k (akeys l).
Proof.
  unfold amem. destruct (aget l k) eqn:E; split; intros H; try congruence.
  - now apply aget_keys in E.
  - apply aget_None in E. contradiction.
Qed.
Lemma amem_false l k : amem l k = false <-> aget l k = None.
Proof. unfold amem. destruct (aget l k); split; congruence. Qed.
(** Two dictionaries with the same keys (in order) and the same entries are equal. *)
Lemma alist_ext l l' : NoDup (akeys l) -> akeys l = akeys l' -> (forall k, aget l k = aget l' k) -> l = l'.
Proof.
  revert l'. induction l as [|[k x] l IH]; intros [|[k' x'] l'] Hnd Hk He; cbn in Hk; try discriminate; [reflexivity|].
  inversion Hk as [[Hk1 Hk2]]. subst k'. inversion Hnd as [|? ? Hn Hnd']; subst.
  assert (Hx := He k). cbn [aget] in Hx. rewrite Nat.eqb_refl in Hx. inversion Hx; subst.
  f_equal. apply IH; [assumption|assumption|]. intros j. specialize (He j). cbn [aget] in He.
  destruct (Nat.eqb_spec k j) as [Ekj|]; [rewrite <- Ekj in *|assumption].
  transitivity (@None X); [now apply aget_None|]. symmetry. apply aget_None. fold (akeys l') in Hk2. unfold akeys in *. now rewrite <- Hk2.
Qed.
End Alist.

Section PP.
Variables V S : Type.
Variable full_like : V -> S -> V.
Variables ninf pinf : S.
Notation node := (node V S).
Notation core := (core V S).
Notation add_node := (add_node full_like ninf pinf).
Notation add_nodes := (add_nodes full_like ninf pinf).
Notation register := (register full_like ninf pinf).
Notation declared := (declared full_like ninf pinf).

Lemma add_node_unfold (n : node) c :
  add_node n c = if amem (node_map c) (nname n) then c else add_nodes (nins n) (register c n).
Proof.
  destruct n as [k d ins]. cbn [Plan_Model.add_node nname nins].
  destruct (amem (node_map c) k); [reflexivity|].
  generalize (register c (Node k d ins)). induction ins as [|m l IH]; intros c'; [reflexivity|].
  cbn [Plan_Model.add_nodes fold_left]. unfold Plan_Model.add_nodes in IH. apply IH.
Qed.

Section NodeInd.
Variable P : node -> Prop.
Hypothesis H : forall k d ins, Forall P ins -> P (Node k d ins).
Fixpoint node_ind2 (n : node) : P n :=
  match n with
  | Node k d ins => H k d ((fix go (l : list node) : Forall P l :=
      match l with [] => Forall_nil P | m :: l' => Forall_cons m (node_ind2 m) (go l') end) ins)
  end.
End NodeInd.

(** What a registration step from [c] to [c'] may do. *)
Definition ext (Q : node -> Prop) (c c' : core) : Prop :=
  (forall k m, aget (node_map c) k = Some m -> aget (node_map c') k = Some m) /\
  (forall k m, aget (node_map c') k = Some m -> aget (node_map c) k = Some m \/ (Q m /\ nname m = k)) /\
  (forall k, amem (node_map c) k = true -> var_data c' k = var_data c k) /\
  (forall k m, aget (node_map c) k = None -> aget (node_map c') k = Some m ->
     match ndecl m with Some d => var_data c' k = declared d | None => var_data c' k = var_data c k end) /\
  (forall k, aget (node_map c') k = None -> var_data c' k = var_data c k) /\
  (NoDup (akeys (node_map c)) -> NoDup (akeys (node_map c'))) /\
  (NoDup (akeys (var_value c)) -> NoDup (akeys (var_value c'))).

Lemma ext_refl Q c : ext Q c c.
Proof. split; [|split; [|split; [|split; [|split; [|split]]]]]; auto. intros k m H1 H2. congruence. Qed.

Lemma ext_trans (Q Q1 Q2 : node -> Prop) c1 c2 c3 : (forall m, Q1 m -> Q m) -> (forall m, Q2 m -> Q m) ->
  ext Q1 c1 c2 -> ext Q2 c2 c3 -> ext Q c1 c3.
Proof.
  intros HQ1 HQ2 (A1 & A2 & A3 & A4 & A5 & A6 & A7) (B1 & B2 & B3 & B4 & B5 & B6 & B7).
  split; [|split; [|split; [|split; [|split; [|split]]]]]; auto.
  - intros k m Hm. apply B2 in Hm as [Hm|[Hm Hk]]; [|right; auto].
    apply A2 in Hm as [Hm|[Hm Hk]]; [now left|right; auto].
  - intros k Hk. rewrite B3; [now apply A3|]. unfold amem in *. destruct (aget (node_map c1) k) eqn:E1; [|discriminate].
    now rewrite (A1 _ _ E1).
  - intros k m H1 H3. destruct (aget (node_map c2) k) as [m2|] eqn:E2.
    + assert (m2 = m) as -> by (apply B1 in E2; congruence).
      rewrite (B3 k) by (unfold amem; now rewrite E2). exact (A4 k m H1 E2).
    + assert (H := B4 k m E2 H3). destruct (ndecl m); [assumption|]. rewrite H. now apply A5.
  - intros k Hk. assert (E2 : aget (node_map c2) k = None).
    { destruct (aget (node_map c2) k) eqn:E; [|reflexivity]. apply B1 in E. congruence. }
    rewrite (B5 k Hk). now apply A5.
Qed.

Lemma node_map_register c n : node_map (register c n) = aset (node_map c) (nname n) n.
Proof. unfold Plan_Model.register. now destruct (ndecl n). Qed.

Lemma register_ext c n : aget (node_map c) (nname n) = None -> ext (eq n) c (register c n).
Proof.
  intros Hn.
  assert (Hvd : forall k, k <> nname n -> var_data (register c n) k = var_data c k).
  { intros k Hk. unfold var_data, Plan_Model.register. destruct (ndecl n); cbn [var_value var_frozen var_bounds]; [|reflexivity].
    now rewrite !aget_aset_other by assumption. }
  unfold ext. rewrite node_map_register.
  split; [|split; [|split; [|split; [|split; [|split]]]]].
  - intros k m Hm. rewrite aget_aset_other; [assumption|]. intros ->. congruence.
  - intros k m Hm. destruct (Nat.eq_dec k (nname n)) as [->|Hk].
    + rewrite aget_aset_same in Hm. inversion Hm; subst. now right.
    + rewrite aget_aset_other in Hm by assumption. now left.
  - intros k Hk. apply Hvd. intros ->. unfold amem in Hk. now rewrite Hn in Hk.
  - intros k m H1 H2. destruct (Nat.eq_dec k (nname n)) as [->|Hk].
    + rewrite aget_aset_same in H2. inversion H2; subst m. unfold var_data, Plan_Model.register, Plan_Spec.declared.
      destruct (ndecl n); cbn [var_value var_frozen var_bounds]; [|reflexivity]. now rewrite !aget_aset_same.
    + rewrite aget_aset_other in H2 by assumption. congruence.
  - intros k Hk. apply Hvd. intros ->. now rewrite aget_aset_same in Hk.
  - intros H. now apply NoDup_aset.
  - intros H. unfold Plan_Model.register. destruct (ndecl n); cbn [var_value]; [now apply NoDup_aset|assumption].
Qed.

Lemma add_nodes_ext_gen l : Forall (fun n => forall c, ext (fun m => sub m n) c (add_node n c)) l ->
  forall c, ext (fun m => exists n, In n l /\ sub m n) c (add_nodes l c).
Proof.
  induction 1 as [|n l Hn HF IH]; intros c; cbn [Plan_Model.add_nodes fold_left]; [apply ext_refl|].
  eapply ext_trans; [| |apply Hn|apply IH]; cbn beta.
  - intros m Hm. exists n. split; [now left|assumption].
  - intros m (x & Hx & Hm). exists x. split; [now right|assumption].
Qed.

Lemma add_node_ext n : forall c, ext (fun m => sub m n) c (add_node n c).
Proof.
  induction n as [k d ins IH] using node_ind2. intros c. rewrite add_node_unfold.
  destruct (amem (node_map c) (nname (Node k d ins))) eqn:E; [apply ext_refl|]. apply amem_false in E.
  eapply ext_trans; [| |apply register_ext; exact E|apply (add_nodes_ext_gen IH)]; cbn beta.
  - intros m <-. apply sub_refl.
  - intros m (i & Hi & Hm). now apply sub_step with i.
Qed.

Lemma add_nodes_ext l c : ext (fun m => exists n, In n l /\ sub m n) c (add_nodes l c).
Proof. apply add_nodes_ext_gen. apply Forall_forall. intros n _. apply add_node_ext. Qed.

Lemma add_node_present n c : amem (node_map c) (nname n) = true -> add_node n c = c.
Proof. intros H. rewrite add_node_unfold. now rewrite H. Qed.

Lemma add_node_contains n c : amem (node_map (add_node n c)) (nname n) = true.
Proof.
  rewrite add_node_unfold. destruct (amem (node_map c) (nname n)) eqn:E; [assumption|].
  destruct (add_nodes_ext (nins n) (register c n)) as (A & _). unfold amem.
  rewrite (A (nname n) n); [reflexivity|]. rewrite node_map_register. apply aget_aset_same.
Qed.

(** Closure. [U]: the nodes of the program, closed under inputs, with unique names. *)
Section Closure.
Variable U : node -> Prop.
Hypothesis HUin : forall n i, U n -> In i (nins n) -> U i.
Hypothesis HUname : forall a b, U a -> U b -> nname a = nname b -> a = b.

Definition closed_but (G : node -> Prop) (c : core) : Prop :=
  forall k m, aget (node_map c) k = Some m ->
    nname m = k /\ U m /\ (G m \/ forall i, In i (nins m) -> aget (node_map c) (nname i) = Some i).


Lemma add_node_closed n : forall G c, U n -> closed_but G c ->
  closed_but G (add_node n c) /\ aget (node_map (add_node n c)) (nname n) = Some n.
Proof.
  induction n as [k d ins IH] using node_ind2. intros G c HU Hc. rewrite add_node_unfold.
  remember (Node k d ins) as n eqn:Hn.
  destruct (amem (node_map c) (nname n)) eqn:E.
  - split; [assumption|]. unfold amem in E. destruct (aget (node_map c) (nname n)) as [m|] eqn:E'; [|discriminate].
    destruct (Hc _ _ E') as (H1 & H2 & _). f_equal. now apply HUname.
  - apply amem_false in E.
    assert (Hlist : forall l c, (forall i, In i l -> In i ins) -> closed_but (fun m => G m \/ m = n) c ->
        aget (node_map c) (nname n) = Some n ->
        closed_but (fun m => G m \/ m = n) (add_nodes l c) /\ aget (node_map (add_nodes l c)) (nname n) = Some n /\
        (forall i, In i l -> aget (node_map (add_nodes l c)) (nname i) = Some i)).
    { clear c Hc E. induction l as [|i l IHl]; intros c Hl Hc Hnc; cbn [Plan_Model.add_nodes fold_left].
      - split; [assumption|]. split; [assumption|]. intros i [].
      - rewrite Forall_forall in IH.
        assert (HUi : U i). { apply HUin with n; [assumption|]. subst n. cbn. apply Hl. now left. }
        destruct (IH i (Hl i (or_introl eq_refl)) _ c HUi Hc) as [Hc1 Hi1].
        assert (Hext := add_node_ext i c). destruct Hext as (A1 & _).
        destruct (IHl (add_node i c)) as (B1 & B2 & B3); [intros j Hj; apply Hl; now right|assumption|now apply A1|].
        split; [exact B1|]. split; [exact B2|]. intros j [<-|Hj]; [|now apply B3].
        destruct (add_nodes_ext l (add_node i c)) as (A2 & _). now apply A2. }
    assert (Hreg : closed_but (fun m => G m \/ m = n) (register c n)).
    { intros j m Hm. rewrite node_map_register in *. destruct (Nat.eq_dec j (nname n)) as [->|Hj].
      - rewrite aget_aset_same in Hm. inversion Hm; subst m. auto.
      - rewrite aget_aset_other in Hm by assumption. destruct (Hc j m Hm) as (C1 & C2 & C3).
        split; [assumption|]. split; [assumption|]. destruct C3 as [C3|C3]; [tauto|]. right.
        intros i Hi. rewrite aget_aset_other; [now apply C3|]. intros Heq. specialize (C3 i Hi). rewrite Heq in C3. congruence. }
    destruct (Hlist (nins n) (register c n)) as (B1 & B2 & B3).
    { subst n. cbn. auto. }
    { exact Hreg. }
    { rewrite node_map_register. apply aget_aset_same. }
    split; [|assumption]. intros j m Hm. destruct (B1 j m Hm) as (C1 & C2 & C3).
    split; [assumption|]. split; [assumption|]. destruct C3 as [[C3| ->]|C3]; auto.
Qed.

Lemma closed_subs c n : closed_but (fun _ => False) c -> aget (node_map c) (nname n) = Some n ->
  forall m, sub m n -> aget (node_map c) (nname m) = Some m.
Proof.
  intros Hc Hn m Hs. induction Hs as [n|m i n Hi Hs IH]; [assumption|].
  destruct (Hc _ _ Hn) as (_ & _ & [[]|C]). apply IH. now apply C.
Qed.
End Closure.
End PP.
