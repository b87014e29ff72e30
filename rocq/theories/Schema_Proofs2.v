(** Round trip of dumps and loads. *)
From Verif Require Import Base Schema_Model Schema_Spec Schema_Proofs.
Open Scope nat_scope.
Set Implicit Arguments.

Lemma strip_name o : oname (strip o) = oname o.
Proof. now destruct o. Qed.
Lemma map_strip_names l : map oname (map strip l) = map oname l.
Proof. rewrite map_map. apply map_ext. intros o. apply strip_name. Qed.
Lemma unique_names_names : forall l m seen, map oname l = map oname m -> unique_names seen l = unique_names seen m.
Proof.
  induction l as [|a l IH]; intros [|b m] seen; simpl; try discriminate; [reflexivity|].
  intros H. injection H as E H. rewrite E. destruct (memb (oname b) seen); [reflexivity|]. now apply IH.
Qed.
Lemma find_node_In l o : (forall a b, In a l -> In b l -> oname a = oname b -> a = b) -> In o l ->
  find_node (map strip l) (oname o) = Some (strip o).
Proof.
  intros Hu Ho. unfold find_node. induction l as [|a l IH]; [destruct Ho|]. simpl.
  rewrite strip_name. destruct (Nat.eqb (oname a) (oname o)) eqn:Ea.
  - apply Nat.eqb_eq in Ea. rewrite (Hu a o); auto. now left.
  - apply Nat.eqb_neq in Ea. apply IH.
    + intros x y Hx Hy. apply Hu; now right.
    + destruct Ho as [->|Ho]; [congruence|assumption].
Qed.
Lemma find_node_sound l n o : find_node l n = Some o -> In o l /\ oname o = n.
Proof. unfold find_node. intros H. apply find_some in H as [H E]. now apply Nat.eqb_eq in E. Qed.

(** [mapM] and [map] *)
Lemma mapM_map {A B C} (g : A -> B) (f : B -> res C) l : mapM f (map g l) = mapM (fun x => f (g x)) l.
Proof. induction l as [|x l IH]; simpl; [reflexivity|]. destruct (f (g x)); simpl; [|reflexivity]. now rewrite IH. Qed.
Lemma mapM_id {A} (f : A -> res A) l : (forall x, In x l -> f x = Ok x) -> mapM f l = Ok l.
Proof.
  induction l as [|x l IH]; intros H; simpl; [reflexivity|]. rewrite H by now left. simpl.
  rewrite IH by (intros; apply H; now right). reflexivity.
Qed.

Section IO.
Variable isnode : nat -> bool.
Variable l : list obj.
Hypothesis Hu : forall a b, In a l -> In b l -> oname a = oname b -> a = b.

(** [o] is a well-formed tree whose nodes are all in [l] *)
Definition good (o : obj) : Prop :=
  (forall m, inside m o -> isnode (ocls m) = true -> In m l) /\
  (forall m f, inside m o -> In f (ofields m) -> wf_field isnode f).
Lemma good_child o i : good o -> In i (children o) -> good i.
Proof.
  intros [H1 H2] Hi. split.
  - intros m Hm. apply H1. econstructor; eassumption.
  - intros m f Hm. apply H2. econstructor; eassumption.
Qed.
Lemma resolve_strip : forall fuel o, size o <= fuel -> good o -> resolve fuel (map strip l) (strip o) = Ok o.
Proof.
  induction fuel as [|k IH]; intros o Hk Hg.
  { destruct o. simpl in Hk. lia. }
  destruct o as [c n fs]. cbn [strip resolve]. rewrite mapM_map. rewrite mapM_id; [reflexivity|].
  intros f Hf.
  assert (Hc : forall i, In i (field_objs f) -> In i (children (Obj c n fs))).
  { intros i Hi. unfold children. simpl. rewrite in_flat_map. eauto. }
  assert (Hs : forall i, In i (field_objs f) -> size i <= k).
  { intros i Hi. apply Hc, child_size in Hi. lia. }
  pose proof (proj2 Hg (Obj c n fs) f (inside_refl _) Hf) as Hw.
  destruct f as [p|kd m|kd m]; cbn [strip_f]; [reflexivity| |].
  - rewrite mapM_map. rewrite mapM_id; [reflexivity|]. intros [kx x] Hx. cbn [fst snd].
    destruct (Hw _ Hx) as (o & E & Hn). simpl in E. subst x. cbn [ref_name].
    assert (Ho : In o (field_objs (FRefs kd m))).
    { simpl. rewrite in_flat_map. exists (kx, RObj o). split; [assumption|]. now left. }
    rewrite find_node_In; [|exact Hu|].
    + rewrite IH; [reflexivity|now apply Hs|]. eapply good_child; [eassumption|]. now apply Hc.
    + apply (proj1 Hg); [|assumption]. econstructor; [apply Hc; eassumption|constructor].
  - rewrite mapM_map. rewrite mapM_id; [reflexivity|]. intros [kx x] Hx. cbn [fst snd].
    assert (Ho : In x (field_objs (FModels kd m))) by (simpl; apply in_map_iff; exists (kx, x); auto).
    rewrite IH; [reflexivity|now apply Hs|]. eapply good_child; [eassumption|]. now apply Hc.
Qed.
Lemma refs_known_strip : forall o, good o -> refs_known (map strip l) (strip o) = true.
Proof.
  induction o as [o IH] using obj_ind'. intros Hg. destruct o as [c n fs]. cbn [strip refs_known].
  apply forallb_forall. intros f' Hf'. apply in_map_iff in Hf' as (f & <- & Hf).
  assert (Hc : forall i, In i (field_objs f) -> In i (children (Obj c n fs))).
  { intros i Hi. unfold children. simpl. rewrite in_flat_map. eauto. }
  pose proof (proj2 Hg (Obj c n fs) f (inside_refl _) Hf) as Hw.
  destruct f as [p|kd m|kd m]; cbn [strip_f refs_known_f]; [reflexivity| |].
  - apply forallb_forall. intros y Hy. apply in_map_iff in Hy as ([kx x] & <- & Hx). cbn [fst snd ref_name].
    destruct (Hw _ Hx) as (o & E & Hn). simpl in E. subst x. cbn [ref_name].
    rewrite find_node_In; [reflexivity|exact Hu|]. apply (proj1 Hg); [|assumption].
    econstructor; [apply Hc|constructor]. simpl. rewrite in_flat_map. exists (kx, RObj o). split; [assumption|now left].
  - apply forallb_forall. intros y Hy. apply in_map_iff in Hy as ([kx x] & <- & Hx). cbn [fst snd].
    assert (Ho : In x (field_objs (FModels kd m))) by (simpl; apply in_map_iff; exists (kx, x); auto).
    apply IH; [now apply Hc|]. eapply good_child; [eassumption|]. now apply Hc.
Qed.
End IO.

Section IO2.
Variable isnode : nat -> bool.

Lemma dumps_iff_pf p : (exists q, dumps isnode p = Ok q) <-> names_unique isnode p.
Proof.
  pose proof (extract_plan_spec isnode p) as [Hn Hl]. unfold dumps.
  pose proof (unique_iff Hn) as H. cbv zeta in *.
  set (l := extract_all isnode (p_actions p) (extract_all isnode (p_nodes p) [])) in *.
  destruct (unique_names [] l).
  - split; [|eauto]. intros _ a b Ha Hb. apply H; [reflexivity| |]; now apply Hl.
  - split; [intros (q & Hq); discriminate|]. intros Hq. exfalso.
    assert (false = true) by (apply H; intros a b Ha Hb; apply Hq; now apply Hl). discriminate.
Qed.
Lemma dumps_error_pf p e : dumps isnode p = Err e -> e = ValueError.
Proof. unfold dumps. destruct unique_names; congruence. Qed.

Lemma dumps_inv p q : dumps isnode p = Ok q -> exists l, NoDup l /\ (forall o, In o l <-> node_of isnode p o) /\
  (forall a b, In a l -> In b l -> oname a = oname b -> a = b) /\ p_nodes q = map strip l /\
  p_actions q = map strip (p_actions p).
Proof.
  pose proof (extract_plan_spec isnode p) as [Hn Hl]. unfold dumps.
  pose proof (unique_iff Hn) as H. cbv zeta in *.
  set (l := extract_all isnode (p_actions p) (extract_all isnode (p_nodes p) [])) in *.
  destruct (unique_names [] l); [|discriminate]. intros E. injection E as <-.
  exists l. split; [assumption|]. split; [assumption|]. split; [|split; reflexivity]. apply H. reflexivity.
Qed.
Lemma dumps_names_pf p q : dumps isnode p = Ok q ->
  NoDup (map oname (p_nodes q)) /\
  (forall n, In n (map oname (p_nodes q)) <-> exists o, node_of isnode p o /\ oname o = n).
Proof.
  intros H. apply dumps_inv in H as (l & Hn & Hl & Hu & -> & _). rewrite map_strip_names. split.
  - now apply NoDup_names_inj.
  - intros n. rewrite in_map_iff. split; intros (o & A & B); exists o; apply Hl in A || apply Hl in B; auto.
Qed.
Lemma round_trip_pf p q : wf_plan isnode p -> dumps isnode p = Ok q ->
  exists q', loads q = Ok q' /\
  (exists fuel, mapM (resolve fuel (p_nodes q')) (p_actions q') = Ok (p_actions p)) /\
  (forall o, node_of isnode p o -> exists o' fuel,
     find_node (p_nodes q') (oname o) = Some o' /\ resolve fuel (p_nodes q') o' = Ok o).
Proof.
  intros [Hw1 Hw2] H. apply dumps_inv in H as (l & Hn & Hl & Hu & E1 & E2).
  assert (Hgr : forall r, In r (p_nodes p ++ p_actions p) -> good isnode l r).
  { intros r Hr. split.
    - intros m Hm Hm'. apply Hl. split; [assumption|]. eauto.
    - intros m f Hm. eapply Hw2; eassumption. }
  assert (Hga : forall r, In r (p_actions p) -> good isnode l r) by (intros; apply Hgr, in_app_iff; auto).
  assert (Hgn : forall o, In o l -> good isnode l o).
  { intros o Ho. apply Hl in Ho as (_ & r & Hr & Hi). pose proof (Hgr r Hr) as [G1 G2]. split.
    - intros m Hm. apply G1. eapply inside_trans; eassumption.
    - intros m f Hm. apply G2. eapply inside_trans; eassumption. }
  exists q. split.
  { unfold loads. rewrite E1, E2.
    rewrite (unique_names_names (map strip l) l []) by apply map_strip_names.
    replace (unique_names [] l) with true by (symmetry; now apply unique_iff).
    replace (forallb (refs_known (map strip l)) (map strip (p_actions p))) with true.
    2:{ symmetry. apply forallb_forall. intros x Hx. apply in_map_iff in Hx as (o & <- & Ho).
        apply refs_known_strip with (isnode := isnode); auto. }
    replace (forallb (refs_known (map strip l)) (map strip l)) with true; [reflexivity|].
    symmetry. apply forallb_forall. intros x Hx. apply in_map_iff in Hx as (o & <- & Ho).
    apply refs_known_strip with (isnode := isnode); auto. }
  rewrite E1, E2. split.
  - exists (sum_by size (p_actions p)). rewrite mapM_map. apply mapM_id. intros o Ho.
    apply resolve_strip with (isnode := isnode); auto. now apply sum_by_In.
  - intros o Ho. apply Hl in Ho. exists (strip o), (size o). split; [now apply find_node_In|].
    apply resolve_strip with (isnode := isnode); auto.
Qed.
Lemma loads_dup_pf q : ~ NoDup (map oname (p_nodes q)) -> loads q = Err ValueError.
Proof.
  intros H. unfold loads. destruct (unique_names [] (p_nodes q)) eqn:Eu; [|reflexivity].
  apply unique_names_spec in Eu as [Eu _]. contradiction.
Qed.
Lemma find_node_None heap n : find_node heap n = None <-> ~ In n (map oname heap).
Proof.
  unfold find_node. induction heap as [|o heap IH]; simpl; [tauto|].
  destruct (Nat.eqb (oname o) n) eqn:En.
  - apply Nat.eqb_eq in En. split; [discriminate|tauto].
  - apply Nat.eqb_neq in En. rewrite IH. tauto.
Qed.
Lemma refs_known_spec heap : forall o, refs_known heap o = true <->
  forall m k l x, embedded m o -> In (FRefs k l) (ofields m) -> In x l -> In (ref_name (snd x)) (map oname heap).
Proof.
  assert (Hfk : forall k l, refs_known_f heap (FRefs k l) = true <->
            forall x, In x l -> In (ref_name (snd x)) (map oname heap)).
  { intros k l. cbn [refs_known_f]. rewrite forallb_forall. split; intros H x Hx; specialize (H x Hx).
    - destruct (find_node heap (ref_name (snd x))) as [t|] eqn:Et; [|discriminate].
      apply find_node_sound in Et as [Et <-]. now apply in_map.
    - destruct (find_node heap (ref_name (snd x))) as [t|] eqn:Et; [reflexivity|].
      apply find_node_None in Et. contradiction. }
  induction o as [o IH] using obj_ind'.
  assert (Hch : forall f k l y, f = FModels k l -> In f (ofields o) -> In y l -> In (snd y) (children o)).
  { intros f k l y -> Hf Hy. unfold children. rewrite in_flat_map. exists (FModels k l). split; [assumption|].
    simpl. now apply in_map. }
  destruct o as [c n fs]. cbn [refs_known]. rewrite forallb_forall. split.
  - intros H m k l x Hm Hf Hx. inversion Hm as [o'|m' k' l' y o' Hf' Hy Hm' E1 E2]; subst.
    + apply H in Hf. now apply (proj1 (Hfk k l) Hf).
    + pose proof (H _ Hf') as Hk. cbn [refs_known_f] in Hk. rewrite forallb_forall in Hk.
      eapply (proj1 (IH (snd y) (Hch _ _ _ y eq_refl Hf' Hy))); [now apply Hk|eassumption..].
  - intros H f Hf. destruct f as [p|k l|k l]; [reflexivity| |].
    + apply Hfk. intros x Hx. eapply H; [constructor|eassumption..].
    + cbn [refs_known_f]. rewrite forallb_forall. intros y Hy.
      apply (IH (snd y) (Hch _ _ _ y eq_refl Hf Hy)). intros m k' l' x Hm. apply H.
      econstructor; eassumption.
Qed.
Lemma loads_ok_iff_pf q : (exists q', loads q = Ok q') <->
  NoDup (map oname (p_nodes q)) /\ refs_resolved q.
Proof.
  unfold loads. destruct (unique_names [] (p_nodes q)) eqn:Eu.
  - apply unique_names_spec in Eu as [Eu _].
    assert (Hr : (forallb (refs_known (p_nodes q)) (p_actions q) && forallb (refs_known (p_nodes q)) (p_nodes q))%bool = true
                 <-> refs_resolved q).
    { rewrite andb_true_iff, !forallb_forall. split.
      - intros [H1 H2] r m k l x Hr. apply refs_known_spec. apply in_app_iff in Hr as [Hr|Hr]; auto.
      - intros H. split; intros r Hr; apply refs_known_spec; intros m k l x;
          apply H; apply in_app_iff; auto. }
    destruct (_ && _)%bool; split.
    + intros _. split; [assumption|now apply Hr].
    + eauto.
    + intros (q' & E). discriminate.
    + intros (_ & H). apply Hr in H. discriminate.
  - split; [intros (q' & E); discriminate|]. intros [H _]. exfalso.
    assert (unique_names [] (p_nodes q) = true) by (apply unique_names_spec; split; [assumption|simpl; tauto]).
    congruence.
Qed.
Lemma loads_error_pf q e : loads q = Err e ->
  e = ValueError /\ ~ NoDup (map oname (p_nodes q)) \/ e = KeyError /\ ~ refs_resolved q.
Proof.
  intros H. pose proof (loads_ok_iff_pf q) as Hiff. rewrite H in Hiff. unfold loads in H.
  destruct (unique_names [] (p_nodes q)) eqn:Eu.
  - destruct (_ && _)%bool; [discriminate|]. injection H as <-. right. split; [reflexivity|].
    apply unique_names_spec in Eu as [Eu _]. intros Hr. destruct (proj2 Hiff (conj Eu Hr)) as [q' E]. discriminate.
  - injection H as <-. left. split; [reflexivity|]. intros Hn.
    assert (unique_names [] (p_nodes q) = true) by (apply unique_names_spec; split; [assumption|simpl; tauto]).
    congruence.
Qed.
End IO2.
