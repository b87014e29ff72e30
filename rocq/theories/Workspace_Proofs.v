(** Lemmas about the workspace object cache. *)
From Verif Require Import Base Workspace_Model.
Set Implicit Arguments.

Inductive within : node -> node -> Prop :=
| within_refl n : within n n
| within_step m c n : In c (nrefs n) -> within m c -> within m n.

Definition sum_by {A} (f : A -> nat) : list A -> nat :=
  fix go l := match l with [] => 0 | x :: l' => f x + go l' end.
Fixpoint nsize (n : node) : nat := match n with Node _ _ refs => S (sum_by nsize refs) end.
Lemma sum_by_In {A} (f : A -> nat) l x : In x l -> f x <= sum_by f l.
Proof. induction l as [|y l IH]; simpl; [tauto|]. intros [->|H]; [lia|]. apply IH in H. lia. Qed.
Lemma child_nsize c n : In c (nrefs n) -> nsize c < nsize n.
Proof. destruct n as [i nm refs]. simpl. intros H. apply (sum_by_In nsize) in H. lia. Qed.
Lemma node_ind' (P : node -> Prop) : (forall n, (forall c, In c (nrefs n) -> P c) -> P n) -> forall n, P n.
Proof.
  intros H. assert (HP : forall k n, nsize n < k -> P n).
  { induction k as [|k IH]; intros n Hk; [lia|]. apply H. intros c Hc. apply IH. apply child_nsize in Hc. lia. }
  intros n. apply (HP (S (nsize n))). lia.
Qed.

(** dictionaries only grow *)
Definition grows {V} (d d' : dict V) : Prop := forall k v, d k = Some v -> d' k = Some v.
Lemma grows_refl {V} (d : dict V) : grows d d.
Proof. intros k v H. exact H. Qed.
Lemma grows_trans {V} (a b c : dict V) : grows a b -> grows b c -> grows a c.
Proof. intros H H' k v Hv. apply H', H, Hv. Qed.
Lemma grows_dset {V} (d : dict V) k v : d k = None -> grows d (dset d k v).
Proof.
  intros H k' v' Hv. unfold dset. destruct (Nat.eqb k' k) eqn:Ek; [|assumption].
  apply Nat.eqb_eq in Ek. congruence.
Qed.

(** every entry is stored under its own name and satisfies [P] *)
Definition entries (P : node -> Prop) (d : dict node) : Prop := forall k n, d k = Some n -> nname n = k /\ P n.

Lemma reg_grows n d : grows d (fst (reg n d)).
Proof.
  unfold reg. destruct (d (nname n)) as [m|] eqn:Ed.
  - destruct Nat.eqb; apply grows_refl.
  - apply grows_dset. assumption.
Qed.
Lemma reg_entries (P : node -> Prop) n d : P n -> entries P d -> entries P (fst (reg n d)).
Proof.
  intros Hn H. unfold reg. destruct (d (nname n)) as [m|] eqn:Ed.
  - destruct Nat.eqb; assumption.
  - intros k v. simpl. unfold dset. destruct (Nat.eqb k (nname n)) eqn:Ek.
    + apply Nat.eqb_eq in Ek. intros E. injection E as <-. auto.
    + apply H.
Qed.
Definition visits : list node -> dict node -> dict node * res unit :=
  fix go (l : list node) (d : dict node) : dict node * res unit :=
         match l with
         | [] => (d, Ok tt)
         | c :: l' => match visit c d with
                      | (d1, Err e) => (d1, Err e)
                      | (d1, Ok _) => match reg c d1 with
                                      | (d2, Err e) => (d2, Err e)
                                      | (d2, Ok _) => go l' d2
                                      end
                      end
         end.
Lemma visit_eq n d : visit n d = visits (nrefs n) d.
Proof. destruct n. reflexivity. Qed.
Lemma visit_grows : forall n d, grows d (fst (visit n d)).
Proof.
  induction n as [n IH] using node_ind'. intros d. rewrite visit_eq. revert d. revert IH. generalize (nrefs n).
  clear n. intros l IH. induction l as [|c l IHl]; intros d; cbn [visits]; [apply grows_refl|].
  pose proof (IH c (or_introl eq_refl) d) as H1. destruct (visit c d) as [d1 [u|e]]; [|exact H1].
  pose proof (reg_grows c d1) as H2. destruct (reg c d1) as [d2 [b|e]]; simpl in *.
  - eapply grows_trans; [exact H1|]. eapply grows_trans; [exact H2|]. apply IHl. intros. apply IH. now right.
  - eapply grows_trans; eassumption.
Qed.
Lemma visit_entries (P : node -> Prop) : (forall n c, P n -> In c (nrefs n) -> P c) ->
  forall n d, P n -> entries P d -> entries P (fst (visit n d)).
Proof.
  intros HP. induction n as [n IH] using node_ind'. intros d Hn. rewrite visit_eq.
  assert (Hc : forall c, In c (nrefs n) -> P c) by eauto. clear Hn. revert d. revert IH Hc. generalize (nrefs n).
  clear n. intros l IH Hc. induction l as [|c l IHl]; intros d Hd; cbn [visits]; [exact Hd|].
  pose proof (IH c (or_introl eq_refl) d (Hc c (or_introl eq_refl)) Hd) as H1.
  destruct (visit c d) as [d1 [u|e]]; [|exact H1].
  pose proof (@reg_entries P c d1 (Hc c (or_introl eq_refl)) H1) as H2.
  destruct (reg c d1) as [d2 [b|e]]; simpl in *; [|exact H2].
  apply IHl; auto.
Qed.
Lemma add_node_grows n d : grows d (fst (add_node n d)).
Proof.
  unfold add_node. pose proof (reg_grows n d) as H. destruct (reg n d) as [d1 [[|]|e]]; simpl in *; try exact H.
  eapply grows_trans; [exact H|apply visit_grows].
Qed.
Lemma add_node_entries (P : node -> Prop) n d : (forall n c, P n -> In c (nrefs n) -> P c) -> P n ->
  entries P d -> entries P (fst (add_node n d)).
Proof.
  intros HP Hn Hd. unfold add_node. pose proof (@reg_entries P n d Hn Hd) as H.
  destruct (reg n d) as [d1 [[|]|e]]; simpl in *; try exact H. now apply visit_entries.
Qed.
(** success means the node (by identity) is the registered one *)
Lemma add_node_ok n d d' u : add_node n d = (d', Ok u) -> exists m, d' (nname n) = Some m /\ nid m = nid n.
Proof.
  unfold add_node, reg. destruct (d (nname n)) as [m|] eqn:Ed.
  - destruct (Nat.eqb (nid n) (nid m)) eqn:Ei; [|discriminate]. intros H. injection H as <- _.
    exists m. apply Nat.eqb_eq in Ei. auto.
  - intros H. exists n. split; [|reflexivity].
    pose proof (visit_grows n (dset d (nname n) n)) as Hg. rewrite H in Hg. apply Hg. apply dset_same.
Qed.
Lemma add_node_clash n d m : d (nname n) = Some m -> nid m <> nid n -> add_node n d = (d, Err ValueError).
Proof.
  intros Hm Hi. unfold add_node, reg. rewrite Hm. destruct (Nat.eqb (nid n) (nid m)) eqn:Ei; [|reflexivity].
  apply Nat.eqb_eq in Ei. congruence.
Qed.

Section Workspace.
Variable has_creator : node -> bool.
Variable creator_raises : node -> option err.
Notation get_object := (get_object has_creator creator_raises).
Notation serve := (serve has_creator creator_raises).
Notation serve_all := (serve_all has_creator creator_raises).

Definition gets : list node -> ws -> ws * res unit :=
  fix go (l : list node) (w : ws) : ws * res unit :=
                 match l with
                 | [] => (w, Ok tt)
                 | c :: l' => match get_object c w with
                              | (w', Ok _) => go l' w'
                              | (w', Err e) => (w', Err e)
                              end
                 end.
Lemma get_object_eq n w : get_object n w =
  match w_objs w (nname n) with
  | Some o => (w, Ok o)
  | None =>
      match add_node n (w_nodes w) with
      | (d, Err e) => (set_nodes w d, Err e)
      | (d, Ok _) =>
          let w1 := set_nodes w d in
          match (if has_creator n then gets (nrefs n) w1 else (w1, Ok tt)) with
          | (w2, Err e) => (w2, Err e)
          | (w2, Ok _) => match creator_raises n with
                          | Some e => (w2, Err e)
                          | None => (create n w2, Ok (length (w_created w2)))
                          end
          end
      end
  end.
Proof. destruct n. reflexivity. Qed.

(** The universe of node descriptions: identities determine descriptions. *)
Variable U : node -> Prop.
Hypothesis U_refs : forall n c, U n -> In c (nrefs n) -> U c.
Hypothesis U_ids : forall a b, U a -> U b -> nid a = nid b -> a = b.

Record inv (w : ws) : Prop := {
  i_nodes : entries U (w_nodes w);
  i_created : forall o n, In (o, n) (w_created w) -> w_objs w (nname n) = Some o /\ w_nodes w (nname n) = Some n /\ o < length (w_created w);
  i_objs : forall k o, w_objs w k = Some o -> exists n, In (o, n) (w_created w) /\ nname n = k;
  i_once : NoDup (map (fun x => nname (snd x)) (w_created w));
  i_fresh : NoDup (map fst (w_created w))
}.
Lemma inv_init : inv ws_init.
Proof. constructor; simpl; try (intros; discriminate || tauto); constructor. Qed.
Record ext (w w' : ws) : Prop := {
  e_nodes : grows (w_nodes w) (w_nodes w');
  e_objs : grows (w_objs w) (w_objs w');
  e_created : exists l, w_created w' = w_created w ++ l
}.
Lemma ext_refl w : ext w w.
Proof. constructor; try apply grows_refl. exists []. now rewrite app_nil_r. Qed.
Lemma ext_trans a b c : ext a b -> ext b c -> ext a c.
Proof.
  intros [n1 o1 [l1 c1]] [n2 o2 [l2 c2]]. constructor; try (eapply grows_trans; eassumption).
  exists (l1 ++ l2). rewrite c2, c1. now rewrite app_assoc.
Qed.
Lemma set_nodes_inv w d : inv w -> grows (w_nodes w) d -> entries U d -> inv (set_nodes w d).
Proof.
  intros [a b c e f] Hg Hd. constructor; simpl; auto. intros o n H. apply b in H as (H1 & H2 & H3). auto.
Qed.
Lemma set_nodes_ext w d : grows (w_nodes w) d -> ext w (set_nodes w d).
Proof. intros H. constructor; simpl; [assumption|apply grows_refl|]. exists []. now rewrite app_nil_r. Qed.

(** what one request does *)
Record outcome (n : node) (w w' : ws) (r : res nat) : Prop := {
  o_inv : inv w -> inv w';
  o_ext : ext w w';
  (** a name owned by a node not strictly below this request is not created by it *)
  o_keep : forall m, inv w -> U m -> w_nodes w (nname m) = Some m -> nsize n < nsize m ->
             w_objs w' (nname m) = w_objs w (nname m);
  o_res : forall o, r = Ok o -> w_objs w' (nname n) = Some o
}.
Lemma get_object_spec : forall n w, U n -> inv w ->
  let x := get_object n w in outcome n w (fst x) (snd x).
Proof.
  induction n as [n IH] using node_ind'. intros w Hn Hw. cbv zeta. rewrite get_object_eq.
  destruct (w_objs w (nname n)) as [o|] eqn:Eo.
  { constructor; simpl; auto using ext_refl. congruence. }
  pose proof (add_node_grows n (w_nodes w)) as Hg.
  pose proof (@add_node_entries U n (w_nodes w) U_refs Hn (i_nodes Hw)) as He.
  pose proof (@add_node_ok n (w_nodes w)) as Hok.
  destruct (add_node n (w_nodes w)) as [d [u|e]] eqn:Ea; cbn [fst snd] in *.
  2:{ constructor; simpl; auto using set_nodes_ext, set_nodes_inv; discriminate. }
  destruct (Hok d u eq_refl) as (m0 & Hm0 & Hid).
  assert (m0 = n) as ->. { apply U_ids; [apply (He _ _ Hm0)|exact Hn|exact Hid]. }
  clear Hok Hid. set (w1 := set_nodes w d).
  assert (Hw1 : inv w1) by (apply set_nodes_inv; assumption).
  assert (He1 : ext w w1) by (apply set_nodes_ext; assumption).
  (* the requests of the creator *)
  assert (Hr : let x := if has_creator n then gets (nrefs n) w1 else (w1, Ok tt) in
             inv (fst x) /\ ext w1 (fst x) /\
             (forall m, U m -> w_nodes w1 (nname m) = Some m -> nsize n <= nsize m ->
                w_objs (fst x) (nname m) = w_objs w1 (nname m))).
  { cbv zeta. destruct (has_creator n); [|cbn; auto using ext_refl].
    assert (Hu : forall c, In c (nrefs n) -> U c) by eauto.
    assert (Hs : forall c, In c (nrefs n) -> nsize c < nsize n) by (intros; now apply child_nsize).
    revert IH Hu Hs Hw1. generalize (nsize n). generalize (nrefs n). clear. intros l k.
    generalize w1. clear. induction l as [|c l IHl]; intros w1 IH Hu Hs Hw1; cbn [gets].
    { cbn. auto using ext_refl. }
    pose proof (IH c (or_introl eq_refl) w1 (Hu c (or_introl eq_refl)) Hw1) as [a b e f].
    destruct (get_object c w1) as [w2 [o|e']]; cbn [fst snd] in *.
    - assert (Hw2 : inv w2) by auto.
      assert (IHl' : inv (fst (gets l w2)) /\ ext w2 (fst (gets l w2)) /\
             (forall m, U m -> w_nodes w2 (nname m) = Some m -> k <= nsize m ->
                w_objs (fst (gets l w2)) (nname m) = w_objs w2 (nname m))).
      { apply IHl; auto. intros. apply IH; auto. now right. intros. apply Hu. now right. intros. apply Hs. now right. }
      destruct IHl' as (I1 & I2 & I3). split; [assumption|]. split; [eapply ext_trans; eassumption|].
      intros m Um Hm Hk. rewrite I3; auto; [|now apply (e_nodes b)].
      apply e; auto. specialize (Hs c (or_introl eq_refl)). lia.
    - split; [auto|]. split; [assumption|]. intros m Um Hm Hk. apply e; auto.
      specialize (Hs c (or_introl eq_refl)). lia. }
  cbv zeta in Hr. cbv zeta. fold w1.
  destruct (if has_creator n then gets (nrefs n) w1 else (w1, Ok tt)) as [w2 [u'|e]]; cbn [fst snd] in Hr;
    destruct Hr as (R1 & R2 & R3).
  2:{ constructor; simpl; try discriminate; auto.
      - eapply ext_trans; eassumption.
      - intros m _ Um Hm Hk. rewrite R3; [reflexivity|assumption|apply (e_nodes He1); assumption|lia]. }
  assert (Hnone : w_objs w2 (nname n) = None).
  { rewrite R3; auto. }
  assert (Hn2 : w_nodes w2 (nname n) = Some n) by (apply (e_nodes R2); exact Hm0).
  destruct (creator_raises n) as [e|].
  { constructor; simpl; try discriminate; auto.
    - eapply ext_trans; eassumption.
    - intros m _ Um Hm Hk. rewrite R3; [reflexivity|assumption|apply (e_nodes He1); assumption|lia]. }
  constructor; cbn [fst snd].
  - intros _. destruct R1 as [a b c e f]. constructor; simpl; [assumption| | | |].
    + intros o m H. rewrite app_length. simpl. apply in_app_iff in H as [H|[H|[]]].
      * pose proof (b _ _ H) as (H1 & H2 & H3). split; [|split; [assumption|lia]].
        apply (@grows_dset nat (w_objs w2) (nname n) _ Hnone). assumption.
      * injection H as <- <-. split; [apply dset_same|split; [assumption|lia]].
    + intros k o. unfold dset. destruct (Nat.eqb k (nname n)) eqn:Ek.
      * apply Nat.eqb_eq in Ek as ->. intros H. injection H as <-. exists n. split; [|reflexivity].
        apply in_app_iff. right. now left.
      * intros H. apply c in H as (m & Hm & Hk). exists m. split; [|assumption]. apply in_app_iff. auto.
    + rewrite map_app. simpl. eapply Permutation_NoDup; [apply Permutation_app_comm|]. constructor; [|assumption].
      rewrite in_map_iff. intros ([o m] & E & H). apply b in H as (H & _). simpl in E. congruence.
    + rewrite map_app. simpl. eapply Permutation_NoDup; [apply Permutation_app_comm|]. constructor; [|assumption].
      rewrite in_map_iff. intros ([o m] & E & H). apply b in H as (_ & _ & H). simpl in E. lia.
  - eapply ext_trans; [eassumption|]. eapply ext_trans; [eassumption|]. constructor; simpl.
    + apply grows_refl.
    + apply grows_dset. assumption.
    + eauto.
  - intros m _ Um Hm Hk. simpl. rewrite dset_other.
    + rewrite R3; [reflexivity|assumption|apply (e_nodes He1); assumption|lia].
    + intros E. assert (m = n) as ->; [|lia].
      apply (e_nodes He1) in Hm. apply (e_nodes R2) in Hm. rewrite E in Hm. congruence.
  - intros o E. injection E as <-. simpl. apply dset_same.
Qed.

Definition request_ok (q : request) : Prop := match q with ByNode n => U n | ByName _ => True end.
Lemma serve_spec q w : request_ok q -> inv w -> inv (fst (serve q w)) /\ ext w (fst (serve q w)).
Proof.
  intros Hq Hw. destruct q as [n|nm]; cbn [Workspace_Model.serve].
  - destruct (get_object_spec Hq Hw) as [a b _ _]. auto.
  - destruct (w_nodes w nm) as [n|] eqn:En; [|split; [assumption|apply ext_refl]].
    destruct (get_object_spec (proj2 (i_nodes Hw nm En)) Hw) as [a b _ _]. auto.
Qed.
Lemma serve_all_spec : forall l w, Forall request_ok l -> inv w -> inv (serve_all l w) /\ ext w (serve_all l w).
Proof.
  induction l as [|q l IH]; intros w Hl Hw; cbn [Workspace_Model.serve_all]; [split; [assumption|apply ext_refl]|].
  inversion Hl; subst. destruct (serve_spec q H1 Hw) as [H3 H4]. destruct (IH _ H2 H3) as [H5 H6].
  split; [assumption|]. eapply ext_trans; eassumption.
Qed.

(** C16 *)
Lemma same_object_pf l1 l2 n o : Forall request_ok l1 -> Forall request_ok l2 -> U n ->
  let w1 := serve_all l1 ws_init in
  snd (get_object n w1) = Ok o ->
  let w2 := serve_all l2 (fst (get_object n w1)) in
  get_object n w2 = (w2, Ok o).
Proof.
  intros H1 H2 Hn w1 Ho w2. destruct (serve_all_spec H1 inv_init) as [I1 _]. fold w1 in I1.
  destruct (get_object_spec Hn I1) as [a b _ d].
  destruct (@serve_all_spec l2 (fst (get_object n w1)) H2 (a I1)) as [_ E2]. fold w2 in E2.
  rewrite get_object_eq. rewrite (e_objs E2 _ (d o Ho)). reflexivity.
Qed.
Lemma created_once_pf l : Forall request_ok l ->
  NoDup (map (fun x => nname (snd x)) (w_created (serve_all l ws_init))) /\
  NoDup (map fst (w_created (serve_all l ws_init))).
Proof. intros H. destruct (serve_all_spec H inv_init) as [[]  _]. auto. Qed.
Lemma own_object_pf l n o : (forall a b, U a -> U b -> nname a = nname b -> a = b) ->
  Forall request_ok l -> U n ->
  let x := get_object n (serve_all l ws_init) in
  snd x = Ok o -> In (o, n) (w_created (fst x)).
Proof.
  intros Hu Hl Hn x Ho. destruct (serve_all_spec Hl inv_init) as [I1 _].
  destruct (get_object_spec Hn I1) as [a _ _ d]. fold x in a, d. specialize (a I1).
  apply d in Ho. apply (i_objs a) in Ho as (m & Hm & E).
  assert (m = n) as ->; [|assumption]. apply Hu; [|assumption|assumption].
  apply (i_created a) in Hm as (_ & Hm & _). apply (i_nodes a _ Hm).
Qed.
(** success when names are unique *)
Lemma reg_unique n d : (forall a b, U a -> U b -> nname a = nname b -> a = b) -> U n -> entries U d ->
  exists b, snd (reg n d) = Ok b.
Proof.
  intros Hu Hn Hd. unfold reg. destruct (d (nname n)) as [m|] eqn:Ed; [|simpl; eauto].
  destruct (Hd _ _ Ed) as [E Um]. rewrite (Hu n m Hn Um (eq_sym E)). rewrite Nat.eqb_refl. simpl; eauto.
Qed.
Lemma visit_unique : (forall a b, U a -> U b -> nname a = nname b -> a = b) -> forall n d, U n -> entries U d ->
  snd (visit n d) = Ok tt.
Proof.
  intros Hu. induction n as [n IH] using node_ind'. intros d Hn. rewrite visit_eq.
  assert (Hc : forall c, In c (nrefs n) -> U c) by eauto. clear Hn. revert d. revert IH Hc. generalize (nrefs n).
  clear n. intros l IH Hc. induction l as [|c l IHl]; intros d Hd; cbn [visits]; [reflexivity|].
  pose proof (IH c (or_introl eq_refl) d (Hc c (or_introl eq_refl)) Hd) as H1.
  pose proof (@visit_entries U U_refs c d (Hc c (or_introl eq_refl)) Hd) as E1.
  destruct (visit c d) as [d1 [u|e]]; simpl in *; [|discriminate].
  pose proof (@reg_unique c d1 Hu (Hc c (or_introl eq_refl)) E1) as [b Hb].
  pose proof (@reg_entries U c d1 (Hc c (or_introl eq_refl)) E1) as E2.
  destruct (reg c d1) as [d2 [b'|e]]; simpl in *; [|discriminate]. apply IHl; auto.
Qed.
Lemma add_node_unique n d : (forall a b, U a -> U b -> nname a = nname b -> a = b) -> U n -> entries U d ->
  snd (add_node n d) = Ok tt.
Proof.
  intros Hu Hn Hd. unfold add_node. pose proof (@reg_unique n d Hu Hn Hd) as [b Hb].
  pose proof (@reg_entries U n d Hn Hd) as He.
  destruct (reg n d) as [d1 [[|]|e]]; simpl in *; try discriminate; [|reflexivity]. now apply visit_unique.
Qed.
Lemma get_object_succeeds : (forall a b, U a -> U b -> nname a = nname b -> a = b) ->
  (forall n, U n -> creator_raises n = None) ->
  forall n w, U n -> inv w -> exists o, snd (get_object n w) = Ok o.
Proof.
  intros Hu Hc. induction n as [n IH] using node_ind'. intros w Hn Hw. rewrite get_object_eq.
  destruct (w_objs w (nname n)) as [o|]; [simpl; eauto|].
  pose proof (@add_node_unique n (w_nodes w) Hu Hn (i_nodes Hw)) as Ha.
  pose proof (add_node_grows n (w_nodes w)) as Hg.
  pose proof (@add_node_entries U n (w_nodes w) U_refs Hn (i_nodes Hw)) as He.
  destruct (add_node n (w_nodes w)) as [d [u|e]]; simpl in Ha; [|discriminate]. cbv zeta. simpl in Hg, He.
  assert (Hw1 : inv (set_nodes w d)) by (apply set_nodes_inv; assumption).
  assert (Hr : snd (if has_creator n then gets (nrefs n) (set_nodes w d) else (set_nodes w d, Ok tt)) = Ok tt).
  { destruct (has_creator n); [|reflexivity]. revert Hw1. generalize (set_nodes w d).
    assert (Hu' : forall c, In c (nrefs n) -> U c) by eauto. revert IH Hu'. generalize (nrefs n). clear - U_refs U_ids.
    intros l IH Hu'. induction l as [|c l IHl]; intros w Hw; cbn [gets]; [reflexivity|].
    destruct (IH c (or_introl eq_refl) w (Hu' c (or_introl eq_refl)) Hw) as [o Ho].
    destruct (get_object_spec (Hu' c (or_introl eq_refl)) Hw) as [a _ _ _].
    destruct (get_object c w) as [w' [o'|e]]; simpl in *; [|discriminate].
    apply IHl; auto. }
  destruct (if has_creator n then gets (nrefs n) (set_nodes w d) else (set_nodes w d, Ok tt)) as [w2 [u'|e]];
    simpl in Hr; [|discriminate]. rewrite Hc by assumption. simpl. eauto.
Qed.
Lemma own_object_total_pf l n : (forall a b, U a -> U b -> nname a = nname b -> a = b) ->
  (forall n, U n -> creator_raises n = None) -> Forall request_ok l -> U n ->
  exists o, snd (get_object n (serve_all l ws_init)) = Ok o.
Proof.
  intros Hu Hc Hl Hn. destruct (serve_all_spec Hl inv_init) as [I1 _]. now apply get_object_succeeds.
Qed.
End Workspace.

Lemma clash_gets_other_object_pf hc cr n n' w o : nname n' = nname n ->
  w_objs w (nname n) = Some o -> get_object hc cr n' w = (w, Ok o).
Proof. intros E H. rewrite get_object_eq, E, H. reflexivity. Qed.
Lemma clash_error_pf hc cr n m w : w_objs w (nname n) = None -> w_nodes w (nname n) = Some m -> nid m <> nid n ->
  snd (get_object hc cr n w) = Err ValueError.
Proof. intros Ho Hm Hi. rewrite get_object_eq, Ho, (@add_node_clash n _ m Hm Hi). reflexivity. Qed.
