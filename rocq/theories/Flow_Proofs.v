(** Proofs about the addition of gradients. *)
From Coq Require Import QArith String ZArith Lqa.
From Verif Require Import Base Flow_Model Flow_Spec.
Set Implicit Arguments.
Local Open Scope nat_scope.

(** *** string dictionaries *)
Lemma sget_sset_same {V} (d : list (string * V)) k v : sget (sset d k v) k = Some v.
Proof.
  induction d as [|[k' v'] d IH]; simpl.
  - now rewrite String.eqb_refl.
  - destruct (String.eqb k' k) eqn:E; simpl.
    + now rewrite String.eqb_refl.
    + now rewrite E.
Qed.
Lemma sget_sset_other {V} (d : list (string * V)) k v k' : k <> k' -> sget (sset d k v) k' = sget d k'.
Proof.
  intros H. induction d as [|[k0 v0] d IH]; simpl.
  - apply String.eqb_neq in H. now rewrite H.
  - destruct (String.eqb k0 k) eqn:E; simpl.
    + apply String.eqb_eq in E. subst k0. apply String.eqb_neq in H. now rewrite H.
    + now rewrite IH.
Qed.

(** *** one field *)
Lemma vplus_length l m : List.length m = List.length l -> List.length (vplus l m) = List.length l.
Proof. intros H. unfold vplus. rewrite map_length, combine_length. lia. Qed.
Lemma vplus_nth l : forall m i, List.length m = List.length l -> (nth i (vplus l m) 0 == nth i l 0 + nth i m 0)%Q.
Proof.
  induction l as [|a l IH]; intros [|b m] i H; simpl in *; try discriminate.
  - destruct i; reflexivity.
  - destruct i; simpl; [reflexivity|]. apply IH. lia.
Qed.
Lemma add_field_shaped c fs sh a b f : shaped c fs sh a -> shaped c fs sh b -> In f fs ->
  exists r, add_field a b f = Ok r /\ shaped c fs sh r /\
    (forall i, entry r f i == entry a f i + entry b f i)%Q /\
    (forall f' i, f' <> f -> entry r f' i = entry a f' i).
Proof.
  intros [Ha1 Ha] [Hb1 Hb] Hf.
  destruct (Ha f Hf) as (l & El & Ll). destruct (Hb f Hf) as (m & Em & Lm).
  unfold add_field. rewrite El, Em. simpl.
  rewrite Lm, Ll, Nat.eqb_refl. simpl.
  eexists. split; [reflexivity|]. split; [|split].
  - split; [exact Ha1|]. intros f' Hf'. simpl.
    destruct (string_dec f f') as [<- | N].
    + rewrite sget_sset_same. eexists. split; [reflexivity|]. rewrite vplus_length; lia.
    + rewrite sget_sset_other by exact N. apply (Ha f' Hf').
  - intros i. unfold entry. simpl. rewrite sget_sset_same, El, Em. apply vplus_nth. lia.
  - intros f' i N. unfold entry. simpl. rewrite sget_sset_other by (intros ->; now apply N). reflexivity.
Qed.
Definition nq (n : nat) : Q := inject_Z (Z.of_nat n).
Lemma nq_S n : (nq (S n) == 1 + nq n)%Q.
Proof. unfold nq. rewrite Nat2Z.inj_succ, <- Z.add_1_l, inject_Z_plus. reflexivity. Qed.
Lemma nq_plus m n : (nq (m + n) == nq m + nq n)%Q.
Proof. unfold nq. rewrite Nat2Z.inj_add, inject_Z_plus. reflexivity. Qed.
Lemma add_fields_shaped c all sh b fs : shaped c all sh b -> incl fs all -> forall a, shaped c all sh a ->
  exists r, add_fields a b fs = Ok r /\ shaped c all sh r /\
    forall f i, (entry r f i == entry a f i + nq (count_occ string_dec fs f) * entry b f i)%Q.
Proof.
  intros Hb. induction fs as [|f fs IH]; intros Hi a Ha.
  - exists a. split; [reflexivity|]. split; [exact Ha|]. intros f i. unfold nq. simpl. ring.
  - destruct (@add_field_shaped c all sh a b f Ha Hb (Hi f (or_introl eq_refl))) as (r1 & E1 & S1 & Q1 & O1).
    destruct (IH (fun x Hx => Hi x (or_intror Hx)) r1 S1) as (r & E & Sr & Qr).
    exists r. simpl. rewrite E1. simpl. split; [exact E|]. split; [exact Sr|].
    intros f' i. rewrite Qr. destruct (string_dec f f') as [<- | N].
    + rewrite Q1, nq_S. ring.
    + rewrite (O1 f' i) by (intros ->; now apply N). reflexivity.
Qed.
Lemma iadd_along_shaped t c sh b m all : shaped c all sh b ->
  (forall k, In k m -> exists fs, grad_fields t k = Ok fs /\ incl fs all) -> forall a, shaped c all sh a ->
  exists r, iadd_along t m a b = Ok r /\ shaped c all sh r /\
    forall f i, (entry r f i == entry a f i + nq (times t m f) * entry b f i)%Q.
Proof.
  intros Hb. induction m as [|k m IH]; intros Hm a Ha.
  - exists a. split; [reflexivity|]. split; [exact Ha|]. intros f i. unfold times, nq. simpl. ring.
  - destruct (Hm k (or_introl eq_refl)) as (fs & Ek & Ik).
    destruct (add_fields_shaped Hb Ik Ha) as (r1 & E1 & S1 & Q1).
    destruct (IH (fun x Hx => Hm x (or_intror Hx)) r1 S1) as (r & E & Sr & Qr).
    exists r. simpl. rewrite Ek. simpl. rewrite E1. simpl. split; [exact E|]. split; [exact Sr|].
    intros f i. rewrite Qr, Q1. unfold times. simpl. rewrite count_occ_app, nq_plus.
    unfold fields_of at 2. rewrite Ek. ring.
Qed.
Lemma lineage_fields t c m : lineage t c m ->
  forall k, In k m -> exists fs, grad_fields t k = Ok fs /\ incl fs (flat_map (fields_of t) m).
Proof.
  intros [_ H] k Hk. destruct (H k Hk) as (fs & E). exists fs. split; [exact E|].
  intros f Hf. apply in_flat_map. exists k. split; [exact Hk|]. unfold fields_of. now rewrite E.
Qed.
Theorem iadd_times t c m sh a b : lineage t c m ->
  shaped c (flat_map (fields_of t) m) sh a -> shaped c (flat_map (fields_of t) m) sh b ->
  exists r, gobj_iadd t a b = Ok r /\ shaped c (flat_map (fields_of t) m) sh r /\
    forall f i, (entry r f i == entry a f i + nq (times t m f) * entry b f i)%Q.
Proof.
  intros L Ha Hb. destruct (iadd_along_shaped t m Hb (lineage_fields L) Ha) as (r & E & H).
  exists r. split; [|exact H]. unfold gobj_iadd. destruct Ha as [-> _]. destruct L as [-> _]. exact E.
Qed.
Theorem accumulate_times t c m sh gs : lineage t c m -> forall a,
  shaped c (flat_map (fields_of t) m) sh a -> Forall (shaped c (flat_map (fields_of t) m) sh) gs ->
  exists r, accumulate t a gs = Ok r /\ shaped c (flat_map (fields_of t) m) sh r /\
    forall f i, (entry r f i == entry a f i + nq (times t m f) * total f i gs)%Q.
Proof.
  intros L. induction gs as [|g gs IH]; intros a Ha Hg.
  - exists a. split; [reflexivity|]. split; [exact Ha|]. intros f i. simpl. ring.
  - inversion Hg as [|? ? Hg1 Hg2]; subst.
    destruct (iadd_times L Ha Hg1) as (r1 & E1 & S1 & Q1).
    destruct (IH r1 S1 Hg2) as (r & E & Sr & Qr).
    exists r. simpl. rewrite E1. simpl. split; [exact E|]. split; [exact Sr|].
    intros f i. rewrite Qr, Q1. ring.
Qed.

(** *** when the sum is right *)
Lemma times_in t m f : In f (flat_map (fields_of t) m) -> 1 <= times t m f.
Proof. intros H. unfold times. apply (count_occ_In string_dec) in H. lia. Qed.
Definition ones (c : nat) (fs : list string) : gobj := mkg c (map (fun f => (f, Vec [1%Q])) fs).
Lemma sget_map_const {V} (fs : list string) (v : V) f : In f fs -> sget (map (fun f => (f, v)) fs) f = Some v.
Proof.
  induction fs as [|g fs IH]; intros H; simpl in *; [contradiction|].
  destruct (String.eqb g f) eqn:E; [reflexivity|]. apply IH.
  destruct H as [-> | H]; [|exact H]. rewrite String.eqb_refl in E. discriminate.
Qed.
Lemma ones_shaped c fs : shaped c fs (fun _ => 1) (ones c fs).
Proof. split; [reflexivity|]. intros f Hf. exists [1%Q]. split; [|reflexivity]. now apply sget_map_const. Qed.
Theorem sum_right_iff t c m : lineage t c m ->
  ((forall sh a b, shaped c (flat_map (fields_of t) m) sh a -> shaped c (flat_map (fields_of t) m) sh b ->
      exists r, gobj_iadd t a b = Ok r /\
        forall f i, In f (flat_map (fields_of t) m) -> (entry r f i == entry a f i + entry b f i)%Q)
   <-> (forall f, In f (flat_map (fields_of t) m) -> times t m f = 1)).
Proof.
  intros L. split.
  - intros H f Hf. set (fs := flat_map (fields_of t) m) in *.
    destruct (H (fun _ => 1) (ones c fs) (ones c fs) (ones_shaped c fs) (ones_shaped c fs)) as (r & E & Q).
    destruct (iadd_times L (ones_shaped c fs) (ones_shaped c fs)) as (r' & E' & _ & Q').
    rewrite E in E'. inversion E'; subst r'. specialize (Q f 0 Hf). rewrite Q' in Q.
    assert (E1 : entry (ones c fs) f 0 = 1%Q).
    { unfold entry. simpl. rewrite (sget_map_const fs (Vec [1%Q]) f Hf). reflexivity. }
    rewrite E1 in Q. assert (Q2 : (nq (times t m f) == inject_Z 1)%Q).
    { change (inject_Z 1) with 1%Q. lra. }
    unfold nq in Q2. assert (Z1 := proj1 (inject_Z_injective _ _) Q2). clear - Z1. lia.
  - intros H sh a b Ha Hb. destruct (iadd_times L Ha Hb) as (r & E & _ & Q).
    exists r. split; [exact E|]. intros f i Hf. rewrite Q, (H f Hf). unfold nq. simpl. ring.
Qed.

(** *** hierarchies without branching *)
Lemma chain_cls0 ls : cls (chain ls) 0 = mkclass [] [] (GUser []).
Proof. reflexivity. Qed.
Lemma chain_cls ls j : j < List.length ls ->
  cls (chain ls) (S j) = mkclass [j] (map (fun f => (f, false)) (nth j ls [])) GAuto.
Proof.
  intros H. unfold cls, chain. simpl.
  set (F := fun p : nat * list string => _).
  assert (Hl : List.length (combine (seq 0 (List.length ls)) ls) = List.length ls)
    by (rewrite combine_length, seq_length; lia).
  rewrite (nth_indep _ noclass (F (0, []))) by (rewrite map_length; lia).
  rewrite map_nth, combine_nth by (rewrite seq_length; reflexivity).
  rewrite seq_nth by exact H. reflexivity.
Qed.
Fixpoint down (n : nat) : list nat := match n with O => [0] | S n' => n :: down n' end.
Lemma merge_one l : forall fuel, List.length l <= fuel -> NoDup l ->
  c3_merge fuel [l; []] = Ok l.
Proof.
  induction l as [|x l IH]; intros fuel Hf Hn.
  - destruct fuel; reflexivity.
  - destruct fuel as [|fuel]; [simpl in Hf; lia|]. inversion Hn as [|? ? N1 N2]; subst.
    apply memb_false in N1. simpl. rewrite N1. simpl. rewrite Nat.eqb_refl.
    rewrite IH; [reflexivity| simpl in Hf; lia | exact N2].
Qed.
Lemma merge_chain x l fuel : List.length (x :: l) <= fuel -> NoDup (x :: l) ->
  c3_merge fuel [x :: l; [x]] = Ok (x :: l).
Proof.
  intros Hf Hn. destruct fuel as [|fuel]; [simpl in Hf; lia|]. inversion Hn as [|? ? N1 N2]; subst.
  apply memb_false in N1. simpl. rewrite N1. simpl. rewrite Nat.eqb_refl.
  rewrite merge_one; [reflexivity| simpl in Hf; lia | exact N2].
Qed.
Lemma down_in n k : In k (down n) <-> k <= n.
Proof.
  induction n as [|n IH]; simpl; [lia|]. rewrite IH. lia.
Qed.
Lemma down_nodup n : NoDup (down n).
Proof.
  induction n as [|n IH]; simpl; constructor; [easy|constructor| |exact IH].
  rewrite down_in. lia.
Qed.
Lemma down_cons n : exists l, down n = n :: l.
Proof. destruct n; simpl; eauto. Qed.
Lemma chain_mro ls c : c <= List.length ls -> forall fuel, c < fuel -> mro fuel (chain ls) c = Ok (down c).
Proof.
  induction c as [|c IH]; intros Hc fuel Hf; (destruct fuel as [|fuel]; [lia|]).
  - reflexivity.
  - cbn [mro]. rewrite chain_cls by lia. cbn [c_bases mapM]. rewrite IH by lia. cbn [bind app concat List.length].
    destruct (down_cons c) as (l & E). pose proof (down_nodup c) as Hn. rewrite E in *.
    rewrite app_nil_r. rewrite merge_chain; [cbn [bind down]; now rewrite E | simpl; lia | exact Hn].
Qed.
Lemma sset_new {V} (d : list (string * V)) k v : ~ In k (map fst d) -> sset d k v = d ++ [(k, v)].
Proof.
  induction d as [|[k' v'] d IH]; intros H; simpl in *; [reflexivity|].
  destruct (String.eqb k' k) eqn:E.
  - apply String.eqb_eq in E. tauto.
  - rewrite IH by tauto. reflexivity.
Qed.
Lemma supdate_new {V} (e : list (string * V)) : forall d, NoDup (map fst d ++ map fst e) -> supdate d e = d ++ e.
Proof.
  unfold supdate. induction e as [|[k v] e IH]; intros d H; simpl.
  - now rewrite app_nil_r.
  - simpl in H. rewrite sset_new.
    + rewrite IH. { rewrite <- app_assoc. reflexivity. }
      rewrite map_app. simpl. rewrite <- app_assoc. exact H.
    + apply NoDup_remove_2 in H. intros Hk. apply H, in_or_app. now left.
Qed.
Lemma sset_id {V} (d : list (string * V)) k v : sget d k = Some v -> sset d k v = d.
Proof.
  induction d as [|[k' v'] d IH]; simpl; [discriminate|].
  destruct (String.eqb k' k) eqn:E.
  - apply String.eqb_eq in E. intros H. inversion H; subst. reflexivity.
  - intros H. now rewrite IH.
Qed.
Definition flds (ls : list (list string)) : list (string * bool) := map (fun f => (f, false)) (concat ls).
Lemma flds_fst ls : map fst (flds ls) = concat ls.
Proof. unfold flds. rewrite map_map. simpl. apply map_id. Qed.
Lemma flds_app a b : flds (a ++ b) = flds a ++ flds b.
Proof. unfold flds. now rewrite concat_app, map_app. Qed.
Lemma firstn_snoc {A} (d : A) l : forall n, n < List.length l -> firstn (S n) l = firstn n l ++ [nth n l d].
Proof.
  induction l as [|x l IH]; intros n H; simpl in *; [lia|].
  destruct n as [|n]; simpl; [reflexivity|]. rewrite <- IH by lia. reflexivity.
Qed.
Lemma rev_down n : rev (down n) = seq 0 (S n).
Proof.
  induction n as [|n IH]; [reflexivity|]. cbn [down rev]. rewrite IH.
  rewrite (seq_S (S n) 0). reflexivity.
Qed.
(** dictionaries with the fields of the first classes of the chain, one after the other *)
Lemma fold_supdate_chain ls n : n <= List.length ls -> NoDup (concat ls) ->
  fold_left supdate (map (fun k => flds (firstn k ls)) (seq 0 (S n))) [] = flds (firstn n ls).
Proof.
  intros Hn Hd.
  assert (G : forall n, n <= List.length ls -> NoDup (concat (firstn n ls))).
  { intros k Hk. rewrite <- (firstn_skipn k ls) in Hd. rewrite concat_app in Hd. revert Hd.
    generalize (concat (firstn k ls)) (concat (skipn k ls)). intros A B H.
    induction A as [|x A IH]; [constructor|]. simpl in H. inversion H as [|? ? N1 N2]; subst.
    constructor; [|now apply IH]. intros Hx. apply N1, in_or_app. now left. }
  induction n as [|n IH]; [reflexivity|].
  rewrite seq_S, map_app, fold_left_app. rewrite IH by lia. cbn [map fold_left plus].
  (* updating with a list that starts with the dictionary itself *)
  rewrite (firstn_snoc [] ls) by lia. rewrite flds_app.
  assert (U : forall d e : list (string * bool), NoDup (map fst d ++ map fst e) -> supdate d (d ++ e) = d ++ e).
  { intros d e H. unfold supdate. rewrite fold_left_app.
    assert (I : forall e', (forall k v, In (k, v) e' -> sget d k = Some v) ->
                fold_left (fun d kv => sset d (fst kv) (snd kv)) e' d = d).
    { induction e' as [|[k v] e' IHe]; intros He; simpl; [reflexivity|].
      rewrite sset_id by (apply He; now left). apply IHe. intros k' v' Hk. apply He. now right. }
    rewrite I.
    - apply (supdate_new e d H).
    - clear I. assert (Nd : NoDup (map fst d)).
      { revert H. generalize (map fst d) (map fst e). intros A B H.
        induction A as [|x A IHA]; [constructor|]. simpl in H. inversion H as [|? ? N1 N2]; subst.
        constructor; [|now apply IHA]. intros Hx. apply N1, in_or_app. now left. }
      clear H. induction d as [|[k0 v0] d IHd]; intros k v Hk; simpl in *; [contradiction|].
      inversion Nd as [|? ? N1 N2]; subst. destruct Hk as [Hk|Hk].
      + inversion Hk; subst. now rewrite String.eqb_refl.
      + destruct (String.eqb k0 k) eqn:E; [|now apply IHd].
        apply String.eqb_eq in E. subst. exfalso. apply N1. apply in_map_iff. now exists (k, v). }
  apply U. rewrite !flds_fst, <- concat_app, <- (firstn_snoc [] ls) by lia. apply G. lia.
Qed.
Lemma chain_dc ls c : c <= List.length ls -> NoDup (concat ls) -> forall fuel, c < fuel ->
  dc_fields fuel (chain ls) c = Ok (flds (firstn c ls)).
Proof.
  intros Hc Hd. revert Hc. induction c as [c IH] using (well_founded_induction lt_wf). intros Hc fuel Hf.
  destruct fuel as [|fuel]; [lia|]. cbn [dc_fields]. rewrite chain_mro by lia. cbn [bind].
  destruct c as [|c].
  - reflexivity.
  - cbn [down tl]. rewrite rev_down.
    assert (M : mapM (dc_fields fuel (chain ls)) (seq 0 (S c)) = Ok (map (fun k => flds (firstn k ls)) (seq 0 (S c)))).
    { apply mapM_ok_Forall2.
      assert (H : forall k, In k (seq 0 (S c)) -> k <= c) by (intros k Hk; apply in_seq in Hk; lia).
      revert H. generalize (seq 0 (S c)). intros l H. induction l as [|k l IHl]; [constructor|].
      constructor.
      - assert (k <= c) by (apply H; now left). apply IH; lia.
      - apply IHl. intros k' Hk. apply H. now right. }
    rewrite M. cbn [bind]. rewrite fold_supdate_chain by (lia || exact Hd).
    rewrite chain_cls by lia. cbn [c_own]. f_equal. rewrite (firstn_snoc [] ls) by lia. rewrite flds_app.
    assert (E : flds [nth c ls []] = map (fun f => (f, false)) (nth c ls [])).
    { unfold flds. simpl. now rewrite app_nil_r. }
    rewrite <- E. apply supdate_new. rewrite !flds_fst, <- concat_app, <- (firstn_snoc [] ls) by lia.
    assert (Hd' := Hd). rewrite <- (firstn_skipn (S c) ls), concat_app in Hd'. revert Hd'.
    generalize (concat (firstn (S c) ls)) (concat (skipn (S c) ls)). intros A B H.
    induction A as [|x A IHA]; [constructor|]. simpl in H. inversion H as [|? ? N1 N2]; subst.
    constructor; [|now apply IHA]. intros Hx. apply N1, in_or_app. now left.
Qed.
Lemma chain_fields ls c : c <= List.length ls -> NoDup (concat ls) ->
  grad_fields (chain ls) c = Ok (concat (firstn c ls)).
Proof.
  intros Hc Hd. unfold grad_fields. destruct c as [|c]; [reflexivity|].
  rewrite chain_cls by lia. cbn [c_kind]. unfold nonconst. rewrite chain_dc by (lia || assumption).
  cbn [bind]. f_equal. rewrite <- flds_fst. f_equal.
  unfold flds. generalize (concat (firstn (S c) ls)). intros l.
  induction l as [|f l IH]; simpl; [reflexivity|]. now rewrite IH.
Qed.
Lemma chain_lineage ls c : c <= List.length ls -> NoDup (concat ls) -> lineage (chain ls) c (down c).
Proof.
  intros Hc Hd. split.
  - apply chain_mro; lia.
  - intros k Hk. apply down_in in Hk. eexists. apply chain_fields; [lia|exact Hd].
Qed.
Lemma count_chain ls j f : NoDup (concat ls) -> In f (nth j ls []) -> forall k, k <= List.length ls ->
  count_occ string_dec (concat (firstn k ls)) f = if j <? k then 1 else 0.
Proof.
  intros Hd Hf. assert (Hj : j < List.length ls).
  { destruct (Nat.lt_ge_cases j (List.length ls)); [assumption|]. rewrite nth_overflow in Hf by assumption. contradiction. }
  assert (Split : concat ls = concat (firstn j ls) ++ nth j ls [] ++ concat (skipn (S j) ls)).
  { rewrite <- (firstn_skipn (S j) ls) at 1. rewrite concat_app, (firstn_snoc [] ls) by exact Hj.
    rewrite concat_app. simpl. rewrite app_nil_r, <- app_assoc. reflexivity. }
  assert (T : count_occ string_dec (concat ls) f = 1).
  { apply NoDup_count_occ'; [exact Hd|]. rewrite Split. apply in_or_app. right. apply in_or_app. now left. }
  intros k Hk. destruct (Nat.ltb_spec j k) as [L|L].
  - assert (P : In f (concat (firstn k ls))).
    { apply in_concat. exists (nth j ls []). split; [|exact Hf].
      rewrite <- (firstn_skipn k ls) at 1. rewrite app_nth1 by (rewrite firstn_length; lia).
      apply nth_In. rewrite firstn_length. lia. }
    rewrite <- (firstn_skipn k ls), concat_app, count_occ_app in T.
    apply (count_occ_In string_dec) in P. lia.
  - assert (Z : count_occ string_dec (concat (firstn j ls)) f = 0).
    { rewrite Split, !count_occ_app in T. apply (count_occ_In string_dec) in Hf. lia. }
    assert (P : firstn j ls = firstn k ls ++ skipn k (firstn j ls)).
    { rewrite <- (firstn_skipn k (firstn j ls)) at 1. f_equal. rewrite firstn_firstn. f_equal. lia. }
    rewrite P, concat_app, count_occ_app in Z. lia.
Qed.
Theorem chain_times ls c j f : c <= List.length ls -> NoDup (concat ls) -> In f (nth j ls []) ->
  times (chain ls) (down c) f = c - j.
Proof.
  intros Hc Hd Hf. unfold times. induction c as [|c IH].
  - reflexivity.
  - cbn [down flat_map]. rewrite count_occ_app, IH by lia.
    unfold fields_of at 1. rewrite chain_fields by (lia || exact Hd).
    rewrite (@count_chain ls j f Hd Hf) by exact Hc. destruct (Nat.ltb_spec j (S c)); lia.
Qed.
Theorem chain_iadd ls c sh a b : c <= List.length ls -> NoDup (concat ls) ->
  shaped c (concat (firstn c ls)) sh a -> shaped c (concat (firstn c ls)) sh b ->
  exists r, gobj_iadd (chain ls) a b = Ok r /\ shaped c (concat (firstn c ls)) sh r /\
    forall j f i, In f (nth j ls []) -> (entry r f i == entry a f i + nq (c - j) * entry b f i)%Q.
Proof.
  intros Hc Hd Ha Hb.
  assert (Inc : forall f, In f (flat_map (fields_of (chain ls)) (down c)) <-> In f (concat (firstn c ls))).
  { intros f. rewrite in_flat_map. split.
    - intros (k & Hk & Hf). apply down_in in Hk. unfold fields_of in Hf.
      rewrite chain_fields in Hf by (lia || exact Hd).
      assert (P : firstn c ls = firstn k ls ++ skipn k (firstn c ls)).
      { rewrite <- (firstn_skipn k (firstn c ls)) at 1. f_equal. rewrite firstn_firstn. f_equal. lia. }
      rewrite P, concat_app. apply in_or_app. now left.
    - intros Hf. exists c. split; [apply down_in; lia|]. unfold fields_of. now rewrite chain_fields by (lia || exact Hd). }
  assert (Sh : forall g, shaped c (concat (firstn c ls)) sh g <-> shaped c (flat_map (fields_of (chain ls)) (down c)) sh g).
  { intros g. unfold shaped. split; intros [H1 H2]; (split; [exact H1|]); intros f Hf; apply H2, Inc, Hf. }
  destruct (@iadd_times (chain ls) c (down c) sh a b (@chain_lineage ls c Hc Hd)) as (r & E & S1 & Q1).
  { now apply Sh. } { now apply Sh. }
  exists r. split; [exact E|]. split; [now apply Sh|].
  intros j f i Hf. rewrite Q1, (@chain_times ls c j f Hc Hd Hf). reflexivity.
Qed.
