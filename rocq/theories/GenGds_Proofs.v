(** Families of contours: one round of the removal of embedded polygons. *)
From Verif Require Import QTac GenGds_Model GenGds_Spec.
Set Implicit Arguments.
Unset Strict Implicit.

(** ** Lists *)
Lemma fop_impl {A} (P Q : A -> A -> Prop) l : ForallOrdPairs P l -> (forall a b, In a l -> In b l -> P a b -> Q a b) -> ForallOrdPairs Q l.
Proof.
  induction 1 as [|a l Ha Hl IH]; intros H; constructor.
  - apply Forall_forall. intros b Hb. apply H; cbn; auto. rewrite Forall_forall in Ha. auto.
  - apply IH. intros x y Hx Hy. apply H; cbn; auto.
Qed.
Lemma fop_filter {A} (P : A -> A -> Prop) f l : ForallOrdPairs P l -> ForallOrdPairs P (filter f l).
Proof.
  induction 1 as [|a l Ha Hl IH]; cbn; [constructor|]. destruct (f a); [|exact IH]. constructor; [|exact IH].
  rewrite Forall_forall in *. intros b Hb. apply filter_In in Hb. now apply Ha.
Qed.
Lemma filter_len_le {A} (f g : A -> bool) l : (forall x, In x l -> f x = true -> g x = true) -> (length (filter f l) <= length (filter g l))%nat.
Proof.
  induction l as [|a l IH]; intros H; cbn; [lia|]. assert (IH' := IH (fun x Hx => H x (or_intror Hx))).
  destruct (f a) eqn:E; [rewrite (H a (or_introl eq_refl) E); cbn; lia|destruct (g a); cbn; lia].
Qed.
Lemma filter_len_lt {A} (f g : A -> bool) l : (forall x, In x l -> f x = true -> g x = true) -> (exists x, In x l /\ f x = false /\ g x = true) ->
  (length (filter f l) < length (filter g l))%nat.
Proof.
  induction l as [|a l IH]; intros H (x & Hx & Hf & Hg); [contradiction|]. cbn.
  assert (L := @filter_len_le A f g l (fun x Hx => H x (or_intror Hx))).
  destruct Hx as [->|Hx]; [rewrite Hf, Hg; cbn; lia|]. assert (IH' := IH (fun x Hx => H x (or_intror Hx)) ltac:(eauto)).
  destruct (f a) eqn:E; [rewrite (H a (or_introl eq_refl) E); cbn; lia|destruct (g a); cbn; lia].
Qed.
Lemma filter_nil {A} (f : A -> bool) l : (forall x, In x l -> f x = false) -> filter f l = [].
Proof. induction l as [|a l IH]; intros H; [reflexivity|]. cbn. rewrite (H a (or_introl eq_refl)). apply IH. intros x Hx. apply H. now right. Qed.
Lemma filter_some {A} (f : A -> bool) l x : In x l -> f x = true -> filter f l <> [].
Proof. intros H1 H2 E. assert (H : In x (filter f l)) by (apply filter_In; auto). rewrite E in H. contradiction. Qed.
(** exclusive or over a list *)
Fixpoint bx {A} (f : A -> bool) (l : list A) : bool := match l with [] => false | a :: l' => xorb (f a) (bx f l') end.
Lemma bx_ext {A} (f g : A -> bool) l : (forall x, In x l -> f x = g x) -> bx f l = bx g l.
Proof. induction l as [|a l IH]; intros H; [reflexivity|]. cbn. rewrite (H a (or_introl eq_refl)), IH; [reflexivity|]. intros x Hx. apply H. now right. Qed.
Lemma bx_xor {A} (f g : A -> bool) l : bx (fun a => xorb (f a) (g a)) l = xorb (bx f l) (bx g l).
Proof. induction l as [|a l IH]; [reflexivity|]. cbn. rewrite IH. destruct (f a), (g a), (bx f l), (bx g l); reflexivity. Qed.
Lemma bx_false {A} (l : list A) : bx (fun _ => false) l = false.
Proof. induction l as [|a l IH]; cbn; [|rewrite IH]; reflexivity. Qed.
Lemma bx_swap {A B} (g : A -> B -> bool) l1 l2 : bx (fun a => bx (g a) l2) l1 = bx (fun b => bx (fun a => g a b) l1) l2.
Proof.
  induction l1 as [|a l1 IH]; cbn; [symmetry; apply bx_false|]. rewrite IH. rewrite <- bx_xor. reflexivity.
Qed.
Lemma bx_and {A} (f : A -> bool) c l : bx (fun a => f a && c) l = bx f l && c.
Proof. induction l as [|a l IH]; [reflexivity|]. cbn. rewrite IH. destruct (f a), (bx f l), c; reflexivity. Qed.
Lemma bx_filter {A} (f g : A -> bool) l : bx f (filter g l) = bx (fun a => g a && f a) l.
Proof. induction l as [|a l IH]; [reflexivity|]. cbn. destruct (g a); cbn; rewrite IH; [reflexivity|]. now destruct (bx _ l). Qed.
Lemma bx_exists {A} (f : A -> bool) l : ForallOrdPairs (fun a b => f a = true -> f b = true -> False) l -> bx f l = existsb f l.
Proof.
  induction 1 as [|a l Ha Hl IH]; [reflexivity|]. cbn. destruct (f a) eqn:E; [|rewrite IH; now destruct (existsb f l)].
  rewrite IH. replace (existsb f l) with false; [reflexivity|]. symmetry. apply Bool.not_true_iff_false. intros H.
  apply existsb_exists in H as (x & Hx & Hfx). rewrite Forall_forall in Ha. exact (Ha x Hx eq_refl Hfx).
Qed.

Section Region.
Variable region : Type.
Variable inside : (Q * Q) -> region -> bool.
Local Notation shape := (shape region).
Local Notation holds := (holds inside).
Local Notation direct := (direct inside).
Local Notation contours := (contours inside).

Definition related (a b : shape) : Prop := within inside a b \/ within inside b a \/ apart inside a b.
Lemma related_sym a b : related a b -> related b a.
Proof. intros [H|[H|H]]; unfold related; auto. right; right. intros x Hb. destruct (inside x (snd a)) eqn:E; [|reflexivity]. rewrite (H x E) in Hb. discriminate. Qed.
Lemma contours_in S a b : contours S -> In a S -> In b S -> a = b \/ related a b.
Proof.
  intros [_ H] Ha Hb. destruct (ForallOrdPairs_In H a b Ha Hb) as [E|[E|E]]; [now left|now right|right; now apply related_sym].
Qed.
Lemma own S a : contours S -> In a S -> inside (fst a) (snd a) = true.
Proof. intros [H _] Ha. rewrite Forall_forall in H. auto. Qed.
Lemma holds_self a : inside (fst a) (snd a) = true -> holds a a = false.
Proof. unfold GenGds_Spec.holds. intros ->. reflexivity. Qed.
Lemma holds_irr S a : contours S -> In a S -> holds a a = false.
Proof. intros H Ha. now apply holds_self, (own H). Qed.

Section Fixed.
Variable S : list shape.
Hypothesis HS : contours S.

Lemma within_holds a b : In b S -> within inside a b -> holds a b = true.
Proof. intros Hb [H1 H2]. unfold GenGds_Spec.holds. rewrite H2, (H1 _ (own HS Hb)). reflexivity. Qed.
Lemma holds_within a b : In a S -> In b S -> holds a b = true -> within inside a b.
Proof.
  intros Ha Hb H. unfold GenGds_Spec.holds in H. apply andb_prop in H as [H1 H2]. apply negb_true_iff in H2.
  destruct (contours_in HS Ha Hb) as [E|[E|[E|E]]].
  - subst b. rewrite (own HS Ha) in H2. discriminate.
  - exact E.
  - destruct E as [_ E]. congruence.
  - specialize (E _ H1). rewrite (own HS Hb) in E. discriminate.
Qed.
Lemma holds_trans a b c : In a S -> In b S -> In c S -> holds a b = true -> holds b c = true -> holds a c = true.
Proof.
  intros Ha Hb Hc H1 H2. apply within_holds; [exact Hc|]. destruct (holds_within Ha Hb H1) as [A1 A2], (holds_within Hb Hc H2) as [B1 B2].
  split; [auto|]. destruct (inside (fst a) (snd c)) eqn:E; [|reflexivity]. apply B1 in E. congruence.
Qed.
Lemma common a b c : In a S -> In b S -> In c S -> holds a c = true -> holds b c = true -> a = b \/ holds a b = true \/ holds b a = true.
Proof.
  intros Ha Hb Hc H1 H2. destruct (contours_in HS Ha Hb) as [E|[E|[E|E]]]; [now left|right; left; now apply within_holds|right; right; now apply within_holds|].
  exfalso. apply holds_within in H1 as [A1 _], H2 as [B1 _]; auto. pose proof (own HS Hc) as O. pose proof (A1 _ O) as A. pose proof (B1 _ O) as B. rewrite (E _ A) in B. discriminate.
Qed.
Lemma holds_nonsym a b : holds a b = true -> holds b a = false.
Proof. unfold GenGds_Spec.holds. intros H. apply andb_prop in H as [H1 H2]. rewrite H1. apply andb_false_r. Qed.

(** ** Polygons that contain others *)
Definition branch (a : shape) : Prop := exists b, In b S /\ holds a b = true.
Lemma direct_spec a b : In b (direct S a) <-> In b S /\ holds a b = true /\ forall c, In c S -> holds a c = true -> holds c b = false.
Proof.
  unfold GenGds_Spec.direct. rewrite filter_In, andb_true_iff, negb_true_iff. split.
  - intros (H1 & H2 & H3). repeat split; auto. intros c Hc H4. apply Bool.not_true_iff_false. intros H5.
    apply Bool.not_true_iff_false in H3. apply H3. apply existsb_exists. exists c. rewrite H4, H5. auto.
  - intros (H1 & H2 & H3). repeat split; auto. apply Bool.not_true_iff_false. intros H. apply existsb_exists in H as (c & Hc & H).
    apply andb_prop in H as [H4 H5]. rewrite (H3 c Hc H4) in H5. discriminate.
Qed.
Lemma between_or_direct a b : In b S -> holds a b = true -> In b (direct S a) \/ exists c, In c S /\ holds a c = true /\ holds c b = true.
Proof.
  intros Hb H. destruct (existsb (fun c => holds a c && holds c b) S) eqn:E.
  - right. apply existsb_exists in E as (c & Hc & E). apply andb_prop in E as [E1 E2]. eauto.
  - left. apply direct_spec. repeat split; auto. intros c Hc H1. apply Bool.not_true_iff_false. intros H2. apply Bool.not_true_iff_false in E. apply E. apply existsb_exists. exists c. now rewrite H1, H2.
Qed.
Lemma branch_direct a : In a S -> branch a -> direct S a <> [].
Proof.
  intros Ha (b & Hb & H).
  remember (length (filter (fun c => holds a c && holds c b) S)) as n eqn:En. revert b Hb H En.
  induction n as [n IH] using (well_founded_induction Wf_nat.lt_wf). intros b Hb H En.
  destruct (between_or_direct Hb H) as [D|(c & Hc & H1 & H2)].
  - intros E. rewrite E in D. contradiction.
  - refine (IH _ _ c Hc H1 eq_refl). rewrite En. apply filter_len_lt.
    + intros x Hx H3. apply andb_prop in H3 as [H3 H4]. rewrite H3. cbn. exact (holds_trans Hx Hc Hb H4 H2).
    + exists c. rewrite H1, H2, (holds_irr HS Hc). auto.
Qed.
Lemma direct_branch a : direct S a <> [] -> branch a.
Proof. destruct (direct S a) as [|b l] eqn:E; [congruence|]. intros _. assert (H : In b (direct S a)) by (rewrite E; now left). apply direct_spec in H as (H1 & H2 & _). exists b. auto. Qed.
Lemma direct_le a : (length (direct S a) <= length (filter (holds a) S))%nat.
Proof. apply filter_len_le. intros x _ H. now apply andb_prop in H. Qed.

(** ** The rounds with a given number of embedded polygons *)
Variable num : nat.
Definition target (a : shape) : bool := Nat.eqb (length (filter (holds a) S)) num.
Definition dropped (b : shape) : bool := existsb (fun a => target a && holds a b) S.
(** every polygon that contains others has at least [num] directly inside *)
Definition at_least : Prop := forall a, In a S -> branch a -> (num <= length (direct S a))%nat.
Hypothesis Hnum : (1 <= num)%nat.

Lemma target_branch a : target a = true -> branch a.
Proof.
  unfold target. intros H. apply Nat.eqb_eq in H. destruct (filter (holds a) S) as [|b l] eqn:E; [cbn in H; lia|].
  assert (Hb : In b (filter (holds a) S)) by (rewrite E; now left). apply filter_In in Hb. now exists b.
Qed.
Lemma dropped_spec b : dropped b = true <-> exists a, In a S /\ target a = true /\ holds a b = true.
Proof.
  unfold dropped. rewrite existsb_exists. split; intros (a & H); exists a; rewrite andb_true_iff in *; tauto.
Qed.

Section Good.
Hypothesis HL : at_least.
Lemma good a b : In a S -> In b S -> target a = true -> holds a b = true -> ~ branch b.
Proof.
  intros Ha Hb Ht H Hbr. pose proof (HL Hb Hbr) as L. unfold target in Ht. apply Nat.eqb_eq in Ht.
  assert (length (direct S b) < length (filter (holds a) S))%nat; [|lia]. apply filter_len_lt.
  - intros x Hx H1. apply andb_prop in H1 as [H1 _]. exact (holds_trans Ha Hb Hx H H1).
  - exists b. rewrite (holds_irr HS Hb), H. auto.
Qed.
Lemma target_kept a : In a S -> target a = true -> dropped a = false.
Proof.
  intros Ha Ht. apply Bool.not_true_iff_false. intros H. apply dropped_spec in H as (c & Hc & Htc & H). exact (good Hc Ha Htc H (target_branch Ht)).
Qed.
Lemma holder_unique a a' b : In a S -> In a' S -> In b S -> target a = true -> target a' = true -> holds a b = true -> holds a' b = true -> a = a'.
Proof.
  intros Ha Ha' Hb Ht Ht' H H'. destruct (common Ha Ha' Hb H H') as [E|[E|E]]; [exact E| |].
  - destruct (good Ha Ha' Ht E (target_branch Ht')).
  - destruct (good Ha' Ha Ht' E (target_branch Ht)).
Qed.
Lemma children_apart a b c : In a S -> In b S -> In c S -> target a = true -> holds a b = true -> holds a c = true -> b = c \/ apart inside b c.
Proof.
  intros Ha Hb Hc Ht H1 H2. destruct (contours_in HS Hb Hc) as [E|[E|[E|E]]]; [now left| | |now right].
  - destruct (good Ha Hb Ht H1). exists c. split; [exact Hc|]. now apply within_holds.
  - destruct (good Ha Hc Ht H2). exists b. split; [exact Hb|]. now apply within_holds.
Qed.
End Good.
End Fixed.

(** ** The family after a round *)
Definition rest (S : list shape) (num : nat) : list shape := filter (fun b => negb (dropped S num b)) S.
Section Round.
Variables (S : list shape) (num : nat).
Hypothesis HS : contours S.
Hypothesis Hnum : (1 <= num)%nat.
Hypothesis HL : at_least S num.
Lemma rest_in b : In b (rest S num) <-> In b S /\ dropped S num b = false.
Proof. unfold rest. now rewrite filter_In, negb_true_iff. Qed.
Lemma rest_contours : contours (rest S num).
Proof.
  destruct HS as [H1 H2]. split; [|now apply fop_filter]. rewrite Forall_forall in *. intros a Ha. apply H1. now apply rest_in in Ha.
Qed.
Lemma target_leaf a : In a S -> target S num a = true -> ~ branch (rest S num) a.
Proof.
  intros Ha Ht (b & Hb & H). apply rest_in in Hb as [Hb Hd]. assert (dropped S num b = true); [|congruence]. apply dropped_spec. eauto.
Qed.
Lemma rest_branch a : branch (rest S num) a -> branch S a.
Proof. intros (b & Hb & H). apply rest_in in Hb as [Hb _]. now exists b. Qed.
Lemma rest_direct a : In a (rest S num) -> branch (rest S num) a -> direct (rest S num) a = direct S a.
Proof.
  intros Ha Hbr. apply rest_in in Ha as [Ha Hda].
  assert (Hta : target S num a = false) by (apply Bool.not_true_iff_false; intros Ht; exact (target_leaf Ha Ht Hbr)).
  unfold GenGds_Spec.direct at 1 2, rest at 2.
  assert (E : forall (f g h : shape -> bool) l, (forall x, In x l -> g x && f x = h x) -> filter f (filter g l) = filter h l).
  { intros f g h l. induction l as [|x l IH]; intros H; [reflexivity|]. cbn. pose proof (H x (or_introl eq_refl)) as Hx. specialize (IH (fun y Hy => H y (or_intror Hy))).
    destruct (g x); cbn in *; [destruct (f x); rewrite <- Hx; now rewrite IH|now rewrite <- Hx]. }
  apply E. intros c Hc. destruct (holds a c) eqn:Hac; cbn [andb]; [|apply andb_false_r].
  destruct (existsb (fun e => holds a e && holds e c) S) eqn:ES; cbn [negb].
  - apply existsb_exists in ES as (e & He & H). apply andb_prop in H as [H1 H2].
    assert (Hde : dropped S num e = false).
    { apply Bool.not_true_iff_false. intros H. apply dropped_spec in H as (i & Hi & Hti & Hie). apply (good HS Hnum HL Hi He Hti Hie). now exists c. }
    replace (existsb (fun e => holds a e && holds e c) (rest S num)) with true; [apply andb_false_r|]. symmetry. apply existsb_exists. exists e. rewrite H1, H2. split; [|reflexivity]. apply rest_in. auto.
  - assert (ES' : forall e, In e S -> holds a e = true -> holds e c = false).
    { intros e He H1. apply Bool.not_true_iff_false. intros H2. apply Bool.not_true_iff_false in ES. apply ES. apply existsb_exists. exists e. now rewrite H1, H2. }
    replace (existsb (fun e => holds a e && holds e c) (rest S num)) with false.
    + cbn. rewrite andb_true_r, negb_true_iff. apply Bool.not_true_iff_false. intros H. apply dropped_spec in H as (i & Hi & Hti & Hic).
      destruct (common HS Hi Ha Hc Hic Hac) as [E1|[E1|E1]].
      * subst i. congruence.
      * apply (good HS Hnum HL Hi Ha Hti E1). now exists c.
      * rewrite (ES' i Hi E1) in Hic. discriminate.
    + symmetry. apply Bool.not_true_iff_false. intros H. apply existsb_exists in H as (e & He & H). apply rest_in in He as [He _]. apply andb_prop in H as [H1 H2]. rewrite (ES' e He H1) in H2. discriminate.
Qed.
Lemma rest_at_least : at_least (rest S num) num.
Proof. intros a Ha Hb. rewrite (rest_direct Ha Hb). apply rest_in in Ha as [Ha _]. apply HL; [exact Ha|now apply rest_branch]. Qed.
Lemma rest_more : outer_have_more inside S -> outer_have_more inside (rest S num).
Proof.
  intros H a b Ha Hb Hab Hd. assert (Bb : branch (rest S num) b) by now apply direct_branch.
  assert (Ba : branch (rest S num) a) by (now exists b).
  rewrite (rest_direct Ha Ba). rewrite (rest_direct Hb Bb) in *. apply rest_in in Ha as [Ha _], Hb as [Hb _]. now apply H.
Qed.
Lemma rest_shorter a : In a S -> target S num a = true -> (length (rest S num) < length S)%nat.
Proof.
  intros Ha Ht. destruct (target_branch Hnum Ht) as (b & Hb & H). unfold rest.
  assert (E : forall l : list shape, length (filter (fun _ => true) l) = length l) by (intros l; induction l; cbn; congruence).
  rewrite <- (E S). apply filter_len_lt; [auto|]. exists b. repeat split; auto. apply negb_false_iff. apply dropped_spec. eauto.
Qed.
End Round.
(** when no round with [num] is left, polygons containing others have more directly inside *)
Lemma next_at_least S num : contours S -> outer_have_more inside S -> at_least S num -> (forall a, In a S -> target S num a = false) -> at_least S (num + 1).
Proof.
  intros HS HM HL HT a Ha Hbr. remember (length (filter (holds a) S)) as n eqn:En. revert a Ha Hbr En.
  induction n as [n IH] using (well_founded_induction Wf_nat.lt_wf). intros a Ha Hbr En.
  pose proof (HL a Ha Hbr) as L. destruct (Nat.eq_dec (length (direct S a)) num) as [E|E]; [|lia].
  exfalso. specialize (HT a Ha). unfold target in HT. apply Nat.eqb_neq in HT. pose proof (direct_le S a) as L2.
  assert (D : exists c, In c S /\ holds a c = true /\ ~ In c (direct S a)).
  { destruct (existsb (fun c => holds a c && existsb (fun e => holds a e && holds e c) S) S) eqn:X.
    - apply existsb_exists in X as (c & Hc & X). apply andb_prop in X as [X1 X2]. exists c. repeat split; auto. intros Hd. apply direct_spec in Hd as (_ & _ & Hd).
      apply existsb_exists in X2 as (e & He & X2). apply andb_prop in X2 as [X2 X3]. rewrite (Hd e He X2) in X3. discriminate.
    - exfalso. assert (length (filter (holds a) S) <= length (direct S a))%nat; [|lia]. apply filter_len_le. intros c Hc H. rewrite H. cbn.
      apply negb_true_iff. apply Bool.not_true_iff_false. intros X2. apply Bool.not_true_iff_false in X. apply X. apply existsb_exists. exists c. now rewrite H, X2. }
  destruct D as (c & Hc & Hac & Hnd). destruct (between_or_direct Hc Hac) as [D|(e & He & H1 & H2)]; [contradiction|].
  assert (Be : branch S e) by now exists c.
  pose proof (HM a e Ha He H1 (branch_direct HS He Be)) as L3.
  assert (num + 1 <= length (direct S e))%nat; [|lia]. refine (IH _ _ e He Be eq_refl). rewrite En. apply filter_len_lt.
  - intros x Hx H. exact (holds_trans HS Ha He Hx H1 H).
  - exists e. rewrite (holds_irr HS He). auto.
Qed.
Lemma first_at_least S : contours S -> at_least S 1.
Proof. intros HS a Ha Hb. pose proof (branch_direct HS Ha Hb). destruct (direct S a); [congruence|cbn; lia]. Qed.
Lemma no_branch S num : at_least S num -> (length S < num)%nat -> forall a, In a S -> ~ branch S a.
Proof.
  intros HL Hn a Ha Hb. pose proof (HL a Ha Hb). pose proof (direct_le S a). assert (length (filter (holds a) S) <= length S)%nat; [|lia].
  clear. induction S as [|x l IH]; cbn; [lia|]. destruct (holds a x); cbn; lia.
Qed.
End Region.
