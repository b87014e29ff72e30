(** The rounds of the model act on families of contours as in GenGds_Proofs.v. *)
From Verif Require Import QTac GenGds_Model GenGds_Spec GenGds_Proofs.
Set Implicit Arguments.
Unset Strict Implicit.

(** ** Lists *)
Lemma flat_map_in_ext {A B} (f g : A -> list B) l : (forall a, In a l -> f a = g a) -> flat_map f l = flat_map g l.
Proof. induction l as [|a l IH]; intros H; [reflexivity|]. cbn. rewrite (H a (or_introl eq_refl)), IH; [reflexivity|]. intros b Hb. apply H. now right. Qed.
Lemma seq_flat {A B} (F : A -> list B) (G : list A) :
  flat_map (fun k => match nth_error G k with Some a => F a | None => [] end) (seq 0 (length G)) = flat_map F G.
Proof.
  induction G as [|a G IH] using rev_ind; [reflexivity|]. rewrite app_length. cbn [length]. rewrite Nat.add_1_r, seq_S, !flat_map_app. f_equal.
  - rewrite <- IH. apply flat_map_in_ext. intros k Hk. apply in_seq in Hk. rewrite nth_error_app1 by lia. reflexivity.
  - cbn. rewrite nth_error_app2 by lia. rewrite Nat.sub_diag. reflexivity.
Qed.
Lemma map_flat {A B} (f : A -> B) l : map f l = flat_map (fun a => [f a]) l.
Proof. induction l; cbn; congruence. Qed.
Lemma flat_filter {A B} (f : A -> bool) (F : A -> list B) l : flat_map F (filter f l) = flat_map (fun a => if f a then F a else []) l.
Proof. induction l as [|a l IH]; [reflexivity|]. cbn. destruct (f a); cbn; congruence. Qed.
Lemma fop_nth {A} (P : A -> A -> Prop) l i j a b : ForallOrdPairs P l -> i <> j -> nth_error l i = Some a -> nth_error l j = Some b -> P a b \/ P b a.
Proof.
  intros H. revert i j. induction H as [|x l Hx Hl IH]; intros i j Hij Hi Hj; [destruct i; discriminate|]. rewrite Forall_forall in Hx.
  destruct i as [|i], j as [|j]; cbn in *; [congruence| | |].
  - injection Hi as <-. left. apply Hx. eapply nth_error_In; eauto.
  - injection Hj as <-. right. apply Hx. eapply nth_error_In; eauto.
  - apply (IH i j); auto.
Qed.
Lemma fop_map {A B} (P : B -> B -> Prop) (f : A -> B) l : ForallOrdPairs P (map f l) -> ForallOrdPairs (fun a b => P (f a) (f b)) l.
Proof. induction l as [|a l IH]; intros H; [constructor|]. cbn in H. inversion H; subst. constructor; [|auto]. now apply Forall_map. Qed.
Lemma mapM_some {A} (acc : nat -> option A) l : (forall j, In j l -> acc j <> None) ->
  mapM (fun j => match acc j with Some r => Ok r | None => Err AttributeError end) l = Ok (flat_map (fun j => match acc j with Some r => [r] | None => [] end) l).
Proof.
  induction l as [|j l IH]; intros H; [reflexivity|]. cbn. pose proof (H j (or_introl eq_refl)). destruct (acc j); [|congruence]. cbn. rewrite IH; [reflexivity|]. intros k Hk. apply H. now right.
Qed.
Lemma zsum_nonneg l : Forall (fun z => 0 <= z)%Z l -> (0 <= zsum l)%Z.
Proof. induction 1; cbn; [lia|]. unfold zsum in *. lia. Qed.
Lemma zsum_zero l : Forall (fun z => 0 <= z)%Z l -> zsum l = 0%Z -> Forall (fun z => z = 0)%Z l.
Proof. induction 1 as [|z l Hz Hl IH]; intros H; constructor; cbn in H; pose proof (zsum_nonneg Hl); unfold zsum in *; [lia|]. apply IH. lia. Qed.

Section Region.
Variable region : Type.
Variable inside : (Q * Q) -> region -> bool.
Variable not_of : option region -> list region -> option region.
Hypothesis Hnot : exact_not inside not_of.
Local Notation shape := (shape region).
Local Notation holds := (holds inside).
Local Notation direct := (direct inside).
Local Notation contours := (contours inside).
Local Notation branch := (branch inside).

(** an entry of the state with the outline it had at the start *)
Record item := mkitem { tp : Q * Q; hull : region; cur : region }.
Definition sh (a : item) : shape := (tp a, hull a).
Definition st (a : item) : point * region := (tp a, cur a).
Definition inv (G : list item) : Prop :=
  contours (map sh G) /\
  forall a, In a G -> inside (tp a) (cur a) = true /\ (forall x, inside x (cur a) = true -> inside x (hull a) = true) /\
    ((forall x, inside x (cur a) = inside x (hull a)) \/ ~ branch (map sh G) (sh a)).

Section State.
Variable G : list item.
Hypothesis HI : inv G.
Local Notation S := (map sh G).
Local Notation l := (map st G).

Lemma shape_in a : In a G -> In (sh a) S.
Proof. apply in_map. Qed.
Lemma pair_related i j a b : i <> j -> nth_error G i = Some a -> nth_error G j = Some b -> related inside (sh a) (sh b).
Proof.
  intros Hij Hi Hj. destruct HI as [[_ H] _]. apply fop_map in H.
  destruct (fop_nth H Hij Hi Hj) as [E|E]; [exact E|now apply related_sym].
Qed.
Lemma same_position i j a b : nth_error G i = Some a -> nth_error G j = Some b -> sh a = sh b -> i = j.
Proof.
  intros Hi Hj E. destruct (Nat.eq_dec i j) as [|N]; [assumption|]. exfalso. pose proof (pair_related N Hi Hj) as R. rewrite <- E in R.
  pose proof (own (proj1 HI) (shape_in (nth_error_In _ _ Hi))) as O.
  destruct R as [[_ R]|[[_ R]|R]]; [congruence|congruence|]. specialize (R _ O). congruence.
Qed.
Lemma hull_holds i j a b : i <> j -> nth_error G i = Some a -> nth_error G j = Some b -> inside (tp b) (hull a) = holds (sh a) (sh b).
Proof.
  intros Hij Hi Hj. pose proof (pair_related Hij Hi Hj) as R. pose proof (proj1 HI) as HC.
  pose proof (own HC (shape_in (nth_error_In _ _ Hi))) as Oa. pose proof (own HC (shape_in (nth_error_In _ _ Hj))) as Ob. cbn in Oa, Ob.
  unfold GenGds_Spec.holds. cbn. destruct R as [[R1 R2]|[[R1 R2]|R]]; cbn in *.
  - rewrite R2. now rewrite andb_true_r.
  - now rewrite R2.
  - destruct (inside (tp b) (hull a)) eqn:E; [|reflexivity]. specialize (R _ E). cbn in R. congruence.
Qed.
Lemma entry_spec i j a b : nth_error G i = Some a -> nth_error G j = Some b -> entry inside l i j = if holds (sh a) (sh b) then 1%Z else 0%Z.
Proof.
  intros Hi Hj. unfold entry. rewrite !nth_error_map, Hi, Hj. cbn [option_map st].
  destruct (proj2 HI a (nth_error_In _ _ Hi)) as (A1 & A2 & A3).
  destruct (Nat.eqb_spec i j) as [E|E].
  - subst j. rewrite Hi in Hj. injection Hj as <-. rewrite A1. rewrite (holds_irr (proj1 HI) (shape_in (nth_error_In _ _ Hi))). reflexivity.
  - rewrite Z.sub_0_r. rewrite <- (hull_holds E Hi Hj). destruct A3 as [A3|A3]; [now rewrite A3|].
    assert (X : inside (tp b) (hull a) = false).
    { apply Bool.not_true_iff_false. intros X. rewrite (hull_holds E Hi Hj) in X. apply A3. exists (sh b). split; [|exact X]. apply shape_in. eapply nth_error_In; eauto. }
    rewrite X. destruct (inside (tp b) (cur a)) eqn:Y; [|reflexivity]. rewrite (A2 _ Y) in X. discriminate.
Qed.
Lemma len_st : length l = length G. Proof. apply map_length. Qed.
Lemma nth_seq k : In k (seq 0 (length G)) -> exists a, nth_error G k = Some a.
Proof. intros H. apply in_seq in H. destruct (nth_error G k) eqn:E; [eauto|]. apply nth_error_None in E. lia. Qed.
Lemma overlap_spec i a : nth_error G i = Some a -> overlap inside l i = Z.of_nat (length (filter (holds (sh a)) S)).
Proof.
  intros Hi. unfold overlap. rewrite len_st, map_flat.
  rewrite (@flat_map_in_ext _ _ _ (fun k => match nth_error G k with Some b => [if holds (sh a) (sh b) then 1%Z else 0%Z] | None => [] end)).
  2:{ intros k Hk. destruct (nth_seq Hk) as [b Hb]. rewrite Hb. now rewrite (entry_spec Hi Hb). }
  rewrite (seq_flat (fun b => [if holds (sh a) (sh b) then 1%Z else 0%Z]) G). rewrite <- map_flat. clear. induction G as [|b G' IH]; [reflexivity|]. cbn [map filter zsum fold_right].
  unfold zsum in IH. rewrite IH. destruct (holds (sh a) (sh b)); cbn [length]; lia.
Qed.
Lemma contained_spec i a k : nth_error G i = Some a -> In k (contained inside l i) <-> exists b, nth_error G k = Some b /\ holds (sh a) (sh b) = true.
Proof.
  intros Hi. unfold contained. rewrite filter_In, len_st. split.
  - intros [H1 H2]. destruct (nth_seq H1) as [b Hb]. exists b. split; [exact Hb|]. rewrite (entry_spec Hi Hb) in H2. destruct (holds (sh a) (sh b)); [reflexivity|discriminate].
  - intros (b & Hb & H). split; [apply in_seq; assert (nth_error G k <> None) by congruence; apply nth_error_Some in H0; lia|]. now rewrite (entry_spec Hi Hb), H.
Qed.

Variable num : nat.
Hypothesis Hnum : (1 <= num)%nat.
Hypothesis HL : at_least inside S num.
Local Notation target := (target inside S num).
Local Notation dropped := (dropped inside S num).
Lemma targets_spec k : In k (targets inside l num) <-> exists a, nth_error G k = Some a /\ target (sh a) = true.
Proof.
  unfold targets. rewrite filter_In, len_st. split.
  - intros [H1 H2]. destruct (nth_seq H1) as [b Hb]. exists b. split; [exact Hb|]. rewrite (overlap_spec Hb) in H2. apply Z.eqb_eq in H2. unfold GenGds_Proofs.target. apply Nat.eqb_eq. lia.
  - intros (b & Hb & H). split; [apply in_seq; assert (nth_error G k <> None) by congruence; apply nth_error_Some in H0; lia|]. rewrite (overlap_spec Hb). unfold GenGds_Proofs.target in H. apply Nat.eqb_eq in H. apply Z.eqb_eq. lia.
Qed.
(** what [not_of] makes of a target *)
Definition newr (a : item) : option region := not_of (Some (cur a)) (map cur (filter (fun b => holds (sh a) (sh b)) G)).
Definition held_by (D : list nat) (a : item) : bool := existsb (fun i => match nth_error G i with Some c => holds (sh c) (sh a) | None => false end) D.
Definition after (D : list nat) (acc : nat -> option region) : Prop := forall k a, nth_error G k = Some a ->
  acc k = if memb k D then newr a else if held_by D a then None else Some (cur a).
Lemma held_true D a : held_by D a = true <-> exists i c, In i D /\ nth_error G i = Some c /\ holds (sh c) (sh a) = true.
Proof.
  unfold held_by. rewrite existsb_exists. split.
  - intros (i & Hi & H). destruct (nth_error G i) as [c|] eqn:E; [|discriminate]. eauto.
  - intros (i & c & Hi & E & H). exists i. rewrite E. auto.
Qed.
Lemma reduce_step D acc i a : (forall k, In k D -> exists a, nth_error G k = Some a /\ target (sh a) = true) -> after D acc ->
  nth_error G i = Some a -> target (sh a) = true -> ~ In i D -> exists acc', reduce inside not_of l acc i = Ok acc' /\ after (i :: D) acc'.
Proof.
  intros HD HA Hi Ht HiD. pose proof (proj1 HI) as HC. assert (Sa := shape_in (nth_error_In _ _ Hi)).
  assert (Hchild : forall j b, nth_error G j = Some b -> holds (sh a) (sh b) = true -> memb j D = false /\ held_by D b = false).
  { intros j b Hj H. assert (Sb := shape_in (nth_error_In _ _ Hj)). split.
    - apply memb_false. intros Hin. destruct (HD j Hin) as (b' & Hb' & Htb). rewrite Hj in Hb'. injection Hb' as <-. exact (good HC Hnum HL Sa Sb Ht H (target_branch Hnum Htb)).
    - apply Bool.not_true_iff_false. intros X. apply held_true in X as (i' & c & Hin & Hc & X). destruct (HD i' Hin) as (c' & Hc' & Htc). rewrite Hc in Hc'. injection Hc' as <-.
      assert (Sc := shape_in (nth_error_In _ _ Hc)). apply HiD. now rewrite (same_position Hi Hc (holder_unique HC Hnum HL Sa Sc Sb Ht Htc H X)). }
  assert (Hself : held_by D a = false).
  { apply Bool.not_true_iff_false. intros X. apply held_true in X as (i' & c & Hin & Hc & X). destruct (HD i' Hin) as (c' & Hc' & Htc). rewrite Hc in Hc'. injection Hc' as <-.
    exact (good HC Hnum HL (shape_in (nth_error_In _ _ Hc)) Sa Htc X (target_branch Hnum Ht)). }
  assert (Hacc : forall j b, nth_error G j = Some b -> holds (sh a) (sh b) = true -> acc j = Some (cur b)).
  { intros j b Hj H. rewrite (HA j b Hj). destruct (Hchild j b Hj H) as [-> ->]. reflexivity. }
  assert (Hi' : acc i = Some (cur a)).
  { rewrite (HA i a Hi), Hself. now rewrite (proj2 (memb_false i D) HiD). }
  unfold reduce. rewrite (@mapM_some _ acc).
  2:{ intros j Hj. apply (contained_spec j Hi) in Hj as (b & Hb & H). rewrite (Hacc j b Hb H). discriminate. }
  cbn [bind]. eexists. split; [reflexivity|]. intros k b Hk.
  assert (Hgather : flat_map (fun j => match acc j with Some r => [r] | None => [] end) (contained inside l i) = map cur (filter (fun b => holds (sh a) (sh b)) G)).
  { unfold contained. rewrite flat_filter, len_st.
    rewrite (@flat_map_in_ext _ _ _ (fun k => match nth_error G k with Some b => if holds (sh a) (sh b) then [cur b] else [] | None => [] end)).
    - rewrite (seq_flat (fun b => if holds (sh a) (sh b) then [cur b] else []) G). now rewrite map_flat, flat_filter.
    - intros j Hj. destruct (nth_seq Hj) as [c Hc]. rewrite Hc. rewrite (entry_spec Hi Hc). destruct (holds (sh a) (sh c)) eqn:E; cbn; [now rewrite (Hacc j c Hc E)|reflexivity]. }
  destruct (memb k (contained inside l i)) eqn:Ek.
  - apply memb_In in Ek. apply (contained_spec k Hi) in Ek as (b' & Hb' & H). rewrite Hk in Hb'. injection Hb' as <-.
    destruct (Hchild k b Hk H) as [M1 M2]. replace (memb k (i :: D)) with false.
    + cbn [held_by existsb]. unfold held_by. cbn [existsb]. rewrite Hi, H. reflexivity.
    + symmetry. unfold memb in *. cbn [existsb]. rewrite M1, orb_false_r. apply Nat.eqb_neq. intros ->. rewrite Hi in Hk. injection Hk as <-. rewrite (holds_irr HC Sa) in H. discriminate.
  - cbn [memb existsb]. unfold memb in *. cbn [existsb]. destruct (Nat.eqb_spec k i) as [E|E].
    + subst k. rewrite Hi in Hk. injection Hk as <-. cbn. rewrite Hi'. unfold newr. now rewrite Hgather.
    + cbn [orb]. rewrite (HA k b Hk). unfold memb. destruct (existsb (Nat.eqb k) D); [reflexivity|]. unfold held_by. cbn [existsb]. rewrite Hi.
      replace (holds (sh a) (sh b)) with false; [reflexivity|]. symmetry. apply Bool.not_true_iff_false. intros H.
      assert (In k (contained inside l i)) by (apply (contained_spec k Hi); eauto). apply memb_In in H0. unfold memb in H0. congruence.
Qed.
Lemma reduce_many ts : NoDup ts -> forall D acc, (forall k, In k D \/ In k ts -> exists a, nth_error G k = Some a /\ target (sh a) = true) -> (forall k, In k ts -> ~ In k D) -> after D acc ->
  exists acc', reduce_all inside not_of l acc ts = Ok acc' /\ after (rev ts ++ D) acc'.
Proof.
  induction 1 as [|i ts Hi Hts IH]; intros D acc HT HD HA; [exists acc; auto|].
  destruct (HT i) as (a & Ha & Ht); [right; now left|].
  destruct (@reduce_step D acc i a) as (acc1 & E1 & A1); auto; [apply HD; now left|].
  destruct (IH (i :: D) acc1) as (acc2 & E2 & A2); auto.
  - intros k [[<-|Hk]|Hk]; [eauto|apply HT; auto|apply HT; right; now right].
  - intros k Hk [<-|Hin]; [contradiction|]. apply (HD k); [now right|exact Hin].
  - exists acc2. split; [cbn; now rewrite E1|]. cbn. now rewrite <- app_assoc.
Qed.
(** the family after the round *)
Definition next : list item := flat_map (fun a => if target (sh a) then match newr a with Some r => [mkitem (tp a) (hull a) r] | None => [] end else if dropped (sh a) then [] else [a]) G.
Lemma dropped_held D : (forall k, In k D <-> In k (targets inside l num)) -> forall a, In a G -> held_by D a = dropped (sh a).
Proof.
  intros HD a Ha. apply Bool.eq_iff_eq_true. rewrite held_true, dropped_spec. split.
  - intros (i & c & Hi & Hc & H). apply HD in Hi. apply targets_spec in Hi as (c' & Hc' & Ht). rewrite Hc in Hc'. injection Hc' as <-. exists (sh c). repeat split; auto. apply shape_in. eapply nth_error_In; eauto.
  - intros (s & Hs & Ht & H). apply in_map_iff in Hs as (c & <- & Hc). apply In_nth_error in Hc as [i Hi]. exists i, c. repeat split; auto. apply HD. apply targets_spec. eauto.
Qed.
Lemma pass_spec : pass inside not_of l num = Ok (map st next).
Proof.
  unfold pass. destruct (@reduce_many (rev (targets inside l num))) with (D := @nil nat) (acc := fun k => option_map snd (nth_error l k)) as (acc & E & A).
  - apply NoDup_rev. apply NoDup_filter. apply seq_NoDup.
  - intros k [[]|Hk]. apply in_rev in Hk. now apply targets_spec in Hk.
  - intros k _ [].
  - intros k a Hk. rewrite nth_error_map, Hk. reflexivity.
  - rewrite rev_involutive, app_nil_r in A. rewrite E. cbn [bind]. f_equal. unfold survivors, next. rewrite len_st.
    rewrite (@flat_map_in_ext _ _ _ (fun k => match nth_error G k with Some a => if target (sh a) then match newr a with Some r => [(tp a, r)] | None => [] end else if dropped (sh a) then [] else [st a] | None => [] end)).
    + rewrite (seq_flat (fun a => if target (sh a) then match newr a with Some r => [(tp a, r)] | None => [] end else if dropped (sh a) then [] else [st a]) G).
      generalize target, dropped. intros f h. clear. induction G as [|a G' IH]; [reflexivity|]. cbn. rewrite map_app, IH. f_equal. destruct (f (sh a)); [destruct (newr a); reflexivity|destruct (h (sh a)); reflexivity].
    + intros k Hk. destruct (nth_seq Hk) as [a Ha]. rewrite nth_error_map, Ha. cbn [option_map]. unfold st at 1. rewrite (A k a Ha).
      assert (T : memb k (targets inside l num) = target (sh a)).
      { apply Bool.eq_iff_eq_true. rewrite memb_In, targets_spec. split; [intros (b & Hb & H); rewrite Ha in Hb; injection Hb as <-; exact H|eauto]. }
      rewrite T. rewrite (@dropped_held (targets inside l num) (fun k => iff_refl _) a (nth_error_In _ _ Ha)). destruct (target (sh a)); [reflexivity|]. destruct (dropped (sh a)); reflexivity.
Qed.
End State.
End Region.
