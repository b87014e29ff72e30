(** Lemmas about the simulation cache. *)
From Verif Require Import Base SimCache_Model SimCache_Spec.
Set Implicit Arguments.

Section Cache.
Variables K F : Type.
Variable keq : K -> K -> bool.
Variable solver : K -> res F.
Notation search := (@search K F keq).
Notation simulate := (simulate keq solver).
Notation simulate_all := (simulate_all keq solver).
Notation cache := (cache K F).

(** *** transparency: needs only that equal keys are the same structure *)
Section Sound.
Hypothesis keq_sound : forall a b, keq a b = true -> a = b.
Definition faithful (c : cache) : Prop := forall z f, In (Some (z, f)) c -> solver z = Ok f.
Lemma search_spec z : forall c f c', search z c = Some (f, c') ->
  exists c1 c2, c = c1 ++ Some (z, f) :: c2 /\ c' = c1 ++ c2.
Proof.
  induction c as [|[[z' f']|] c IH]; intros f c' H; simpl in H; [discriminate| |].
  - destruct (keq z z') eqn:Ek.
    + apply keq_sound in Ek as <-. injection H as <- <-. exists [], c. auto.
    + destruct (search z c) as [[f0 r]|]; [|discriminate]. injection H as <- <-.
      destruct (IH f0 r eq_refl) as (c1 & c2 & -> & ->). exists (Some (z', f') :: c1), c2. auto.
  - destruct (search z c) as [[f0 r]|]; [|discriminate]. injection H as <- <-.
    destruct (IH f0 r eq_refl) as (c1 & c2 & -> & ->). exists (None :: c1), c2. auto.
Qed.
Lemma simulate_spec c z : faithful c -> c <> [] ->
  let '(c', r, b) := simulate c z in r = solver z /\ faithful c' /\ length c' = length c.
Proof.
  intros Hc Hne. unfold SimCache_Model.simulate. destruct (search z c) as [[f c']|] eqn:Es.
  - apply search_spec in Es as (c1 & c2 & -> & ->). split; [|split].
    + symmetry. apply Hc. apply in_app_iff. right. now left.
    + intros z' f' H. rewrite <- app_assoc in H. apply in_app_iff in H as [H|H]; [apply Hc, in_app_iff; auto|].
      apply in_app_iff in H as [H|[H|[]]]; apply Hc, in_app_iff; right; [now right|]. left. assumption.
    + rewrite !app_length. simpl. lia.
  - destruct (solver z) as [f|e] eqn:Ez; [|auto]. destruct c as [|e c']; [congruence|]. simpl. split; [reflexivity|split].
    + intros z' f' H. apply in_app_iff in H as [H|[H|[]]]; [apply Hc; now right|]. now injection H as <- <-.
    + rewrite app_length. simpl. lia.
Qed.
Lemma simulate_all_spec : forall zs c, faithful c -> c <> [] ->
  map fst (snd (simulate_all c zs)) = map solver zs /\
  faithful (fst (simulate_all c zs)) /\ length (fst (simulate_all c zs)) = length c.
Proof.
  induction zs as [|z zs IH]; intros c Hc Hne; simpl; [auto|].
  pose proof (@simulate_spec c z Hc Hne) as H. destruct (simulate c z) as [[c1 r] b]. destruct H as (-> & H1 & H2).
  assert (Hne1 : c1 <> []) by (destruct c1, c; simpl in *; congruence).
  destruct (IH c1 H1 Hne1) as (A1 & A2 & A3). destruct (simulate_all c1 zs) as [c2 rs]. simpl in *.
  rewrite A1. split; [reflexivity|]. split; [assumption|]. congruence.
Qed.
Lemma faithful_empty n : faithful (empty_cache K F n).
Proof. intros z f H. apply repeat_spec in H. discriminate. Qed.
Lemma empty_ne n : 1 <= n -> empty_cache K F n <> [].
Proof. destruct n; [lia|discriminate]. Qed.
Lemma cache_transparent_pf n zs : 1 <= n ->
  map fst (snd (simulate_all (empty_cache K F n) zs)) = map solver zs.
Proof. intros H. apply simulate_all_spec; [apply faithful_empty|now apply empty_ne]. Qed.
Lemma cache_size_pf n zs : 1 <= n -> length (fst (simulate_all (empty_cache K F n) zs)) = n.
Proof.
  intros H. destruct (@simulate_all_spec zs (empty_cache K F n) (@faithful_empty n) (empty_ne H)) as (_ & _ & ->).
  apply repeat_length.
Qed.
End Sound.
Lemma cache_size_zero_pf z f : solver z = Ok f -> snd (fst (simulate (empty_cache K F 0) z)) = Err IndexError.
Proof. intros H. unfold SimCache_Model.simulate. simpl. rewrite H. reflexivity. Qed.

(** *** exact LRU behaviour *)
Section LRU.
Hypothesis keq_spec : forall a b, keq a b = true <-> a = b.
Notation lru := (lru keq solver).
Notation by_last_use := (by_last_use keq).

Lemma existsb_keq x l : existsb (keq x) l = true <-> In x l.
Proof.
  rewrite existsb_exists. split.
  - intros (y & Hy & E). apply keq_spec in E as ->. assumption.
  - intros H. exists x. split; [assumption|]. now apply keq_spec.
Qed.
Lemma by_last_use_In x l : In x (by_last_use l) <-> In x l.
Proof.
  induction l as [|y l IH]; simpl; [tauto|]. destruct (existsb (keq y) l) eqn:Ey.
  - apply existsb_keq in Ey. rewrite IH. split; [auto|]. intros [->|H]; assumption.
  - simpl. now rewrite IH.
Qed.
Lemma by_last_use_NoDup l : NoDup (by_last_use l).
Proof.
  induction l as [|y l IH]; simpl; [constructor|]. destruct (existsb (keq y) l) eqn:Ey; [assumption|].
  constructor; [|assumption]. rewrite by_last_use_In. rewrite <- existsb_keq. congruence.
Qed.
Definition removek (z : K) (l : list K) : list K := filter (fun x => negb (keq z x)) l.
Lemma removek_notin z l : ~ In z l -> removek z l = l.
Proof.
  induction l as [|y l IH]; simpl; [reflexivity|]. intros H. destruct (keq z y) eqn:Ey.
  - apply keq_spec in Ey as ->. tauto.
  - simpl. rewrite IH by tauto. reflexivity.
Qed.
Lemma removek_app z a b : removek z (a ++ b) = removek z a ++ removek z b.
Proof. unfold removek. apply filter_app. Qed.
Lemma removek_mid z a b : ~ In z a -> ~ In z b -> removek z (a ++ z :: b) = a ++ b.
Proof.
  intros Ha Hb. rewrite removek_app. simpl. rewrite (proj2 (keq_spec z z) eq_refl). simpl.
  now rewrite !removek_notin.
Qed.
Lemma by_last_use_snoc : forall l z, by_last_use (l ++ [z]) = removek z (by_last_use l) ++ [z].
Proof.
  induction l as [|y l IH]; intros z; simpl; [reflexivity|]. rewrite IH.
  destruct (existsb (keq y) l) eqn:Ey.
  - assert (existsb (keq y) (l ++ [z]) = true) as -> by (apply existsb_keq, in_app_iff; left; now apply existsb_keq).
    reflexivity.
  - destruct (keq z y) eqn:Ez.
    + apply keq_spec in Ez as ->.
      assert (existsb (keq y) (l ++ [y]) = true) as -> by (apply existsb_keq, in_app_iff; right; now left).
      unfold removek at 2. cbn [filter]. rewrite (proj2 (keq_spec y y) eq_refl). reflexivity.
    + assert (existsb (keq y) (l ++ [z]) = false) as ->.
      { destruct (existsb (keq y) (l ++ [z])) eqn:E2; [|reflexivity]. apply existsb_keq, in_app_iff in E2.
        destruct E2 as [E2|[->|[]]].
        - apply existsb_keq in E2. congruence.
        - assert (keq y y = true) by now apply keq_spec. congruence. }
      unfold removek. cbn [filter]. rewrite Ez. reflexivity.
Qed.
Lemma filter_solvable_snoc hist z : filter (solvable solver) (hist ++ [z]) =
  if solvable solver z then filter (solvable solver) hist ++ [z] else filter (solvable solver) hist.
Proof. rewrite filter_app. simpl. destruct (solvable solver z); [reflexivity|apply app_nil_r]. Qed.

Lemma lastn_all {A} n (l : list A) : length l <= n -> lastn n l = l.
Proof. intros H. unfold lastn. replace (length l - n) with 0 by lia. reflexivity. Qed.
Lemma lastn_app {A} n (a b : list A) : length b = n -> lastn n (a ++ b) = b.
Proof.
  intros H. unfold lastn. rewrite app_length. replace (length a + length b - n) with (length a) by lia.
  rewrite skipn_app, skipn_all, Nat.sub_diag. reflexivity.
Qed.
(** the list is [P ++ lastn], with [P] empty unless the last part is full *)
Lemma lastn_split {A} n (l : list A) : exists p, l = p ++ lastn n l /\ (p <> [] -> length (lastn n l) = n) /\
  length (lastn n l) <= n.
Proof.
  exists (firstn (length l - n) l). unfold lastn. split; [symmetry; apply firstn_skipn|].
  rewrite skipn_length. split; [|lia]. intros H. destruct (le_lt_dec (length l) n) as [Hl|Hl]; [|lia].
  replace (length l - n) with 0 in H by lia. simpl in H. congruence.
Qed.

(** the cache entry of a structure *)
Definition entry (z : K) : option (K * F) := match solver z with Ok f => Some (z, f) | Err _ => None end.
Definition lru_cache (n : nat) (L : list K) : cache := repeat None (n - length L) ++ map entry L.
Lemma search_nones z : forall k c, search z (repeat None k ++ c) =
  match search z c with Some (f, r) => Some (f, repeat None k ++ r) | None => None end.
Proof.
  induction k as [|k IH]; intros c; simpl; [now destruct (search z c) as [[f r]|]|].
  rewrite IH. destruct (search z c) as [[f r]|]; reflexivity.
Qed.
Lemma search_entries z : forall L, (forall x, In x L -> solvable solver x = true) ->
  (~ In z L /\ search z (map entry L) = None) \/
  (exists L1 L2 f, L = L1 ++ z :: L2 /\ ~ In z L1 /\ solver z = Ok f /\ search z (map entry L) = Some (f, map entry (L1 ++ L2))).
Proof.
  induction L as [|y L IH]; intros HL; cbn [map]; [left; auto|].
  assert (Hy : exists fy, solver y = Ok fy).
  { specialize (HL y (or_introl eq_refl)). unfold solvable in HL. destruct (solver y); [eauto|discriminate]. }
  destruct Hy as [fy Hy]. assert (He : entry y = Some (y, fy)) by (unfold entry; now rewrite Hy).
  rewrite He. cbn [SimCache_Model.search]. destruct (keq z y) eqn:Ez.
  - apply keq_spec in Ez as <-. right. exists [], L, fy. auto.
  - assert (Hne : z <> y) by (intros ->; assert (keq y y = true) by (now apply keq_spec); congruence).
    destruct IH as [[Hn Hs]|(L1 & L2 & f & -> & Hn & Hf & Hs)]; [intros; apply HL; now right| |].
    + left. rewrite Hs. split; [|reflexivity]. simpl. intuition.
    + right. exists (y :: L1), L2, f. rewrite Hs. split; [reflexivity|]. split; [simpl; intuition|].
      split; [assumption|]. cbn [app map]. now rewrite He.
Qed.
Lemma simulate_lru n hist z : 1 <= n ->
  let '(c', r, b) := simulate (lru_cache n (lru n hist)) z in
  c' = lru_cache n (lru n (hist ++ [z])) /\ b = negb (existsb (keq z) (lru n hist)).
Proof.
  intros Hn. unfold SimCache_Model.simulate. unfold lru_cache at 1 2 3. rewrite search_nones.
  set (N := by_last_use (filter (solvable solver) hist)).
  assert (HN : NoDup N) by apply by_last_use_NoDup.
  assert (HNs : forall x, In x N -> solvable solver x = true).
  { intros x Hx. apply by_last_use_In, filter_In in Hx. tauto. }
  assert (HL : lru n hist = lastn n N) by reflexivity. rewrite HL.
  destruct (lastn_split n N) as (P & HP & Hfull & Hle). set (L := lastn n N) in *.
  assert (HLs : forall x, In x L -> solvable solver x = true).
  { intros x Hx. apply HNs. rewrite HP. apply in_app_iff. auto. }
  assert (Hnext : solvable solver z = true -> lru n (hist ++ [z]) = lastn n (removek z N ++ [z])).
  { intros Hz. unfold SimCache_Spec.lru. rewrite filter_solvable_snoc, Hz. now rewrite by_last_use_snoc. }
  destruct (search_entries z L HLs) as [[Hno Hs]|(L1 & L2 & f & HL12 & Hno1 & Hf & Hs)]; rewrite Hs.
  - assert (Hex : existsb (keq z) L = false).
    { destruct (existsb (keq z) L) eqn:Ee; [|reflexivity]. apply existsb_keq in Ee. contradiction. }
    rewrite Hex. destruct (solver z) as [f|e] eqn:Ez.
    + assert (Hz : solvable solver z = true) by (unfold solvable; now rewrite Ez). rewrite (Hnext Hz).
      assert (Hent : Some (z, f) = entry z) by (unfold entry; now rewrite Ez).
      destruct (le_lt_dec n (length L)) as [Hl|Hl].
      * (* full *) assert (length L = n) as Hlen by lia. replace (n - length L) with 0 by lia. cbn [repeat app].
        destruct L as [|y L']; [simpl in Hlen; lia|]. cbn [map del0]. split; [|reflexivity].
        assert (Hrm : removek z N ++ [z] = (removek z P ++ [y]) ++ (L' ++ [z])).
        { rewrite HP, removek_app, (@removek_notin z (y :: L')) by assumption. now rewrite <- !app_assoc. }
        rewrite Hrm, lastn_app by (rewrite app_length; simpl in *; lia).
        unfold lru_cache. rewrite app_length. simpl in Hlen. simpl.
        replace (n - (length L' + 1)) with 0 by lia. cbn [repeat app]. rewrite map_app. simpl. now rewrite Hent.
      * (* not full *) assert (P = []) as ->.
        { destruct P; [reflexivity|]. assert (length L = n) by (apply Hfull; discriminate). lia. }
        simpl in HP. rewrite HP, (@removek_notin z L) by assumption.
        destruct (n - length L) as [|k] eqn:Ek; [lia|]. cbn [repeat app del0]. split; [|reflexivity].
        rewrite lastn_all by (rewrite app_length; simpl; lia). unfold lru_cache. rewrite app_length. simpl.
        replace (n - (length L + 1)) with k by lia. rewrite map_app, <- app_assoc. simpl. now rewrite Hent.
    + assert (Hz : solvable solver z = false) by (unfold solvable; now rewrite Ez). split; [|reflexivity].
      unfold SimCache_Spec.lru. rewrite filter_solvable_snoc, Hz. reflexivity.
  - assert (Hex : existsb (keq z) L = true) by (apply existsb_keq; rewrite HL12; apply in_app_iff; right; now left).
    rewrite Hex. split; [|reflexivity].
    assert (Hz : solvable solver z = true) by (unfold solvable; now rewrite Hf). rewrite (Hnext Hz).
    assert (Hent : Some (z, f) = entry z) by (unfold entry; now rewrite Hf).
    assert (Hrm : removek z N ++ [z] = P ++ (L1 ++ L2 ++ [z])).
    { rewrite HP in *. rewrite HL12 in *. rewrite app_assoc in HN. apply NoDup_remove_2 in HN.
      rewrite !app_assoc, <- (app_assoc P L1 L2), <- (app_assoc P), (app_assoc P L1).
      rewrite removek_mid; [now rewrite <- !app_assoc| |].
      - intros H. apply HN. rewrite !in_app_iff in *. tauto.
      - intros H. apply HN. rewrite !in_app_iff in *. tauto. }
    rewrite Hrm.
    assert (Hlen : length (L1 ++ L2 ++ [z]) = length L) by (rewrite HL12, !app_length; simpl; lia).
    assert (Hlast : lastn n (P ++ L1 ++ L2 ++ [z]) = L1 ++ L2 ++ [z]).
    { destruct P as [|p P]; [simpl; apply lastn_all; lia|]. apply lastn_app. rewrite Hlen. apply Hfull. discriminate. }
    rewrite Hlast. unfold lru_cache. rewrite Hlen, <- app_assoc. f_equal.
    rewrite !map_app. simpl. now rewrite Hent, app_assoc.
Qed.
Lemma simulate_all_lru n : 1 <= n -> forall zs hist,
  let x := simulate_all (lru_cache n (lru n hist)) zs in
  fst x = lru_cache n (lru n (hist ++ zs)) /\
  forall i z, nth_error zs i = Some z -> exists r, nth_error (snd x) i = Some (r, negb (existsb (keq z) (lru n (hist ++ firstn i zs)))).
Proof.
  intros Hn. induction zs as [|z zs IH]; intros hist; cbn [SimCache_Model.simulate_all].
  - rewrite app_nil_r. split; [reflexivity|]. intros [|i] z H; discriminate.
  - pose proof (@simulate_lru n hist z Hn) as H. destruct (simulate (lru_cache n (lru n hist)) z) as [[c1 r] b].
    destruct H as [-> ->]. specialize (IH (hist ++ [z])). cbv zeta in IH.
    destruct (simulate_all (lru_cache n (lru n (hist ++ [z]))) zs) as [c2 rs]. simpl in IH. destruct IH as [H1 H2].
    rewrite <- app_assoc in H1. split; [exact H1|]. intros [|i] z' Hi; simpl in Hi.
    + injection Hi as <-. exists r. simpl. now rewrite app_nil_r.
    + destruct (H2 i z' Hi) as [r' Hr]. exists r'. cbn [snd nth_error firstn]. now rewrite <- app_assoc in Hr.
Qed.
Lemma keys_lru_cache n L : (forall x, In x L -> solvable solver x = true) -> keys (lru_cache n L) = L.
Proof.
  intros HL. unfold lru_cache. generalize (n - length L). intros k. induction k as [|k IH]; simpl; [|assumption].
  induction L as [|x L IH]; simpl; [reflexivity|]. unfold entry at 1.
  specialize (HL x (or_introl eq_refl)) as Hx. unfold solvable in Hx. destruct (solver x); [|discriminate].
  f_equal. apply IH. intros; apply HL. now right.
Qed.
Lemma cache_lru_pf n zs : 1 <= n ->
  keys (fst (simulate_all (empty_cache K F n) zs)) = lru n zs.
Proof.
  intros Hn. destruct (@simulate_all_lru n Hn zs []) as [H _]. cbn [app] in H.
  replace (lru_cache n (lru n [])) with (empty_cache K F n) in H.
  - rewrite H. apply keys_lru_cache. intros x Hx. unfold SimCache_Spec.lru in Hx.
    destruct (lastn_split n (by_last_use (filter (solvable solver) zs))) as (P & HP & _).
    assert (In x (by_last_use (filter (solvable solver) zs))) as Hx' by (rewrite HP; apply in_app_iff; auto).
    apply by_last_use_In, filter_In in Hx'. tauto.
  - unfold lru_cache, SimCache_Spec.lru. simpl. unfold empty_cache. rewrite app_nil_r. now rewrite Nat.sub_0_r.
Qed.
Lemma solver_calls_pf n zs i z r b : 1 <= n -> nth_error zs i = Some z ->
  nth_error (snd (simulate_all (empty_cache K F n) zs)) i = Some (r, b) ->
  b = true <-> ~ In z (lru n (firstn i zs)).
Proof.
  intros Hn Hz Hr. destruct (@simulate_all_lru n Hn zs []) as [_ H]. cbn [app] in H.
  replace (lru_cache n (lru n [])) with (empty_cache K F n) in H.
  - destruct (H i z Hz) as [r' Hr']. rewrite Hr in Hr'. injection Hr' as <- ->.
    rewrite <- existsb_keq. destruct (existsb (keq z) (lru n (firstn i zs))); simpl; split; congruence.
  - unfold lru_cache, SimCache_Spec.lru. simpl. unfold empty_cache. rewrite app_nil_r. now rewrite Nat.sub_0_r.
Qed.
End LRU.
End Cache.
