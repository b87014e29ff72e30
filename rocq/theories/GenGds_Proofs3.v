(** The export gives the even-odd filling of the contours. *)
From Verif Require Import QTac GenGds_Model GenGds_Spec GenGds_Proofs GenGds_Proofs2.
Set Implicit Arguments.
Unset Strict Implicit.

Lemma bx_flat {A B} (f : B -> bool) (F : A -> list B) l : bx f (flat_map F l) = bx (fun a => bx f (F a)) l.
Proof.
  assert (E : forall l1 l2, bx f (l1 ++ l2) = xorb (bx f l1) (bx f l2)).
  { induction l1 as [|b l1 IH]; intros l2; [cbn; now destruct (bx f l2)|]. cbn. rewrite IH. now rewrite xorb_assoc. }
  induction l as [|a l IH]; [reflexivity|]. cbn. now rewrite E, IH.
Qed.
Lemma odd_bx {A} (f : A -> bool) l : Nat.odd (length (filter f l)) = bx f l.
Proof.
  induction l as [|a l IH]; [reflexivity|]. cbn. destruct (f a); cbn [xorb length]; [rewrite Nat.odd_succ, <- Nat.negb_odd, IH; now destruct (bx f l)|rewrite IH; now destruct (bx f l)].
Qed.
Lemma fop_unique {A} (f : A -> bool) l : ForallOrdPairs (fun a b => f a = true -> f b = true -> False) l -> length (filter f l) = if existsb f l then 1%nat else 0%nat.
Proof.
  induction 1 as [|a l Ha Hl IH]; [reflexivity|]. cbn. destruct (f a) eqn:E; [|exact IH]. cbn. f_equal. rewrite (@filter_nil _ f l); [reflexivity|].
  intros x Hx. rewrite Forall_forall in Ha. apply Bool.not_true_iff_false. intros Hf. exact (Ha x Hx eq_refl Hf).
Qed.
Lemma fop_map_inv {A B} (P : B -> B -> Prop) (f : A -> B) l : ForallOrdPairs (fun a b => P (f a) (f b)) l -> ForallOrdPairs P (map f l).
Proof. induction 1 as [|a l Ha Hl IH]; cbn; constructor; [now apply Forall_map|exact IH]. Qed.

Section Region.
Variable region : Type.
Variable inside : (Q * Q) -> region -> bool.
Variable not_of : option region -> list region -> option region.
Hypothesis Hnot : exact_not inside not_of.
Local Notation item := (item region).
Local Notation holds := (holds inside).
Local Notation contours := (contours inside).
Local Notation branch := (branch inside).
Local Notation inv := (inv inside).
Definition parity (x : Q * Q) (G : list item) : bool := bx (fun a => inside x (cur a)) G.

Section State.
Variable G : list item.
Hypothesis HI : inv G.
Variable num : nat.
Local Notation S := (map (@sh region) G).
Hypothesis Hnum : (1 <= num)%nat.
Hypothesis HL : at_least inside S num.
Local Notation target := (target inside S num).
Local Notation dropped := (dropped inside S num).
Local Notation newr := (newr inside not_of G).
Local Notation next := (next inside not_of G num).
Local Notation kids a := (filter (fun b => holds (sh a) (sh b)) G).

Lemma newr_spec a : In a G -> exists r, newr a = Some r /\ forall x, inside x r = inside x (cur a) && negb (existsb (fun b => holds (sh a) (sh b) && inside x (cur b)) G).
Proof.
  intros Ha. destruct (proj2 HI a Ha) as (A1 & _ & _). destruct (@Hnot (cur a) (map (@cur region) (kids a))) as (r & Hr & E).
  { exists (tp a). split; [exact A1|]. intros s Hs. apply in_map_iff in Hs as (b & <- & Hb). apply filter_In in Hb as [Hb H].
    unfold GenGds_Spec.holds in H. apply andb_prop in H as [_ H]. apply negb_true_iff in H. cbn in H. apply Bool.not_true_iff_false. intros X. apply (proj2 HI b Hb) in X. congruence. }
  exists r. split; [exact Hr|]. intros x. rewrite E. f_equal. f_equal. clear.
  induction G as [|b l IH]; [reflexivity|]. cbn [filter existsb]. destruct (holds (sh a) (sh b)); cbn [map existsb andb]; [now rewrite IH|exact IH].
Qed.
Lemma next_in c : In c next -> exists a, In a G /\ sh c = sh a /\ dropped (sh a) = false /\
  ((target (sh a) = true /\ newr a = Some (cur c)) \/ (target (sh a) = false /\ c = a)).
Proof.
  intros H. apply in_flat_map in H as (a & Ha & H). exists a. split; [exact Ha|]. destruct (target (sh a)) eqn:T.
  - destruct (newr a) as [r|] eqn:N; [|contradiction]. destruct H as [<-|[]]. split; [reflexivity|]. split; [exact (target_kept (proj1 HI) Hnum HL (shape_in Ha) T)|]. left. split; [reflexivity|reflexivity].
  - destruct (dropped (sh a)) eqn:D; [contradiction|]. destruct H as [<-|[]]. auto.
Qed.
Lemma next_shapes : map (@sh region) next = rest inside S num.
Proof.
  unfold GenGds_Proofs2.next, rest. rewrite map_flat. 
  assert (E : forall l, (forall a, In a l -> In a G) -> flat_map (fun c => [sh c]) (flat_map (fun a => if target (sh a) then match newr a with Some r => [mkitem (tp a) (hull a) r] | None => [] end else if dropped (sh a) then [] else [a]) l) = filter (fun b => negb (dropped b)) (map (@sh region) l)).
  { induction l as [|a l IH]; intros H; [reflexivity|]. cbn [flat_map map filter]. rewrite flat_map_app, IH by (intros; apply H; now right).
    assert (Ha := H a (or_introl eq_refl)). destruct (target (sh a)) eqn:T.
    - rewrite (target_kept (proj1 HI) Hnum HL (shape_in Ha) T). destruct (newr_spec Ha) as (r & -> & _). reflexivity.
    - destruct (dropped (sh a)); reflexivity. }
  apply E. auto.
Qed.
Lemma next_inv : inv next.
Proof.
  pose proof (proj1 HI) as HC. split; [rewrite next_shapes; now apply rest_contours|]. intros c Hc. rewrite next_shapes. destruct (next_in Hc) as (a & Ha & Hs & Hd & [[T N]|[T E]]).
  - injection Hs as Ht Hh. rewrite Hh, Ht. destruct (newr_spec Ha) as (r & Hr & E). rewrite N in Hr. injection Hr as Hr. rewrite Hr.
    destruct (proj2 HI a Ha) as (A1 & A2 & A3). repeat split.
    + rewrite E, A1. cbn. apply negb_true_iff. apply Bool.not_true_iff_false. intros X. apply existsb_exists in X as (b & Hb & X). apply andb_prop in X as [X1 X2]. apply (proj2 HI b Hb) in X2.
      unfold GenGds_Spec.holds in X1. apply andb_prop in X1 as [_ X1]. cbn in X1. rewrite X2 in X1. discriminate.
    + intros x Hx. rewrite E in Hx. apply andb_prop in Hx as [Hx _]. auto.
    + right. replace (sh c) with (sh a) by (unfold sh; congruence). exact (target_leaf (shape_in Ha) T).
  - subst c. destruct (proj2 HI a Ha) as (A1 & A2 & A3). repeat split; auto. destruct A3 as [A3|A3]; [now left|right]. intros B. apply A3. exact (rest_branch B).
Qed.
Lemma next_parity x : parity x next = parity x G.
Proof.
  pose proof (proj1 HI) as HC. unfold parity, GenGds_Proofs2.next. rewrite bx_flat.
  rewrite (@bx_ext _ _ (fun a => xorb (negb (dropped (sh a)) && inside x (cur a)) (bx (fun b => target (sh a) && holds (sh a) (sh b) && inside x (cur b)) G))).
  - rewrite bx_xor. rewrite (bx_swap (fun a b => target (sh a) && holds (sh a) (sh b) && inside x (cur b)) G G). rewrite <- bx_xor. apply bx_ext. intros b Hb. rewrite bx_and.
    replace (bx (fun a => target (sh a) && holds (sh a) (sh b)) G) with (dropped (sh b)); [destruct (dropped (sh b)), (inside x (cur b)); reflexivity|].
    symmetry. rewrite bx_exists.
    + unfold GenGds_Proofs.dropped. clear. generalize target. intros f. induction G as [|a l IH]; [reflexivity|]. cbn. now rewrite IH.
    + assert (P : ForallOrdPairs (fun a b => related inside (sh a) (sh b)) G) by (apply fop_map; exact (proj2 HC)).
      eapply fop_impl; [exact P|]. cbv beta. intros a a' Ha Ha' R H1 H2. apply andb_prop in H1 as [T1 H1], H2 as [T2 H2].
      pose proof (holder_unique HC Hnum HL (shape_in Ha) (shape_in Ha') (shape_in Hb) T1 T2 H1 H2) as E. rewrite <- E in R.
      pose proof (own HC (shape_in Ha)) as O. destruct R as [[_ R]|[[_ R]|R]]; [congruence|congruence|]. specialize (R _ O). congruence.
  - intros a Ha. destruct (target (sh a)) eqn:T.
    + rewrite (target_kept HC Hnum HL (shape_in Ha) T). destruct (newr_spec Ha) as (r & -> & E). cbn [bx xorb]. rewrite E. cbn [negb andb cur].
      assert (K : bx (fun b => holds (sh a) (sh b) && inside x (cur b)) G = existsb (fun b => holds (sh a) (sh b) && inside x (cur b)) G).
      { apply bx_exists. assert (P : ForallOrdPairs (fun a b => related inside (sh a) (sh b)) G) by (apply fop_map; exact (proj2 HC)).
        eapply fop_impl; [exact P|]. cbv beta. intros b c Hb Hc R H1 H2. apply andb_prop in H1 as [K1 H1], H2 as [K2 H2]. apply (proj2 HI b Hb) in H1. apply (proj2 HI c Hc) in H2.
        destruct R as [R|[R|R]].
        - apply (good HC Hnum HL (shape_in Ha) (shape_in Hb) T K1). exists (sh c). split; [now apply shape_in|]. apply (within_holds HC); [now apply shape_in|exact R].
        - apply (good HC Hnum HL (shape_in Ha) (shape_in Hc) T K2). exists (sh b). split; [now apply shape_in|]. apply (within_holds HC); [now apply shape_in|exact R].
        - specialize (R x H1). cbn in R. congruence. }
      rewrite K. destruct (existsb _ G) eqn:X; [|now destruct (inside x (cur a))].
      apply existsb_exists in X as (b & Hb & X). apply andb_prop in X as [X1 X2]. apply (proj2 HI b Hb) in X2.
      assert (Y : inside x (cur a) = true).
      { destruct (proj2 HI a Ha) as (_ & _ & [A3|A3]); [|destruct A3; exact (target_branch Hnum T)]. rewrite A3. destruct (holds_within HC (shape_in Ha) (shape_in Hb) X1) as [W _]. now apply W. }
      rewrite Y. reflexivity.
    + destruct (dropped (sh a)) eqn:D; cbn [negb andb bx]; rewrite bx_false; [reflexivity|]. reflexivity.
Qed.
Lemma next_shorter : targets inside (map (@st region) G) num <> [] -> (length next < length G)%nat.
Proof.
  intros H. destruct (targets inside (map (@st region) G) num) as [|k ts] eqn:E; [congruence|]. assert (Hk : In k (targets inside (map (@st region) G) num)) by (rewrite E; now left).
  apply (targets_spec HI Hnum) in Hk as (a & Ha & T). rewrite <- (map_length (@sh region) next), next_shapes. rewrite <- (map_length (@sh region) G).
  exact (rest_shorter Hnum (shape_in (nth_error_In _ _ Ha)) T).
Qed.
End State.

Lemma rounds_spec num : (1 <= num)%nat -> forall fuel G, inv G -> at_least inside (map (@sh region) G) num -> outer_have_more inside (map (@sh region) G) -> (length G <= fuel)%nat ->
  exists G', rounds inside not_of fuel num (map (@st region) G) = Ok (map (@st region) G') /\ inv G' /\ at_least inside (map (@sh region) G') num /\ outer_have_more inside (map (@sh region) G') /\
    (forall a, In a (map (@sh region) G') -> target inside (map (@sh region) G') num a = false) /\ (forall x, parity x G' = parity x G) /\ (length G' <= length G)%nat.
Proof.
  intros Hnum. induction fuel as [|f IH]; intros G HI HL HM Hf.
  - destruct G; [|cbn in Hf; lia]. refine (ex_intro _ [] (conj eq_refl (conj HI (conj HL (conj HM (conj _ (conj (fun x => eq_refl) (le_n _)))))))). intros a [].
  - cbn [rounds]. destruct (targets inside (map (@st region) G) num) as [|k ts] eqn:E.
    + refine (ex_intro _ G (conj eq_refl (conj HI (conj HL (conj HM (conj _ (conj (fun x => eq_refl) (le_n _)))))))). intros s Hs. apply in_map_iff in Hs as (a & <- & Ha). apply Bool.not_true_iff_false. intros T.
      apply In_nth_error in Ha as [k Hk]. assert (In k (targets inside (map (@st region) G) num)) by (apply (targets_spec HI Hnum); eauto). rewrite E in H. contradiction.
    + rewrite (pass_spec not_of HI Hnum HL). cbn [bind]. assert (Hn : (length (next inside not_of G num) < length G)%nat) by (apply next_shorter; auto; rewrite E; discriminate).
      destruct (IH (next inside not_of G num)) as (G' & H1 & H2 & H3 & H4 & H5 & H6 & H7).
      * now apply next_inv.
      * rewrite next_shapes by auto. apply rest_at_least; auto. apply HI.
      * rewrite next_shapes by auto. apply rest_more; auto. apply HI.
      * lia.
      * refine (ex_intro _ G' (conj H1 (conj H2 (conj H3 (conj H4 (conj H5 (conj _ _))))))); [|lia]. intros x. rewrite H6. now apply next_parity.
Qed.
Lemma sum_zero G : inv G -> zsum (map (overlap inside (map (@st region) G)) (seq 0 (length (map (@st region) G)))) = 0%Z -> forall a, In a (map (@sh region) G) -> ~ branch (map (@sh region) G) a.
Proof.
  intros HI HZ s Hs (b & Hb & H). apply in_map_iff in Hs as (a & <- & Ha). apply In_nth_error in Ha as [k Hk].
  assert (P : Forall (fun z => 0 <= z)%Z (map (overlap inside (map (@st region) G)) (seq 0 (length (map (@st region) G))))).
  { apply Forall_map. apply Forall_forall. intros i Hi. rewrite map_length in Hi. destruct (nth_seq Hi) as [c Hc]. rewrite (overlap_spec HI Hc). lia. }
  apply zsum_zero in HZ; [|exact P]. rewrite Forall_map, Forall_forall in HZ. specialize (HZ k). rewrite (overlap_spec HI Hk) in HZ.
  assert (Hk' : In k (seq 0 (length (map (@st region) G)))).
  { apply in_seq. rewrite map_length. assert (nth_error G k <> None) by congruence. apply nth_error_Some in H0. lia. }
  specialize (HZ Hk'). assert (N := @filter_some _ _ _ _ Hb H). destruct (filter (holds (sh a)) (map (@sh region) G)); [congruence|cbn in HZ; lia].
Qed.
Lemma sum_zero_conv G : inv G -> (forall a, In a (map (@sh region) G) -> ~ branch (map (@sh region) G) a) -> zsum (map (overlap inside (map (@st region) G)) (seq 0 (length (map (@st region) G)))) = 0%Z.
Proof.
  intros HI HN. rewrite map_length. assert (E : forall l, (forall i, In i l -> In i (seq 0 (length G))) -> zsum (map (overlap inside (map (@st region) G)) l) = 0%Z); [|now apply E].
  induction l as [|i l IH]; intros H; [reflexivity|]. cbn [map zsum fold_right]. fold (zsum (map (overlap inside (map (@st region) G)) l)). rewrite IH by (intros; apply H; now right).
  destruct (nth_seq (H i (or_introl eq_refl))) as [a Ha]. rewrite (overlap_spec HI Ha). rewrite filter_nil; [reflexivity|]. intros b Hb. apply Bool.not_true_iff_false. intros X.
  apply (HN (sh a)); [apply shape_in; eapply nth_error_In; eauto|]. now exists b.
Qed.
Lemma deembed_spec : forall fuel num G, inv G -> at_least inside (map (@sh region) G) (num + 1) -> outer_have_more inside (map (@sh region) G) -> (length G + 1 - num + length G <= fuel)%nat ->
  exists G', deembed inside not_of fuel num (map (@st region) G) = Ok (map (@st region) G') /\ inv G' /\ (forall x, parity x G' = parity x G) /\ forall a, In a (map (@sh region) G') -> ~ branch (map (@sh region) G') a.
Proof.
  induction fuel as [|f IH]; intros num G HI HL HM Hf; cbn [deembed]; destruct (Z.eqb_spec (zsum (map (overlap inside (map (@st region) G)) (seq 0 (length (map (@st region) G))))) 0) as [E|E].
  - refine (ex_intro _ G (conj eq_refl (conj HI (conj (fun x => eq_refl) _)))). now apply sum_zero.
  - exfalso. apply E. apply sum_zero_conv; auto. apply (no_branch HL). rewrite map_length. lia.
  - refine (ex_intro _ G (conj eq_refl (conj HI (conj (fun x => eq_refl) _)))). now apply sum_zero.
  - assert (Hn : (num + 1 <= length G)%nat).
    { destruct (Nat.le_gt_cases (num + 1) (length G)); [assumption|]. exfalso. apply E. apply sum_zero_conv; auto. apply (no_branch HL). now rewrite map_length. }
    replace (num + 1)%nat with (Datatypes.S num) in * by lia.
    destruct (@rounds_spec (Datatypes.S num) ltac:(lia) f G HI HL HM) as (G1 & H1 & H2 & H3 & H4 & H5 & H6 & H7); [lia|]. rewrite H1. cbn [bind].
    destruct (IH (Datatypes.S num) G1 H2) as (G2 & K1 & K2 & K3 & K4); [|exact H4|lia|].
    + apply next_at_least; auto. apply H2.
    + refine (ex_intro _ G2 (conj K1 (conj K2 (conj _ K4)))). intros x. now rewrite K3.
Qed.
Lemma flat_depth G : inv G -> (forall a, In a (map (@sh region) G) -> ~ branch (map (@sh region) G) a) -> forall x, depth inside x (map (@cur region) G) = if parity x G then 1%nat else 0%nat.
Proof.
  intros HI HN x. unfold depth, parity. assert (E : length (filter (inside x) (map (@cur region) G)) = length (filter (fun a => inside x (cur a)) G)).
  { clear. induction G as [|a l IH]; [reflexivity|]. cbn. destruct (inside x (cur a)); cbn; congruence. }
  rewrite E. clear E. assert (P : ForallOrdPairs (fun a b => inside x (cur a) = true -> inside x (cur b) = true -> False) G).
  { assert (P : ForallOrdPairs (fun a b => related inside (sh a) (sh b)) G) by (apply fop_map; exact (proj2 (proj1 HI))).
    eapply fop_impl; [exact P|]. cbv beta. intros b c Hb Hc R H1 H2. apply (proj2 HI b Hb) in H1. apply (proj2 HI c Hc) in H2. destruct R as [R|[R|R]].
    - apply (HN (sh b) (shape_in Hb)). exists (sh c). split; [now apply shape_in|]. apply (within_holds (proj1 HI)); [now apply shape_in|exact R].
    - apply (HN (sh c) (shape_in Hc)). exists (sh b). split; [now apply shape_in|]. apply (within_holds (proj1 HI)); [now apply shape_in|exact R].
    - specialize (R x H1). cbn in R. congruence. }
  rewrite (bx_exists P). now apply fop_unique.
Qed.

Variable polygon_of : list (Q * Q) -> region.
Lemma start_spec polys : Forall (fun p => p <> []) polys -> start polygon_of polys = Ok (map (outline polygon_of) polys).
Proof.
  unfold start. induction 1 as [|p l Hp Hl IH]; [reflexivity|]. cbn [map mapM]. destruct p as [|v p]; [congruence|]. cbn [microns map bind]. rewrite IH. reflexivity.
Qed.
Lemma gen_gds_pf polys extra : Forall (fun p => p <> []) polys -> contours (map (outline polygon_of) polys) -> outer_have_more inside (map (outline polygon_of) polys) ->
  forall fuel, (2 * length polys + 1 <= fuel)%nat ->
  exists rs, gen_gds polygon_of inside not_of fuel polys extra true = Ok (rs ++ map polygon_of extra) /\
    forall x, depth inside x rs = if Nat.odd (depth inside x (map (fun p => snd (outline polygon_of p)) polys)) then 1%nat else 0%nat.
Proof.
  intros Hne HC HM fuel Hf. unfold gen_gds. rewrite (start_spec Hne). cbn [bind].
  set (G := map (fun p => mkitem (fst (outline polygon_of p)) (snd (outline polygon_of p)) (snd (outline polygon_of p))) polys).
  assert (E1 : map (@st region) G = map (outline polygon_of) polys) by (unfold G; rewrite map_map; apply map_ext; reflexivity).
  assert (E2 : map (@sh region) G = map (outline polygon_of) polys) by (unfold G; rewrite map_map; apply map_ext; reflexivity).
  assert (HI : inv G).
  { split; [now rewrite E2|]. intros a Ha. unfold G in Ha. apply in_map_iff in Ha as (p & <- & Hp). split; [exact (own HC (in_map (outline polygon_of) _ _ Hp))|]. split; [auto|left; reflexivity]. }
  destruct (@deembed_spec fuel 0 G HI) as (G' & H1 & H2 & H3 & H4).
  - rewrite E2. now apply first_at_least.
  - now rewrite E2.
  - unfold G. rewrite map_length. lia.
  - rewrite E1 in H1. exists (map (@cur region) G'). split.
    + rewrite H1. cbn [bind]. rewrite map_map. reflexivity.
    + intros x. rewrite (flat_depth H2 H4 x), H3. unfold depth. rewrite odd_bx.
      assert (E : parity x G = bx (inside x) (map (fun p => snd (outline polygon_of p)) polys)) by (unfold parity, G; clear; induction polys as [|p l IH]; [reflexivity|]; cbn [map bx]; rewrite IH; reflexivity).
      now rewrite E.
Qed.
End Region.
