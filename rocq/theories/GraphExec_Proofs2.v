(** Graph construction and forward evaluation. *)
From Verif Require Import Base GraphExec_Model GraphExec_Spec GraphExec_Proofs.
From Coq Require Import ZArith Relations.

Lemma keys_gset g n l : keys (gset g n l) = if in_dec Nat.eq_dec n (keys g) then keys g else keys g ++ [n].
Proof.
  induction g as [|[k l'] g IH]; cbn [gset keys map fst].
  - reflexivity.
  - destruct (Nat.eqb_spec k n) as [->|Hne]; cbn [keys map fst] in *.
    + destruct (in_dec Nat.eq_dec n (n :: map fst g)) as [|H]; [reflexivity|]. exfalso; apply H; now left.
    + unfold keys in IH. rewrite IH.
      destruct (in_dec Nat.eq_dec n (map fst g)) as [Hi|Hi];
      destruct (in_dec Nat.eq_dec n (k :: map fst g)) as [Hj|Hj]; try reflexivity.
      * exfalso; apply Hj; now right.
      * exfalso; destruct Hj; [congruence|tauto].
Qed.

Lemma adj_gset g n l m : adj (gset g n l) m = if Nat.eqb n m then l else adj g m.
Proof.
  induction g as [|[k l'] g IH]; cbn [gset adj].
  - reflexivity.
  - destruct (Nat.eqb_spec k n) as [->|Hne]; cbn [adj].
    + destruct (Nat.eqb n m); reflexivity.
    + rewrite IH. destruct (Nat.eqb_spec k m) as [->|]; [|reflexivity].
      destruct (Nat.eqb_spec n m); [congruence|reflexivity].
Qed.

Section BuildProofs.
Variable inputs : nat -> list nat.
Variable outs U : list nat.
Hypothesis HU : universe inputs outs U.

Lemma scan_inputs_spec l : forall K q K' q',
  scan_inputs l K q = (K', q') -> NoDup K ->
  exists add, K' = K ++ add /\ q' = q ++ add /\ NoDup (K ++ add) /\ incl add l /\ incl l (K ++ add).
Proof.
  induction l as [|c l IH]; intros K q K' q' H Hnd; cbn [scan_inputs] in H.
  - inversion H; subst. exists []. rewrite !app_nil_r.
    split; [reflexivity|]. split; [reflexivity|]. split; [assumption|].
    split; intros x [].
  - destruct (memb c K) eqn:E.
    + apply IH in H as (add & -> & -> & H1 & H2 & H3); [|assumption].
      exists add. split; [reflexivity|]. split; [reflexivity|]. split; [assumption|].
      split; [now apply incl_tl|].
      intros x [->|Hx]; [|now apply H3]. apply in_or_app. left. now apply memb_In.
    + apply memb_false in E.
      apply IH in H as (add & -> & -> & H1 & H2 & H3).
      * exists (c :: add). rewrite <- !app_assoc in *. cbn [app] in *.
        split; [reflexivity|]. split; [reflexivity|]. split; [assumption|]. split.
        -- intros x [->|Hx]; [now left|right; now apply H2].
        -- intros x [->|Hx]; [|now apply H3]. apply in_or_app. right. now left.
      * apply NoDup_rev in Hnd. rewrite <- (rev_involutive (K ++ [c])). apply NoDup_rev.
        rewrite rev_app_distr. cbn. constructor; [|assumption]. now rewrite <- in_rev.
Qed.

Definition BInv (g : graph) (K q : list nat) : Prop :=
  NoDup (keys g) /\ NoDup K /\ (forall n, In n (keys g) -> adj g n = inputs n) /\
  incl q K /\ incl (keys g) K /\ (forall n, In n K -> In n (keys g) \/ In n q) /\
  (forall n, In n (keys g) -> incl (inputs n) K) /\
  (forall n, In n K -> reachable inputs outs n) /\ incl outs K /\ incl K U.

Lemma reachable_step n c : reachable inputs outs n -> In c (inputs n) -> reachable inputs outs c.
Proof.
  intros (o & Ho & Hr) Hc. exists o. split; [assumption|].
  apply rt_trans with n; [assumption|]. now apply rt_step.
Qed.

Lemma bfs_spec fuel : forall g K q,
  BInv g K q -> (length q + (length U - length K) <= fuel)%nat ->
  exists g' K', bfs inputs fuel g K q = Ok g' /\ BInv g' K' [].
Proof.
  induction fuel as [|fuel IH]; intros g K q HI Hf.
  - destruct q as [|n q]; [|cbn in Hf; lia]. exists g, K. now split.
  - destruct q as [|n q]; cbn [bfs].
    + exists g, K. now split.
    + destruct (scan_inputs (inputs n) K q) as [K' q'] eqn:Hs.
      destruct HI as (I1 & I2 & I3 & I4 & I5 & I6 & I7 & I8 & I9 & I10).
      destruct (scan_inputs_spec _ _ _ _ _ Hs I2) as (add & -> & -> & J1 & J2 & J3).
      assert (HnK : In n K) by (apply I4; now left).
      assert (Hadd : incl add U).
      { intros x Hx. apply (proj2 HU n); [now apply I10|]. now apply J2. }
      assert (HKU : incl (K ++ add) U) by (apply incl_app; assumption).
      assert (Hkey : forall m, In m (keys (gset g n (inputs n))) <-> m = n \/ In m (keys g)).
      { intros m. rewrite keys_gset. destruct (in_dec Nat.eq_dec n (keys g)) as [Hi|Hi].
        - split; [tauto|]. intros [->|?]; assumption.
        - rewrite in_app_iff. simpl. intuition congruence. }
      apply IH.
      * unfold BInv. split.
        { rewrite keys_gset. destruct (in_dec Nat.eq_dec n (keys g)) as [|Hi]; [assumption|].
          apply NoDup_rev in I1. rewrite <- (rev_involutive (keys g ++ [n])). apply NoDup_rev.
          rewrite rev_app_distr. cbn. constructor; [|assumption]. now rewrite <- in_rev. }
        split; [assumption|]. split.
        { intros m Hm. rewrite adj_gset. destruct (Nat.eqb_spec n m) as [->|Hne]; [reflexivity|].
          apply I3. apply Hkey in Hm as [->|?]; [congruence|assumption]. }
        split.
        { apply incl_app; [|apply incl_appr, incl_refl].
          intros x Hx. apply in_or_app. left. apply I4. now right. }
        split.
        { intros m Hm. apply in_or_app. left. apply Hkey in Hm as [->|?]; [assumption|now apply I5]. }
        split.
        { intros m Hm. rewrite Hkey, in_app_iff. apply in_app_or in Hm as [Hm|Hm]; [|tauto].
          destruct (I6 m Hm) as [?|[->|?]]; tauto. }
        split.
        { intros m Hm. apply Hkey in Hm as [->|Hm]; [assumption|].
          intros x Hx. apply in_or_app. left. now apply (I7 m). }
        split.
        { intros m Hm. apply in_app_or in Hm as [Hm|Hm]; [now apply I8|].
          apply reachable_step with n; [now apply I8|]. now apply J2. }
        split.
        { intros m Hm. apply in_or_app. left. now apply I9. }
        assumption.
      * assert (Hl := NoDup_incl_length J1 HKU). cbn in Hf. rewrite !app_length in *. lia.
Qed.

Lemma dedup_spec l : forall acc, NoDup acc ->
  NoDup (dedup l acc) /\ (forall x, In x (dedup l acc) <-> In x acc \/ In x l).
Proof.
  induction l as [|x l IH]; intros acc Hnd; cbn [dedup].
  - split; [assumption|]. simpl. tauto.
  - destruct (memb x acc) eqn:E.
    + apply memb_In in E. destruct (IH acc Hnd) as [H1 H2]. split; [assumption|].
      intros y. rewrite H2. simpl. intuition congruence.
    + apply memb_false in E. destruct (IH (acc ++ [x])) as [H1 H2].
      * apply NoDup_rev in Hnd. rewrite <- (rev_involutive (acc ++ [x])). apply NoDup_rev.
        rewrite rev_app_distr. cbn. constructor; [|assumption]. now rewrite <- in_rev.
      * split; [assumption|]. intros y. rewrite H2, in_app_iff. simpl. tauto.
Qed.

Lemma build_graph_spec fuel : (length outs + length U <= fuel)%nat ->
  exists g, build_graph inputs fuel outs = Ok g /\
    NoDup (keys g) /\ (forall n, In n (keys g) <-> reachable inputs outs n) /\
    (forall n, In n (keys g) -> adj g n = inputs n).
Proof.
  intros Hf. unfold build_graph.
  destruct (dedup_spec outs [] (NoDup_nil _)) as [Hd1 Hd2].
  destruct (bfs_spec fuel [] (dedup outs []) outs) as (g & K & He & HI).
  - unfold BInv. cbn [keys map]. split; [constructor|]. split; [assumption|].
    split; [intros n []|].
    split; [intros n Hn; apply Hd2; now right|].
    split; [intros n []|].
    split; [intros n Hn; right; apply Hd2 in Hn as [[]|?]; assumption|].
    split; [intros n []|].
    split; [intros n Hn; apply Hd2 in Hn as [[]|Hn]; exists n; split; [assumption|apply rt_refl]|].
    split; [intros n Hn; apply Hd2; now right|].
    intros n Hn. apply Hd2 in Hn as [[]|Hn]. now apply HU.
  - lia.
  - exists g. split; [assumption|]. destruct HI as (I1 & I2 & I3 & I4 & I5 & I6 & I7 & I8 & I9 & I10).
    split; [assumption|]. split; [|assumption].
    intros n. split; [intros Hn; apply I8, I5, Hn|].
    intros (o & Ho & Hr). apply clos_rt_rtn1 in Hr. induction Hr as [|y z Hyz Hr IHr].
    + destruct (I6 o (I9 o Ho)) as [?|[]]. assumption.
    + destruct (I6 z) as [?|[]]; [|assumption]. apply (I7 y); assumption.
Qed.
End BuildProofs.

(** *** Forward evaluation *)
Section EvalProofs.
Variable V : Type.
Variable inputs : nat -> list nat.
Variable f : nat -> list V -> res V.
Variable ov : dict V.
Notation Den := (Den inputs f ov).

Section Den_ind2.
Variable P : nat -> V -> Prop.
Hypothesis H1 : forall n v, ov n = Some v -> P n v.
Hypothesis H2 : forall n ivs v, ov n = None -> Forall2 (fun c w => Den c w /\ P c w) (inputs n) ivs ->
                 f n ivs = Ok v -> P n v.
Fixpoint Den_ind2 n v (d : Den n v) {struct d} : P n v :=
  match d with
  | @Den_override _ _ _ _ n v e => H1 n v e
  | @Den_eval _ _ _ _ n ivs v e F Hf =>
      H2 n ivs v e
        ((fix go l1 l2 (F : Forall2 Den l1 l2) : Forall2 (fun c w => Den c w /\ P c w) l1 l2 :=
            match F with
            | Forall2_nil _ => Forall2_nil _
            | Forall2_cons _ _ Hd Ht => Forall2_cons _ _ (conj Hd (Den_ind2 _ _ Hd)) (go _ _ Ht)
            end) _ _ F) Hf
  end.
End Den_ind2.

Lemma Den_det n v : Den n v -> forall w, Den n w -> v = w.
Proof.
  intros H. pattern n, v. revert n v H. apply Den_ind2.
  - intros n v He w Hw. destruct Hw as [n w He'|n ivs w He' HF' Hf']; congruence.
  - intros n ivs v He HF Hf w Hw. destruct Hw as [n w He'|n ivs' w He' HF' Hf']; [congruence|].
    assert (ivs = ivs'); [|subst; congruence].
    clear - HF HF'. revert ivs' HF'. induction HF as [|c x l l' [_ Hx] HF IH]; intros ivs' HF'; inversion HF'; subst; [reflexivity|].
    f_equal; [now apply Hx|now apply IH].
Qed.

Lemma Den_det_list l vs : Forall2 Den l vs -> forall ws, Forall2 Den l ws -> vs = ws.
Proof.
  induction 1 as [|c x l l' Hx HF IH]; intros ws HF'; inversion HF'; subst; [reflexivity|].
  f_equal; [now apply (Den_det c)|now apply IH].
Qed.

Variable g : graph.
Hypothesis Hadj : forall n, In n (keys g) -> adj g n = inputs n.
Variable heavy : nat -> bool.
Hypothesis Hov : forall n, heavy n = true -> ov n = None.

Definition sound (vals : dict V) : Prop := 
  (forall n v, vals n = Some v -> Den n v) /\ (forall n v, ov n = Some v -> vals n = Some v).

Lemma sound_dset vals n v : sound vals -> ov n = None -> Den n v -> sound (dset vals n v).
Proof.
  intros [H1 H2] Ho Hd. split.
  - intros m w. unfold dset. destruct (Nat.eqb_spec m n) as [->|]; [intros [= <-]; assumption|apply H1].
  - intros m w Hm. unfold dset. destruct (Nat.eqb_spec m n) as [->|]; [congruence|now apply H2].
Qed.

Lemma get_inputs_sound vals n ivs : sound vals -> In n (keys g) ->
  get_inputs g vals n = Ok ivs -> Forall2 Den (inputs n) ivs.
Proof.
  intros [Hs _] Hk H. unfold get_inputs in H. rewrite Hadj in H by assumption.
  apply mapM_ok_Forall2 in H. induction H as [|c v l l' Hc HF IH]; constructor; [|assumption].
  unfold dget in Hc. destruct (vals c) eqn:E; [|discriminate]. inversion Hc; subst. now apply Hs.
Qed.

Lemma eval_light_sound vals n vals' : sound vals -> In n (keys g) -> dmem vals n = false ->
  eval_light g f vals n = Ok vals' -> sound vals'.
Proof.
  intros Hs Hk Hm H. unfold eval_light in H.
  destruct (get_inputs g vals n) as [ivs|] eqn:Hi; cbn [bind] in H; [|discriminate].
  destruct (f n ivs) as [v|] eqn:Hf; cbn [bind] in H; [|discriminate]. inversion H; subst.
  assert (Ho : ov n = None).
  { destruct (ov n) as [w|] eqn:E; [|reflexivity]. apply (proj2 Hs) in E.
    unfold dmem in Hm. rewrite E in Hm. discriminate. }
  apply sound_dset; [assumption|assumption|].
  eapply Den_eval with (ivs := ivs); [assumption|now apply (get_inputs_sound vals)|assumption].
Qed.

Lemma store_all_sound blk : forall vals vs, sound vals ->
  Forall2 Den blk vs -> Forall (fun n => ov n = None) blk -> sound (store_all vals blk vs).
Proof.
  induction blk as [|n blk IH]; intros vals vs Hs HF Ho; inversion HF; subst; cbn [store_all]; [assumption|].
  inversion Ho; subst. apply IH; [|assumption|assumption]. now apply sound_dset.
Qed.

Lemma eval_block_results vals blk vals' : sound vals -> incl blk (keys g) ->
  Forall (fun n => ov n = None) blk ->
  eval_block g f vals blk = Ok vals' ->
  exists vs, Forall2 Den blk vs /\ vals' = store_all vals blk vs.
Proof.
  intros Hs Hk Ho H. unfold eval_block in H.
  destruct (mapM (get_inputs g vals) blk) as [args|] eqn:Ha; cbn [bind] in H; [|discriminate].
  destruct (mapM _ (combine blk args)) as [vs|] eqn:Hv; cbn [bind] in H; [|discriminate].
  inversion H; subst. exists vs. split; [|reflexivity].
  apply mapM_ok_Forall2 in Ha. apply mapM_ok_Forall2 in Hv. clear H.
  revert vs Hv. induction Ha as [|n a blk args Hna HF IH]; intros vs Hv; cbn [combine] in Hv; inversion Hv; subst; constructor.
  - inversion Ho; subst. eapply Den_eval with (ivs := a); [assumption| |assumption].
    apply (get_inputs_sound vals); [assumption|apply Hk; now left|assumption].
  - inversion Ho; subst. apply IH; [intros x Hx; apply Hk; now right|assumption|assumption].
Qed.

Lemma eval_block_sound vals blk vals' : sound vals -> incl blk (keys g) ->
  Forall (fun n => ov n = None) blk ->
  eval_block g f vals blk = Ok vals' -> sound vals'.
Proof.
  intros Hs Hk Ho H. apply eval_block_results in H as (vs & HF & ->); try assumption.
  now apply store_all_sound.
Qed.

Lemma eval_loop_sound sched : forall blk vals vals',
  sound vals -> incl (blk ++ sched) (keys g) -> Forall (fun n => ov n = None) blk ->
  eval_loop g heavy f sched blk vals = Ok vals' -> sound vals'.
Proof.
  induction sched as [|n sched IH]; intros blk vals vals' Hs Hk Ho H; cbn [eval_loop] in H.
  - destruct blk; [inversion H; now subst|]. rewrite app_nil_r in Hk.
    eapply eval_block_sound; eassumption.
  - assert (Hn : In n (keys g)) by (apply Hk, in_or_app; right; now left).
    assert (Hks : incl sched (keys g)) by (intros x Hx; apply Hk, in_or_app; right; now right).
    assert (Hlight : forall vals, sound vals ->
      (if dmem vals n then eval_loop g heavy f sched [] vals
       else bind (eval_light g f vals n) (eval_loop g heavy f sched [])) = Ok vals' -> sound vals').
    { clear vals Hs H. intros vals Hs H. destruct (dmem vals n) eqn:Hm.
      - apply (IH [] vals); try assumption. constructor.
      - destruct (eval_light g f vals n) as [vals1|] eqn:He; cbn [bind] in H; [|discriminate].
        apply (IH [] vals1); try assumption; [|constructor].
        eapply eval_light_sound; eassumption. }
    destruct blk as [|b blk].
    + destruct (dmem vals n) eqn:Hm; [apply (IH [] vals); try assumption; constructor|].
      destruct (heavy n) eqn:Hh.
      * apply (IH [n] vals); try assumption. constructor; [now apply Hov|constructor].
      * apply (Hlight vals Hs). now rewrite Hm.
    + destruct (heavy n) eqn:Hh.
      * apply (IH ((b :: blk) ++ [n]) vals); try assumption.
        -- now rewrite <- app_assoc.
        -- apply Forall_app. split; [assumption|]. constructor; [now apply Hov|constructor].
      * destruct (eval_block g f vals (b :: blk)) as [vals1|] eqn:He; cbn [bind] in H; [|discriminate].
        apply (Hlight vals1); [|assumption].
        eapply eval_block_sound; [eassumption| |eassumption|eassumption].
        intros x Hx. apply Hk, in_or_app. now left.
Qed.

(** Completeness *)
Hypothesis Hden : forall n, In n (keys g) -> exists v, Den n v.
Hypothesis Hind : heavy_independent inputs heavy.

(** all nodes of [P] have been evaluated *)
Definition covers (P : list nat) (vals : dict V) : Prop := forall n, In n P -> dmem vals n = true.

Lemma covers_dset P vals n v : covers P vals -> covers (P ++ [n]) (dset vals n v).
Proof.
  intros H m Hm. unfold dmem, dset. destruct (Nat.eqb_spec m n); [reflexivity|].
  apply in_app_or in Hm as [Hm|[->|[]]]; [|congruence]. now apply H.
Qed.

Lemma get_inputs_complete P vals n : covers P vals -> In n (keys g) -> incl (inputs n) P ->
  exists ivs, get_inputs g vals n = Ok ivs.
Proof.
  intros Hc Hk Hi. unfold get_inputs. rewrite Hadj by assumption.
  induction (inputs n) as [|c l IH]; cbn [mapM]; [now exists []|].
  assert (Hm : dmem vals c = true) by (apply Hc, Hi; now left).
  unfold dmem in Hm. unfold dget at 1. destruct (vals c) as [v|]; [|discriminate]. cbn [bind].
  destruct IH as (ivs & ->); [intros x Hx; apply Hi; now right|]. cbn [bind]. now eexists.
Qed.

Lemma eval_f_complete n ivs : ov n = None -> In n (keys g) -> Forall2 Den (inputs n) ivs ->
  exists v, f n ivs = Ok v.
Proof.
  intros Ho Hk HF. destruct (Hden n Hk) as (v & Hv). destruct Hv as [n v He|n ivs' v He HF' Hf]; [congruence|].
  exists v. now rewrite (Den_det_list _ _ HF _ HF').
Qed.

Lemma eval_light_complete P vals n : sound vals -> covers P vals -> In n (keys g) ->
  incl (inputs n) P -> dmem vals n = false ->
  exists vals', eval_light g f vals n = Ok vals' /\ sound vals' /\ covers (P ++ [n]) vals'.
Proof.
  intros Hs Hc Hk Hi Hm.
  destruct (get_inputs_complete P vals n Hc Hk Hi) as (ivs & Hiv).
  assert (Ho : ov n = None).
  { destruct (ov n) as [w|] eqn:E; [|reflexivity]. apply (proj2 Hs) in E.
    unfold dmem in Hm. rewrite E in Hm. discriminate. }
  destruct (eval_f_complete n ivs Ho Hk) as (v & Hv); [now apply (get_inputs_sound vals)|].
  assert (He : eval_light g f vals n = Ok (dset vals n v)).
  { unfold eval_light. rewrite Hiv. cbn [bind]. now rewrite Hv. }
  exists (dset vals n v). split; [assumption|]. split.
  - eapply eval_light_sound; eassumption.
  - now apply covers_dset.
Qed.

Lemma store_all_covers blk : forall P vals vs, covers P vals -> length blk = length vs ->
  covers (P ++ blk) (store_all vals blk vs).
Proof.
  induction blk as [|n blk IH]; intros P vals vs Hc Hl; destruct vs; try discriminate; cbn [store_all].
  - now rewrite app_nil_r.
  - replace (P ++ n :: blk) with ((P ++ [n]) ++ blk) by now rewrite <- app_assoc.
    apply IH; [now apply covers_dset|]. cbn in Hl. lia.
Qed.

Lemma eval_block_complete P vals blk : sound vals -> covers P vals -> incl blk (keys g) ->
  Forall (fun n => ov n = None) blk -> (forall n, In n blk -> incl (inputs n) P) ->
  exists vals', eval_block g f vals blk = Ok vals' /\ sound vals' /\ covers (P ++ blk) vals'.
Proof.
  intros Hs Hc Hk Ho Hi.
  assert (He : exists vs, eval_block g f vals blk = Ok (store_all vals blk vs) /\ length blk = length vs).
  { unfold eval_block.
    assert (Hargs : exists args, mapM (get_inputs g vals) blk = Ok args).
    { clear Ho. induction blk as [|n blk IH]; cbn [mapM]; [now exists []|].
      destruct (get_inputs_complete P vals n Hc) as (ivs & ->); [apply Hk; now left|apply Hi; now left|].
      cbn [bind]. destruct IH as (args & ->); [intros x Hx; apply Hk; now right|intros x Hx; apply Hi; now right|].
      cbn [bind]. now eexists. }
    destruct Hargs as (args & Ha). rewrite Ha. cbn [bind].
    assert (Hvs : exists vs, mapM (fun na => f (fst na) (snd na)) (combine blk args) = Ok vs /\ length blk = length vs).
    { apply mapM_ok_Forall2 in Ha. clear Hi. induction Ha as [|n a blk args Hna HF IH]; cbn [combine mapM].
      - now exists [].
      - inversion Ho; subst. cbn [fst snd].
        destruct (eval_f_complete n a) as (v & Hv); [assumption|apply Hk; now left| |].
        + apply (get_inputs_sound vals); [assumption|apply Hk; now left|assumption].
        + rewrite Hv. cbn [bind]. destruct IH as (vs & -> & Hl); [intros x Hx; apply Hk; now right|assumption|].
          cbn [bind]. exists (v :: vs). split; [reflexivity|]. cbn; lia. }
    destruct Hvs as (vs & -> & Hl). cbn [bind]. exists vs. now split. }
  destruct He as (vs & He & Hl). exists (store_all vals blk vs). split; [assumption|]. split.
  - eapply eval_block_sound; eassumption.
  - now apply store_all_covers.
Qed.

(** [P]: nodes whose value is stored; [blk]: pending heavy nodes; inputs of
    every node of [sched] come before it. *)
Lemma eval_loop_complete sched : forall P blk vals,
  sound vals -> covers P vals -> incl (blk ++ sched) (keys g) ->
  Forall (fun n => heavy n = true) blk -> (forall n, In n blk -> incl (inputs n) P) ->
  (forall l1 n l2, sched = l1 ++ n :: l2 -> incl (inputs n) (P ++ blk ++ l1)) ->
  exists vals', eval_loop g heavy f sched blk vals = Ok vals' /\ sound vals' /\
     covers (P ++ blk ++ sched) vals'.
Proof.
  assert (Hho : forall blk, Forall (fun n => heavy n = true) blk -> Forall (fun n => ov n = None) blk).
  { intros blk. apply Forall_impl. intros n. apply Hov. }
  induction sched as [|n sched IH]; intros P blk vals Hs Hc Hk Hh Hbi Hsi; cbn [eval_loop].
  - rewrite app_nil_r in *. destruct blk as [|b blk].
    + exists vals. rewrite app_nil_r. auto.
    + apply eval_block_complete; auto.
  - assert (Hn : In n (keys g)) by (apply Hk, in_or_app; right; now left).
    assert (Hks : incl sched (keys g)) by (intros x Hx; apply Hk, in_or_app; right; now right).
    assert (Hni : incl (inputs n) (P ++ blk)).
    { specialize (Hsi [] n sched eq_refl). now rewrite app_nil_r in Hsi. }
    assert (Hlight : forall Q vals, sound vals -> covers Q vals -> incl (inputs n) Q -> Q = P ++ blk ->
      exists vals', (if dmem vals n then eval_loop g heavy f sched [] vals
       else bind (eval_light g f vals n) (eval_loop g heavy f sched [])) = Ok vals' /\ sound vals' /\
       covers (Q ++ n :: sched) vals').
    { clear vals Hs Hc. intros Q vals Hs Hc Hq HQ.
      assert (Hstep : forall vals, sound vals -> covers (Q ++ [n]) vals ->
        exists vals', eval_loop g heavy f sched [] vals = Ok vals' /\ sound vals' /\ covers (Q ++ n :: sched) vals').
      { clear vals Hs Hc. intros vals Hs Hc. destruct (IH (Q ++ [n]) [] vals) as (vals' & He & Hs' & Hc'); try assumption.
        - constructor.
        - intros x [].
        - intros l1 m l2 He. subst Q. rewrite <- !app_assoc. cbn [app].
          apply (Hsi (n :: l1) m l2). cbn [app]. now rewrite He.
        - exists vals'. split; [assumption|]. split; [assumption|].
          rewrite <- app_assoc in Hc'. exact Hc'. }
      destruct (dmem vals n) eqn:Hm.
      - apply Hstep; [assumption|]. intros m Hm'. apply in_app_or in Hm' as [Hm'|[->|[]]]; [now apply Hc|assumption].
      - destruct (eval_light_complete Q vals n Hs Hc Hn Hq Hm) as (vals1 & -> & Hs1 & Hc1). cbn [bind].
        now apply Hstep. }
    destruct blk as [|b blk].
    + destruct (dmem vals n) eqn:Hm.
      * destruct (Hlight P vals Hs Hc) as (vals' & He & Hs' & Hc'); [now rewrite app_nil_r in Hni|now rewrite app_nil_r|].
        rewrite Hm in He. exists vals'. auto.
      * destruct (heavy n) eqn:Hhn.
        -- destruct (IH P [n] vals) as (vals' & He & Hs' & Hc'); try assumption.
           ++ constructor; [assumption|constructor].
           ++ intros m [->|[]]. now rewrite app_nil_r in Hni.
           ++ intros l1 m l2 He. apply (Hsi (n :: l1) m l2). cbn [app]. now rewrite He.
           ++ exists vals'. auto.
        -- destruct (Hlight P vals Hs Hc) as (vals' & He & Hs' & Hc'); [now rewrite app_nil_r in Hni|now rewrite app_nil_r|].
           rewrite Hm in He. exists vals'. auto.
    + destruct (heavy n) eqn:Hhn.
      * destruct (IH P ((b :: blk) ++ [n]) vals) as (vals' & He & Hs' & Hc'); try assumption.
        -- now rewrite <- app_assoc.
        -- apply Forall_app. split; [assumption|]. constructor; [assumption|constructor].
        -- intros m Hm. apply in_app_or in Hm as [Hm|[->|[]]]; [now apply Hbi|].
           intros x Hx. assert (Hx' := Hni x Hx). apply in_app_or in Hx' as [?|Hxb]; [assumption|].
           assert (Hl := Hind m x Hhn Hx). rewrite Forall_forall in Hh. rewrite (Hh x Hxb) in Hl. discriminate.
        -- intros l1 m l2 He. assert (H := Hsi (n :: l1) m l2). rewrite <- !app_assoc. cbn [app] in *. apply H. now rewrite He.
        -- exists vals'. split; [assumption|]. split; [assumption|]. now rewrite <- app_assoc in Hc'.
      * destruct (eval_block_complete P vals (b :: blk)) as (vals1 & -> & Hs1 & Hc1); auto.
        { intros x Hx. apply Hk, in_or_app. now left. }
        cbn [bind]. destruct (Hlight (P ++ b :: blk) vals1 Hs1 Hc1 Hni eq_refl) as (vals' & He & Hs' & Hc').
        exists vals'. split; [assumption|]. split; [assumption|]. now rewrite <- app_assoc in Hc'.
Qed.
End EvalProofs.

Lemma dag_acyclic inputs g : dag inputs -> (forall n, In n (keys g) -> adj g n = inputs n) -> acyclic g.
Proof.
  intros Hd Ha n Hn. apply (Hd n). revert Hn. generalize n at 2 4. intros m Hn.
  induction Hn as [x y He|x y z H1 IH1 H2 IH2].
  - apply t_step. unfold depends. unfold edge in He. rewrite <- Ha; [assumption|].
    eapply adj_in_key; eassumption.
  - now apply t_trans with y.
Qed.

Lemma order_ok_before g r : order_ok g r -> forall n c, In c r -> In c (adj g n) -> before r n c.
Proof.
  intros Ho n c Hc He. apply in_split in Hc as (l1 & l2 & Hr).
  assert (Hn := Ho l1 c l2 Hr n He). apply in_split in Hn as (l3 & l4 & ->).
  exists l3, l4, l2. rewrite Hr, <- app_assoc. reflexivity.
Qed.

Section Whole.
Variable V : Type.
Variable inputs : nat -> list nat.
Variable f : nat -> list V -> res V.
Variable heavy : nat -> bool.
Variable ord : list nat -> list nat -> list nat.
Hypothesis Hord : forall h b, Permutation (ord h b) b.
Variable outs U : list nat.
Hypothesis HU : universe inputs outs U.
Hypothesis Hdag : dag inputs.
Variable fuel : nat.
Hypothesis Hfuel : (length outs + length U <= fuel)%nat.

Lemma schedule_exists : exists g sched,
  build_graph inputs fuel outs = Ok g /\ top_sort g heavy ord = Ok sched /\
  NoDup (keys g) /\ (forall n, In n (keys g) <-> reachable inputs outs n) /\
  (forall n, In n (keys g) -> adj g n = inputs n) /\
  Permutation sched (keys g) /\ order_ok g sched.
Proof.
  destruct (build_graph_spec inputs outs U HU fuel Hfuel) as (g & Hg & Hnd & Hr & Ha).
  assert (Hcl : forall n c, In c (adj g n) -> In c (keys g)).
  { intros n c Hc. assert (Hn : In n (keys g)) by (eapply adj_in_key; eassumption).
    rewrite Ha in Hc by assumption. apply Hr. apply reachable_step with n; [now apply Hr|assumption]. }
  destruct (@top_sort_correct g Hnd Hcl heavy ord Hord) as (s & Hs & HP & Ho).
  { now apply dag_acyclic with inputs. }
  exists g, s. tauto.
Qed.

Lemma schedule_correct : exists g sched,
  build_graph inputs fuel outs = Ok g /\ top_sort g heavy ord = Ok sched /\
  NoDup sched /\ (forall n, In n sched <-> reachable inputs outs n) /\
  (forall n c, In n sched -> In c (inputs n) -> before sched n c).
Proof.
  destruct schedule_exists as (g & s & Hg & Hs & Hnd & Hr & Ha & HP & Ho).
  exists g, s. split; [assumption|]. split; [assumption|].
  split; [exact (Permutation_NoDup (Permutation_sym HP) Hnd)|].
  assert (Hin : forall n, In n s <-> In n (keys g)).
  { intros n. split; apply Permutation_in; [assumption|now symmetry]. }
  split; [intros n; rewrite Hin; apply Hr|].
  intros n c Hn Hc. apply Hin in Hn. apply (order_ok_before _ _ Ho).
  - apply Hin, Hr. apply reachable_step with n; [now apply Hr|assumption].
  - now rewrite Ha.
Qed.

Variable ov : dict V.
Hypothesis Hov : forall n, heavy n = true -> ov n = None.

Lemma reversed_order g s : (forall n, In n (keys g) -> adj g n = inputs n) ->
  Permutation s (keys g) -> (forall n, In n (keys g) <-> reachable inputs outs n) -> order_ok g s -> NoDup (keys g) ->
  forall l1 n l2, rev s = l1 ++ n :: l2 -> incl (inputs n) l1.
Proof.
  intros Ha HP Hr Ho Hnd l1 n l2 He c Hc.
  assert (Hs : s = rev l2 ++ n :: rev l1).
  { rewrite <- (rev_involutive s), He, rev_app_distr. cbn. now rewrite <- app_assoc. }
  assert (Hn : In n (keys g)).
  { apply (Permutation_in _ HP). rewrite Hs. apply in_or_app. right. now left. }
  assert (Hck : In c (keys g)).
  { apply Hr. apply reachable_step with n; [now apply Hr|assumption]. }
  assert (Hcs : In c s) by exact (Permutation_in _ (Permutation_sym HP) Hck).
  rewrite Hs in Hcs. apply in_app_or in Hcs as [Hcs|[Hcs|Hcs]].
  - apply in_split in Hcs as (m1 & m2 & Hm).
    assert (Hin : In n m1).
    { apply (Ho m1 c (m2 ++ n :: rev l1)).
      - now rewrite Hs, Hm, <- app_assoc.
      - now rewrite Ha. }
    exfalso. apply (Permutation_NoDup (Permutation_sym HP)) in Hnd. rewrite Hs in Hnd.
    apply NoDup_remove_2 in Hnd. apply Hnd. rewrite Hm, !in_app_iff. tauto.
  - subst c. assert (Hb : In n (rev l2)).
    { apply (Ho (rev l2) n (rev l1) Hs). now rewrite Ha. }
    exfalso. apply (Permutation_NoDup (Permutation_sym HP)) in Hnd. rewrite Hs in Hnd.
    apply NoDup_remove_2 in Hnd. apply Hnd. apply in_or_app. now left.
  - now apply in_rev.
Qed.

Lemma eval_fun_sound vs : eval_fun inputs heavy f ord fuel outs ov = Ok vs ->
  Forall2 (Den inputs f ov) outs vs.
Proof.
  unfold eval_fun. destruct schedule_exists as (g & s & -> & Hs & Hnd & Hr & Ha & HP & Ho).
  cbn [bind]. rewrite Hs. cbn [bind]. unfold eval_fun_vals.
  destruct (eval_loop g heavy f (rev s) [] ov) as [vals|] eqn:He; cbn [bind]; [|discriminate].
  intros H. apply (eval_loop_sound V inputs f ov g Ha heavy Hov) in He.
  - apply mapM_ok_Forall2 in H. revert H. apply Forall2_impl. intros n v Hn.
    unfold dget in Hn. destruct (vals n) eqn:E; [|discriminate]. inversion Hn; subst. now apply He.
  - split; [intros n v Hn; now apply Den_override|auto].
  - cbn [app]. intros n Hn. apply in_rev in Hn. exact (Permutation_in _ HP Hn).
  - constructor.
Qed.

Hypothesis Hden : forall n, reachable inputs outs n -> exists v, Den inputs f ov n v.
Hypothesis Hind : heavy_independent inputs heavy.

Lemma forward_complete : exists g sched vals,
  build_graph inputs fuel outs = Ok g /\ top_sort g heavy ord = Ok sched /\
  NoDup (keys g) /\ (forall n, In n (keys g) <-> reachable inputs outs n) /\
  (forall n, In n (keys g) -> adj g n = inputs n) /\
  Permutation sched (keys g) /\ order_ok g sched /\
  eval_fun_vals g heavy f sched ov = Ok vals /\
  (forall n, reachable inputs outs n -> exists v, vals n = Some v /\ Den inputs f ov n v).
Proof.
  destruct schedule_exists as (g & s & Hg & Hs & Hnd & Hr & Ha & HP & Ho).
  destruct (@eval_loop_complete V inputs f ov g Ha heavy Hov) with (sched := rev s) (P := @nil nat) (blk := @nil nat) (vals := ov)
    as (vals & He & Hsd & Hc).
  - intros n Hn. apply Hden. now apply Hr.
  - assumption.
  - split; [intros n v Hn; now apply Den_override|auto].
  - intros n [].
  - intros n Hn. apply in_rev in Hn. exact (Permutation_in _ HP Hn).
  - constructor.
  - intros n [].
  - cbn [app]. now apply reversed_order with g.
  - exists g, s, vals. repeat (split; [assumption|]).
    intros n Hn. cbn [app] in Hc. specialize (Hc n). unfold dmem in Hc.
    destruct (vals n) as [v|] eqn:E.
    + exists v. split; [reflexivity|]. now apply Hsd.
    + discriminate Hc. apply in_rev. rewrite rev_involutive.
      apply (Permutation_in _ (Permutation_sym HP)). now apply Hr.
Qed.

Lemma eval_fun_complete : exists vs, eval_fun inputs heavy f ord fuel outs ov = Ok vs /\
  Forall2 (Den inputs f ov) outs vs.
Proof.
  assert (H : exists vs, eval_fun inputs heavy f ord fuel outs ov = Ok vs).
  { destruct forward_complete as (g & s & vals & Hg & Hs & _ & _ & _ & _ & _ & He & Hc).
    unfold eval_fun. rewrite Hg. cbn [bind]. rewrite Hs. cbn [bind]. rewrite He. cbn [bind].
    assert (Hro : forall n, In n outs -> reachable inputs outs n).
    { intros n Hn. exists n. split; [assumption|apply rt_refl]. }
    clear - Hro Hc. revert Hro Hc. generalize (reachable inputs outs) as R. intros R Hro Hc.
    induction outs as [|o l IH]; cbn [mapM]; [now exists []|].
    destruct (Hc o) as (v & Hv & _); [apply Hro; now left|].
    unfold dget at 1. rewrite Hv. cbn [bind].
    destruct IH as (vs & ->); [intros n Hn; apply Hro; now right|]. cbn [bind]. now eexists. }
  destruct H as (vs & H). exists vs. split; [assumption|]. now apply eval_fun_sound.
Qed.
End Whole.
