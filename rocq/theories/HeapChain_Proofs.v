(** The in-place backward pass applies the chain rule, also when gradients share arrays, as long as
    the sharing cannot be observed. *)
From Verif Require Import Base GraphExec_Model GraphExec_Spec GraphExec_Proofs GraphExec_Proofs2 GraphExec_Proofs3.
From Verif Require Import GradHeap_Model GradHeap_Proofs GMath_Model.
From Coq Require Import ZArith Relations.

Section HC.
Variables V A K : Type.
Variable inputs : nat -> list nat.
Variable f : nat -> list V -> res V.
Variable ov : dict V.
Variable heavy : nat -> bool.
Variable pb : nat -> list V -> A -> res (list A).
Variable share : nat -> list V -> nat -> bool.
Variable gadd : A -> A -> A.
Variable kplus : K -> K -> K.
Variable kzero : K.
Hypothesis Hmon : comm_monoid kplus kzero.
(** the value of a gradient at a node, and the gradients that are meaningful there *)
Variable pn : nat -> A -> K.
Variable gok : nat -> A -> Prop.
Hypothesis Hadd : forall n a b, gok n a -> gok n b -> gok n (gadd a b) /\ pn n (gadd a b) = kplus (pn n a) (pn n b).
Notation Den := (Den inputs f ov).
Notation sumK := (sumK K kplus kzero).
(** leaves that are used once; among them those whose gradient is not asked for *)
Variables quiet qf : nat -> bool.
Hypothesis Hqq : forall n, qf n = true -> quiet n = true.
Hypothesis Hqf0 : forall n a, qf n = true -> pn n a = kzero.
Definition P (a : A) : Prop := exists m, gok m a.

Definition hpb (n : nat) (ivs : list V) (l : nat) (m : mem A) : res (list nat * mem A) :=
  bind (pb n ivs (fst m l)) (fun gs => Ok (place (share n ivs) l 0 gs m)).

Definition allP (h : heap A) (hg : dict nat) : Prop := forall c k, hg c = Some k -> P (h k).
Definition hpg (h : heap A) (hg : dict nat) (n : nat) : K :=
  match hg n with Some k => pn n (h k) | None => kzero end.
Fixpoint sum_pn (cs : list nat) (gs : list A) : K :=
  match cs, gs with c :: cs', x :: gs' => kplus (pn c x) (sum_pn cs' gs') | _, _ => kzero end.

Lemma sum_change X F F' c v : NoDup X -> In c X -> F' c = kplus (F c) v ->
  (forall x, In x X -> x <> c -> F' x = F x) -> sumK X F' = kplus (sumK X F) v.
Proof.
  induction X as [|n X IH]; intros Hnd Hc Hv Ho; [destruct Hc|].
  inversion Hnd as [|? ? Hn Hnd']; subst. cbn [GraphExec_Proofs3.sumK].
  destruct (Nat.eq_dec n c) as [->|Hne].
  - rewrite Hv. rewrite (sumK_ext K kplus kzero X F' F).
    + rewrite <- !(kassoc K kplus kzero Hmon). f_equal. apply (kcomm K kplus kzero Hmon).
    + intros x Hx. apply Ho; [now right|]. intros ->. contradiction.
  - destruct Hc as [->|Hc]; [congruence|]. rewrite IH; auto.
    + rewrite (Ho n); [|now left|assumption]. now rewrite (kassoc K kplus kzero Hmon).
    + intros x Hx. apply Ho. now right.
Qed.

(** *** general facts about the loop over the inputs *)
Lemma hadd_frame cs : forall ls h hg h' hg' k, hadd_grads gadd cs ls h hg = (h', hg') ->
  (forall c, hg c <> Some k) -> ~ In k ls -> h' k = h k /\ forall c, hg' c <> Some k.
Proof.
  induction cs as [|c cs IH]; intros ls h hg h' hg' k He Hk Hn; destruct ls as [|lk ls]; cbn [hadd_grads] in He;
    try (inversion He; subst; now split).
  destruct (hg c) as [lc|] eqn:Ec.
  - destruct (IH _ _ _ _ _ k He) as [H1 H2]; [assumption|intros Hin; apply Hn; now right|].
    split; [|assumption]. rewrite H1. apply hupd_other. intros ->. now apply (Hk c).
  - destruct (IH _ _ _ _ _ k He) as [H1 H2]; [|intros Hin; apply Hn; now right|now split].
    intros x. unfold dset. destruct (Nat.eqb x c); [|apply Hk]. intros Hx. inversion Hx; subst. apply Hn. now left.
Qed.
Lemma hadd_mono cs : forall ls h hg h' hg' c k, hadd_grads gadd cs ls h hg = (h', hg') -> hg c = Some k -> hg' c = Some k.
Proof.
  induction cs as [|x cs IH]; intros ls h hg h' hg' c k He Hk; destruct ls as [|lk ls]; cbn [hadd_grads] in He;
    try (inversion He; now subst).
  destruct (hg x) as [lc|] eqn:Ec; apply (IH _ _ _ _ _ c k He); [assumption|].
  rewrite dset_other; [assumption|]. congruence.
Qed.
Lemma hadd_other cs : forall ls h hg h' hg' c, hadd_grads gadd cs ls h hg = (h', hg') -> ~ In c cs -> hg' c = hg c.
Proof.
  induction cs as [|x cs IH]; intros ls h hg h' hg' c He Hn; destruct ls as [|lk ls]; cbn [hadd_grads] in He;
    try (inversion He; now subst).
  destruct (hg x) as [lc|] eqn:Ec; rewrite (IH _ _ _ _ _ c He) by (intros ?; apply Hn; now right); [reflexivity|].
  apply dset_other. intros ->. apply Hn. now left.
Qed.
Lemma hadd_some cs : forall ls h hg h' hg' c, hadd_grads gadd cs ls h hg = (h', hg') -> length ls = length cs -> In c cs ->
  hg' c <> None.
Proof.
  induction cs as [|x cs IH]; intros ls h hg h' hg' c He Hl Hc; destruct ls as [|lk ls]; try discriminate; [destruct Hc|].
  cbn [hadd_grads] in He. destruct Hc as [->|Hc].
  - destruct (hg c) as [lc|] eqn:Ec.
    + rewrite (hadd_mono cs ls _ _ _ _ c lc He Ec). discriminate.
    + rewrite (hadd_mono cs ls _ _ _ _ c lk He (dset_same hg c lk)). discriminate.
  - cbn in Hl. destruct (hg x) as [lc|] eqn:Ec; apply (IH _ _ _ _ _ c He); auto; lia.
Qed.
Lemma hadd_below cs : forall ls h hg h' hg' nx, hadd_grads gadd cs ls h hg = (h', hg') ->
  (forall c k, hg c = Some k -> (k < nx)%nat) -> (forall k, In k ls -> (k < nx)%nat) -> forall c k, hg' c = Some k -> (k < nx)%nat.
Proof.
  induction cs as [|x cs IH]; intros ls h hg h' hg' nx He Hb Hl; destruct ls as [|lk ls]; cbn [hadd_grads] in He;
    try (inversion He; now subst).
  destruct (hg x) as [lc|] eqn:Ec.
  - apply (IH _ _ _ _ _ nx He); [assumption|]. intros k Hk. apply Hl. now right.
  - apply (IH _ _ _ _ _ nx He); [|intros k Hk; apply Hl; now right].
    intros c k Hc. unfold dset in Hc. destruct (Nat.eqb c x); [|now apply Hb in Hc]. inversion Hc; subst. apply Hl. now left.
Qed.

(** *** the loop, with the invariant on sharing *)
Section Loop.
Variable X : list nat.
Hypothesis HX : NoDup X.
Variable l : nat.
Variable gv : A.
Hypothesis Hgv : P gv.

Definition holds (h : heap A) (hg : dict nat) : Prop :=
  forall c k, In c X -> hg c = Some k -> P (h k) /\ (qf c = false -> gok c (h k)).
Definition apart (hg : dict nat) : Prop :=
  forall c c' k, In c X -> In c' X -> c <> c' -> hg c = Some k -> hg c' = Some k ->
    (quiet c = true /\ quiet c' = true) \/ qf c = true \/ qf c' = true.

Fixpoint items (h : heap A) (hg : dict nat) (cs ls : list nat) (gs : list A) : Prop :=
  match cs, ls, gs with
  | [], [], [] => True
  | c :: cs', k :: ls', g :: gs' =>
      In c X /\ gok c g /\ (quiet c = true -> hg c = None /\ ~ In c cs') /\
      (if Nat.eqb k l then g = gv else h k = g /\ (forall c', hg c' <> Some k) /\ ~ In k ls') /\
      items h hg cs' ls' gs'
  | _, _, _ => False
  end.
Fixpoint shared (cs ls : list nat) : list nat :=
  match cs, ls with
  | c :: cs', k :: ls' => if Nat.eqb k l then c :: shared cs' ls' else shared cs' ls'
  | _, _ => []
  end.
Definition isquiet (c : nat) : Prop := quiet c = true.
Definition isqf (c : nat) : Prop := qf c = true.
(** at most one element that is not a quiet leaf whose gradient is not asked for *)
Definition few (L : list nat) : Prop := (length (filter (fun c => negb (qf c)) L) <= 1)%nat.
Definition mode (h : heap A) (hg : dict nat) (S : list nat) : Prop :=
  (h l = gv /\ (forall c, In c X -> hg c = Some l -> isquiet c) /\
     (Forall isquiet S \/ ((forall c, In c X -> hg c = Some l -> isqf c) /\ few S)))
  \/ (P (h l) /\ Forall isqf S).

Lemma items_write cs : forall ls gs h hg lc v c, hg c = Some lc -> items h hg cs ls gs -> items (hupd h lc v) hg cs ls gs.
Proof.
  induction cs as [|x cs IH]; intros ls gs h hg lc v c Hc HI; destruct ls as [|k ls], gs as [|g gs]; cbn [items] in *; auto.
  destruct HI as (I1 & I2 & I3 & I4 & I5). repeat (split; [assumption|]). split; [|now apply IH with c].
  destruct (Nat.eqb k l); [assumption|]. destruct I4 as (J1 & J2 & J3). split; [|now split].
  rewrite hupd_other; [assumption|]. intros ->. now apply (J2 c).
Qed.
Lemma items_set cs : forall ls gs h hg c k, (quiet c = true -> ~ In c cs) -> (k = l \/ ~ In k ls) ->
  items h hg cs ls gs -> items h (dset hg c k) cs ls gs.
Proof.
  induction cs as [|x cs IH]; intros ls gs h hg c k Hq Hk HI; destruct ls as [|k' ls], gs as [|g gs]; cbn [items] in *; auto.
  destruct HI as (I1 & I2 & I3 & I4 & I5). repeat (split; [assumption|]).
  split; [|split; [|apply IH; auto]].
  - intros Hx. destruct (I3 Hx) as [J1 J2]. split; [|assumption]. rewrite dset_other; [assumption|].
    intros ->. apply (Hq Hx). now left.
  - destruct (Nat.eqb k' l) eqn:El; [assumption|]. destruct I4 as (J1 & J2 & J3). split; [assumption|]. split; [|assumption].
    intros c'. unfold dset. destruct (Nat.eqb c' c); [|apply J2]. intros He. inversion He; subst.
    destruct Hk as [->|Hk]; [now rewrite Nat.eqb_refl in El|]. apply Hk. now left.
  - intros Hx Hin. apply (Hq Hx). now right.
  - destruct Hk as [->|Hk]; [now left|]. right. intros Hin. apply Hk. now right.
Qed.

Lemma few_cons c S : few (c :: S) -> qf c = false -> Forall isqf S.
Proof.
  unfold few. cbn [filter]. intros H Hc. rewrite Hc in H. cbn [negb length] in H.
  apply Forall_forall. intros x Hx. unfold isqf. destruct (qf x) eqn:E; [reflexivity|]. exfalso.
  assert (Hin : In x (filter (fun c => negb (qf c)) S)) by (apply filter_In; now rewrite E).
  destruct (filter _ S); [destruct Hin|cbn in H; lia].
Qed.
Lemma few_tail c S : few (c :: S) -> few S.
Proof. unfold few. cbn [filter]. destruct (negb (qf c)); cbn [length]; lia. Qed.

Lemma hadd_main cs : forall ls gs h hg,
  allP h hg -> holds h hg -> apart hg -> items h hg cs ls gs -> mode h hg (shared cs ls) ->
  exists h' hg', hadd_grads gadd cs ls h hg = (h', hg') /\ allP h' hg' /\ holds h' hg' /\ apart hg' /\
    sumK X (hpg h' hg') = kplus (sumK X (hpg h hg)) (sum_pn cs gs) /\
    (forall m k, In m X -> ~ In m cs -> qf m = false -> hg m = Some k -> h' k = h k).
Proof.
  induction cs as [|c cs IH]; intros ls gs h hg HA Hh Ha HI HM; destruct ls as [|k ls], gs as [|g gs]; cbn [items] in HI; try contradiction.
  - exists h, hg. cbn [hadd_grads sum_pn]. split; [reflexivity|]. split; [assumption|]. split; [assumption|]. split; [assumption|]. split; [now rewrite (kzr K kplus kzero Hmon)|reflexivity].
  - destruct HI as (HcX & Hok & Hq & Hk & HI). cbn [hadd_grads sum_pn shared] in *.
    destruct (hg c) as [lc|] eqn:Ec.
    + (* added in place *)
      assert (Hnq : quiet c = false).
      { destruct (quiet c) eqn:E; [|reflexivity]. destruct (Hq eq_refl). discriminate. }
      assert (Hnf : qf c = false).
      { destruct (qf c) eqn:E; [|reflexivity]. rewrite (Hqq c E) in Hnq. discriminate. }
      destruct (Hh c lc HcX Ec) as [_ Hcok]. specialize (Hcok Hnf).
      assert (Hval : h k = g).
      { destruct (Nat.eqb k l) eqn:El; [|apply Hk]. apply Nat.eqb_eq in El. subst k g.
        destruct HM as [(M1 & _)|(_ & M2)]; [assumption|]. inversion M2; subst. unfold isqf in *. congruence. }
      rewrite Hval. destruct (Hadd c (h lc) g Hcok Hok) as [Hok2 Hsum].
      set (h1 := hupd h lc (gadd (h lc) g)).
      assert (Hshare : forall c' , In c' X -> c' <> c -> hg c' = Some lc -> qf c' = true).
      { intros c' Hc' Hne He. destruct (Ha c c' lc HcX Hc' (not_eq_sym Hne) Ec He) as [[? _]|[?|?]]; congruence. }
      assert (Hh1 : holds h1 hg).
      { intros c' k' Hc' He. unfold h1. destruct (Nat.eq_dec k' lc) as [->|Hne].
        - rewrite hupd_same. split; [now exists c|]. intros Hf. destruct (Nat.eq_dec c' c) as [->|Hcc]; [assumption|].
          rewrite (Hshare c' Hc' Hcc He) in Hf. discriminate.
        - rewrite hupd_other by assumption. now apply Hh. }
      assert (HA1 : allP h1 hg).
      { intros c' k' He. unfold h1. destruct (Nat.eq_dec k' lc) as [->|Hne]; [rewrite hupd_same; now exists c|].
        rewrite hupd_other by assumption. now apply HA in He. }
      assert (HM1 : mode h1 hg (shared cs ls)).
      { assert (HM' : mode h hg (shared cs ls)).
        { destruct (Nat.eqb k l) eqn:El; [|assumption].
          destruct HM as [(M1 & M2 & M3)|(M1 & M2)]; [left|right].
          - split; [assumption|]. split; [assumption|]. destruct M3 as [M3|[M3 M4]]; [left; now inversion M3|right].
            split; [assumption|]. now apply few_tail in M4.
          - split; [assumption|]. now inversion M2. }
        destruct HM' as [(M1 & M2 & M3)|(M1 & M2)]; [left|right].
        - split; [|now split]. unfold h1. rewrite hupd_other; [assumption|]. intros ->.
          specialize (M2 c HcX Ec). unfold isquiet in M2. congruence.
        - split; [|assumption]. unfold h1. destruct (Nat.eq_dec l lc) as [->|Hne].
          + rewrite hupd_same. now exists c.
          + now rewrite hupd_other. }
      destruct (IH ls gs h1 hg HA1 Hh1 Ha (items_write cs ls gs h hg lc _ c Ec HI) HM1) as (h' & hg' & He & R0 & R1 & R2 & R3 & R4).
      exists h', hg'. split; [exact He|]. split; [assumption|]. split; [assumption|]. split; [assumption|]. split.
      * rewrite R3. rewrite (sum_change X (hpg h hg) (hpg h1 hg) c (pn c g) HX HcX).
        -- now rewrite <- (kassoc K kplus kzero Hmon).
        -- unfold hpg. rewrite Ec. unfold h1. now rewrite hupd_same.
        -- intros x Hx Hne. unfold hpg. destruct (hg x) as [kx|] eqn:Ex; [|reflexivity].
           unfold h1. destruct (Nat.eq_dec kx lc) as [->|Hnk].
           ++ rewrite !Hqf0; [reflexivity| |]; now apply Hshare.
           ++ now rewrite hupd_other.
      * intros m km Hm Hnin Hqm Hkm. rewrite (R4 m km); auto; [|intros ?; apply Hnin; now right].
        unfold h1. apply hupd_other. intros ->. rewrite (Hshare m) in Hqm; auto; [discriminate|]. intros ->. apply Hnin. now left.
    + (* first contribution *)
      assert (Hset : k = l \/ ~ In k ls).
      { destruct (Nat.eqb k l) eqn:El; [left; now apply Nat.eqb_eq|right; apply Hk]. }
      assert (HI1 : items h (dset hg c k) cs ls gs).
      { apply items_set; auto. intros Hx. now apply Hq. }
      set (hg1 := dset hg c k) in *.
      assert (Hold : forall x kx, x <> c -> hg1 x = Some kx -> hg x = Some kx).
      { intros x kx Hne. unfold hg1. now rewrite dset_other. }
      assert (Hnew : hg1 c = Some k) by apply dset_same.
      (* what the new location holds *)
      assert (Hcv : P (h k) /\ (qf c = false -> h k = g)).
      { destruct (Nat.eqb k l) eqn:El.
        - apply Nat.eqb_eq in El. subst k g. destruct HM as [(M1 & _)|(M1 & M2)].
          + rewrite M1. now split.
          + split; [assumption|]. inversion M2; subst. unfold isqf in *. congruence.
        - destruct Hk as (-> & _). split; [now exists c|]. reflexivity. }
      destruct Hcv as [HcP Hcg].
      assert (Hh1 : holds h hg1).
      { intros c' k' Hc' He. destruct (Nat.eq_dec c' c) as [->|Hne].
        - rewrite Hnew in He. inversion He; subst k'. split; [assumption|]. intros Hf. now rewrite (Hcg Hf).
        - apply Hh; auto. }
      assert (HA1 : allP h hg1).
      { intros c' k' He. destruct (Nat.eq_dec c' c) as [->|Hne].
        - rewrite Hnew in He. inversion He; now subst k'.
        - apply Hold in He; [|assumption]. now apply HA in He. }
      assert (Ha0 : forall c' , In c' X -> c' <> c -> hg c' = Some k -> (quiet c = true /\ quiet c' = true) \/ qf c = true \/ qf c' = true).
      { intros c' Hc' Hne He. destruct (Nat.eqb k l) eqn:El.
        - apply Nat.eqb_eq in El. subst k. destruct HM as [(M1 & M2 & [M3|[M3 _]])|(_ & M2)].
          + left. inversion M3; subst. split; [assumption|]. now apply M2.
          + right. right. now apply M3.
          + right. left. now inversion M2.
        - destruct Hk as (_ & Hun & _). now specialize (Hun c'). }
      assert (Ha1 : apart hg1).
      { intros c1 c2 k' H1 H2 Hne E1 E2.
        destruct (Nat.eq_dec c1 c) as [->|N1]; [|destruct (Nat.eq_dec c2 c) as [->|N2]].
        - rewrite Hnew in E1. inversion E1; subst k'. apply Ha0; auto.
        - rewrite Hnew in E2. inversion E2; subst k'. destruct (Ha0 c1 H1 N1 (Hold _ _ N1 E1)) as [[? ?]|[?|?]]; auto.
        - apply (Ha c1 c2 k'); auto. }
      assert (HM1 : mode h hg1 (shared cs ls)).
      { destruct (Nat.eqb k l) eqn:El.
        - apply Nat.eqb_eq in El. subst k. destruct HM as [(M1 & M2 & [M3|[M3 M4]])|(M1 & M2)].
          + left. split; [assumption|]. inversion M3 as [|? ? Q1 Q2]; subst. split; [|now left].
            intros x Hx Hex. destruct (Nat.eq_dec x c) as [->|Hne]; [assumption|]. apply M2; auto.
          + destruct (qf c) eqn:Ef.
            * left. split; [assumption|].
              assert (Hall : forall x, In x X -> hg1 x = Some l -> isqf x).
              { intros x Hx Hex. destruct (Nat.eq_dec x c) as [->|Hne]; [exact Ef|]. apply M3; auto. }
              split; [intros x Hx Hex; apply Hqq; now apply Hall|]. right. split; [assumption|]. now apply few_tail in M4.
            * right. split; [rewrite M1; assumption|]. now apply few_cons in M4.
          + right. split; [assumption|]. now inversion M2.
        - assert (Hlo : forall x, hg1 x = Some l -> hg x = Some l).
          { intros x Hex. apply Hold; [|assumption]. intros ->. rewrite Hnew in Hex. inversion Hex; subst. now rewrite Nat.eqb_refl in El. }
          destruct HM as [(M1 & M2 & M3)|(M1 & M2)]; [left|now right].
          split; [assumption|]. split; [auto|]. destruct M3 as [M3|[M3 M4]]; [now left|right]. split; auto. }
      destruct (IH ls gs h hg1 HA1 Hh1 Ha1 HI1 HM1) as (h' & hg' & He & R0 & R1 & R2 & R3 & R4).
      exists h', hg'. split; [exact He|]. split; [assumption|]. split; [assumption|]. split; [assumption|]. split.
      * rewrite R3. rewrite (sum_change X (hpg h hg) (hpg h hg1) c (pn c g) HX HcX).
        -- now rewrite <- (kassoc K kplus kzero Hmon).
        -- unfold hpg. rewrite Ec, Hnew, (kzl K kplus kzero Hmon). destruct (qf c) eqn:Ef; [now rewrite !Hqf0|]. now rewrite Hcg.
        -- intros x Hx Hne. unfold hpg, hg1. now rewrite dset_other.
      * intros m km Hm Hnin Hqm Hkm. apply (R4 m km); auto; [intros ?; apply Hnin; now right|].
        unfold hg1. rewrite dset_other; [assumption|]. intros ->. apply Hnin. now left.
Qed.
End Loop.

(** *** placement *)
Fixpoint placed (l lo : nat) (sh : nat -> bool) (h : heap A) (i : nat) (ls : list nat) (gs : list A) : Prop :=
  match ls, gs with
  | [], [] => True
  | k :: ls', g :: gs' =>
      (if Nat.eqb k l then sh i = true else sh i = false /\ (lo <= k)%nat /\ h k = g /\ ~ In k ls') /\
      placed l lo sh h (S i) ls' gs'
  | _, _ => False
  end.
Lemma placed_lo l lo lo' sh h ls : forall i gs, (lo' <= lo)%nat -> placed l lo sh h i ls gs -> placed l lo' sh h i ls gs.
Proof.
  induction ls as [|k ls IH]; intros i [|g gs] Hlo; cbn [placed]; auto. intros [H1 H2]. split; [|now apply IH].
  destruct (Nat.eqb k l); [assumption|]. destruct H1 as (? & ? & ? & ?). repeat split; auto; lia.
Qed.
Lemma place_spec sh l gs : forall i h nx, (l < nx)%nat -> exists ls h' nx', place sh l i gs (h, nx) = (ls, (h', nx')) /\
  (nx <= nx')%nat /\ (forall k, (k < nx)%nat -> h' k = h k) /\ length ls = length gs /\
  (forall k, In k ls -> (k < nx')%nat) /\ (forall k, In k ls -> k = l \/ (nx <= k)%nat) /\ placed l nx sh h' i ls gs.
Proof.
  induction gs as [|g gs IH]; intros i h nx Hl; cbn [place].
  - exists [], h, nx. repeat split; auto; intros ? [].
  - cbn [fst snd]. destruct (sh i) eqn:Es.
    + destruct (IH (S i) h nx Hl) as (ls & h' & nx' & -> & B1 & B2 & B3 & B4 & B5 & B6).
      exists (l :: ls), h', nx'. split; [reflexivity|]. split; [assumption|]. split; [assumption|]. split; [cbn; lia|].
      split; [intros k [<-|Hk]; [lia|auto]|]. split; [intros k [<-|Hk]; auto|].
      cbn [placed]. rewrite Nat.eqb_refl. split; assumption.
    + destruct (IH (S i) (hupd h nx g) (S nx)) as (ls & h' & nx' & -> & B1 & B2 & B3 & B4 & B5 & B6); [lia|].
      exists (nx :: ls), h', nx'. split; [reflexivity|]. split; [lia|]. split.
      { intros k Hk. rewrite B2 by lia. apply hupd_other. lia. }
      split; [cbn; lia|]. split; [intros k [<-|Hk]; [lia|auto]|].
      split; [intros k [<-|Hk]; [right; lia|destruct (B5 k Hk); [now left|right; lia]]|].
      cbn [placed]. assert (Nat.eqb nx l = false) as -> by (apply Nat.eqb_neq; lia).
      split; [|now apply placed_lo with (S nx); [lia|]]. split; [assumption|]. split; [lia|]. split.
      * rewrite B2 by lia. apply hupd_same.
      * intros Hin. destruct (B5 _ Hin); lia.
Qed.
Lemma place_fresh sh l (gs : list A) : (forall i, sh i = false) -> forall i h nx,
  place sh l i gs (h, nx) = (seq nx (length gs), (halloc h nx gs, (nx + length gs)%nat)).
Proof.
  intros Hs. induction gs as [|g gs IH]; intros i h nx; cbn [place length seq halloc].
  - now rewrite Nat.add_0_r.
  - rewrite Hs. cbn [fst snd]. rewrite IH. f_equal. f_equal. lia.
Qed.

(** inputs that receive the array of the output's gradient *)
Fixpoint sharing (sh : nat -> bool) (i : nat) (cs : list nat) : list nat :=
  match cs with [] => [] | c :: cs' => if sh i then c :: sharing sh (S i) cs' else sharing sh (S i) cs' end.
Lemma shared_sharing sh l lo h cs : forall i ls gs, length ls = length cs -> placed l lo sh h i ls gs ->
  shared l cs ls = sharing sh i cs.
Proof.
  induction cs as [|c cs IH]; intros i [|k ls] [|g gs] Hl; cbn [placed shared sharing length] in *; try discriminate; auto; try contradiction.
  intros [H1 H2]. rewrite (IH (S i) ls gs); [|lia|assumption]. destruct (Nat.eqb k l); [now rewrite H1|]. destruct H1 as [-> _]. reflexivity.
Qed.

(** *** the whole backward pass *)
Variable g : graph.
Hypothesis Hnd : NoDup (keys g).
Hypothesis Hadj : forall n, In n (keys g) -> adj g n = inputs n.
Variable vals : dict V.
Hypothesis Hvals : forall n, In n (keys g) -> exists v, vals n = Some v /\ Den n v.
Hypothesis Hclosed : forall n c, In n (keys g) -> In c (inputs n) -> In c (keys g).
Hypothesis Hpb : forall n ivs a, In n (keys g) -> Forall2 Den (inputs n) ivs -> inputs n <> [] -> gok n a ->
  exists gs, pb n ivs a = Ok gs /\ Forall2 gok (inputs n) gs /\ sum_pn (inputs n) gs = pn n a /\
    forall i x, share n ivs i = true -> nth_error gs i = Some x -> x = a.
Hypothesis Hleaf : forall n a, In n (keys g) -> inputs n = [] -> P a -> exists gs, pb n [] a = Ok gs.
Hypothesis Hshare : forall n ivs, In n (keys g) -> Forall2 Den (inputs n) ivs ->
  Forall isquiet (sharing (share n ivs) 0 (inputs n)) \/ few (sharing (share n ivs) 0 (inputs n)).
Hypothesis Hheavy : forall n ivs i, In n (keys g) -> heavy n = true -> share n ivs i = false.
Hypothesis Hhq : forall n, heavy n = true -> qf n = false.
Hypothesis Hql : forall n, quiet n = true -> inputs n = [].
Hypothesis Hq1 : forall n l1 c l2, In n (keys g) -> inputs n = l1 ++ c :: l2 -> quiet c = true -> ~ In c l2.
Hypothesis Hq2 : forall n n' c, In n (keys g) -> In n' (keys g) -> In c (inputs n) -> In c (inputs n') -> quiet c = true -> n = n'.
Hypothesis Hind : heavy_independent inputs heavy.
Variable out : nat.
Hypothesis Hqo : quiet out = false.
Variable seed : A.
Hypothesis Hseed : gok out seed.

Definition HInv (D L R : list nat) (h : heap A) (nx : nat) (hg : dict nat) : Prop :=
  NoDup (R ++ L) /\ NoDup (D ++ R) /\ incl D (keys g) /\
  sumK (R ++ L) (hpg h hg) = pn out seed /\ (allP h hg /\ holds (R ++ L) h hg) /\ apart (R ++ L) hg /\
  (forall c k, hg c = Some k -> (k < nx)%nat) /\
  hg out <> None /\ (forall n c, In n D -> In c (inputs n) -> hg c <> None) /\
  (forall c, quiet c = true -> hg c <> None -> exists n, In n D /\ In c (inputs n)).

Lemma HInv_alloc D L R h nx hg h1 nx1 : HInv D L R h nx hg -> (nx <= nx1)%nat -> (forall k, (k < nx)%nat -> h1 k = h k) ->
  HInv D L R h1 nx1 hg.
Proof.
  intros (B1 & B2 & B3 & B4 & B5 & B6 & B7 & B8 & B9 & B10) Hnx Hh.
  split; [assumption|]. split; [assumption|]. split; [assumption|]. split.
  { rewrite <- B4. apply sumK_ext. intros n Hn. unfold hpg. destruct (hg n) as [k|] eqn:E; [|reflexivity]. rewrite Hh; [reflexivity|]. now apply B7 in E. }
  destruct B5 as [B0 B5]. split. { split; intros c k. - intros E. rewrite Hh by (now apply B7 in E). now apply B0 in E. - intros Hc E. rewrite Hh by (now apply B7 in E). now apply B5. }
  split; [assumption|]. split; [|now repeat split]. intros c k E. apply B7 in E. lia.
Qed.

Definition hleaf (n : nat) : bool := match inputs n with [] => true | _ => false end.
Definition hlv (ns L : list nat) : list nat := fold_left (fun L n => if hleaf n then n :: L else L) ns L.

Lemma items_intro X l gv lo sh h hg : (forall c k, hg c = Some k -> k = l \/ (k < lo)%nat) -> (l < lo)%nat ->
  forall cs i ls gs, incl cs X -> Forall2 gok cs gs -> length ls = length cs ->
  (forall l1 c l2, cs = l1 ++ c :: l2 -> quiet c = true -> hg c = None /\ ~ In c l2) ->
  (forall j x, sh (i + j)%nat = true -> nth_error gs j = Some x -> x = gv) ->
  placed l lo sh h i ls gs -> items X l gv h hg cs ls gs.
Proof.
  intros Hun Hl. induction cs as [|c cs IH]; intros i ls gs Hi HF Hlen Hq Hs HP; inversion HF as [|? x ? gs' Hx HF']; subst;
    destruct ls as [|k ls]; try discriminate; cbn [items]; [exact I|].
  cbn [placed] in HP. destruct HP as [H1 H2].
  split; [apply Hi; now left|]. split; [assumption|]. split; [now apply (Hq [] c cs)|]. split.
  - destruct (Nat.eqb k l) eqn:El.
    + apply (Hs 0%nat x); [now rewrite Nat.add_0_r|reflexivity].
    + destruct H1 as (_ & Hlo & Hv & Hn). split; [assumption|]. split; [|assumption].
      intros c' Hc'. apply Hun in Hc' as [->|Hlt]; [now rewrite Nat.eqb_refl in El|lia].
  - apply (IH (S i)); auto.
    + intros y Hy. apply Hi. now right.
    + intros l1 y l2 He. apply (Hq (c :: l1) y l2). cbn [app]. now rewrite He.
    + intros j y Hj Hy. apply (Hs (S j) y); [|assumption]. now replace (i + S j)%nat with (S i + j)%nat by lia.
Qed.

Lemma HInv_leaf D L R h nx hg n : HInv D L (n :: R) h nx hg -> In n (keys g) -> inputs n = [] -> HInv (D ++ [n]) (n :: L) R h nx hg.
Proof.
  intros (B1 & B2 & B3 & B4 & B5 & B6 & B7 & B8 & B9 & B10) Hn Hin.
  assert (HP : Permutation ((n :: R) ++ L) (R ++ n :: L)) by apply Permutation_middle.
  assert (HX : forall c, In c (R ++ n :: L) -> In c ((n :: R) ++ L)) by (intros c; apply (Permutation_in _ (Permutation_sym HP))).
  split; [exact (Permutation_NoDup HP B1)|]. split; [rewrite <- app_assoc; exact B2|].
  split. { intros x Hx. apply in_app_or in Hx as [?|[<-|[]]]; auto. }
  split; [now rewrite <- (sumK_perm K kplus kzero Hmon _ _ _ HP)|].
  split; [split; [apply B5|intros c k Hc; apply B5; auto]|]. split; [intros c c' k Hc Hc'; apply B6; auto|].
  split; [assumption|]. split; [assumption|]. split.
  - intros m c Hm Hc. apply in_app_or in Hm as [Hm|[<-|[]]]; [now apply B9 with m|]. rewrite Hin in Hc. destruct Hc.
  - intros c Hc He. destruct (B10 c Hc He) as (m & Hm & Hmc). exists m. split; [|assumption]. apply in_or_app. now left.
Qed.

Lemma notin_D (D R : list nat) n : NoDup (D ++ n :: R) -> ~ In n D.
Proof. intros H Hin. apply NoDup_remove_2 in H. apply H, in_or_app. now left. Qed.

(** one node with inputs; the returned gradients are already in memory *)
Lemma hupdate_step D L R h nx hg n ivs l ls gs :
  HInv D L (n :: R) h nx hg -> hg n = Some l -> In n (keys g) -> inputs n <> [] -> Forall2 Den (inputs n) ivs ->
  incl (inputs n) R ->
  Forall2 gok (inputs n) gs -> sum_pn (inputs n) gs = pn n (h l) -> gok n (h l) -> length ls = length (inputs n) ->
  (forall X, incl (inputs n) X -> items X l (h l) h hg (inputs n) ls gs) ->
  shared l (inputs n) ls = sharing (share n ivs) 0 (inputs n) -> (forall k, In k ls -> (k < nx)%nat) ->
  exists h' hg', hadd_grads gadd (inputs n) ls h hg = (h', hg') /\ HInv (D ++ [n]) L R h' nx hg' /\
    (forall m k, In m (R ++ L) -> ~ In m (inputs n) -> qf m = false -> hg m = Some k -> h' k = h k).
Proof.
  intros (B1 & B2 & B3 & B4 & B5 & B6 & B7 & B8 & B9 & B10) Hl Hn Hne HF Hi HG Hsum Hok Hlen HI Hsh Hls.
  cbn [app] in B1. inversion B1 as [|? ? Hnin B1']; subst.
  assert (Hnq : quiet n = false) by (destruct (quiet n) eqn:E; [apply Hql in E; congruence|reflexivity]).
  assert (Hnf : qf n = false) by (destruct (qf n) eqn:E; [apply Hqq in E; congruence|reflexivity]).
  assert (HX : forall c, In c (R ++ L) -> In c ((n :: R) ++ L)) by (intros c Hc; now right).
  destruct (hadd_main (R ++ L) B1' l (h l) (ex_intro _ n Hok) (inputs n) ls gs h hg) as (h' & hg' & He & R0 & R1 & R2 & R3 & R4).
  - apply B5.
  - intros c k Hc E. apply B5; auto.
  - intros c c' k Hc Hc'. apply B6; auto.
  - apply HI. intros c Hc. apply in_or_app. left. now apply Hi.
  - assert (Hhold : forall c, In c (R ++ L) -> hg c = Some l -> isqf c).
    { intros c Hc E. destruct (B6 n c l (or_introl eq_refl) (HX c Hc)) as [[? _]|[?|?]]; try assumption; congruence. }
    left. split; [reflexivity|]. split; [intros c Hc E; apply Hqq; now apply Hhold|].
    rewrite Hsh. destruct (Hshare n ivs Hn HF) as [H|H]; [now left|right; now split].
  - exists h', hg'. split; [assumption|]. split; [|assumption].
    split; [assumption|]. split; [rewrite <- app_assoc; exact B2|].
    split. { intros x Hx. apply in_app_or in Hx as [?|[<-|[]]]; auto. }
    split. { rewrite R3, Hsum. cbn [app GraphExec_Proofs3.sumK] in B4. unfold hpg at 1 in B4. rewrite Hl in B4.
             rewrite (kcomm K kplus kzero Hmon). exact B4. }
    split; [now split|]. split; [assumption|].
    split. { apply (hadd_below _ _ _ _ _ _ nx He); [exact B7|exact Hls]. }
    split. { destruct (hg out) as [ko|] eqn:E; [|congruence]. rewrite (hadd_mono _ _ _ _ _ _ out ko He E). discriminate. }
    split.
    + intros m c Hm Hc. apply in_app_or in Hm as [Hm|[<-|[]]].
      * specialize (B9 m c Hm Hc). destruct (hg c) as [kc|] eqn:E; [|congruence]. rewrite (hadd_mono _ _ _ _ _ _ c kc He E). discriminate.
      * now apply (hadd_some _ _ _ _ _ _ c He).
    + intros c Hc E. destruct (in_dec Nat.eq_dec c (inputs n)) as [Hin|Hout].
      * exists n. split; [apply in_or_app; right; now left|assumption].
      * rewrite (hadd_other _ _ _ _ _ _ c He Hout) in E. destruct (B10 c Hc E) as (m & Hm & Hmc).
        exists m. split; [apply in_or_app; now left|assumption].
Qed.

Lemma quiet_unset D L R h nx hg n : HInv D L (n :: R) h nx hg -> In n (keys g) ->
  forall l1 c l2, inputs n = l1 ++ c :: l2 -> quiet c = true -> hg c = None /\ ~ In c l2.
Proof.
  intros (B1 & B2 & B3 & B4 & B5 & B6 & B7 & B8 & B9 & B10) Hn l1 c l2 He Hq.
  split; [|now apply (Hq1 n l1)]. destruct (hg c) as [k|] eqn:E; [|reflexivity]. exfalso.
  destruct (B10 c Hq) as (m & Hm & Hmc); [congruence|].
  assert (Hc : In c (inputs n)) by (rewrite He; apply in_or_app; right; now left).
  assert (m = n) by (apply (Hq2 m n c); auto). subst m. now apply (notin_D D R n).
Qed.

Hypothesis Hhaspar : forall n, In n (keys g) -> n = out \/ exists m, In m (keys g) /\ In n (inputs m).

Lemma hgrads_ready D L R h nx hg n : HInv D L R h nx hg -> In n (keys g) ->
  (forall m, In m (keys g) -> In n (inputs m) -> In m D) -> exists k, hg n = Some k.
Proof.
  intros (_ & _ & _ & _ & _ & _ & _ & B8 & B9 & _) Hn Hp. destruct (hg n) as [k|] eqn:E; [now exists k|].
  exfalso. destruct (Hhaspar n Hn) as [->|(m & Hm & Hc)]; [congruence|]. apply (B9 m n); auto.
Qed.

Lemma hget_inputs n : In n (keys g) -> exists ivs, get_inputs g vals n = Ok ivs /\ Forall2 Den (inputs n) ivs.
Proof.
  intros Hn. unfold get_inputs. rewrite Hadj by assumption.
  assert (Hc : forall c, In c (inputs n) -> In c (keys g)) by (intros c; now apply Hclosed).
  induction (inputs n) as [|c l IH]; cbn [mapM].
  - exists []. split; [reflexivity|constructor].
  - destruct (Hvals c) as (v & Hv & Hd); [apply Hc; now left|].
    unfold dget at 1. rewrite Hv. cbn [bind].
    destruct IH as (ivs & -> & HF); [intros x Hx; apply Hc; now right|].
    cbn [bind]. exists (v :: ivs). split; [reflexivity|]. now constructor.
Qed.

Lemma HInv_gok D L R h nx hg n k : HInv D L (n :: R) h nx hg -> hg n = Some k -> inputs n <> [] -> gok n (h k).
Proof.
  intros (_ & _ & _ & _ & [_ B5] & _) E Hne. apply (B5 n k); [now left|assumption|].
  destruct (qf n) eqn:Ef; [|reflexivity]. apply Hqq, Hql in Ef. congruence.
Qed.

Lemma hgrad_light_step D L R h nx hg n :
  HInv D L (n :: R) h nx hg -> In n (keys g) -> incl (inputs n) R ->
  (forall m, In m (keys g) -> In n (inputs m) -> In m D) ->
  exists h' nx' hg', hgrad_light g gadd hpb vals (h, nx) hg n = Ok ((h', nx'), hg') /\ HInv (D ++ [n]) (hlv [n] L) R h' nx' hg'.
Proof.
  intros HB Hn Hi Hp. destruct (hgrads_ready _ _ _ _ _ _ n HB Hn Hp) as (l & Hl).
  destruct (hget_inputs n Hn) as (ivs & Hiv & HF).
  assert (Hlx : (l < nx)%nat) by (destruct HB as (_ & _ & _ & _ & _ & _ & B7 & _); now apply B7 in Hl).
  unfold hgrad_light. rewrite Hiv. cbn [bind]. unfold dget. rewrite Hl. cbn [bind]. unfold hpb. cbn [fst].
  unfold hlv, hleaf. cbn [fold_left]. destruct (inputs n) as [|c0 cs0] eqn:Ein.
  - inversion HF; subst ivs.
    destruct (Hleaf n (h l) Hn Ein) as (gs & ->).
    { destruct HB as (_ & _ & _ & _ & [_ B5] & _). apply (B5 n l); [now left|assumption]. }
    cbn [bind]. destruct (place_spec (share n []) l gs 0 h nx Hlx) as (ls & h1 & nx1 & -> & P1 & P2 & _).
    rewrite Hadj, Ein by assumption. cbn [hadd_grads]. exists h1, nx1, hg. split; [reflexivity|].
    apply HInv_leaf; auto. now apply HInv_alloc with h nx.
  - assert (Hne : inputs n <> []) by (rewrite Ein; discriminate). rewrite <- Ein in *.
    assert (Hok := HInv_gok _ _ _ _ _ _ n l HB Hl Hne).
    destruct (Hpb n ivs (h l) Hn HF Hne Hok) as (gs & -> & HG & Hsum & Hsv). cbn [bind].
    destruct (place_spec (share n ivs) l gs 0 h nx Hlx) as (ls & h1 & nx1 & -> & P1 & P2 & P3 & P4 & P5 & P6).
    assert (HlG : length gs = length (inputs n)) by (clear - HG; induction HG; cbn; lia).
    rewrite Hadj by assumption.
    assert (HB1 := HInv_alloc _ _ _ _ _ _ h1 nx1 HB P1 P2).
    assert (Hv : h1 l = h l) by now apply P2.
    destruct (hupdate_step D L R h1 nx1 hg n ivs l ls gs) as (h' & hg' & -> & HB' & _); auto; try (rewrite Hv; assumption); try lia.
    + intros X HX. apply (items_intro X l (h1 l) nx (share n ivs) h1 hg) with (i := 0%nat); auto; try lia.
      * intros c k E. right. destruct HB as (_ & _ & _ & _ & _ & _ & B7 & _). now apply B7 in E.
      * apply (quiet_unset _ _ _ _ _ _ n HB Hn).
      * intros j x Hj Hx. rewrite Hv. now apply (Hsv j x).
    + apply (shared_sharing (share n ivs) l nx h1) with (gs := gs); [lia|assumption].
    + exists h', nx1, hg'. split; [reflexivity|]. exact HB'.
Qed.

(** *** blocks of expensive nodes *)
Lemma hpb_all_fresh args : forall h nx gss,
  Forall (fun x => (snd x < nx)%nat) args -> Forall (fun x => forall i, share (fst (fst x)) (snd (fst x)) i = false) args ->
  Forall2 (fun x gs => pb (fst (fst x)) (snd (fst x)) (h (snd x)) = Ok gs) args gss ->
  exists lss h' nx', hpb_all hpb args (h, nx) = Ok (lss, (h', nx')) /\ (nx <= nx')%nat /\ (forall k, (k < nx)%nat -> h' k = h k) /\
    NoDup (concat lss) /\ (forall k, In k (concat lss) -> (nx <= k < nx')%nat) /\ Forall2 (fun ls gs => map h' ls = gs) lss gss.
Proof.
  induction args as [|[[n ivs] l] args IH]; intros h nx gss H1 H2 HF; inversion HF as [|? gs ? gss' Hg HF']; subst; cbn [hpb_all].
  - exists [], h, nx. split; [reflexivity|]. split; [lia|]. split; [auto|]. split; [constructor|]. split; [intros ? []|constructor].
  - inversion H1 as [|? ? Hl H1']; subst. inversion H2 as [|? ? Hs H2']; subst. cbn [fst snd] in *.
    assert (He : hpb n ivs l (h, nx) = Ok (seq nx (length gs), (halloc h nx gs, (nx + length gs)%nat))).
    { unfold hpb. cbn [fst]. rewrite Hg. cbn [bind]. now rewrite (place_fresh _ l gs Hs). }
    rewrite He. cbn [bind].
    destruct (IH (halloc h nx gs) (nx + length gs)%nat gss') as (lss & h' & nx' & Hall & B1 & B2 & B3 & B4 & B5).
    + clear - H1'. induction H1'; constructor; auto; lia.
    + assumption.
    + clear - HF' H1'. revert H1'. induction HF' as [|x gs' args gss' Hx HF IH]; intros H1; constructor; inversion H1; subst.
      * rewrite halloc_old by assumption. exact Hx.
      * now apply IH.
    + exists (seq nx (length gs) :: lss), h', nx'.
      split; [exact (f_equal (fun r => bind r (fun '(lss0, m2) => Ok (seq nx (length gs) :: lss0, m2))) Hall)|]. split; [lia|]. split.
      { intros k Hk. rewrite B2 by lia. apply halloc_old. lia. }
      cbn [concat]. split.
      { assert (Hd : forall k, In k (seq nx (length gs)) -> ~ In k (concat lss)).
        { intros k Hk Hin. apply in_seq in Hk. apply B4 in Hin. lia. }
        clear - B3 Hd. revert Hd. generalize (seq_NoDup (length gs) nx). generalize (seq nx (length gs)). intros L HL Hd.
        induction L as [|y L IHL]; [exact B3|]. inversion HL; subst. cbn [app]. constructor.
        + intros Hin. apply in_app_or in Hin as [?|Hin]; [contradiction|]. apply (Hd y); [now left|assumption].
        + apply IHL; [assumption|]. intros k Hk. apply Hd. now right. }
      split. { intros k Hk. apply in_app_or in Hk as [Hk|Hk]; [apply in_seq in Hk; lia|apply B4 in Hk; lia]. }
      constructor; [|assumption].
      transitivity (map (halloc h nx gs) (seq nx (length gs))); [|apply halloc_new].
      apply map_ext_in. intros k Hk. apply in_seq in Hk. apply B2. lia.
Qed.

Lemma hupdate_block_step blk : forall D L R h nx hg lss gss,
  HInv D L (blk ++ R) h nx hg -> incl blk (keys g) -> Forall (fun n => heavy n = true) blk ->
  (forall n, In n blk -> incl (inputs n) R) ->
  NoDup (concat lss) -> (forall k, In k (concat lss) -> (k < nx)%nat /\ forall c, hg c <> Some k) ->
  Forall2 (fun ls gs => map h ls = gs) lss gss ->
  Forall2 (fun n gs => exists ivs l, Forall2 Den (inputs n) ivs /\ hg n = Some l /\ pb n ivs (h l) = Ok gs) blk gss ->
  exists h' hg', hupdate_block g gadd blk lss h hg = (h', hg') /\ HInv (D ++ blk) (hlv blk L) R h' nx hg'.
Proof.
  induction blk as [|n blk IH]; intros D L R h nx hg lss gss HB Hk Hh Hi HN Hun Hv HF; inversion HF as [|? gs ? gss' Hgs HF']; subst.
  - inversion Hv; subst. cbn [hupdate_block]. exists h, hg. rewrite app_nil_r. now split.
  - inversion Hv as [|ls ? lss' ? Hvl Hv']; subst. cbn [hupdate_block concat] in *.
    destruct Hgs as (ivs & l & HFi & Hl & Hp). inversion Hh as [|? ? Hhn Hh']; subst.
    assert (Hn : In n (keys g)) by (apply Hk; now left).
    assert (HN2 : NoDup (concat lss')).
    { clear - HN. induction ls as [|x ls IHl]; [assumption|]. apply IHl. now inversion HN. }
    assert (HN1 : NoDup ls).
    { clear - HN. induction ls as [|x ls IHl]; [constructor|]. inversion HN; subst. constructor; [|now apply IHl].
      intros Hin. apply H1, in_or_app. now left. }
    assert (Hdisj : forall k, In k (concat lss') -> ~ In k ls).
    { intros k Hk1 Hk2. clear - HN Hk1 Hk2. induction ls as [|x ls IHl]; [destruct Hk2|]. inversion HN; subst.
      destruct Hk2 as [->|Hk2]; [|now apply IHl]. apply H1, in_or_app. now right. }
    rewrite Hadj by assumption.
    assert (Hstep : exists h1 hg1, hadd_grads gadd (inputs n) ls h hg = (h1, hg1) /\
       HInv (D ++ [n]) (if hleaf n then n :: L else L) (blk ++ R) h1 nx hg1 /\
       (forall m k, In m ((blk ++ R) ++ L) -> ~ In m (inputs n) -> qf m = false -> hg m = Some k -> h1 k = h k)).
    { unfold hleaf. destruct (inputs n) as [|c0 cs0] eqn:Ein.
      - cbn [hadd_grads]. exists h, hg. split; [reflexivity|]. split; [now apply HInv_leaf|reflexivity].
      - assert (Hne : inputs n <> []) by (rewrite Ein; discriminate). rewrite <- Ein in *.
        assert (Hok := HInv_gok _ _ _ _ _ _ n l HB Hl Hne).
        destruct (Hpb n ivs (h l) Hn HFi Hne Hok) as (gs0 & Hp0 & HG & Hsum & _).
        rewrite Hp in Hp0. inversion Hp0; subst gs0. clear Hp0.
        assert (HlG : length ls = length (inputs n)).
        { rewrite <- (map_length h ls). clear - HG. induction HG; cbn; lia. }
        assert (Hnl : forall k, In k ls -> Nat.eqb k l = false).
        { intros k Hkl. apply Nat.eqb_neq. intros ->. destruct (Hun l) as [_ Hx]; [apply in_or_app; now left|]. now apply (Hx n). }
        apply (hupdate_step D L (blk ++ R) h nx hg n ivs l ls (map h ls)); auto.
        + intros c Hc. apply in_or_app. right. apply (Hi n); [now left|assumption].
        + intros X HX.
          assert (Hq : forall l1 c l2, inputs n = l1 ++ c :: l2 -> quiet c = true -> hg c = None /\ ~ In c l2)
            by apply (quiet_unset _ _ _ _ _ _ n HB Hn).
          assert (Huh : forall k, In k ls -> forall c, hg c <> Some k) by (intros k Hkl; apply Hun, in_or_app; now left).
          clear - HX Hq HG HlG Hnl HN1 Huh. revert ls HlG Hnl HN1 HG Huh HX Hq.
          induction (inputs n) as [|c cs IHc]; intros [|k ls] HlG Hnl HN1 HG Huh HX Hq; try discriminate; cbn [map items]; [exact I|].
          cbn [map] in HG. inversion HG; subst. inversion HN1; subst.
          split; [apply HX; now left|]. split; [assumption|]. split; [now apply (Hq [] c cs)|].
          split.
          * rewrite (Hnl k) by now left. split; [reflexivity|]. split; [apply Huh; now left|assumption].
          * apply IHc; auto.
            -- intros k' Hk'. apply Hnl. now right.
            -- intros k' Hk'. apply Huh. now right.
            -- intros y Hy. apply HX. now right.
            -- intros l1 y l2 He. apply (Hq (c :: l1) y l2). cbn [app]. now rewrite He.
        + assert (Hs0 : forall i cs, sharing (share n ivs) i cs = []).
          { intros i cs. revert i. induction cs as [|c cs IHc]; intros i; cbn [sharing]; [reflexivity|]. rewrite Hheavy by assumption. apply IHc. }
          rewrite Hs0. clear - HlG Hnl. revert ls HlG Hnl. induction (inputs n) as [|c cs IHc]; intros [|k ls] HlG Hnl; try discriminate; cbn [shared]; [reflexivity|].
          rewrite (Hnl k) by now left. apply IHc; [cbn in HlG; lia|]. intros k' Hk'. apply Hnl. now right.
        + intros k Hkl. apply Hun, in_or_app. now left. }
    destruct Hstep as (h1 & hg1 & He & HB1 & Hfr). rewrite He.
    assert (Hfr2 : forall k, In k (concat lss') -> h1 k = h k /\ forall c, hg1 c <> Some k).
    { intros k Hkl. apply (hadd_frame _ _ _ _ _ _ k He); [|now apply Hdisj]. apply Hun, in_or_app. now right. }
    destruct (IH (D ++ [n]) (if hleaf n then n :: L else L) R h1 nx hg1 lss' gss') as (h' & hg' & -> & HB'); auto.
    + intros m Hm. apply Hk. now right.
    + intros m Hm. apply Hi. now right.
    + intros k Hkl. split; [apply Hun, in_or_app; now right|]. now apply Hfr2.
    + clear - Hv' Hfr2. induction Hv' as [|ls gs lss gss Hx Hv IHv]; constructor.
      * rewrite <- Hx. apply map_ext_in. intros k Hkl. apply Hfr2. cbn [concat]. apply in_or_app. now left.
      * apply IHv. intros k Hkl. apply Hfr2. cbn [concat]. apply in_or_app. now right.
    + assert (Hni : forall m, In m blk -> ~ In m (inputs n)).
      { intros m Hm Hc. rewrite Forall_forall in Hh'. assert (Hlm := Hind n m Hhn Hc). rewrite (Hh' m Hm) in Hlm. discriminate. }
      assert (Hinb : forall m, In m blk -> In m ((blk ++ R) ++ L)) by (intros m Hm; apply in_or_app; left; apply in_or_app; now left).
      assert (Hqb : forall m, In m blk -> qf m = false) by (intros m Hm; rewrite Forall_forall in Hh'; now apply Hhq, Hh').
      assert (Hsame : forall m l, In m blk -> hg m = Some l -> h1 l = h l /\ hg1 m = Some l).
      { intros m lm Hm Hlm. split; [apply (Hfr m lm); auto|]. rewrite (hadd_other _ _ _ _ _ _ m He); auto. }
      clear - HF' Hsame. induction HF' as [|m gs blk gss (ivs & lm & A1 & A2 & A3) HF IHF]; constructor.
      * exists ivs, lm. destruct (Hsame m lm) as [H1 H2]; [now left|assumption|]. rewrite H1. auto.
      * apply IHF. intros m' l' Hm'. apply Hsame. now right.
    + exists h', hg'. split; [reflexivity|]. rewrite <- app_assoc in HB'. exact HB'.
Qed.

Lemma hgrad_block_step blk D L R h nx hg :
  HInv D L (blk ++ R) h nx hg -> incl blk (keys g) -> Forall (fun n => heavy n = true) blk ->
  (forall n, In n blk -> incl (inputs n) R) ->
  (forall n m, In n blk -> In m (keys g) -> In n (inputs m) -> In m D) ->
  exists h' nx' hg', hgrad_block g gadd hpb vals (h, nx) hg blk = Ok ((h', nx'), hg') /\
    HInv (D ++ blk) (hlv blk L) R h' nx' hg'.
Proof.
  intros HB Hk Hh Hi Hp.
  assert (Hargs : exists args gss,
     mapM (fun n => bind (get_inputs g vals n) (fun a => bind (dget hg n) (fun l => Ok (n, a, l)))) blk = Ok args /\
     Forall (fun x => (snd x < nx)%nat) args /\
     Forall (fun x => forall i, share (fst (fst x)) (snd (fst x)) i = false) args /\
     Forall2 (fun x gs => pb (fst (fst x)) (snd (fst x)) (h (snd x)) = Ok gs) args gss /\
     Forall2 (fun n gs => exists ivs l, Forall2 Den (inputs n) ivs /\ hg n = Some l /\ pb n ivs (h l) = Ok gs) blk gss).
  { assert (Hr : forall n, In n blk -> exists l, hg n = Some l /\ (l < nx)%nat /\ P (h l) /\ (inputs n <> [] -> gok n (h l))).
    { intros n Hn. destruct (hgrads_ready D L (blk ++ R) h nx hg n HB (Hk n Hn) (fun m => Hp n m Hn)) as (l & Hl).
      exists l. split; [assumption|]. destruct HB as (_ & _ & _ & _ & [_ B5] & _ & B7 & _).
      split; [now apply B7 in Hl|]. destruct (B5 n l) as [H1 H2]; auto; [apply in_or_app; left; apply in_or_app; now left|].
      split; [assumption|]. intros _. apply H2. rewrite Forall_forall in Hh. now apply Hhq, Hh. }
    clear HB Hi Hp. induction blk as [|n blk IH]; cbn [mapM].
    - exists [], []. repeat split; constructor.
    - destruct (Hr n) as (l & Hl & Hlx & HPl & Hgl); [now left|].
      assert (Hn : In n (keys g)) by (apply Hk; now left). inversion Hh as [|? ? Hhn Hh']; subst.
      destruct (hget_inputs n Hn) as (ivs & -> & HF). cbn [bind]. unfold dget at 1. rewrite Hl. cbn [bind].
      destruct IH as (args & gss & -> & A1 & A2 & A3 & A4); [intros m Hm; apply Hk; now right|assumption|intros m Hm; apply Hr; now right|].
      cbn [bind].
      assert (Hgs : exists gs, pb n ivs (h l) = Ok gs).
      { destruct (inputs n) as [|c0 cs0] eqn:Ein.
        - inversion HF; subst. now apply Hleaf.
        - assert (Hne : inputs n <> []) by (rewrite Ein; discriminate). rewrite <- Ein in *.
          destruct (Hpb n ivs (h l) Hn HF Hne (Hgl Hne)) as (gs & Hgs & _). now exists gs. }
      destruct Hgs as (gs & Hgs). exists ((n, ivs, l) :: args), (gs :: gss). split; [reflexivity|].
      split; [constructor; assumption|]. split; [constructor; [intros i; now apply Hheavy|assumption]|].
      split; constructor; try assumption. exists ivs, l. auto. }
  destruct Hargs as (args & gss & Ha & A1 & A2 & A3 & A4).
  unfold hgrad_block. rewrite Ha. cbn [bind].
  destruct (hpb_all_fresh args h nx gss A1 A2 A3) as (lss & h1 & nx1 & Hall & B1 & B2 & B3 & B4 & B5).
  assert (HB1 := HInv_alloc _ _ _ _ _ _ h1 nx1 HB B1 B2).
  assert (Hbel : forall c k, hg c = Some k -> (k < nx)%nat) by (destruct HB as (_ & _ & _ & _ & _ & _ & B7 & _); exact B7).
  destruct (hupdate_block_step blk D L R h1 nx1 hg lss gss) as (h' & hg' & Hu & HB'); auto.
  - intros k Hkl. specialize (B4 k Hkl). split; [lia|]. intros c Hc. apply Hbel in Hc. lia.
  - clear - A4 B2 Hbel. induction A4 as [|n gs blk gss (ivs & l & C1 & C2 & C3) A4 IH]; constructor; [|assumption].
    exists ivs, l. rewrite B2 by (now apply Hbel in C2). auto.
  - exists h', nx1, hg'. split; [|assumption].
    transitivity (bind (Ok (lss, (h1, nx1))) (fun '(lss0, (h'0, nx0)) =>
      let (h'', hg'0) := hupdate_block g gadd blk lss0 h'0 hg in Ok (h'', nx0, hg'0))).
    + exact (f_equal (fun r => bind r (fun '(lss0, (h'0, nx0)) =>
        let (h'', hg'0) := hupdate_block g gadd blk lss0 h'0 hg in Ok (h'', nx0, hg'0))) Hall).
    + cbn [bind]. now rewrite Hu.
Qed.

Lemma hlv_app a b L : hlv (a ++ b) L = hlv b (hlv a L).
Proof. unfold hlv. now rewrite fold_left_app. Qed.

Lemma hgrad_loop_spec sched : forall D blk L h nx hg,
  HInv D L (blk ++ sched) h nx hg -> incl (blk ++ sched) (keys g) ->
  Forall (fun n => heavy n = true) blk ->
  (forall n m, In n blk -> In m (keys g) -> In n (inputs m) -> In m D) ->
  (forall l1 n l2 m, sched = l1 ++ n :: l2 -> In m (keys g) -> In n (inputs m) -> In m (D ++ blk ++ l1)) ->
  (forall n, In n blk -> incl (inputs n) sched) ->
  (forall l1 n l2, sched = l1 ++ n :: l2 -> incl (inputs n) l2) ->
  exists h' nx' hg', hgrad_loop g heavy gadd hpb vals sched blk (h, nx) hg = Ok ((h', nx'), hg') /\
    HInv (D ++ blk ++ sched) (hlv (blk ++ sched) L) [] h' nx' hg'.
Proof.
  induction sched as [|n sched IH]; intros D blk L h nx hg HB Hk Hh Hbp Hsp Hbi Hsi; cbn [hgrad_loop].
  - rewrite app_nil_r in *. destruct blk as [|b blk].
    + exists h, nx, hg. rewrite app_nil_r. now split.
    + apply hgrad_block_step; auto. now rewrite app_nil_r.
  - assert (Hn : In n (keys g)) by (apply Hk, in_or_app; right; now left).
    assert (Hlight : forall Q L' h nx hg, Q = D ++ blk -> L' = hlv blk L -> HInv Q L' (n :: sched) h nx hg ->
       exists h' nx' hg', bind (hgrad_light g gadd hpb vals (h, nx) hg n) (fun '(m', hg') =>
                   hgrad_loop g heavy gadd hpb vals sched [] m' hg') = Ok ((h', nx'), hg') /\
         HInv (D ++ blk ++ n :: sched) (hlv (blk ++ n :: sched) L) [] h' nx' hg').
    { clear h nx hg HB. intros Q L' h nx hg HQ HL' HB.
      destruct (hgrad_light_step Q L' sched h nx hg n) as (h1 & nx1 & hg1 & -> & HB1); try assumption.
      - apply (Hsi [] n sched eq_refl).
      - intros m Hm Hc. subst Q. specialize (Hsp [] n sched m eq_refl Hm Hc). now rewrite app_nil_r in Hsp.
      - cbn [bind]. destruct (IH (Q ++ [n]) [] (hlv [n] L') h1 nx1 hg1) as (h' & nx' & hg' & He & HB'); cbn [app].
        + assumption.
        + intros y Hy. apply Hk, in_or_app. right. now right.
        + constructor.
        + intros ? ? [].
        + intros l1 m l2 k He Hkk Hc. subst Q. rewrite <- !app_assoc. cbn [app].
          apply (Hsp (n :: l1) m l2 k); auto. cbn [app]. now rewrite He.
        + intros ? [].
        + intros l1 m l2 He. apply (Hsi (n :: l1) m l2). cbn [app]. now rewrite He.
        + exists h', nx', hg'. split; [assumption|].
          cbn [app] in HB'. subst Q L'. rewrite <- !app_assoc in HB'. cbn [app] in HB'.
          rewrite <- !hlv_app in HB'. exact HB'. }
    destruct blk as [|b blk].
    + destruct (heavy n) eqn:Hhn.
      * destruct (IH D [n] L h nx hg) as (h' & nx' & hg' & He & HB'); auto.
        -- intros m k [->|[]] Hkk Hc. specialize (Hsp [] m sched k eq_refl Hkk Hc). now rewrite app_nil_r in Hsp.
        -- intros l1 m l2 k He Hkk Hc. apply (Hsp (n :: l1) m l2 k); auto. cbn [app]. now rewrite He.
        -- intros m [->|[]]. apply (Hsi [] m sched eq_refl).
        -- intros l1 m l2 He. apply (Hsi (n :: l1) m l2). cbn [app]. now rewrite He.
        -- exists h', nx', hg'. now split.
      * apply (Hlight D L h nx hg); [now rewrite app_nil_r|reflexivity|assumption].
    + destruct (heavy n) eqn:Hhn.
      * destruct (IH D ((b :: blk) ++ [n]) L h nx hg) as (h' & nx' & hg' & He & HB').
        -- now rewrite <- app_assoc.
        -- now rewrite <- app_assoc.
        -- apply Forall_app. split; [assumption|]. constructor; [assumption|constructor].
        -- intros m k Hm Hkk Hc. apply in_app_or in Hm as [Hm|[->|[]]]; [now apply Hbp with m|].
           specialize (Hsp [] m sched k eq_refl Hkk Hc). rewrite app_nil_r in Hsp.
           apply in_app_or in Hsp as [?|Hkb]; [assumption|].
           rewrite Forall_forall in Hh. assert (Hlm := Hind k m (Hh k Hkb) Hc). congruence.
        -- intros l1 m l2 k He Hkk Hc. rewrite <- !app_assoc. cbn [app].
           apply (Hsp (n :: l1) m l2 k); auto. cbn [app]. now rewrite He.
        -- intros m Hm c Hc. apply in_app_or in Hm as [Hm|[->|[]]].
           ++ assert (Hcs := Hbi m Hm c Hc). destruct Hcs as [<-|?]; [|assumption].
              rewrite Forall_forall in Hh. assert (Hlm := Hind m n (Hh m Hm) Hc). congruence.
           ++ apply (Hsi [] m sched eq_refl c Hc).
        -- intros l1 m l2 He. apply (Hsi (n :: l1) m l2). cbn [app]. now rewrite He.
        -- exists h', nx', hg'. split; [assumption|]. rewrite <- !app_assoc in HB'. exact HB'.
      * destruct (hgrad_block_step (b :: blk) D L (n :: sched) h nx hg) as (h1 & nx1 & hg1 & -> & HB1); auto.
        { intros y Hy. apply Hk, in_or_app. now left. }
        cbn [bind]. apply (Hlight (D ++ b :: blk) (hlv (b :: blk) L) h1 nx1 hg1); auto.
Qed.

Lemma hlv_In sched : forall L n, In n (hlv sched L) <-> In n L \/ (In n sched /\ inputs n = []).
Proof.
  induction sched as [|m sched IH]; intros L n; cbn [hlv fold_left].
  - simpl. tauto.
  - fold (hlv sched (if hleaf m then m :: L else L)). rewrite IH. unfold hleaf.
    destruct (inputs m) as [|c l] eqn:E; simpl.
    + split; [intros [[->|?]|?]; tauto|]. intros [?|[[->|?] ?]]; tauto.
    + split; [tauto|]. intros [?|[[->|?] ?]]; [tauto|congruence|tauto].
Qed.

Lemma hbackward_spec sched : Permutation sched (keys g) ->
  In out (keys g) ->
  (forall l1 n l2 m, sched = l1 ++ n :: l2 -> In m (keys g) -> In n (inputs m) -> In m l1) ->
  (forall l1 n l2, sched = l1 ++ n :: l2 -> incl (inputs n) l2) ->
  exists h nx hg, hbackward g heavy gadd hpb vals sched out seed = Ok ((h, nx), hg) /\
    exists L, NoDup L /\ (forall n, In n L <-> In n (keys g) /\ inputs n = []) /\
      sumK L (hpg h hg) = pn out seed /\
      (forall n, In n (keys g) -> hg n <> None) /\ allP h hg /\
      (forall n k, In n L -> hg n = Some k -> P (h k) /\ (qf n = false -> gok n (h k))).
Proof.
  intros HP Hout Hpar Hin. unfold hbackward.
  assert (Hns : NoDup sched) by exact (Permutation_NoDup (Permutation_sym HP) Hnd).
  assert (Hqfo : qf out = false) by (destruct (qf out) eqn:E; [apply Hqq in E; congruence|reflexivity]).
  destruct (hgrad_loop_spec sched [] [] [] (fun _ => seed) 1 (dset dempty out 0%nat)) as (h & nx & hg & He & HB); cbn [app].
  - rewrite ?app_nil_r. split; [now rewrite app_nil_r|]. split; [assumption|]. split; [intros ? []|]. rewrite !app_nil_r. split.
    + assert (Hoi : In out sched) by exact (Permutation_in _ (Permutation_sym HP) Hout).
      rewrite (sum_change sched (fun _ => kzero) _ out (pn out seed) Hns Hoi).
      * replace (sumK sched (fun _ => kzero)) with kzero; [apply (kzl K kplus kzero Hmon)|].
        clear - Hmon. induction sched as [|n l IH]; cbn [GraphExec_Proofs3.sumK]; [reflexivity|]. rewrite <- IH. now rewrite (kzl K kplus kzero Hmon).
      * unfold hpg. rewrite dset_same. now rewrite (kzl K kplus kzero Hmon).
      * intros x _ Hne. unfold hpg. now rewrite dset_other.
    + assert (Honly : forall c k, dset (@dempty nat) out 0%nat c = Some k -> c = out /\ k = 0%nat).
      { intros c k. unfold dset, dempty. destruct (Nat.eqb c out) eqn:E; [|discriminate]. apply Nat.eqb_eq in E. intros X. now inversion X. }
      split. { split; [intros c k E; now exists out|]. intros c k _ E. apply Honly in E as [-> ->]. split; [now exists out|auto]. }
      split. { intros c c' k _ _ Hne E1 E2. apply Honly in E1 as [-> _]. apply Honly in E2 as [-> _]. congruence. }
      split. { intros c k E. apply Honly in E as [_ ->]. lia. }
      split; [rewrite dset_same; discriminate|]. split; [intros ? ? []|].
      intros c Hc E. destruct (dset dempty out 0%nat c) as [k|] eqn:Ed; [|congruence]. apply Honly in Ed as [-> _]. congruence.
  - intros n Hn. exact (Permutation_in _ HP Hn).
  - constructor.
  - intros ? ? [].
  - intros l1 n l2 m. apply Hpar.
  - intros ? [].
  - exact Hin.
  - exists h, nx, hg. split; [assumption|]. exists (hlv sched []).
    destruct HB as (B1 & _ & _ & B4 & [B0 B5] & _ & _ & B8 & B9 & _). cbn [app] in *.
    split; [assumption|]. split.
    { intros n. rewrite hlv_In. simpl. split.
      - intros [[]|[Hn ?]]. split; [exact (Permutation_in _ HP Hn)|assumption].
      - intros [Hn ?]. right. split; [exact (Permutation_in _ (Permutation_sym HP) Hn)|assumption]. }
    split; [assumption|]. split.
    + intros n Hn. destruct (Hhaspar n Hn) as [->|(m & Hm & Hc)]; [assumption|].
      apply (B9 m n); [|assumption]. exact (Permutation_in _ (Permutation_sym HP) Hm).
    + split; [assumption|]. intros n k Hn E. now apply B5.
Qed.
End HC.
