(** The backward pass computes the transpose of the forward derivative. *)
From Verif Require Import Base GraphExec_Model GraphExec_Spec GraphExec_Proofs GraphExec_Proofs2.
From Coq Require Import ZArith Relations.

Section Back.
Variables V G T K : Type.
Variable inputs : nat -> list nat.
Variable f : nat -> list V -> res V.
Variable ov : dict V.
Variable heavy : nat -> bool.
Variable pb : nat -> list V -> G -> res (list (option G)).
Variable gadd : G -> G -> G.
Variable gzero : V -> G.
Variable kplus : K -> K -> K.
Variable kzero : K.
Variable pair : G -> T -> K.
Variable jvp : nat -> list V -> list T -> T.
Hypothesis Hmon : comm_monoid kplus kzero.
Hypothesis Hpair : forall a b u, pair (gadd a b) u = kplus (pair a u) (pair b u).
Notation Den := (Den inputs f ov).
Notation sum_pair := (sum_pair kplus kzero pair).
Notation fill := (fill gzero).

Lemma kassoc a b c : kplus a (kplus b c) = kplus (kplus a b) c.
Proof. apply Hmon. Qed.
Lemma kcomm a b : kplus a b = kplus b a.
Proof. apply Hmon. Qed.
Lemma kzl a : kplus kzero a = a.
Proof. apply Hmon. Qed.
Lemma kzr a : kplus a kzero = a.
Proof. rewrite kcomm. apply kzl. Qed.

Fixpoint sumK (l : list nat) (h : nat -> K) : K :=
  match l with [] => kzero | n :: l' => kplus (h n) (sumK l' h) end.

Lemma sumK_app l1 l2 h : sumK (l1 ++ l2) h = kplus (sumK l1 h) (sumK l2 h).
Proof.
  induction l1 as [|n l1 IH]; cbn [app sumK]; [now rewrite kzl|]. now rewrite IH, kassoc.
Qed.
Lemma sumK_perm l1 l2 h : Permutation l1 l2 -> sumK l1 h = sumK l2 h.
Proof.
  induction 1 as [|x l l' _ IH|x y l|l l' l'' _ IH1 _ IH2]; cbn [sumK].
  - reflexivity.
  - now rewrite IH.
  - rewrite !kassoc. f_equal. apply kcomm.
  - congruence.
Qed.
Lemma sumK_ext l h1 h2 : (forall n, In n l -> h1 n = h2 n) -> sumK l h1 = sumK l h2.
Proof.
  induction l as [|n l IH]; intros H; cbn [sumK]; [reflexivity|].
  rewrite (H n) by now left. rewrite IH; [reflexivity|]. intros m Hm. apply H. now right.
Qed.
Lemma sumK_filter l h (q : nat -> bool) : (forall n, In n l -> q n = false -> h n = kzero) ->
  sumK (filter q l) h = sumK l h.
Proof.
  induction l as [|n l IH]; intros H; cbn [filter sumK]; [reflexivity|].
  assert (Hl : sumK (filter q l) h = sumK l h) by (apply IH; intros m Hm; apply H; now right).
  destruct (q n) eqn:E; cbn [sumK].
  - now rewrite Hl.
  - rewrite (H n) by (auto; now left). now rewrite kzl.
Qed.

Variable t : nat -> T.

Definition pg (grads : dict G) (n : nat) : K :=
  match grads n with Some x => pair x (t n) | None => kzero end.

Lemma sum_dset_notin l grads c y : ~ In c l -> sumK l (pg (dset grads c y)) = sumK l (pg grads).
Proof.
  intros H. apply sumK_ext. intros n Hn. unfold pg. rewrite dset_other; [reflexivity|]. congruence.
Qed.

Definition acc (grads : dict G) (c : nat) (x : G) : G :=
  match grads c with Some y => gadd y x | None => x end.

Lemma sum_dset l grads c x : NoDup l -> In c l ->
  sumK l (pg (dset grads c (acc grads c x))) = kplus (sumK l (pg grads)) (pair x (t c)).
Proof.
  induction l as [|n l IH]; intros Hnd Hc; [destruct Hc|].
  inversion Hnd as [|? ? Hn Hnd']; subst. cbn [sumK].
  destruct (Nat.eq_dec n c) as [->|Hne].
  - rewrite sum_dset_notin by assumption.
    unfold pg at 1. rewrite dset_same. unfold acc, pg at 2.
    destruct (grads c) as [y|].
    + rewrite Hpair, <- !kassoc. f_equal. apply kcomm.
    + rewrite kzl. apply kcomm.
  - destruct Hc as [->|Hc]; [congruence|]. rewrite (IH Hnd' Hc).
    unfold pg at 1. rewrite dset_other by congruence. fold (pg grads n). now rewrite kassoc.
Qed.

Lemma add_grads_sum cs : forall gs grads l, length gs = length cs -> NoDup l -> incl cs l ->
  sumK l (pg (add_grads gadd cs gs grads)) = kplus (sumK l (pg grads)) (sum_pair gs (map t cs)).
Proof.
  induction cs as [|c cs IH]; intros gs grads l Hl Hnd Hi; destruct gs as [|x gs]; try discriminate;
    cbn [add_grads map GraphExec_Spec.sum_pair].
  - now rewrite kzr.
  - fold (acc grads c x). rewrite IH; [|cbn in Hl; lia|assumption|intros y Hy; apply Hi; now right].
    rewrite sum_dset; [|assumption|apply Hi; now left]. now rewrite kassoc.
Qed.

Lemma add_grads_other cs : forall gs grads n, ~ In n cs -> add_grads gadd cs gs grads n = grads n.
Proof.
  induction cs as [|c cs IH]; intros gs grads n Hn; destruct gs as [|x gs]; cbn [add_grads]; try reflexivity.
  rewrite IH by (simpl in Hn; tauto). apply dset_other. intros ->. apply Hn. now left.
Qed.

Lemma add_grads_mono cs : forall gs grads n, grads n <> None -> add_grads gadd cs gs grads n <> None.
Proof.
  induction cs as [|c cs IH]; intros gs grads n Hn; destruct gs as [|x gs]; cbn [add_grads]; try assumption.
  apply IH. unfold dset. destruct (Nat.eqb n c); [discriminate|assumption].
Qed.

Lemma add_grads_some cs : forall gs grads n, length gs = length cs -> In n cs ->
  add_grads gadd cs gs grads n <> None.
Proof.
  induction cs as [|c cs IH]; intros gs grads n Hl Hn; destruct gs as [|x gs]; try discriminate; [destruct Hn|].
  cbn [add_grads]. destruct Hn as [->|Hn].
  - apply add_grads_mono. rewrite dset_same. discriminate.
  - apply IH; [cbn in Hl; lia|assumption].
Qed.

(** fill_none *)
Lemma fill_none_light gs : forall pre ivs, length gs = length ivs ->
  fill_none gzero (length pre) (Some (pre ++ ivs)) gs = Ok (fill ivs gs).
Proof.
  induction gs as [|o gs IH]; intros pre ivs Hl; destruct ivs as [|v ivs]; try discriminate; cbn [fill_none GraphExec_Spec.fill].
  - reflexivity.
  - assert (IH' : fill_none gzero (S (length pre)) (Some (pre ++ v :: ivs)) gs = Ok (fill ivs gs)).
    { replace (pre ++ v :: ivs) with ((pre ++ [v]) ++ ivs) by now rewrite <- app_assoc.
      replace (S (length pre)) with (length (pre ++ [v])) by (rewrite app_length; cbn; lia).
      apply IH. cbn in Hl; lia. }
    destruct o as [x|].
    + rewrite IH'. reflexivity.
    + replace (nth_error (pre ++ v :: ivs) (length pre)) with (Some v).
      * rewrite IH'. reflexivity.
      * rewrite nth_error_app2 by lia. now rewrite Nat.sub_diag.
Qed.

Lemma fill_none_nonone gs : forall i x, no_none gs ->
  exists l, fill_none gzero i x gs = Ok l /\ forall ivs, length gs = length ivs -> fill ivs gs = l.
Proof.
  induction gs as [|o gs IH]; intros i x Hn; cbn [fill_none].
  - exists []. split; [reflexivity|]. intros [|v ivs] Hl; [reflexivity|discriminate].
  - inversion Hn as [|? ? Ho Hn']; subst. destruct o as [y|]; [|congruence].
    destruct (IH (S i) x Hn') as (l & -> & Hl). cbn [bind]. exists (y :: l). split; [reflexivity|].
    intros [|v ivs] Hlen; [discriminate|]. cbn [GraphExec_Spec.fill]. f_equal. apply Hl. cbn in Hlen; lia.
Qed.

Lemma fill_length gs : forall ivs, length gs = length ivs -> length (fill ivs gs) = length gs.
Proof.
  induction gs as [|[x|] gs IH]; intros [|v ivs] Hl; try discriminate; cbn [GraphExec_Spec.fill length]; [reflexivity| |];
    f_equal; apply IH; cbn in Hl; lia.
Qed.

Variable g : graph.
Hypothesis Hnd : NoDup (keys g).
Hypothesis Hadj : forall n, In n (keys g) -> adj g n = inputs n.
Variable vals : dict V.
Hypothesis Hvals : forall n, In n (keys g) -> exists v, vals n = Some v /\ Den n v.
Hypothesis Hclosed : forall n c, In n (keys g) -> In c (inputs n) -> In c (keys g).
Hypothesis Hpb : forall n, In n (keys g) ->
  pullback_ok inputs f ov heavy pb gzero kplus kzero pair jvp n.
Hypothesis Htan : tangent inputs f ov jvp t.
Hypothesis Hind : heavy_independent inputs heavy.
Variable out : nat.
Variable seed : G.

Lemma get_inputs_den n : In n (keys g) -> exists ivs, get_inputs g vals n = Ok ivs /\ Forall2 Den (inputs n) ivs.
Proof.
  intros Hn. unfold get_inputs. rewrite Hadj by assumption.
  assert (Hc : forall c, In c (inputs n) -> In c (keys g)) by (intros c; now apply Hclosed).
  induction (inputs n) as [|c l IH]; cbn [mapM].
  - exists []. split; [reflexivity|constructor].
  - destruct (Hvals c) as (v & Hv & Hd); [apply Hc; now left|].
    unfold dget at 1. rewrite Hv. cbn [bind].
    destruct IH as (ivs & -> & HF); [intros x Hx; apply Hc; now right|].
    cbn [bind]. exists (v :: ivs). split; [reflexivity|]. now constructor.
Qed.

Definition leaf (n : nat) : bool := match inputs n with [] => true | _ => false end.

(** one node's contribution, given the gradient [gv] that was used *)
Lemma contribution n ivs gv gs : In n (keys g) -> Forall2 Den (inputs n) ivs ->
  pb n ivs gv = Ok gs ->
  forall grads R, NoDup R -> incl (inputs n) R -> forall gs', gs' = fill ivs gs ->
  inputs n <> [] ->
  sumK R (pg (add_grads gadd (inputs n) gs' grads)) = kplus (sumK R (pg grads)) (pair gv (t n)).
Proof.
  intros Hn HF Hp grads R HR Hi gs' -> Hne.
  destruct (Hpb n Hn ivs gv HF) as (gs0 & Hp0 & _ & Hl). rewrite Hp in Hp0. inversion Hp0; subst gs0.
  destruct (Hl Hne) as (Hlen & Hsum).
  assert (HlF : length ivs = length (inputs n)) by (clear - HF; induction HF; cbn; lia).
  rewrite add_grads_sum; [|rewrite fill_length; lia|assumption|assumption].
  rewrite Hsum by now rewrite map_length. now rewrite (Htan n ivs Hne HF).
Qed.

(** State invariant.  [L]: processed leaves, [D]: all processed nodes, [R]: nodes still to process. *)
Definition BackInv (D L R : list nat) (grads : dict G) : Prop :=
  NoDup (R ++ L) /\ sumK (R ++ L) (pg grads) = pair seed (t out) /\
  grads out <> None /\ (forall n c, In n D -> In c (inputs n) -> grads c <> None).

(** Effect of one call to [_update_grad_vals]. *)
Lemma update_step D L R n ivs gv gs grads x :
  BackInv D L (n :: R) grads -> grads n = Some gv -> In n (keys g) ->
  Forall2 Den (inputs n) ivs -> pb n ivs gv = Ok gs -> incl (inputs n) R ->
  (heavy n = true \/ x = Some ivs) ->
  exists grads', update_grad_vals g gadd gzero x n gs grads = Ok grads' /\
    BackInv (D ++ [n]) (if leaf n then n :: L else L) R grads' /\
    (forall m, ~ In m (inputs n) -> grads' m = grads m).
Proof.
  intros (B1 & B2 & B3 & B4) Hgv Hn HF Hp Hi Hx.
  assert (HlF : length ivs = length (inputs n)) by (clear - HF; induction HF; cbn; lia).
  destruct (Hpb n Hn ivs gv HF) as (gs0 & Hp0 & Hnn & Hl). rewrite Hp in Hp0. inversion Hp0; subst gs0. clear Hp0.
  assert (HB4 : forall (grads' : dict G) (m c : nat), (forall m, grads m <> None -> grads' m <> None) ->
     (forall c, In c (inputs n) -> grads' c <> None) -> In m (D ++ [n]) -> In c (inputs m) -> grads' c <> None).
  { intros grads' m c Hmono Hnew Hm Hc. apply in_app_or in Hm as [Hm|[->|[]]]; [|now apply Hnew].
    apply Hmono. now apply B4 with m. }
  unfold leaf. destruct (inputs n) as [|c0 cs] eqn:Hin.
  - (* leaf *)
    destruct (fill_none_nonone gs 0 x) as (l & Hfl & _); [apply Hnn; now right|].
    exists grads. unfold update_grad_vals. rewrite Hfl. cbn [bind]. rewrite Hadj, Hin by assumption.
    split; [reflexivity|]. split; [|reflexivity].
    assert (HP : Permutation ((n :: R) ++ L) (R ++ n :: L)) by apply Permutation_middle.
    split; [exact (Permutation_NoDup HP B1)|]. split; [now rewrite <- (sumK_perm _ _ _ HP)|].
    split; [assumption|]. intros m c Hm Hc. apply (HB4 grads m c); auto.
  - assert (Hne : inputs n <> []) by (rewrite Hin; discriminate).
    rewrite <- Hin in *. destruct (Hl Hne) as (Hlen & Hsum).
    assert (Hfl : fill_none gzero 0 x gs = Ok (fill ivs gs)).
    { destruct Hx as [Hh| ->].
      - destruct (fill_none_nonone gs 0 x) as (l & Hfl & Hfi); [apply Hnn; now left|].
        rewrite Hfl. f_equal. symmetry. apply Hfi. lia.
      - apply (fill_none_light gs [] ivs). lia. }
    exists (add_grads gadd (inputs n) (fill ivs gs) grads).
    unfold update_grad_vals. rewrite Hfl. cbn [bind]. rewrite Hadj by assumption.
    split; [reflexivity|]. split; [|intros m Hm; now apply add_grads_other].
    cbn [app] in B1. inversion B1 as [|? ? Hnin B1']; subst.
    split; [assumption|]. split.
    + rewrite (contribution n ivs gv gs) by (try assumption; try reflexivity; intros y Hy; apply in_or_app; left; now apply Hi).
      cbn [app sumK] in B2. unfold pg at 1 in B2. rewrite Hgv in B2. rewrite kcomm. exact B2.
    + split; [now apply add_grads_mono|]. intros m c Hm Hc. apply (HB4 _ m c); [|intros c' Hc'; apply add_grads_some; [rewrite fill_length; lia|assumption]|assumption|assumption].
      intros m' Hm'. now apply add_grads_mono.
Qed.

Hypothesis Hhaspar : forall n, In n (keys g) -> n = out \/ exists m, In m (keys g) /\ In n (inputs m).

(** grads are available for a node all of whose parents are processed *)
Lemma grads_ready D L R grads n : BackInv D L R grads -> In n (keys g) ->
  (forall m, In m (keys g) -> In n (inputs m) -> In m D) -> exists gv, grads n = Some gv.
Proof.
  intros (_ & _ & B3 & B4) Hn Hp. destruct (grads n) as [gv|] eqn:E; [now exists gv|].
  exfalso. destruct (Hhaspar n Hn) as [->|(m & Hm & Hc)]; [congruence|].
  apply (B4 m n); auto.
Qed.

Definition lv (ns L : list nat) : list nat := fold_left (fun L n => if leaf n then n :: L else L) ns L.

Lemma grad_light_step D L R grads n :
  BackInv D L (n :: R) grads -> In n (keys g) -> incl (inputs n) R ->
  (forall m, In m (keys g) -> In n (inputs m) -> In m D) ->
  exists grads' ivs, grad_light g pb gadd gzero vals grads n = Ok (grads', ivs) /\
    BackInv (D ++ [n]) (lv [n] L) R grads'.
Proof.
  intros HB Hn Hi Hp. destruct (grads_ready _ _ _ _ n HB Hn Hp) as (gv & Hgv).
  destruct (get_inputs_den n Hn) as (ivs & Hiv & HF).
  destruct (Hpb n Hn ivs gv HF) as (gs & Hpbe & _).
  destruct (update_step D L R n ivs gv gs grads (Some ivs)) as (grads' & Hu & HB' & _); try assumption; [now right|].
  exists grads', ivs. unfold grad_light. rewrite Hiv. cbn [bind]. unfold dget. rewrite Hgv. cbn [bind].
  rewrite Hpbe. cbn [bind]. rewrite Hu. cbn [bind]. split; [reflexivity|assumption].
Qed.

Lemma update_block_step blk : forall D L R grads gss x,
  BackInv D L (blk ++ R) grads -> incl blk (keys g) -> Forall (fun n => heavy n = true) blk ->
  (forall n, In n blk -> incl (inputs n) R) ->
  Forall2 (fun n gs => exists ivs gv, Forall2 Den (inputs n) ivs /\ grads n = Some gv /\ pb n ivs gv = Ok gs) blk gss ->
  exists grads', update_block g gadd gzero x blk gss grads = Ok grads' /\
    BackInv (D ++ blk) (lv blk L) R grads'.
Proof.
  induction blk as [|n blk IH]; intros D L R grads gss x HB Hk Hh Hi HF; inversion HF as [|? gs ? gss' Hgs HF']; subst; cbn [update_block].
  - exists grads. rewrite app_nil_r. now split.
  - destruct Hgs as (ivs & gv & HFi & Hgv & Hp).
    inversion Hh as [|? ? Hhn Hh']; subst.
    destruct (update_step D L (blk ++ R) n ivs gv gs grads x) as (grads' & Hu & HB' & Hoth); try assumption.
    + apply Hk. now left.
    + intros c Hc. apply in_or_app. right. apply (Hi n); [now left|assumption].
    + now left.
    + rewrite Hu. cbn [bind].
      destruct (IH (D ++ [n]) (if leaf n then n :: L else L) R grads' gss' x) as (grads'' & Hu'' & HB''); try assumption.
      * intros m Hm. apply Hk. now right.
      * intros m Hm. apply Hi. now right.
      * assert (Hne : forall m, In m blk -> grads' m = grads m).
        { intros m Hm. apply Hoth. intros Hc. rewrite Forall_forall in Hh'.
          assert (Hlm := Hind n m Hhn Hc). rewrite (Hh' m Hm) in Hlm. discriminate. }
        clear - HF' Hne. induction HF' as [|m gs blk gss (ivs & gv & A1 & A2 & A3) HF' IH]; constructor.
        -- exists ivs, gv. rewrite Hne by now left. auto.
        -- apply IH. intros k Hk. apply Hne. now right.
      * exists grads''. split; [assumption|]. rewrite <- app_assoc in HB''. exact HB''.
Qed.

Lemma grad_block_step blk D L R grads x :
  BackInv D L (blk ++ R) grads -> incl blk (keys g) -> Forall (fun n => heavy n = true) blk ->
  (forall n, In n blk -> incl (inputs n) R) ->
  (forall n m, In n blk -> In m (keys g) -> In n (inputs m) -> In m D) ->
  exists grads', grad_block g pb gadd gzero vals x grads blk = Ok grads' /\
    BackInv (D ++ blk) (lv blk L) R grads'.
Proof.
  intros HB Hk Hh Hi Hp.
  assert (Hargs : exists args gss,
     mapM (fun n => bind (get_inputs g vals n) (fun a => bind (dget grads n) (fun gv => Ok (n, a, gv)))) blk = Ok args /\
     mapM (fun x => pb (fst (fst x)) (snd (fst x)) (snd x)) args = Ok gss /\
     Forall2 (fun n gs => exists ivs gv, Forall2 Den (inputs n) ivs /\ grads n = Some gv /\ pb n ivs gv = Ok gs) blk gss).
  { assert (Hr : forall n, In n blk -> exists gv, grads n = Some gv).
    { intros n Hn. apply (grads_ready D L (blk ++ R)); auto. intros m. now apply Hp. }
    clear - Hr Hk Hadj Hvals Hclosed Hpb. induction blk as [|n blk IH]; cbn [mapM].
    - exists [], []. cbn [mapM]. repeat split. constructor.
    - destruct (Hr n) as (gv & Hgv); [now left|].
      assert (Hn : In n (keys g)) by (apply Hk; now left).
      destruct (get_inputs_den n Hn) as (ivs & -> & HF). cbn [bind]. unfold dget at 1. rewrite Hgv. cbn [bind].
      destruct IH as (args & gss & -> & Hm & HF2); [intros m Hm; apply Hk; now right|intros m Hm; apply Hr; now right|].
      cbn [bind]. destruct (Hpb n Hn ivs gv HF) as (gs & Hgs & _).
      exists ((n, ivs, gv) :: args), (gs :: gss). split; [reflexivity|]. cbn [mapM fst snd].
      rewrite Hgs. cbn [bind]. rewrite Hm. cbn [bind]. split; [reflexivity|].
      constructor; [|assumption]. exists ivs, gv. auto. }
  destruct Hargs as (args & gss & Ha & Hg & HF).
  unfold grad_block. rewrite Ha. cbn [bind]. rewrite Hg. cbn [bind].
  now apply update_block_step.
Qed.

Lemma lv_app a b L : lv (a ++ b) L = lv b (lv a L).
Proof. unfold lv. now rewrite fold_left_app. Qed.

Lemma grad_loop_spec sched : forall D blk L x grads,
  BackInv D L (blk ++ sched) grads -> incl (blk ++ sched) (keys g) ->
  Forall (fun n => heavy n = true) blk ->
  (* parents of pending nodes are processed, parents of later nodes come earlier *)
  (forall n m, In n blk -> In m (keys g) -> In n (inputs m) -> In m D) ->
  (forall l1 n l2 m, sched = l1 ++ n :: l2 -> In m (keys g) -> In n (inputs m) -> In m (D ++ blk ++ l1)) ->
  (* inputs come later *)
  (forall n, In n blk -> incl (inputs n) sched) ->
  (forall l1 n l2, sched = l1 ++ n :: l2 -> incl (inputs n) l2) ->
  exists grads', grad_loop g heavy pb gadd gzero vals sched blk x grads = Ok grads' /\
    BackInv (D ++ blk ++ sched) (lv (blk ++ sched) L) [] grads'.
Proof.
  induction sched as [|n sched IH]; intros D blk L x grads HB Hk Hh Hbp Hsp Hbi Hsi; cbn [grad_loop].
  - rewrite app_nil_r in *. destruct blk as [|b blk].
    + exists grads. rewrite app_nil_r. now split.
    + apply grad_block_step; auto. now rewrite app_nil_r.
  - assert (Hn : In n (keys g)) by (apply Hk, in_or_app; right; now left).
    assert (Hlight : forall Q L' grads, Q = D ++ blk -> L' = lv blk L -> BackInv Q L' (n :: sched) grads ->
       exists grads', bind (grad_light g pb gadd gzero vals grads n) (fun '(grads', ivs') =>
                   grad_loop g heavy pb gadd gzero vals sched [] (Some ivs') grads') = Ok grads' /\
         BackInv (D ++ blk ++ n :: sched) (lv (blk ++ n :: sched) L) [] grads').
    { clear grads HB. intros Q L' grads HQ HL' HB.
      destruct (grad_light_step Q L' sched grads n) as (grads1 & ivs1 & -> & HB1); try assumption.
      - apply (Hsi [] n sched eq_refl).
      - intros m Hm Hc. subst Q. specialize (Hsp [] n sched m eq_refl Hm Hc). now rewrite app_nil_r in Hsp.
      - cbn [bind]. destruct (IH (Q ++ [n]) [] (lv [n] L') (Some ivs1) grads1) as (grads' & He & HB'); cbn [app].
        + assumption.
        + intros y Hy. apply Hk, in_or_app. right. now right.
        + constructor.
        + intros ? ? [].
        + intros l1 m l2 k He Hkk Hc. subst Q. rewrite <- !app_assoc. cbn [app].
          apply (Hsp (n :: l1) m l2 k); auto. cbn [app]. now rewrite He.
        + intros ? [].
        + intros l1 m l2 He. apply (Hsi (n :: l1) m l2). cbn [app]. now rewrite He.
        + exists grads'. split; [assumption|].
          cbn [app] in HB'. subst Q L'. rewrite <- !app_assoc in HB'. cbn [app] in HB'.
          rewrite <- !lv_app in HB'. exact HB'. }
    destruct blk as [|b blk].
    + destruct (heavy n) eqn:Hhn.
      * destruct (IH D [n] L x grads) as (grads' & He & HB'); auto.
        -- intros m k [->|[]] Hkk Hc. specialize (Hsp [] m sched k eq_refl Hkk Hc). now rewrite app_nil_r in Hsp.
        -- intros l1 m l2 k He Hkk Hc. apply (Hsp (n :: l1) m l2 k); auto. cbn [app]. now rewrite He.
        -- intros m [->|[]]. apply (Hsi [] m sched eq_refl).
        -- intros l1 m l2 He. apply (Hsi (n :: l1) m l2). cbn [app]. now rewrite He.
        -- exists grads'. now split.
      * apply (Hlight D L grads); [now rewrite app_nil_r|reflexivity|assumption].
    + destruct (heavy n) eqn:Hhn.
      * destruct (IH D ((b :: blk) ++ [n]) L x grads) as (grads' & He & HB').
        -- now rewrite <- app_assoc.
        -- now rewrite <- app_assoc.
        -- apply Forall_app. split; [assumption|]. constructor; [assumption|constructor].
        -- intros m k Hm Hkk Hc. apply in_app_or in Hm as [Hm|[->|[]]]; [now apply Hbp with m|].
           specialize (Hsp [] m sched k eq_refl Hkk Hc). rewrite app_nil_r in Hsp.
           apply in_app_or in Hsp as [?|Hkb]; [assumption|].
           rewrite Forall_forall in Hh. assert (Hlm := Hind k m (Hh k Hkb) Hc). congruence.
        -- intros l1 m l2 k He Hkk Hc. rewrite <- !app_assoc. cbn [app].
           apply (Hsp (n :: l1) m l2 k); auto. cbn [app]. now rewrite He.
        -- intros m Hm c Hc. apply in_app_or in Hm as [Hm|[->|[]]].
           ++ assert (Hcs := Hbi m Hm c Hc). destruct Hcs as [<-|?]; [|assumption].
              rewrite Forall_forall in Hh. assert (Hlm := Hind m n (Hh m Hm) Hc). congruence.
           ++ apply (Hsi [] m sched eq_refl c Hc).
        -- intros l1 m l2 He. apply (Hsi (n :: l1) m l2). cbn [app]. now rewrite He.
        -- exists grads'. split; [assumption|]. rewrite <- !app_assoc in HB'. exact HB'.
      * destruct (grad_block_step (b :: blk) D L (n :: sched) grads x) as (grads1 & -> & HB1); auto.
        { intros y Hy. apply Hk, in_or_app. now left. }
        cbn [bind]. apply (Hlight (D ++ b :: blk) (lv (b :: blk) L) grads1); auto.
Qed.

Lemma lv_In sched : forall L n, In n (lv sched L) <-> In n L \/ (In n sched /\ inputs n = []).
Proof.
  induction sched as [|m sched IH]; intros L n; cbn [lv fold_left].
  - simpl. tauto.
  - fold (lv sched (if leaf m then m :: L else L)). rewrite IH. unfold leaf.
    destruct (inputs m) as [|c l] eqn:E; simpl.
    + split; [intros [[->|?]|?]; tauto|]. intros [?|[[->|?] ?]]; tauto.
    + split; [tauto|]. intros [?|[[->|?] ?]]; [tauto|congruence|tauto].
Qed.

Lemma backward_spec sched : Permutation sched (keys g) ->
  In out (keys g) ->
  (forall l1 n l2 m, sched = l1 ++ n :: l2 -> In m (keys g) -> In n (inputs m) -> In m l1) ->
  (forall l1 n l2, sched = l1 ++ n :: l2 -> incl (inputs n) l2) ->
  exists grads, backward g heavy pb gadd gzero vals sched out seed = Ok grads /\
    exists L, NoDup L /\ (forall n, In n L <-> In n (keys g) /\ inputs n = []) /\
      sumK L (pg grads) = pair seed (t out) /\
      (forall n, In n (keys g) -> grads n <> None).
Proof.
  intros HP Hout Hpar Hin. unfold backward.
  assert (Hns : NoDup sched) by exact (Permutation_NoDup (Permutation_sym HP) Hnd).
  destruct (grad_loop_spec sched [] [] [] None (dset dempty out seed)) as (grads & He & HB); cbn [app].
  - split; [now rewrite app_nil_r|]. rewrite app_nil_r. split.
    + assert (Hoi : In out sched) by exact (Permutation_in _ (Permutation_sym HP) Hout).
      assert (Hs := sum_dset sched dempty out seed Hns Hoi).
      change (acc dempty out seed) with seed in Hs. rewrite Hs.
      replace (sumK sched (pg dempty)) with kzero; [apply kzl|].
      clear - Hmon. induction sched as [|n l IH]; cbn [sumK]; [reflexivity|]. rewrite <- IH. unfold pg, dempty. now rewrite kzl.
    + split; [rewrite dset_same; discriminate|]. intros ? ? [].
  - intros n Hn. exact (Permutation_in _ HP Hn).
  - constructor.
  - intros ? ? [].
  - intros l1 n l2 m. apply Hpar.
  - intros ? [].
  - exact Hin.
  - exists grads. split; [assumption|]. exists (lv sched []).
    destruct HB as (B1 & B2 & B3 & B4). cbn [app] in *.
    split; [assumption|]. split.
    { intros n. rewrite lv_In. simpl. split.
      - intros [[]|[Hn ?]]. split; [exact (Permutation_in _ HP Hn)|assumption].
      - intros [Hn ?]. right. split; [exact (Permutation_in _ (Permutation_sym HP) Hn)|assumption]. }
    split; [assumption|].
    intros n Hn. destruct (Hhaspar n Hn) as [->|(m & Hm & Hc)]; [assumption|].
    apply (B4 m n); [|assumption]. exact (Permutation_in _ (Permutation_sym HP) Hm).
Qed.
End Back.

Section WholeGrad.
Variables V G T K : Type.
Variable inputs : nat -> list nat.
Variable f : nat -> list V -> res V.
Variable ov : dict V.
Variable heavy : nat -> bool.
Variable pb : nat -> list V -> G -> res (list (option G)).
Variable gadd : G -> G -> G.
Variable gzero gzero_like : V -> G.
Variable kplus : K -> K -> K.
Variable kzero : K.
Variable pair : G -> T -> K.
Variable jvp : nat -> list V -> list T -> T.
Hypothesis Hmon : comm_monoid kplus kzero.
Hypothesis Hpair : forall a b u, pair (gadd a b) u = kplus (pair a u) (pair b u).
Hypothesis Hzl : forall v u, pair (gzero_like v) u = kzero.
Variable ord : list nat -> list nat -> list nat.
Hypothesis Hord : forall h b, Permutation (ord h b) b.
Variable out : nat.
Variable U : list nat.
Hypothesis HU : universe inputs [out] U.
Hypothesis Hdag : dag inputs.
Variable fuel : nat.
Hypothesis Hfuel : (1 + length U <= fuel)%nat.
Hypothesis Hov : forall n, heavy n = true -> ov n = None.
Hypothesis Hden : forall n, reachable inputs [out] n -> exists v, Den inputs f ov n v.
Hypothesis Hind : heavy_independent inputs heavy.
Hypothesis Hpb : forall n, reachable inputs [out] n ->
  pullback_ok inputs f ov heavy pb gzero kplus kzero pair jvp n.
Variable vars : list nat.
Hypothesis Hvn : NoDup vars.
Hypothesis Hvl : forall x, In x vars -> inputs x = [].
Hypothesis Hvo : forall x, In x vars -> ov x <> None.
Variable seed : G.

Lemma eval_grad_spec : exists gs,
  eval_grad inputs heavy f pb gadd gzero gzero_like seed ord fuel out vars ov = Ok gs /\
  length gs = length vars /\
  (forall t, tangent inputs f ov jvp t ->
    (forall n x, reachable inputs [out] n -> inputs n = [] -> ~ In n vars -> pair x (t n) = kzero) ->
    sum_pair kplus kzero pair gs (map t vars) = pair seed (t out)) /\
  (forall x gx, In (x, gx) (combine vars gs) -> ~ reachable inputs [out] x ->
     exists v, ov x = Some v /\ gx = gzero_like v).
Proof.
  destruct (@forward_complete V inputs f heavy ord Hord [out] U HU Hdag fuel Hfuel ov Hov Hden Hind)
    as (g & sched & vals & Hg & Hs & Hnd & Hr & Ha & HP & Ho & He & Hv).
  assert (Hvals : forall n, In n (keys g) -> exists v, vals n = Some v /\ Den inputs f ov n v).
  { intros n Hn. apply Hv. now apply Hr. }
  assert (Hclosed : forall n c, In n (keys g) -> In c (inputs n) -> In c (keys g)).
  { intros n c Hn Hc. apply Hr. apply reachable_step with n; [now apply Hr|assumption]. }
  assert (Hpb' : forall n, In n (keys g) -> pullback_ok inputs f ov heavy pb gzero kplus kzero pair jvp n).
  { intros n Hn. apply Hpb. now apply Hr. }
  assert (Hhp : forall n, In n (keys g) -> n = out \/ exists m, In m (keys g) /\ In n (inputs m)).
  { intros n Hn. apply Hr in Hn as (o & [<-|[]] & Hrt). apply clos_rt_rtn1 in Hrt.
    inversion Hrt as [|y z Hyz Hry]; subst; [now left|]. right. exists y. split; [|assumption].
    apply Hr. exists out. split; [now left|]. now apply clos_rtn1_rt. }
  assert (Hout : In out (keys g)). { apply Hr. exists out. split; [now left|apply rt_refl]. }
  assert (Hns : NoDup sched) by exact (Permutation_NoDup (Permutation_sym HP) Hnd).
  assert (Hpar : forall l1 n l2 m, sched = l1 ++ n :: l2 -> In m (keys g) -> In n (inputs m) -> In m l1).
  { intros l1 n l2 m Hsp Hm Hn. apply (Ho l1 n l2 Hsp m). now rewrite Ha. }
  assert (Hin : forall l1 n l2, sched = l1 ++ n :: l2 -> incl (inputs n) l2).
  { intros l1 n l2 Hsp c Hc.
    assert (Hrev : rev sched = rev l2 ++ n :: rev l1).
    { rewrite Hsp, rev_app_distr. cbn. now rewrite <- app_assoc. }
    apply in_rev. exact (@reversed_order V inputs f [out] 0 g sched Ha HP Hr Ho Hnd (rev l2) n (rev l1) Hrev c Hc). }
  destruct (backward g heavy pb gadd gzero vals sched out seed) as [grads|e] eqn:Hb.
  - assert (Hcol : exists gs, collect_grads gzero_like grads ov vars = Ok gs /\
       Forall2 (fun x gx => grads x = Some gx \/ (grads x = None /\ exists v, ov x = Some v /\ gx = gzero_like v)) vars gs).
    { unfold collect_grads. clear - Hvo. induction vars as [|x vs IH]; cbn [mapM].
      - exists []. split; [reflexivity|constructor].
      - destruct IH as (gs & -> & HF); [intros y Hy; apply Hvo; now right|].
        assert (Hx := Hvo x (or_introl eq_refl)).
        destruct (grads x) as [gx|] eqn:E; cbn [bind].
        + exists (gx :: gs). split; [reflexivity|]. constructor; [now left|assumption].
        + unfold dget. destruct (ov x) as [v|] eqn:Eo; [|congruence]. cbn [bind].
          exists (gzero_like v :: gs). split; [reflexivity|]. constructor; [|assumption].
          right. split; [assumption|]. now exists v. }
    destruct Hcol as (gs & Hc & HF). exists gs. split.
    { unfold eval_grad. rewrite Hg. cbn [bind]. rewrite Hs. cbn [bind]. rewrite He. cbn [bind].
      rewrite Hb. cbn [bind]. exact Hc. }
    split. { clear - HF. induction HF; cbn; lia. }
    assert (Hnone : forall n, grads n <> None -> In n (keys g)).
    { intros n Hn. clear - Hn Hb Hout Ha Hclosed HP.
      (* grads only ever receive keys *)
      assert (Hupd : forall cs gs (gr : dict G), (forall m, gr m <> None -> In m (keys g)) -> incl cs (keys g) ->
         forall m, add_grads gadd cs gs gr m <> None -> In m (keys g)).
      { induction cs as [|c cs IH]; intros gs' gr Hgr Hi m Hm; destruct gs' as [|y gs']; cbn [add_grads] in Hm; auto.
        apply (IH gs' _) in Hm; auto.
        - intros k Hk. unfold dset in Hk. destruct (Nat.eqb k c) eqn:Ekc; [apply Nat.eqb_eq in Ekc; rewrite Ekc; apply Hi; now left|now apply Hgr].
        - intros k Hk. apply Hi. now right. }
      assert (Hu : forall x n gs (gr gr' : dict G), In n (keys g) -> (forall m, gr m <> None -> In m (keys g)) ->
          update_grad_vals g gadd gzero x n gs gr = Ok gr' -> forall m, gr' m <> None -> In m (keys g)).
      { intros x k gs' gr gr' Hk Hgr Hu m Hm. unfold update_grad_vals in Hu.
        destruct (fill_none gzero 0 x gs') as [l|]; cbn [bind] in Hu; [|discriminate]. inversion Hu; subst.
        rewrite Ha in Hm by assumption.
        apply Hupd in Hm; auto. intros c. now apply Hclosed. }
      assert (Hub : forall blk x gss (gr gr' : dict G), incl blk (keys g) -> (forall m, gr m <> None -> In m (keys g)) ->
          update_block g gadd gzero x blk gss gr = Ok gr' -> forall m, gr' m <> None -> In m (keys g)).
      { induction blk as [|b blk IH]; intros x gss gr gr' Hi Hgr He m Hm; destruct gss as [|gs' gss]; cbn [update_block] in He;
          try (inversion He; subst; now apply Hgr).
        destruct (update_grad_vals g gadd gzero x b gs' gr) as [gr1|] eqn:E; cbn [bind] in He; [|discriminate].
        apply (IH x gss gr1 gr'); auto; [intros k Hk; apply Hi; now right|].
        apply (Hu x b gs' gr gr1); auto. apply Hi. now left. }
      assert (Hgb : forall blk x (gr gr' : dict G), incl blk (keys g) -> (forall m, gr m <> None -> In m (keys g)) ->
          grad_block g pb gadd gzero vals x gr blk = Ok gr' -> forall m, gr' m <> None -> In m (keys g)).
      { intros blk x gr gr' Hi Hgr He. unfold grad_block in He.
        destruct (mapM _ blk) as [args|]; cbn [bind] in He; [|discriminate].
        destruct (mapM _ args) as [gss|]; cbn [bind] in He; [|discriminate].
        eapply Hub; eauto. }
      assert (Hgl : forall n (gr : dict G) r, In n (keys g) -> (forall m, gr m <> None -> In m (keys g)) ->
          grad_light g pb gadd gzero vals gr n = Ok r -> forall m, fst r m <> None -> In m (keys g)).
      { intros k gr r Hk Hgr He. unfold grad_light in He.
        destruct (get_inputs g vals k) as [ivs|]; cbn [bind] in He; [|discriminate].
        destruct (dget gr k) as [gv|]; cbn [bind] in He; [|discriminate].
        destruct (pb k ivs gv) as [gs'|]; cbn [bind] in He; [|discriminate].
        destruct (update_grad_vals g gadd gzero (Some ivs) k gs' gr) as [gr1|] eqn:E; cbn [bind] in He; [|discriminate].
        inversion He; subst. cbn [fst]. eapply Hu; eauto. }
      assert (Hloop : forall sched blk x (gr gr' : dict G), incl (blk ++ sched) (keys g) -> (forall m, gr m <> None -> In m (keys g)) ->
          grad_loop g heavy pb gadd gzero vals sched blk x gr = Ok gr' -> forall m, gr' m <> None -> In m (keys g)).
      { induction sched0 as [|k sc IH]; intros blk x gr gr' Hi Hgr He; cbn [grad_loop] in He.
        - rewrite app_nil_r in Hi. destruct blk; [inversion He; now subst|]. eapply Hgb; eauto.
        - assert (Hk : In k (keys g)) by (apply Hi, in_or_app; right; now left).
          assert (Hsc : incl sc (keys g)) by (intros y Hy; apply Hi, in_or_app; right; now right).
          assert (Hlt : forall gr, (forall m, gr m <> None -> In m (keys g)) ->
            bind (grad_light g pb gadd gzero vals gr k) (fun '(grads', ivs') =>
                   grad_loop g heavy pb gadd gzero vals sc [] (Some ivs') grads') = Ok gr' ->
             forall m, gr' m <> None -> In m (keys g)).
          { clear gr Hgr He. intros gr Hgr He.
            destruct (grad_light g pb gadd gzero vals gr k) as [[gr1 iv1]|] eqn:E; cbn [bind] in He; [|discriminate].
            apply (IH [] (Some iv1) gr1 gr'); auto. apply (Hgl k gr _ Hk Hgr E). }
          destruct blk as [|b blk].
          + destruct (heavy k); [apply (IH [k] x gr gr'); auto|]. now apply (Hlt gr).
          + destruct (heavy k).
            * apply (IH ((b :: blk) ++ [k]) x gr gr'); auto. now rewrite <- app_assoc.
            * destruct (grad_block g pb gadd gzero vals x gr (b :: blk)) as [gr1|] eqn:E; cbn [bind] in He; [|discriminate].
              apply (Hlt gr1); auto. apply (Hgb (b :: blk) x gr gr1); auto.
              intros y Hy. apply Hi, in_or_app. now left. }
      unfold backward in Hb. apply (Hloop sched [] None (dset dempty out seed) grads); auto.
      - cbn [app]. intros y Hy. exact (Permutation_in _ HP Hy).
      - intros m Hm. unfold dset, dempty in Hm. destruct (Nat.eqb m out) eqn:Emo; [apply Nat.eqb_eq in Emo; now rewrite Emo|congruence]. }
    split.
    + intros t Ht Hz.
      destruct (backward_spec V G T K inputs f ov heavy pb gadd gzero kplus kzero pair jvp Hmon Hpair t g Hnd Ha vals Hvals Hclosed Hpb' Ht Hind out seed Hhp sched HP Hout Hpar Hin)
        as (grads' & Hb' & L & HL1 & HL2 & HL3 & HL4).
      rewrite Hb in Hb'. inversion Hb'; subst grads'. clear Hb'.
      rewrite <- HL3.
      assert (HsumV : sum_pair kplus kzero pair gs (map t vars) = sumK K kplus kzero vars (pg G T K kzero pair t grads)).
      { clear - HF Hzl Hmon. induction HF as [|x gx l l' Hx HF IH]; cbn [map sum_pair sumK]; [reflexivity|].
        rewrite IH. f_equal. unfold pg. destruct Hx as [->|(-> & v & _ & ->)]; [reflexivity|]. apply Hzl. }
      rewrite HsumV.
      rewrite <- (sumK_filter K kplus kzero Hmon L _ (fun n => memb n vars)).
      2:{ intros n Hn Hm. apply memb_false in Hm. apply HL2 in Hn as [Hn Hi]. unfold pg.
          destruct (grads n) eqn:E; [|reflexivity]. apply Hz; auto. now apply Hr. }
      rewrite <- (sumK_filter K kplus kzero Hmon vars _ (fun n => memb n L)).
      2:{ intros n Hn Hm. apply memb_false in Hm. unfold pg. destruct (grads n) as [gx|] eqn:E; [|reflexivity].
          exfalso. apply Hm. apply HL2. split; [|now apply Hvl]. apply Hnone. congruence. }
      apply (sumK_perm K kplus kzero Hmon). apply NoDup_Permutation; [now apply NoDup_filter|now apply NoDup_filter|].
      intros n. rewrite !filter_In, !memb_In. tauto.
    + intros x gx Hx Hnr. clear - HF Hx Hnr Hnone Hr. induction HF as [|y gy l l' Hy HF IH]; cbn [combine] in Hx; [destruct Hx|].
      destruct Hx as [Hx|Hx]; [|now apply IH]. inversion Hx; subst.
      destruct Hy as [Hy|(_ & Hy)]; [|assumption]. exfalso. apply Hnr, Hr, Hnone. congruence.
  - exfalso.
    (* the backward pass cannot fail: instantiate the specification with a
       trivial pairing (only success matters, so tangents are unit-valued) *)
    assert (Hpb1 : forall n, In n (keys g) ->
       pullback_ok inputs f ov heavy pb gzero (fun _ _ : unit => tt) tt (fun (_ : G) (_ : unit) => tt) (fun _ _ _ => tt) n).
    { intros n Hn ivs gv HF. destruct (Hpb' n Hn ivs gv HF) as (gs & H1 & H2 & H3).
      exists gs. split; [assumption|]. split; [assumption|]. intros Hne. split; [now apply H3|].
      intros ts Hts. now destruct (sum_pair _ _ _ _ _). }
    destruct (backward_spec V G unit unit inputs f ov heavy pb gadd gzero (fun _ _ => tt) tt (fun _ _ => tt) (fun _ _ _ => tt)) with
      (t := fun _ : nat => tt) (g := g) (vals := vals) (out := out) (seed := seed) (sched := sched)
      as (grads & Hb' & _); auto.
    + split; [reflexivity|]. split; [reflexivity|]. now intros [].
    + intros n ivs _ _. reflexivity.
    + rewrite Hb in Hb'. discriminate.
Qed.
End WholeGrad.
