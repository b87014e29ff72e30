(** Lemmas about concurrent calls and about the sharing of arrays. *)
From Verif Require Import Base SimCache_Model SimCache_Spec SimCache_Proofs.
Set Implicit Arguments.

Section Threads.
Variables K F : Type.
Variable keq : K -> K -> bool.
Variable solver : K -> res F.
Notation search := (@search K F keq).
Notation simulate := (simulate keq solver).
Notation replay := (replay keq solver).
Notation step := (step keq solver).
Notation run_schedule := (run_schedule keq solver).

Definition nohit (z : K) (c : cache K F) : Prop := forall z' f, In (Some (z', f)) c -> keq z z' = false.
Lemma search_hit z z' f : forall c1 c2, nohit z c1 -> keq z z' = true ->
  search z (c1 ++ Some (z', f) :: c2) = Some (f, c1 ++ c2).
Proof.
  induction c1 as [|[[z1 f1]|] c1 IH]; intros c2 Hn Hk; cbn [app SimCache_Model.search].
  - now rewrite Hk.
  - rewrite (Hn z1 f1) by now left. rewrite IH; [reflexivity| |assumption]. intros ? ? H. eapply Hn. right. eassumption.
  - rewrite IH; [reflexivity| |assumption]. intros ? ? H. eapply Hn. right. eassumption.
Qed.
Lemma search_miss z : forall c, nohit z c -> search z c = None.
Proof.
  induction c as [|[[z1 f1]|] c IH]; intros Hn; cbn [SimCache_Model.search]; [reflexivity| |].
  - rewrite (Hn z1 f1) by now left. rewrite IH; [reflexivity|]. intros ? ? H. eapply Hn. right. eassumption.
  - rewrite IH; [reflexivity|]. intros ? ? H. eapply Hn. right. eassumption.
Qed.
Lemma nth_split' {A} : forall (c : list A) i e, nth_error c i = Some e -> c = firstn i c ++ e :: skipn (S i) c.
Proof.
  induction c as [|x c IH]; intros [|i] e H; simpl in *; try discriminate; [now injection H as ->|].
  f_equal. apply (IH i e H).
Qed.
Lemma firstn_S' {A} : forall (c : list A) i e, nth_error c i = Some e -> firstn (S i) c = firstn i c ++ [e].
Proof.
  induction c as [|x c IH]; intros [|i] e H; simpl in *; try discriminate; [now injection H as ->|].
  f_equal. apply (IH i e H).
Qed.

(** replaying one more call *)
Lemma replay_snoc : forall h c t z,
  let '(c1, rs, cs) := replay c h in
  let '(c2, r, b) := simulate c1 z in
  replay c (h ++ [(t, z)]) = (c2, rs ++ [(t, z, r)], cs ++ (if b then [z] else [])).
Proof.
  induction h as [|[t0 z0] h IH]; intros c t z; cbn [SimCache_Spec.replay app].
  - destruct (simulate c z) as [[c2 r] b]. now rewrite app_nil_r.
  - destruct (simulate c z0) as [[c1 r0] b0]. specialize (IH c1 t z).
    destruct (replay c1 h) as [[c2 rs] cs]. destruct (simulate c2 z) as [[c3 r] b]. rewrite IH.
    cbn [app]. now rewrite app_assoc.
Qed.

(** what the lock holder has done so far, relative to the cache [c0] and the solver
    calls [cs0] at the moment it took the lock *)
Definition holder_ok (c0 : cache K F) (cs0 : list K) (s : shared K F) (t : nat) : Prop :=
  exists z rest, th_todo (sh_threads s t) = z :: rest /\
  match th_pc (sh_threads s t) with
  | Idle _ => False
  | Probe _ i => sh_cache s = c0 /\ sh_calls s = cs0 /\ nohit z (firstn i c0)
  | Solve _ => sh_cache s = c0 /\ sh_calls s = cs0 /\ search z c0 = None
  | Evict f => sh_cache s = c0 /\ sh_calls s = cs0 ++ [z] /\ search z c0 = None /\ solver z = Ok f
  | Append f => exists b, simulate c0 z = (sh_cache s ++ [Some (z, f)], Ok f, b) /\ sh_calls s = cs0 ++ (if b then [z] else [])
  | Release r => exists b, simulate c0 z = (sh_cache s, r, b) /\ sh_calls s = cs0 ++ (if b then [z] else [])
  end.
Definition TInv (n : nat) (work : nat -> list K) (s : shared K F) (h : list (nat * K)) : Prop :=
  let '(c, rs, cs) := replay (empty_cache K F n) h in
  (forall t, th_done (sh_threads s t) = results_of t rs) /\
  (forall t, work t = map fst (th_done (sh_threads s t)) ++ th_todo (sh_threads s t)) /\
  (forall t, sh_lock s <> Some t -> th_pc (sh_threads s t) = Idle F) /\
  match sh_lock s with
  | None => sh_cache s = c /\ sh_calls s = cs
  | Some t => holder_ok c cs s t
  end.

Lemma results_of_app t (a b : list (nat * K * res F)) : results_of t (a ++ b) = results_of t a ++ results_of t b.
Proof. unfold results_of. now rewrite filter_app, map_app. Qed.

Lemma upd_same (ts : nat -> thread K F) t x : upd ts t x t = x.
Proof. unfold upd. now rewrite Nat.eqb_refl. Qed.
Lemma upd_other (ts : nat -> thread K F) t x t' : t' <> t -> upd ts t x t' = ts t'.
Proof. intros H. unfold upd. destruct (Nat.eqb_spec t' t); congruence. Qed.

(** steps of the holder that do not finish the call *)
Lemma TInv_holder n work s h t p c' cs' l' :
  TInv n work s h -> (sh_lock s = Some t \/ (sh_lock s = None /\ l' = Some t)) -> l' = Some t ->
  let s' := {| sh_cache := c'; sh_lock := l'; sh_calls := cs';
     sh_threads := upd (sh_threads s) t {| th_todo := th_todo (sh_threads s t); th_pc := p; th_done := th_done (sh_threads s t) |} |} in
  (let '(c, _, cs) := replay (empty_cache K F n) h in holder_ok c cs s' t) -> TInv n work s' h.
Proof.
  intros HI Hl -> s' Hh. unfold TInv in *. destruct (replay (empty_cache K F n) h) as [[c rs] cs].
  destruct HI as (H1 & H2 & H3 & _). split; [|split; [|split]].
  - intros t'. specialize (H1 t'). simpl. unfold upd. destruct (Nat.eqb t' t) eqn:E; [|assumption].
    apply Nat.eqb_eq in E as ->. assumption.
  - intros t'. specialize (H2 t'). simpl. unfold upd. destruct (Nat.eqb t' t) eqn:E; [|assumption].
    apply Nat.eqb_eq in E as ->. assumption.
  - intros t' Ht'. simpl in *. assert (t' <> t) as Hne by congruence. rewrite upd_other by assumption. apply H3.
    destruct Hl as [-> | [-> _]]; congruence.
  - exact Hh.
Qed.

Lemma TInv_step n work s h t s' : TInv n work s h -> step s t = Some s' ->
  exists h', TInv n work s' h' /\ (h' = h \/ exists z, h' = h ++ [(t, z)]).
Proof.
  intros HI Hs. pose proof HI as HI0. unfold TInv in HI. destruct (replay (empty_cache K F n) h) as [[c rs] cs] eqn:Er.
  destruct HI as (H1 & H2 & H3 & H4). unfold SimCache_Model.step in Hs.
  destruct (th_todo (sh_threads s t)) as [|z rest] eqn:Et; [discriminate|].
  destruct (th_pc (sh_threads s t)) as [|i| |f|f|r] eqn:Ep.
  - destruct (sh_lock s) as [t0|] eqn:El; [discriminate|]. injection Hs as <-. exists h. split; [|now left].
    destruct H4 as [Hc Hcs]. rewrite <- Et. apply TInv_holder; [assumption|auto|reflexivity|]. rewrite Er.
    exists z, rest. cbn [sh_threads]. rewrite upd_same. cbn. split; [assumption|]. split; [assumption|]. split; [assumption|].
    intros ? ? [].
  - assert (El : sh_lock s = Some t).
    { destruct (sh_lock s) as [t0|] eqn:El.
      - destruct (Nat.eq_dec t0 t) as [->|Hne]; [reflexivity|]. specialize (H3 t). rewrite Ep in H3. discriminate H3. congruence.
      - specialize (H3 t). rewrite Ep in H3. discriminate H3. congruence. }
    rewrite El in H4. destruct H4 as (z0 & rest0 & Ez & H4). rewrite Ep in H4. rewrite Et in Ez. injection Ez as <- <-.
    destruct H4 as (Hc & Hcs & Hn). rewrite Hc in Hs.
    exists h. destruct (nth_error c i) as [[[z' f]|]|] eqn:En.
    + destruct (keq z z') eqn:Ek; injection Hs as <-; (split; [|now left]); rewrite <- Et; apply TInv_holder; auto; rewrite Er;
        exists z, rest; cbn [sh_threads]; rewrite upd_same; cbn; (split; [assumption|]).
      * exists false. split; [|now rewrite app_nil_r]. unfold SimCache_Model.simulate.
        rewrite (nth_split' c i En) at 1. rewrite search_hit by assumption. reflexivity.
      * split; [reflexivity|]. split; [assumption|]. change (nohit z (firstn (S i) c)). rewrite (firstn_S' c i En). intros z1 f1 Hin.
        apply in_app_iff in Hin as [Hin|[Hin|[]]]; [eapply Hn; eassumption|]. now injection Hin as <- <-.
    + injection Hs as <-. split; [|now left]. rewrite <- Et. apply TInv_holder; auto. rewrite Er.
      exists z, rest. cbn [sh_threads]. rewrite upd_same. cbn. split; [assumption|]. split; [reflexivity|]. split; [assumption|].
      change (nohit z (firstn (S i) c)). rewrite (firstn_S' c i En). intros z1 f1 Hin.
      apply in_app_iff in Hin as [Hin|[Hin|[]]]; [eapply Hn; eassumption|discriminate].
    + injection Hs as <-. split; [|now left]. rewrite <- Et. apply TInv_holder; auto. rewrite Er.
      exists z, rest. cbn [sh_threads]. rewrite upd_same. cbn. split; [assumption|]. split; [reflexivity|]. split; [assumption|].
      apply search_miss. apply nth_error_None in En. now rewrite firstn_all2 in Hn by assumption.
  - assert (El : sh_lock s = Some t).
    { destruct (sh_lock s) as [t0|] eqn:El.
      - destruct (Nat.eq_dec t0 t) as [->|Hne]; [reflexivity|]. specialize (H3 t). rewrite Ep in H3. discriminate H3. congruence.
      - specialize (H3 t). rewrite Ep in H3. discriminate H3. congruence. }
    rewrite El in H4. destruct H4 as (z0 & rest0 & Ez & H4). rewrite Ep in H4. rewrite Et in Ez. injection Ez as <- <-.
    destruct H4 as (Hc & Hcs & Hn). exists h. rewrite <- Et in Hs.
    destruct (solver z) as [f|e] eqn:Esv; injection Hs as <-; (split; [|now left]); apply TInv_holder; auto; rewrite Er;
      exists z, rest; cbn [sh_threads]; rewrite upd_same; cbn; (split; [assumption|]).
    + rewrite Hcs. auto.
    + exists true. split; [|now rewrite Hcs]. unfold SimCache_Model.simulate. rewrite Hn, Esv. now rewrite Hc.
  - assert (El : sh_lock s = Some t).
    { destruct (sh_lock s) as [t0|] eqn:El.
      - destruct (Nat.eq_dec t0 t) as [->|Hne]; [reflexivity|]. specialize (H3 t). rewrite Ep in H3. discriminate H3. congruence.
      - specialize (H3 t). rewrite Ep in H3. discriminate H3. congruence. }
    rewrite El in H4. destruct H4 as (z0 & rest0 & Ez & H4). rewrite Ep in H4. rewrite Et in Ez. injection Ez as <- <-.
    destruct H4 as (Hc & Hcs & Hn & Hf). exists h. rewrite <- Et in Hs.
    destruct (del0 (sh_cache s)) as [c'|e] eqn:Ed; injection Hs as <-; (split; [|now left]); apply TInv_holder; auto; rewrite Er;
      exists z, rest; cbn [sh_threads]; rewrite upd_same; cbn; (split; [assumption|]); exists true; (split; [|assumption]);
      unfold SimCache_Model.simulate; rewrite Hn, Hf, <- Hc, Ed; reflexivity.
  - assert (El : sh_lock s = Some t).
    { destruct (sh_lock s) as [t0|] eqn:El.
      - destruct (Nat.eq_dec t0 t) as [->|Hne]; [reflexivity|]. specialize (H3 t). rewrite Ep in H3. discriminate H3. congruence.
      - specialize (H3 t). rewrite Ep in H3. discriminate H3. congruence. }
    rewrite El in H4. destruct H4 as (z0 & rest0 & Ez & H4). rewrite Ep in H4. rewrite Et in Ez. injection Ez as <- <-.
    destruct H4 as (b & Hc & Hcs). exists h. rewrite <- Et in Hs.
    injection Hs as <-; (split; [|now left]); apply TInv_holder; auto; rewrite Er;
      exists z, rest; cbn [sh_threads]; rewrite upd_same; cbn; (split; [assumption|]). exists b. auto.
  - assert (El : sh_lock s = Some t).
    { destruct (sh_lock s) as [t0|] eqn:El.
      - destruct (Nat.eq_dec t0 t) as [->|Hne]; [reflexivity|]. specialize (H3 t). rewrite Ep in H3. discriminate H3. congruence.
      - specialize (H3 t). rewrite Ep in H3. discriminate H3. congruence. }
    rewrite El in H4. destruct H4 as (z0 & rest0 & Ez & H4). rewrite Ep in H4. rewrite Et in Ez. injection Ez as <- <-.
    destruct H4 as (b & Hc & Hcs). injection Hs as <-.
    exists (h ++ [(t, z)]). split; [|eauto]. pose proof (replay_snoc h (empty_cache K F n) t z) as Hr. rewrite Er, Hc in Hr.
    unfold TInv. rewrite Hr. cbn [sh_threads sh_lock sh_cache sh_calls]. split; [|split; [|split]].
    + intros t'. rewrite results_of_app. destruct (Nat.eq_dec t' t) as [->|Hne].
      * rewrite upd_same. cbn. rewrite H1. f_equal. unfold results_of. simpl. now rewrite Nat.eqb_refl.
      * rewrite upd_other by assumption. rewrite H1. unfold results_of. simpl.
        destruct (Nat.eqb_spec t t'); [congruence|]. simpl. now rewrite app_nil_r.
    + intros t'. destruct (Nat.eq_dec t' t) as [->|Hne].
      * rewrite upd_same. cbn. rewrite map_app, <- app_assoc. simpl. rewrite <- Et. apply H2.
      * rewrite upd_other by assumption. apply H2.
    + intros t' _. destruct (Nat.eq_dec t' t) as [->|Hne]; [now rewrite upd_same|].
      rewrite upd_other by assumption. apply H3. congruence.
    + auto.
Qed.
Lemma TInv_start n work : TInv n work (threads_start F n work) [].
Proof. unfold TInv. cbn. repeat split; auto. Qed.
Lemma TInv_run n work : forall sched s h, TInv n work s h -> exists h', TInv n work (run_schedule s sched) (h ++ h').
Proof.
  induction sched as [|t l IH]; intros s h HI; cbn [SimCache_Model.run_schedule]; [exists []; now rewrite app_nil_r|].
  destruct (step s t) as [s'|] eqn:Es; [|now apply IH].
  destruct (@TInv_step n work s h t s' HI Es) as (h1 & H1 & [->|[z ->]]); [now apply IH|].
  destruct (IH s' _ H1) as (h2 & H2). exists ((t, z) :: h2). now rewrite <- app_assoc in H2.
Qed.

Lemma linearizable_pf n work sched :
  let s := run_schedule (threads_start F n work) sched in
  exists h, let x := replay (empty_cache K F n) h in
    (forall t, th_done (sh_threads s t) = results_of t (snd (fst x))) /\
    (forall t, work t = map fst (th_done (sh_threads s t)) ++ th_todo (sh_threads s t)) /\
    (sh_lock s = None -> sh_cache s = fst (fst x) /\ sh_calls s = snd x).
Proof.
  destruct (@TInv_run n work sched _ _ (TInv_start n work)) as [h HI]. cbn [app] in HI. exists h. unfold TInv in HI.
  destruct (replay (empty_cache K F n) h) as [[c rs] cs]. destruct HI as (H1 & H2 & _ & H4). cbv zeta. cbn [fst snd].
  split; [assumption|]. split; [assumption|]. intros Hl. now rewrite Hl in H4.
Qed.
Lemma mutual_exclusion_pf n work sched t1 t2 :
  let s := run_schedule (threads_start F n work) sched in
  th_pc (sh_threads s t1) <> Idle F -> th_pc (sh_threads s t2) <> Idle F -> t1 = t2.
Proof.
  intros s A1 A2. destruct (@TInv_run n work sched _ _ (TInv_start n work)) as [h HI]. cbn [app] in HI. unfold TInv in HI.
  destruct (replay (empty_cache K F n) h) as [[c rs] cs]. destruct HI as (_ & _ & H3 & _). fold s in H3.
  destruct (sh_lock s) as [t0|].
  - destruct (Nat.eq_dec t0 t1) as [->|]; [|elim A1; apply H3; congruence].
    destruct (Nat.eq_dec t1 t2) as [->|]; [reflexivity|elim A2; apply H3; congruence].
  - elim A1. apply H3. congruence.
Qed.
Lemma no_deadlock_pf n work sched :
  let s := run_schedule (threads_start F n work) sched in
  (exists t, th_todo (sh_threads s t) <> []) -> exists t s', step s t = Some s'.
Proof.
  intros s [t Ht]. destruct (@TInv_run n work sched _ _ (TInv_start n work)) as [h HI]. cbn [app] in HI. unfold TInv in HI.
  destruct (replay (empty_cache K F n) h) as [[c rs] cs]. destruct HI as (_ & _ & H3 & H4). fold s in H3, H4.
  destruct (sh_lock s) as [t0|] eqn:El.
  - exists t0. destruct H4 as (z & rest & Ez & H4). unfold SimCache_Model.step. rewrite Ez.
    destruct (th_pc (sh_threads s t0)) as [|i| |f|f|r].
    + destruct H4.
    + destruct (nth_error (sh_cache s) i) as [[[z' f]|]|]; [destruct (keq z z')| |]; eauto.
    + destruct (solver z); eauto.
    + destruct (del0 (sh_cache s)); eauto.
    + eauto.
    + eauto.
  - exists t. unfold SimCache_Model.step. destruct (th_todo (sh_threads s t)); [congruence|].
    rewrite (H3 t) by congruence. rewrite El. eauto.
Qed.
Lemma replay_simulate_all : forall h c,
  let '(c', rs, cs) := replay c h in
  let (c2, rs2) := simulate_all keq solver c (map snd h) in
  c' = c2 /\ map snd rs = map fst rs2 /\ map fst rs = h.
Proof.
  induction h as [|[t z] h IH]; intros c; cbn [SimCache_Spec.replay SimCache_Model.simulate_all map snd]; [auto|].
  destruct (simulate c z) as [[c1 r] b]. specialize (IH c1). destruct (replay c1 h) as [[c2 rs] cs].
  destruct (simulate_all keq solver c1 (map snd h)) as [c3 rs3]. destruct IH as (-> & IH & <-). simpl. now rewrite IH.
Qed.
Lemma concurrent_results_pf n work sched t z r : (forall a b, keq a b = true -> a = b) -> 1 <= n ->
  In (z, r) (th_done (sh_threads (run_schedule (threads_start F n work) sched) t)) -> r = solver z.
Proof.
  intros Hk Hn Hin. destruct (linearizable_pf n work sched) as (h & H1 & _). cbv zeta in H1. rewrite H1 in Hin.
  unfold results_of in Hin. apply in_map_iff in Hin as ([[t0 z0] r0] & Heq & Hin). simpl in Heq. injection Heq as -> ->.
  apply filter_In in Hin as [Hin _].
  pose proof (replay_simulate_all h (empty_cache K F n)) as Hr. pose proof (@cache_transparent_pf K F keq solver Hk n (map snd h) Hn) as Ht.
  destruct (replay (empty_cache K F n) h) as [[c rs] cs]. destruct (simulate_all keq solver (empty_cache K F n) (map snd h)) as [c2 rs2].
  destruct Hr as (_ & Hr & Hf). simpl in Ht, Hin. rewrite Ht in Hr. subst h. rewrite !map_map in Hr.
  clear - Hr Hin. induction rs as [|x rs IH]; [destruct Hin|]. simpl in Hr. injection Hr as Hx Hr.
  destruct Hin as [->|Hin]; [exact Hx|now apply IH].
Qed.
End Threads.

Section HeapProofs.
Variable A : Type.
Variable aeq : A -> A -> bool.
Variable solver : A -> A.
Variable d : A.
Hypothesis aeq_sound : forall x y, aeq x y = true -> x = y.
Notation read := (read d).
Notation astep := (astep aeq solver d).
Notation asteps := (asteps aeq solver d).
Definition HInv (touched : list nat) (w : aworld A) : Prop :=
  a_cache w <> [] /\
  forall z f, In (Some (z, f)) (a_cache w) ->
    In z touched /\ In f touched /\ z < length (a_heap w) /\ f < length (a_heap w) /\
    read (a_heap w) f = solver (read (a_heap w) z).
Lemma read_app h x a : a < length h -> read (h ++ x) a = read h a.
Proof. intros H. unfold SimCache_Model.read. now rewrite app_nth1. Qed.
Lemma read_write_other h a x b : b <> a -> read (write_at h a x) b = read h b.
Proof.
  intros Hne. unfold SimCache_Model.read, write_at. destruct (Nat.ltb_spec a (length h)) as [Hl|Hl]; [|reflexivity].
  destruct (Nat.lt_ge_cases b a) as [Hb|Hb].
  - rewrite app_nth1 by (rewrite firstn_length; lia). rewrite <- (firstn_skipn a h) at 2.
    rewrite app_nth1 by (rewrite firstn_length; lia). reflexivity.
  - rewrite app_nth2 by (rewrite firstn_length; lia). rewrite firstn_length. replace (b - Nat.min a (length h)) with (S (b - S a)) by lia.
    simpl. rewrite <- (firstn_skipn (S a) h) at 2. rewrite app_nth2 by (rewrite firstn_length; lia). f_equal. rewrite firstn_length. lia.
Qed.
Lemma write_length h a (x : A) : length (write_at h a x) = length h.
Proof.
  unfold write_at. destruct (Nat.ltb_spec a (length h)) as [Hl|Hl]; [|reflexivity].
  rewrite app_length, firstn_length. cbn [length]. rewrite skipn_length. lia.
Qed.
Lemma asearch_spec h z : forall c f c', asearch aeq d h z c = Some (f, c') ->
  exists c1 c2 z', c = c1 ++ Some (z', f) :: c2 /\ c' = c1 ++ c2 /\ read h z = read h z'.
Proof.
  induction c as [|[[z' f']|] c IH]; intros f c' H; simpl in H; [discriminate| |].
  - destruct (aeq (read h z) (read h z')) eqn:Ek.
    + apply aeq_sound in Ek. injection H as <- <-. exists [], c, z'. auto.
    + destruct (asearch aeq d h z c) as [[f0 r]|]; [|discriminate]. injection H as <- <-.
      destruct (IH f0 r eq_refl) as (c1 & c2 & z1 & -> & -> & Hz). exists (Some (z', f') :: c1), c2, z1. auto.
  - destruct (asearch aeq d h z c) as [[f0 r]|]; [|discriminate]. injection H as <- <-.
    destruct (IH f0 r eq_refl) as (c1 & c2 & z1 & -> & -> & Hz). exists (None :: c1), c2, z1. auto.
Qed.
Lemma sim_step touched w z : HInv touched w -> z < length (a_heap w) ->
  exists w' f, astep w (ASim A z) = (w', Some f) /\ read (a_heap w') f = solver (read (a_heap w) z) /\
    HInv (touched ++ [z; f]) w'.
Proof.
  intros [Hne HI] Hz. cbn [SimCache_Model.astep]. destruct (asearch aeq d (a_heap w) z (a_cache w)) as [[f c']|] eqn:Es.
  - apply asearch_spec in Es as (c1 & c2 & z' & Hc & -> & Hzz).
    assert (Hin : In (Some (z', f)) (a_cache w)) by (rewrite Hc; apply in_app_iff; right; now left).
    destruct (HI _ _ Hin) as (A1 & A2 & A3 & A4 & A5).
    eexists _, f. split; [reflexivity|]. cbn [a_heap a_cache]. split; [congruence|]. split; [cbn; destruct (c1 ++ c2); discriminate|].
    cbn [a_heap a_cache]. intros z1 f1 H. apply in_app_iff in H as [H|[H|[]]].
    + assert (Hin1 : In (Some (z1, f1)) (a_cache w)).
      { rewrite Hc. apply in_app_iff in H as [H|H]; apply in_app_iff; [auto|]. right. now right. }
      destruct (HI _ _ Hin1) as (B1 & B2 & B3 & B4 & B5). rewrite !in_app_iff. tauto.
    + injection H as <- <-. rewrite !in_app_iff. simpl. split; [tauto|]. split; [tauto|]. split; [assumption|]. split; [assumption|]. congruence.
  - destruct (a_cache w) as [|e c'] eqn:Ec; [congruence|].
    eexists _, _. split; [reflexivity|]. cbn [a_heap a_cache].
    assert (Hlast : read (a_heap w ++ [solver (read (a_heap w) z)]) (length (a_heap w)) = solver (read (a_heap w) z)).
    { unfold SimCache_Model.read. rewrite app_nth2 by lia. now rewrite Nat.sub_diag. }
    split; [exact Hlast|]. split; [destruct c'; discriminate|]. cbn [a_heap a_cache]. intros z1 f1 H. rewrite app_length. simpl.
    apply in_app_iff in H as [H|[H|[]]].
    + destruct (HI z1 f1) as (B1 & B2 & B3 & B4 & B5); [now right|]. rewrite !in_app_iff, !read_app by assumption.
      split; [tauto|]. split; [tauto|]. split; [lia|]. split; [lia|assumption].
    + injection H as <- <-. rewrite !in_app_iff, Hlast, read_app by assumption. simpl. repeat split; try tauto; lia.
Qed.
(** every call of a careful history returns the fields of the current contents *)
Lemma careful_run : forall l touched w pre z rest, HInv touched w -> careful aeq solver d touched w l ->
  l = pre ++ ASim A z :: rest ->
  exists f, snd (astep (asteps w pre) (ASim A z)) = Some f /\
    read (a_heap (fst (astep (asteps w pre) (ASim A z)))) f = solver (read (a_heap (asteps w pre)) z).
Proof.
  induction l as [|o l IH]; intros touched w pre z rest HI Hc Hl; [destruct pre; discriminate|].
  cbn [careful] in Hc. destruct pre as [|o' pre]; cbn [app] in Hl; injection Hl as -> Hl.
  - destruct (astep w (ASim A z)) as [w' r] eqn:Ea. destruct Hc as [Hz _].
    destruct (sim_step HI Hz) as (w1 & f & E1 & E2 & _). rewrite Ea in E1. injection E1 as -> ->.
    exists f. cbn [SimCache_Model.asteps]. rewrite Ea. auto.
  - cbn [SimCache_Model.asteps]. destruct o' as [z0|a x|x].
    + destruct (astep w (ASim A z0)) as [w' r] eqn:Ea. destruct Hc as [Hz Hc].
      destruct (sim_step HI Hz) as (w1 & f & E1 & _ & E3). rewrite Ea in E1. injection E1 as <- ->.
      cbn [fst]. now apply (IH (touched ++ [z0; f]) w' pre z rest).
    + cbn [SimCache_Model.astep] in *. destruct Hc as [Ha Hc]. cbn [fst]. apply (IH touched _ pre z rest); auto.
      destruct HI as [Hne HI]. split; [assumption|]. cbn [a_heap a_cache]. intros z1 f1 H1.
      destruct (HI z1 f1 H1) as (B1 & B2 & B3 & B4 & B5). rewrite write_length.
      rewrite !read_write_other by (intros ->; contradiction). auto.
    + cbn [SimCache_Model.astep] in *. cbn [fst]. apply (IH touched _ pre z rest); auto.
      destruct HI as [Hne HI]. split; [assumption|]. cbn [a_heap a_cache]. intros z1 f1 H1.
      destruct (HI z1 f1 H1) as (B1 & B2 & B3 & B4 & B5). rewrite app_length, !read_app by assumption. simpl. repeat split; auto; lia.
Qed.
Lemma careful_callers_pf n h pre z rest : 1 <= n ->
  let w0 := {| a_heap := h; a_cache := repeat None n |} in
  careful aeq solver d [] w0 (pre ++ ASim A z :: rest) ->
  exists f, snd (astep (asteps w0 pre) (ASim A z)) = Some f /\
    read (a_heap (fst (astep (asteps w0 pre) (ASim A z)))) f = solver (read (a_heap (asteps w0 pre)) z).
Proof.
  intros Hn w0 Hc. apply (@careful_run _ [] w0 pre z rest) with (2 := Hc); [|reflexivity].
  split; [destruct n; [lia|discriminate]|]. intros z1 f1 H. cbn in H. apply repeat_spec in H. discriminate.
Qed.
End HeapProofs.
