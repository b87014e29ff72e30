(** The grating dynamic program: the table, the best entry, backtracking. *)
From Verif Require Import Base QTac Grating_Model Grating_Spec Grating_Proofs.
From Coq Require Import ZArith Setoid.
Set Implicit Arguments.

Lemma foldM_inv {A B} (f : B -> A -> res B) (I : list A -> B -> Prop) : forall l b, I [] b ->
  (forall pre a post b, l = pre ++ a :: post -> I pre b -> exists b', f b a = Ok b' /\ I (pre ++ [a]) b') ->
  exists b', foldM f l b = Ok b' /\ I l b'.
Proof.
  intros l b H0 Hs. assert (G : forall post pre b, l = pre ++ post -> I pre b -> exists b', foldM f post b = Ok b' /\ I l b').
  { induction post as [|a post IH]; intros pre b1 E Hb; cbn [foldM].
    - rewrite app_nil_r in E. subst pre. eauto.
    - destruct (Hs pre a post b1 E Hb) as (b2 & E2 & H2). rewrite E2. cbn [bind]. apply (IH (pre ++ [a])); [|exact H2]. rewrite <- app_assoc. exact E. }
  exact (G l [] b eq_refl H0).
Qed.
Lemma fold_left_inv {A B} (f : B -> A -> B) (I : list A -> B -> Prop) : forall l b, I [] b ->
  (forall pre a post b, l = pre ++ a :: post -> I pre b -> I (pre ++ [a]) (f b a)) -> I l (fold_left f l b).
Proof.
  intros l b H0 Hs. assert (G : forall post pre b, l = pre ++ post -> I pre b -> I l (fold_left f post b)).
  { induction post as [|a post IH]; intros pre b1 E Hb; cbn [fold_left].
    - rewrite app_nil_r in E. now subst pre.
    - apply (IH (pre ++ [a])); [rewrite <- app_assoc; exact E|]. exact (Hs pre a post b1 E Hb). }
  exact (G l [] b eq_refl H0).
Qed.
Lemma seq_split_at k n0 pre a post : seq k n0 = pre ++ a :: post -> a = (k + length pre)%nat /\ pre = seq k (length pre) /\ (length pre < n0)%nat.
Proof.
  intros E. assert (L : length (seq k n0) = length (pre ++ a :: post)) by now rewrite E. rewrite seq_length, app_length in L. cbn [length] in L.
  split; [|split; [|lia]].
  - assert (N : nth (length pre) (seq k n0) 0%nat = a) by (rewrite E, app_nth2, Nat.sub_diag by lia; reflexivity). rewrite seq_nth in N by lia. lia.
  - assert (F : firstn (length pre) (seq k n0) = pre) by (rewrite E, firstn_app, Nat.sub_diag, firstn_all; apply app_nil_r).
    rewrite <- F at 1. clear -L. revert k n0 L. generalize (length pre) as j, (length post) as p. induction j as [|j IH]; intros p k n0 L; [reflexivity|].
    destruct n0 as [|n0]; [lia|]. cbn [seq firstn]. f_equal. apply (IH p). lia.
Qed.

Section P.
Variables (x hx : list Q) (D : nat) (dmin dmax : list Z) (start stop : nat).
Hypothesis HD : (1 <= D)%nat.
Notation n := (length x).
Notation m := (length hx).
Notation last := (max_k x D).
Hypothesis Hmin : forall l, (l < m)%nat -> (Z.of_nat D <= zn dmin l)%Z.
Hypothesis Hstart : (start < m)%nat.
Hypothesis Hstop : (stop < m)%nat.
Hypothesis Hn : (1 <= n)%nat.
Notation ki := (k_int D).
Notation tail := (tail_cost x hx D).
Notation feas := (feas x hx D dmin dmax start).
Notation pcost := (pcost x hx D).
Notation cell := (dp_cell x hx D dmin dmax start).

Lemma in_range k this i : (this < m)%nat -> In i (edge_range dmin dmax k this) <-> (zn dmin this <= Z.of_nat k - Z.of_nat i <= zn dmax this)%Z.
Proof. intros Hl. pose proof (Hmin Hl). unfold edge_range. rewrite in_seq. lia. Qed.
Lemma range_lt k this i : (this < m)%nat -> In i (edge_range dmin dmax k this) -> (i + D <= k)%nat.
Proof. intros Hl Hi. pose proof (Hmin Hl). apply in_range in Hi; lia. Qed.

(** value of coming from edge [i] out of level [prev] *)
Definition cand (st : dp) (k this next i prev : nat) : Q := dA st i prev this + step_cost x hx D k this i prev + tail k this next.
Definition first_val (k this next : nat) : Q :=
  if Nat.eqb this start && Z.leb (Z.of_nat k) (zn dmax start) then level_value x hx this (ki k) + tail k this next else big.
Definition chosen (st : dp) (k this next : nat) (S : nat -> nat -> Prop) (r : Q * option (nat * nat)) : Prop :=
  fst r <= first_val k this next /\ (forall i p, S i p -> fst r <= cand st k this next i p) /\
  ((snd r = None /\ fst r = first_val k this next) \/ exists i p, S i p /\ snd r = Some (i, p) /\ fst r == cand st k this next i p /\ fst r < first_val k this next).
Lemma chosen_mono st k this next (S S' : nat -> nat -> Prop) r : (forall i p, S i p <-> S' i p) -> chosen st k this next S r -> chosen st k this next S' r.
Proof.
  intros H (H1 & H2 & H3). split; [exact H1|]. split; [intros i p Hp; apply H2; now apply H|]. destruct H3 as [H3|(i & p & H3 & H4)]; [now left|].
  right. exists i, p. split; [now apply H|exact H4].
Qed.
Lemma cell_char st k this next : (k <= last)%nat -> (this < m)%nat -> exists r, cell st k this next = Ok r /\
  chosen st k this next (fun i p => In i (edge_range dmin dmax k this) /\ (p < m)%nat /\ p <> this) r.
Proof.
  intros Hk Ht. unfold dp_cell. fold (first_val k this next).
  apply foldM_inv with (I := fun pre r => chosen st k this next (fun i p => In i pre /\ (p < m)%nat /\ p <> this) r).
  - split; [apply Qle_refl|]. split; [intros i p [[] _]|]. now left.
  - intros pre i post r E Hr.
    assert (Hi : In i (edge_range dmin dmax k this)) by (rewrite E; apply in_app_iff; right; now left). pose proof (range_lt k i Ht Hi) as Hlt.
    destruct (@foldM_inv _ _ (try_prev x hx D st k this next i) (fun ps r => chosen st k this next (fun i' p => (In i' pre /\ (p < m)%nat /\ p <> this) \/ (i' = i /\ In p ps /\ p <> this)) r) (seq 0 (ndep hx)) r) as (r' & Er & Hr').
    + eapply chosen_mono; [|exact Hr]. intros i' p. cbn. tauto.
    + clear r Hr. intros ps p post' [v c] E' (H1 & H2 & H3). cbn [fst snd] in *. unfold try_prev. destruct (Nat.eqb_spec p this) as [->|Hp].
      { exists (v, c). split; [reflexivity|]. eapply chosen_mono with (S := fun i' p => (In i' pre /\ (p < m)%nat /\ p <> this) \/ (i' = i /\ In p ps /\ p <> this)).
        - intros i' p. rewrite in_app_iff. cbn [In]. split; [tauto|]. intros [H|(Ei & [H|[H|[]]] & Hne)]; [now left|now right|congruence].
        - split; [exact H1|]. split; [exact H2|exact H3]. }
      destruct (Nat.leb_spec (npix x) (ki i)) as [L|L]; [exfalso; pose proof (@ki_last x hx D start stop HD Hstart Hstop i ltac:(lia)); unfold npix in L; lia|].
      eexists. split; [reflexivity|]. cbn [fst].
      set (w := dA st i p this + func (qn x (ki i)) (last_pixel hx D i p this) * (1 - k_frac D i) + level_value x hx this (ki k) - level_value x hx this (ki i + 1) + tail k this next).
      assert (Ew : w == cand st k this next i p) by (unfold w, cand, step_cost; ring).
      assert (Q1 : forall i' p', (In i' pre /\ (p' < m)%nat /\ p' <> this) \/ i' = i /\ In p' (ps ++ [p]) /\ p' <> this -> ((In i' pre /\ (p' < m)%nat /\ p' <> this) \/ i' = i /\ In p' ps /\ p' <> this) \/ (i' = i /\ p' = p)).
      { intros i' p' [H|(Ei & H & Hne)]; [tauto|]. apply in_app_iff in H. destruct H as [H|[<-|[]]]; [left; right; auto|right; auto]. }
      assert (Q2 : forall i' p', (In i' pre /\ (p' < m)%nat /\ p' <> this) \/ i' = i /\ In p' ps /\ p' <> this -> (In i' pre /\ (p' < m)%nat /\ p' <> this) \/ i' = i /\ In p' (ps ++ [p]) /\ p' <> this).
      { intros i' p' [H|(Ei & H & Hne)]; [now left|right]. split; [exact Ei|]. split; [apply in_app_iff; now left|exact Hne]. }
      assert (Q3 : (In i pre /\ (p < m)%nat /\ p <> this) \/ i = i /\ In p (ps ++ [p]) /\ p <> this) by (right; split; [reflexivity|]; split; [apply in_app_iff; right; now left|exact Hp]).
      destruct (qlt w v) eqn:Eq; qhyps; cbn [fst snd].
      * split; [cbn [fst]; lra|]. cbn [fst snd]. split.
        -- intros i' p' Hs. destruct (Q1 _ _ Hs) as [Ho|[-> ->]]; [specialize (H2 _ _ Ho); lra|]. rewrite Ew. apply Qle_refl.
        -- right. exists i, p. split; [exact Q3|]. split; [reflexivity|]. split; [exact Ew|]. lra.
      * split; [exact H1|]. cbn [fst snd]. split.
        -- intros i' p' Hs. destruct (Q1 _ _ Hs) as [Ho|[-> ->]]; [now apply H2|]. lra.
        -- destruct H3 as [H3|(i0 & p0 & H3 & H4)]; [now left|]. right. exists i0, p0. split; [now apply Q2|exact H4].
    + exists r'. split; [exact Er|]. eapply chosen_mono; [|exact Hr']. intros i' p. rewrite in_app_iff. cbn [In]. unfold ndep. rewrite in_seq.
      split; [intros [H|(-> & H & H')]; [tauto|]; split; [right; now left|]; split; [lia|exact H']|].
      intros ([H|[<-|[]]] & H1 & H2); [left; auto|right]. split; [reflexivity|]. split; [lia|exact H2].
Qed.
Lemma cell_local st st' k this next : (this < m)%nat -> (forall i, (i < k)%nat -> forall p t, dA st i p t = dA st' i p t) -> cell st k this next = cell st' k this next.
Proof.
  intros Ht H. unfold dp_cell. set (b0 := (_, None) : Q * option (nat * nat)). clearbody b0.
  assert (G : forall l b, (forall i, In i l -> (i < k)%nat) ->
    foldM (fun best i => foldM (try_prev x hx D st k this next i) (seq 0 (ndep hx)) best) l b = foldM (fun best i => foldM (try_prev x hx D st' k this next i) (seq 0 (ndep hx)) best) l b).
  { induction l as [|i l IH]; intros b Hl; [reflexivity|]. cbn [foldM].
    assert (E : forall ps b, foldM (try_prev x hx D st k this next i) ps b = foldM (try_prev x hx D st' k this next i) ps b).
    { induction ps as [|p ps IHp]; intros b1; [reflexivity|]. cbn [foldM]. unfold try_prev at 1 3. rewrite (H i (Hl i (or_introl eq_refl)) p this).
      destruct (Nat.eqb p this); [cbn [bind]; apply IHp|]. destruct (Nat.leb _ _); [reflexivity|]. cbn [bind]. apply IHp. }
    rewrite E. destruct (foldM (try_prev x hx D st' k this next i) (seq 0 (ndep hx)) b) as [b'|e]; [|reflexivity]. cbn [bind]. apply IH. intros j Hj. apply Hl. now right. }
  apply G. intros i Hi. pose proof (range_lt k i Ht Hi). lia.
Qed.
(** the table: every entry off the diagonal is the cell computed from the table itself *)
Definition entry_ok (st : dp) (k this next : nat) : Prop := cell st k this next = Ok (dA st k this next, dC st k this next).
Definition table (st : dp) (done : nat -> nat -> nat -> Prop) : Prop :=
  (forall k a b, (k <= last)%nat -> (a < m)%nat -> (b < m)%nat -> a <> b -> done k a b -> entry_ok st k a b) /\
  (forall k a b, ~ done k a b \/ a = b -> dA st k a b = dA (dp_init start) k a b /\ dC st k a b = None).
Lemma upd_eq {B} (f : nat -> nat -> nat -> B) k a b v : upd f k a b v k a b = v.
Proof. unfold upd. now rewrite !Nat.eqb_refl. Qed.
Lemma upd_ne {B} (f : nat -> nat -> nat -> B) k a b v k' a' b' : ~ (k' = k /\ a' = a /\ b' = b) -> upd f k a b v k' a' b' = f k' a' b'.
Proof.
  intros H. unfold upd. destruct (Nat.eqb_spec k' k), (Nat.eqb_spec a' a), (Nat.eqb_spec b' b); cbn; try reflexivity. exfalso. apply H. auto.
Qed.
Lemma fill_ok : exists st, dp_fill x hx D dmin dmax start = Ok st /\ table st (fun k a b => (k <= last)%nat /\ (a < m)%nat /\ (b < m)%nat).
Proof.
  unfold dp_fill.
  destruct (@foldM_inv _ _ (fun st k => foldM (fun st this => foldM (dp_step x hx D dmin dmax start k this) (seq 0 (ndep hx)) st) (seq 0 (ndep hx)) st)
    (fun pre st => table st (fun k a b => (k < length pre)%nat /\ (a < m)%nat /\ (b < m)%nat)) (seq 0 (last + 1)) (dp_init start)) as (st & E & T).
  - split; [intros k a b _ _ _ _ [H _]; cbn in H; lia|]. intros k a b _. auto.
  - intros pre k post st E T. apply seq_split_at in E. destruct E as (Ek & _ & Hl). cbn [Nat.add] in Ek. subst k. rewrite app_length. cbn [length].
    assert (Hk : (length pre <= last)%nat) by lia. set (k := length pre) in *.
    destruct (@foldM_inv _ _ (fun st this => foldM (dp_step x hx D dmin dmax start k this) (seq 0 (ndep hx)) st)
      (fun ts st => table st (fun k' a b => ((k' < k)%nat \/ k' = k /\ (a < length ts)%nat) /\ (a < m)%nat /\ (b < m)%nat)) (seq 0 (ndep hx)) st) as (st1 & E1 & T1).
    + destruct T as [T1 T2]. split.
      * intros k' a b H1 H2 H3 H4 [[H|[_ H]] _]; [|cbn in H; lia]. apply T1; auto.
      * intros k' a b H. apply T2. destruct H as [H|H]; [left|now right]. intros [G G']. apply H. split; [now left|exact G'].
    + clear st T. intros ts this post' st E T. apply seq_split_at in E. destruct E as (Et & _ & Hlt). cbn [Nat.add] in Et. subst this. rewrite app_length. cbn [length].
      unfold ndep in Hlt. set (this := length ts) in *.
      destruct (@foldM_inv _ _ (dp_step x hx D dmin dmax start k this)
        (fun ns st => table st (fun k' a b => ((k' < k)%nat \/ k' = k /\ ((a < this)%nat \/ a = this /\ (b < length ns)%nat)) /\ (a < m)%nat /\ (b < m)%nat)) (seq 0 (ndep hx)) st) as (st1 & E1 & T1).
      * destruct T as [T1 T2]. split.
        -- intros k' a b H1 H2 H3 H4 [[H|[H H']] _]; [apply T1; auto|]. destruct H' as [H'|[_ H']]; [apply T1; auto|cbn in H'; lia].
        -- intros k' a b H. apply T2. destruct H as [H|H]; [left|now right]. intros [G G']. apply H. split; [|exact G']. destruct G as [G|[G G1]]; [now left|right; auto].
      * clear st T. intros ns next post'' st E T. apply seq_split_at in E. destruct E as (En & _ & Hln). cbn [Nat.add] in En. subst next. rewrite app_length. cbn [length].
        unfold ndep in Hln. set (next := length ns) in *. unfold dp_step. destruct (Nat.eqb_spec this next) as [Ed|Ed].
        -- exists st. split; [reflexivity|]. destruct T as [T1 T2]. split.
           ++ intros k' a b H1 H2 H3 H4 [[H|[H H']] G]; [apply T1; auto|]. destruct H' as [H'|[-> H']]; [apply T1; auto|]. destruct (Nat.eq_dec b next) as [->|]; [congruence|].
              apply T1; auto. split; [right; split; [exact H|right; split; [reflexivity|lia]]|exact G].
           ++ intros k' a b H. apply T2. destruct H as [H|H]; [left|now right]. intros [G G']. apply H. split; [|exact G']. destruct G as [G|[G [G1|[G1 G2]]]]; [now left|right; auto|right; split; [exact G|right; split; [exact G1|lia]]].
        -- destruct (@cell_char st k this next Hk Hlt) as (r & Er & _). rewrite Er. cbn [bind]. eexists. split; [reflexivity|]. set (st' := Dp _ _).
           assert (Loc : forall k' a b, (k' <= k)%nat -> (a < m)%nat -> cell st' k' a b = cell st k' a b).
           { intros k' a b Hk' Ha. apply cell_local; [exact Ha|]. intros i Hi p t. unfold st'. cbn [dA]. apply upd_ne. lia. }
           destruct T as [T1 T2]. split.
           ++ intros k' a b H1 H2 H3 H4 [Hd G]. assert (k' <= k)%nat by lia. unfold entry_ok. rewrite Loc by assumption.
              destruct (Nat.eq_dec k' k) as [->|Nk]; [destruct (Nat.eq_dec a this) as [->|Na]; [destruct (Nat.eq_dec b next) as [->|Nb]|]|].
              ** rewrite Er. unfold st'. cbn [dA dC]. rewrite !upd_eq. now destruct r.
              ** unfold st'. cbn [dA dC]. rewrite !upd_ne by tauto. apply T1; auto. split; [right; split; [reflexivity|right; split; [reflexivity|]]|exact G].
                 destruct Hd as [Hd|[_ [Hd|[_ Hd]]]]; lia.
              ** unfold st'. cbn [dA dC]. rewrite !upd_ne by tauto. apply T1; auto. split; [right; split; [reflexivity|left]|exact G].
                 destruct Hd as [Hd|[_ [Hd|[Hd _]]]]; lia.
              ** unfold st'. cbn [dA dC]. rewrite !upd_ne by tauto. apply T1; auto. split; [left; lia|exact G].
           ++ intros k' a b H. assert (Nu : ~ (k' = k /\ a = this /\ b = next)).
              { intros (-> & -> & ->). destruct H as [H|H]; [|congruence]. apply H. split; [right; split; [reflexivity|right; split; [reflexivity|lia]]|]. auto. }
              unfold st'. cbn [dA dC]. rewrite !upd_ne by exact Nu. apply T2. destruct H as [H|H]; [left|now right]. intros [G G']. apply H. split; [|exact G'].
              destruct G as [G|[G [G1|[G1 G2]]]]; [now left|right; auto|right; split; [exact G|right; split; [exact G1|lia]]].
      * exists st1. split; [exact E1|]. unfold ndep in T1. rewrite seq_length in T1. destruct T1 as [T1 T2]. split.
        -- intros k' a b H1 H2 H3 H4 [[H|[H H']] G]; apply T1; auto. split; [right; split; [exact H|]|exact G]. destruct (Nat.eq_dec a this) as [->|]; [right; split; [reflexivity|lia]|left; lia].
        -- intros k' a b H. apply T2. destruct H as [H|H]; [left|now right]. intros [G G']. apply H. split; [|exact G']. destruct G as [G|[G [G1|[G1 _]]]]; [now left|right; split; [exact G|lia]|right; split; [exact G|lia]].
    + exists st1. split; [exact E1|]. unfold ndep in T1. rewrite seq_length in T1. destruct T1 as [T1 T2]. split.
      * intros k' a b H1 H2 H3 H4 [H G]. apply T1; auto. split; [|exact G]. destruct (Nat.eq_dec k' k) as [->|]; [right; split; [reflexivity|lia]|left; lia].
      * intros k' a b H. apply T2. destruct H as [H|H]; [left|now right]. intros [G G']. apply H. split; [|exact G']. destruct G as [G|[G _]]; lia.
  - exists st. split; [exact E|]. rewrite seq_length in T. destruct T as [T1 T2]. split.
    + intros k a b H1 H2 H3 H4 _. apply T1; auto. split; [lia|auto].
    + intros k a b H. apply T2. destruct H as [H|H]; [left|now right]. intros [G G']. apply H. split; [lia|exact G'].
Qed.

(** backtracking follows the path *)
Fixpoint follows (st : dp) (rs : list (nat * nat)) (next : nat) : Prop :=
  match rs with
  | [] => False
  | (k, this) :: rs' => match rs' with
      | [] => dC st k this next = None
      | e :: _ => dC st k this next = Some e /\ follows st rs' this
      end
  end.
Lemma feas_length : forall rs next k this r, rs = (k, this) :: r -> feas rs next -> (length rs <= k + 1)%nat.
Proof.
  induction rs as [|[k this] rs IH]; intros next k0 this0 r0 E F; [discriminate|]. injection E as <- <- <-. destruct rs as [|[i prev] r]; [cbn; lia|].
  destruct (@feas_tail x hx D dmin dmax start stop HD Hmin Hstart Hstop _ _ _ _ _ _ F) as (G & F' & _). specialize (IH this i prev r eq_refl F'). cbn [length] in *. lia.
Qed.
Lemma backtrack_follows st : forall rs next k this r fuel, rs = (k, this) :: r -> follows st rs next -> (length rs <= fuel)%nat -> backtrack fuel st k this next = Ok rs.
Proof.
  induction rs as [|[k this] rs IH]; intros next k0 this0 r0 fuel E F L; [discriminate|]. injection E as <- <- <-. destruct fuel as [|fuel]; [cbn in L; lia|]. cbn [backtrack].
  destruct rs as [|[i prev] r].
  - cbn [follows] in F. now rewrite F.
  - destruct F as [F F']. rewrite F. rewrite (IH this i prev r fuel eq_refl F'); [reflexivity|]. cbn [length] in *. lia.
Qed.

Definition entry_best (st : dp) (k this next : nat) : Prop :=
  (forall r, feas ((k, this) :: r) next -> dA st k this next <= pcost ((k, this) :: r) next) /\
  (dA st k this next < big -> exists r, feas ((k, this) :: r) next /\ pcost ((k, this) :: r) next == dA st k this next /\ follows st ((k, this) :: r) next).
Definition full (st : dp) : Prop := table st (fun k a b => (k <= last)%nat /\ (a < m)%nat /\ (b < m)%nat).
Lemma entries_best st : full st -> forall k this next, (k <= last)%nat -> (this < m)%nat -> (next < m)%nat -> this <> next -> entry_best st k this next.
Proof.
  intros [T _]. induction k as [k IH] using (well_founded_induction lt_wf). intros this next Hk Ht Hx Hne.
  destruct (@cell_char st k this next Hk Ht) as (r0 & Er & C1 & C2 & C3). pose proof (T k this next Hk Ht Hx Hne (conj Hk (conj Ht Hx))) as E.
  unfold entry_ok in E. rewrite Er in E. injection E as ->. cbn [fst snd] in *. split.
  - intros r F. destruct r as [|[i prev] r].
    + destruct F as (_ & _ & _ & _ & E & Hz). cbn [pcost]. unfold first_val in C1. rewrite E, Nat.eqb_refl in C1. cbn [andb] in C1.
      apply Z.leb_le in Hz. rewrite Hz in C1. rewrite E. exact C1.
    + destruct (@feas_tail x hx D dmin dmax start stop HD Hmin Hstart Hstop _ _ _ _ _ _ F) as (G & F' & Hi & _).
      destruct (feas_head F') as (Hil & Hp & Hpm & _). destruct F as (_ & _ & _ & _ & Hz & _).
      specialize (C2 i prev). eapply Qle_trans; [apply C2; split; [now apply in_range|auto]|]. unfold cand.
      change (pcost ((k, this) :: (i, prev) :: r) next) with (pcost ((i, prev) :: r) this + step_cost x hx D k this i prev + tail k this next).
      destruct (IH i ltac:(lia) prev this Hil Hpm Ht Hp) as [I1 _]. specialize (I1 r F'). lra.
  - intros L. destruct C3 as [[Ec Ev]|(i & p & (Hi & Hpm & Hp) & Ec & Ev & _)].
    + exists []. unfold first_val in Ev. destruct (Nat.eqb_spec this start) as [->|]; cbn [andb] in Ev; [|exfalso; rewrite Ev in L; lra].
      destruct (Z.leb_spec (Z.of_nat k) (zn dmax start)); [|exfalso; rewrite Ev in L; lra]. split; [cbn; auto 7|]. split; [cbn [Grating_Proofs.pcost]; rewrite Ev; reflexivity|exact Ec].
    + pose proof (range_lt k i Ht Hi) as Hlt. assert (Hil : (i <= last)%nat) by lia. destruct (IH i ltac:(lia) p this Hil Hpm Ht Hp) as [_ I2].
      pose proof (@step_pos x hx D start stop HD Hstart Hstop k this i p Hlt) as P1. pose proof (@tail_pos x hx D start stop HD Hstart Hstop k this next) as P2. unfold cand in Ev.
      destruct (I2 ltac:(lra)) as (r & F & Ep & Fo). exists ((i, p) :: r). split; [|split].
      * cbn [Grating_Proofs.feas]. cbn [Grating_Proofs.feas] in F. split; [exact Hk|]. split; [exact Hne|]. split; [exact Ht|]. split; [exact Hx|]. split; [|exact F]. now apply in_range in Hi.
      * change (pcost ((i, p) :: r) this + step_cost x hx D k this i p + tail k this next == dA st k this next). rewrite Ep, Ev. reflexivity.
      * split; [exact Ec|exact Fo].
Qed.

Lemma last_pos : (1 <= last)%nat.
Proof. unfold max_k, npix. nia. Qed.
Lemma backfilled_ne st k level : level <> stop -> (k <= last)%nat -> backfilled x hx D stop st k level == dA st k level stop + rest x hx D stop k level.
Proof.
  intros Hl Hk. unfold backfilled, rest. destruct (Nat.ltb k last); [|ring]. destruct (Nat.eqb_spec level stop); [congruence|]. unfold npix. ring.
Qed.
Lemma backfilled_stop st k : full st -> (k <= last)%nat -> backfilled x hx D stop st k stop = big.
Proof.
  intros [_ T] Hk. unfold backfilled. rewrite Nat.eqb_refl. destruct (Nat.ltb_spec k last) as [L|L]; [reflexivity|].
  destruct (T k stop stop (or_intror eq_refl)) as [-> _]. pose proof last_pos. cbn [dA dp_init]. destruct (Nat.eqb_spec k 0); [lia|reflexivity].
Qed.
Lemma best_char st : let lo := Z.to_nat (Z.max 0 (Z.of_nat last - zn dmax stop)) in let b := dp_best x hx D dmax stop st in
  (forall k l, (lo <= k <= last)%nat -> (l < m)%nat -> fst b <= backfilled x hx D stop st k l) /\ fst b <= big /\
  (b = (big, (0, 0)%nat) \/ ((lo <= fst (snd b) <= last)%nat /\ (snd (snd b) < m)%nat /\ fst b = backfilled x hx D stop st (fst (snd b)) (snd (snd b)) /\ fst b < big)).
Proof.
  intros lo b. set (B := backfilled x hx D stop st).
  set (good := fun (S : nat -> nat -> Prop) (b : Q * (nat * nat)) => (forall k l, S k l -> fst b <= B k l) /\ fst b <= big /\
    (b = (big, (0, 0)%nat) \/ ((lo <= fst (snd b) <= last)%nat /\ (snd (snd b) < m)%nat /\ fst b = B (fst (snd b)) (snd (snd b)) /\ fst b < big))).
  assert (G : good (fun k l => In k (seq lo (last + 1 - lo)) /\ (l < m)%nat) b).
  { unfold b, dp_best. fold lo. apply fold_left_inv with (I := fun pre b => good (fun k l => In k pre /\ (l < m)%nat) b).
    - split; [intros k l [[] _]|]. split; [apply Qle_refl|now left].
    - intros pre k post b1 E G1. apply seq_split_at in E. destruct E as (Ek & _ & Hlen).
      assert (G2 : good (fun k' l => (In k' pre /\ (l < m)%nat) \/ (k' = k /\ In l (seq 0 (ndep hx))))
        (fold_left (fun b level => if qlt (B k level) (fst b) then (B k level, (k, level)) else b) (seq 0 (ndep hx)) b1)).
      { apply fold_left_inv with (I := fun ls b => good (fun k' l => (In k' pre /\ (l < m)%nat) \/ (k' = k /\ In l ls)) b).
        - destruct G1 as (A1 & A2). split; [|exact A2]. intros k' l [H|[_ []]]. now apply A1.
        - clear b1 G1. intros ls l post' b1 E' (A1 & A2 & A3). apply seq_split_at in E'. destruct E' as (El & _ & Hl'). unfold ndep in Hl'.
          destruct (qlt (B k l) (fst b1)) eqn:Q; qhyps.
          + split; [|split].
            * intros k' l' [H|[-> H]]; cbn [fst]; [specialize (A1 _ _ (or_introl H)); lra|]. apply in_app_iff in H. destruct H as [H|[<-|[]]]; [specialize (A1 k l' (or_intror (conj eq_refl H))); lra|apply Qle_refl].
            * cbn [fst]. lra.
            * right. cbn [fst snd]. split; [lia|]. split; [lia|]. split; [reflexivity|lra].
          + split; [|split; [exact A2|exact A3]].
            intros k' l' [H|[-> H]]; [apply A1; now left|]. apply in_app_iff in H. destruct H as [H|[<-|[]]]; [apply A1; right; auto|exact Q]. }
      destruct G2 as (A1 & A2). split; [|exact A2]. intros k' l [H Hl]. apply A1. apply in_app_iff in H. destruct H as [H|[<-|[]]]; [left; auto|right]. split; [reflexivity|]. unfold ndep. apply in_seq. lia. }
  destruct G as (A1 & A2 & A3). split; [|split; [exact A2|exact A3]]. intros k l Hk Hl. apply A1. split; [apply in_seq; lia|exact Hl].
Qed.

(** turning the path into edges *)
Lemma combine_snoc {A B} (a : list A) (b : list B) u v : length a = length b -> combine (a ++ [u]) (b ++ [v]) = combine a b ++ [(u, v)].
Proof. revert b. induction a as [|h a IH]; intros [|h' b] E; try discriminate; [reflexivity|]. cbn. now rewrite IH by (now injection E). Qed.
Lemma zip_fwd : forall rs next, rs <> [] ->
  combine (map (fun e => pos_of D (fst e)) (rev rs)) (tl (map snd (rev rs)) ++ [next]) = in_pixels D (fwd rs next).
Proof.
  induction rs as [|[k this] rs IH]; intros next H; [congruence|]. destruct rs as [|e rs]; [reflexivity|].
  change (rev ((k, this) :: e :: rs)) with (rev (e :: rs) ++ [(k, this)]). rewrite !map_app. cbn [map fst snd].
  assert (N : map snd (rev (e :: rs)) <> []) by (intros Z; apply map_eq_nil in Z; apply (f_equal (@length _)) in Z; rewrite rev_length in Z; discriminate).
  assert (Et : tl (map snd (rev (e :: rs)) ++ [this]) = tl (map snd (rev (e :: rs))) ++ [this]) by (destruct (map snd (rev (e :: rs))); [congruence|reflexivity]).
  rewrite Et. rewrite combine_snoc.
  - rewrite (IH this) by discriminate. change (fwd ((k, this) :: e :: rs) next) with (fwd (e :: rs) this ++ [(k, next)]). unfold in_pixels. rewrite map_app. reflexivity.
  - rewrite app_length, map_length. assert (length (map snd (rev (e :: rs))) = S (length rs)) as L by (rewrite map_length, rev_length; reflexivity).
    rewrite rev_length. cbn [length]. destruct (map snd (rev (e :: rs))) as [|u w]; [congruence|]. cbn [tl length] in *. lia.
Qed.
Lemma filter_noop : forall es k l, gaps m last dmin dmax k l es -> filter_edges l (in_pixels D es) = in_pixels D es.
Proof.
  induction es as [|[k' l'] es IH]; intros k l G; [reflexivity|]. destruct G as (Hl & _ & _ & _ & G). cbn [in_pixels map filter_edges fst snd].
  destruct (Nat.eqb_spec l l'); [congruence|]. f_equal. apply (IH _ _ G).
Qed.
Lemma finish_fwd rs : feas rs stop -> finish D stop rs = in_pixels D (fwd rs stop).
Proof.
  intros F. unfold finish. rewrite zip_fwd by (intros ->; exact F). pose proof (@fwd_ok x hx D dmin dmax start rs stop F) as G. destruct (fwd rs stop) as [|[k l] es]; [reflexivity|].
  cbn [in_pixels map fst snd]. destruct G as (_ & _ & _ & _ & G). f_equal. exact (filter_noop _ _ _ G).
Qed.
Lemma dc_zero st level : full st -> dC st 0 level stop = None.
Proof.
  intros [T1 T2]. destruct (lt_dec level m) as [L|L]; [|now apply T2; left; lia]. destruct (Nat.eq_dec level stop) as [E|E]; [now apply T2; right|].
  pose proof (T1 0%nat level stop ltac:(lia) L Hstop E ltac:(split; [lia|auto])) as C. unfold entry_ok, dp_cell in C.
  assert (N : edge_range dmin dmax 0 level = []).
  { unfold edge_range. pose proof (Hmin L). match goal with |- seq ?a ?b = [] => assert (Eb : b = 0%nat) by lia; rewrite Eb; reflexivity end. }
  rewrite N in C. cbn [foldM] in C. now injection C as _ <-.
Qed.
Hypothesis Hlen1 : (m <= length dmin)%nat.
Hypothesis Hlen2 : (m <= length dmax)%nat.
Theorem dp_optimal :
  (exists es, dp_run x hx D dmin dmax start stop = Ok (in_pixels D es) /\ feasible m last dmin dmax start stop es /\ error x hx D start es < big /\
     forall es', feasible m last dmin dmax start stop es' -> error x hx D start es <= error x hx D start es') \/
  (dp_run x hx D dmin dmax start stop = Ok (in_pixels D [(0%nat, stop)]) /\
     forall es', feasible m last dmin dmax start stop es' -> big <= error x hx D start es').
Proof.
  destruct fill_ok as (st & Ef & T). pose proof (entries_best T) as EB. pose proof (best_char st) as BC. cbv zeta in BC.
  assert (Lo : forall es', feasible m last dmin dmax start stop es' -> fst (dp_best x hx D dmax stop st) <= error x hx D start es').
  { intros es' F. destruct (feasible_complete x hx D Hstart F) as (rs & [Fr C] & <-). rewrite <- (err_fwd _ _ _ _ _ _ _ _ Fr).
    destruct rs as [|[k this] r]; [destruct C|]. rewrite (@err_total x hx D dmin dmax start stop HD Hmin Hstart Hstop k this r Fr).
    destruct (feas_head Fr) as (Hk & Hne & Ht & _). destruct BC as (B1 & _). specialize (B1 k this ltac:(lia) Ht). rewrite (backfilled_ne st Hne Hk) in B1.
    destruct (EB k this stop Hk Ht Hstop Hne) as [E1 _]. specialize (E1 r Fr). lra. }
  unfold dp_run. destruct (Nat.eqb_spec D 0); [lia|]. unfold ndep.
  replace (Nat.ltb start m) with true by (symmetry; now apply Nat.ltb_lt). replace (Nat.ltb stop m) with true by (symmetry; now apply Nat.ltb_lt).
  replace (Nat.leb m (length dmin)) with true by (symmetry; now apply Nat.leb_le). replace (Nat.leb m (length dmax)) with true by (symmetry; now apply Nat.leb_le).
  cbn [andb]. rewrite Ef. cbn [bind]. destruct BC as (_ & _ & [B|(H1 & H2 & H3 & H4)]).
  - right. rewrite B in *. cbn [fst snd] in *. split; [|exact Lo]. rewrite Nat.add_comm. cbn [Nat.add backtrack]. rewrite (dc_zero 0 T). reflexivity.
  - left. destruct (dp_best x hx D dmax stop st) as [v [k this]]. cbn [fst snd] in *. destruct (Nat.eq_dec this stop) as [->|Hne].
    { exfalso. rewrite H3, (backfilled_stop T) in H4 by lia. lra. }
    assert (Hk : (k <= last)%nat) by lia. assert (Hv : v == dA st k this stop + rest x hx D stop k this) by (rewrite H3; apply (backfilled_ne st Hne Hk)).
    destruct (EB k this stop Hk H2 Hstop Hne) as [_ E2]. pose proof (@rest_pos x hx D start stop HD Hstart Hstop k this) as Rp.
    destruct (E2 ltac:(lra)) as (r & F & Ep & Fo). set (rs := (k, this) :: r) in *.
    assert (Er : error x hx D start (fwd rs stop) == v).
    { rewrite <- (err_fwd _ _ _ _ _ _ _ _ F). unfold rs. rewrite (@err_total x hx D dmin dmax start stop HD Hmin Hstart Hstop k this r F). fold rs. rewrite Ep, Hv. reflexivity. }
    exists (fwd rs stop). split; [|split; [|split]].
    + rewrite (@backtrack_follows st rs stop k this r _ eq_refl Fo).
      * cbn [bind]. now rewrite (finish_fwd _ F).
      * pose proof (@feas_length rs stop k this r eq_refl F). lia.
    + apply complete_feasible. split; [exact F|]. cbn. lia.
    + lra.
    + intros es' F'. specialize (Lo es' F'). lra.
Qed.
End P.
