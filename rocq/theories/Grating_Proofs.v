(** The grating dynamic program: cost of paths. *)
From Verif Require Import Base QTac Grating_Model Grating_Spec.
From Coq Require Import ZArith Setoid.
Set Implicit Arguments.

Section P.
Variables (x hx : list Q) (D : nat) (dmin dmax : list Z) (start stop : nat).
Hypothesis HD : (1 <= D)%nat.
Notation n := (length x).
Notation m := (length hx).
Notation last := (max_k x D).
Hypothesis Hmin : forall l, (l < m)%nat -> (Z.of_nat D <= zn dmin l)%Z.
Hypothesis Hstart : (start < m)%nat.
Hypothesis Hstop : (stop < m)%nat.
Notation ki := (k_int D).
Notation kf := (k_frac D).
Notation LV := (level_value x hx).
Notation tail := (tail_cost x hx D).

(** *** paths, last edge first: (position, level before) *)
Fixpoint feas (rs : list (nat * nat)) (next : nat) : Prop :=
  match rs with
  | [] => False
  | (k, this) :: rs' => (k <= last)%nat /\ this <> next /\ (this < m)%nat /\ (next < m)%nat /\
      match rs' with
      | [] => this = start /\ (Z.of_nat k <= zn dmax start)%Z
      | (i, _) :: _ => (zn dmin this <= Z.of_nat k - Z.of_nat i <= zn dmax this)%Z /\ feas rs' this
      end
  end.
Definition step_cost (k this i prev : nat) : Q :=
  func (qn x (ki i)) (last_pixel hx D i prev this) * (1 - kf i) + LV this (ki k) - LV this (ki i + 1).
Fixpoint pcost (rs : list (nat * nat)) (next : nat) : Q :=
  match rs with
  | [] => 0
  | (k, this) :: rs' =>
      match rs' with
      | [] => LV this (ki k) + tail k this next
      | (i, prev) :: _ => pcost rs' this + step_cost k this i prev + tail k this next
      end
  end.
Fixpoint level_r (rs : list (nat * nat)) (next t : nat) : nat :=
  match rs with [] => next | (k, this) :: rs' => if Nat.leb k t then next else level_r rs' this t end.
Fixpoint fwd (rs : list (nat * nat)) (next : nat) : list (nat * nat) :=
  match rs with [] => [] | (k, this) :: rs' => fwd rs' this ++ [(k, next)] end.

Lemma divD k : (ki k * D <= k < (ki k + 1) * D)%nat.
Proof. unfold k_int. pose proof (Nat.div_mod k D ltac:(lia)). pose proof (Nat.mod_upper_bound k D ltac:(lia)). nia. Qed.
Lemma ki_lt k p : (p < ki k)%nat <-> ((p + 1) * D <= k)%nat.
Proof. pose proof (divD k). split; intros; nia. Qed.
Lemma ki_gap i k : (i + D <= k)%nat -> (ki i + 1 <= ki k)%nat.
Proof. intros H. pose proof (divD i). assert (ki i < ki k)%nat by (apply ki_lt; nia). lia. Qed.
Lemma ki_last k : (k < last)%nat -> (ki k < n)%nat.
Proof. intros H. unfold max_k, npix in H. pose proof (divD k). nia. Qed.
Lemma ki_le_last k : (k <= last)%nat -> (ki k <= n)%nat.
Proof. intros H. unfold max_k, npix in H. pose proof (divD k). nia. Qed.
Lemma DQ : 0 < inject_Z (Z.of_nat D).
Proof. change 0 with (inject_Z 0). rewrite <- Zlt_Qlt. lia. Qed.
Lemma kf_bounds k : 0 <= kf k /\ kf k < 1.
Proof.
  unfold k_frac. pose proof DQ. pose proof (Nat.mod_upper_bound k D ltac:(lia)). split.
  - apply Qle_shift_div_l; [assumption|]. rewrite Qmult_0_l. change 0 with (inject_Z 0). rewrite <- Zle_Qle. lia.
  - apply Qlt_shift_div_r; [assumption|]. rewrite Qmult_1_l. rewrite <- Zlt_Qlt. lia.
Qed.
Lemma func_pos a b : 0 <= func a b.
Proof. unfold func. generalize (a - b). intros c. nra. Qed.
Lemma tail_pos k this next : 0 <= tail k this next.
Proof. unfold tail_cost. destruct (Nat.ltb _ _); [|lra]. pose proof (func_pos (qn x (ki k)) (next_pixel hx D k this next)). pose proof (kf_bounds k). nra. Qed.
Lemma LV_sum l i : LV l i == sumn i (fun p => func (qn x p) (qn hx l)).
Proof. induction i as [|i IH]; cbn [level_value sumn]; [reflexivity|]. rewrite IH. reflexivity. Qed.
Lemma LV_mono l i j : (i <= j)%nat -> LV l i <= LV l j.
Proof. induction 1 as [|j Hj IH]; [apply Qle_refl|]. cbn [level_value]. pose proof (func_pos (qn x j) (qn hx l)). lra. Qed.
Lemma step_pos k this i prev : (i + D <= k)%nat -> 0 <= step_cost k this i prev.
Proof.
  intros H. unfold step_cost. pose proof (LV_mono this (@ki_gap i k H)). pose proof (func_pos (qn x (ki i)) (last_pixel hx D i prev this)). pose proof (kf_bounds i). nra.
Qed.

(** *** averages of pixels *)
Definition depth_r (rs : list (nat * nat)) (next p : nat) : Q :=
  sumn D (fun q => qn hx (level_r rs next (p * D + q))) / inject_Z (Z.of_nat D).
Lemma sumn_const k c : sumn k (fun _ => c) == inject_Z (Z.of_nat k) * c.
Proof. induction k as [|k IH]; cbn [sumn]; [reflexivity|]. rewrite IH, Nat2Z.inj_succ. unfold Z.succ. rewrite inject_Z_plus. ring. Qed.
Lemma depth_const rs next p l : (forall q, (q < D)%nat -> level_r rs next (p * D + q) = l) -> depth_r rs next p == qn hx l.
Proof.
  intros H. unfold depth_r. rewrite (@sumn_ext D _ (fun _ => qn hx l)) by (intros q Hq; rewrite H by exact Hq; reflexivity).
  rewrite sumn_const. field. pose proof DQ. lra.
Qed.
Lemma depth_ext rs next rs' next' p : (forall q, (q < D)%nat -> level_r rs next (p * D + q) = level_r rs' next' (p * D + q)) -> depth_r rs next p == depth_r rs' next' p.
Proof. intros H. unfold depth_r. rewrite (@sumn_ext D _ (fun q => qn hx (level_r rs' next' (p * D + q)))) by (intros q Hq; rewrite H by exact Hq; reflexivity). reflexivity. Qed.
Lemma sumn_split_at (a b : Q) r k : (r <= k)%nat -> sumn k (fun q => if Nat.ltb q r then a else b) == inject_Z (Z.of_nat r) * a + inject_Z (Z.of_nat (k - r)) * b.
Proof.
  induction k as [|k IH]; intros H.
  - assert (r = 0)%nat as -> by lia. cbn. ring.
  - cbn [sumn]. destruct (Nat.ltb_spec k r) as [L|L].
    + assert (r = S k) as -> by lia. rewrite Nat.sub_diag. rewrite (@sumn_ext k _ (fun _ => a)).
      * rewrite sumn_const, Nat2Z.inj_succ. unfold Z.succ. rewrite inject_Z_plus. cbn [Z.of_nat]. change (inject_Z 1) with 1. change (inject_Z 0) with 0. ring.
      * intros q Hq. replace (Nat.ltb q (S k)) with true by (symmetry; apply Nat.ltb_lt; lia). reflexivity.
    + rewrite IH by exact L. rewrite Nat.sub_succ_l by exact L. rewrite Nat2Z.inj_succ. unfold Z.succ. rewrite inject_Z_plus. change (inject_Z 1) with 1. ring.
Qed.
(** the pixel that holds the last edge *)
Lemma depth_edge rs' k this next : (forall t, (ki k * D <= t < k)%nat -> level_r rs' this t = this) ->
  depth_r ((k, this) :: rs') next (ki k) == next_pixel hx D k this next.
Proof.
  intros H. unfold depth_r. rewrite (@sumn_ext D _ (fun q => if Nat.ltb q (k mod D) then qn hx this else qn hx next)).
  - pose proof (Nat.mod_upper_bound k D ltac:(lia)) as Hr. rewrite sumn_split_at by lia. unfold next_pixel, k_frac.
    rewrite Nat2Z.inj_sub by lia. unfold Z.sub. rewrite inject_Z_plus, inject_Z_opp. field. pose proof DQ. lra.
  - intros q Hq. cbn [level_r]. assert (E : k = (ki k * D + k mod D)%nat) by (unfold k_int; pose proof (Nat.div_mod k D ltac:(lia)); nia).
    destruct (Nat.leb_spec k (ki k * D + q)) as [L|L].
    + destruct (Nat.ltb_spec q (k mod D)); [lia|reflexivity].
    + destruct (Nat.ltb_spec q (k mod D)); [rewrite H by lia; reflexivity|lia].
Qed.
Lemma feas_tail k this i prev r next : feas ((k, this) :: (i, prev) :: r) next -> (i + D <= k)%nat /\ feas ((i, prev) :: r) this /\ (i < last)%nat /\ (k <= last)%nat.
Proof.
  intros (H1 & H2 & H3 & H4 & [H5 H5'] & H6). pose proof (Hmin H3). split; [lia|]. split; [exact H6|]. split; lia.
Qed.
Lemma feas_head k this r next : feas ((k, this) :: r) next -> (k <= last)%nat /\ this <> next /\ (this < m)%nat /\ (next < m)%nat.
Proof. intros (H1 & H2 & H3 & H4 & _). auto. Qed.
(** after the previous edge the level is [this] *)
Lemma level_after k this r next t : feas ((k, this) :: r) next -> (ki k * D <= t)%nat -> level_r r this t = this.
Proof.
  intros F Ht. destruct r as [|[i prev] r]; [reflexivity|]. apply feas_tail in F. destruct F as (G & F & _). cbn [level_r].
  replace (Nat.leb i t) with true; [reflexivity|]. symmetry. apply Nat.leb_le. pose proof (@ki_gap i k G). pose proof (divD i). nia.
Qed.
Lemma sumn_range a b (g : nat -> Q) : sumn (a + b) g == sumn a g + sumn b (fun q => g (a + q)%nat).
Proof. induction b as [|b IH]; [rewrite Nat.add_0_r; cbn [sumn]; ring|]. rewrite Nat.add_succ_r. cbn [sumn]. rewrite IH. ring. Qed.
Lemma sumn_cut' k i (g : nat -> Q) : (i <= k)%nat -> sumn k g == sumn i g + sumn (k - i) (fun q => g (i + q)%nat).
Proof. intros H. rewrite <- sumn_range. now replace (i + (k - i))%nat with k by lia. Qed.
Lemma sumn_cut k i (g : nat -> Q) : (S i <= k)%nat -> sumn k g == sumn i g + g i + sumn (k - S i) (fun q => g (S i + q)%nat).
Proof. intros H. rewrite (@sumn_cut' k (S i)) by exact H. reflexivity. Qed.
Lemma func_ext a b b' : b == b' -> func a b == func a b'.
Proof. intros H. unfold func. rewrite H. reflexivity. Qed.

Lemma pcost_sum : forall rs next k this r, rs = (k, this) :: r -> feas rs next ->
  pcost rs next == sumn (ki k) (fun p => func (qn x p) (depth_r rs next p)) + tail k this next.
Proof.
  induction rs as [|[k this] rs IH]; intros next k0 this0 r0 E F; [discriminate|]. injection E as <- <- <-.
  destruct rs as [|[i prev] r].
  - cbn [pcost]. rewrite LV_sum. rewrite (@sumn_ext (ki k) _ (fun p => func (qn x p) (depth_r [(k, this)] next p))); [reflexivity|].
    intros p Hp. apply func_ext. symmetry. apply depth_const. intros q Hq. cbn [level_r]. apply ki_lt in Hp.
    destruct (Nat.leb_spec k (p * D + q)); [nia|reflexivity].
  - change (pcost ((k, this) :: (i, prev) :: r) next) with (pcost ((i, prev) :: r) this + step_cost k this i prev + tail k this next).
    destruct (feas_tail F) as (G & F' & Hi & Hk). rewrite (IH this i prev r eq_refl F'). apply Qplus_inj_r.
    pose proof (@ki_gap i k G) as Hg. set (rs' := (i, prev) :: r) in *.
    rewrite (@sumn_cut (ki k) (ki i)) by lia.
    assert (S1 : sumn (ki i) (fun p => func (qn x p) (depth_r ((k, this) :: rs') next p)) == sumn (ki i) (fun p => func (qn x p) (depth_r rs' this p))).
    { apply sumn_ext. intros p Hp. apply func_ext. apply depth_ext. intros q Hq. cbn [level_r]. apply ki_lt in Hp. pose proof (divD i).
      destruct (Nat.leb_spec k (p * D + q)); [nia|reflexivity]. }
    assert (S2 : depth_r ((k, this) :: rs') next (ki i) == last_pixel hx D i prev this).
    { transitivity (depth_r rs' this (ki i)).
      - apply depth_ext. intros q Hq. cbn [level_r]. destruct (Nat.leb_spec k (ki i * D + q)); [|reflexivity]. exfalso.
        assert ((ki i + 1) * D <= k)%nat by (apply ki_lt; lia). nia.
      - unfold rs'. rewrite depth_edge; [unfold next_pixel, last_pixel; ring|]. intros t Ht. apply (level_after F'). lia. }
    assert (S3 : sumn (ki k - S (ki i)) (fun q => func (qn x (S (ki i) + q)) (depth_r ((k, this) :: rs') next (S (ki i) + q))) == LV this (ki k) - LV this (ki i + 1)).
    { rewrite !LV_sum. replace (ki i + 1)%nat with (S (ki i)) by lia. rewrite (@sumn_cut' (ki k) (S (ki i))) by lia.
      rewrite (@sumn_ext _ _ (fun q => func (qn x (S (ki i) + q)) (qn hx this))); [ring|]. intros q Hq. apply func_ext. apply depth_const. intros q' Hq'.
      cbn [level_r]. pose proof (divD i). assert (((S (ki i) + q) + 1) * D <= k)%nat by (apply ki_lt; lia).
      destruct (Nat.leb_spec k ((S (ki i) + q) * D + q')); [nia|]. unfold rs'. cbn [level_r].
      destruct (Nat.leb_spec i ((S (ki i) + q) * D + q')); [reflexivity|nia]. }
    rewrite S1, S3. rewrite (func_ext (qn x (ki i)) S2). unfold step_cost.
    assert (T : tail i prev this == func (qn x (ki i)) (last_pixel hx D i prev this) * kf i).
    { unfold tail_cost. replace (Nat.ltb (ki i) (npix x)) with true by (symmetry; apply Nat.ltb_lt; now apply ki_last).
      rewrite (@func_ext _ (next_pixel hx D i prev this) (last_pixel hx D i prev this)); [reflexivity|]. unfold next_pixel, last_pixel. ring. }
    rewrite T. ring.
Qed.
(** error of the whole *)
Definition rest (k level : nat) : Q :=
  if Nat.ltb k last then func (qn x (ki k)) (qn hx stop * (1 - kf k) + qn hx level * kf k) * (1 - kf k) + LV stop n - LV stop (ki k + 1) else 0.
Definition err_r (rs : list (nat * nat)) : Q := sumn n (fun p => func (qn x p) (depth_r rs stop p)).
Lemma rest_pos k level : 0 <= rest k level.
Proof.
  unfold rest. destruct (Nat.ltb_spec k last) as [L|L]; [|lra]. pose proof (func_pos (qn x (ki k)) (qn hx stop * (1 - kf k) + qn hx level * kf k)).
  pose proof (kf_bounds k). pose proof (@LV_mono stop (ki k + 1) n ltac:(pose proof (ki_last L); lia)). nra.
Qed.
Lemma err_total k this r : feas ((k, this) :: r) stop -> err_r ((k, this) :: r) == pcost ((k, this) :: r) stop + rest k this.
Proof.
  intros F. rewrite (@pcost_sum _ stop k this r eq_refl F). unfold err_r, rest, tail_cost. destruct (feas_head F) as (Hk & _). destruct (Nat.ltb_spec k last) as [L|L].
  - pose proof (ki_last L) as Hn. replace (Nat.ltb (ki k) (npix x)) with true by (symmetry; apply Nat.ltb_lt; exact Hn).
    set (rs := (k, this) :: r) in *.
    assert (E : sumn n (fun p => func (qn x p) (depth_r rs stop p)) ==
      sumn (ki k) (fun p => func (qn x p) (depth_r rs stop p)) + func (qn x (ki k)) (depth_r rs stop (ki k)) + sumn (n - S (ki k)) (fun q => func (qn x (S (ki k) + q)) (depth_r rs stop (S (ki k) + q)))).
    { apply sumn_cut. lia. }
    rewrite E. clear E.
    assert (S2 : depth_r rs stop (ki k) == next_pixel hx D k this stop).
    { unfold rs. apply depth_edge. intros t Ht. apply (level_after F). lia. }
    assert (S3 : sumn (n - S (ki k)) (fun q => func (qn x (S (ki k) + q)) (depth_r rs stop (S (ki k) + q))) == LV stop n - LV stop (ki k + 1)).
    { rewrite !LV_sum. replace (ki k + 1)%nat with (S (ki k)) by lia. rewrite (@sumn_cut' n (S (ki k))) by lia.
      rewrite (@sumn_ext _ _ (fun q => func (qn x (S (ki k) + q)) (qn hx stop))); [ring|]. intros q Hq. apply func_ext. apply depth_const. intros q' Hq'.
      unfold rs. cbn [level_r]. pose proof (divD k). destruct (Nat.leb_spec k ((S (ki k) + q) * D + q')); [reflexivity|nia]. }
    rewrite S3, (func_ext (qn x (ki k)) S2).
    rewrite (@func_ext _ (qn hx stop * (1 - kf k) + qn hx this * kf k) (next_pixel hx D k this stop)) by (unfold next_pixel; ring). ring.
  - assert (k = last) by lia. assert (ki k = n) as En.
    { pose proof (divD k). unfold max_k, npix in *. nia. }
    rewrite En. unfold npix. rewrite Nat.ltb_irrefl. ring.
Qed.

(** *** levels: reversed and forward *)
Lemma level_fwd : forall rs next t, (exists k r, rs = r ++ [(k, start)]) -> level_r rs next t = level_at start (fwd rs next) t.
Proof.
  induction rs as [|[k this] rs IH]; intros next t (k0 & r & E); [destruct r; discriminate|]. cbn [level_r fwd]. unfold level_at. rewrite fold_left_app. cbn [fold_left fst snd].
  destruct (Nat.leb_spec k t); [reflexivity|]. destruct rs as [|[i prev] rs].
  - destruct r as [|a r]; [injection E as _ ->; reflexivity|]. injection E as _ E. destruct r; discriminate.
  - destruct r as [|a r]; [discriminate|]. injection E as _ E. apply IH. exists k0, r. exact E.
Qed.
Lemma feas_last : forall rs next, feas rs next -> exists k r, rs = r ++ [(k, start)].
Proof.
  induction rs as [|[k this] rs IH]; intros next F; [destruct F|]. destruct rs as [|[i prev] rs].
  - destruct F as (_ & _ & _ & _ & -> & _). exists k, []. reflexivity.
  - destruct F as (_ & _ & _ & _ & _ & F). destruct (IH _ F) as (k0 & r & E). exists k0, ((k, this) :: r). rewrite E. reflexivity.
Qed.
Lemma err_fwd rs : feas rs stop -> err_r rs == error x hx D start (fwd rs stop).
Proof.
  intros F. unfold err_r, error. apply sumn_ext. intros p Hp.
  assert (E : depth_r rs stop p = pixel_depth hx D start (fwd rs stop) p \/ depth_r rs stop p == pixel_depth hx D start (fwd rs stop) p).
  { right. unfold depth_r, pixel_depth. rewrite (@sumn_ext D _ (fun q => qn hx (level_at start (fwd rs stop) (p * D + q)))); [reflexivity|].
    intros q Hq. rewrite (level_fwd stop (p * D + q) (feas_last _ _ F)). reflexivity. }
  destruct E as [E|E]; unfold func; rewrite E; reflexivity.
Qed.
(** feasibility, forward *)
Lemma last_cons {A} (e : A) l d d' : List.last (e :: l) d = List.last (e :: l) d'.
Proof. revert e. induction l as [|a l IH]; intros e; [reflexivity|]. apply (IH a). Qed.
Lemma last_cons2 {A} (e : A) l d : List.last (e :: l) d = List.last l e.
Proof. destruct l as [|a l]; [reflexivity|]. change (List.last (a :: l) d = List.last (a :: l) e). apply last_cons. Qed.
Lemma gaps_snoc : forall es k cur k' l, gaps m last dmin dmax k cur (es ++ [(k', l)]) <->
  gaps m last dmin dmax k cur es /\
  (let '(k1, c1) := List.last es (k, cur) in l <> c1 /\ (l < m)%nat /\ (k' <= last)%nat /\ (zn dmin c1 <= Z.of_nat k' - Z.of_nat k1 <= zn dmax c1)%Z).
Proof.
  induction es as [|[k2 l2] es IH]; intros k cur k' l; cbn [app gaps].
  - cbn [List.last]. tauto.
  - rewrite IH, last_cons2.
    destruct (List.last es (k2, l2)) as [k1 c1]. tauto.
Qed.
Definition okf (es : list (nat * nat)) : Prop :=
  match es with
  | [] => False
  | (k, l) :: es' => (k <= last)%nat /\ (Z.of_nat k <= zn dmax start)%Z /\ l <> start /\ (l < m)%nat /\ gaps m last dmin dmax k l es'
  end.
Lemma fwd_last k this r next d : List.last (fwd ((k, this) :: r) next) d = (k, next).
Proof. cbn [fwd]. apply last_last. Qed.
Lemma fwd_ok : forall rs next, feas rs next -> okf (fwd rs next).
Proof.
  induction rs as [|[k this] rs IH]; intros next F; [destruct F|]. destruct rs as [|[i prev] rs].
  - destruct F as (H1 & H2 & H3 & H4 & -> & H6). cbn [fwd app okf gaps]. auto.
  - pose proof (feas_head F) as (H1 & H2 & H3 & H4). destruct F as (_ & _ & _ & _ & Hz & F). specialize (IH _ F).
    change (fwd ((k, this) :: (i, prev) :: rs) next) with (fwd ((i, prev) :: rs) this ++ [(k, next)]).
    pose proof (fun d => @fwd_last i prev rs this d) as L. destruct (fwd ((i, prev) :: rs) this) as [|[k2 l2] es]; [destruct IH|].
    cbn [app okf] in *. destruct IH as (G1 & G2 & G3 & G4 & G5). do 4 (split; [assumption|]). apply gaps_snoc. split; [exact G5|].
    assert (E : List.last es (k2, l2) = (i, this)).
    { rewrite <- (L (k2, l2)). now rewrite last_cons2. }
    rewrite E. auto.
Qed.
Lemma ok_fwd : forall es, okf es -> exists rs k next, List.last es (0, 0)%nat = (k, next) /\ feas rs next /\ fwd rs next = es /\ exists this r, rs = (k, this) :: r.
Proof.
  induction es as [|[k' l] es IH] using rev_ind; intros H; [destruct H|]. rewrite last_last. destruct es as [|[k2 l2] es].
  - cbn [app okf gaps] in H. destruct H as (H1 & H2 & H3 & H4 & _). exists [(k', start)], k', l. split; [reflexivity|]. split; [cbn [feas]; auto 7|]. split; [reflexivity|]. eauto.
  - cbn [app okf] in H. destruct H as (H1 & H2 & H3 & H4 & H5). apply gaps_snoc in H5. destruct H5 as [H5 H6].
    destruct IH as (rs & k & next & L & F & E & this & r & Ers); [cbn [okf]; auto|].
    assert (L' : List.last es (k2, l2) = (k, next)).
    { rewrite <- L. now rewrite last_cons2. }
    rewrite L' in H6. destruct H6 as (G1 & G2 & G3 & G4). subst rs. pose proof (feas_head F) as (F1 & F2 & F3 & F4).
    exists ((k', next) :: (k, this) :: r), k', l. split; [reflexivity|]. split.
    { cbn [feas]. cbn [feas] in F. split; [exact G3|]. split; [congruence|]. split; [exact F4|]. split; [exact G2|]. split; [exact G4|exact F]. }
    split; [change (fwd ((k', next) :: (k, this) :: r) l) with (fwd ((k, this) :: r) next ++ [(k', l)]); now rewrite E|]. eauto.
Qed.
Definition complete (rs : list (nat * nat)) : Prop :=
  feas rs stop /\ match rs with [] => False | (k, _) :: _ => (Z.of_nat last - Z.of_nat k <= zn dmax stop)%Z end.
Lemma complete_feasible rs : complete rs -> feasible m last dmin dmax start stop (fwd rs stop).
Proof.
  intros [F C]. split; [exact (fwd_ok _ _ F)|]. destruct rs as [|[k this] r]; [destruct C|]. exists (fwd r this), k. split; [reflexivity|exact C].
Qed.
Lemma feasible_complete es : feasible m last dmin dmax start stop es -> exists rs, complete rs /\ fwd rs stop = es.
Proof.
  intros [H (pre & k & E & C)]. destruct (ok_fwd es H) as (rs & k' & next & L & F & Ef & this & r & Er).
  rewrite E, last_last in L. injection L as <- <-. exists rs. split; [|exact Ef]. split; [exact F|]. rewrite Er. exact C.
Qed.
End P.
