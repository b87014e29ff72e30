(** Interpolation along one axis. *)
From Coq Require Import Reals Lra Lia.
From Verif Require Import Base Cub_Model Cub_Spec Cub_Proofs Cub_Proofs2 Cub_Proofs4.
Set Implicit Arguments.
Open Scope R_scope.

(** ** Cells *)

Definition incr (q : list R) : Prop :=
  forall i j, (i < j)%nat -> (j < length q)%nat -> nthR q i < nthR q j.

Lemma incr_tail a q : incr (a :: q) -> incr q.
Proof. intros H i j Hij Hj. apply (H (S i) (S j)); cbn; lia. Qed.

Lemma incr_le q i j : incr q -> (i <= j)%nat -> (j < length q)%nat -> nthR q i <= nthR q j.
Proof.
  intros H Hij Hj. destruct (Nat.eq_dec i j) as [-> | N]; [lra |].
  apply Rlt_le, H; lia.
Qed.

Lemma digitize_le q t : (digitize q t <= length q)%nat.
Proof. induction q as [| a q IH]; cbn; [lia |]. destruct (Rle_dec a t); lia. Qed.

Lemma digitize_spec q t : incr q ->
  (forall i, (i < digitize q t)%nat -> nthR q i <= t) /\
  (forall i, (digitize q t <= i < length q)%nat -> t < nthR q i).
Proof.
  induction q as [| a q IH]; intros H; cbn [digitize length].
  - split; intros; lia.
  - specialize (IH (incr_tail H)). destruct IH as [I1 I2].
    destruct (Rle_dec a t) as [L | L].
    + split.
      * intros [| i] Hi; [exact L |]. apply I1. lia.
      * intros [| i] Hi; [lia |]. apply I2. lia.
    + assert (Z : digitize q t = 0%nat).
      { destruct (digitize q t) as [| d] eqn:E; [reflexivity |].
        exfalso. assert (nthR q 0 <= t) by (apply I1; lia).
        destruct q as [| b q]; [discriminate |].
        assert (a < b) by apply (H 0%nat 1%nat ltac:(lia) ltac:(cbn; lia)).
        cbn in *. lra. }
      rewrite Z. split; [intros; lia |].
      intros [| i] Hi; [unfold nthR; cbn; lra |]. apply I2. lia.
Qed.

(** the cell that the code uses for a point *)
Definition cellc (q : list R) (t : R) : nat :=
  (Nat.min (digitize q t) (length q - 1) - 1)%nat.

Definition inside (q : list R) (t : R) : Prop :=
  nthR q 0 <= t <= nthR q (length q - 1).

Lemma cell_ok q t : incr q -> (2 <= length q)%nat -> inside q t ->
  cell q t = Ok (cellc q t) /\ (S (cellc q t) < length q)%nat /\
  nthR q (cellc q t) <= t <= nthR q (S (cellc q t)).
Proof.
  intros H L [I1 I2]. destruct (digitize_spec t H) as [D1 D2].
  assert (P : (0 < digitize q t)%nat).
  { destruct (digitize q t) eqn:E; [| lia]. exfalso.
    assert (t < nthR q 0) by (apply D2; lia). lra. }
  unfold cell, cellc. pose proof (digitize_le q t) as DL.
  destruct (Nat.min (digitize q t) (length q - 1)) as [| c] eqn:E; [lia |].
  replace (S c - 1)%nat with c by lia. split; [reflexivity |]. split; [lia |]. split.
  - apply D1. lia.
  - destruct (Nat.le_gt_cases (digitize q t) (length q - 1)) as [G | G].
    + apply Rlt_le, D2. lia.
    + replace (S c) with (length q - 1)%nat by lia. exact I2.
Qed.

(** ** The quadratic derivative *)

Definition good (per : bool) (q : list R) : Prop :=
  incr q /\ (if per then 2 <= length q else 3 <= length q)%nat.

Lemma good_2 per q : good per q -> (2 <= length q)%nat.
Proof. intros [_ H]. destruct per; lia. Qed.

(** slope estimated at grid point i, from the independent values g *)
Definition slope (per : bool) (q : list R) (g : nat -> R) (i : nat) : R :=
  dquad (per_ext per q) per (n_red per q) (wrapb per (length q) i) g.

Lemma dquad_linear x per n i a b g h :
  dquad x per n i (fun k => a * g k + b * h k) = a * dquad x per n i g + b * dquad x per n i h.
Proof.
  unfold dquad. destruct (Nat.eqb i (n - 1) && negb per); [unfold Rdiv; ring |].
  destruct (Nat.eqb i 0 && negb per); [unfold Rdiv; ring |].
  unfold Rdiv; ring.
Qed.

Lemma dquad_ext x per n i g h : (i < n)%nat -> (per = false -> 3 <= n)%nat ->
  (forall k, (k < n)%nat -> g k = h k) ->
  dquad x per n i g = dquad x per n i h.
Proof.
  intros Hi Hn E. unfold dquad.
  destruct per; cbn [negb]; rewrite ?andb_false_r, ?andb_true_r.
  - destruct (Nat.eqb_spec (i + 1) n); destruct i as [| k]; rewrite !E by lia; reflexivity.
  - specialize (Hn eq_refl). destruct (Nat.eqb_spec i (n - 1)).
    + rewrite !E by lia. reflexivity.
    + destruct (Nat.eqb_spec i 0).
      * rewrite !E by lia. reflexivity.
      * destruct (Nat.eqb_spec (i + 1) n); [lia |].
        destruct i as [| k]; [lia |]. rewrite !E by lia. reflexivity.
Qed.

Lemma wrapb_lt per q i : (2 <= length q)%nat -> (i < length q)%nat ->
  (wrapb per (length q) i < n_red per q)%nat.
Proof.
  intros H Hi. unfold n_red. destruct per; cbn [wrapb]; [| lia].
  pose proof (@wrap_lt (length q) i H). lia.
Qed.

Lemma slope_linear per q i a b g h :
  slope per q (fun k => a * g k + b * h k) i = a * slope per q g i + b * slope per q h i.
Proof. apply dquad_linear. Qed.

Lemma slope_ext per q i g h : good per q -> (i < length q)%nat ->
  (forall k, (k < n_red per q)%nat -> g k = h k) -> slope per q g i = slope per q h i.
Proof.
  intros G Hi E. apply dquad_ext; auto.
  - apply wrapb_lt; [apply (good_2 G) | exact Hi].
  - intros ->. destruct G as [_ G]. unfold n_red. lia.
Qed.

(** ** The interpolant *)

Definition H1d (per : bool) (q : list R) (g : nat -> R) (c : nat) (t : R) : R :=
  herm (nthR q (S c) - nthR q c)
    (g (wrapb per (length q) c)) (g (wrapb per (length q) (S c)))
    (slope per q g c) (slope per q g (S c)) (t - nthR q c).
Definition H1d' (per : bool) (q : list R) (g : nat -> R) (c : nat) (t : R) : R :=
  herm' (nthR q (S c) - nthR q c)
    (g (wrapb per (length q) c)) (g (wrapb per (length q) (S c)))
    (slope per q g c) (slope per q g (S c)) (t - nthR q c).
Definition I1 per q g t := H1d per q g (cellc q t) t.
Definition I1' per q g t := H1d' per q g (cellc q t) t.

Lemma herm_0 d f0 f1 g0 g1 : d <> 0 -> herm d f0 f1 g0 g1 0 = f0.
Proof. intros. unfold herm. field. auto. Qed.
Lemma herm_d d f0 f1 g0 g1 : d <> 0 -> herm d f0 f1 g0 g1 d = f1.
Proof. intros. unfold herm. field. auto. Qed.
Lemma herm'_0 d f0 f1 g0 g1 : d <> 0 -> herm' d f0 f1 g0 g1 0 = g0.
Proof. intros. unfold herm'. field. auto. Qed.
Lemma herm'_d d f0 f1 g0 g1 : d <> 0 -> herm' d f0 f1 g0 g1 d = g1.
Proof. intros. unfold herm'. field. auto. Qed.

Lemma gap q c : incr q -> (S c < length q)%nat -> 0 < nthR q (S c) - nthR q c.
Proof. intros H L. assert (nthR q c < nthR q (S c)) by (apply H; lia). lra. Qed.

Lemma H1d_left per q g c : incr q -> (S c < length q)%nat ->
  H1d per q g c (nthR q c) = g (wrapb per (length q) c) /\
  H1d' per q g c (nthR q c) = slope per q g c.
Proof.
  intros H L. pose proof (gap H L). unfold H1d, H1d'.
  replace (nthR q c - nthR q c) with 0 by ring.
  rewrite herm_0, herm'_0 by lra. auto.
Qed.
Lemma H1d_right per q g c : incr q -> (S c < length q)%nat ->
  H1d per q g c (nthR q (S c)) = g (wrapb per (length q) (S c)) /\
  H1d' per q g c (nthR q (S c)) = slope per q g (S c).
Proof.
  intros H L. pose proof (gap H L). unfold H1d, H1d'.
  rewrite herm_d, herm'_d by lra. auto.
Qed.

(** In every closed cell the interpolant is the cubic of this cell. *)
Lemma I1_on_cell per q g c t : incr q -> (S c < length q)%nat ->
  nthR q c <= t <= nthR q (S c) ->
  I1 per q g t = H1d per q g c t /\ I1' per q g t = H1d' per q g c t.
Proof.
  intros H L [T1 T2]. assert (L2 : (2 <= length q)%nat) by lia.
  assert (IN : inside q t).
  { split.
    - apply Rle_trans with (nthR q c); [| exact T1]. apply incr_le; auto; lia.
    - apply Rle_trans with (nthR q (S c)); [exact T2 |]. apply incr_le; auto; lia. }
  destruct (cell_ok H L2 IN) as (_ & C1 & C2 & C3).
  unfold I1, I1'. set (c' := cellc q t) in *. clearbody c'.
  destruct (Nat.lt_trichotomy c' c) as [LT | [-> | GT]]; [| auto |].
  - (* t = q_c and the cell is the one before *)
    assert (nthR q (S c') <= nthR q c) by (apply incr_le; auto; lia).
    assert (T : t = nthR q (S c')) by lra.
    assert (E : c = S c').
    { destruct (Nat.eq_dec c (S c')) as [-> | N]; [reflexivity |].
      assert (nthR q (S c') < nthR q c) by (apply H; lia). lra. }
    subst c t. destruct (@H1d_left per q g (S c') H L). destruct (@H1d_right per q g c' H C1).
    split; congruence.
  - assert (nthR q (S c) <= nthR q c') by (apply incr_le; auto; lia).
    assert (T : t = nthR q (S c)) by lra.
    assert (E : c' = S c).
    { destruct (Nat.eq_dec c' (S c)) as [-> | N]; [reflexivity |].
      assert (nthR q (S c) < nthR q c') by (apply H; lia). lra. }
    rewrite E in *. subst t. destruct (@H1d_left per q g (S c) H C1). destruct (@H1d_right per q g c H L).
    split; congruence.
Qed.

Lemma I1_knot per q g i : incr q -> (2 <= length q)%nat -> (i < length q)%nat ->
  I1 per q g (nthR q i) = g (wrapb per (length q) i) /\
  I1' per q g (nthR q i) = slope per q g i.
Proof.
  intros H L Hi. destruct (Nat.eq_dec (S i) (length q)) as [E | N].
  - destruct i as [| i]; [lia |].
    destruct (@I1_on_cell per q g i (nthR q (S i)) H ltac:(lia)) as [-> ->].
    + split; [apply incr_le; auto; lia | lra].
    + apply H1d_right; auto.
  - destruct (@I1_on_cell per q g i (nthR q i) H ltac:(lia)) as [-> ->].
    + split; [lra | apply incr_le; auto; lia].
    + apply H1d_left; auto. lia.
Qed.

Lemma herm_linear d f0 f1 g0 g1 e0 e1 h0 h1 a b t :
  herm d (a * f0 + b * e0) (a * f1 + b * e1) (a * g0 + b * h0) (a * g1 + b * h1) t =
  a * herm d f0 f1 g0 g1 t + b * herm d e0 e1 h0 h1 t.
Proof. unfold herm. ring. Qed.
Lemma herm'_linear d f0 f1 g0 g1 e0 e1 h0 h1 a b t :
  herm' d (a * f0 + b * e0) (a * f1 + b * e1) (a * g0 + b * h0) (a * g1 + b * h1) t =
  a * herm' d f0 f1 g0 g1 t + b * herm' d e0 e1 h0 h1 t.
Proof. unfold herm'. unfold Rdiv. ring. Qed.

Lemma I1_linear per q a b g h t :
  I1 per q (fun k => a * g k + b * h k) t = a * I1 per q g t + b * I1 per q h t /\
  I1' per q (fun k => a * g k + b * h k) t = a * I1' per q g t + b * I1' per q h t.
Proof.
  unfold I1, I1', H1d, H1d'. rewrite !slope_linear.
  rewrite <- herm_linear, <- herm'_linear. auto.
Qed.

Lemma I1_ext per q g h t : good per q -> inside q t ->
  (forall k, (k < n_red per q)%nat -> g k = h k) ->
  I1 per q g t = I1 per q h t /\ I1' per q g t = I1' per q h t.
Proof.
  intros G IN E. pose proof (good_2 G) as L2. destruct G as [H G'].
  destruct (cell_ok H L2 IN) as (_ & C1 & _).
  unfold I1, I1', H1d, H1d'.
  rewrite !(@slope_ext per q _ g h) by (try split; auto; lia).
  rewrite !E by (apply wrapb_lt; auto; lia). auto.
Qed.
