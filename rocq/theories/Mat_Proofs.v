(** The interpolation stays between neighbouring values. *)
From Verif Require Import QTac Mat_Model Mat_Spec.
From Coq Require Import Qabs Lia Qfield.
Set Implicit Arguments.

(** the polynomial of an interval *)
Lemma hermite (y0 y1 h m a b d0 d1 t : Q) : m * h == y1 - y0 -> d0 == a * m -> d1 == b * m -> 0 <= a <= 3 -> 0 <= b <= 3 -> 0 <= t <= 1 ->
  in_between y0 y1 (y0 * ((1 + 2 * t) * (1 - t) * (1 - t)) + h * d0 * (t * (1 - t) * (1 - t)) + y1 * (t * t * (3 - 2 * t)) + h * d1 * (t * t * (t - 1))).
Proof.
  intros Hm H0 H1 Ha Hb Ht. set (p := 3 * (t * t) - 2 * (t * t * t) + a * (t * (1 - t) * (1 - t)) - b * (t * t * (1 - t))).
  assert (E : y0 * ((1 + 2 * t) * (1 - t) * (1 - t)) + h * d0 * (t * (1 - t) * (1 - t)) + y1 * (t * t * (3 - 2 * t)) + h * d1 * (t * t * (t - 1)) == y0 + (y1 - y0) * p).
  { assert (E0 : h * d0 == a * (y1 - y0)) by (rewrite H0, <- Hm; ring). assert (E1 : h * d1 == b * (y1 - y0)) by (rewrite H1, <- Hm; ring).
    rewrite E0, E1. unfold p. ring. }
  assert (T : 0 <= t * (1 - t)) by nra. assert (T1 : 0 <= t * (1 - t) * (1 - t)) by nra. assert (T2 : 0 <= t * t * (1 - t)) by nra.
  assert (P0 : 0 <= p). { assert (Q1 : 0 <= t * t * t) by nra. assert (Q2 : 0 <= a * (t * (1 - t) * (1 - t))) by nra. assert (Q3 : b * (t * t * (1 - t)) <= 3 * (t * t * (1 - t))) by nra. unfold p. nra. }
  assert (P1 : p <= 1). { assert (Q1 : 0 <= (1 - t) * (1 - t) * (1 - t)) by (assert (0 <= (1 - t) * (1 - t)) by nra; nra).
    assert (Q2 : a * (t * (1 - t) * (1 - t)) <= 3 * (t * (1 - t) * (1 - t))) by nra. assert (Q3 : 0 <= b * (t * t * (1 - t))) by nra. unfold p. nra. }
  unfold in_between. rewrite E. destruct (Qlt_le_dec y0 y1) as [L|L]; [left|right]; split; nra.
Qed.

Lemma same_sign_cases a b : same_sign a b = true -> (0 < a /\ 0 < b) \/ (a < 0 /\ b < 0) \/ (a == 0 /\ b == 0).
Proof.
  unfold same_sign. destruct (Qcompare_spec a 0), (Qcompare_spec b 0); intros E; try discriminate; auto.
Qed.
Lemma same_sign_false a b : same_sign a b = false -> ~ (0 < a /\ 0 < b) /\ ~ (a < 0 /\ b < 0).
Proof.
  unfold same_sign. destruct (Qcompare_spec a 0), (Qcompare_spec b 0); intros E; try discriminate; split; intros [? ?]; lra.
Qed.
Definition slope_ok (d m : Q) : Prop := exists a, d == a * m /\ 0 <= a <= 3.
Lemma slope_zero m : slope_ok 0 m. Proof. exists 0. split; [ring|lra]. Qed.
Lemma edge_ok h0 h1 m0 m1 : 0 < h0 -> 0 < h1 -> slope_ok (edge h0 h1 m0 m1) m0.
Proof.
  intros H0 H1. unfold edge. set (d := ((2 * h0 + h1) * m0 - h0 * m1) / (h0 + h1)).
  destruct (same_sign d m0) eqn:S; cbn [negb]; [|apply slope_zero]. apply same_sign_cases in S.
  assert (D : d * (h0 + h1) == (2 * h0 + h1) * m0 - h0 * m1) by (unfold d; field; lra).
  destruct (negb (same_sign m0 m1) && qlt (3 * Qabs m0) (Qabs d)) eqn:C.
  - exists 3. split; [reflexivity|lra].
  - assert (B : (0 < m0 -> d <= 3 * m0) /\ (m0 < 0 -> 3 * m0 <= d)).
    { apply Bool.andb_false_iff in C. destruct C as [C|C].
      - apply Bool.negb_false_iff, same_sign_cases in C. split; intros M.
        + assert (0 < m1) by (destruct C as [?|[?|?]]; lra). apply Qnot_lt_le. intros L. assert (3 * m0 * (h0 + h1) < d * (h0 + h1)) by nra. nra.
        + assert (m1 < 0) by (destruct C as [?|[?|?]]; lra). apply Qnot_lt_le. intros L. assert (d * (h0 + h1) < 3 * m0 * (h0 + h1)) by nra. nra.
      - apply qlt_false in C. split; intros M.
        + rewrite (Qabs_pos m0) in C by lra. pose proof (Qle_Qabs d). lra.
        + rewrite (Qabs_neg m0) in C by lra. pose proof (Qle_Qabs (- d)) as A. rewrite Qabs_opp in A. lra. }
    destruct S as [[S1 S2]|[[S1 S2]|[S1 S2]]].
    + exists (d / m0). assert (E : d / m0 * m0 == d) by (field; lra). split; [now rewrite E|]. destruct B as [B _]. specialize (B S2). split; apply Qnot_lt_le; intros L; nra.
    + exists (d / m0). assert (E : d / m0 * m0 == d) by (field; lra). split; [now rewrite E|]. destruct B as [_ B]. specialize (B S2). split; apply Qnot_lt_le; intros L; nra.
    + exists 0. split; [rewrite S1; ring|lra].
Qed.
Lemma inner_ok h0 h1 m0 m1 : 0 < h0 -> 0 < h1 -> slope_ok (inner h0 h1 m0 m1) m0 /\ slope_ok (inner h0 h1 m0 m1) m1.
Proof.
  intros H0 H1. unfold inner. destruct (negb (same_sign m0 m1) || Qeq_bool m0 0 || Qeq_bool m1 0) eqn:C; [split; apply slope_zero|].
  apply Bool.orb_false_iff in C. destruct C as [C Z1]. apply Bool.orb_false_iff in C. destruct C as [C Z0].
  apply Bool.negb_false_iff, same_sign_cases in C. apply Qeq_bool_neq in Z0, Z1. cbv zeta.
  set (w1 := 2 * h1 + h0). set (w2 := h1 + 2 * h0).
  assert (W1 : 0 < w1) by (unfold w1; lra). assert (W2 : 0 < w2) by (unfold w2; lra). assert (W12 : w2 <= 2 * w1) by (unfold w1, w2; lra). assert (W21 : w1 <= 2 * w2) by (unfold w1, w2; lra).
  set (r := m1 / m0). assert (R : r * m0 == m1) by (unfold r; field; lra).
  assert (Rp : 0 < r) by (destruct C as [[? ?]|[[? ?]|[? ?]]]; [apply Qnot_le_lt; intros L; nra..|contradiction]).
  assert (P : 0 < w1 * r + w2) by nra.
  set (a := (w1 + w2) * r / (w1 * r + w2)). set (b := (w1 + w2) / (w1 * r + w2)).
  assert (A : a * (w1 * r + w2) == (w1 + w2) * r) by (unfold a; field; lra).
  assert (B : b * (w1 * r + w2) == w1 + w2) by (unfold b; field; lra).
  assert (D : (w1 + w2) / (w1 / m0 + w2 / m1) == a * m0).
  { unfold a. rewrite <- R. field. repeat split; try lra; intros E; nra. }
  assert (D2 : a * m0 == b * m1) by (rewrite <- R; unfold a, b; field; lra).
  split; [exists a|exists b]; (split; [rewrite D; try rewrite D2; reflexivity|]); split; apply Qnot_lt_le; intros L; nra.
Qed.

Section P.
Variables xs ys : list Q.
Local Notation n := (length xs).
Hypothesis Inc : strictly_increasing xs.
Hypothesis Len : length ys = n.
Hypothesis N2 : (2 <= n)%nat.
Lemma h_pos i : (S i < n)%nat -> 0 < h_ xs i.
Proof. intros H. pose proof (Inc H). unfold h_, x_. lra. Qed.
Lemma slopes_ok i : (S i < n)%nat -> slope_ok (d_ xs ys i) (m_ xs ys i) /\ slope_ok (d_ xs ys (S i)) (m_ xs ys i).
Proof.
  intros H. unfold d_. destruct (Nat.eqb_spec n 2) as [E|E].
  - assert (i = 0%nat) by lia. subst i. split; exists 1; (split; [ring|lra]).
  - change (Nat.eqb (S i) 0) with false. split.
    + destruct (Nat.eqb_spec i 0) as [->|I]; [apply edge_ok; apply h_pos; lia|]. destruct (Nat.eqb_spec i (n - 1)); [lia|].
      apply inner_ok; apply h_pos; lia.
    + destruct (Nat.eqb_spec (S i) (n - 1)) as [I|I].
      * replace (n - 2)%nat with i by lia. apply edge_ok; apply h_pos; lia.
      * replace (S i - 1)%nat with i by lia. apply inner_ok; apply h_pos; lia.
Qed.
Lemma piece_between i x : (S i < n)%nat -> x_ xs i <= x <= x_ xs (S i) -> in_between (y_ ys i) (y_ ys (S i)) (piece xs ys i x).
Proof.
  intros H Hx. destruct (slopes_ok H) as [(a & A & Ba) (b & B & Bb)]. pose proof (h_pos H) as P. unfold piece. cbv zeta.
  apply (@hermite _ _ _ (m_ xs ys i) a b); auto.
  - unfold m_. field. lra.
  - assert (T : (x - x_ xs i) / h_ xs i * h_ xs i == x - x_ xs i) by (field; lra).
    assert (Hh : h_ xs i == x_ xs (S i) - x_ xs i) by reflexivity. split; apply Qnot_lt_le; intros L; nra.
Qed.
Lemma piece_left i x : (S i < n)%nat -> x == x_ xs i -> piece xs ys i x == y_ ys i.
Proof. intros H E. pose proof (h_pos H). unfold piece. cbv zeta. assert (T : (x - x_ xs i) / h_ xs i == 0) by (rewrite E; field; lra). rewrite T. ring. Qed.
Lemma piece_right i x : (S i < n)%nat -> x == x_ xs (S i) -> piece xs ys i x == y_ ys (S i).
Proof. intros H E. pose proof (h_pos H). unfold piece. cbv zeta. assert (T : (x - x_ xs i) / h_ xs i == 1) by (rewrite E; unfold h_ in *; field; lra). rewrite T. ring. Qed.
End P.
Lemma increasing_le xs i j : strictly_increasing xs -> (i <= j)%nat -> (j < length xs)%nat -> nth i xs 0 <= nth j xs 0.
Proof. intros H L. induction L; intros B; [lra|]. pose proof (H m B). specialize (IHL ltac:(lia)). lra. Qed.
Lemma increasing_lt xs i j : strictly_increasing xs -> (i < j)%nat -> (j < length xs)%nat -> nth i xs 0 < nth j xs 0.
Proof. intros H L B. pose proof (@increasing_le xs (S i) j H L B). pose proof (H i ltac:(lia)). lra. Qed.
Lemma interval_lt l x : (2 <= length l)%nat -> (S (interval l x) < length l)%nat.
Proof.
  induction l as [|a [|b [|c l]] IH]; intros H; cbn [length] in *; try lia.
  - cbn. lia.
  - change (interval (a :: b :: c :: l) x) with (if qlt x b then 0%nat else S (interval (b :: c :: l) x)). destruct (qlt x b); [lia|]. specialize (IH ltac:(lia)). cbn [length] in IH. lia.
Qed.
Lemma interval_spec l x k : strictly_increasing l -> (S k < length l)%nat -> nth k l 0 <= x <= nth (S k) l 0 ->
  interval l x = k \/ (interval l x = S k /\ x == nth (S k) l 0).
Proof.
  revert k. induction l as [|a [|b [|c l]] IH]; intros k Inc Hk Hx; cbn [length] in *; try lia.
  - left. cbn. lia.
  - change (interval (a :: b :: c :: l) x) with (if qlt x b then 0%nat else S (interval (b :: c :: l) x)). assert (Inc' : strictly_increasing (b :: c :: l)) by (intros i Hi; apply (Inc (S i)); cbn [length] in *; lia).
    destruct (qlt x b) eqn:E; [apply qlt_true in E|apply qlt_false in E].
    + left. destruct k as [|k]; [reflexivity|]. exfalso. pose proof (@increasing_le (a :: b :: c :: l) 1 (S k) Inc ltac:(lia) ltac:(cbn [length]; lia)) as L. change (nth 1 (a :: b :: c :: l) 0) with b in L. lra.
    + destruct k as [|k].
      * cbn [nth] in Hx. right. assert (X : x == b) by lra. split; [|cbn [nth]; exact X]. f_equal.
        destruct (IH 0%nat Inc' ltac:(cbn [length]; lia)) as [I|[I I2]].
        -- cbn [nth]. pose proof (Inc' 0%nat ltac:(cbn [length]; lia)) as L. cbn [nth] in L. lra.
        -- exact I.
        -- exfalso. pose proof (Inc' 0%nat ltac:(cbn [length]; lia)) as L. cbn [nth] in L, I2. lra.
      * destruct (IH k Inc' ltac:(cbn [length]; lia) Hx) as [I|[I I2]]; [left|right]; rewrite ?I; auto.
Qed.
Section Q.
Variables xs ys : list Q.
Hypothesis Inc : strictly_increasing xs.
Hypothesis Len : length ys = length xs.
Hypothesis N2 : (2 <= length xs)%nat.
Lemma increasing_true : increasing xs = true.
Proof. unfold increasing. apply forallb_forall. intros i I. apply in_seq in I. apply qlt_true. apply Inc. lia. Qed.
Lemma pchip_ok x : pchip xs ys x = Ok (piece xs ys (interval xs x) x).
Proof.
  unfold pchip. rewrite Len, Nat.eqb_refl, increasing_true. destruct (Nat.ltb_spec (length xs) 2); [lia|]. reflexivity.
Qed.
Lemma pchip_between_lemma k x : (S k < length xs)%nat -> nth k xs 0 <= x <= nth (S k) xs 0 ->
  exists v, pchip xs ys x = Ok v /\ in_between (nth k ys 0) (nth (S k) ys 0) v.
Proof.
  intros Hk Hx. rewrite pchip_ok. eexists. split; [reflexivity|]. destruct (interval_spec Inc Hk Hx) as [E|[E X]].
  - rewrite E. now apply piece_between.
  - assert (L := @interval_lt xs x N2). rewrite E in *. assert (V := @piece_left xs ys Inc (S k) x L X). unfold y_ in V. unfold in_between. rewrite V. destruct (Qlt_le_dec (nth k ys 0) (nth (S k) ys 0)); [left|right]; lra.
Qed.
Lemma pchip_knot_lemma k x : (k < length xs)%nat -> x == nth k xs 0 -> exists v, pchip xs ys x = Ok v /\ v == nth k ys 0.
Proof.
  intros Hk X. rewrite pchip_ok. eexists. split; [reflexivity|]. destruct k as [|k].
  - pose proof (Inc (i:=0%nat) ltac:(lia)). destruct (@interval_spec xs x 0%nat Inc ltac:(lia)) as [E|[E X']]; [lra| |lra].
    rewrite E. apply piece_left; [exact Inc|lia|exact X].
  - pose proof (Inc (i:=k) Hk). destruct (@interval_spec xs x k Inc Hk) as [E|[E X']]; [lra| |].
    + rewrite E. apply piece_right; [exact Inc|lia|exact X].
    + rewrite E. apply piece_left; [exact Inc| |exact X]. pose proof (@interval_lt xs x N2) as L. rewrite E in L. exact L.
Qed.
Lemma bracket x a b : nth a xs 0 <= x -> x <= nth b xs 0 -> (a < b)%nat -> exists k, (a <= k < b)%nat /\ nth k xs 0 <= x <= nth (S k) xs 0.
Proof.
  intros Ha Hb L. revert Hb. induction L; intros Hb.
  - exists a. split; [lia|lra].
  - destruct (Qlt_le_dec x (nth m xs 0)) as [X|X].
    + destruct IHL as (k & K & KX); [lra|]. exists k. split; [lia|exact KX].
    + exists m. split; [lia|lra].
Qed.
Lemma pchip_range_lemma x a b lo hi : (a < b < length xs)%nat -> nth a xs 0 <= x <= nth b xs 0 -> (forall k, (a <= k <= b)%nat -> lo <= nth k ys 0 <= hi) ->
  exists v, pchip xs ys x = Ok v /\ lo <= v <= hi.
Proof.
  intros L Hx H. destruct (@bracket x a b) as (k & K & KX); [lra|lra|lia|]. destruct (@pchip_between_lemma k x ltac:(lia) KX) as (v & E & B).
  exists v. split; [exact E|]. pose proof (H k ltac:(lia)). pose proof (H (S k) ltac:(lia)). destruct B; lra.
Qed.
End Q.
