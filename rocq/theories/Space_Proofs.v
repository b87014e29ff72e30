(** Rounding to seven digits. *)
From Verif Require Import QTac Select_Model Space_Model Space_Spec.
From Coq Require Import ZArith Qabs Qround Qpower.
Set Implicit Arguments.
Open Scope Q_scope.

Lemma ten_pos n : 0 < ten n.
Proof. unfold ten. apply Qpower_0_lt. lra. Qed.
Lemma ten_nz n : ~ ten n == 0.
Proof. assert (H := ten_pos n). lra. Qed.
Lemma ten_plus a b : ten (a + b) == ten a * ten b.
Proof. unfold ten. apply Qpower_plus. lra. Qed.
Lemma ten_nat (n : nat) : 1 <= ten (Z.of_nat n).
Proof.
  induction n as [|n IH]; [vm_compute; discriminate|]. rewrite Nat2Z.inj_succ. unfold Z.succ. rewrite ten_plus.
  assert (E : ten 1 == 10) by reflexivity. rewrite E. lra.
Qed.
Lemma ten_mono a b : (a <= b)%Z -> ten a <= ten b.
Proof.
  intros H. replace b with (a + Z.of_nat (Z.to_nat (b - a)))%Z by lia. rewrite ten_plus.
  assert (H1 := ten_pos a). assert (H2 := ten_nat (Z.to_nat (b - a))). nra.
Qed.
Lemma ten_unique a b x : ten a <= x -> x < ten (a + 1) -> ten b <= x -> x < ten (b + 1) -> a = b.
Proof.
  intros A1 A2 B1 B2. destruct (Z.lt_trichotomy a b) as [H|[H|H]]; [|exact H|].
  - assert (ten (a + 1) <= ten b) by (apply ten_mono; lia). lra.
  - assert (ten (b + 1) <= ten a) by (apply ten_mono; lia). lra.
Qed.
Lemma inject_lt a b : inject_Z a < inject_Z b <-> (a < b)%Z.
Proof. rewrite <- Zlt_Qlt. reflexivity. Qed.
Lemma inject_le a b : inject_Z a <= inject_Z b <-> (a <= b)%Z.
Proof. rewrite <- Zle_Qle. reflexivity. Qed.
(** rounding *)
Lemma round_even_close x : Qabs (inject_Z (round_even x) - x) <= 1 # 2.
Proof.
  unfold round_even. assert (H1 := Qfloor_le x). assert (H2 := Qlt_floor x). rewrite inject_Z_plus in H2. change (inject_Z 1) with 1 in H2.
  apply Qabs_Qle_condition. qcase; try (destruct (Z.even (Qfloor x))); rewrite ?inject_Z_plus; change (inject_Z 1) with 1; split; lra.
Qed.
Lemma int_close a b : Qabs (inject_Z a - inject_Z b) < 1 -> a = b.
Proof.
  intros H. apply Qabs_Qlt_condition in H as [H1 H2].
  assert (A : inject_Z a < inject_Z (b + 1)) by (rewrite inject_Z_plus; change (inject_Z 1) with 1; lra).
  assert (B : inject_Z b < inject_Z (a + 1)) by (rewrite inject_Z_plus; change (inject_Z 1) with 1; lra).
  rewrite inject_lt in A, B. lia.
Qed.
Lemma round_even_int x m : x == inject_Z m -> round_even x = m.
Proof.
  intros H. apply int_close. assert (C := round_even_close x). rewrite <- H. apply Qle_lt_trans with (1 # 2); [exact C|reflexivity].
Qed.
Lemma round_even_ge x m : inject_Z m <= x -> (m <= round_even x)%Z.
Proof.
  intros H. unfold round_even. assert (F : (m <= Qfloor x)%Z). { rewrite <- (Qfloor_Z m). apply Qfloor_resp_le, H. }
  qcase; try (destruct (Z.even (Qfloor x))); lia.
Qed.
Lemma round_even_le x m : x <= inject_Z m -> (round_even x <= m)%Z.
Proof.
  intros H. assert (C := round_even_close x). apply Qabs_Qle_condition in C as [_ C].
  assert (F : inject_Z (round_even x) < inject_Z (m + 1)). { rewrite inject_Z_plus. change (inject_Z 1) with 1. lra. }
  rewrite inject_lt in F. lia.
Qed.
Lemma round_even_comp x y : x == y -> round_even x = round_even y.
Proof.
  intros H. unfold round_even. rewrite (Qfloor_comp _ _ H).
  assert (E : forall a b c d : Q, a == c -> b == d -> qlt a b = qlt c d).
  { intros a b c d E1 E2. unfold qlt. now rewrite E1, E2. }
  rewrite (E (x - inject_Z (Qfloor y)) (1 # 2) (y - inject_Z (Qfloor y)) (1 # 2)), (E (1 # 2) (x - inject_Z (Qfloor y)) (1 # 2) (y - inject_Z (Qfloor y))); try reflexivity; rewrite H; reflexivity.
Qed.
Lemma round_digits_val v n : round_digits v n == inject_Z (round_even (v * ten n)) / ten n.
Proof. apply Qred_correct. Qed.
Lemma round_digits_exact v n m : v * ten n == inject_Z m -> round_digits v n == v.
Proof.
  intros H. rewrite round_digits_val, (round_even_int H), <- H. field. apply ten_nz.
Qed.
Lemma round_digits_close v n : Qabs (round_digits v n - v) <= (1 # 2) * ten (- n).
Proof.
  rewrite round_digits_val. assert (C := round_even_close (v * ten n)). assert (P := ten_pos n).
  assert (I : ten (- n) == / ten n). { apply (Qmult_inj_r _ _ (ten n) (ten_nz n)). rewrite <- ten_plus. replace (- n + n)%Z with 0%Z by lia. rewrite Qmult_comm, Qmult_inv_r by apply ten_nz. reflexivity. }
  rewrite I. assert (E : inject_Z (round_even (v * ten n)) / ten n - v == (inject_Z (round_even (v * ten n)) - v * ten n) * / ten n) by (field; apply ten_nz).
  rewrite E, Qabs_Qmult. assert (Ip : 0 < / ten n) by now apply Qinv_lt_0_compat. rewrite (Qabs_pos (/ ten n)) by lra. nra.
Qed.
Lemma ten_sub a b : ten a * ten b == ten (a + b).
Proof. symmetry. apply ten_plus. Qed.
(** the rounded integer has seven digits, or is a power of ten *)
Lemma scaled v e : ten e <= Qabs v -> Qabs v < ten (e + 1) ->
  ten 6 <= Qabs (v * ten (- e + 6)) /\ Qabs (v * ten (- e + 6)) < ten 7.
Proof.
  intros H1 H2. rewrite Qabs_Qmult, (Qabs_pos (ten (- e + 6))) by (apply Qlt_le_weak, ten_pos). assert (P := ten_pos (- e + 6)).
  assert (E1 : ten e * ten (- e + 6) == ten 6). { rewrite ten_sub. replace (e + (- e + 6))%Z with 6%Z by lia. reflexivity. }
  assert (E2 : ten (e + 1) * ten (- e + 6) == ten 7). { rewrite ten_sub. replace (e + 1 + (- e + 6))%Z with 7%Z by lia. reflexivity. }
  rewrite <- E1, <- E2. split; [apply Qmult_le_compat_r; lra|apply Qmult_lt_compat_r; lra].
Qed.
Lemma round_abs x : ten 6 <= Qabs x -> Qabs x < ten 7 -> (1000000 <= Z.abs (round_even x) <= 10000000)%Z.
Proof.
  intros H1 H2. change (ten 6) with (inject_Z 1000000) in H1. change (ten 7) with (inject_Z 10000000) in H2.
  destruct (Qlt_le_dec x 0) as [Hx|Hx].
  - rewrite Qabs_neg in H1, H2 by lra.
    assert (A : (round_even x <= - 1000000)%Z) by (apply round_even_le; change (inject_Z (-1000000)) with (- inject_Z 1000000); lra).
    assert (B : (- 10000000 <= round_even x)%Z) by (apply round_even_ge; change (inject_Z (-10000000)) with (- inject_Z 10000000); lra). lia.
  - rewrite Qabs_pos in H1, H2 by lra.
    assert (A : (1000000 <= round_even x)%Z) by (apply round_even_ge; lra).
    assert (B : (round_even x <= 10000000)%Z) by (apply round_even_le; lra). lia.
Qed.
Section R.
Variable lg : Q -> option Z.
Hypothesis Hlg : decimal_exponent lg.
Lemma lg_is v e : ten e <= Qabs v -> Qabs v < ten (e + 1) -> lg v = Some e.
Proof.
  intros H1 H2. assert (P := ten_pos e). destruct Hlg as [_ H]. destruct (H v) as (e' & E & A & B).
  - intros E. rewrite E in H1. change (Qabs 0) with 0 in H1. lra.
  - rewrite E. f_equal. exact (ten_unique _ _ A B H1 H2).
Qed.
Lemma round_sig_nonzero v : ~ v == 0 -> exists e, lg v = Some e /\ ten e <= Qabs v /\ Qabs v < ten (e + 1) /\ round_sig lg v = Ok (round_digits v (- e + 6)).
Proof. intros H. destruct Hlg as [_ Hn]. destruct (Hn v H) as (e & E & A & B). exists e. unfold round_sig. rewrite E. auto. Qed.
Lemma round_sig_error v k : round_sig lg v = Ok k -> Qabs (k - v) <= (1 # 2000000) * Qabs v /\ ~ v == 0.
Proof.
  intros H. destruct (Qeq_dec v 0) as [E|E].
  - unfold round_sig in H. destruct Hlg as [H0 _]. rewrite (H0 v E) in H. discriminate.
  - split; [|exact E]. destruct (round_sig_nonzero E) as (e & _ & A & B & R). rewrite R in H. injection H as <-.
    assert (C := round_digits_close v (- e + 6)). replace (- (- e + 6))%Z with (e + -6)%Z in C by lia. rewrite ten_plus in C.
    assert (E6 : ten (-6) == 1 # 1000000) by reflexivity. rewrite E6 in C. lra.
Qed.
Lemma round_sig_zero v : v == 0 -> round_sig lg v = Err (UserError 0).
Proof. intros E. unfold round_sig. destruct Hlg as [H0 _]. now rewrite (H0 v E). Qed.
Lemma round_sig_idem v k : round_sig lg v = Ok k -> exists k', round_sig lg k = Ok k' /\ k' == k.
Proof.
  intros H. destruct (round_sig_error _ H) as [_ Hv]. destruct (round_sig_nonzero Hv) as (e & _ & A & B & R). rewrite R in H. injection H as <-.
  set (k := round_digits v (- e + 6)). destruct (scaled _ _ A B) as [S1 S2]. assert (N := round_abs _ S1 S2).
  set (m := round_even (v * ten (- e + 6))) in *.
  assert (Ek : k == inject_Z m / ten (- e + 6)) by (unfold k; rewrite round_digits_val; reflexivity).
  assert (Ek' : k == inject_Z m * ten (e + -6)).
  { rewrite Ek. assert (X : ten (e + -6) * ten (- e + 6) == 1). { rewrite ten_sub. replace (e + -6 + (- e + 6))%Z with 0%Z by lia. reflexivity. }
    apply (Qmult_inj_r _ _ (ten (- e + 6)) (ten_nz _)). rewrite <- Qmult_assoc, X. field. apply ten_nz. }
  assert (Ea : Qabs k == inject_Z (Z.abs m) * ten (e + -6)).
  { rewrite Ek', Qabs_Qmult, (Qabs_pos (ten _)) by (apply Qlt_le_weak, ten_pos). reflexivity. }
  assert (P := ten_pos (e + -6)).
  destruct (Z.eq_dec (Z.abs m) 10000000) as [Em|Em].
  - assert (L : lg k = Some (e + 1)%Z).
    { apply lg_is; rewrite Ea, Em.
      - replace (e + 1)%Z with (7 + (e + -6))%Z by lia. rewrite (ten_plus 7). apply Qle_refl.
      - replace (e + 1 + 1)%Z with (8 + (e + -6))%Z by lia. rewrite (ten_plus 8). apply Qmult_lt_compat_r; [exact P|reflexivity]. }
    exists (round_digits k (- (e + 1) + 6)). unfold round_sig. rewrite L. split; [reflexivity|].
    apply (@round_digits_exact k (- (e + 1) + 6) (if (0 <? m)%Z then 1000000 else -1000000)). rewrite Ek', <- Qmult_assoc, ten_sub.
    replace (e + -6 + (- (e + 1) + 6))%Z with (-1)%Z by lia. destruct (Z.ltb_spec 0 m).
    + replace m with 10000000%Z by lia. reflexivity.
    + replace m with (-10000000)%Z by lia. reflexivity.
  - assert (L : lg k = Some e).
    { apply lg_is; rewrite Ea.
      - replace e with (6 + (e + -6))%Z at 1 by lia. rewrite (ten_plus 6). change (ten 6) with (inject_Z 1000000).
        apply Qmult_le_compat_r; [apply inject_le; lia|lra].
      - replace (e + 1)%Z with (7 + (e + -6))%Z by lia. rewrite (ten_plus 7). change (ten 7) with (inject_Z 10000000).
        apply Qmult_lt_compat_r; [exact P|apply inject_lt; lia]. }
    exists (round_digits k (- e + 6)). unfold round_sig. rewrite L. split; [reflexivity|].
    apply (@round_digits_exact k (- e + 6) m). rewrite Ek. field. apply ten_nz.
Qed.
Lemma round_sig_exact v : ~ v == 0 -> seven_digits v -> exists k, round_sig lg v = Ok k /\ k == v.
Proof.
  intros Hv (m & d & Hm & E). destruct (round_sig_nonzero Hv) as (e & _ & A & B & R). exists (round_digits v (- e + 6)). split; [exact R|].
  assert (Pd := ten_pos d).
  assert (Ea : Qabs v == inject_Z (Z.abs m) * ten d) by (rewrite E, Qabs_Qmult, (Qabs_pos (ten _)) by lra; reflexivity).
  assert (De : (e <= d + 6)%Z).
  { destruct (Z_le_gt_dec e (d + 6)) as [|Hgt]; [assumption|]. exfalso. assert (ten (7 + d) <= ten e) by (apply ten_mono; lia). rewrite ten_plus in H.
    assert (inject_Z (Z.abs m) * ten d < ten 7 * ten d). { apply Qmult_lt_compat_r; [exact Pd|]. change (ten 7) with (inject_Z 10000000). apply inject_lt. lia. }
    lra. }
  assert (X : exists z, ten (d + (- e + 6)) == inject_Z z).
  { exists (10 ^ (d + (- e + 6)))%Z. unfold ten. change 10 with (inject_Z 10) at 1. symmetry. apply Zpower_Qpower. lia. }
  destruct X as (z & Ez). apply (@round_digits_exact v (- e + 6) (m * z)). rewrite E, <- Qmult_assoc, ten_sub, Ez, inject_Z_mult. reflexivity.
Qed.
Lemma round_sig_equal a b k l : round_sig lg a = Ok k -> round_sig lg b = Ok l -> k == l -> Qabs (a - b) <= (1 # 2000000) * (Qabs a + Qabs b).
Proof.
  intros Ha Hb E. destruct (round_sig_error _ Ha) as [A _]. destruct (round_sig_error _ Hb) as [B _].
  apply Qabs_Qle_condition in A as [A1 A2]. apply Qabs_Qle_condition in B as [B1 B2]. apply Qabs_Qle_condition. split; lra.
Qed.
End R.
