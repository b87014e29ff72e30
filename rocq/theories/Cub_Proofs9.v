(** Mirror symmetry and periodicity of the interpolant. *)
From Coq Require Import Reals Lra Lia.
From Verif Require Import Base Cub_Model Cub_Spec Cub_Proofs Cub_Proofs2 Cub_Proofs3 Cub_Proofs4
  Cub_Proofs5 Cub_Proofs6 Cub_Proofs7 Cub_Proofs8.
Set Implicit Arguments.
Open Scope R_scope.

Definition ev (per : bool) (q : list R) (g : nat -> R) (i : nat) : R :=
  g (wrapb per (length q) i).

(** grid mirrored at s / 2 *)
Definition mirrored (q : list R) (s : R) : Prop :=
  forall i, (i < length q)%nat -> nthR q (length q - 1 - i) = s - nthR q i.

(** the estimate of the slope on a periodic axis, in terms of neighbours *)
Definition gap_before (q : list R) (i : nat) : R :=
  match i with
  | O => nthR q (length q - 1) - nthR q (length q - 2)
  | S k => nthR q (S k) - nthR q k
  end.
Definition quad3 (a b f0 f1 f2 : R) : R :=
  - b ^ 2 / (- a * b * (- a - b)) * f0 + (b ^ 2 - a ^ 2) / (- a * b * (- a - b)) * f1
  + a ^ 2 / (- a * b * (- a - b)) * f2.

Lemma slope_per q g i : (2 <= length q)%nat -> (i < length q)%nat ->
  let w := wrap (length q) i in
  slope true q g i =
  quad3 (gap_before q w) (nthR q (S w) - nthR q w)
    (g (match w with O => length q - 2 | S k => k end)%nat) (g w) (ev true q g (S w)).
Proof.
  intros L Hi w. pose proof (@wrap_lt (length q) i L) as W. fold w in W.
  unfold slope. cbn [wrapb]. fold w. unfold dquad. cbn [negb]. rewrite !andb_false_r.
  assert (A : (if Nat.eqb (w + 1) (n_red true q) then 0 else w + 1)%nat = wrap (length q) (S w)).
  { unfold n_red, wrap. destruct (Nat.eqb_spec (w + 1) (length q - 1)),
      (Nat.ltb_spec (S w) (length q - 1)); lia. }
  rewrite A. unfold ev. cbn [wrapb].
  rewrite (@ext_in true q w), (@ext_in true q (w + 1)) by lia. rewrite !Nat.add_1_r.
  unfold quad3, gap_before. destruct w as [| k].
  - rewrite ext_last. unfold n_red. replace (length q - 1 - 1)%nat with (length q - 2)%nat by lia.
    replace (nthR q 0 - (nthR q (length q - 1) - nthR q (length q - 2)) - nthR q 0)
      with (- (nthR q (length q - 1) - nthR q (length q - 2))) by ring.
    set (a := nthR q (length q - 1) - nthR q (length q - 2)).
    replace ((- a) ^ 2) with (a ^ 2) by ring. reflexivity.
  - rewrite (@ext_in true q k) by lia.
    replace (nthR q k - nthR q (S k)) with (- (nthR q (S k) - nthR q k)) by ring.
    set (a := nthR q (S k) - nthR q k).
    replace ((- a) ^ 2) with (a ^ 2) by ring. reflexivity.
Qed.

Lemma gap_before_pos q i : incr q -> (2 <= length q)%nat -> (i < length q)%nat -> 0 < gap_before q i.
Proof.
  intros I L Hi. destruct i as [| k]; cbn [gap_before].
  - assert (nthR q (length q - 2) < nthR q (length q - 1)) by (apply I; lia). lra.
  - now apply gap.
Qed.

Lemma slope_mirror per q g s : good per q -> mirrored q s ->
  (forall i, (i < length q)%nat -> ev per q g (length q - 1 - i) = ev per q g i) ->
  forall i, (i < length q)%nat -> slope per q g (length q - 1 - i) = - slope per q g i.
Proof.
  intros [I L] M E i Hi. destruct per.
  - (* periodic *)
    rewrite !slope_per by lia. cbv zeta.
    destruct (Nat.eq_dec i 0) as [-> | N0].
    + replace (wrap (length q) (length q - 1 - 0)) with 0%nat
        by (unfold wrap; destruct (Nat.ltb_spec (length q - 1 - 0) (length q - 1)); lia).
      replace (wrap (length q) 0) with 0%nat
        by (unfold wrap; destruct (Nat.ltb_spec 0 (length q - 1)); lia).
      cbn [gap_before].
      assert (D : nthR q (length q - 1) - nthR q (length q - 2) = nthR q 1 - nthR q 0).
      { replace (length q - 1)%nat with (length q - 1 - 0)%nat by lia.
        rewrite (M 0%nat ltac:(lia)).
        replace (length q - 2)%nat with (length q - 1 - 1)%nat by lia.
        rewrite (M 1%nat ltac:(lia)). ring. }
      rewrite D. pose proof (@gap q 0 I ltac:(lia)) as G.
      assert (F : g (length q - 2)%nat = ev true q g 1).
      { rewrite <- (E 1%nat ltac:(lia)). unfold ev. cbn [wrapb]. f_equal. unfold wrap.
        destruct (Nat.ltb_spec (length q - 1 - 1) (length q - 1)); lia. }
      rewrite F. unfold quad3. field. lra.
    + destruct (Nat.eq_dec i (length q - 1)) as [-> | N1].
      * replace (length q - 1 - (length q - 1))%nat with 0%nat by lia.
        replace (wrap (length q) (length q - 1)) with 0%nat
          by (unfold wrap; destruct (Nat.ltb_spec (length q - 1) (length q - 1)); lia).
        replace (wrap (length q) 0) with 0%nat
          by (unfold wrap; destruct (Nat.ltb_spec 0 (length q - 1)); lia).
        cbn [gap_before].
        assert (D : nthR q (length q - 1) - nthR q (length q - 2) = nthR q 1 - nthR q 0).
        { replace (length q - 1)%nat with (length q - 1 - 0)%nat by lia.
          rewrite (M 0%nat ltac:(lia)).
          replace (length q - 2)%nat with (length q - 1 - 1)%nat by lia.
          rewrite (M 1%nat ltac:(lia)). ring. }
        rewrite D. pose proof (@gap q 0 I ltac:(lia)) as G.
        assert (F : g (length q - 2)%nat = ev true q g 1).
        { rewrite <- (E 1%nat ltac:(lia)). unfold ev. cbn [wrapb]. f_equal. unfold wrap.
          destruct (Nat.ltb_spec (length q - 1 - 1) (length q - 1)); lia. }
        rewrite F. unfold quad3. field. lra.
      * (* inner points *)
        assert (W : forall k, (k < length q - 1)%nat -> wrap (length q) k = k)
          by (intros k Hk; unfold wrap; destruct (Nat.ltb_spec k (length q - 1)); lia).
        rewrite !W by lia.
        set (j := (length q - 1 - i)%nat).
        destruct i as [| i']; [lia |]. destruct j as [| j'] eqn:Ej; [lia |]. cbn [gap_before].
        assert (EV : forall k, (k < length q - 1)%nat -> g k = ev true q g k)
          by (intros k Hk; unfold ev; cbn [wrapb]; now rewrite W).
        rewrite !EV by lia.
        assert (Q1 : nthR q (S j') = s - nthR q (S i')) by (rewrite <- Ej; unfold j; apply M; lia).
        assert (Q2 : nthR q j' = s - nthR q (S (S i')))
          by (rewrite <- M by lia; f_equal; lia).
        assert (Q3 : nthR q (S (S j')) = s - nthR q i')
          by (rewrite <- M by lia; f_equal; lia).
        assert (F1 : ev true q g (S j') = ev true q g (S i'))
          by (rewrite <- (E (S i')) by lia; f_equal; lia).
        assert (F2 : ev true q g j' = ev true q g (S (S i')))
          by (rewrite <- (E (S (S i'))) by lia; f_equal; lia).
        assert (F3 : ev true q g (S (S j')) = ev true q g i')
          by (rewrite <- (E i') by lia; f_equal; lia).
        rewrite Q1, Q2, Q3, F1, F2, F3.
        pose proof (@gap q i' I ltac:(lia)). pose proof (@gap q (S i') I ltac:(lia)).
        unfold quad3. field. lra.
  - (* not periodic *)
    unfold ev in E. cbn [wrapb] in E.
    unfold slope, n_red, per_ext, wrapb, dquad. rewrite Nat.sub_0_r. cbn [negb].
    rewrite !andb_true_r.
    destruct (Nat.eqb_spec i (length q - 1)) as [E1 | E1].
    + destruct (Nat.eqb_spec (length q - 1 - i) (length q - 1)); [lia |].
      destruct (Nat.eqb_spec (length q - 1 - i) 0); [| lia].
      replace (length q - 1 - i)%nat with 0%nat by lia. cbn [Nat.add].
      assert (Q0 : nthR q 0 = s - nthR q i) by (rewrite <- M by lia; f_equal; lia).
      assert (Q1 : nthR q 1 = s - nthR q (i - 1)) by (rewrite <- M by lia; f_equal; lia).
      assert (Q2 : nthR q 2 = s - nthR q (i - 2)) by (rewrite <- M by lia; f_equal; lia).
      assert (F0 : g 0%nat = g i) by (rewrite <- (E i) by lia; f_equal; lia).
      assert (F1 : g 1%nat = g (i - 1)%nat) by (rewrite <- (E (i - 1)%nat) by lia; f_equal; lia).
      assert (F2 : g 2%nat = g (i - 2)%nat) by (rewrite <- (E (i - 2)%nat) by lia; f_equal; lia).
      rewrite Q0, Q1, Q2, F0, F1, F2.
      assert (nthR q (i - 2) < nthR q (i - 1)) by (apply I; lia).
      assert (nthR q (i - 1) < nthR q i) by (apply I; lia).
      field. lra.
    + destruct (Nat.eqb_spec i 0) as [E2 | E2].
      * subst i. destruct (Nat.eqb_spec (length q - 1 - 0) (length q - 1)); [| lia].
        set (k := (length q - 1 - 0)%nat). cbn [Nat.add].
        assert (Q0 : nthR q k = s - nthR q 0) by (rewrite <- M by lia; f_equal; lia).
        assert (Q1 : nthR q (k - 1) = s - nthR q 1) by (rewrite <- M by lia; f_equal; lia).
        assert (Q2 : nthR q (k - 2) = s - nthR q 2) by (rewrite <- M by lia; f_equal; lia).
        assert (F0 : g k = g 0%nat) by (rewrite <- (E 0%nat) by lia; f_equal; lia).
        assert (F1 : g (k - 1)%nat = g 1%nat) by (rewrite <- (E 1%nat) by lia; f_equal; lia).
        assert (F2 : g (k - 2)%nat = g 2%nat) by (rewrite <- (E 2%nat) by lia; f_equal; lia).
        rewrite Q0, Q1, Q2, F0, F1, F2.
        assert (nthR q 0 < nthR q 1) by (apply I; lia).
        assert (nthR q 1 < nthR q 2) by (apply I; lia).
        field. lra.
      * destruct (Nat.eqb_spec (length q - 1 - i) (length q - 1)); [lia |].
        destruct (Nat.eqb_spec (length q - 1 - i) 0); [lia |].
        destruct (Nat.eqb_spec (i + 1) (length q)); [lia |].
        destruct (Nat.eqb_spec (length q - 1 - i + 1) (length q)); [lia |].
        rewrite !Nat.add_1_r. set (j := (length q - 1 - i)%nat).
        destruct i as [| i']; [lia |]. destruct j as [| j'] eqn:Ej; [lia |].
        assert (Q1 : nthR q (S j') = s - nthR q (S i')) by (rewrite <- M by lia; f_equal; lia).
        assert (Q2 : nthR q j' = s - nthR q (S (S i'))) by (rewrite <- M by lia; f_equal; lia).
        assert (Q3 : nthR q (S (S j')) = s - nthR q i') by (rewrite <- M by lia; f_equal; lia).
        assert (F1 : g (S j') = g (S i')) by (rewrite <- (E (S i')) by lia; f_equal; lia).
        assert (F2 : g j' = g (S (S i'))) by (rewrite <- (E (S (S i'))) by lia; f_equal; lia).
        assert (F3 : g (S (S j')) = g i') by (rewrite <- (E i') by lia; f_equal; lia).
        rewrite Q1, Q2, Q3, F1, F2, F3.
        assert (nthR q i' < nthR q (S i')) by (apply I; lia).
        assert (nthR q (S i') < nthR q (S (S i'))) by (apply I; lia).
        field. lra.
Qed.

Lemma herm_mirror d f0 f1 g0 g1 t : d <> 0 ->
  herm d f1 f0 (- g1) (- g0) (d - t) = herm d f0 f1 g0 g1 t.
Proof. intros H. unfold herm. field. exact H. Qed.

Lemma I1_mirror per q g s t : good per q -> mirrored q s ->
  (forall i, (i < length q)%nat -> ev per q g (length q - 1 - i) = ev per q g i) ->
  inside q t -> I1 per q g (s - t) = I1 per q g t.
Proof.
  intros G M E IN. pose proof (good_2 G) as L2. pose proof G as [I _].
  destruct (cell_ok I L2 IN) as (_ & C & C1 & C2). set (c := cellc q t) in *. clearbody c.
  destruct (@I1_on_cell per q g c t I C (conj C1 C2)) as [-> _].
  assert (Q0 : nthR q (length q - 1 - S c) = s - nthR q (S c)) by (apply M; lia).
  assert (Q1 : nthR q (S (length q - 1 - S c)) = s - nthR q c)
    by (replace (S (length q - 1 - S c)) with (length q - 1 - c)%nat by lia; apply M; lia).
  destruct (@I1_on_cell per q g (length q - 1 - S c) (s - t) I ltac:(lia)) as [-> _].
  { rewrite Q0, Q1. lra. }
  unfold H1d. rewrite Q0, Q1.
  fold (ev per q g (length q - 1 - S c)). fold (ev per q g (S (length q - 1 - S c))).
  fold (ev per q g c). fold (ev per q g (S c)).
  rewrite (E (S c) C), (@slope_mirror per q g s G M E (S c) C).
  replace (S (length q - 1 - S c)) with (length q - 1 - c)%nat by lia.
  rewrite (E c ltac:(lia)), (@slope_mirror per q g s G M E c ltac:(lia)).
  pose proof (gap I C).
  replace (s - nthR q c - (s - nthR q (S c))) with (nthR q (S c) - nthR q c) by ring.
  replace (s - t - (s - nthR q (S c))) with (nthR q (S c) - nthR q c - (t - nthR q c)) by ring.
  apply herm_mirror. lra.
Qed.

(** ** Periods *)

Definition uniform (q : list R) (d : R) : Prop :=
  forall i, (i < length q)%nat -> nthR q i = nthR q 0 + INR i * d.

Section periods.
  Variables (q : list R) (g : nat -> R) (d : R) (p : nat).
  Hypothesis G : good true q.
  Hypothesis Hd : 0 < d.
  Hypothesis U : uniform q d.
  Let n := (length q - 1)%nat.
  Hypothesis Hp : p <> 0%nat.
  Hypothesis F : divides p n.
  Hypothesis K : keeps p false n g.
  Let L := (n / p)%nat.
  Let cyc (k : nat) := g (k mod n).

  Lemma n_pos : (1 <= n)%nat.
  Proof. unfold n. pose proof (good_2 G). lia. Qed.
  Lemma L_pos : (1 <= L)%nat.
  Proof. unfold L. destruct F as [E | E]; [contradiction |]. apply unit_pos; auto. apply n_pos. Qed.
  Lemma n_L : n = (p * L)%nat.
  Proof. unfold L. destruct F as [E | E]; [contradiction |]. now apply div_exact. Qed.

  Lemma cyc_L k : cyc (k + L) = cyc k.
  Proof.
    pose proof n_pos. pose proof L_pos. pose proof n_L as E.
    assert (C : forall k, cyc k = g (k mod L)).
    { intros m. unfold cyc.
      rewrite <- (@keeps_mod p false n g F n_pos K (m mod n)).
      2:{ apply Nat.mod_upper_bound. lia. }
      unfold unitm. destruct (Nat.eqb_spec p 0); [contradiction |]. fold L. f_equal.
      rewrite E. rewrite (Nat.mul_comm p L). rewrite Nat.mod_mul_r by lia.
      rewrite Nat.add_mod by lia. rewrite (Nat.mul_comm L), Nat.mod_mul by lia.
      rewrite Nat.add_0_r, Nat.mod_mod by lia. now apply Nat.mod_mod; lia. }
    rewrite !C. f_equal. rewrite <- (Nat.mul_1_l L) at 1. apply Nat.mod_add. lia.
  Qed.

  Lemma ev_cyc i : (i < length q)%nat -> ev true q g i = cyc i.
  Proof.
    intros Hi. unfold ev, cyc. f_equal. rewrite wrapb_mod; auto. apply (good_2 G).
  Qed.

  Lemma gaps i : (S i < length q)%nat -> nthR q (S i) - nthR q i = d.
  Proof. intros Hi. rewrite (U Hi), (@U i) by lia. rewrite S_INR. ring. Qed.

  Lemma slope_cyc i : (i < length q)%nat ->
    slope true q g i = (cyc (i + 1) - cyc (i + (n - 1))) / (2 * d).
  Proof.
    intros Hi. pose proof (good_2 G) as L2. rewrite slope_per by assumption. cbv zeta.
    pose proof (@wrap_lt (length q) i L2) as W.
    assert (B : gap_before q (wrap (length q) i) = d).
    { destruct (wrap (length q) i) as [| k]; cbn [gap_before].
      - replace (length q - 1)%nat with (S (length q - 2)) by lia. apply gaps. lia.
      - apply gaps. lia. }
    rewrite B, gaps by lia.
    assert (E1 : ev true q g (S (wrap (length q) i)) = cyc (i + 1)).
    { rewrite ev_cyc by lia. unfold cyc. f_equal. fold n in W. unfold wrap. fold n.
      destruct (Nat.ltb_spec i n); [f_equal; lia |].
      replace i with n by (unfold n in *; lia).
      replace (n + 1)%nat with (1 + 1 * n)%nat by lia. rewrite Nat.mod_add by (pose proof n_pos; lia). reflexivity. }
    assert (E2 : g (match wrap (length q) i with O => length q - 2 | S k => k end)%nat = cyc (i + (n - 1))).
    { unfold cyc. f_equal. pose proof n_pos. unfold wrap. fold n.
      destruct (Nat.ltb_spec i n).
      - destruct i as [| k].
        + rewrite Nat.mod_small by lia. unfold n. lia.
        + replace (S k + (n - 1))%nat with (k + 1 * n)%nat by lia.
          rewrite Nat.mod_add, Nat.mod_small; lia.
      - replace i with n by (unfold n in *; lia).
        replace (n + (n - 1))%nat with (n - 1 + 1 * n)%nat by lia.
        rewrite Nat.mod_add, Nat.mod_small by lia. unfold n. lia. }
    rewrite E1, E2. unfold quad3. field. lra.
  Qed.

  Lemma I1_period t : inside q t -> inside q (t + INR L * d) ->
    I1 true q g (t + INR L * d) = I1 true q g t.
  Proof.
    intros IN IN2. pose proof (good_2 G) as L2. pose proof G as [I _].
    destruct (cell_ok I L2 IN) as (_ & C & C1 & C2). set (c := cellc q t) in *. clearbody c.
    assert (Q : forall i, (i + L < length q)%nat -> nthR q (i + L) = nthR q i + INR L * d).
    { intros i Hi. rewrite (U Hi), (@U i) by lia. rewrite plus_INR. ring. }
    assert (EV : forall i, (i + L < length q)%nat -> ev true q g (i + L) = ev true q g i).
    { intros i Hi. rewrite !ev_cyc by lia. apply cyc_L. }
    assert (SL : forall i, (i + L < length q)%nat -> slope true q g (i + L) = slope true q g i).
    { intros i Hi. rewrite !slope_cyc by lia.
      replace (i + L + 1)%nat with (i + 1 + L)%nat by lia.
      replace (i + L + (n - 1))%nat with (i + (n - 1) + L)%nat by lia.
      now rewrite !cyc_L. }
    destruct (Nat.lt_ge_cases (S (c + L)) (length q)) as [A | A].
    - destruct (@I1_on_cell true q g c t I C (conj C1 C2)) as [-> _].
      destruct (@I1_on_cell true q g (c + L) (t + INR L * d) I A) as [-> _].
      { rewrite Q by lia. replace (S (c + L)) with (S c + L)%nat by lia. rewrite Q by lia. lra. }
      unfold H1d. replace (S (c + L)) with (S c + L)%nat by lia.
      fold (ev true q g (c + L)). fold (ev true q g (S c + L)).
      fold (ev true q g c). fold (ev true q g (S c)).
      rewrite !EV, !SL, !Q by lia.
      replace (nthR q (S c) + INR L * d - (nthR q c + INR L * d)) with (nthR q (S c) - nthR q c) by ring.
      replace (t + INR L * d - (nthR q c + INR L * d)) with (t - nthR q c) by ring. reflexivity.
    - (* only the last point *)
      pose proof L_pos. pose proof n_L.
      assert (Lq : (L <= n)%nat) by (rewrite n_L; destruct p; [lia | cbn; lia]).
      destruct IN2 as [_ IN2]. fold n in IN2.
      assert (T : nthR q (n - L) <= nthR q c) by (apply incr_le; auto; unfold n in *; lia).
      assert (T2 : nthR q n = nthR q (n - L) + INR L * d).
      { rewrite <- Q by (unfold n in *; lia). f_equal. lia. }
      assert (T3 : t = nthR q (n - L)) by lra.
      rewrite T3, <- T2. 
      destruct (@I1_knot true q g n I L2 ltac:(unfold n; lia)) as [-> _].
      destruct (@I1_knot true q g (n - L) I L2 ltac:(unfold n; lia)) as [-> _].
      fold (ev true q g n). fold (ev true q g (n - L)).
      rewrite <- (EV (n - L)%nat) by (unfold n in *; lia). f_equal. lia.
  Qed.
End periods.
