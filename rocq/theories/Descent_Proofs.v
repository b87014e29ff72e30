(** Proofs about projected gradient descent. *)
From Verif Require Import Base QTac Opt_Model Opt_Spec Opt_Proofs Param_Model Descent_Model Descent_Spec.
From Coq Require Import ZArith Lqa.
Set Implicit Arguments.

Lemma sumn_nonneg n f : (forall i, (i < n)%nat -> 0 <= f i) -> 0 <= sumn n f.
Proof. intros H. rewrite <- (@sumn_zero n (fun _ => 0)); [|intros; reflexivity]. now apply sumn_le. Qed.
Lemma sq_pos (q : Q) : 0 <= q * q.
Proof. destruct (Qlt_le_dec q 0); nra. Qed.
Lemma sqd_nonneg n x y : 0 <= sqd n x y.
Proof. apply sumn_nonneg. intros i _. apply sq_pos. Qed.
Lemma sqd_sym n x y : sqd n x y == sqd n y x.
Proof. apply sumn_ext. intros; ring. Qed.

Section Box.
Variables (n : nat) (lo hi : nat -> option Q).
Hypothesis OKb : bounds_ok n lo hi.

Lemma boxed_within x : within n lo hi (boxed lo hi x).
Proof.
  intros i Hi. unfold boxed, clip1. pose proof (@OKb i) as O.
  destruct (lo i) as [l|] eqn:El, (hi i) as [h|] eqn:Eh; split; intros q E; try discriminate; injection E as <-;
    try specialize (O _ _ Hi eq_refl eq_refl); qlra.
Qed.
(** the projection is the nearest point, coordinate by coordinate *)
Lemma clip_obtuse x z i : (i < n)%nat -> within n lo hi z -> 0 <= (boxed lo hi x i - x i) * (z i - boxed lo hi x i).
Proof.
  intros Hi W. destruct (W i Hi) as [Wl Wh]. unfold boxed, clip1. pose proof (@OKb i) as O.
  destruct (lo i) as [l|] eqn:El, (hi i) as [h|] eqn:Eh; try specialize (Wl _ eq_refl); try specialize (Wh _ eq_refl);
    try specialize (O _ _ Hi eq_refl eq_refl); qcase; nra.
Qed.

Section Step.
Variables (g : vec -> vec) (alpha : Q).
Let step (x : vec) : vec := gd_iterate g (boxed lo hi) alpha x.
Lemma step_within x : within n lo hi (step x).
Proof. apply boxed_within. Qed.
Lemma three_point x z : within n lo hi z ->
  2 * alpha * slope n (g x) z (step x) <= sqd n x z - sqd n (step x) z - sqd n (step x) x.
Proof.
  intros W. assert (H : 0 <= sumn n (fun i => (step x i - (x i - alpha * g x i)) * (z i - step x i))).
  { apply sumn_nonneg. intros i Hi. exact (@clip_obtuse (fun i => x i - alpha * g x i) z i Hi W). }
  assert (E : sqd n x z - sqd n (step x) z - sqd n (step x) x - 2 * alpha * slope n (g x) z (step x) ==
    2 * sumn n (fun i => (step x i - (x i - alpha * g x i)) * (z i - step x i))).
  { unfold sqd, slope. clear. induction n as [|m IH]; cbn [sumn]; [ring|].
    transitivity ((sumn m (fun i => (x i - z i) * (x i - z i)) - sumn m (fun i => (step x i - z i) * (step x i - z i)) -
      sumn m (fun i => (step x i - x i) * (step x i - x i)) - 2 * alpha * sumn m (fun i => g x i * (step x i - z i))) +
      2 * ((step x m - (x m - alpha * g x m)) * (z m - step x m))); [ring|]. rewrite IH. ring. }
  lra.
Qed.
Lemma slope_split a x y z : slope n a x y == slope n a x z + slope n a z y.
Proof. unfold slope. rewrite <- sumn_plus. apply sumn_ext. intros; ring. Qed.
Lemma slope_self a x : slope n a x x == 0.
Proof. apply sumn_zero. intros; ring. Qed.
Lemma sqd_self x : sqd n x x == 0.
Proof. apply sumn_zero. intros; ring. Qed.
Lemma self_point x : within n lo hi x -> alpha * slope n (g x) x (step x) <= - sqd n (step x) x.
Proof.
  intros W. pose proof (three_point x W) as H. rewrite (sqd_self x) in H. pose proof (sqd_sym n x (step x)). lra.
Qed.

Variables (f : vec -> Q) (L : Q).
Hypothesis Ha : 0 < alpha.
Hypothesis Sm : smooth n lo hi f g L.
Lemma step_descends x : within n lo hi x -> f (step x) <= f x - (1 / alpha - L / 2) * sqd n (step x) x.
Proof.
  intros W. pose proof (@self_point x W) as H. pose proof (@Sm x (step x) W (step_within x)) as H2.
  set (d := sqd n (step x) x) in *. set (s := slope n (g x) x (step x)) in *.
  assert (s <= - (1 / alpha) * d).
  { apply Qmult_lt_0_le_reg_r with alpha; [exact Ha|]. setoid_replace (- (1 / alpha) * d * alpha) with (- d) by (field; lra). lra. }
  lra.
Qed.
(** a point that does not move is stationary, and conversely *)
Lemma sumn_zero_all : forall m (h : nat -> Q), (forall i, (i < m)%nat -> 0 <= h i) -> sumn m h == 0 -> forall i, (i < m)%nat -> h i == 0.
Proof.
  induction m as [|m IH]; intros h P E i Hi; [lia|]. cbn [sumn] in E.
  assert (0 <= sumn m h) by (apply sumn_nonneg; intros; apply P; lia). pose proof (P m ltac:(lia)).
  destruct (Nat.eq_dec i m) as [->|]; [lra|]. apply IH; [intros; apply P; lia|lra|lia].
Qed.
Lemma fixed_stationary x : within n lo hi x -> (sqd n (step x) x == 0 <-> stationary n lo hi g x).
Proof.
  intros W. split.
  - intros E y Wy. pose proof (@three_point x y Wy) as H.
    assert (S0 : forall i, (i < n)%nat -> step x i == x i).
    { intros i Hi. pose proof (@sumn_zero_all n (fun i => (step x i - x i) * (step x i - x i))) as Z.
      specialize (Z ltac:(intros; apply sq_pos) E i Hi). cbv beta in Z.
      destruct (Qeq_dec (step x i - x i) 0) as [D|D]; [lra|]. exfalso. apply Qmult_integral in Z. destruct Z; contradiction. }
    assert (E1 : sqd n x y == sqd n (step x) y) by (apply sumn_ext; intros i Hi; rewrite (S0 i Hi); reflexivity).
    assert (E2 : slope n (g x) y (step x) == - slope n (g x) x y).
    { unfold slope. rewrite <- (Qmult_1_l (sumn n (fun i => g x i * (y i - x i)))).
      setoid_replace (- (1 * sumn n (fun i => g x i * (y i - x i)))) with (-1 * sumn n (fun i => g x i * (y i - x i))) by ring.
      rewrite <- sumn_scale. apply sumn_ext. intros i Hi. rewrite (S0 i Hi). ring. }
    rewrite E1, E2, E in H. set (s := slope n (g x) x y) in *. nra.
  - intros St. pose proof (@self_point x W) as H. pose proof (St (step x) (step_within x)) as H2. pose proof (sqd_nonneg n (step x) x). nra.
Qed.

Variable mu : Q.
Hypothesis Cv : convex n lo hi f g mu.
Lemma step_closer x z : within n lo hi x -> within n lo hi z ->
  2 * alpha * (f (step x) - f z) <= (1 - alpha * mu) * sqd n x z - sqd n (step x) z - (1 - alpha * L) * sqd n (step x) x.
Proof.
  intros Wx Wz. pose proof (@three_point x z Wz) as H. pose proof (@Sm x (step x) Wx (step_within x)) as H1.
  pose proof (@Cv x z Wx Wz) as H2. pose proof (slope_split (g x) x (step x) z) as E. rewrite E in H1. clear E.
  pose proof (sqd_sym n z x) as E. rewrite E in H2. clear E.
  set (a := sqd n x z) in *. set (b := sqd n (step x) z) in *. set (c := sqd n (step x) x) in *.
  set (s := slope n (g x) z (step x)) in *. set (t := slope n (g x) x z) in *.
  assert (H3 : f (step x) - f z <= s + L / 2 * c - mu / 2 * a) by lra.
  apply (@Qmult_le_compat_r _ _ (2 * alpha)) in H3; [|lra].
  setoid_replace ((s + L / 2 * c - mu / 2 * a) * (2 * alpha)) with (2 * alpha * s + alpha * L * c - alpha * mu * a) in H3 by field.
  setoid_replace ((1 - alpha * mu) * a - b - (1 - alpha * L) * c) with (a - b - c + alpha * L * c - alpha * mu * a) by ring.
  rewrite (Qmult_comm (2 * alpha)). lra.
Qed.
End Step.
End Box.

(** ** runs *)
Lemma last_map_seq {A} (h : nat -> A) d k : (0 < k)%nat -> last (map h (seq 1 k)) d = h k.
Proof.
  intros Hk. destruct k as [|k]; [lia|]. rewrite seq_S, map_app. cbn [map]. rewrite last_last. reflexivity.
Qed.
Lemma gd_run g lo hi alpha x m fuel k : (0 <= m)%Z -> (0 < k <= fuel)%nat ->
  exists xs : nat -> vec, xs 0%nat = x /\ (forall j, xs (S j) = gd_iterate g (boxed lo hi) alpha (xs j)) /\
    optimize (total (gd_step g lo hi alpha)) fuel (Some (Z.of_nat k)) (OState x m None) =
      Ok (OState (xs k) (m + Z.of_nat k) None, map xs (seq 1 k)).
Proof.
  intros Hm Hk. exists (after (gd_step g lo hi alpha) m x). split; [reflexivity|]. split; [reflexivity|].
  pose proof (@optimize_exact vec (gd_step g lo hi alpha) (Z.of_nat k) (OState x m None) fuel) as H.
  cbn [o_iters o_max o_s] in H. rewrite Nat2Z.id in H. apply H; try lia; [now left|]. now intros [|j].
Qed.
Section Run.
Variables (n : nat) (lo hi : nat -> option Q) (f : vec -> Q) (g : vec -> vec) (alpha L : Q).
Hypothesis OKb : bounds_ok n lo hi.
Hypothesis Ha : 0 < alpha.
Hypothesis Sm : smooth n lo hi f g L.
Variable xs : nat -> vec.
Hypothesis X0 : within n lo hi (xs 0%nat).
Hypothesis XS : forall j, xs (S j) = gd_iterate g (boxed lo hi) alpha (xs j).
Lemma run_within j : within n lo hi (xs j).
Proof. destruct j; [exact X0|]. rewrite XS. now apply step_within. Qed.
Lemma run_sum k : (1 / alpha - L / 2) * sumn k (fun j => sqd n (xs (S j)) (xs j)) <= f (xs 0%nat) - f (xs k).
Proof.
  induction k as [|k IH]; cbn [sumn]; [lra|].
  pose proof (@step_descends n lo hi OKb g alpha f L Ha Sm (xs k) (run_within k)) as H. rewrite <- XS in H. lra.
Qed.
Lemma run_descends i j : alpha * L <= 2 -> (i <= j)%nat -> f (xs j) <= f (xs i).
Proof.
  intros HL H. induction H as [|j H IH]; [apply Qle_refl|].
  pose proof (@step_descends n lo hi OKb g alpha f L Ha Sm (xs j) (run_within j)) as D. rewrite <- XS in D.
  assert (0 <= 1 / alpha - L / 2).
  { apply Qmult_lt_0_le_reg_r with alpha; [exact Ha|]. setoid_replace ((1 / alpha - L / 2) * alpha) with (1 - (1 # 2) * (alpha * L)) by (field; lra). lra. }
  pose proof (sqd_nonneg n (xs (S j)) (xs j)). nra.
Qed.
Variable mu : Q.
Hypothesis Cv : convex n lo hi f g mu.
Lemma run_rate k z : 0 <= mu -> alpha * L <= 1 -> within n lo hi z ->
  2 * alpha * inject_Z (Z.of_nat k) * (f (xs k) - f z) <= sqd n (xs 0%nat) z - sqd n (xs k) z.
Proof.
  intros Hmu HL W. induction k as [|k IH]; [change (inject_Z (Z.of_nat 0)) with 0; lra|].
  pose proof (@step_closer n lo hi OKb g alpha f L Ha Sm mu Cv (xs k) z (run_within k) W) as H. rewrite <- XS in H.
  pose proof (@run_descends k (S k) ltac:(lra) ltac:(lia)) as D.
  rewrite Nat2Z.inj_succ. unfold Z.succ. rewrite inject_Z_plus. change (inject_Z 1) with 1.
  assert (K : 0 <= inject_Z (Z.of_nat k)) by (change 0 with (inject_Z 0); rewrite <- Zle_Qle; lia).
  set (q := inject_Z (Z.of_nat k)) in *. pose proof (sqd_nonneg n (xs (S k)) (xs k)). pose proof (sqd_nonneg n (xs k) z).
  assert (2 * alpha * q * (f (xs (S k)) - f z) <= 2 * alpha * q * (f (xs k) - f z)).
  { setoid_replace (2 * alpha * q * (f (xs k) - f z)) with (2 * alpha * q * (f (xs (S k)) - f z) + 2 * alpha * q * (f (xs k) - f (xs (S k)))) by ring.
    assert (0 <= 2 * alpha * q * (f (xs k) - f (xs (S k)))) by (repeat apply Qmult_le_0_compat; lra). lra. }
  assert (0 <= (1 - alpha * L) * sqd n (xs (S k)) (xs k)) by nra. assert (0 <= alpha * mu * sqd n (xs k) z) by (repeat apply Qmult_le_0_compat; lra).
  setoid_replace (2 * alpha * (q + 1) * (f (xs (S k)) - f z)) with (2 * alpha * q * (f (xs (S k)) - f z) + 2 * alpha * (f (xs (S k)) - f z)) by ring.
  setoid_replace ((1 - alpha * mu) * sqd n (xs k) z) with (sqd n (xs k) z - alpha * mu * sqd n (xs k) z) in H by ring. lra.
Qed.
Lemma run_contracts k y : alpha * L <= 1 -> alpha * mu <= 1 -> minimum n lo hi f y -> sqd n (xs k) y <= qpower (1 - alpha * mu) k * sqd n (xs 0%nat) y.
Proof.
  intros HL Hmu [Wy My]. induction k as [|k IH]; [cbn; lra|].
  pose proof (@step_closer n lo hi OKb g alpha f L Ha Sm mu Cv (xs k) y (run_within k) Wy) as H. rewrite <- XS in H.
  pose proof (My (xs (S k)) (run_within (S k))) as D. pose proof (sqd_nonneg n (xs (S k)) (xs k)). cbn [qpower].
  assert (0 <= (1 - alpha * L) * sqd n (xs (S k)) (xs k)) by nra.
  assert (0 <= alpha * (f (xs (S k)) - f y)) by nra.
  assert (sqd n (xs (S k)) y <= (1 - alpha * mu) * sqd n (xs k) y) by lra.
  assert ((1 - alpha * mu) * sqd n (xs k) y <= (1 - alpha * mu) * (qpower (1 - alpha * mu) k * sqd n (xs 0%nat) y)) by (rewrite !(Qmult_comm (1 - alpha * mu)); apply Qmult_le_compat_r; lra).
  lra.
Qed.
End Run.
