(** Meshes on the sphere. *)
From Coq Require Import Reals Lra Psatz Lia Ring Field.
From Verif Require Import Base Ff_Model Ff_Spec.
Set Implicit Arguments.
Local Open Scope R_scope.

(** ** Vectors *)
Lemma vec_eq (a b : vec3) : px a = px b -> py a = py b -> pz a = pz b -> a = b.
Proof. destruct a as [[? ?] ?], b as [[? ?] ?]. cbn. intros. now subst. Qed.
Ltac ve := apply vec_eq; unfold combination, vadd, vsub, px, py, pz in *; cbn [fst snd] in *.
Definition n2 (p : vec3) : R := px p * px p + py p * py p + pz p * pz p.
Lemma n2_nonneg p : 0 <= n2 p.
Proof. unfold n2. nra. Qed.
Lemma n2_zero p : n2 p = 0 -> p = (0, 0, 0).
Proof. destruct p as [[x y] z]. unfold n2, px, py, pz. cbn. intros H. assert (x = 0) by nra. assert (y = 0) by nra. assert (z = 0) by nra. now subst. Qed.
Lemma norm_pos p : p <> (0, 0, 0) -> 0 < norm p.
Proof.
  intros H. unfold norm. apply sqrt_lt_R0. destruct (n2_nonneg p) as [H0|H0]; [exact H0|]. exfalso. apply H. apply n2_zero. now symmetry.
Qed.
Lemma norm_sq p : norm p * norm p = n2 p.
Proof. unfold norm. apply sqrt_sqrt. apply n2_nonneg. Qed.
Lemma unit_ok p : p <> (0, 0, 0) -> exists k q, 0 < k /\ unit p = Ok q /\ q = (k * px p, k * py p, k * pz p) /\ n2 q = 1.
Proof.
  intros H. pose proof (norm_pos H) as Hp. exists (/ norm p), (px p / norm p, py p / norm p, pz p / norm p). split; [now apply Rinv_0_lt_compat|]. unfold unit.
  destruct (Req_EM_T (norm p) 0) as [E|_]; [lra|]. split; [reflexivity|]. split; [ve; field; apply Rgt_not_eq; exact Hp|].
  pose proof (norm_sq p) as Hn. unfold n2 in *. cbn [px py pz fst snd] in *. unfold px, py, pz in *. cbn [fst snd] in *.
  assert (E : forall s : R, s / norm p * (s / norm p) = s * s / (norm p * norm p)) by (intros s; field; lra). rewrite !E. rewrite Hn. field. rewrite <- Hn. apply Rmult_integral_contrapositive; split; lra.
Qed.
Lemma veq_spec a b : veq a b = true <-> a = b.
Proof.
  unfold veq. split.
  - destruct (Req_EM_T (px a) (px b)), (Req_EM_T (py a) (py b)), (Req_EM_T (pz a) (pz b)); try discriminate. intros _. now apply vec_eq.
  - intros ->. destruct (Req_EM_T (px b) (px b)), (Req_EM_T (py b) (py b)), (Req_EM_T (pz b) (pz b)); try congruence. reflexivity.
Qed.
Lemma find_some p l i : find_point p l = Some i -> nth_error l i = Some p.
Proof.
  revert i. induction l as [|q l IH]; intros i; cbn; [discriminate|]. destruct (veq q p) eqn:E.
  - intros H. injection H as <-. apply veq_spec in E. now subst.
  - destruct (find_point p l) as [j|]; [|discriminate]. intros H. injection H as <-. cbn. now apply IH.
Qed.
Lemma find_none p l : find_point p l = None -> ~ In p l.
Proof.
  induction l as [|q l IH]; cbn; [auto|]. destruct (veq q p) eqn:E; [discriminate|]. destruct (find_point p l) as [j|]; [discriminate|].
  intros _ [->|H]; [|now apply IH]. assert (veq p p = true) by now apply veq_spec. congruence.
Qed.
Definition good_points (pts : list vec3) : Prop := NoDup pts /\ forall p, In p pts -> n2 p = 1.
Definition extends (pts pts' : list vec3) : Prop := forall i p, nth_error pts i = Some p -> nth_error pts' i = Some p.
Lemma extends_refl l : extends l l. Proof. now intros i p. Qed.
Lemma extends_trans a b c : extends a b -> extends b c -> extends a c.
Proof. intros H1 H2 i p H. apply H2, H1, H. Qed.
Lemma add_point_spec pts p pts' i : add_point pts p = (pts', i) -> good_points pts -> n2 p = 1 ->
  good_points pts' /\ extends pts pts' /\ nth_error pts' i = Some p /\ (forall j, (j < length pts')%nat -> (j < length pts)%nat \/ j = i).
Proof.
  intros H [H1 H2] Hp. unfold add_point in H. destruct (find_point p pts) as [k|] eqn:E; injection H as <- <-.
  - split; [now split|]. split; [apply extends_refl|]. split; [now apply find_some|]. intros j Hj. now left.
  - apply find_none in E. split; [split|split; [|split]].
    + apply (NoDup_Add (a:=p) (l:=pts)); [|now split].
      replace (pts ++ [p]) with (pts ++ p :: []) by reflexivity. replace pts with (pts ++ []) at 1 by apply app_nil_r. apply Add_app.
    + intros q Hq. apply in_app_iff in Hq as [Hq|[<-|[]]]; auto.
    + intros j q Hj. rewrite nth_error_app1; [exact Hj|]. apply nth_error_Some. congruence.
    + rewrite nth_error_app2 by lia. now rewrite Nat.sub_diag.
    + intros j Hj. rewrite app_length in Hj. cbn in Hj. lia.
Qed.

(** ** Triangles *)
Definition det (a b c : vec3) : R :=
  px a * (py b * pz c - pz b * py c) - py a * (px b * pz c - pz b * px c) + pz a * (px b * py c - py b * px c).
Definition cone (a b c v : vec3) : Prop := exists x y z, 0 <= x /\ 0 <= y /\ 0 <= z /\ v = combination x y z a b c.
Definition icone (a b c v : vec3) : Prop := exists x y z, 0 < x /\ 0 < y /\ 0 < z /\ v = combination x y z a b c.
Definition scale (k : R) (a : vec3) : vec3 := (k * px a, k * py a, k * pz a).
Lemma coords_unique a b c x y z x' y' z' : det a b c <> 0 -> combination x y z a b c = combination x' y' z' a b c -> x = x' /\ y = y' /\ z = z'.
Proof.
  intros Hd E. unfold combination in E. injection E as E1 E2 E3.
  assert (K : forall u v w, u * px a + v * px b + w * px c = 0 -> u * py a + v * py b + w * py c = 0 -> u * pz a + v * pz b + w * pz c = 0 -> u = 0 /\ v = 0 /\ w = 0).
  { intros u v w K1 K2 K3. unfold det in Hd.
    assert (A1 : u * (px a * (py b * pz c - pz b * py c) - py a * (px b * pz c - pz b * px c) + pz a * (px b * py c - py b * px c)) = 0).
    { replace (u * _) with ((u * px a + v * px b + w * px c) * (py b * pz c - pz b * py c) - (u * py a + v * py b + w * py c) * (px b * pz c - pz b * px c) + (u * pz a + v * pz b + w * pz c) * (px b * py c - py b * px c)) by ring.
      rewrite K1, K2, K3. ring. }
    assert (A2 : v * (px a * (py b * pz c - pz b * py c) - py a * (px b * pz c - pz b * px c) + pz a * (px b * py c - py b * px c)) = 0).
    { replace (v * _) with ((u * px a + v * px b + w * px c) * (pz a * py c - py a * pz c) - (u * py a + v * py b + w * py c) * (pz a * px c - px a * pz c) + (u * pz a + v * pz b + w * pz c) * (py a * px c - px a * py c)) by ring.
      rewrite K1, K2, K3. ring. }
    assert (A3 : w * (px a * (py b * pz c - pz b * py c) - py a * (px b * pz c - pz b * px c) + pz a * (px b * py c - py b * px c)) = 0).
    { replace (w * _) with ((u * px a + v * px b + w * px c) * (py a * pz b - pz a * py b) - (u * py a + v * py b + w * py c) * (px a * pz b - pz a * px b) + (u * pz a + v * pz b + w * pz c) * (px a * py b - py a * px b)) by ring.
      rewrite K1, K2, K3. ring. }
    apply Rmult_integral in A1, A2, A3. tauto. }
  destruct (K (x - x') (y - y') (z - z')) as (A & B & D); lra.
Qed.
Lemma mid_nonzero a b c : det a b c <> 0 -> vadd a b <> (0, 0, 0) /\ vadd b c <> (0, 0, 0) /\ vadd c a <> (0, 0, 0).
Proof.
  intros Hd.
  assert (Z : forall x y z, combination x y z a b c = (0, 0, 0) -> x = 0 /\ y = 0 /\ z = 0).
  { intros x y z E. apply (@coords_unique a b c x y z 0 0 0 Hd). rewrite E. ve; ring. }
  split; [|split]; intros E.
  - destruct (Z 1 1 0) as (H & _); [rewrite <- E; ve; ring|lra].
  - destruct (Z 0 1 1) as (_ & H & _); [rewrite <- E; ve; ring|lra].
  - destruct (Z 1 0 1) as (H & _); [rewrite <- E; ve; ring|lra].
Qed.
Definition mid (k : R) (a b m : vec3) : Prop := 0 < k /\ m = scale k (vadd a b).
Section Split.
Variables a b c m1 m2 m3 : vec3.
Variables k1 k2 k3 : R.
Hypothesis D : det a b c <> 0.
Hypothesis M1 : mid k1 a b m1.
Hypothesis M2 : mid k2 b c m2.
Hypothesis M3 : mid k3 c a m3.
Ltac prep := destruct M1 as [P1 E1]; destruct M2 as [P2 E2]; destruct M3 as [P3 E3].
Lemma split_det : det m1 m2 m3 <> 0 /\ det a m1 m3 <> 0 /\ det b m1 m2 <> 0 /\ det c m3 m2 <> 0.
Proof.
  prep. subst. assert (forall x y, x <> 0 -> y <> 0 -> x * y <> 0) as NZ by (intros; now apply Rmult_integral_contrapositive).
  assert (K : forall u v, 0 < u -> 0 < v -> u * v <> 0) by (intros; apply NZ; lra).
  split; [|split; [|split]].
  - replace (det (scale k1 (vadd a b)) (scale k2 (vadd b c)) (scale k3 (vadd c a))) with ((k1 * k2) * (2 * k3) * det a b c) by (unfold det, scale, vadd, px, py, pz; cbn [fst snd]; ring). apply NZ; [apply NZ; [now apply K|apply K; lra]|exact D].
  - replace (det a (scale k1 (vadd a b)) (scale k3 (vadd c a))) with ((k1 * k3) * det a b c) by (unfold det, scale, vadd, px, py, pz; cbn [fst snd]; ring). apply NZ; [now apply K|exact D].
  - replace (det b (scale k1 (vadd a b)) (scale k2 (vadd b c))) with ((k1 * - k2) * det a b c) by (unfold det, scale, vadd, px, py, pz; cbn [fst snd]; ring). apply NZ; [apply NZ; lra|exact D].
  - replace (det c (scale k3 (vadd c a)) (scale k2 (vadd b c))) with ((k3 * k2) * det a b c) by (unfold det, scale, vadd, px, py, pz; cbn [fst snd]; ring). apply NZ; [apply NZ; lra|exact D].
Qed.
Lemma split_cover v : cone a b c v -> cone m1 m2 m3 v \/ cone a m1 m3 v \/ cone b m1 m2 v \/ cone c m3 m2 v.
Proof.
  prep. intros (x & y & z & Hx & Hy & Hz & ->).
  assert (I1 : 0 < / k1) by now apply Rinv_0_lt_compat. assert (I2 : 0 < / k2) by now apply Rinv_0_lt_compat. assert (I3 : 0 < / k3) by now apply Rinv_0_lt_compat.
  destruct (Rle_lt_dec (y + z) x) as [H1|H1]; [right; left|destruct (Rle_lt_dec (x + z) y) as [H2|H2]; [right; right; left|destruct (Rle_lt_dec (x + y) z) as [H3|H3]; [right; right; right|left]]].
  - exists (x - y - z), (y / k1), (z / k3). repeat split; try lra; try (unfold Rdiv; nra). subst. unfold scale. ve; field; lra.
  - exists (y - x - z), (x / k1), (z / k2). repeat split; try lra; try (unfold Rdiv; nra). subst. unfold scale. ve; field; lra.
  - exists (z - x - y), (x / k3), (y / k2). repeat split; try lra; try (unfold Rdiv; nra). subst. unfold scale. ve; field; lra.
  - exists ((x + y - z) / 2 / k1), ((y + z - x) / 2 / k2), ((z + x - y) / 2 / k3). repeat split; try (unfold Rdiv; apply Rmult_le_pos; lra). subst. unfold scale. ve; field; lra.
Qed.
Lemma split_inside v : icone m1 m2 m3 v \/ icone a m1 m3 v \/ icone b m1 m2 v \/ icone c m3 m2 v -> icone a b c v.
Proof.
  prep. subst. intros [H|[H|[H|H]]]; destruct H as (x & y & z & Hx & Hy & Hz & ->).
  - exists (x * k1 + z * k3), (x * k1 + y * k2), (y * k2 + z * k3). repeat split; try nra. unfold scale. ve; ring.
  - exists (x + y * k1 + z * k3), (y * k1), (z * k3). repeat split; try nra. unfold scale. ve; ring.
  - exists (y * k1), (x + y * k1 + z * k2), (z * k2). repeat split; try nra. unfold scale. ve; ring.
  - exists (y * k3), (z * k2), (x + y * k3 + z * k2). repeat split; try nra. unfold scale. ve; ring.
Qed.
(** which of the four *)
Lemma in_center v : icone m1 m2 m3 v -> exists x y z, v = combination x y z a b c /\ x < y + z /\ y < x + z /\ z < x + y.
Proof. prep. subst. intros (x & y & z & Hx & Hy & Hz & ->). exists (x * k1 + z * k3), (x * k1 + y * k2), (y * k2 + z * k3). split; [unfold scale; ve; ring|]. nra. Qed.
Lemma in_a v : icone a m1 m3 v -> exists x y z, v = combination x y z a b c /\ y + z < x /\ 0 < y /\ 0 < z.
Proof. prep. subst. intros (x & y & z & Hx & Hy & Hz & ->). exists (x + y * k1 + z * k3), (y * k1), (z * k3). split; [unfold scale; ve; ring|]. nra. Qed.
Lemma in_b v : icone b m1 m2 v -> exists x y z, v = combination x y z a b c /\ x + z < y /\ 0 < x /\ 0 < z.
Proof. prep. subst. intros (x & y & z & Hx & Hy & Hz & ->). exists (y * k1), (x + y * k1 + z * k2), (z * k2). split; [unfold scale; ve; ring|]. nra. Qed.
Lemma in_c v : icone c m3 m2 v -> exists x y z, v = combination x y z a b c /\ x + y < z /\ 0 < x /\ 0 < y.
Proof. prep. subst. intros (x & y & z & Hx & Hy & Hz & ->). exists (y * k3), (z * k2), (x + y * k3 + z * k2). split; [unfold scale; ve; ring|]. nra. Qed.
Lemma split_disjoint v :
  ~ (icone m1 m2 m3 v /\ icone a m1 m3 v) /\ ~ (icone m1 m2 m3 v /\ icone b m1 m2 v) /\ ~ (icone m1 m2 m3 v /\ icone c m3 m2 v) /\
  ~ (icone a m1 m3 v /\ icone b m1 m2 v) /\ ~ (icone a m1 m3 v /\ icone c m3 m2 v) /\ ~ (icone b m1 m2 v /\ icone c m3 m2 v).
Proof.
  repeat split; intros [H1 H2];
  repeat match goal with
  | H : icone m1 m2 m3 v |- _ => apply in_center in H
  | H : icone a m1 m3 v |- _ => apply in_a in H
  | H : icone b m1 m2 v |- _ => apply in_b in H
  | H : icone c m3 m2 v |- _ => apply in_c in H
  end;
  destruct H1 as (x & y & z & E & H1); destruct H2 as (x' & y' & z' & E' & H2); rewrite E in E'; apply (coords_unique D) in E' as (-> & -> & ->); lra.
Qed.
End Split.
