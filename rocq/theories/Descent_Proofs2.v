(** Termination of adaptive gradient descent; normalized gradients. *)
From Verif Require Import Base QTac Opt_Model Opt_Spec Opt_Proofs Param_Model Descent_Model Descent_Spec Descent_Proofs.
From Coq Require Import ZArith Lqa Qround.
Set Implicit Arguments.

(** ** a geometric sequence falls below every positive number *)
Lemma shrunk_S r a j : shrunk r a (S j) = shrunk r a j * r.
Proof. reflexivity. Qed.
Lemma shrunk_pos r a j : 0 < a -> 0 < r -> 0 < shrunk r a j.
Proof. intros Ha Hr. induction j as [|j IH]; [exact Ha|]. rewrite shrunk_S. nra. Qed.
Lemma shrunk_bernoulli r a j : 0 < a -> 0 < r -> r < 1 -> shrunk r a j * (1 + inject_Z (Z.of_nat j) * (1 / r - 1)) <= a.
Proof.
  intros Ha Hr H1. induction j as [|j IH]; [change (inject_Z (Z.of_nat 0)) with 0; change (shrunk r a 0) with a; lra|].
  rewrite shrunk_S, Nat2Z.inj_succ. unfold Z.succ. rewrite inject_Z_plus. change (inject_Z 1) with 1.
  assert (K : 0 <= inject_Z (Z.of_nat j)) by (change 0 with (inject_Z 0); rewrite <- Zle_Qle; lia).
  set (q := inject_Z (Z.of_nat j)) in *. set (s := shrunk r a j) in *. pose proof (@shrunk_pos r a j Ha Hr) as P. fold s in P.
  setoid_replace (s * r * (1 + (q + 1) * (1 / r - 1))) with (s * (1 + q * (1 - r))) by (field; lra).
  assert (1 - r <= 1 / r - 1).
  { apply Qmult_lt_0_le_reg_r with r; [exact Hr|]. setoid_replace ((1 / r - 1) * r) with (1 - r) by (field; lra). nra. }
  apply Qle_trans with (s * (1 + q * (1 / r - 1))); [|exact IH].
  assert (0 <= s * (q * (1 / r - 1 - (1 - r)))) by (repeat apply Qmult_le_0_compat; lra).
  setoid_replace (s * (1 + q * (1 / r - 1))) with (s * (1 + q * (1 - r)) + s * (q * (1 / r - 1 - (1 - r)))) by ring. lra.
Qed.
Lemma archimedes (q : Q) : exists j : nat, q <= inject_Z (Z.of_nat j).
Proof.
  exists (Z.to_nat (Qceiling q)). destruct (Z_le_gt_dec 0 (Qceiling q)) as [H|H].
  - rewrite Z2Nat.id by lia. apply Qle_ceiling.
  - apply Qle_trans with (inject_Z (Qceiling q)); [apply Qle_ceiling|]. rewrite <- Zle_Qle. lia.
Qed.
Lemma shrunk_small r a e : 0 < a -> 0 < r -> r < 1 -> 0 < e -> exists j, shrunk r a j <= e.
Proof.
  intros Ha Hr H1 He. assert (D : 0 < 1 / r - 1).
  { setoid_replace (1 / r - 1) with ((1 - r) * / r) by (field; lra).
    apply Qmult_lt_0_compat; [lra|]. now apply Qinv_lt_0_compat. }
  destruct (archimedes (a / (e * (1 / r - 1)))) as (j & Hj). exists j.
  assert (Hed : 0 < e * (1 / r - 1)) by nra.
  assert (a <= e * (1 / r - 1) * inject_Z (Z.of_nat j)).
  { apply (@Qmult_le_compat_r _ _ (e * (1 / r - 1))) in Hj; [|lra].
    set (w := e * (1 / r - 1)) in *. setoid_replace (a / w * w) with a in Hj by (field; lra). lra. }
  pose proof (@shrunk_bernoulli r a j Ha Hr H1) as B.
  assert (K : 0 <= inject_Z (Z.of_nat j)) by (change 0 with (inject_Z 0); rewrite <- Zle_Qle; lia).
  set (q := inject_Z (Z.of_nat j)) in *. set (d := 1 / r - 1) in *. set (s := shrunk r a j) in *.
  destruct (Qlt_le_dec e s) as [C|C]; [exfalso|exact C].
  assert (0 <= (s - e) * (q * d)) by (repeat apply Qmult_le_0_compat; lra).
  assert (s * (1 + q * d) == s + s * (q * d)) as E1 by ring. rewrite E1 in B.
  assert ((s - e) * (q * d) == s * (q * d) - e * d * q) as E2 by ring. rewrite E2 in H0. lra.
Qed.

Section Adaptive.
Variables (n : nat) (lo hi : nat -> option Q) (f : vec -> Q) (g : vec -> vec) (L : Q).
Variables (norm : vec -> Q) (success failure tol : Q).
Hypothesis OKb : bounds_ok n lo hi.
Hypothesis Sm : smooth n lo hi f g L.
Hypothesis F0 : 0 < failure.
Hypothesis F1 : failure < 1.

Lemma short_step_accepted x a : within n lo hi x -> 0 < a -> a * L <= 2 -> f (trial (boxed lo hi) x (g x) a) <= f x.
Proof.
  intros W Ha HL. pose proof (@step_descends n lo hi OKb g a f L Ha Sm x W) as D. unfold gd_iterate in D. fold (trial (boxed lo hi) x (g x) a) in D.
  assert (0 <= 1 / a - L / 2).
  { apply Qmult_lt_0_le_reg_r with a; [exact Ha|]. setoid_replace ((1 / a - L / 2) * a) with (1 - (1 # 2) * (a * L)) by (field; lra). lra. }
  pose proof (sqd_nonneg n (trial (boxed lo hi) x (g x) a) x).
  assert (0 <= (1 / a - L / 2) * sqd n (trial (boxed lo hi) x (g x) a) x) by (apply Qmult_le_0_compat; lra). lra.
Qed.
Definition usable (s : astate) : Prop := within n lo hi (a_x s) /\ a_obj s = f (a_x s) /\ 0 < a_alpha s.
Let inner := adaptive_inner f (boxed lo hi) success failure.
(** what the inner loop returns, with enough fuel *)
Lemma inner_terminates : forall j s, usable s -> shrunk failure (a_alpha s) j * L <= 2 ->
  exists s' a, (forall fuel, (j < fuel)%nat -> inner fuel (g (a_x s)) s = Ok s') /\
    s' = AState (trial (boxed lo hi) (a_x s) (g (a_x s)) a) (a * success) (f (trial (boxed lo hi) (a_x s) (g (a_x s)) a)) /\
    0 < a /\ a <= a_alpha s /\ (a = a_alpha s \/ 2 * failure < a * L) /\ a_obj s' <= a_obj s.
Proof.
  induction j as [|j IH]; intros [x al o] (W & E & P) Hj; cbn [a_x a_obj a_alpha] in *.
  - subst o. pose proof (@short_step_accepted x al W P Hj) as A. fold (trial (boxed lo hi) x (g x) al) in *.
    eexists _, al. split; [|split; [reflexivity|]].
    + intros [|fuel] Hf; [lia|]. unfold inner. cbn [adaptive_inner a_x a_alpha a_obj]. fold (trial (boxed lo hi) x (g x) al).
      apply Qle_bool_iff in A. rewrite A. reflexivity.
    + cbn. repeat split; try lra; auto.
  - destruct (Qle_bool (f (trial (boxed lo hi) x (g x) al)) o) eqn:A.
    + eexists _, al. split; [|split; [reflexivity|]].
      * intros [|fuel] Hf; [lia|]. unfold inner. cbn [adaptive_inner a_x a_alpha a_obj]. fold (trial (boxed lo hi) x (g x) al). rewrite A. reflexivity.
      * apply Qle_bool_iff in A. cbn. repeat split; try lra; auto.
    + assert (Rj : 2 < al * L).
      { destruct (Qlt_le_dec 2 (al * L)) as [C|C]; [exact C|]. exfalso. pose proof (@short_step_accepted x al W P C) as B. subst o.
        apply Qle_bool_iff in B. congruence. }
      destruct (IH (AState x (al * failure) o)) as (s' & a & Hs & Es & Pa & La & Da & Oa).
      { split; [exact W|]. split; [exact E|]. cbn. nra. }
      { cbn [a_alpha]. assert (Eq : shrunk failure (al * failure) j = shrunk failure al (S j)).
        { clear. induction j as [|j IH]; [reflexivity|]. rewrite shrunk_S, IH. reflexivity. }
        rewrite Eq. exact Hj. }
      cbn [a_x a_alpha a_obj] in *. exists s', a. split; [|split; [exact Es|]].
      * intros [|fuel] Hf; [lia|]. unfold inner. cbn [adaptive_inner a_x a_alpha a_obj]. fold (trial (boxed lo hi) x (g x) al). rewrite A.
        apply Hs. lia.
      * assert (al * failure <= al) by nra. assert (2 * failure < al * failure * L).
        { setoid_replace (al * failure * L) with (al * L * failure) by ring. apply Qmult_lt_r; [exact F0|exact Rj]. }
        repeat split; try assumption; [lra|]. right. destruct Da as [->|Da]; assumption.
Qed.
Lemma enough s : 0 < a_alpha s -> exists j, shrunk failure (a_alpha s) j * L <= 2.
Proof.
  intros P. destruct (Qlt_le_dec 0 L) as [HL|HL].
  - destruct (@shrunk_small failure (a_alpha s) (2 / L) P F0 F1) as (j & Hj).
    { setoid_replace (2 / L) with (2 * / L) by reflexivity. apply Qmult_lt_0_compat; [lra|]. now apply Qinv_lt_0_compat. }
    exists j. apply (@Qmult_le_compat_r _ _ L) in Hj; [|lra]. setoid_replace (2 / L * L) with 2 in Hj by (field; lra). exact Hj.
  - exists 0%nat. cbn. nra.
Qed.
Theorem adaptive_iterate_terminates it s : usable s ->
  exists s' b fuel0, (forall fuel, (fuel0 <= fuel)%nat -> adaptive_iterate f g (boxed lo hi) norm success failure tol fuel it s = Ok (s', b)) /\
    (b = true -> s' = s) /\
    (b = false -> exists a, 0 < a /\ (a = a_alpha s \/ 2 * failure < a * L) /\ a_alpha s' = a * success /\
      a_x s' = trial (boxed lo hi) (a_x s) (g (a_x s)) a /\ a_obj s' = f (a_x s') /\ f (a_x s') <= f (a_x s)).
Proof.
  intros U. unfold adaptive_iterate. destruct (qlt (norm (g (a_x s))) tol).
  - exists s, true, 0%nat. split; [reflexivity|]. split; [reflexivity|discriminate].
  - destruct (@enough s) as (j & Hj); [apply U|]. destruct (@inner_terminates j s U Hj) as (s' & a & Hs & -> & Pa & La & Da & Oa).
    eexists _, false, (S j). split; [intros fuel Hf; fold inner; rewrite Hs by lia; reflexivity|]. split; [discriminate|].
    intros _. exists a. cbn [a_alpha a_x a_obj] in *. destruct U as (_ & E & _). rewrite E in Oa. repeat split; assumption.
Qed.

(** ** whole runs *)
Hypothesis Su : 1 <= success.
(** the step size never falls below both the first one and [2 * failure / L] *)
Definition long_enough (alpha0 : Q) (s : astate) : Prop := alpha0 <= a_alpha s \/ 2 * failure < a_alpha s * L.
Lemma iterate_usable it s : usable s ->
  exists s' b fuel0, (forall fuel, (fuel0 <= fuel)%nat -> adaptive_iterate f g (boxed lo hi) norm success failure tol fuel it s = Ok (s', b)) /\
    usable s' /\ (forall a0, long_enough a0 s -> long_enough a0 s').
Proof.
  intros U. destruct (@adaptive_iterate_terminates it s U) as (s' & b & F & Hf & Ht & Hb). exists s', b, F. split; [exact Hf|].
  destruct b; [rewrite (Ht eq_refl); now split|]. destruct (Hb eq_refl) as (a & Pa & Da & Ea & Ex & Eo & _).
  assert (a <= a * success) by nra. assert (0 < a * success) by nra. split.
  - split; [rewrite Ex; now apply boxed_within|]. split; [exact Eo|]. now rewrite Ea.
  - intros a0 [H1|H1]; unfold long_enough; rewrite Ea.
    + destruct Da as [->|Da]; [left; lra|]. right.
      assert (0 < L) by (destruct (Qlt_le_dec 0 L) as [C|C]; [exact C|exfalso; nra]).
      apply Qlt_le_trans with (a * L); [exact Da|]. apply Qmult_le_compat_r; lra.
    + assert (HL : 0 < L) by (destruct (Qlt_le_dec 0 L) as [C|C]; [exact C|exfalso; destruct U as (_ & _ & P); nra]).
      right. apply Qlt_le_trans with (a * L); [destruct Da as [->|Da]; assumption|]. apply Qmult_le_compat_r; lra.
Qed.
Lemma loop_terminates : forall k fuel stop (o : ostate astate) seen, usable (o_s o) -> (k < fuel)%nat ->
  truthy stop = Some (o_iters o + Z.of_nat (S k))%Z ->
  exists o' seen' ifuel0, (forall ifuel, (ifuel0 <= ifuel)%nat ->
    opt_loop (adaptive_iterate f g (boxed lo hi) norm success failure tol ifuel) fuel stop o seen = Ok (o', seen')) /\
    usable (o_s o') /\ (forall a0, long_enough a0 (o_s o) -> long_enough a0 (o_s o')).
Proof.
  induction k as [|k IH]; intros [|fuel] stop o seen U Hf Hs; try lia;
    destruct (@iterate_usable (o_iters o) (o_s o) U) as (s' & b & F & HF & U' & HL).
  - eexists (OState s' (o_iters o + 1) (o_max o)), _, F. split; [|split; [exact U'|exact HL]].
    intros ifuel Hi. cbn [opt_loop]. rewrite (HF ifuel Hi). cbn [bind fst snd]. rewrite Hs. cbn [o_iters].
    replace (Z.leb (o_iters o + Z.of_nat 1) (o_iters o + 1)) with true by (symmetry; apply Z.leb_le; lia). reflexivity.
  - destruct b.
    + eexists (OState s' (o_iters o + 1) (o_max o)), _, F. split; [|split; [exact U'|exact HL]].
      intros ifuel Hi. cbn [opt_loop]. rewrite (HF ifuel Hi). cbn [bind fst snd]. rewrite Hs. cbn [o_iters].
      destruct (Z.leb _ _); reflexivity.
    + destruct (IH fuel stop (OState s' (o_iters o + 1) (o_max o)) (seen ++ [s']) U' ltac:(lia)) as (o' & seen' & F2 & HF2 & U2 & HL2).
      { cbn [o_iters]. rewrite Hs. f_equal. lia. }
      exists o', seen', (max F F2). split; [|split; [exact U2|intros a0 Ha; apply HL2, HL, Ha]].
      intros ifuel Hi. cbn [opt_loop]. rewrite (HF ifuel ltac:(lia)). cbn [bind fst snd]. rewrite Hs. cbn [o_iters].
      replace (Z.leb (o_iters o + Z.of_nat (S (S k))) (o_iters o + 1)) with false by (symmetry; apply Z.leb_gt; lia).
      apply HF2. lia.
Qed.
Theorem adaptive_run_terminates k fuel x alpha : (0 < k <= fuel)%nat -> within n lo hi x -> 0 < alpha ->
  exists o' seen ifuel0, (forall ifuel, (ifuel0 <= ifuel)%nat ->
    optimize (adaptive_iterate f g (boxed lo hi) norm success failure tol ifuel) fuel (Some (Z.of_nat k))
      (OState (adaptive_init f x alpha) 0 None) = Ok (o', seen)) /\
    within n lo hi (a_x (o_s o')) /\ (alpha <= a_alpha (o_s o') \/ 2 * failure < a_alpha (o_s o') * L).
Proof.
  intros Hk W P. unfold optimize.
  destruct (@loop_terminates (k - 1) fuel (stop_iter (Some (Z.of_nat k)) (OState (adaptive_init f x alpha) 0 None))
    (OState (adaptive_init f x alpha) 0 None) []) as (o' & seen & F & HF & U & HL).
  - split; [exact W|]. split; [reflexivity|exact P].
  - lia.
  - unfold stop_iter. cbn [truthy o_max o_iters]. replace (Z.eqb (Z.of_nat k) 0) with false by (symmetry; apply Z.eqb_neq; lia).
    cbn [truthy]. replace (Z.eqb (0 + Z.of_nat k) 0) with false by (symmetry; apply Z.eqb_neq; lia). f_equal. lia.
  - exists o', seen, F. split; [exact HF|]. split; [apply U|]. apply (HL alpha). left. cbn. lra.
Qed.
End Adaptive.

(** ** normalized gradients: all steps have the same length *)
Section Normalized.
Variables (n : nat) (g : vec -> vec) (norm : vec -> Q) (alpha : Q).
Let free : nat -> option Q := fun _ => None.
Lemma normalized_length it x : ~ norm (g x) == 0 -> norm (g x) * norm (g x) == sumn n (fun i => g x i * g x i) ->
  sqd n (fst (gd_normalized g norm free free alpha it x)) x == alpha * alpha.
Proof.
  intros Hn E. unfold gd_normalized, gd_iterate, sqd, boxed. cbn [fst clip1].
  transitivity (sumn n (fun i => alpha * alpha / (norm (g x) * norm (g x)) * (g x i * g x i))).
  - apply sumn_ext. intros i _. unfold clip1, free. field. exact Hn.
  - rewrite sumn_scale, <- E. field. exact Hn.
Qed.
Lemma sqd_twice x y z : sqd n x y <= 2 * sqd n x z + 2 * sqd n y z.
Proof.
  assert (0 <= sumn n (fun i => (x i + y i - 2 * z i) * (x i + y i - 2 * z i))) by (apply sumn_nonneg; intros; apply sq_pos).
  assert (E : 2 * sqd n x z + 2 * sqd n y z - sqd n x y == sumn n (fun i => (x i + y i - 2 * z i) * (x i + y i - 2 * z i))).
  { unfold sqd. clear. induction n as [|m IH]; cbn [sumn]; [ring|]. rewrite <- IH. ring. }
  lra.
Qed.
Theorem normalized_stays_away it x z : ~ norm (g x) == 0 -> norm (g x) * norm (g x) == sumn n (fun i => g x i * g x i) ->
  alpha * alpha / 4 <= sqd n x z \/ alpha * alpha / 4 <= sqd n (fst (gd_normalized g norm free free alpha it x)) z.
Proof.
  intros Hn E. pose proof (@normalized_length it x Hn E) as H. pose proof (@sqd_twice (fst (gd_normalized g norm free free alpha it x)) x z) as T.
  rewrite H in T. destruct (Qlt_le_dec (sqd n x z) (alpha * alpha / 4)) as [C|C]; [|now left]. right.
  set (a := alpha * alpha) in *. setoid_replace (a / 4) with ((1 # 4) * a) in C by field. setoid_replace (a / 4) with ((1 # 4) * a) by field. lra.
Qed.
End Normalized.

(** ** the statements about the driver *)
Lemma nth_run (xs : nat -> vec) k j : (j <= k)%nat -> nth j (xs 0%nat :: map xs (seq 1 k)) (xs 0%nat) = xs j.
Proof.
  intros H. destruct j as [|j]; [reflexivity|]. cbn [nth]. rewrite map_nth, seq_nth by lia. reflexivity.
Qed.
Lemma descent_run_lemma : forall n lo hi f g L alpha x m fuel k,
  bounds_ok n lo hi -> smooth n lo hi f g L -> 0 < alpha -> alpha * L <= 2 -> within n lo hi x -> (0 <= m)%Z -> (0 < k <= fuel)%nat ->
  exists o' seen, optimize (total (gd_step g lo hi alpha)) fuel (Some (Z.of_nat k)) (OState x m None) = Ok (o', seen) /\
    length seen = k /\ o_s o' = last seen x /\ o_iters o' = (m + Z.of_nat k)%Z /\
    (forall y, In y seen -> within n lo hi y) /\
    (forall i j, (i <= j <= k)%nat -> f (nth j (x :: seen) x) <= f (nth i (x :: seen) x)) /\
    (1 / alpha - L / 2) * sumn k (fun j => sqd n (nth (S j) (x :: seen) x) (nth j (x :: seen) x)) <= f x - f (o_s o').
Proof.
  intros n lo hi f g L alpha x m fuel k O Sm A AL W Hm Hk.
  destruct (@gd_run g lo hi alpha x m fuel k Hm Hk) as (xs & X0 & XS & E). rewrite E. subst x.
  eexists _, _. split; [reflexivity|]. cbn [o_s o_iters]. split; [now rewrite map_length, seq_length|].
  split; [now rewrite last_map_seq by lia|]. split; [reflexivity|]. split; [|split].
  - intros y Hy. apply in_map_iff in Hy. destruct Hy as (j & <- & _). exact (@run_within n lo hi g alpha O xs W XS j).
  - intros i j Hij. rewrite !nth_run by lia. exact (@run_descends n lo hi f g alpha L O A Sm xs W XS i j AL (proj1 Hij)).
  - pose proof (@run_sum n lo hi f g alpha L O A Sm xs W XS k) as H.
    setoid_replace (sumn k (fun j => sqd n (nth (S j) (xs 0%nat :: map xs (seq 1 k)) (xs 0%nat)) (nth j (xs 0%nat :: map xs (seq 1 k)) (xs 0%nat))))
      with (sumn k (fun j => sqd n (xs (S j)) (xs j))); [exact H|].
    apply sumn_ext. intros j Hj. rewrite !nth_run by lia. reflexivity.
Qed.
Lemma descent_converges_lemma : forall n lo hi f g L mu alpha x m fuel k,
  bounds_ok n lo hi -> smooth n lo hi f g L -> convex n lo hi f g mu -> 0 <= mu -> 0 < alpha -> alpha * L <= 1 ->
  within n lo hi x -> (0 <= m)%Z -> (0 < k <= fuel)%nat ->
  exists o' seen, optimize (total (gd_step g lo hi alpha)) fuel (Some (Z.of_nat k)) (OState x m None) = Ok (o', seen) /\
    (forall y, within n lo hi y -> f (o_s o') - f y <= sqd n x y / (2 * alpha * inject_Z (Z.of_nat k))) /\
    (forall y, alpha * mu <= 1 -> minimum n lo hi f y -> sqd n (o_s o') y <= qpower (1 - alpha * mu) k * sqd n x y).
Proof.
  intros n lo hi f g L mu alpha x m fuel k O Sm Cv Mu A AL W Hm Hk.
  destruct (@gd_run g lo hi alpha x m fuel k Hm Hk) as (xs & X0 & XS & E). rewrite E. subst x.
  eexists _, _. split; [reflexivity|]. cbn [o_s]. split.
  - intros y Wy. pose proof (@run_rate n lo hi f g alpha L O A Sm xs W XS mu Cv k y Mu AL Wy) as H.
    pose proof (sqd_nonneg n (xs k) y).
    assert (K : 0 < inject_Z (Z.of_nat k)) by (change 0 with (inject_Z 0); rewrite <- Zlt_Qlt; lia).
    set (q := inject_Z (Z.of_nat k)) in *. assert (P : 0 < 2 * alpha * q) by (repeat apply Qmult_lt_0_compat; lra).
    set (w := 2 * alpha * q) in *. apply Qmult_lt_0_le_reg_r with w; [exact P|].
    setoid_replace (sqd n (xs 0%nat) y / w * w) with (sqd n (xs 0%nat) y) by (field; lra). lra.
  - intros y AM My. exact (@run_contracts n lo hi f g alpha L O A Sm xs W XS mu Cv k y AL AM My).
Qed.
Lemma large_step :
  exists f g alpha, smooth 1 (fun _ => None) (fun _ => None) f g 2 /\ convex 1 (fun _ => None) (fun _ => None) f g 2 /\ 0 < alpha /\
  forall k, (0 < k)%nat -> exists o' seen,
    optimize (total (gd_step g (fun _ => None) (fun _ => None) alpha)) k (Some (Z.of_nat k)) (OState (fun _ => 1) 0 None) = Ok (o', seen) /\
    f (o_s o') == qpower 4 k.
Proof.
  exists (fun x => x 0%nat * x 0%nat), (fun x _ => 2 * x 0%nat), (3 # 2).
  split; [|split; [|split; [reflexivity|]]].
  - intros x y _ _. unfold slope, sqd. cbn [sumn]. apply Qle_lteq. right. field.
  - intros x y _ _. unfold slope, sqd. cbn [sumn]. apply Qle_lteq. right. field.
  - intros k Hk. destruct (@gd_run (fun x _ => 2 * x 0%nat) (fun _ => None) (fun _ => None) (3 # 2) (fun _ => 1) 0%Z k k ltac:(lia) ltac:(lia)) as (xs & X0 & XS & E).
    eexists _, _. split; [exact E|]. cbn [o_s]. clear E Hk. induction k as [|k IH]; [now rewrite X0|].
    rewrite XS. unfold gd_iterate, boxed, clip1. cbn [qpower]. rewrite <- IH. ring.
Qed.
Lemma adaptive_ends : forall n lo hi f g L norm success failure tol it x alpha,
  bounds_ok n lo hi -> smooth n lo hi f g L -> 0 < failure -> failure < 1 -> within n lo hi x -> 0 < alpha ->
  exists s' b fuel0, (forall fuel, (fuel0 <= fuel)%nat ->
      adaptive_iterate f g (boxed lo hi) norm success failure tol fuel it (AState x alpha (f x)) = Ok (s', b)) /\
    (b = true -> s' = AState x alpha (f x)) /\
    (b = false -> exists a, 0 < a /\ (a = alpha \/ 2 * failure < a * L) /\ a_alpha s' = a * success /\
      a_x s' = trial (boxed lo hi) x (g x) a /\ a_obj s' = f (a_x s') /\ f (a_x s') <= f x).
Proof.
  intros n lo hi f g L norm success failure tol it x alpha O Sm F0 F1 W A.
  exact (@adaptive_iterate_terminates n lo hi f g L norm success failure tol O Sm F0 F1 it (AState x alpha (f x)) (conj W (conj eq_refl A))).
Qed.
Lemma boxed_projects : forall v lo hi, length (snd lo) = length v -> length (snd hi) = length v ->
  exists v', project (Direct v lo hi) = Ok (Direct v' lo hi) /\ length v' = length v /\
    forall i, (i < length v)%nat -> qn v' i = boxed (fun i => nth i (snd lo) None) (fun i => nth i (snd hi) None) (qn v) i.
Proof.
  intros v lo hi L1 L2. cbn [project]. unfold clip, bcast_len. rewrite L1, Nat.eqb_refl. cbn [bind]. rewrite L2, Nat.eqb_refl. cbn [bind].
  eexists. split; [reflexivity|]. split; [now rewrite map_length, seq_length|]. intros i Hi. unfold qn at 1.
  rewrite (@nth_indep _ _ _ _ (clip1 (bcast_nth v 0 0) (bcast_nth (snd lo) None 0) (bcast_nth (snd hi) None 0))) by (rewrite map_length, seq_length; lia).
  rewrite (map_nth (fun i => clip1 (bcast_nth v 0 i) (bcast_nth (snd lo) None i) (bcast_nth (snd hi) None i))), seq_nth by lia.
  unfold boxed, bcast_nth, qn. rewrite L1, L2. cbn [Nat.add]. destruct (Nat.eqb (length v) 1) eqn:E; [|reflexivity].
  apply Nat.eqb_eq in E. replace i with 0%nat by lia. reflexivity.
Qed.
