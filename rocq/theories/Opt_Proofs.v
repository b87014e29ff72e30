(** Lemmas about optimizer loops. *)
From Verif Require Import Base QTac Opt_Model Opt_Spec.
From Coq Require Import ZArith Qabs Setoid.
Set Implicit Arguments.

(** *** GradientOptimizer.optimize *)
Section L.
Variable S : Type.
Variable it : Z -> S -> S * bool.
Lemma truthy_spec o : match truthy o with Some z => o = Some z /\ z <> 0%Z | None => o = None \/ o = Some 0%Z end.
Proof. unfold truthy. destruct o as [z|]; auto. destruct (Z.eqb_spec z 0); subst; auto. Qed.
Lemma after_shift n s k : after it (n + 1) (fst (it n s)) k = after it n s (Datatypes.S k).
Proof.
  induction k as [|k IH]; [simpl; now rewrite Z.add_0_r|]. cbn [after] in *. rewrite IH. f_equal. f_equal. lia.
Qed.
Lemma ends_shift stop n s k : ends it stop (n + 1) (fst (it n s)) (Datatypes.S k) <-> ends it stop n s (Datatypes.S (Datatypes.S k)).
Proof.
  unfold ends. assert (E : asks it (n + 1) (fst (it n s)) (Datatypes.S k) = asks it n s (Datatypes.S (Datatypes.S k))).
  { cbn [asks]. rewrite after_shift. f_equal. f_equal. lia. }
  rewrite E. assert (H : forall m, (m <= n + 1 + Z.of_nat (Datatypes.S k))%Z <-> (m <= n + Z.of_nat (Datatypes.S (Datatypes.S k)))%Z) by (intros; lia).
  setoid_rewrite H. tauto.
Qed.
Lemma loop_char : forall fuel stop (o : ostate S) seen,
  match opt_loop (total it) fuel stop o seen with
  | Ok (o', seen') => exists k, (1 <= k <= fuel)%nat /\ ends it stop (o_iters o) (o_s o) k /\
      (forall j, (1 <= j < k)%nat -> ~ ends it stop (o_iters o) (o_s o) j) /\
      o' = OState (after it (o_iters o) (o_s o) k) (o_iters o + Z.of_nat k) (o_max o) /\
      seen' = seen ++ map (after it (o_iters o) (o_s o)) (seq 1 k)
  | Err e => e = OutOfFuel /\ forall j, (1 <= j <= fuel)%nat -> ~ ends it stop (o_iters o) (o_s o) j
  end.
Proof.
  induction fuel as [|fuel IH]; intros stop o seen; [cbn; split; [reflexivity|intros; lia]|].
  cbn [opt_loop]. unfold total at 1. cbn [bind].
  set (n := o_iters o). set (s := o_s o). set (o1 := OState (fst (it n s)) (n + 1) (o_max o)).
  set (b := match truthy stop with Some m => Z.leb m (o_iters o1) | None => false end).
  assert (Hb : ends it stop n s 1 <-> b = true \/ snd (it n s) = true).
  { unfold ends, b. cbn [asks after]. rewrite Z.add_0_r. pose proof (truthy_spec stop) as T. cbn [o_iters o1].
    destruct (truthy stop) as [m|].
    - destruct T as [-> Hm]. split.
      + intros [(m' & [= <-] & _ & H)|H]; [left; apply Z.leb_le; lia|now right].
      + intros [H|H]; [left; exists m; apply Z.leb_le in H; repeat split; auto; lia|now right].
    - split; [|intros [H|H]; [discriminate|now right]]. intros [(m' & E & H1 & H2)|H]; [|now right]. destruct T as [->| ->]; congruence. }
  assert (Hdone : b = true \/ snd (it n s) = true -> exists k, (1 <= k <= Datatypes.S fuel)%nat /\ ends it stop n s k /\
     (forall j, (1 <= j < k)%nat -> ~ ends it stop n s j) /\ o1 = OState (after it n s k) (n + Z.of_nat k) (o_max o) /\
     seen ++ [fst (it n s)] = seen ++ map (after it n s) (seq 1 k)).
  { intros H. exists 1%nat. split; [lia|]. split; [now apply Hb|]. split; [intros; lia|]. split.
    - unfold o1. cbn [after]. rewrite Z.add_0_r. reflexivity.
    - cbn [seq map after]. now rewrite Z.add_0_r. }
  destruct b eqn:Eb; [apply Hdone; now left|]. destruct (snd (it n s)) eqn:Ef; [apply Hdone; now right|].
  assert (H1 : ~ ends it stop n s 1) by (rewrite Hb; intros [|]; discriminate).
  specialize (IH stop o1 (seen ++ [fst (it n s)])). cbn [o_iters o_s o1 o_max] in IH. fold n s in IH. fold o1.
  destruct (opt_loop (total it) fuel stop o1 (seen ++ [fst (it n s)])) as [[o' seen']|e].
  - destruct IH as (k & Hk & He & Hn & Eo & Es). exists (Datatypes.S k). split; [lia|]. destruct k as [|k]; [lia|].
    split; [now apply ends_shift|]. split; [|split].
    + intros j Hj. destruct j as [|[|j]]; [lia|exact H1|]. rewrite <- ends_shift. apply Hn. lia.
    + rewrite Eo. rewrite after_shift. f_equal. lia.
    + rewrite Es. rewrite <- app_assoc. f_equal. change (seq 1 (Datatypes.S (Datatypes.S k))) with (1%nat :: seq 2 (Datatypes.S k)).
      rewrite map_cons. cbn [app]. f_equal; [cbn [after]; now rewrite Z.add_0_r|].
      rewrite <- (seq_shift (Datatypes.S k) 1), map_map. apply map_ext. intros a. apply after_shift.
  - destruct IH as [-> Hn]. split; [reflexivity|]. intros j Hj. destruct j as [|[|j]]; [lia|exact H1|].
    rewrite <- ends_shift. apply Hn. lia.
Qed.
Lemma optimize_char : forall fuel iters (o : ostate S),
  match optimize (total it) fuel iters o with
  | Ok (o', seen) => exists k, (1 <= k <= fuel)%nat /\ ends it (stop_iter iters o) (o_iters o) (o_s o) k /\
      (forall j, (1 <= j < k)%nat -> ~ ends it (stop_iter iters o) (o_iters o) (o_s o) j) /\
      o' = OState (after it (o_iters o) (o_s o) k) (o_iters o + Z.of_nat k) (o_max o) /\
      seen = map (after it (o_iters o) (o_s o)) (seq 1 k)
  | Err e => e = OutOfFuel /\ forall j, (1 <= j <= fuel)%nat -> ~ ends it (stop_iter iters o) (o_iters o) (o_s o) j
  end.
Proof. intros. apply (loop_char fuel (stop_iter iters o) o []). Qed.
Lemma stop_iter_some n (o : ostate S) : (0 < n)%Z -> (0 <= o_iters o)%Z ->
  exists m, stop_iter (Some n) o = Some m /\ m <> 0%Z /\ (m <= o_iters o + n)%Z /\ (forall b, o_max o = Some b -> b <> 0%Z -> (m <= b)%Z) /\
  (o_max o = None \/ o_max o = Some 0%Z -> m = o_iters o + n)%Z.
Proof.
  intros Hn Ho. unfold stop_iter. assert (E : truthy (Some n) = Some n) by (unfold truthy; destruct (Z.eqb_spec n 0); [lia|reflexivity]). rewrite E.
  pose proof (truthy_spec (o_max o)) as T. destruct (truthy (o_max o)) as [b|].
  - destruct T as [T1 T2]. eexists. split; [reflexivity|]. split; [lia|]. split; [lia|]. split; [|intros [|]; congruence].
    intros b' E' Hb'. rewrite T1 in E'. injection E' as <-. lia.
  - eexists. split; [reflexivity|]. split; [lia|]. split; [lia|]. split; [|auto].
    intros b E' Hb'. destruct T as [T|T]; rewrite E' in T; [discriminate|]. injection T as ->. lia.
Qed.
Lemma optimize_limit_lemma n (o : ostate S) fuel : (0 < n)%Z -> (0 <= o_iters o)%Z -> (Z.to_nat n <= fuel)%nat ->
  exists o' seen, optimize (total it) fuel (Some n) o = Ok (o', seen) /\
    (1 <= length seen)%nat /\ (Z.of_nat (length seen) <= n)%Z /\
    (forall m, o_max o = Some m -> m <> 0%Z -> (Z.of_nat (length seen) <= Z.max 1 (m - o_iters o))%Z) /\
    o_iters o' = (o_iters o + Z.of_nat (length seen))%Z.
Proof.
  intros Hn Ho Hf. pose proof (optimize_char fuel (Some n) o) as H.
  destruct (stop_iter_some o Hn Ho) as (m & Es & Hm0 & Hm & Hmax & _). rewrite Es in H.
  assert (En : forall j, (m <= o_iters o + Z.of_nat j)%Z -> ends it (Some m) (o_iters o) (o_s o) j) by (intros j Hj; left; exists m; auto).
  destruct (optimize (total it) fuel (Some n) o) as [[o' seen]|e].
  - destruct H as (k & Hk & He & Hnk & Eo & Esn). exists o', seen. split; [reflexivity|].
    assert (Lk : length seen = k) by (rewrite Esn, map_length, seq_length; reflexivity). rewrite Lk.
    assert (Le : forall j, (1 <= j)%nat -> (m <= o_iters o + Z.of_nat j)%Z -> (k <= j)%nat).
    { intros j Hj Hmj. destruct (Nat.le_gt_cases k j) as [|Hgt]; [assumption|]. exfalso. apply (Hnk j ltac:(lia)). now apply En. }
    split; [lia|]. split; [|split].
    + pose proof (Le (Z.to_nat n) ltac:(lia) ltac:(lia)). lia.
    + intros b Eb Hb. specialize (Hmax b Eb Hb). pose proof (Le (Z.to_nat (Z.max 1 (b - o_iters o))) ltac:(lia) ltac:(lia)). lia.
    + rewrite Eo. reflexivity.
  - destruct H as [_ Hno]. exfalso. apply (Hno (Z.to_nat n)); [lia|]. apply En. lia.
Qed.
Lemma after_add n s a b : after it n s (a + b) = after it (n + Z.of_nat a) (after it n s a) b.
Proof.
  induction b as [|b IH]; [now rewrite Nat.add_0_r|]. rewrite Nat.add_succ_r. cbn [after]. rewrite IH. f_equal. f_equal. lia.
Qed.
(** without early stopping, the number of iterations is exactly the requested one *)
Lemma optimize_exact n (o : ostate S) fuel : (0 < n)%Z -> (0 <= o_iters o)%Z -> (Z.to_nat n <= fuel)%nat ->
  o_max o = None \/ o_max o = Some 0%Z -> (forall k, asks it (o_iters o) (o_s o) k = false) ->
  optimize (total it) fuel (Some n) o =
    Ok (OState (after it (o_iters o) (o_s o) (Z.to_nat n)) (o_iters o + n) (o_max o), map (after it (o_iters o) (o_s o)) (seq 1 (Z.to_nat n))).
Proof.
  intros Hn Ho Hf Hmax Ha. pose proof (optimize_char fuel (Some n) o) as H.
  destruct (stop_iter_some o Hn Ho) as (m & Es & Hm0 & Hm & _ & Hex). specialize (Hex Hmax). rewrite Es in H.
  assert (En : forall j, ends it (Some m) (o_iters o) (o_s o) j <-> (n <= Z.of_nat j)%Z).
  { intros j. unfold ends. rewrite Ha. split; [intros [(m' & [= <-] & _ & H')|H']; [lia|discriminate]|]. intros Hj. left. exists m. repeat split; auto; lia. }
  destruct (optimize (total it) fuel (Some n) o) as [[o' seen]|e].
  - destruct H as (k & Hk & He & Hnk & Eo & Esn). apply En in He.
    assert (k = Z.to_nat n). { destruct (Nat.eq_dec k (Z.to_nat n)) as [|Hne]; [assumption|]. exfalso. apply (Hnk (Z.to_nat n)); [lia|]. apply En. lia. }
    subst k. rewrite Eo, Esn. rewrite Z2Nat.id by lia. reflexivity.
  - destruct H as [_ Hno]. exfalso. apply (Hno (Z.to_nat n)); [lia|]. apply En. lia.
Qed.
Lemma asks_add n s a b : asks it (n + Z.of_nat a) (after it n s a) b = true -> asks it n s (a + b) = true.
Proof.
  destruct b as [|b]; [discriminate|]. rewrite Nat.add_succ_r. cbn [asks]. rewrite <- after_add. intros H. rewrite <- H. f_equal. f_equal. lia.
Qed.
Lemma optimize_split_lemma a b (o : ostate S) fuel : (0 < a)%Z -> (0 < b)%Z -> (0 <= o_iters o)%Z -> (Z.to_nat (a + b) <= fuel)%nat ->
  o_max o = None \/ o_max o = Some 0%Z -> (forall k, asks it (o_iters o) (o_s o) k = false) ->
  exists o1 s1 o2 s2, optimize (total it) fuel (Some a) o = Ok (o1, s1) /\ optimize (total it) fuel (Some b) o1 = Ok (o2, s2) /\
    optimize (total it) fuel (Some (a + b)%Z) o = Ok (o2, s1 ++ s2).
Proof.
  intros Ha Hb Ho Hf Hmax Hq. rewrite (@optimize_exact a o fuel) by (auto; lia). rewrite (@optimize_exact (a + b) o fuel) by (auto; lia).
  eexists _, _, _, _. split; [reflexivity|].
  set (o1 := OState _ _ _). assert (Q1 : forall k, asks it (o_iters o1) (o_s o1) k = false).
  { intros k. destruct (asks it (o_iters o1) (o_s o1) k) eqn:E; [|reflexivity]. unfold o1 in E. cbn [o_iters o_s] in E.
    rewrite <- (Z2Nat.id a) in E at 1 by lia. apply asks_add in E. now rewrite Hq in E. }
  split; [apply (@optimize_exact b o1 fuel); auto; unfold o1; cbn [o_iters]; lia|].
  assert (Eaft : forall k, after it (o_iters o + a) (after it (o_iters o) (o_s o) (Z.to_nat a)) k = after it (o_iters o) (o_s o) (Z.to_nat a + k)).
  { intros k. rewrite after_add. now rewrite Z2Nat.id by lia. }
  f_equal. unfold o1. cbn [o_iters o_s o_max]. rewrite Eaft. rewrite <- Z2Nat.inj_add by lia.
  f_equal.
  - f_equal. lia.
  - rewrite (Z2Nat.inj_add a b) by lia. rewrite seq_app, map_app. f_equal.
    assert (E : forall k, map (after it (o_iters o) (o_s o)) (seq (1 + Z.to_nat a) k) = map (after it (o_iters o + a) (after it (o_iters o) (o_s o) (Z.to_nat a))) (seq 1 k)).
    { intros k. rewrite Nat.add_comm. assert (G : forall st, seq (Z.to_nat a + st) k = map (fun i => (Z.to_nat a + i)%nat) (seq st k)).
      { clear. induction k as [|k IH]; intros st; [reflexivity|]. cbn [seq map]. f_equal. rewrite <- IH. f_equal. lia. }
      rewrite G, map_map. apply map_ext. intros i. rewrite after_add. rewrite Z2Nat.id by lia. reflexivity. }
    apply E.
Qed.
End L.
