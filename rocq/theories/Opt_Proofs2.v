(** Lemmas about adaptive descent and moment estimates. *)
From Verif Require Import Base QTac Opt_Model Opt_Spec Opt_Proofs.
From Coq Require Import ZArith Qabs Setoid.
Set Implicit Arguments.

(** *** AdaptiveGradientDescent *)
Section Adaptive.
Variables (f : vec -> Q) (grad proj : vec -> vec) (norm : vec -> Q) (success failure tol : Q).
Notation inner := (adaptive_inner f proj success failure).
Notation iter := (adaptive_iterate f grad proj norm success failure tol).
Lemma shrunk_S a j : shrunk failure (a * failure) j = shrunk failure a (S j).
Proof.
  unfold shrunk. change (Nat.iter (S j) (fun a => a * failure) a) with (Nat.iter j (fun a => a * failure) a * failure).
  induction j as [|j IH]; [reflexivity|].
  change (Nat.iter j (fun a => a * failure) (a * failure) * failure = Nat.iter (S j) (fun a => a * failure) a * failure). rewrite IH. reflexivity.
Qed.
Lemma inner_char : forall fuel g s,
  match inner fuel g s with
  | Ok s' => exists j, (j < fuel)%nat /\ (forall i, (i < j)%nat -> a_obj s < f (trial proj (a_x s) g (shrunk failure (a_alpha s) i))) /\
      a_x s' = trial proj (a_x s) g (shrunk failure (a_alpha s) j) /\ a_alpha s' = shrunk failure (a_alpha s) j * success /\
      a_obj s' = f (a_x s') /\ a_obj s' <= a_obj s
  | Err e => e = OutOfFuel /\ forall i, (i < fuel)%nat -> a_obj s < f (trial proj (a_x s) g (shrunk failure (a_alpha s) i))
  end.
Proof.
  induction fuel as [|fuel IH]; intros g s; cbn [adaptive_inner]; [split; [reflexivity|intros; lia]|].
  fold (trial proj (a_x s) g (a_alpha s)). set (v := f (trial proj (a_x s) g (a_alpha s))).
  destruct (Qle_bool v (a_obj s)) eqn:E.
  - apply Qle_bool_iff in E. exists 0%nat. split; [lia|]. split; [intros; lia|]. cbn [a_x a_alpha a_obj shrunk Nat.iter nat_rect]. auto.
  - apply Qle_bool_false in E. specialize (IH g (AState (a_x s) (a_alpha s * failure) (a_obj s))). cbn [a_x a_alpha a_obj] in IH.
    assert (Hs : forall P : nat -> Prop, P 0%nat -> forall n, (forall i, (i < n)%nat -> P (S i)) -> forall i, (i < S n)%nat -> P i).
    { intros P H0 n HS i Hi. destruct i as [|i]; [exact H0|]. apply HS. lia. }
    destruct (inner fuel g (AState (a_x s) (a_alpha s * failure) (a_obj s))) as [s'|e].
    + destruct IH as (j & Hj & Hr & Ex & Ea & Eo & Hle). exists (S j). split; [lia|]. rewrite <- shrunk_S. split; [|auto].
      apply Hs; [exact E|]. intros i Hi. rewrite <- shrunk_S. now apply Hr.
    + destruct IH as [-> Hr]. split; [reflexivity|]. apply Hs; [exact E|]. intros i Hi. rewrite <- shrunk_S. now apply Hr.
Qed.
Lemma iterate_char fuel n s :
  match iter fuel n s with
  | Ok (s', true) => norm (grad (a_x s)) < tol /\ s' = s
  | Ok (s', false) => tol <= norm (grad (a_x s)) /\ exists j, (j < fuel)%nat /\
      (forall i, (i < j)%nat -> a_obj s < f (trial proj (a_x s) (grad (a_x s)) (shrunk failure (a_alpha s) i))) /\
      a_x s' = trial proj (a_x s) (grad (a_x s)) (shrunk failure (a_alpha s) j) /\ a_alpha s' = shrunk failure (a_alpha s) j * success /\
      a_obj s' = f (a_x s') /\ a_obj s' <= a_obj s
  | Err e => e = OutOfFuel /\ tol <= norm (grad (a_x s)) /\
      forall i, (i < fuel)%nat -> a_obj s < f (trial proj (a_x s) (grad (a_x s)) (shrunk failure (a_alpha s) i))
  end.
Proof.
  unfold adaptive_iterate. destruct (qlt (norm (grad (a_x s))) tol) eqn:E; qhyps; [auto|].
  pose proof (inner_char fuel (grad (a_x s)) s) as H. destruct (inner fuel (grad (a_x s)) s) as [s'|e]; cbn [bind]; [auto|].
  destruct H as [H1 H2]. auto.
Qed.
Lemma descending_snoc l s d : descending f l -> (1 <= length l)%nat -> f (a_x s) <= f (a_x (nth (length l - 1) l d)) -> descending f (l ++ [s]).
Proof.
  intros H Hl Hs i j d' Hij. rewrite app_length in Hij. simpl in Hij. destruct (Nat.eq_dec j (length l)) as [->|Hj].
  - assert (E : nth (length l) (l ++ [s]) d' = s) by (rewrite app_nth2 by lia; now rewrite Nat.sub_diag). rewrite E.
    destruct (Nat.eq_dec i (length l)) as [->|Hi]; [rewrite E; apply Qle_refl|].
    rewrite app_nth1 by lia. eapply Qle_trans; [exact Hs|]. rewrite (nth_indep l d d') by lia. apply H. lia.
  - rewrite !app_nth1 by lia. apply H. lia.
Qed.
Lemma adaptive_loop ifuel s0 : forall fuel stop (o : ostate astate) seen o' seen',
  opt_loop (iter ifuel) fuel stop o seen = Ok (o', seen') ->
  a_obj (o_s o) = f (a_x (o_s o)) -> descending f (s0 :: seen) -> o_s o = last seen s0 ->
  (forall s, In s seen -> a_obj s = f (a_x s) /\ (a_x s = a_x s0 \/ exists y, a_x s = proj y)) ->
  a_obj (o_s o') = f (a_x (o_s o')) /\ descending f (s0 :: seen') /\ o_s o' = last seen' s0 /\
  (forall s, In s seen' -> a_obj s = f (a_x s) /\ (a_x s = a_x s0 \/ exists y, a_x s = proj y)).
Proof.
  induction fuel as [|fuel IH]; intros stop o seen o' seen' E Ho Hd Hlast Hin; [discriminate|]. cbn [opt_loop] in E.
  pose proof (iterate_char ifuel (o_iters o) (o_s o)) as Hi.
  destruct (iter ifuel (o_iters o) (o_s o)) as [[s' flag]|e]; [|discriminate]. cbn [bind fst snd] in E.
  assert (Hs' : a_obj s' = f (a_x s') /\ f (a_x s') <= f (a_x (o_s o)) /\ (a_x s' = a_x (o_s o) \/ exists y, a_x s' = proj y)).
  { destruct flag.
    - destruct Hi as [_ ->]. split; [exact Ho|]. split; [apply Qle_refl|now left].
    - destruct Hi as (_ & j & _ & _ & Ex & _ & Eo & Hle). rewrite <- Eo. rewrite <- Ho. split; [reflexivity|]. split; [exact Hle|]. right. eexists. exact Ex. }
  destruct Hs' as (H1 & H2 & H3).
  assert (Hprev : nth (length (s0 :: seen) - 1) (s0 :: seen) s0 = o_s o).
  { rewrite Hlast. cbn [length]. rewrite Nat.sub_succ, Nat.sub_0_r. clear. destruct seen as [|x l] using rev_ind; [reflexivity|].
    rewrite last_last, app_length. cbn [length]. replace (length l + 1)%nat with (S (length l)) by lia. cbn [nth]. rewrite app_nth2 by lia. now rewrite Nat.sub_diag. }
  assert (D : descending f (s0 :: (seen ++ [s']))).
  { change (s0 :: (seen ++ [s'])) with ((s0 :: seen) ++ [s']). apply descending_snoc with (d := s0); [exact Hd|simpl; lia|]. rewrite Hprev. exact H2. }
  assert (I : forall s, In s (seen ++ [s']) -> a_obj s = f (a_x s) /\ (a_x s = a_x s0 \/ exists y, a_x s = proj y)).
  { intros s Hs. apply in_app_iff in Hs. destruct Hs as [Hs|[<-|[]]]; [now apply Hin|]. split; [exact H1|].
    destruct H3 as [H3|H3]; [|now right]. rewrite H3, Hlast. destruct seen as [|x l] using rev_ind; [now left|].
    rewrite last_last. apply (Hin x). apply in_app_iff. right. now left. }
  assert (L : last (seen ++ [s']) s0 = s') by apply last_last.
  destruct (match truthy stop with Some m => Z.leb m (o_iters (OState s' (o_iters o + 1) (o_max o))) | None => false end).
  { injection E as <- <-. cbn [o_s]. auto. }
  destruct flag; [injection E as <- <-; cbn [o_s]; auto|].
  apply IH in E; auto.
Qed.
Lemma adaptive_run_lemma ifuel fuel iters x alpha n m o' seen :
  optimize (iter ifuel) fuel iters (OState (adaptive_init f x alpha) n m) = Ok (o', seen) ->
  descending f (adaptive_init f x alpha :: seen) /\ o_s o' = last seen (adaptive_init f x alpha) /\
  a_obj (o_s o') = f (a_x (o_s o')) /\ f (a_x (o_s o')) <= f x /\
  (forall s, In s seen -> a_obj s = f (a_x s) /\ (a_x s = x \/ exists y, a_x s = proj y)).
Proof.
  intros E. unfold optimize in E. apply (@adaptive_loop ifuel (adaptive_init f x alpha)) in E.
  - destruct E as (H1 & H2 & H3 & H4). split; [exact H2|]. split; [exact H3|]. split; [exact H1|]. split; [|exact H4].
    rewrite H3. set (s0 := adaptive_init f x alpha) in *. specialize (H2 0%nat (length seen) s0 ltac:(simpl; lia)). cbn [nth] in H2.
    change (f x) with (f (a_x s0)). destruct seen as [|y l] using rev_ind; [apply Qle_refl|]. rewrite last_last.
    rewrite app_length in H2. cbn [length] in H2. replace (length l + 1)%nat with (S (length l)) in H2 by lia. cbn [nth] in H2. rewrite app_nth2 in H2 by lia. now rewrite Nat.sub_diag in H2.
  - reflexivity.
  - intros i j d Hij. simpl in Hij. assert (i = 0%nat) as -> by lia. assert (j = 0%nat) as -> by lia. apply Qle_refl.
  - reflexivity.
  - intros s [].
Qed.
End Adaptive.

(** *** moments *)
Lemma qpower_pos b k : 0 <= b -> 0 <= qpower b k.
Proof. intros H. induction k as [|k IH]; cbn [qpower]; [lra|]. nra. Qed.
Lemma qpower_lt1 b k : 0 <= b -> b < 1 -> (1 <= k)%nat -> qpower b k < 1.
Proof.
  intros H0 H1 Hk. destruct k as [|k]; [lia|]. clear Hk. induction k as [|k IH]; [cbn [qpower]; lra|].
  cbn [qpower] in *. pose proof (@qpower_pos b k H0). nra.
Qed.
Lemma decayed_S b h k : decayed b h (S k) == b * decayed b h k + h k.
Proof.
  unfold decayed. cbn [sumn]. replace (S k - 1 - k)%nat with 0%nat by lia. cbn [qpower].
  assert (E : sumn k (fun j => qpower b (S k - 1 - j) * h j) == b * sumn k (fun j => qpower b (k - 1 - j) * h j)).
  { rewrite <- sumn_scale. apply sumn_ext. intros j Hj. replace (S k - 1 - j)%nat with (S (k - 1 - j)) by lia. cbn [qpower]. ring. }
  rewrite E. ring.
Qed.
Lemma decayed_const b c k : (1 - b) * decayed b (fun _ => c) k == (1 - qpower b k) * c.
Proof.
  induction k as [|k IH]; [unfold decayed; cbn [sumn qpower]; ring|]. rewrite decayed_S. cbn [qpower].
  setoid_replace ((1 - b) * (b * decayed b (fun _ => c) k + c)) with (b * ((1 - b) * decayed b (fun _ => c) k) + (1 - b) * c) by ring.
  rewrite IH. ring.
Qed.
Lemma decayed_le b g h k : 0 <= b -> (forall j, (j < k)%nat -> g j <= h j) -> decayed b g k <= decayed b h k.
Proof.
  intros Hb H. unfold decayed. apply sumn_le. intros j Hj. specialize (H j Hj). pose proof (@qpower_pos b (k - 1 - j) Hb). nra.
Qed.
(** a corrected estimate is a weighted average of the history *)
Lemma corrected_bounds b h k lo hi m : 0 <= b -> b < 1 -> (1 <= k)%nat -> (forall j, (j < k)%nat -> lo <= h j <= hi) ->
  m == (1 - b) * decayed b h k -> lo <= m / (1 - qpower b k) <= hi.
Proof.
  intros H0 H1 Hk Hh Em. pose proof (@qpower_lt1 b k H0 H1 Hk) as Hp. set (D := 1 - qpower b k) in *. assert (HD : 0 < D) by (unfold D; lra).
  assert (L : (1 - b) * decayed b (fun _ => lo) k <= m).
  { rewrite Em. assert (decayed b (fun _ => lo) k <= decayed b h k) by (apply decayed_le; [auto|intros j Hj; apply Hh; auto]). nra. }
  assert (U : m <= (1 - b) * decayed b (fun _ => hi) k).
  { rewrite Em. assert (decayed b h k <= decayed b (fun _ => hi) k) by (apply decayed_le; [auto|intros j Hj; apply Hh; auto]). nra. }
  rewrite decayed_const in L, U. fold D in L, U. split.
  - apply Qle_shift_div_l; [exact HD|]. lra.
  - apply Qle_shift_div_r; [exact HD|]. lra.
Qed.

Section Moments.
Variables (grad proj : vec -> vec) (sqrt : Q -> Q) (alpha eps : Q).
Lemma adam_moments b1 b2 x k i :
  let s j := after (adam_iterate grad proj sqrt alpha eps b1 b2) 0 (moments_init x) j in
  m_g (s k) i == (1 - b1) * decayed b1 (fun j => grad (m_x (s j)) i) k /\
  m_v (s k) i == (1 - b2) * decayed b2 (fun j => grad (m_x (s j)) i * grad (m_x (s j)) i) k.
Proof.
  intros s. induction k as [|k [IH1 IH2]]; [unfold decayed; cbn [sumn]; change (m_g (s 0%nat) i) with 0; change (m_v (s 0%nat) i) with 0; split; ring|].
  rewrite !decayed_S.
  change (m_g (s (S k)) i) with (b1 * m_g (s k) i + (1 - b1) * grad (m_x (s k)) i).
  change (m_v (s (S k)) i) with (b2 * m_v (s k) i + (1 - b2) * (grad (m_x (s k)) i * grad (m_x (s k)) i)).
  rewrite IH1, IH2. split; ring.
Qed.
Lemma adam_lemma b1 b2 x k : 0 <= b1 -> b1 < 1 -> 0 <= b2 -> b2 < 1 ->
  let s j := after (adam_iterate grad proj sqrt alpha eps b1 b2) 0 (moments_init x) j in
  exists mh vh : vec, m_x (s (S k)) = proj (fun i => m_x (s k) i - alpha * mh i / (sqrt (vh i) + eps)) /\
    forall i, (forall lo hi, (forall j, (j <= k)%nat -> lo <= grad (m_x (s j)) i <= hi) -> lo <= mh i <= hi) /\
              (forall lo hi, (forall j, (j <= k)%nat -> lo <= grad (m_x (s j)) i * grad (m_x (s j)) i <= hi) -> lo <= vh i <= hi).
Proof.
  intros H1 H2 H3 H4 s. exists (corrected b1 (Z.of_nat k) (m_g (s (S k)))), (corrected b2 (Z.of_nat k) (m_v (s (S k)))).
  split; [reflexivity|].
  intros i. destruct (adam_moments b1 b2 x (S k) i) as [M1 M2]. fold s in M1, M2. unfold corrected.
  replace (Z.to_nat (Z.of_nat k + 1)) with (S k) by lia. split; intros lo hi Hh.
  - eapply corrected_bounds; [auto|auto|lia| |exact M1]. intros j Hj. apply Hh. lia.
  - eapply corrected_bounds; [auto|auto|lia| |exact M2]. intros j Hj. apply Hh. lia.
Qed.
Lemma adagrad_lemma x k :
  let s j := after (adagrad_iterate grad proj sqrt alpha eps) 0 (moments_init x) j in
  exists v : vec, m_x (s (S k)) = proj (fun i => m_x (s k) i - alpha * grad (m_x (s k)) i / sqrt (v i + eps)) /\
    forall i, v i == sumn (S k) (fun j => grad (m_x (s j)) i * grad (m_x (s j)) i).
Proof.
  intros s. exists (m_v (s (S k))). split; [reflexivity|]. intros i.
  generalize (S k) as n. induction n as [|n IH]; [reflexivity|]. cbn [sumn]. rewrite <- IH. reflexivity.
Qed.
Lemma rmsprop_lemma gamma x k : 0 <= gamma -> gamma < 1 ->
  let s j := after (rmsprop_iterate grad proj sqrt alpha eps gamma) 0 (moments_init x) j in
  exists v : vec, m_x (s (S k)) = proj (fun i => m_x (s k) i - alpha * grad (m_x (s k)) i / sqrt (v i + eps)) /\
    forall i hi, (forall j, (j <= k)%nat -> grad (m_x (s j)) i * grad (m_x (s j)) i <= hi) -> 0 <= v i <= (1 - qpower gamma (S k)) * hi.
Proof.
  intros H0 H1 s. exists (m_v (s (S k))). split; [reflexivity|]. intros i hi Hh.
  assert (M : forall n, m_v (s n) i == (1 - gamma) * decayed gamma (fun j => grad (m_x (s j)) i * grad (m_x (s j)) i) n).
  { induction n as [|n IH]; [unfold decayed; cbn [sumn]; change (m_v (s 0%nat) i) with 0; ring|]. rewrite decayed_S. 
    change (m_v (s (S n)) i) with (gamma * m_v (s n) i + (1 - gamma) * (grad (m_x (s n)) i * grad (m_x (s n)) i)). rewrite IH. ring. }
  rewrite (M (S k)). rewrite <- decayed_const. split.
  - assert (0 <= decayed gamma (fun j => grad (m_x (s j)) i * grad (m_x (s j)) i) (S k)).
    { assert (E : decayed gamma (fun _ => 0) (S k) == 0).
      { unfold decayed. rewrite (@sumn_ext (S k) _ (fun _ => 0)); [apply sumn_zero; reflexivity|]. intros j Hj. ring. }
      rewrite <- E. apply decayed_le; [auto|]. intros j Hj. nra. }
    nra.
  - assert (decayed gamma (fun j => grad (m_x (s j)) i * grad (m_x (s j)) i) (S k) <= decayed gamma (fun _ => hi) (S k)).
    { apply decayed_le; [auto|]. intros j Hj. apply Hh. lia. }
    nra.
Qed.
Lemma nag_lemma gamma x k :
  let s j := after (nag_iterate grad proj alpha gamma) 0 (moments_init x) j in
  let look j := proj (fun i => m_x (s j) i - gamma * m_g (s j) i) in
  m_x (s (S k)) = proj (fun i => m_x (s k) i - m_g (s (S k)) i) /\
  forall i, m_g (s k) i == alpha * decayed gamma (fun j => grad (look j) i) k.
Proof.
  intros s look. split; [reflexivity|]. intros i.
  induction k as [|k IH]; [unfold decayed; cbn [sumn]; change (m_g (s 0%nat) i) with 0; ring|]. rewrite decayed_S. 
  change (m_g (s (S k)) i) with (gamma * m_g (s k) i + alpha * grad (look k) i). rewrite IH. ring.
Qed.
End Moments.
