(** Lemmas on sums, vectors and matrices over a field with conjugation. *)
From Verif Require Import Base CField.
Set Implicit Arguments.

Section Sums.
Variable K : cfield.
Local Open Scope K_scope.
Add Field Kfield : (k_field K).
Implicit Types (f h : nat -> K) (A B : mat K) (v w : list K).

Lemma fsum_ext n f h : (forall i, (i < n)%nat -> f i = h i) -> fsum n f = fsum n h.
Proof. induction n as [|n IH]; intros H; simpl; [reflexivity|]. rewrite IH, (H n); auto with arith. Qed.
Lemma fsum_zero n f : (forall i, (i < n)%nat -> f i = 0) -> fsum n f = 0.
Proof. induction n as [|n IH]; intros H; simpl; [reflexivity|]. rewrite IH, (H n) by auto with arith. ring. Qed.
Lemma fsum_add n f h : fsum n (fun i => f i + h i) = fsum n f + fsum n h.
Proof. induction n as [|n IH]; simpl; [ring|]. rewrite IH. ring. Qed.
Lemma fsum_sub n f h : fsum n (fun i => f i - h i) = fsum n f - fsum n h.
Proof. induction n as [|n IH]; simpl; [ring|]. rewrite IH. ring. Qed.
Lemma fsum_scale n a f : fsum n (fun i => a * f i) = a * fsum n f.
Proof. induction n as [|n IH]; simpl; [ring|]. rewrite IH. ring. Qed.
Lemma fsum_scale_r n a f : fsum n (fun i => f i * a) = fsum n f * a.
Proof. induction n as [|n IH]; simpl; [ring|]. rewrite IH. ring. Qed.
Lemma fsum_opp n f : fsum n (fun i => - f i) = - fsum n f.
Proof. induction n as [|n IH]; simpl; [ring|]. rewrite IH. ring. Qed.
Lemma fsum_single n k f : (k < n)%nat -> (forall i, (i < n)%nat -> i <> k -> f i = 0) -> fsum n f = f k.
Proof.
  induction n as [|n IH]; intros Hk H; [lia|]. simpl. destruct (Nat.eq_dec k n) as [->|Hn].
  - rewrite (fsum_zero (n:=n)); [ring|]. intros i Hi. apply H; lia.
  - rewrite IH by (try lia; intros; apply H; lia). rewrite (H n) by lia. ring.
Qed.
Lemma fsum_swap n m (f : nat -> nat -> K) : fsum n (fun i => fsum m (fun j => f i j)) = fsum m (fun j => fsum n (fun i => f i j)).
Proof.
  induction n as [|n IH]; simpl.
  - symmetry. now apply fsum_zero.
  - now rewrite IH, fsum_add.
Qed.
Lemma fsum_app n m f : fsum (n + m) f = fsum n f + fsum m (fun i => f (n + i)%nat).
Proof. induction m as [|m IH]; simpl; [rewrite Nat.add_0_r; ring|]. rewrite Nat.add_succ_r. simpl. rewrite IH. ring. Qed.

Lemma kconj_0 : kconj (0 : K) = 0.
Proof. assert (H := kconj_add K 0 0). replace (0 + 0) with (0 : K) in H by ring.
  transitivity (kconj (0 : K) + kconj 0 - kconj 0); [ring|]. rewrite <- H. ring. Qed.
Lemma k1_neq_0 : (1 : K) <> 0.
Proof. exact (F_1_neq_0 (k_field K)). Qed.
Lemma kinv_l (x : K) : x <> 0 -> 1 / x * x = 1.
Proof. intros; field; auto. Qed.
Lemma kconj_neq0 (x : K) : x <> 0 -> kconj x <> 0.
Proof. intros H E. apply H. rewrite <- (kconj_conj K x), E. apply kconj_0. Qed.
Lemma kconj_1 : kconj (1 : K) = 1.
Proof.
  assert (H := kconj_mul K 1 1). replace (1 * 1) with (1 : K) in H by ring.
  assert (Hn : kconj (1 : K) <> 0) by apply kconj_neq0, k1_neq_0.
  transitivity (kconj (1 : K) * kconj 1 * (1 / kconj 1)); [|rewrite <- H]; field; auto.
Qed.
Lemma kconj_opp (x : K) : kconj (- x) = - kconj x.
Proof. assert (H := kconj_add K x (- x)). replace (x + - x) with (0 : K) in H by ring. rewrite kconj_0 in H.
  transitivity (0 - kconj x); [rewrite H|]; ring. Qed.
Lemma kconj_sub (x y : K) : kconj (x - y) = kconj x - kconj y.
Proof. replace (x - y) with (x + - y) by ring. rewrite kconj_add, kconj_opp. ring. Qed.
Lemma kmul_cancel (a x y : K) : a <> 0 -> a * x = a * y -> x = y.
Proof. intros Ha H. transitivity (1 / a * (a * x)); [field; auto|]. rewrite H. field; auto. Qed.
Lemma kmul_neq0 (x y : K) : x <> 0 -> y <> 0 -> x * y <> 0.
Proof. intros Hx Hy H. apply Hy. apply (@kmul_cancel x); auto. rewrite H. ring. Qed.
Lemma kmul_neq0_l (x y : K) : x * y <> 0 -> x <> 0.
Proof. intros H ->. apply H. ring. Qed.
Lemma kmul_neq0_r (x y : K) : x * y <> 0 -> y <> 0.
Proof. intros H ->. apply H. ring. Qed.
Lemma kconj_div (x y : K) : y <> 0 -> kconj (x / y) = kconj x / kconj y.
Proof.
  intros Hy. pose proof (kconj_neq0 Hy) as Hc. apply (@kmul_cancel (kconj y)); [auto|].
  rewrite <- kconj_mul. transitivity (kconj x); [f_equal; field; auto | field; auto].
Qed.
Lemma ki_neq0 : (ki : K) <> 0.
Proof. intros E. pose proof (ki_sq K) as H. rewrite E in H. apply k1_neq_0. transitivity (- (0 * 0) : K); [rewrite H|]; ring. Qed.
Lemma kopp_neq0 (x : K) : x <> 0 -> - x <> 0.
Proof. intros H E. apply H. transitivity (- - x); [ring|]. rewrite E. ring. Qed.
Lemma kconj_fsum n f : kconj (fsum n f) = fsum n (fun i => kconj (f i)).
Proof. induction n as [|n IH]; simpl; [apply kconj_0|]. now rewrite kconj_add, IH. Qed.

(** vectors *)
Lemma vbuild_length n f : length (vbuild n f) = n.
Proof. unfold vbuild. now rewrite map_length, seq_length. Qed.
Lemma vbuild_at n f i : (i < n)%nat -> at_ (vbuild n f) i = f i.
Proof.
  intros H. unfold at_, vbuild. rewrite (nth_indep _ 0 (f 0%nat)) by (rewrite map_length, seq_length; auto).
  rewrite map_nth, seq_nth by auto. reflexivity.
Qed.
Lemma vbuild_ext n f h : (forall i, (i < n)%nat -> f i = h i) -> vbuild n f = vbuild n h.
Proof. intros H. apply map_ext_in. intros i Hi. apply in_seq in Hi. apply H. lia. Qed.
Lemma vec_ext v w : length v = length w -> (forall i, (i < length v)%nat -> at_ v i = at_ w i) -> v = w.
Proof. intros Hl H. apply (nth_ext _ _ 0 0 Hl). exact H. Qed.
Lemma vbuild_id n v : length v = n -> vbuild n (at_ v) = v.
Proof. intros <-. apply vec_ext; rewrite vbuild_length; auto. intros i Hi. now apply vbuild_at. Qed.
Lemma mv_length n A v : length (mv n A v) = n.
Proof. apply vbuild_length. Qed.
Lemma mv_at n A v i : (i < n)%nat -> at_ (mv n A v) i = fsum n (fun j => A i j * at_ v j).
Proof. apply vbuild_at. Qed.
Lemma mv_ext n A B v : (forall i j, (i < n)%nat -> (j < n)%nat -> A i j = B i j) -> mv n A v = mv n B v.
Proof. intros H. apply vbuild_ext. intros i Hi. apply fsum_ext. intros j Hj. now rewrite H. Qed.
Lemma mv_mmul n A B v : mv n (mmul n A B) v = mv n A (mv n B v).
Proof.
  apply vbuild_ext. intros i Hi. unfold mmul.
  rewrite (@fsum_ext n _ (fun j => fsum n (fun k => A i k * B k j * at_ v j))) by (intros; now rewrite fsum_scale_r).
  rewrite fsum_swap. apply fsum_ext. intros k Hk. rewrite mv_at, <- fsum_scale by auto. apply fsum_ext. intros. ring.
Qed.
Lemma mv_mdiag_at n d v i : (i < n)%nat -> at_ (mv n (mdiag d) v) i = d i * at_ v i.
Proof.
  intros Hi. rewrite mv_at by auto. rewrite (@fsum_single n i); [|auto|].
  - unfold mdiag. now rewrite Nat.eqb_refl.
  - intros j _ Hj. unfold mdiag. destruct (Nat.eqb_spec i j); [congruence|ring].
Qed.
Lemma mv_mdiag n d v : mv n (mdiag d) v = vbuild n (fun i => d i * at_ v i).
Proof. apply vec_ext; rewrite mv_length; [now rewrite vbuild_length|]. intros i Hi. now rewrite mv_mdiag_at, vbuild_at. Qed.
Lemma mv_meye n v : length v = n -> mv n meye v = v.
Proof. intros Hl. apply vec_ext; rewrite mv_length; auto. intros i Hi. unfold meye. rewrite mv_mdiag_at by auto. ring. Qed.
Lemma mv_msub_at n A B v i : (i < n)%nat -> at_ (mv n (msub A B) v) i = at_ (mv n A v) i - at_ (mv n B v) i.
Proof. intros. rewrite !mv_at, <- fsum_sub by auto. apply fsum_ext. intros. unfold msub. ring. Qed.
Lemma mv_mneg_at n A v i : (i < n)%nat -> at_ (mv n (mneg A) v) i = - at_ (mv n A v) i.
Proof. intros. rewrite !mv_at, <- fsum_opp by auto. apply fsum_ext. intros. unfold mneg. ring. Qed.
Lemma mv_mscale_at n a A v i : (i < n)%nat -> at_ (mv n (mscale a A) v) i = a * at_ (mv n A v) i.
Proof. intros. rewrite !mv_at, <- fsum_scale by auto. apply fsum_ext. intros. unfold mscale. ring. Qed.
Lemma mv_vext n A v w : (forall i, (i < n)%nat -> at_ v i = at_ w i) -> mv n A v = mv n A w.
Proof. intros H. apply vbuild_ext. intros i Hi. apply fsum_ext. intros j Hj. now rewrite H. Qed.

Lemma mmul_mdiag_l n d A i j : (i < n)%nat -> mmul n (mdiag d) A i j = d i * A i j.
Proof.
  intros Hi. unfold mmul. rewrite (@fsum_single n i); [|auto|].
  - unfold mdiag. now rewrite Nat.eqb_refl.
  - intros k _ Hk. unfold mdiag. destruct (Nat.eqb_spec i k); [congruence|ring].
Qed.
Lemma mmul_mdiag_r n d A i j : (j < n)%nat -> mmul n A (mdiag d) i j = A i j * d j.
Proof.
  intros Hi. unfold mmul. rewrite (@fsum_single n j); [|auto|].
  - unfold mdiag. now rewrite Nat.eqb_refl.
  - intros k _ Hk. unfold mdiag. destruct (Nat.eqb_spec k j); [congruence|ring].
Qed.
Lemma mmul_ext n A A' B B' i j :
  (forall k, (k < n)%nat -> A i k = A' i k) -> (forall k, (k < n)%nat -> B k j = B' k j) -> mmul n A B i j = mmul n A' B' i j.
Proof. intros HA HB. apply fsum_ext. intros k Hk. now rewrite HA, HB. Qed.

(** 3 x 3 blocks *)
Lemma block_div n c t : (t < n)%nat -> Nat.div (c * n + t) n = c.
Proof. intros. rewrite Nat.add_comm, Nat.div_add by lia. rewrite Nat.div_small; lia. Qed.
Lemma block_mod n c t : (t < n)%nat -> Nat.modulo (c * n + t) n = t.
Proof. intros. rewrite Nat.add_comm, Nat.mod_add by lia. now apply Nat.mod_small. Qed.
Lemma block_ex n i : (i < 3 * n)%nat -> exists c t, (c < 3)%nat /\ (t < n)%nat /\ i = (c * n + t)%nat.
Proof.
  intros H. exists (Nat.div i n), (Nat.modulo i n). assert (n <> 0)%nat by lia.
  repeat split; [apply Nat.div_lt_upper_bound; lia | now apply Nat.mod_upper_bound | rewrite (Nat.div_mod i n) at 1; lia].
Qed.
Lemma fsum_3 n f : fsum (3 * n) f = fsum n (fun t => f (0 * n + t)%nat) + fsum n (fun t => f (1 * n + t)%nat) + fsum n (fun t => f (2 * n + t)%nat).
Proof.
  replace (3 * n)%nat with (n + n + n)%nat by lia. rewrite !fsum_app.
  apply f_equal2; [apply f_equal2|]; apply fsum_ext; intros; f_equal; lia.
Qed.
Lemma bmat_at n (Bk : nat -> nat -> mat K) r c t s : (t < n)%nat -> (s < n)%nat -> bmat n Bk (r * n + t)%nat (c * n + s)%nat = Bk r c t s :> K.
Proof. intros. unfold bmat. now rewrite !block_div, !block_mod. Qed.
End Sums.
