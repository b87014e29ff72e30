(** Nonsingular matrices over a field with conjugation, and an exact solver: elimination. *)
From Verif Require Import Base CField CField_Proofs.
Set Implicit Arguments.

Section LinAlg.
Variable K : cfield.
Local Open Scope K_scope.
Add Field Kfield_la : (k_field K).

(** A v = 0 only for v = 0 *)
Definition nonsingular (N : nat) (A : mat K) : Prop :=
  forall v, length v = N -> (forall i, (i < N)%nat -> at_ (mv N A v) i = 0) -> forall i, (i < N)%nat -> at_ v i = 0.
(** [inner A b] solves A x = b whenever A is nonsingular *)
Definition exact_solver (N : nat) (inner : mat K -> list K -> list K) : Prop :=
  forall A b, nonsingular N A -> length b = N -> length (inner A b) = N /\ mv N A (inner A b) = b.

(** *** elimination *)
Variable zero : K -> bool.
Hypothesis zero_spec : forall x, zero x = true <-> x = 0.
Definition swap (r n i : nat) : nat := if Nat.eqb i n then r else if Nat.eqb i r then n else i.
Fixpoint elim (n : nat) (A : mat K) (b : nat -> K) : list K :=
  match n with
  | O => []
  | S m =>
      let r := match find (fun i => negb (zero (A i m))) (seq 0 (S m)) with Some r => r | None => m end in
      let A1 : mat K := fun i j => A (swap r m i) j in
      let b1 := fun i => b (swap r m i) in
      let x := elim m (fun i j => A1 i j - A1 i m / A1 m m * A1 m j) (fun i => b1 i - A1 i m / A1 m m * b1 m) in
      x ++ [(b1 m - fsum m (fun j => A1 m j * at_ x j)) / A1 m m]
  end.
Definition elimination (n : nat) (A : mat K) (b : list K) : list K := elim n A (at_ b).

Lemma at_snoc (x : list K) y i : at_ (x ++ [y]) i = if Nat.ltb i (length x) then at_ x i else if Nat.eqb i (length x) then y else 0.
Proof.
  unfold at_. destruct (Nat.ltb_spec i (length x)); [now apply app_nth1|]. rewrite app_nth2 by lia.
  destruct (Nat.eqb_spec i (length x)) as [->|]; [now rewrite Nat.sub_diag|]. destruct (i - length x)%nat as [|[|k]] eqn:E; try reflexivity. lia.
Qed.
Lemma swap_lt r m i : (r <= m -> i <= m -> swap r m i <= m)%nat.
Proof. unfold swap. destruct (Nat.eqb i m); auto. destruct (Nat.eqb i r); auto. Qed.
Lemma swap_swap r m i : (swap r m (swap r m i) = i)%nat.
Proof.
  unfold swap. destruct (Nat.eqb_spec i m) as [->|H1].
  - destruct (Nat.eqb_spec r m) as [->|]; [reflexivity|]. now rewrite Nat.eqb_refl.
  - destruct (Nat.eqb_spec i r) as [->|H2]; [now rewrite Nat.eqb_refl|]. now apply Nat.eqb_neq in H1 as ->; apply Nat.eqb_neq in H2 as ->.
Qed.
Lemma elim_correct n : forall A b, nonsingular n A ->
  length (elim n A b) = n /\ forall i, (i < n)%nat -> fsum n (fun j => A i j * at_ (elim n A b) j) = b i.
Proof.
  induction n as [|m IH]; intros A b HA; [split; [reflexivity|lia]|]. cbn [elim].
  set (r := match find (fun i => negb (zero (A i m))) (seq 0 (S m)) with Some r => r | None => m end).
  assert (Hr : (r <= m)%nat /\ A r m <> 0).
  { unfold r. destruct (find _ _) as [k|] eqn:E.
    - apply find_some in E as [E1 E2]. apply in_seq in E1. split; [lia|]. intros Z. apply zero_spec in Z. now rewrite Z in E2.
    - exfalso. pose proof (find_none _ _ E) as Hn. cbv beta in Hn.
      assert (Hz : forall i, (i < S m)%nat -> A i m = 0).
      { intros i Hi. specialize (Hn i). rewrite in_seq in Hn. specialize (Hn ltac:(lia)). apply negb_false_iff in Hn. now apply zero_spec. }
      apply (k1_neq_0 K). rewrite <- (HA (vbuild (S m) (fun i => if Nat.eqb i m then 1 else 0)) (@vbuild_length K _ _)) with (i := m); [|intros i Hi|lia].
      + rewrite vbuild_at by lia. now rewrite Nat.eqb_refl.
      + rewrite mv_at by auto. apply fsum_zero. intros j Hj. rewrite vbuild_at by auto. destruct (Nat.eqb_spec j m) as [->|]; [rewrite Hz by auto|]; ring. }
  clearbody r. destruct Hr as [Hr Hp].
  set (A1 := (fun i j => A (swap r m i) j) : mat K). set (b1 := fun i => b (swap r m i)).
  assert (Hp1 : A1 m m <> 0) by (unfold A1, swap; now rewrite Nat.eqb_refl).
  set (A2 := (fun i j => A1 i j - A1 i m / A1 m m * A1 m j) : mat K). set (b2 := fun i => b1 i - A1 i m / A1 m m * b1 m).
  assert (HA2 : nonsingular m A2).
  { intros v Hv H0 i Hi. set (y := - (fsum m (fun j => A1 m j * at_ v j) / A1 m m)).
    assert (Hs : forall i, (i < m)%nat -> fsum m (fun j => A1 i j * at_ v j) + A1 i m * y = 0).
    { intros k Hk. specialize (H0 k Hk). rewrite mv_at in H0 by auto.
      rewrite (@fsum_ext K m _ (fun j => A1 k j * at_ v j - A1 k m / A1 m m * (A1 m j * at_ v j))) in H0 by (intros; unfold A2; field; auto).
      rewrite fsum_sub, fsum_scale in H0. rewrite <- H0. unfold y. field. auto. }
    assert (Hm : fsum m (fun j => A1 m j * at_ v j) + A1 m m * y = 0) by (unfold y; field; auto).
    specialize (HA (v ++ [y])). rewrite app_length in HA. cbn [length] in HA. specialize (HA ltac:(lia)).
    cut (at_ (v ++ [y]) i = 0); [rewrite at_snoc, Hv; now replace (Nat.ltb i m) with true by (symmetry; now apply Nat.ltb_lt)|]. apply HA; [|lia].
    intros k Hk. rewrite mv_at by auto. cbn [fsum]. rewrite at_snoc, Hv, Nat.ltb_irrefl, Nat.eqb_refl.
    rewrite (@fsum_ext K m _ (fun j => A k j * at_ v j)) by (intros j Hj; rewrite at_snoc, Hv; replace (Nat.ltb j m) with true by (symmetry; now apply Nat.ltb_lt); reflexivity).
    pose proof (swap_swap r m k) as Hss. assert (Hsk : (swap r m k <= m)%nat) by (apply swap_lt; lia).
    destruct (Nat.eq_dec (swap r m k) m) as [E|E].
    - rewrite E in Hss. unfold A1 in Hm. now rewrite Hss in Hm.
    - specialize (Hs (swap r m k) ltac:(lia)). unfold A1 in Hs. now rewrite Hss in Hs. }
  destruct (IH A2 b2 HA2) as [Hl Hx].
  change (let x := elim m A2 b2 in let y := (b1 m - fsum m (fun j => A1 m j * at_ x j)) / A1 m m in
    length (x ++ [y]) = S m /\ forall i, (i < S m)%nat -> fsum (S m) (fun j => A i j * at_ (x ++ [y]) j) = b i). cbv zeta.
  set (x := elim m A2 b2) in *. clearbody x. split; [rewrite app_length, Hl; cbn [length]; lia|].
  set (y := (b1 m - fsum m (fun j => A1 m j * at_ x j)) / A1 m m).
  assert (Hs : forall i, (i < m)%nat -> fsum m (fun j => A1 i j * at_ x j) + A1 i m * y = b1 i).
  { intros k Hk. specialize (Hx k Hk).
    rewrite (@fsum_ext K m _ (fun j => A1 k j * at_ x j - A1 k m / A1 m m * (A1 m j * at_ x j))) in Hx by (intros; unfold A2; field; auto).
    rewrite fsum_sub, fsum_scale in Hx. unfold b2 in Hx.
    transitivity ((b1 k - A1 k m / A1 m m * b1 m) + A1 k m / A1 m m * b1 m); [|ring]. rewrite <- Hx. unfold y. field. auto. }
  assert (Hm : fsum m (fun j => A1 m j * at_ x j) + A1 m m * y = b1 m) by (unfold y; field; auto).
  intros k Hk. cbn [fsum]. rewrite at_snoc, Hl, Nat.ltb_irrefl, Nat.eqb_refl.
  rewrite (@fsum_ext K m _ (fun j => A k j * at_ x j)) by (intros j Hj; rewrite at_snoc, Hl; replace (Nat.ltb j m) with true by (symmetry; now apply Nat.ltb_lt); reflexivity).
  pose proof (swap_swap r m k) as Hss. assert (Hsk : (swap r m k <= m)%nat) by (apply swap_lt; lia).
  destruct (Nat.eq_dec (swap r m k) m) as [E|E].
  - rewrite E in Hss. unfold A1, b1 in Hm. now rewrite Hss in Hm.
  - specialize (Hs (swap r m k) ltac:(lia)). unfold A1, b1 in Hs. now rewrite Hss in Hs.
Qed.
Lemma elimination_exact n : exact_solver n (elimination n).
Proof.
  intros A b HA Hb. unfold elimination. destruct (@elim_correct n A (at_ b) HA) as [Hl Hx]. split; [exact Hl|].
  apply vec_ext; [rewrite mv_length; auto|]. intros i Hi. rewrite mv_length in Hi. rewrite mv_at by auto. now apply Hx.
Qed.
End LinAlg.

Section Facts.
Variable K : cfield.
Local Open Scope K_scope.
Add Field Kfield_lb : (k_field K).
Variable N : nat.

Lemma nonsingular_ext (A B : mat K) : (forall i j, (i < N)%nat -> (j < N)%nat -> A i j = B i j) -> nonsingular N A -> nonsingular N B.
Proof. intros E H v Hv H0. apply H; [exact Hv|]. intros i Hi. rewrite (@mv_ext K N A B) by auto. now apply H0. Qed.
Lemma nonsingular_inj (A : mat K) v w : nonsingular N A -> length v = N -> length w = N -> mv N A v = mv N A w -> v = w.
Proof.
  intros HA Hv Hw E. apply vec_ext; [congruence|]. intros i Hi. rewrite Hv in Hi.
  assert (H : at_ (vbuild N (fun i => at_ v i - at_ w i)) i = 0).
  { apply HA; [apply vbuild_length| |exact Hi]. intros k Hk. rewrite mv_at by auto.
    rewrite (@fsum_ext K N _ (fun j => A k j * at_ v j - A k j * at_ w j)) by (intros j Hj; rewrite vbuild_at by auto; ring).
    rewrite fsum_sub, <- !mv_at by auto. rewrite E. ring. }
  rewrite vbuild_at in H by auto. transitivity (at_ v i - at_ w i + at_ w i); [ring|]. rewrite H. ring.
Qed.
(** a matrix whose equations can all be solved has a nonsingular adjoint *)
Lemma solvable_herm (A : mat K) (B : list K -> list K) : (forall b, length b = N -> length (B b) = N /\ mv N A (B b) = b) -> nonsingular N (mherm A).
Proof.
  intros HB v Hv H0 i Hi. set (e := vbuild N (fun j => if Nat.eqb j i then 1 else 0 : K)).
  destruct (HB e (@vbuild_length K _ _)) as [Hl Hx]. set (x := B e) in *. clearbody x.
  assert (E : fsum N (fun k => kconj (at_ v k) * at_ e k) = 0).
  { rewrite <- Hx. rewrite (@fsum_ext K N _ (fun k => fsum N (fun j => kconj (at_ v k) * (A k j * at_ x j)))) by (intros k Hk; rewrite mv_at by auto; symmetry; apply fsum_scale).
    rewrite fsum_swap. apply fsum_zero. intros j Hj.
    specialize (H0 j Hj). rewrite mv_at in H0 by auto. apply (f_equal kconj) in H0. rewrite kconj_0, kconj_fsum in H0.
    transitivity (fsum N (fun k => kconj (mherm A j k * at_ v k)) * at_ x j); [|rewrite H0; ring].
    rewrite <- fsum_scale_r. apply fsum_ext. intros k Hk. rewrite kconj_mul. unfold mherm. rewrite kconj_conj. ring. }
  rewrite (@fsum_single K N i) in E; [|exact Hi|intros k Hk Hn; unfold e; rewrite vbuild_at by auto; apply Nat.eqb_neq in Hn; rewrite Hn; ring].
  unfold e in E. rewrite vbuild_at, Nat.eqb_refl in E by auto. rewrite <- (kconj_conj K (at_ v i)).
  replace (kconj (at_ v i)) with (0 : K) by (rewrite <- E; ring). apply kconj_0.
Qed.
(** scaling rows and columns by nonzero numbers *)
Lemma nonsingular_scaled (A : mat K) (p q : nat -> K) : (forall i, (i < N)%nat -> p i <> 0) -> (forall i, (i < N)%nat -> q i <> 0) ->
  nonsingular N A -> nonsingular N (fun i j => p i * A i j * q j).
Proof.
  intros Hp Hq HA v Hv H0 i Hi. assert (E : at_ (vbuild N (fun j => q j * at_ v j)) i = 0).
  { apply HA; [apply vbuild_length| |exact Hi]. intros k Hk. rewrite mv_at by auto. specialize (H0 k Hk). rewrite mv_at in H0 by auto.
    apply (@kmul_cancel K (p k)); [now apply Hp|]. replace (p k * (0 : K)) with (0 : K) by ring. rewrite <- H0, <- fsum_scale.
    apply fsum_ext. intros j Hj. rewrite vbuild_at by auto. ring. }
  rewrite vbuild_at in E by auto. apply (@kmul_cancel K (q i)); [now apply Hq|]. rewrite E. ring.
Qed.
End Facts.
