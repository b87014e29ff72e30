(** Proofs about photonic-crystal modes: frequencies are real. *)
From Coq Require Import Reals Lra Lia.
From Verif Require Import Base CField CField_Proofs GMath_Model GMath_Proofs CplxField Maxwell_Model Maxwell_Spec Maxwell_Proofs Maxwell_Proofs2 Maxwell_Proofs3 Phc_Model Phc_Spec Phc_Proofs Phc_Proofs2.
Set Implicit Arguments.
Local Open Scope R_scope.

Lemma frequency_root (K : cfield) (g : grid K) ph eigs ksqrt sim k eps mu t b v0 l w F :
  mode_solver g ph eigs ksqrt sim k eps mu t b v0 = Ok l -> In (w, F) l -> exists x, w = ksqrt x.
Proof.
  intros H Hin. unfold mode_solver in H.
  destruct t; cbn [bind] in H; [| |discriminate].
  - match type of H with bind ?e _ = _ => destruct e as [pairs|] end; cbn [bind] in H; [|discriminate].
    destruct (Nat.eqb _ 1); [|destruct (_ || _); discriminate]. injection H as <-.
    destruct (@in_combine_map K ksqrt pairs (fun v => mv (vlen g) (eps_norm (fun i => ksqrt (eps i))) v) w F Hin) as (x & v & _ & E & _). eauto.
  - match type of H with bind ?e _ = _ => destruct e as [pairs|] end; cbn [bind] in H; [|discriminate]. injection H as <-.
    destruct (@in_combine_map K ksqrt pairs (fun v => v) w F Hin) as (x & v & _ & E & _). eauto.
Qed.

Definition nonneg (z : C) : Prop := snd z = 0 /\ 0 <= fst z.
Lemma pos_nonneg z : positive z -> nonneg z.
Proof. intros []; split; lra. Qed.
Lemma pos_mul (x y : C) : positive x -> positive y -> positive (cmul x y).
Proof.
  intros [A B] [A' B']. split; simpl; rewrite ?A, ?A'; [ring|]. pose proof (Rmult_lt_0_compat _ _ B B'). lra.
Qed.
Lemma nonneg_mul (x y : C) : nonneg x -> nonneg y -> nonneg (cmul x y).
Proof.
  intros [A B] [A' B']. split; simpl; rewrite ?A, ?A'; [ring|]. pose proof (Rmult_le_pos _ _ B B'). lra.
Qed.
Lemma nonneg_norm (x : C) : nonneg (cmul (cconj x) x).
Proof. destruct x as [a b]. split; simpl; [ring|]. nra. Qed.
Lemma pos_norm (x : C) : x <> c0 -> positive (cmul (cconj x) x).
Proof.
  destruct x as [a b]. intros H. split; simpl; [ring|].
  destruct (Req_dec a 0) as [->|Ha]; [destruct (Req_dec b 0) as [->|Hb]; [now elim H|]|]; nra.
Qed.
Lemma nonneg_sum (m : nat) (f : nat -> CC) : (forall i, (i < m)%nat -> nonneg (f i)) -> nonneg (fsum m f).
Proof.
  induction m as [|m IH]; intros H; simpl.
  - split; simpl; lra.
  - destruct (IH ltac:(auto)) as [A B]. destruct (H m ltac:(lia)) as [A' B']. split; simpl; rewrite ?A, ?A'; lra.
Qed.
Lemma pos_sum (m : nat) (f : nat -> CC) k : (k < m)%nat -> (forall i, (i < m)%nat -> nonneg (f i)) -> positive (f k) -> positive (fsum m f).
Proof.
  induction m as [|m IH]; intros Hk H Hp; [lia|]. simpl. destruct (H m ltac:(lia)) as [A' B'].
  destruct (Nat.eq_dec k m) as [->|Hn].
  - destruct (@nonneg_sum m f ltac:(auto)) as [A B]. destruct Hp as [P Q]. split; simpl; lra.
  - destruct (IH ltac:(lia) ltac:(auto) Hp) as [A B]. split; simpl; lra.
Qed.

Section P.
Variable g : grid CC.
Variable ph : phases CC.
Local Notation n := (cellsn g).
Local Notation N := (vlen g).
Hypothesis Hpos : positive_cells g.
Lemma pos_neq0 (z : CC) : positive z -> z <> k0.
Proof. intros [A B] ->. simpl in B. lra. Qed.
Lemma pos_real (z : CC) : positive z -> kconj z = z.
Proof. destruct z as [a b]. intros [A B]. simpl in *. subst. unfold cconj. simpl. f_equal. ring. Qed.
Lemma pos_nonzero_cells : nonzero_cells g.
Proof. intros a i Ha Hi. destruct (Hpos Ha Hi). split; now apply pos_neq0. Qed.
Lemma pos_real_cells : real_cells g.
Proof. intros a i Ha Hi. destruct (Hpos Ha Hi). split; now apply pos_real. Qed.
Lemma pos_p2 i : (i < N)%nat -> positive (at_ (vec g (p_squared g)) i).
Proof.
  intros Hi. destruct (@block_ex n i Hi) as (r & t & Hr' & Ht & ->). rewrite vec_at by auto.
  destruct (@Hpos 0%nat (coord g 0 t) ltac:(lia) (@coord_lt CC g 0%nat t ltac:(lia) Ht)) as [A0 B0].
  destruct (@Hpos 1%nat (coord g 1 t) ltac:(lia) (@coord_lt CC g 1%nat t ltac:(lia) Ht)) as [A1 B1].
  destruct (@Hpos 2%nat (coord g 2 t) ltac:(lia) (@coord_lt CC g 2%nat t ltac:(lia) Ht)) as [A2 B2].
  unfold p_squared. destruct r as [|[|r]]; repeat apply pos_mul; assumption.
Qed.
Lemma pos_hw i : (i < N)%nat -> positive (at_ (vec g (h_volume g)) i).
Proof.
  intros Hi. destruct (@block_ex n i Hi) as (r & t & Hr' & Ht & ->). rewrite vec_at by auto.
  destruct (@Hpos 0%nat (coord g 0 t) ltac:(lia) (@coord_lt CC g 0%nat t ltac:(lia) Ht)) as [A0 B0].
  destruct (@Hpos 1%nat (coord g 1 t) ltac:(lia) (@coord_lt CC g 1%nat t ltac:(lia) Ht)) as [A1 B1].
  destruct (@Hpos 2%nat (coord g 2 t) ltac:(lia) (@coord_lt CC g 2%nat t ltac:(lia) Ht)) as [A2 B2].
  unfold h_volume. destruct r as [|[|r]]; repeat apply pos_mul; assumption.
Qed.
Lemma nonzero_entry (v : list CC) : length v = N -> v <> zeros CC N -> exists i, (i < N)%nat /\ at_ v i <> (k0 : CC).
Proof.
  intros Hl Hv.
  assert (D : forall m, (forall i, (i < m)%nat -> at_ v i = (k0 : CC)) \/ exists i, (i < m)%nat /\ at_ v i <> (k0 : CC)).
  { induction m as [|m [IH|(i & Hi & Hn)]].
    - left. intros. lia.
    - destruct (at_ v m) as [a b] eqn:E. destruct (Req_dec a 0) as [->|Ha]; [destruct (Req_dec b 0) as [->|Hb]|].
      + left. intros i Hi. destruct (Nat.eq_dec i m) as [->|]; [exact E|apply IH; lia].
      + right. exists m. split; [lia|]. rewrite E. intros E'. injection E' as E'. lra.
      + right. exists m. split; [lia|]. rewrite E. intros E'. injection E' as E'. lra.
    - right. exists i. split; [lia|auto]. }
  destruct (D N) as [H|H]; [|auto]. elim Hv. apply zeros_ext; auto.
Qed.
Lemma e_product_pos (eps : nat -> CC) (E : list CC) : (forall i, (i < N)%nat -> positive (eps i)) -> length E = N -> E <> zeros CC N ->
  positive (e_product g eps E E).
Proof.
  intros He Hl Hn. destruct (nonzero_entry Hl Hn) as (k & Hk & Ek).
  unfold e_product. apply pos_sum with (k := k); auto.
  - intros i Hi. apply nonneg_mul; [apply pos_nonneg, pos_p2; auto|]. apply nonneg_mul; [apply pos_nonneg; auto|]. apply nonneg_norm.
  - apply pos_mul; [apply pos_p2; auto|]. apply pos_mul; [auto|]. now apply pos_norm.
Qed.
Lemma e_product_nonneg (eps : nat -> CC) (E : list CC) : (forall i, (i < N)%nat -> positive (eps i)) -> nonneg (e_product g eps E E).
Proof.
  intros He. apply nonneg_sum. intros i Hi. apply nonneg_mul; [apply pos_nonneg, pos_p2; auto|].
  apply nonneg_mul; [apply pos_nonneg; auto|]. apply nonneg_norm.
Qed.
Lemma h_product_pos (H : list CC) : length H = N -> H <> zeros CC N -> positive (h_product g H H).
Proof.
  intros Hl Hn. destruct (nonzero_entry Hl Hn) as (k & Hk & Ek).
  unfold h_product. apply pos_sum with (k := k); auto.
  - intros i Hi. apply nonneg_mul; [apply pos_nonneg, pos_hw; auto|]. apply nonneg_norm.
  - apply pos_mul; [apply pos_hw; auto|]. now apply pos_norm.
Qed.
Lemma h_product_nonneg (H : list CC) : nonneg (h_product g H H).
Proof. apply nonneg_sum. intros i Hi. apply nonneg_mul; [apply pos_nonneg, pos_hw; auto|]. apply nonneg_norm. Qed.
Lemma quotient_nonneg (x a b : C) : cmul x a = b -> positive a -> nonneg b -> nonneg x.
Proof.
  destruct x as [x y], a as [a a'], b as [b b']. intros E [A B] [A' B']. simpl in *. subst a' b'. injection E as E1 E2.
  split; simpl.
  - assert (y * a = 0) by lra. destruct (Rmult_integral _ _ H); lra.
  - assert (E3 : x * a = b) by lra. destruct (Rle_lt_dec 0 x) as [|Hx]; [auto|]. exfalso.
    pose proof (Rmult_lt_0_compat (- x) a ltac:(lra) B). lra.
Qed.
Hypothesis Hph : real_bloch ph.
Lemma e_resonance_real eps w E : (forall i, (i < N)%nat -> positive (eps i)) -> e_resonance g ph eps w E -> nonneg (kmul w w).
Proof.
  intros He HE. pose proof (e_energy pos_nonzero_cells pos_real_cells Hph E HE) as H.
  apply (quotient_nonneg H); [|apply h_product_nonneg]. destruct HE as (? & ? & _). now apply e_product_pos.
Qed.
Lemma h_resonance_real eps w H : (forall i, (i < N)%nat -> positive (eps i)) -> h_resonance g ph eps w H -> nonneg (kmul w w).
Proof.
  intros He HE. assert (Hre : real_values g eps) by (intros i Hi; apply pos_real, He, Hi).
  assert (Hne : nonzero_values g eps) by (intros i Hi; apply pos_neq0, He, Hi).
  pose proof (h_energy pos_nonzero_cells pos_real_cells Hph H Hre Hne HE) as Eq.
  apply (quotient_nonneg Eq).
  - destruct HE as (? & ? & _). now apply h_product_pos.
  - apply e_product_nonneg. intros i Hi. destruct (He i Hi) as [A B]. destruct (eps i) as [a b]. simpl in A, B. subst b. split; simpl.
    + field. nra.
    + assert (0 < / (a * a + 0 * 0)) by (apply Rinv_0_lt_compat; nra). nra.
Qed.
Lemma root_real (r : CC -> CC) x : principal_root r -> nonneg (kmul (r x) (r x)) -> nonneg (r x).
Proof.
  intros Hr [A B]. destruct (Hr x) as [_ Hp]. destruct (r x) as [a b]. simpl in *. split; simpl; [|auto].
  assert (E : a * b = 0) by lra. destruct (Rmult_integral _ _ E) as [->|]; [|auto]. nra.
Qed.
End P.
Lemma croot_principal : principal_root croot.
Proof.
  intros [a b]. unfold croot. cbn [fst snd]. unfold cabs. cbn [fst snd].
  set (m := sqrt (a * a + b * b)).
  assert (Hm : m * m = a * a + b * b) by (apply sqrt_sqrt; nra).
  assert (Hm0 : 0 <= m) by apply sqrt_pos.
  assert (H1 : 0 <= (m + a) / 2) by (assert (- a <= m) by (apply Rsqr_incr_0_var; unfold Rsqr; nra); lra).
  assert (H2 : 0 <= (m - a) / 2) by (assert (a <= m) by (apply Rsqr_incr_0_var; unfold Rsqr; nra); lra).
  assert (E : sqrt ((m + a) / 2) * sqrt ((m - a) / 2) = Rabs b / 2).
  { rewrite <- sqrt_mult by auto. replace ((m + a) / 2 * ((m - a) / 2)) with ((b / 2)²) by (unfold Rsqr; nra).
    rewrite sqrt_Rsqr_abs. unfold Rdiv. rewrite Rabs_mult, (Rabs_right (/ 2)) by lra. reflexivity. }
  pose proof (sqrt_sqrt _ H1) as S1. pose proof (sqrt_sqrt _ H2) as S2.
  split; [|apply sqrt_pos]. simpl. unfold cmul. simpl.
  destruct (Rle_dec 0 b) as [Hb|Hb].
  - rewrite Rabs_right in E by lra. f_equal; nra.
  - rewrite Rabs_left in E by lra. f_equal; nra.
Qed.
