(** Proofs about the shift matrix with mirrors. *)
From Coq Require Import Reals ZArith Lia.
From Verif Require Import Base CField CField_Proofs Maxwell_Model Maxwell_Proofs Mir_Model Mir_Spec.
Set Implicit Arguments.
Lemma over0 A B C i : 0 < A -> 0 < B -> 0 < C -> A <= i -> A * B * C <= i + (B - 1) * A + (C - 1) * A * B.
Proof. intros. destruct B as [|B], C as [|C]; nia. Qed.
Lemma over1 A B C i : 0 < A -> 0 < B -> 0 < C -> B <= i -> A * B * C <= (A - 1) + i * A + (C - 1) * A * B.
Proof. intros. destruct A as [|A], C as [|C]; nia. Qed.
Lemma over2 A B C i : 0 < A -> 0 < B -> 0 < C -> C <= i -> A * B * C <= (A - 1) + (B - 1) * A + i * A * B.
Proof. intros. assert (C * (A * B) <= i * (A * B)) by nia. lia. Qed.
Section P.
Variable K : cfield.
Add Field KF : (k_field K).
Local Open Scope K_scope.
Variable shape : list nat.
Hypothesis G : good_shape shape.
Local Notation g := (shape_grid K shape).
Local Notation N := (cellsn g).
Lemma sizes_pos a : (0 < sizes shape a)%nat.
Proof.
  destruct G as [_ F]. rewrite Forall_forall in F. unfold sizes. destruct (Nat.lt_ge_cases a (length shape)) as [H|H].
  - apply F. now apply nth_In.
  - rewrite nth_overflow by auto. lia.
Qed.
Lemma check_ok axis : (axis < length shape)%nat -> check_shape axis shape = Ok tt.
Proof.
  intros Ha. unfold check_shape. destruct G as [[E|E] _]; rewrite E in *; cbn; destruct (Nat.ltb_spec axis (length shape)); rewrite ?E in *; try lia;
  match goal with |- context [Nat.leb ?a ?b] => destruct (Nat.leb_spec a b); try lia end; try reflexivity.
Qed.
Lemma cells_positive : (0 < N)%nat.
Proof. unfold cellsn. cbn. pose proof (sizes_pos 0). pose proof (sizes_pos 1). pose proof (sizes_pos 2). nia. Qed.
Variable axis : nat.
Hypothesis Ha : (axis < length shape)%nat.
Lemma axis_lt : (axis < 3)%nat. Proof. destruct G as [[E|E] _]; lia. Qed.
Variable s : Z.
Local Notation n := (Z.of_nat (sizes shape axis)).
Definition mindex (a t : nat) : nat := Z.to_nat (mirrored (Z.of_nat (sizes shape a)) (if Nat.eqb a axis then s else 0) (Z.of_nat (coord g a t))).
Definition mcell (t : nat) : nat := (mindex 0 t + mindex 1 t * sizes shape 0 + mindex 2 t * sizes shape 0 * sizes shape 1)%nat.
Lemma mcell_idx t : mcell t = idx g (mindex 0 t) (mindex 1 t) (mindex 2 t).
Proof. unfold mcell, idx. cbn. ring. Qed.
Lemma mirrored_zero m i : (0 <= i < m)%Z -> mirrored m 0 i = i.
Proof. intros H. unfold mirrored. cbv zeta. rewrite Z.add_0_r. destruct (Z.leb_spec m i); [lia|]. destruct (Z.ltb_spec i 0); lia. Qed.
Lemma mirrored_range m i : (- m <= s < m)%Z -> (0 <= i < m)%Z -> (0 <= mirrored m s i < m)%Z.
Proof. intros H H1. unfold mirrored. cbv zeta. destruct (Z.leb_spec m (i + s)); destruct (Z.ltb_spec (2 * m - (i + s) - 1) 0); destruct (Z.ltb_spec (i + s) 0); lia. Qed.
Section Inside.
Hypothesis Hs : (- n <= s < n)%Z.
Lemma mindex_lt a t : (a < 3)%nat -> (t < N)%nat -> (mindex a t < sizes shape a)%nat.
Proof.
  intros H Ht. pose proof (@coord_lt K g a t H Ht) as C. cbn in C. unfold mindex. destruct (Nat.eqb_spec a axis) as [E|E].
  - subst a. pose proof (@mirrored_range n (Z.of_nat (coord g axis t)) Hs ltac:(lia)). lia.
  - rewrite mirrored_zero; lia.
Qed.
Lemma mcell_lt t : (t < N)%nat -> (mcell t < N)%nat.
Proof. intros Ht. rewrite mcell_idx. apply idx_lt; cbn; apply mindex_lt; auto. Qed.
Lemma coord_mcell a t : (a < 3)%nat -> (t < N)%nat -> coord g a (mcell t) = mindex a t.
Proof.
  intros H Ht. rewrite mcell_idx.
  destruct (@coord_idx K g (mindex 0 t) (mindex 1 t) (mindex 2 t)) as (E0 & E1 & E2); [cbn; apply mindex_lt; auto..|].
  destruct a as [|[|[|a]]]; auto; lia.
Qed.
Lemma mirror_ok_lemma : exists M, shift_with_mirror K axis shape s = Ok M /\ forall v t, (t < N)%nat -> at_ (mv N M v) t = at_ v (mcell t).
Proof.
  unfold shift_with_mirror. rewrite check_ok by auto. cbn [bind]. destruct (Z.leb_spec n s); [lia|]. cbv zeta.
  match goal with |- context [ones_at K N ?f] => change f with mcell end. unfold ones_at.
  destruct (existsb _ _) eqn:E.
  - apply existsb_exists in E. destruct E as (t & It & L). apply in_seq in It. apply Nat.leb_le in L. pose proof (@mcell_lt t ltac:(lia)). lia.
  - eexists. split; [reflexivity|]. intros v t Ht. rewrite (@mv_pick_at K N mcell (fun _ => 1)) by (auto using mcell_lt). ring.
Qed.
Lemma mirror_value F t : mirror_symmetric axis n F -> (t < N)%nat ->
  F (Z.of_nat (mindex 0 t)) (Z.of_nat (mindex 1 t)) (Z.of_nat (mindex 2 t)) =
  moved (K:=K) axis (fun i => i + s)%Z F (Z.of_nat (coord g 0 t)) (Z.of_nat (coord g 1 t)) (Z.of_nat (coord g 2 t)).
Proof.
  intros HF Ht.
  assert (other : forall a, (a < 3)%nat -> a <> axis -> Z.of_nat (mindex a t) = Z.of_nat (coord g a t)).
  { intros a H E. pose proof (@coord_lt K g a t H Ht) as C. cbn in C. unfold mindex. destruct (Nat.eqb_spec a axis); [contradiction|]. rewrite mirrored_zero; lia. }
  assert (own : Z.of_nat (mindex axis t) = mirrored n s (Z.of_nat (coord g axis t))).
  { pose proof (@coord_lt K g axis t axis_lt Ht) as C. cbn in C. unfold mindex. rewrite Nat.eqb_refl.
    pose proof (@mirrored_range n (Z.of_nat (coord g axis t)) Hs ltac:(lia)). lia. }
  pose proof (@coord_lt K g axis t axis_lt Ht) as C. cbn in C.
  assert (H3 := axis_lt).
  assert (C' : (0 <= Z.of_nat (coord g axis t) < n)%Z) by lia.
  change (Z.of_nat (mindex axis t)) with ((fun a => Z.of_nat (mindex a t)) axis) in own.
  change (forall a, (a < 3)%nat -> a <> axis -> (fun a => Z.of_nat (mindex a t)) a = (fun a => Z.of_nat (coord g a t)) a) in other.
  change (F ((fun a => Z.of_nat (mindex a t)) 0%nat) ((fun a => Z.of_nat (mindex a t)) 1%nat) ((fun a => Z.of_nat (mindex a t)) 2%nat) =
    moved axis (fun i => i + s)%Z F ((fun a => Z.of_nat (coord g a t)) 0%nat) ((fun a => Z.of_nat (coord g a t)) 1%nat) ((fun a => Z.of_nat (coord g a t)) 2%nat)).
  change (Z.of_nat (coord g axis t)) with ((fun a => Z.of_nat (coord g a t)) axis) in own, C'.
  set (m := fun a => Z.of_nat (mindex a t)) in *. set (c := fun a => Z.of_nat (coord g a t)) in *. clearbody m c. clear C.
  assert (Hs' := Hs).
  unfold mirror_symmetric, moved in *.
  destruct axis as [|[|[|a]]]; [| | |lia]; rewrite own;
  (try rewrite (other 0%nat) by lia); (try rewrite (other 1%nat) by lia); (try rewrite (other 2%nat) by lia);
  unfold mirrored; cbv zeta;
  match goal with |- context [(?m <=? ?v)%Z] => destruct (Z.leb_spec m v) end.
  all: match goal with |- context [(?v <? 0)%Z] => destruct (Z.ltb_spec v 0) end; try lia; try reflexivity.
  all: match goal with |- ?F ?x ?y ?z = ?F ?x' ?y' ?z' => destruct (HF x' y' z') as [H1 H2] end; cbv beta iota in H1, H2.
  all: first [rewrite <- H1; f_equal; lia | rewrite <- H2; f_equal; lia].
Qed.
Lemma mirror_lemma : exists M, shift_with_mirror K axis shape s = Ok M /\
  forall F, mirror_symmetric axis n F -> mv N M (sampled g F) = sampled g (moved axis (fun i => i + s)%Z F).
Proof.
  destruct mirror_ok_lemma as (M & E & A). exists M. split; [exact E|]. intros F HF. apply vec_ext.
  - unfold sampled. now rewrite mv_length, vbuild_length.
  - rewrite mv_length. intros t Ht. rewrite A by auto. unfold sampled. rewrite !vbuild_at by (auto using mcell_lt).
    rewrite !coord_mcell by auto. now apply mirror_value.
Qed.
End Inside.
Lemma mirror_far : (s < - n)%Z -> shift_with_mirror K axis shape s = Err ValueError.
Proof.
  intros H. unfold shift_with_mirror. rewrite check_ok by auto. cbn [bind]. destruct (Z.leb_spec n s); [lia|]. cbv zeta.
  match goal with |- context [ones_at K N ?f] => change f with mcell end. unfold ones_at.
  set (c a := if Nat.eqb a axis then 0%nat else (sizes shape a - 1)%nat).
  set (t := idx g (c 0%nat) (c 1%nat) (c 2%nat)).
  assert (cl : forall a, (c a < sizes shape a)%nat) by (intros a; pose proof (sizes_pos a); unfold c; destruct (Nat.eqb a axis); lia).
  assert (Ht : (t < N)%nat) by (apply idx_lt; cbn; apply cl).
  destruct (@coord_idx K g (c 0%nat) (c 1%nat) (c 2%nat)) as (E0 & E1 & E2); [cbn; apply cl..|]. fold t in E0, E1, E2.
  assert (E : forall a, (a < 3)%nat -> coord g a t = c a) by (intros a L; destruct a as [|[|[|a]]]; auto; lia).
  assert (X : existsb (fun t => Nat.leb N (mcell t)) (seq 0 N) = true).
  { apply existsb_exists. exists t. split; [apply in_seq; lia|]. apply Nat.leb_le.
    assert (M : forall a, (a < 3)%nat -> a <> axis -> mindex a t = (sizes shape a - 1)%nat).
    { intros a L Na. pose proof (cl a). unfold mindex. rewrite E by auto. destruct (Nat.eqb_spec a axis); [contradiction|].
      rewrite mirrored_zero by lia. unfold c. destruct (Nat.eqb_spec a axis); [contradiction|lia]. }
    assert (O : (sizes shape axis <= mindex axis t)%nat).
    { unfold mindex. rewrite E by apply axis_lt. rewrite Nat.eqb_refl. unfold c. rewrite Nat.eqb_refl. unfold mirrored. cbv zeta.
      destruct (Z.leb_spec n (Z.of_nat 0 + s)); [lia|]. destruct (Z.ltb_spec (Z.of_nat 0 + s) 0); lia. }
    pose proof (sizes_pos 0). pose proof (sizes_pos 1). pose proof (sizes_pos 2). assert (A3 := axis_lt).
    unfold cellsn, mcell. cbn. revert M O. destruct axis as [|[|[|a]]]; [| | |lia]; intros M O;
    (try rewrite (M 0%nat) by lia); (try rewrite (M 1%nat) by lia); (try rewrite (M 2%nat) by lia).
    - now apply over0.
    - now apply over1.
    - now apply over2. }
  now rewrite X.
Qed.
Lemma mirror_big : (n <= s)%Z -> shift_with_mirror K axis shape s = Err (UserError 2).
Proof. intros H. unfold shift_with_mirror. rewrite check_ok by auto. cbn [bind]. destruct (Z.leb_spec n s); [reflexivity|lia]. Qed.

(** every vector has a continuation *)
Definition fold_in (m i : Z) : Z := let r := (i mod (2 * m))%Z in if (r <? m)%Z then r else (2 * m - 1 - r)%Z.
Lemma fold_in_id m i : (0 <= i < m)%Z -> fold_in m i = i.
Proof. intros H. unfold fold_in. cbv zeta. rewrite Z.mod_small by lia. destruct (Z.ltb_spec i m); lia. Qed.
Lemma fold_in_flip m i c : (0 < m)%Z -> fold_in m (2 * m * c - 1 - i) = fold_in m i.
Proof.
  intros H. unfold fold_in. cbv zeta. pose proof (Z.mod_pos_bound i (2 * m) ltac:(lia)) as B. pose proof (Z.div_mod i (2 * m) ltac:(lia)) as D.
  assert (E : ((2 * m * c - 1 - i) mod (2 * m) = 2 * m - 1 - i mod (2 * m))%Z).
  { symmetry. apply (Z.mod_unique _ _ (c - i / (2 * m) - 1)); [lia|]. lia. }
  rewrite E. destruct (Z.ltb_spec (i mod (2 * m)) m); destruct (Z.ltb_spec (2 * m - 1 - i mod (2 * m)) m); lia.
Qed.
Lemma extension_lemma (v : list K) : length v = N -> exists F, mirror_symmetric axis n F /\ sampled g F = v.
Proof.
  intros L. set (f a i := if Nat.eqb a axis then Z.to_nat (fold_in n i) else Z.to_nat i).
  exists (fun x y z => at_ v (idx g (f 0%nat x) (f 1%nat y) (f 2%nat z))). split.
  - assert (P := sizes_pos axis). assert (F1 : forall i, f axis (-1 - i)%Z = f axis i).
    { intros i. unfold f. rewrite Nat.eqb_refl. f_equal. rewrite <- (@fold_in_flip n i 0) by lia. f_equal. lia. }
    assert (F2 : forall i, f axis (2 * n - 1 - i)%Z = f axis i).
    { intros i. unfold f. rewrite Nat.eqb_refl. f_equal. rewrite <- (@fold_in_flip n i 1) by lia. f_equal. lia. }
    intros x y z. assert (H3 := axis_lt). unfold moved. clearbody f. destruct axis as [|[|[|a]]]; [| | |lia]; rewrite ?F1, ?F2; auto.
  - apply vec_ext; [unfold sampled; now rewrite vbuild_length|]. unfold sampled. rewrite vbuild_length. intros t Ht. rewrite vbuild_at by auto. f_equal.
    assert (C : forall a, (a < 3)%nat -> f a (Z.of_nat (coord g a t)) = coord g a t).
    { intros a H. pose proof (@coord_lt K g a t H Ht) as C. cbn in C. unfold f. destruct (Nat.eqb_spec a axis) as [E|E].
      - subst a. rewrite fold_in_id; lia.
      - lia. }
    rewrite !C by lia. now apply idx_coord.
Qed.
End P.
