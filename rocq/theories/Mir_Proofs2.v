(** Proofs about the cyclic shift matrices with a phase. *)
From Coq Require Import Reals ZArith Lia.
From Coq Require Lra.
From Verif Require Import Base CField CField_Proofs Maxwell_Model Maxwell_Proofs GMath_Model GMath_Proofs CplxField Wg_Model2 Mir_Model Mir_Spec Mir_Proofs.
Set Implicit Arguments.
Section P.
Local Open Scope K_scope.
Add Field CCF : (k_field CC).
Variable shape : list nat.
Hypothesis G : good_shape shape.
Local Notation g := (shape_grid CC shape).
Local Notation N := (cellsn g).
Variable axis : nat.
Hypothesis Ha : (axis < length shape)%nat.
Local Notation sz := (sizes shape axis).
Lemma a3 : (axis < 3)%nat. Proof. exact (axis_lt G Ha). Qed.

Lemma ring_entry t j : (t < N)%nat -> ring_matrix shape axis t j = if Nat.eqb (fwd g axis t) j then (1 : CC) else 0.
Proof.
  intros Ht. unfold ring_matrix. cbv zeta.
  match goal with |- context [Nat.eqb ?e j] => assert (E : e = fwd g axis t) end.
  { rewrite <- (@idx_coord CC g (fwd g axis t)) by (now apply fwd_lt). unfold idx.
    rewrite !(@coord_fwd CC g axis) by (auto using a3). cbn [dim shape_grid]. ring. }
  now rewrite E.
Qed.
Lemma fwd_coords t j : (t < N)%nat -> (j < N)%nat ->
  (fwd g axis t = j <-> forall a, (a < 3)%nat -> coord g a j = if Nat.eqb a axis then ((coord g a t + 1) mod sizes shape a)%nat else coord g a t).
Proof.
  intros Ht Hj. split.
  - intros <- a H. now rewrite coord_fwd by (auto using a3).
  - intros H. apply (@cell_ext CC g); auto using fwd_lt. intros a Hlt. now rewrite H, coord_fwd by (auto using a3).
Qed.
Lemma edge_entry t j : (t < N)%nat -> (j < N)%nat ->
  edge_matrix shape axis t j = if Nat.eqb (fwd g axis t) j && Nat.eqb (coord g axis t + 1) sz then (1 : CC) else 0.
Proof.
  intros Ht Hj. unfold edge_matrix. pose proof (@coord_lt CC g axis t a3 Ht) as C. cbn [dim shape_grid] in C.
  match goal with |- (if ?b then _ else _) = (if ?b' then _ else _) => assert (E : b = b') end; [|now rewrite E].
  apply Bool.eq_true_iff_eq. rewrite forallb_forall, Bool.andb_true_iff, !Nat.eqb_eq, (fwd_coords Ht Hj). split.
  - intros H. assert (X := H axis ltac:(apply in_seq; pose proof a3; lia)). cbv beta in X. rewrite Nat.eqb_refl, Bool.andb_true_iff, !Nat.eqb_eq in X. destruct X as [X Y].
    split; [|lia]. intros a L. specialize (H a ltac:(apply in_seq; lia)). cbv beta in H. destruct (Nat.eqb_spec a axis) as [E|E].
    + rewrite E, Y, X. replace (sz - 1 + 1)%nat with sz by lia. now rewrite Nat.mod_same by lia.
    + apply Nat.eqb_eq in H. auto.
  - intros [H X] a I. apply in_seq in I. specialize (H a ltac:(lia)). destruct (Nat.eqb_spec a axis) as [E|E].
    + rewrite Bool.andb_true_iff, !Nat.eqb_eq. rewrite E in *. rewrite X, Nat.mod_same in H by lia. lia.
    + apply Nat.eqb_eq. auto.
Qed.
Variable phi : CC.
Definition df : mat CC := fun t j => ring_matrix shape axis t j - edge_matrix shape axis t j + cexp (- ki * phi) * edge_matrix shape axis t j.
Local Notation u := (fun _ : nat => cexp (- ki * phi)).
Lemma df_entry t j : (t < N)%nat -> (j < N)%nat -> df t j = if Nat.eqb (fwd g axis t) j then fd g u axis t else 0.
Proof.
  intros Ht Hj. unfold df. rewrite ring_entry, edge_entry by auto. unfold fd. cbn [dim shape_grid].
  destruct (Nat.eqb (fwd g axis t) j); cbn [andb]; [destruct (Nat.eqb (coord g axis t + 1) sz)|]; ring.
Qed.
Lemma conj_exp (z : CC) : kconj (cexp z) = cexp (kconj z).
Proof. apply c_eq; unfold cexp; cbn; rewrite ?cos_neg, ?sin_neg; Lra.lra. Qed.
Lemma conj_factor : kconj (cexp (- ki * phi)) = cexp (ki * kconj phi).
Proof. rewrite conj_exp. f_equal. rewrite kconj_mul. apply c_eq; cbn; Lra.lra. Qed.
Local Notation w := (fun _ : nat => cexp (ki * kconj phi)).
Lemma kconj_one : kconj (1 : CC) = 1. Proof. apply c_eq; cbn; Lra.lra. Qed.
Lemma kconj_zero : kconj (0 : CC) = 0. Proof. apply c_eq; cbn; Lra.lra. Qed.
Lemma dfH_entry t j : (t < N)%nat -> (j < N)%nat -> mherm df t j = if Nat.eqb (bwd g axis t) j then bd g w axis t else 0.
Proof.
  intros Ht Hj. unfold mherm. rewrite df_entry by auto.
  destruct (Nat.eqb_spec (fwd g axis j) t) as [E|E]; destruct (Nat.eqb_spec (bwd g axis t) j) as [E'|E'].
  - unfold fd, bd. cbn [dim shape_grid]. rewrite <- E, coord_fwd by (auto using a3). rewrite Nat.eqb_refl. cbn [dim shape_grid].
    pose proof (@coord_lt CC g axis j a3 Hj) as C. cbn [dim shape_grid] in C. destruct (Nat.eqb_spec (coord g axis j + 1) sz) as [X|X].
    + rewrite X, Nat.mod_same by lia. cbn [Nat.eqb]. apply conj_factor.
    + rewrite Nat.mod_small by lia. destruct (Nat.eqb_spec (coord g axis j + 1) 0); [lia|]. apply kconj_one.
  - exfalso. apply E'. rewrite <- E. now rewrite bwd_fwd by (auto using a3).
  - exfalso. apply E. rewrite <- E'. now rewrite fwd_bwd by (auto using a3).
  - apply kconj_zero.
Qed.
Lemma rotation_ok s : s = 1%Z \/ s = (-1)%Z -> rotation_bloch shape axis phi s = Ok (if (s =? -1)%Z then mherm df else df).
Proof. intros H. unfold rotation_bloch. rewrite check_ok by auto. cbn [bind]. destruct H as [-> | ->]; reflexivity. Qed.
Lemma mv_ext_at (A B : mat CC) v t : (t < N)%nat -> (forall j, (j < N)%nat -> A t j = B t j) -> at_ (mv N A v) t = at_ (mv N B v) t.
Proof. intros Ht H. rewrite !mv_at by auto. apply fsum_ext. intros j Hj. now rewrite H. Qed.
Lemma df_at v t : (t < N)%nat -> at_ (mv N df v) t = fd g u axis t * at_ v (fwd g axis t).
Proof.
  intros Ht. rewrite (@mv_ext_at df (fun t j => if Nat.eqb (fwd g axis t) j then fd g u axis t else 0)) by (auto using df_entry).
  now rewrite (@mv_pick_at CC N (fwd g axis) (fd g u axis)) by (auto using fwd_lt).
Qed.
Lemma dfH_at v t : (t < N)%nat -> at_ (mv N (mherm df) v) t = bd g w axis t * at_ v (bwd g axis t).
Proof.
  intros Ht. rewrite (@mv_ext_at (mherm df) (fun t j => if Nat.eqb (bwd g axis t) j then bd g w axis t else 0)) by (auto using dfH_entry).
  now rewrite (@mv_pick_at CC N (bwd g axis) (bd g w axis)) by (auto using bwd_lt).
Qed.
Lemma cexp_inv (z : CC) : cexp z * cexp (- z) = 1.
Proof.
  apply c_eq; unfold cexp; cbn; rewrite cos_neg, sin_neg, exp_Ropp.
  - pose proof (sin2_cos2 (snd z)) as H. unfold Rsqr in H. pose proof (exp_pos (fst z)). field_simplify; [|Lra.lra]. Lra.nra.
  - field. pose proof (exp_pos (fst z)). Lra.lra.
Qed.
(** along the axis: the next and the previous cell *)
Lemma forward_lemma F : bloch_periodic axis (Z.of_nat sz) (cexp (- ki * phi)) F ->
  mv N df (sampled g F) = sampled g (moved axis (fun i => i + 1)%Z F).
Proof.
  intros HF. apply vec_ext; [unfold sampled; now rewrite mv_length, vbuild_length|]. rewrite mv_length. intros t Ht.
  rewrite df_at by auto. unfold sampled. rewrite !vbuild_at by (auto using fwd_lt). rewrite !coord_fwd by (auto using a3). unfold fd. cbn [dim shape_grid].
  pose proof (@coord_lt CC g axis t a3 Ht) as C. cbn [dim shape_grid] in C.
  set (c := fun a => coord g a t) in *. change (coord g 0 t) with (c 0%nat). change (coord g 1 t) with (c 1%nat). change (coord g 2 t) with (c 2%nat).
  change (coord g axis t) with (c axis) in *. clearbody c. assert (A3 := a3). unfold bloch_periodic, moved in *.
  destruct (Nat.eqb_spec (c axis + 1) sz) as [E|E];
  (destruct axis as [|[|[|a]]]; [| | |lia]); cbn [Nat.eqb];
  (rewrite ?E, ?Nat.mod_same by lia); rewrite ?Nat.mod_small by lia.
  all: try (rewrite <- HF; f_equal; lia).
  all: match goal with |- 1 * ?F ?x ?y ?z = ?F' ?x' ?y' ?z' => transitivity (F x y z); [ring|]; f_equal; lia end.
Qed.
Lemma back_lemma F : bloch_periodic axis (Z.of_nat sz) (cexp (- ki * kconj phi)) F ->
  mv N (mherm df) (sampled g F) = sampled g (moved axis (fun i => i - 1)%Z F).
Proof.
  intros HF. apply vec_ext; [unfold sampled; now rewrite mv_length, vbuild_length|]. rewrite mv_length. intros t Ht.
  rewrite dfH_at by auto. unfold sampled. rewrite !vbuild_at by (auto using bwd_lt). rewrite !coord_bwd by (auto using a3). unfold bd. cbn [dim shape_grid].
  pose proof (@coord_lt CC g axis t a3 Ht) as C. cbn [dim shape_grid] in C.
  set (c := fun a => coord g a t) in *. change (coord g 0 t) with (c 0%nat). change (coord g 1 t) with (c 1%nat). change (coord g 2 t) with (c 2%nat).
  change (coord g axis t) with (c axis) in *. clearbody c. assert (A3 := a3). unfold bloch_periodic, moved in *.
  assert (I : forall x : CC, cexp (ki * kconj phi) * (cexp (- ki * kconj phi) * x) = x).
  { intros x. pose proof (cexp_inv (ki * kconj phi)) as H. replace (- (ki * kconj phi)) with (- ki * kconj phi) in H by ring.
    transitivity (cexp (ki * kconj phi) * cexp (- ki * kconj phi) * x); [ring|]. rewrite H. ring. }
  destruct (Nat.eqb_spec (c axis) 0) as [E|E].
  - (destruct axis as [|[|[|a]]]; [| | |lia]); cbn [Nat.eqb]; rewrite E, (Nat.mod_small (0 + _ - 1)) by lia.
    all: match goal with |- _ = ?F ?x ?y ?z => rewrite <- (I (F x y z)), <- HF end; f_equal; f_equal; lia.
  - (destruct axis as [|[|[|a]]]; [| | |lia]); cbn [Nat.eqb];
    match goal with |- context [((?i + ?m - 1) mod ?m)%nat] => replace (i + m - 1)%nat with (i - 1 + 1 * m)%nat by lia; rewrite Nat.mod_add, Nat.mod_small by lia end.
    all: match goal with |- 1 * ?F ?x ?y ?z = ?F' ?x' ?y' ?z' => transitivity (F x y z); [ring|]; f_equal; lia end.
Qed.
End P.
