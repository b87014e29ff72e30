(** Every vector extends to a skew-periodic function; hence the rotations commute, are
    inverse to each other and, with phases of modulus one, adjoint to each other. *)
From Verif Require Import Base CField CField_Proofs Maxwell_Model Maxwell_Spec Maxwell_Proofs Maxwell_Proofs2 Maxwell_Proofs3 Maxwell_Proofs4 Skew_Model Skew_Spec Skew_Proofs Phc_Spec.
From Coq Require Import ZArith.
Set Implicit Arguments.

Section M.
Variable K : cfield.
Local Open Scope K_scope.
Add Field Kfield : (k_field K).
Variable g : grid K.
Local Notation n := (cellsn g).
Local Notation N := (vlen g).
Local Notation coord := (coord g).
Variables (u w : nat -> K) (so : nat -> nat -> Z).
Hypothesis Huw : inverse_factors u w.
Hypothesis Hgood : good_shift (dim g) so.
Local Notation rot a d := (rotation_matrix g a d u w (so a)).

Fixpoint kpow (x : K) (m : nat) : K := match m with O => 1 | S m' => x * kpow x m' end.
Definition upow (b : nat) (m : Z) : K := if Z.leb 0 m then kpow (u b) (Z.to_nat m) else kpow (w b) (Z.to_nat (- m)).
Lemma upow_succ b m : upow b (m + 1) = u b * upow b m.
Proof.
  unfold upow. destruct (Z.leb_spec 0 m) as [H|H]; destruct (Z.leb_spec 0 (m + 1)) as [H'|H']; try lia.
  - replace (Z.to_nat (m + 1)) with (S (Z.to_nat m)) by lia. reflexivity.
  - assert (m = -1)%Z as -> by lia. simpl. transitivity (u b * w b); [now rewrite Huw|ring].
  - replace (Z.to_nat (- m)) with (S (Z.to_nat (- (m + 1)))) by lia. cbn [kpow].
    transitivity (u b * w b * kpow (w b) (Z.to_nat (- (m + 1)))); [rewrite Huw|]; ring.
Qed.
Lemma upow_0 b : upow b 0 = 1.
Proof. reflexivity. Qed.

(** the sideways position when the periods passed along the axes are undone *)
Definition undone (p : nat -> Z) (b : nat) : Z :=
  let m a := (p a / Z.of_nat (dim g a) * so a b)%Z in (p b + (m 0%nat + m 1%nat + m 2%nat))%Z.
Definition factor (q : nat -> Z) (b : nat) : K := upow b (q b / Z.of_nat (dim g b)).
Definition extend (v : list K) : lattice K := fun p =>
  let q := undone p in factor q 0 * factor q 1 * factor q 2 * at_ v (ravel_wrap g q).
Lemma undone_ext p q : (forall a, (a < 3)%nat -> p a = q a) -> forall b, (b < 3)%nat -> undone p b = undone q b.
Proof. intros H b Hb. unfold undone. rewrite !H by lia. reflexivity. Qed.
Lemma ravel_ext p q : (forall a, (a < 3)%nat -> (p a mod Z.of_nat (dim g a) = q a mod Z.of_nat (dim g a))%Z) -> ravel_wrap g p = ravel_wrap g q.
Proof. intros H. unfold ravel_wrap. cbn zeta. rewrite !H by lia. reflexivity. Qed.
Lemma extend_extensional v : extensional (extend v).
Proof.
  intros p q H. unfold extend. cbn zeta. unfold factor. rewrite !(undone_ext p q H) by lia. f_equal. f_equal.
  apply ravel_ext. intros a Ha. now rewrite (undone_ext p q H) by lia.
Qed.
Hypothesis Hpos : forall b, (b < 3)%nat -> (0 < dim g b)%nat.
Lemma step_div a c p : (a < 3)%nat -> (c < 3)%nat -> (step a (Z.of_nat (dim g a)) p c / Z.of_nat (dim g c) = p c / Z.of_nat (dim g c) + if Nat.eqb c a then 1 else 0)%Z.
Proof.
  intros Ha Hc. pose proof (Hpos Hc). unfold step. destruct (Nat.eqb_spec c a) as [->|]; [|lia].
  replace (p a + Z.of_nat (dim g a))%Z with (p a + 1 * Z.of_nat (dim g a))%Z by lia. now rewrite Z.div_add by lia.
Qed.
Lemma side_term a b c p : (a < 3)%nat -> (b < 3)%nat -> (c < 3)%nat ->
  ((p c + so a c) / Z.of_nat (dim g c) * so c b = p c / Z.of_nat (dim g c) * so c b)%Z.
Proof.
  intros Ha Hb Hc. destruct (Z.eq_dec (so a c) 0) as [->|Hn]; [now rewrite Z.add_0_r|].
  destruct (Hgood Ha Hc) as (_ & _ & H). rewrite (H Hn b Hb). lia.
Qed.
Lemma undone_step a p b : (a < 3)%nat -> (b < 3)%nat ->
  undone (step a (Z.of_nat (dim g a)) p) b = (undone (fun c => p c + so a c)%Z b + if Nat.eqb b a then Z.of_nat (dim g a) else 0)%Z.
Proof.
  intros Ha Hb. unfold undone. cbn zeta. rewrite !step_div by lia. rewrite !side_term by lia.
  assert (E : step a (Z.of_nat (dim g a)) p b = (p b + if Nat.eqb b a then Z.of_nat (dim g a) else 0)%Z).
  { unfold step. destruct (Nat.eqb b a); lia. }
  rewrite E. ax3 a; cbn [Nat.eqb]; lia.
Qed.
Lemma extend_periodic v : skew_periodic (dim g) u so (extend v).
Proof.
  intros a p Ha. unfold extend. cbn zeta. set (q := undone (fun b => (p b + so a b)%Z)).
  assert (Eq : forall b, (b < 3)%nat -> undone (step a (Z.of_nat (dim g a)) p) b = (q b + if Nat.eqb b a then Z.of_nat (dim g a) else 0)%Z)
    by (intros b Hb; now apply undone_step).
  assert (Ef : forall b, (b < 3)%nat -> factor (undone (step a (Z.of_nat (dim g a)) p)) b = (if Nat.eqb b a then u a else 1) * factor q b).
  { intros b Hb. unfold factor. rewrite Eq by auto. pose proof (Hpos Hb). destruct (Nat.eqb_spec b a) as [->|].
    - replace (q a + Z.of_nat (dim g a))%Z with (q a + 1 * Z.of_nat (dim g a))%Z by lia. rewrite Z.div_add by lia. apply upow_succ.
    - rewrite Z.add_0_r. ring. }
  assert (Er : ravel_wrap g (undone (step a (Z.of_nat (dim g a)) p)) = ravel_wrap g q).
  { apply ravel_ext. intros b Hb. rewrite Eq by auto. pose proof (Hpos Hb). destruct (Nat.eqb_spec b a) as [->|]; [|now rewrite Z.add_0_r].
    replace (q a + Z.of_nat (dim g a))%Z with (q a + 1 * Z.of_nat (dim g a))%Z by lia. now rewrite Z.mod_add by lia. }
  rewrite !Ef, Er by lia. ax3 a; cbn [Nat.eqb]; ring.
Qed.
Lemma extend_restrict v : length v = n -> restrict g (extend v) = v.
Proof.
  intros Hv. apply vec_ext; [unfold restrict; now rewrite vbuild_length|]. unfold restrict. rewrite vbuild_length. intros t Ht.
  rewrite vbuild_at by auto. unfold extend. cbn zeta.
  assert (E : forall b, (b < 3)%nat -> undone (cell g t) b = Z.of_nat (coord b t)).
  { intros b Hb. unfold undone, cell. rewrite !Z.div_small by (pose proof (coord_lt g (a:=0) ltac:(lia) Ht); pose proof (coord_lt g (a:=1) ltac:(lia) Ht);
      pose proof (coord_lt g (a:=2) ltac:(lia) Ht); lia). lia. }
  assert (Ef : forall b, (b < 3)%nat -> factor (undone (cell g t)) b = 1).
  { intros b Hb. unfold factor. rewrite E by auto. pose proof (coord_lt g Hb Ht). rewrite Z.div_small by lia. reflexivity. }
  rewrite !Ef by lia. replace (ravel_wrap g (undone (cell g t))) with t; [ring|].
  rewrite <- (idx_coord g Ht) at 1. unfold ravel_wrap, idx. cbn zeta. rewrite !E by lia.
  rewrite !Z.mod_small by (pose proof (coord_lt g (a:=0) ltac:(lia) Ht); pose proof (coord_lt g (a:=1) ltac:(lia) Ht);
      pose proof (coord_lt g (a:=2) ltac:(lia) Ht); lia). rewrite !Nat2Z.id. reflexivity.
Qed.

(** translations of skew-periodic functions *)
Lemma moved_extensional (F : lattice K) a d : extensional F -> extensional (fun p => F (step a d p)).
Proof. intros H p q Hpq. apply H. intros b Hb. unfold step. rewrite Hpq by auto. reflexivity. Qed.
Lemma moved_periodic (F : lattice K) a d : extensional F -> skew_periodic (dim g) u so F -> skew_periodic (dim g) u so (fun p => F (step a d p)).
Proof.
  intros He HF b p Hb. transitivity (F (step b (Z.of_nat (dim g b)) (step a d p))).
  - apply He. intros c Hc. unfold step. destruct (Nat.eqb c a), (Nat.eqb c b); lia.
  - rewrite HF by auto. f_equal. apply He. intros c Hc. unfold step. destruct (Nat.eqb c a); lia.
Qed.
Lemma rot_restrict (F : lattice K) a d : (a < 3)%nat -> (d = 1 \/ d = -1)%Z -> extensional F -> skew_periodic (dim g) u so F ->
  mv n (rot a d) (restrict g F) = restrict g (fun p => F (step a d p)).
Proof.
  intros Ha Hd He HF. apply vec_ext; [unfold restrict; now rewrite mv_length, vbuild_length|]. rewrite mv_length. intros t Ht.
  rewrite (@skew_rot_at K g u w so F Huw He Hgood HF d a t Ha Hd Ht). unfold restrict. now rewrite vbuild_at.
Qed.
Lemma rot_commute a b d e v : (a < 3)%nat -> (b < 3)%nat -> (d = 1 \/ d = -1)%Z -> (e = 1 \/ e = -1)%Z -> length v = n ->
  mv n (rot a d) (mv n (rot b e) v) = mv n (rot b e) (mv n (rot a d) v).
Proof.
  intros Ha Hb Hd He Hv. rewrite <- (extend_restrict v Hv). pose proof (extend_extensional v) as Hx. pose proof (extend_periodic v) as Hp.
  set (F := extend v) in *. clearbody F.
  rewrite (rot_restrict Hb He Hx Hp), (rot_restrict Ha Hd Hx Hp).
  rewrite (rot_restrict Ha Hd (moved_extensional b e Hx) (moved_periodic b e Hx Hp)), (rot_restrict Hb He (moved_extensional a d Hx) (moved_periodic a d Hx Hp)).
  apply vbuild_ext. intros t Ht. apply Hx. intros c Hc. unfold step. destruct (Nat.eqb c a), (Nat.eqb c b); lia.
Qed.
Lemma rot_inverse a d v : (a < 3)%nat -> (d = 1 \/ d = -1)%Z -> length v = n -> mv n (rot a (- d)) (mv n (rot a d) v) = v.
Proof.
  intros Ha Hd Hv. rewrite <- (extend_restrict v Hv) at 2. rewrite <- (extend_restrict v Hv) at 1.
  pose proof (extend_extensional v) as Hx. pose proof (extend_periodic v) as Hp.
  set (F := extend v) in *. clearbody F.
  rewrite (rot_restrict Ha Hd Hx Hp). assert (Hd' : (- d = 1 \/ - d = -1)%Z) by lia. rewrite (rot_restrict Ha Hd' (moved_extensional a d Hx) (moved_periodic a d Hx Hp)).
  apply vbuild_ext. intros t Ht. apply Hx. intros c Hc. unfold step. destruct (Nat.eqb c a); lia.
Qed.

(** the target cell and the factor of a rotation *)
Definition target (a : nat) (d : Z) (t : nat) : nat := ravel_wrap g (shifted_index g a d (so a) t).
Definition data (a : nat) (d : Z) (t : nat) : K := bloch_data g u w (shifted_index g a d (so a) t).
Lemma target_lt a d t : (target a d t < n)%nat.
Proof. apply ravel_wrap_lt; apply Hpos; lia. Qed.
Lemma rot_at' a d v t : (t < n)%nat -> at_ (mv n (rot a d) v) t = data a d t * at_ v (target a d t).
Proof. intros Ht. unfold rotation_matrix. rewrite (@mv_pick_at K n (target a d) (data a d)) by (auto using target_lt). reflexivity. Qed.
Lemma target_inverse a d t : (a < 3)%nat -> (d = 1 \/ d = -1)%Z -> (t < n)%nat ->
  target a d (target a (- d) t) = t /\ data a (- d) t * data a d (target a (- d) t) = 1.
Proof.
  intros Ha Hd Ht. set (e := vbuild n (fun i => if Nat.eqb i t then 1 else 0) : list K).
  assert (E : at_ (mv n (rot a (- d)) (mv n (rot a d) e)) t = at_ e t) by (rewrite rot_inverse; auto; apply vbuild_length).
  rewrite rot_at' in E by auto. rewrite rot_at' in E by apply target_lt. unfold e in E. rewrite !vbuild_at in E by auto using target_lt.
  rewrite Nat.eqb_refl in E. destruct (Nat.eqb_spec (target a d (target a (- d) t)) t) as [Ht'|Hne].
  - split; [exact Ht'|]. rewrite <- E. ring.
  - exfalso. apply (@k1_neq_0 K). rewrite <- E. ring.
Qed.
Hypothesis Hconj : forall a, (a < 3)%nat -> kconj (u a) = w a.
Lemma data_unit a d t : kconj (data a d t) * data a d t = 1.
Proof.
  unfold data, bloch_data. cbn zeta.
  assert (Eu : forall b, (b < 3)%nat -> kconj (u b) * u b = 1) by (intros b Hb; rewrite Hconj by auto; rewrite <- (Huw b); ring).
  assert (Ew : forall b, (b < 3)%nat -> kconj (w b) * w b = 1).
  { intros b Hb. rewrite <- Hconj by auto. rewrite kconj_conj. rewrite <- (Eu b Hb). ring. }
  assert (E : forall b (c1 c2 : bool), (b < 3)%nat -> kconj ((if c1 then u b else 1) * (if c2 then w b else 1)) * ((if c1 then u b else 1) * (if c2 then w b else 1)) = 1).
  { intros b c1 c2 Hb. rewrite kconj_mul. transitivity ((kconj (if c1 then u b else 1) * (if c1 then u b else 1)) * (kconj (if c2 then w b else 1) * (if c2 then w b else 1))); [ring|].
    destruct c1, c2; rewrite ?Eu, ?Ew, ?kconj_1 by auto; ring. }
  rewrite !kconj_mul. set (x0 := (if Z.leb _ _ then u 0%nat else 1)). 
  match goal with |- kconj ?a1 * kconj ?b1 * (kconj ?a2 * kconj ?b2) * (kconj ?a3 * kconj ?b3) * _ = _ =>
    transitivity ((kconj (a1 * b1) * (a1 * b1)) * (kconj (a2 * b2) * (a2 * b2)) * (kconj (a3 * b3) * (a3 * b3))); [rewrite !kconj_mul; ring|] end.
  subst x0. rewrite !E by lia. ring.
Qed.
Lemma rot_adjoint a i j : (a < 3)%nat -> (i < n)%nat -> (j < n)%nat -> rot a (-1) i j = kconj (rot a 1 j i).
Proof.
  intros Ha Hi Hj. unfold rotation_matrix. fold (target a (-1) i) (target a 1 j) (data a (-1) i) (data a 1 j).
  destruct (@target_inverse a 1 i Ha ltac:(lia) Hi) as [E1 D1]. destruct (@target_inverse a (-1) j Ha ltac:(lia) Hj) as [E2 D2]. cbn [Z.opp] in *.
  destruct (Nat.eqb_spec (target a (-1) i) j) as [H|H]; destruct (Nat.eqb_spec (target a 1 j) i) as [H'|H']; try congruence.
  - rewrite H in D1. pose proof (data_unit a 1 j) as U.
    transitivity (data a (-1) i * (kconj (data a 1 j) * data a 1 j)); [rewrite U; ring|].
    transitivity (data a (-1) i * data a 1 j * kconj (data a 1 j)); [ring|rewrite D1; ring].
  - symmetry. apply kconj_0.
Qed.
End M.
