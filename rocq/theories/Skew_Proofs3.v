(** Derivatives, curls and the wave operator with sideways shifts on uniform cells. *)
From Verif Require Import Base CField CField_Proofs Maxwell_Model Maxwell_Spec Maxwell_Proofs Maxwell_Proofs2 Maxwell_Proofs3 Maxwell_Proofs4 Skew_Model Skew_Spec Skew_Proofs Skew_Proofs2 Phc_Spec.
From Coq Require Import ZArith.
Set Implicit Arguments.

Section M.
Variable K : cfield.
Local Open Scope K_scope.
Add Field Kfield : (k_field K).
Variable g : grid K.
Local Notation n := (cellsn g).
Local Notation N := (vlen g).
Local Notation coord := (coord g).
Variables (u w : nat -> K) (so : nat -> nat -> Z).
Local Notation rot a d := (rotation_matrix g a d u w (so a)).

Definition diagonal_zero : Prop := forall a, (a < 3)%nat -> so a a = 0%Z.
Definition Dfw (a : nat) : mat K := mmul n (mdiag (fun t => 1 / dxe g a (coord a t))) (msub (rot a 1) meye).
Definition Dbk (a : nat) : mat K := mmul n (mdiag (fun t => - (1) / dxh g a (coord a t))) (msub (rot a (-1)) meye).
Definition pick (D : nat -> mat K) (a : nat) : mat K := match a with 0 => D 0%nat | 1 => D 1%nat | _ => D 2%nat end.
Lemma forward_ok : diagonal_zero -> deriv_forward_shift g u w so = Ok (pick Dfw).
Proof. intros H. unfold deriv_forward_shift, three, forward_axis, rotation_bloch_shift. rewrite !H by lia. reflexivity. Qed.
Lemma back_ok : diagonal_zero -> deriv_back_shift g u w so = Ok (pick Dbk).
Proof. intros H. unfold deriv_back_shift, three, back_axis, rotation_bloch_shift. rewrite !H by lia. reflexivity. Qed.
Lemma shift_rejected : ~ diagonal_zero -> deriv_forward_shift g u w so = Err ValueError /\ deriv_back_shift g u w so = Err ValueError.
Proof.
  intros H. unfold deriv_forward_shift, deriv_back_shift, three, forward_axis, back_axis, rotation_bloch_shift.
  destruct (Z.eqb_spec (so 0%nat 0%nat) 0) as [H0|]; [|split; reflexivity]. destruct (Z.eqb_spec (so 1%nat 1%nat) 0) as [H1|]; [|split; reflexivity].
  destruct (Z.eqb_spec (so 2%nat 2%nat) 0) as [H2|]; [|split; reflexivity]. exfalso. apply H. intros a Ha. ax3 a; auto.
Qed.
Lemma good_diagonal : good_shift (dim g) so -> diagonal_zero.
Proof. intros H a Ha. now destruct (H a a Ha Ha). Qed.

Hypothesis Hgood : good_shift (dim g) so.
Hypothesis Huw : inverse_factors u w.
Variable h : nat -> K.
Hypothesis Huni : forall a i, (a < 3)%nat -> (i < dim g a)%nat -> dxe g a i = h a /\ dxh g a i = h a.
Lemma Dfw_at a v t : (a < 3)%nat -> (t < n)%nat -> at_ (mv n (Dfw a) v) t = (at_ (mv n (rot a 1) v) t - at_ v t) / h a.
Proof.
  intros Ha Ht. unfold Dfw. rewrite mv_mmul, mv_mdiag_at, mv_msub_at by auto. unfold meye. rewrite mv_mdiag_at by auto.
  destruct (Huni Ha (coord_lt g Ha Ht)) as [-> _]. rewrite !(Fdiv_def (k_field K)). ring.
Qed.
Lemma Dbk_at a v t : (a < 3)%nat -> (t < n)%nat -> at_ (mv n (Dbk a) v) t = (at_ v t - at_ (mv n (rot a (-1)) v) t) / h a.
Proof.
  intros Ha Ht. unfold Dbk. rewrite mv_mmul, mv_mdiag_at, mv_msub_at by auto. unfold meye. rewrite mv_mdiag_at by auto.
  destruct (Huni Ha (coord_lt g Ha Ht)) as [_ ->]. rewrite !(Fdiv_def (k_field K)). ring.
Qed.
Lemma mv_norm (A : mat K) (v : list K) : mv n A v = mv n A (vbuild n (at_ v)).
Proof. apply mv_vext. intros i Hi. now rewrite vbuild_at. Qed.
Lemma pos_dims t : (t < n)%nat -> forall b, (b < 3)%nat -> (0 < dim g b)%nat.
Proof. intros Ht b Hb. destruct (cells_pos g Ht) as (? & ? & ?). ax3 b; auto. Qed.
Lemma diff_twice (f1 f2 : nat -> mat K) s1 s2 a b d e v t :
  (forall v t, (t < n)%nat -> at_ (mv n (f1 a) v) t = s1 * (at_ (mv n (rot a d) v) t - at_ v t)) ->
  (forall v t, (t < n)%nat -> at_ (mv n (f2 b) v) t = s2 * (at_ (mv n (rot b e) v) t - at_ v t)) -> (t < n)%nat ->
  at_ (mv n (f1 a) (mv n (f2 b) v)) t
  = s1 * s2 * (at_ (mv n (rot a d) (mv n (rot b e) v)) t - at_ (mv n (rot a d) v) t - at_ (mv n (rot b e) v) t + at_ v t).
Proof.
  intros E1 E2 Ht. pose proof (pos_dims Ht) as Hpos. rewrite E1 by auto.
  rewrite (@rot_at' K g u w so Hpos a d (mv n (f2 b) v)) by auto. rewrite !E2 by (auto; apply (@target_lt K g so Hpos)).
  rewrite (@rot_at' K g u w so Hpos a d (mv n (rot b e) v)) by auto. rewrite (@rot_at' K g u w so Hpos a d v) by auto. ring.
Qed.
Lemma diff_commute (f1 f2 : nat -> mat K) s1 s2 a b d e v t :
  (forall v t, (t < n)%nat -> at_ (mv n (f1 a) v) t = s1 * (at_ (mv n (rot a d) v) t - at_ v t)) ->
  (forall v t, (t < n)%nat -> at_ (mv n (f2 b) v) t = s2 * (at_ (mv n (rot b e) v) t - at_ v t)) ->
  (a < 3)%nat -> (b < 3)%nat -> (d = 1 \/ d = -1)%Z -> (e = 1 \/ e = -1)%Z -> (t < n)%nat ->
  at_ (mv n (f1 a) (mv n (f2 b) v)) t = at_ (mv n (f2 b) (mv n (f1 a) v)) t.
Proof.
  intros E1 E2 Ha Hb Hd He Ht. pose proof (pos_dims Ht) as Hpos.
  rewrite (@diff_twice f1 f2 s1 s2 a b d e v t E1 E2 Ht), (@diff_twice f2 f1 s2 s1 b a e d v t E2 E1 Ht).
  pose proof (@rot_commute K g u w so Huw Hgood Hpos a b d e (vbuild n (at_ v)) Ha Hb Hd He (@vbuild_length K n (at_ v))) as C.
  rewrite <- !mv_norm in C. rewrite C. ring.
Qed.
Lemma commuting_pick (f : nat -> mat K) s d : (d = 1 \/ d = -1)%Z ->
  (forall a v t, (a < 3)%nat -> (t < n)%nat -> at_ (mv n (f a) v) t = s a * (at_ (mv n (rot a d) v) t - at_ v t)) -> commuting g (pick f).
Proof.
  intros Hd E a b v t Ha Hb Ht.
  assert (P : forall c, (c < 3)%nat -> pick f c = f c) by (intros c Hc; ax3 c; reflexivity).
  rewrite !P by auto. apply (@diff_commute f f (s a) (s b) a b d d); auto.
Qed.
Lemma commuting_fw : commuting g (pick Dfw).
Proof.
  apply (@commuting_pick Dfw (fun a => 1 / h a) 1); [lia|]. intros a v t Ha Ht. rewrite Dfw_at by auto. rewrite !(Fdiv_def (k_field K)). ring.
Qed.
Lemma commuting_bk : commuting g (pick Dbk).
Proof.
  apply (@commuting_pick Dbk (fun a => - (1) / h a) (-1)); [lia|]. intros a v t Ha Ht. rewrite Dbk_at by auto. rewrite !(Fdiv_def (k_field K)). ring.
Qed.

Hypothesis Hconj : forall a, (a < 3)%nat -> kconj (u a) = w a.
Hypothesis Hreal : forall a, (a < 3)%nat -> kconj (h a) = h a.
Hypothesis Hnz : forall a, (a < 3)%nat -> h a <> 0.
Lemma D_adjoint a i j : (a < 3)%nat -> (i < n)%nat -> (j < n)%nat -> Dbk a i j = - kconj (Dfw a j i).
Proof.
  intros Ha Hi Hj. unfold Dbk, Dfw. rewrite !mmul_mdiag_l by auto. pose proof (pos_dims Hi) as Hpos.
  destruct (Huni Ha (coord_lt g Ha Hi)) as [_ ->]. destruct (Huni Ha (coord_lt g Ha Hj)) as [-> _].
  unfold msub. rewrite (@rot_adjoint K g u w so Huw Hgood Hpos Hconj a i j) by auto.
  rewrite kconj_mul, kconj_sub, kconj_div, kconj_1, Hreal by auto. unfold meye, mdiag. rewrite (Nat.eqb_sym j i).
  destruct (Nat.eqb i j); rewrite ?kconj_1, ?kconj_0, !(Fdiv_def (k_field K)); ring.
Qed.
Lemma curl_adjoint i j : (i < N)%nat -> (j < N)%nat -> cross g (pick Dbk) i j = kconj (cross g (pick Dfw) j i).
Proof.
  intros Hi Hj. destruct (block_ex n Hi) as (r & t & Hr & Ht & ->). destruct (block_ex n Hj) as (c & s & Hc & Hs & ->).
  unfold cross. rewrite !bmat_at by auto. ax3 r; ax3 c; cbn [pick]; unfold mneg; rewrite ?D_adjoint by auto;
  rewrite ?kconj_opp, ?kconj_0; ring.
Qed.

Definition maskf (m : option (nat -> bool)) (i : nat) : K := match m with None => 1 | Some b => if b i then 0 else 1 end.
Lemma mask_diag m : mask (K:=K) m = mdiag (maskf m).
Proof. destruct m; reflexivity. Qed.
Definition divf (mu : option (nat -> K)) (i : nat) : K := match mu with None => 1 | Some m => 1 / m i end.
Lemma div_diag mu : (match mu with None => meye | Some m => mdiag (fun i => 1 / m i) end) = mdiag (divf mu) :> mat K.
Proof. destruct mu; reflexivity. Qed.
Lemma real_mask m i : kconj (maskf m i) = maskf m i.
Proof. destruct m as [b|]; simpl; [destruct (b i)|]; rewrite ?kconj_0, ?kconj_1; reflexivity. Qed.
Definition operator (omega : K) eps mu pec pmc (ce ch : mat K) : mat K :=
  let mm := mmul N in
  mm (mm (mask pec) (msub (mm (mm (mm ch (mask pmc)) (match mu with None => meye | Some m => mdiag (fun i => 1 / m i) end)) ce) (mscale (omega * omega) (mdiag eps)))) (mask pec).
Lemma operator_entry omega eps mu pec pmc ce ch i j : (i < N)%nat -> (j < N)%nat ->
  operator omega eps mu pec pmc ce ch i j
  = maskf pec i * (fsum N (fun k => ch i k * (maskf pmc k * divf mu k) * ce k j) - omega * omega * (if Nat.eqb i j then eps i else 0)) * maskf pec j.
Proof.
  intros Hi Hj. unfold operator. cbn zeta. rewrite !mask_diag, div_diag. rewrite mmul_mdiag_r by auto. f_equal. rewrite mmul_mdiag_l by auto. f_equal.
  unfold msub, mscale. f_equal.
  unfold mmul at 1. apply fsum_ext. intros k Hk. rewrite !mmul_mdiag_r by auto. ring.
Qed.
Lemma operator_hermitian omega eps mu pec pmc : kconj omega = omega -> (forall i, (i < N)%nat -> kconj (eps i) = eps i) -> real_opt N mu -> nonzero_opt N mu ->
  hermitian N (operator omega eps mu pec pmc (cross g (pick Dfw)) (cross g (pick Dbk))).
Proof.
  intros Hw He Hmr Hm0 i j Hi Hj. rewrite !operator_entry by auto. rewrite !kconj_mul, kconj_sub, !kconj_mul, !real_mask, Hw, kconj_fsum.
  transitivity (maskf pec j * (fsum N (fun k => cross g (pick Dbk) i k * (maskf pmc k * divf mu k) * cross g (pick Dfw) k j) - omega * omega * (if Nat.eqb i j then eps i else 0)) * maskf pec i); [ring|].
  f_equal. f_equal. f_equal.
  - apply fsum_ext. intros k Hk. rewrite !kconj_mul, real_mask. rewrite (curl_adjoint Hi Hk), (curl_adjoint Hj Hk), kconj_conj.
    assert (E : kconj (divf mu k) = divf mu k).
    { destruct mu as [m|]; simpl; [|apply kconj_1]. rewrite kconj_div, kconj_1 by now apply Hm0. f_equal. now apply Hmr. }
    rewrite E. ring.
  - f_equal. rewrite (Nat.eqb_sym j i). destruct (Nat.eqb_spec i j) as [->|]; [symmetry; now apply He|symmetry; apply kconj_0].
Qed.
Lemma curl_pairing E : fsum N (fun i => kconj (at_ E i) * at_ (mv N (cross g (pick Dbk)) (mv N (cross g (pick Dfw)) E)) i)
  = fsum N (fun k => kconj (at_ (mv N (cross g (pick Dfw)) E) k) * at_ (mv N (cross g (pick Dfw)) E) k).
Proof.
  set (H := mv N (cross g (pick Dfw)) E).
  transitivity (fsum N (fun i => fsum N (fun k => kconj (at_ E i) * kconj (cross g (pick Dfw) k i) * at_ H k))).
  - apply fsum_ext. intros i Hi. rewrite mv_at by auto. rewrite <- fsum_scale. apply fsum_ext. intros k Hk. rewrite (curl_adjoint Hi Hk). ring.
  - rewrite fsum_swap. apply fsum_ext. intros k Hk. unfold H at 2. rewrite mv_at by auto. rewrite kconj_fsum, fsum_scale_r. f_equal.
    apply fsum_ext. intros i Hi. rewrite kconj_mul. ring.
Qed.
Lemma operator_plain omega eps E i : (i < N)%nat ->
  at_ (mv N (operator omega eps None None None (cross g (pick Dfw)) (cross g (pick Dbk))) E) i
  = at_ (mv N (cross g (pick Dbk)) (mv N (cross g (pick Dfw)) E)) i - omega * omega * (eps i * at_ E i).
Proof.
  intros Hi. rewrite mv_at by auto. rewrite <- mv_mmul. rewrite mv_at by auto.
  transitivity (fsum N (fun j => mmul N (cross g (pick Dbk)) (cross g (pick Dfw)) i j * at_ E j) - fsum N (fun j => omega * omega * ((if Nat.eqb i j then eps i else 0) * at_ E j))).
  - rewrite <- fsum_sub. apply fsum_ext. intros j Hj. rewrite operator_entry by auto. simpl maskf.
    assert (Es : fsum N (fun k => cross g (pick Dbk) i k * (maskf None k * divf None k) * cross g (pick Dfw) k j) = mmul N (cross g (pick Dbk)) (cross g (pick Dfw)) i j).
    { unfold mmul. apply fsum_ext. intros k Hk. simpl. ring. }
    simpl maskf in Es. rewrite Es. ring.
  - f_equal. rewrite fsum_scale. f_equal. rewrite (@fsum_single K N i); auto; [now rewrite Nat.eqb_refl|].
    intros j _ Hj. destruct (Nat.eqb_spec i j); [congruence|ring].
Qed.
End M.
