(** Straight plane waves on an even grid; small instances. *)
From Coq Require Import Reals ZArith Lra Lia List.
From Verif Require Import Base CField CField_Proofs GMath_Model GMath_Proofs CplxField Maxwell_Model Maxwell_Spec Maxwell_Proofs Wg_Model Wg_Model2 Wg_Spec Fs_Model Fs_Spec Fs_Proofs Fs_Proofs2 Fs_Proofs3 Fs_Proofs4 Fs_Proofs5 Fs_Proofs6 Fs_Proofs7.
Import ListNotations.
Set Implicit Arguments.
Local Open Scope R_scope.

Lemma turn_0 : turn 0 = (1 : CC)%K.
Proof. unfold turn, cexp. cbn [fst snd]. rewrite exp_0, cos_0, sin_0. apply c_eq; cbn; ring. Qed.
Lemma turn_add a b : turn (a + b) = (turn a * turn b)%K.
Proof. unfold turn, cexp. cbn [fst snd]. rewrite exp_0, cos_plus, sin_plus. apply c_eq; cbn; ring. Qed.

(** *** the second difference of a wave *)
Lemma cos_lower x : x <> 0 -> 2 - 2 * cos x < x * x.
Proof.
  intros Hx. replace (2 - 2 * cos x) with (4 * (sin (x / 2) * sin (x / 2))).
  2:{ replace (cos x) with (cos (2 * (x / 2))) by (f_equal; field). rewrite cos_2a_sin. ring. }
  assert (H : forall y, 0 < y -> sin y * sin y < y * y).
  { intros y Hy. pose proof (sin_lt_x y Hy). pose proof (sin_lt_x y Hy). destruct (Rlt_dec y 1) as [H1|H1].
    - assert (0 <= sin y) by (apply sin_ge_0; pose proof PI2_1; lra). nra.
    - pose proof (SIN_bound y). destruct (Req_dec y 1) as [->|].
      + pose proof PI2_1. assert (0 <= sin 1) by (apply sin_ge_0; lra). nra.
      + assert (1 < y) by lra. nra. }
  destruct (Rlt_dec 0 x) as [Hp|Hp].
  - pose proof (H (x / 2) ltac:(lra)). lra.
  - pose proof (H (- (x / 2)) ltac:(lra)) as Q. rewrite sin_neg in Q. lra.
Qed.
Lemma cos_upper x : - PI / 2 <= x <= PI / 2 -> x * x - x ^ 4 / 12 <= 2 - 2 * cos x.
Proof.
  intros [H1 H2]. destruct (cos_bound x 0 H1 H2) as [_ H]. cbn in H. unfold cos_approx, cos_term in H. cbn in H. field_simplify in H. lra.
Qed.
(** *** wave at right angles to the plane *)
Section Straight.
Variables (g : grid CC) (eps : field3 CC) (omega h k a : R) (back : bool) (off : R).
Hypothesis Hh : 0 < h.
Hypothesis Hg : even_grid g h.
Local Notation u axis := (Nat.modulo (axis + 1) 3).
(** the wave is exp(-+ i k p), p = h i + off along the axis *)
Definition straight (axis : nat) : field3 CC := fun c x y z => (rl a * (turn (- (k * (sign back * (h * INR (pick axis x y z) + off)))) * rl (unit_vec (u axis) c)))%K.
Definition kv_straight (axis : nat) : vec3 := fun b => k * (sign back * unit_vec axis b).
Lemma kv_across axis b : b <> axis -> kv_straight axis b = 0.
Proof. intros H. unfold kv_straight, unit_vec. destruct (Nat.eqb_spec b axis); [contradiction|]. ring. Qed.
(** arrays that depend on the coordinate along the axis only, in the planes before the last one *)
Definition layered (axis : nat) (f : array CC) (F : nat -> CC) : Prop := forall x y z, in_grid g x y z -> f x y z = F (pick axis x y z).
Definition layered' (axis : nat) (f : array CC) (F : nat -> CC) : Prop := forall x y z, in_grid g x y z -> (pick axis x y z + 1 < dim g axis)%nat -> f x y z = F (pick axis x y z).
Definition step_of (axis : nat) (F : nat -> CC) (b l : nat) : CC := if Nat.eqb b axis then ((F (l + 1)%nat - F l) / rl h)%K else 0%K.
Definition step_to (axis : nat) (F : nat -> CC) (b l : nat) : CC := if Nat.eqb b axis then ((F l - F (l - 1)%nat) / rl h)%K else 0%K.
Lemma div_h_0 (w : CC) : ((1 * w - w) / rl h)%K = (0 : CC)%K.
Proof. apply c_eq; cbn; unfold cn2; cbn; field; nra. Qed.
Lemma div_h_0' (w : CC) : ((w - 1 * w) / rl h)%K = (0 : CC)%K.
Proof. apply c_eq; cbn; unfold cn2; cbn; field; nra. Qed.
Lemma one_l (w : CC) : (1 * w)%K = w.
Proof. apply c_eq; cbn; ring. Qed.
Lemma slope_layered axis f F b : (axis < 3)%nat -> (b < 3)%nat -> layered axis f F -> layered' axis (slope g (kv_straight axis) f b) (step_of axis F b).
Proof.
  intros Hx Hb Hf x y z Hg' Hl. pose proof Hg' as (H0 & H1 & H2). unfold slope, step_of. destruct (Hg b (pick b x y z)) as [-> _].
  unfold ahead. destruct (Nat.eqb_spec b axis) as [->|Hn].
  - destruct (Nat.eqb_spec (pick axis x y z + 1) (dim g axis)); [lia|]. rewrite Nat.mod_small by lia. rewrite one_l.
    clear Hg. idx axis Hx; cbn [pick] in *; rewrite !Hf by (repeat split; auto; lia); reflexivity.
  - rewrite kv_across by auto. replace (- (0 * total_length (dxe g) (dim g) b)) with 0 by ring. rewrite turn_0. 
    replace (if Nat.eqb (pick b x y z + 1) (dim g b) then (1 : CC)%K else 1%K) with ((1 : CC)%K) by (destruct (Nat.eqb _ _); reflexivity).
    assert (M : forall i m, (i < m -> (i + 1) mod m < m)%nat) by (intros; apply Nat.mod_upper_bound; lia).
    clear Hg. idx b Hb; cbn [pick] in *; (rewrite !Hf by (repeat split; auto)); idx axis Hx; try lia; cbn [pick]; apply div_h_0.
Qed.
Lemma slope_back_layered axis f F b x y z : (axis < 3)%nat -> (b < 3)%nat -> layered' axis f F -> in_grid g x y z -> (1 <= pick axis x y z)%nat -> (pick axis x y z + 1 < dim g axis)%nat ->
  slope_back g (kv_straight axis) f b x y z = step_to axis F b (pick axis x y z).
Proof.
  intros Hx Hb Hf Hg' Hl1 Hl. pose proof Hg' as (H0 & H1 & H2). unfold slope_back, step_to. destruct (Hg b (pick b x y z)) as [_ ->].
  unfold behind. destruct (Nat.eqb_spec b axis) as [->|Hn].
  - destruct (Nat.eqb_spec (pick axis x y z) 0); [lia|]. 
    replace (pick axis x y z + dim g axis - 1)%nat with (pick axis x y z - 1 + 1 * dim g axis)%nat by lia. rewrite Nat.mod_add, Nat.mod_small by lia. rewrite one_l.
    clear Hg. idx axis Hx; cbn [pick] in *; rewrite !Hf by (cbn [pick]; repeat split; auto; lia); reflexivity.
  - rewrite kv_across by auto. replace (0 * total_length (dxh g) (dim g) b) with 0 by ring. rewrite turn_0.
    replace (if Nat.eqb (pick b x y z) 0 then (1 : CC)%K else 1%K) with ((1 : CC)%K) by (destruct (Nat.eqb _ _); reflexivity).
    assert (M : forall i m, (i < m -> (i + m - 1) mod m < m)%nat) by (intros; apply Nat.mod_upper_bound; lia).
    clear Hg. idx b Hb; cbn [pick] in *; idx axis Hx; try lia; cbn [pick] in *; (rewrite !Hf by (cbn [pick]; repeat split; auto)); cbn [pick]; apply div_h_0'.
Qed.
Definition profile (l : nat) : CC := (rl a * turn (- (k * (sign back * (h * INR l + off)))))%K.
Lemma straight_layered axis c : layered axis (straight axis c) (fun l => profile l * rl (unit_vec (u axis) c))%K.
Proof. intros x y z _. unfold straight, profile. match goal with |- (?a * (?b * ?c))%K = _ => generalize a b c end. intros p q r. apply c_eq; cbn; ring. Qed.
Lemma profile_next l : profile (l + 1) = (profile l * turn (- (k * (sign back * h))))%K.
Proof.
  unfold profile. rewrite plus_INR. cbn [INR]. replace (- (k * (sign back * (h * (INR l + 1) + off)))) with (- (k * (sign back * (h * INR l + off))) + - (k * (sign back * h))) by ring.
  rewrite turn_add. match goal with |- (?a * (?b * ?c))%K = _ => generalize a b c end. intros p q r. apply c_eq; cbn; ring.
Qed.
Lemma profile_last l : (1 <= l)%nat -> profile (l - 1) = (profile l * turn (k * (sign back * h)))%K.
Proof.
  intros Hl. replace l with (l - 1 + 1)%nat at 2 by lia. rewrite profile_next. 
  transitivity (profile (l - 1) * (turn (- (k * (sign back * h))) * turn (k * (sign back * h))))%K.
  - rewrite <- turn_add. replace (_ + _) with 0 by ring. rewrite turn_0. generalize (profile (l - 1)). intros p. apply c_eq; cbn; ring.
  - generalize (profile (l - 1)), (turn (- (k * (sign back * h)))), (turn (k * (sign back * h))). intros p q r. apply c_eq; cbn; ring.
Qed.
Lemma turns_sum : (turn (- (k * (sign back * h))) + turn (k * (sign back * h)))%K = rl (2 * cos (k * h)).
Proof.
  unfold turn, cexp. cbn [fst snd]. rewrite exp_0, cos_neg, sin_neg. assert (C : cos (k * (sign back * h)) = cos (k * h)).
  { destruct back; cbn [sign]; [replace (k * (-1 * h)) with (- (k * h)) by ring; apply cos_neg|f_equal; ring]. }
  rewrite C. apply c_eq; cbn; ring.
Qed.
Lemma straight_residual axis c x y z : (axis < 3)%nat -> (c < 3)%nat -> in_grid g x y z -> (1 <= pick axis x y z)%nat -> (pick axis x y z + 1 < dim g axis)%nat ->
  wave_operator g eps omega (kv_straight axis) (straight axis) c x y z = ((rl ((2 - 2 * cos (k * h)) / (h * h)) - rl (omega * omega) * eps c x y z) * straight axis c x y z)%K.
Proof.
  intros Hx Hc Hg' Hl1 Hl2. unfold wave_operator.
  assert (CL : forall b, (b < 3)%nat -> layered' axis (curl_with (slope g (kv_straight axis)) (straight axis) b)
     (fun l => step_of axis (fun l => profile l * rl (unit_vec (u axis) ((b + 2) mod 3)))%K ((b + 1) mod 3) l - step_of axis (fun l => profile l * rl (unit_vec (u axis) ((b + 1) mod 3)))%K ((b + 2) mod 3) l)%K).
  { intros b Hb x' y' z' Hg2 Hl'. unfold curl_with. cbv zeta.
    rewrite (@slope_layered axis _ _ ((b + 1) mod 3) Hx ltac:(apply Nat.mod_upper_bound; lia) (@straight_layered axis ((b + 2) mod 3)) x' y' z' Hg2 Hl').
    rewrite (@slope_layered axis _ _ ((b + 2) mod 3) Hx ltac:(apply Nat.mod_upper_bound; lia) (@straight_layered axis ((b + 1) mod 3)) x' y' z' Hg2 Hl'). reflexivity. }
  unfold curl_with at 1. cbv zeta.
  rewrite (@slope_back_layered axis _ _ ((c + 1) mod 3) x y z Hx ltac:(apply Nat.mod_upper_bound; lia) (CL ((c + 2) mod 3) ltac:(apply Nat.mod_upper_bound; lia)) Hg' Hl1 Hl2).
  rewrite (@slope_back_layered axis _ _ ((c + 2) mod 3) x y z Hx ltac:(apply Nat.mod_upper_bound; lia) (CL ((c + 1) mod 3) ltac:(apply Nat.mod_upper_bound; lia)) Hg' Hl1 Hl2).
  rewrite (@straight_layered axis c x y z Hg'). set (l := pick axis x y z) in *. clearbody l. clear CL.
  pose proof turns_sum as TS. assert (T1 : (turn (- (k * (sign back * h))) * turn (k * (sign back * h)))%K = (1 : CC)%K) by (rewrite <- turn_add, <- turn_0; f_equal; ring).
  unfold step_to, step_of, unit_vec.
  replace (l - 1 + 1)%nat with l by lia.
  rewrite !profile_next, !profile_last by auto. generalize (eps c x y z). intros e.
  set (q := turn (- (k * (sign back * h)))) in *. set (r := turn (k * (sign back * h))) in *. generalize (profile l). intros p. clearbody q r.
  assert (TS1 := f_equal fst TS). assert (TS2 := f_equal snd TS). assert (T11 := f_equal fst T1). assert (T12 := f_equal snd T1). cbn in TS1, TS2, T11, T12.
  clear -Hx Hc Hh TS1 TS2 T11 T12. set (C := cos (k * h)) in *. clearbody C.
  destruct p as [p1 p2], q as [q1 q2], r as [r1 r2], e as [e1 e2]. cbn [fst snd] in *.
  assert (R1 : r1 = 2 * C - q1) by lra. assert (R2 : r2 = - q2) by lra. subst r1 r2.
  idx axis Hx; idx c Hc; cbn [Nat.modulo Nat.divmod Nat.add Nat.sub fst snd Nat.eqb]; apply c_eq; cbn; unfold cn2; cbn; try (field; nra).
Qed.
End Straight.
Lemma ahead_k g k k' f a x y z : k a = k' a -> ahead g k f a x y z = ahead g k' f a x y z.
Proof. intros H. unfold ahead. now rewrite H. Qed.
Lemma behind_k g k k' f a x y z : k a = k' a -> behind g k f a x y z = behind g k' f a x y z.
Proof. intros H. unfold behind. now rewrite H. Qed.
Lemma wave_operator_ext g eps omega k k' E E' c x y z : (c < 3)%nat -> in_grid g x y z -> (forall a, (a < 3)%nat -> k a = k' a) ->
  (forall c x y z, (c < 3)%nat -> in_grid g x y z -> E c x y z = E' c x y z) ->
  wave_operator g eps omega k E c x y z = wave_operator g eps omega k' E' c x y z.
Proof.
  intros Hc Hg Hk HE. transitivity (wave_operator g eps omega k E' c x y z).
  - rewrite <- !wave_operator_lemma by auto. unfold applied. now rewrite (@vec_same g E E' HE).
  - assert (M : forall i, (i mod 3 < 3)%nat) by (intros; apply Nat.mod_upper_bound; lia).
    assert (S : forall f b x y z, (b < 3)%nat -> slope g k f b x y z = slope g k' f b x y z) by (intros; unfold slope; f_equal; f_equal; apply ahead_k; auto).
    assert (SB : forall f f' b, (b < 3)%nat -> (forall x y z, f x y z = f' x y z) -> slope_back g k f b x y z = slope_back g k' f' b x y z).
    { intros f f' b Hb Hf. unfold slope_back. f_equal. rewrite Hf. f_equal. unfold behind. rewrite Hk by auto. destruct b as [|[|b]]; now rewrite Hf. }
    unfold wave_operator. f_equal. unfold curl_with at 1 3. apply f_equal2; apply SB; auto; intros x' y' z'; unfold curl_with; rewrite !S by auto; reflexivity.
Qed.
Lemma plane_residual g pos eps omega h off axis sl back power : (axis < 3)%nat -> 0 < omega -> 0 < h -> 0 < average g sl (eps 0%nat) -> even_grid g h ->
  (forall i, pos (Nat.modulo (axis + 1) 3) axis i = h * INR i + off) ->
  let F := vector_fields g pos eps omega axis sl 0 0 0 back power (plane_wave omega (average g sl (eps 0%nat)) back) in
  let k := omega * sqrt (average g sl (eps 0%nat)) in
  forall c x y z, (c < 3)%nat -> in_grid g x y z -> (1 <= pick axis x y z)%nat -> (pick axis x y z + 1 < dim g axis)%nat ->
  wave_operator g eps omega (f_k F) (f_E F) c x y z = ((rl ((2 - 2 * cos (k * h)) / (h * h)) - rl (omega * omega) * eps c x y z) * f_E F c x y z)%K.
Proof.
  intros Hx Ho Hh He Hg Hpos F k c x y z Hc Hin Hl1 Hl2.
  destruct (@plane_field_lemma g pos eps omega axis sl 0 0 0 back power Hx Ho He) as (PK & PE). fold F in PK, PE. fold k in PK, PE. clearbody F.
  assert (HE : forall c x y z, (c < 3)%nat -> in_grid g x y z -> f_E F c x y z = straight h k (sqrt power) back off axis c x y z).
  { intros c' x' y' z' Hc' Hin'. rewrite PE by auto. unfold straight. destruct (@straight_lemma axis back Hx c' Hc') as (_ & ->).
    destruct (Nat.eqb_spec c' ((axis + 1) mod 3)) as [E|E].
    - f_equal. f_equal. f_equal. f_equal. f_equal. unfold dot, place. rewrite E. 
      assert (D : forall a, (a < 3)%nat -> direction axis (sign back) 0 0 a = sign back * unit_vec axis a) by (intros a Ha; apply straight_lemma; auto).
      rewrite !D by lia. rewrite <- Hpos. unfold unit_vec. clear -Hx. idx axis Hx; cbn [Nat.eqb pick]; ring.
    - unfold unit_vec. destruct (Nat.eqb_spec c' ((axis + 1) mod 3)); [contradiction|]. apply c_eq; cbn; ring. }
  rewrite (@wave_operator_ext g eps omega (f_k F) (kv_straight k back axis) (f_E F) (straight h k (sqrt power) back off axis)) by (auto; intros b Hb; rewrite PK by auto; unfold kv_straight; f_equal; apply straight_lemma; auto).
  rewrite HE by auto. apply straight_residual; auto.
Qed.
Lemma dispersion_gap k h : 0 < k -> 0 < h -> (2 - 2 * cos (k * h)) / (h * h) < k * k /\ (k * h <= PI / 2 -> k * k - (2 - 2 * cos (k * h)) / (h * h) <= k ^ 4 * (h * h) / 12).
Proof.
  intros Hk Hh. assert (H2 : 0 < h * h) by nra. assert (Hkh : 0 < k * h) by nra. split.
  - apply (Rmult_lt_reg_r (h * h)); [exact H2|]. replace ((2 - 2 * cos (k * h)) / (h * h) * (h * h)) with (2 - 2 * cos (k * h)) by (field; lra).
    replace (k * k * (h * h)) with ((k * h) * (k * h)) by ring. apply cos_lower. lra.
  - intros Hp. pose proof (@cos_upper (k * h) ltac:(pose proof PI_RGT_0; lra)) as Q. apply (Rmult_le_reg_r (h * h)); [exact H2|].
    replace ((k * k - (2 - 2 * cos (k * h)) / (h * h)) * (h * h)) with ((k * h) * (k * h) - (2 - 2 * cos (k * h))) by (field; lra).
    replace (k ^ 4 * (h * h) / 12 * (h * h)) with ((k * h) ^ 4 / 12) by (field; lra). lra.
Qed.

(** *** repeated use of a list of slices *)
Lemma calls_lemma g pos eps omega w0 center axis theta psi pol back power sl n :
  calls g pos eps omega w0 center axis theta psi pol back power (S n) sl axis =
  if back then (fst (sl axis) - Z.of_nat n - 1, fst (sl axis) - Z.of_nat n + 1)%Z else (snd (sl axis) - 2, snd (sl axis))%Z.
Proof.
  induction n as [|n IH].
  - cbn [calls]. rewrite gaussian_slices. unfold set_slice, cut_index. rewrite Nat.eqb_refl. destruct back; cbn [Z.of_nat]; f_equal; lia.
  - cbn [calls] in *. rewrite gaussian_slices. unfold set_slice at 1. rewrite Nat.eqb_refl. rewrite IH. unfold cut_index. destruct back; cbn [fst snd]; f_equal; lia.
Qed.

(** *** an off-centre beam *)
Definition pair_z : grid CC := box 1 1 2.
Lemma pair_average : average pair_z (all_of pair_z) (unit_eps 0%nat) = 1.
Proof. unfold average, sum3, pair_z, box, in_slices, all_of, selects, bound, re. cbn -[Rdiv]. field. Qed.
Definition off_beam := vector_fields pair_z even_places unit_eps 1 0 (all_of pair_z) 0 0 0 false 1 (gaussian_beam 1 (v3 0 0 1) 1 (average pair_z (all_of pair_z) (unit_eps 0%nat)) false).
Lemma gaussian_field g pos eps omega w0 center axis sl theta psi pol back power c x y z : (axis < 3)%nat -> 0 < omega -> 0 < average g sl (eps 0%nat) -> 0 < w0 -> (c < 3)%nat ->
  f_E (vector_fields g pos eps omega axis sl theta psi pol back power (gaussian_beam w0 center omega (average g sl (eps 0%nat)) back)) c x y z =
  (rl (sqrt power) * (rl (waist_amplitude (average g sl (eps 0%nat)) w0) * beam (omega * sqrt (average g sl (eps 0%nat))) w0 (permuted_center axis center) (direction axis (sign back) theta psi) (place pos c x y z) * rl (polarized axis (sign back) theta psi pol c)))%K.
Proof. intros Hx Ho He Hw Hc. rewrite E_field_at by assumption. f_equal. f_equal. apply gaussian_at; assumption. Qed.
Lemma off_beam_at z : cabs (f_E off_beam 1%nat 0%nat 0%nat z) = waist_amplitude 1 1 * cabs (beam 1 1 (permuted_center 0 (v3 0 0 1)) (direction 0 1 0 0) (place even_places 1 0 0 z)).
Proof.
  unfold off_beam. rewrite gaussian_field by (rewrite ?pair_average; try lra; lia). rewrite pair_average.
  replace (polarized 0 (sign false) 0 0 0 1%nat) with 1 by (destruct (@straight_lemma 0 false ltac:(lia) 1%nat ltac:(lia)) as (_ & ->); reflexivity).
  assert (0 < waist_amplitude 1 1).
  { unfold waist_amplitude. rewrite sqrt_1, Rinv_1, sqrt_1. pose proof (sqrt_lt_R0 PI PI_RGT_0). apply Rmult_lt_0_compat; [lra|]. apply Rinv_0_lt_compat. lra. }
  rewrite sqrt_1, Rmult_1_r. unfold sign. generalize (beam 1 1 (permuted_center 0 (v3 0 0 1)) (direction 0 1 0 0) (place even_places 1 0 0 z)). intros b.
  rewrite !cabs_mult, !cabs_rl by lra. ring.
Qed.
Lemma off_beam_lemma : cabs (f_E off_beam 1%nat 0%nat 0%nat 1%nat) < cabs (f_E off_beam 1%nat 0%nat 0%nat 0%nat).
Proof.
  rewrite !off_beam_at. apply Rmult_lt_compat_l.
  { unfold waist_amplitude. rewrite sqrt_1, Rinv_1, sqrt_1. pose proof (sqrt_lt_R0 PI PI_RGT_0). apply Rmult_lt_0_compat; [lra|]. apply Rinv_0_lt_compat. lra. }
  rewrite !beam_abs by lra. unfold dot, minus3, permuted_center, along, direction, place, even_places, v3. unfold along. cbn [Nat.eqb Nat.add Nat.modulo Nat.divmod Nat.sub fst snd pick INR]. rewrite sin_0, cos_0.
  match goal with |- / sqrt ?a * exp ?b < / sqrt ?c * exp ?d => replace a with 5 by field; replace c with 5 by field; replace b with (- (1 / 5)) by field; replace d with 0 by field end.
  apply Rmult_lt_compat_l; [apply Rinv_0_lt_compat, sqrt_lt_R0; lra|]. apply exp_increasing. lra.
Qed.
(** *** a wave that the grid carries exactly *)
Definition tube6 : grid CC := box 1 1 6.
Definition six (z : nat) : R := match z with O => 1 | 1%nat => 1 | 2%nat => 0 | 3%nat => -1 | 4%nat => -1 | _ => 0 end.
Definition wave_six : field3 CC := fun c _ _ z => match c with O => rl (six z) | _ => (0 : CC)%K end.
Lemma wave_six_solves c x y z : (c < 3)%nat -> in_grid tube6 x y z -> wave_operator tube6 unit_eps 1 (fun _ => 0) wave_six c x y z = (0 : CC)%K.
Proof.
  intros Hc (H0 & H1 & H2). cbn in H0, H1, H2. assert (x = 0%nat) by lia. assert (y = 0%nat) by lia. subst x y.
  unfold wave_operator, curl_with, slope_back, behind, slope, ahead. rewrite !Rmult_0_l, Ropp_0, turn_0.
  idx c Hc; destruct z as [|[|[|[|[|[|z]]]]]]; try lia;
    cbn [tube6 box dim dxe dxh Nat.modulo Nat.divmod Nat.add Nat.sub fst snd Nat.eqb pick wave_six six unit_eps]; apply c_eq; cbn; unfold cn2; cbn; field.
Qed.
(** *** a solver *)
Definition absorber : list CC -> list CC -> list CC := fun _ J => scaled_vec (-1) J.
Definition spot : field3 CC := fun c x y z => match c with O => (1 : CC)%K | _ => 0%K end.
Lemma absorber_linear : linear absorber.
Proof. intros eps J a. unfold absorber, scaled_vec. rewrite !map_map. apply map_ext. intros u. apply c_eq; cbn; ring. Qed.
Lemma spot_sum : rsum (map cabs (vec (box 1 1 1) spot)) = 1.
Proof. unfold vec, flattenF. cbn -[cabs Rplus]. unfold cabs. cbn. replace (1 * 1 + 0 * 0) with 1 by ring. replace (0 * 0 + 0 * 0) with 0 by ring. rewrite sqrt_1, sqrt_0. ring. Qed.
Lemma spot_emits : emits (box 1 1 1) absorber unit_eps spot = 1 / 2.
Proof. unfold emits, emitted, absorber, scaled_vec, vec, flattenF, rsum, re. cbn. field. Qed.
(** *** borders *)
Lemma mask_half g sl axis border x y z : in_slices g (set_slice sl axis (0, Z.of_nat (dim g axis))%Z) x y z = true ->
  (forall a, (a < 3)%nat -> a <> axis -> (size sl a <= 2 * border a + 1)%Z) -> make_mask g sl axis border x y z = 1.
Proof.
  intros Hi H. rewrite make_mask_eq, Hi. cbv zeta.
  assert (Z0 : forall a, (a < 3)%nat -> coord_of sl axis border x y z a = 0).
  { intros a Ha. unfold coord_of. destruct (Nat.eqb_spec a axis) as [|Hn]; [reflexivity|]. specialize (H a Ha Hn). unfold ramp.
    destruct (Z.ltb_spec (2 * border a) (size sl a - 1)); [lia|]. reflexivity. }
  rewrite !Z0 by lia. replace (0 * 0 + 0 * 0 + 0 * 0) with 0 by ring. rewrite sqrt_0. unfold clip. destruct (Rlt_dec 1 0); [lra|]. ring.
Qed.
