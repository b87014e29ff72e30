(** Overlaps: a plane wave on a line of cells, and the wave that travels the other way *)
From Coq Require Import Reals ZArith Lra.
From Verif Require Import Base CField CField_Proofs GMath_Model CplxField Maxwell_Model Maxwell_Spec Maxwell_Proofs Wg_Model Wg_Model2 Wg_Spec Wg_Proofs Wg_Proofs2 Fs_Model
  Wg_Proofs4 Wg_Proofs7 Ov_Model Ov_Spec Ov_Proofs Ov_Proofs2 Ov_Proofs3 Ov_Proofs4 GMath_Proofs Wg_Proofs8 Wg_Proofs10 Wg_Proofs11 Fs_Proofs3 Fs_Proofs.
Set Implicit Arguments.
Local Open Scope R_scope.
Add Field CCo6 : (k_field CC).
Local Notation L5 := (line 5).
Local Notation st := (whole_start 2 1).
Local Notation len := (whole_len L5 2).
Lemma nki : (- ki)%K <> (0 : CC)%K.
Proof. intros E. apply (f_equal snd) in E. cbn in E. lra. Qed.
Lemma pairing_line (Em Hm F : field3 CC) mu : pairing L5 2 st len (1 : CC)%K mu Em Hm F = (flux_h L5 2 F Hm 0%nat 0%nat 1%nat + flux_e L5 2 Em (fe2h L5 (1 : CC)%K mu F) 0%nat 0%nat 1%nat)%K.
Proof.
  unfold pairing, grid_sum, in_window. cbn [fsum dim Nat.leb Nat.ltb andb Nat.eqb Nat.add whole_start whole_len line]. ring.
Qed.
Lemma flux_h_line (F H : field3 CC) : H 0%nat 0%nat 0%nat 1%nat = (0 : CC)%K ->
  flux_h L5 2 F H 0%nat 0%nat 1%nat = (H 1%nat 0%nat 0%nat 1%nat * ((F 0%nat 0%nat 0%nat 1%nat + F 0%nat 0%nat 0%nat 2%nat) / (1 + 1)))%K.
Proof.
  intros H0. unfold flux_h. replace ((2 + 1) mod 3)%nat with 0%nat by reflexivity. replace ((2 + 2) mod 3)%nat with 1%nat by reflexivity.
  unfold mean_prev, mean_next, tall_e, tall_h. cbn [roll_back roll_forward]. change (dim L5 0) with 1%nat. change (dim L5 1) with 1%nat. change (dim L5 2) with 5%nat.
  replace ((0 + 1 - 1) mod 1)%nat with 0%nat by reflexivity. replace ((1 + 1) mod 5)%nat with 2%nat by reflexivity. cbn [pick line dxe dxh].
  change (dxh L5) with (fun _ _ : nat => (1 : CC)%K). change (dxe L5) with (fun _ _ : nat => (1 : CC)%K). rewrite H0. cbv beta. field. exact two_CC.
Qed.
Lemma e2h_line (F : field3 CC) z : (z < 4)%nat -> (forall z, F 2%nat 0%nat 0%nat z = (0 : CC)%K) ->
  fe2h L5 (1 : CC)%K (Some ones) F 1%nat 0%nat 0%nat z = ((F 0%nat 0%nat 0%nat (z + 1)%nat - F 0%nat 0%nat 0%nat z) / (- ki))%K.
Proof.
  intros Hz H2. unfold fe2h, fcurl_e, fcurl, de. cbn [roll_forward]. change (dim L5 0) with 1%nat. change (dim L5 2) with 5%nat. rewrite Nat.mod_small by lia.
  replace ((0 + 1) mod 1)%nat with 0%nat by reflexivity. rewrite !H2. cbn [pick]. change (dxe L5) with (fun _ _ : nat => (1 : CC)%K). unfold ones. cbv beta. field. repeat split; first [exact N1|exact ki_nz|exact nki].
Qed.
Lemma e2h_line0 (F : field3 CC) z : (z < 4)%nat -> (forall z, F 2%nat 0%nat 0%nat z = (0 : CC)%K) -> (forall z, F 1%nat 0%nat 0%nat z = (0 : CC)%K) ->
  fe2h L5 (1 : CC)%K (Some ones) F 0%nat 0%nat 0%nat z = (0 : CC)%K.
Proof.
  intros Hz H2 H1. unfold fe2h, fcurl_e, fcurl, de. cbn [roll_forward]. change (dim L5 1) with 1%nat. change (dim L5 2) with 5%nat.
  replace ((0 + 1) mod 1)%nat with 0%nat by reflexivity. rewrite !H2, !H1. cbn [pick]. change (dxe L5) with (fun _ _ : nat => (1 : CC)%K). unfold ones. cbv beta. field. repeat split; first [exact N1|exact ki_nz|exact nki].
Qed.
Lemma flux_e_line (E F : field3 CC) : (forall z, F 2%nat 0%nat 0%nat z = (0 : CC)%K) -> (forall z, F 1%nat 0%nat 0%nat z = (0 : CC)%K) ->
  flux_e L5 2 E (fe2h L5 (1 : CC)%K (Some ones) F) 0%nat 0%nat 1%nat
  = ((E 0%nat 0%nat 0%nat 1%nat * (F 0%nat 0%nat 0%nat 2%nat - F 0%nat 0%nat 0%nat 1%nat) / - ki + E 0%nat 0%nat 0%nat 2%nat * (F 0%nat 0%nat 0%nat 3%nat - F 0%nat 0%nat 0%nat 2%nat) / - ki) / (1 + 1))%K.
Proof.
  intros H2 H1. unfold flux_e. replace ((2 + 1) mod 3)%nat with 0%nat by reflexivity. replace ((2 + 2) mod 3)%nat with 1%nat by reflexivity.
  unfold mean_prev, mean_next, tall_e, tall_h. cbn [roll_back roll_forward]. change (dim L5 0) with 1%nat. change (dim L5 1) with 1%nat. change (dim L5 2) with 5%nat.
  replace ((0 + 1 - 1) mod 1)%nat with 0%nat by reflexivity. replace ((1 + 1) mod 5)%nat with 2%nat by reflexivity. cbn [pick].
  rewrite !e2h_line, !e2h_line0 by (auto; lia). change (1 + 1)%nat with 2%nat. change (2 + 1)%nat with 3%nat.
  change (dxh L5) with (fun _ _ : nat => (1 : CC)%K). change (dxe L5) with (fun _ _ : nat => (1 : CC)%K). cbv beta. field. repeat split; first [exact two_CC|exact ki_nz|exact nki].
Qed.
(** the mode: E_x = exp(-i k z), H_y = exp(-i k (z + 1/2)) *)
Definition line_mode (nf : CC) (k : R) : field3 CC * field3 CC := solve_waveguide_mode cexp L5 2 false st len (1 : CC)%K ones ones wave_v (1 : CC)%K nf (rl k).
Local Notation g2 := (plane L5 2 st len).
Local Notation o2 := (in_plane 2 st ones).
Lemma cexp_turn t : cexp (ki * rl t)%K = (cos t, sin t).
Proof. unfold cexp. replace (ki * rl t)%K with ((0, t) : CC) by (apply c_eq; cbn; ring). cbn [fst snd]. rewrite exp_0. apply c_eq; cbn; ring. Qed.
Section Mode.
Variables (nf : CC) (k : R).
Local Notation kw := (rl k).
Local Notation E := (fst (line_mode nf k)).
Local Notation H := (snd (line_mode nf k)).
Lemma line_E c : E c 0%nat 0%nat 1%nat = scale3 nf (v2e g2 (1 : CC)%K o2 o2 (1 : CC)%K wave_v) (reverse_order 2 c) 0%nat 0%nat 0%nat.
Proof. reflexivity. Qed.
Lemma line_H c : H c 0%nat 0%nat 1%nat = scale3 (cexp (- polarity CC false * ki * (1 / two CC) * kw * (1 / two CC * (1 + 1)))%K) (scale3 nf (v2h g2 o2 (1 : CC)%K wave_v)) (reverse_order 2 c) 0%nat 0%nat 0%nat.
Proof. reflexivity. Qed.
Lemma line_E0 : E 0%nat 0%nat 0%nat 1%nat = nf.
Proof. rewrite line_E. change (reverse_order 2 0) with 0%nat. unfold scale3. rewrite one_e0 by (intros; try split; reflexivity). ring. Qed.
Lemma line_E1 : E 1%nat 0%nat 0%nat 1%nat = (0 : CC)%K.
Proof. rewrite line_E. change (reverse_order 2 1) with 1%nat. unfold scale3. rewrite one_e1 by (intros; try split; reflexivity). ring. Qed.
Lemma line_E2 : E 2%nat 0%nat 0%nat 1%nat = (0 : CC)%K.
Proof.
  rewrite line_E. change (reverse_order 2 2) with 2%nat. unfold scale3, v2e, wg_curl_h, wg_curl, dh, roll_back. cbn [v2h wave_v fst snd]. unfold in_plane, turned, sliced, ones.
  change (dxh g2) with (fun _ _ : nat => (1 : CC)%K). cbv beta. replace ((1 - 1) / 1 - (0 - 0) / 1)%K with (0 : CC)%K by (field; exact N1). ring.
Qed.
Lemma line_H0 : H 0%nat 0%nat 0%nat 1%nat = (0 : CC)%K.
Proof. rewrite line_H. change (reverse_order 2 0) with 0%nat. unfold scale3. cbn [v2h wave_v fst]. ring. Qed.
Lemma line_H1 : H 1%nat 0%nat 0%nat 1%nat = (nf * cexp (ki * rl (- (k / 2))))%K.
Proof.
  rewrite line_H. change (reverse_order 2 1) with 1%nat. unfold scale3. cbn [v2h wave_v snd].
  replace (- polarity CC false * ki * (1 / two CC) * kw * (1 / two CC * (1 + 1)))%K with (ki * rl (- (k / 2)))%K; [ring|].
  unfold polarity, two. apply c_eq; cbn; unfold cdiv, cinv, cmul, cscale, cconj; cbn; field.
Qed.
Lemma carried_line (F : field3 CC) (d : nat -> CC) c z : (forall l, d l = (1 : CC)%K) ->
  carried 2 false 1 kw d F c 0%nat 0%nat z = (cexp (ki * rl (- k * (INR z - 1)))%K * F c 0%nat 0%nat 1%nat)%K.
Proof.
  intros Hd. unfold carried, away. cbn [pick Nat.eqb]. f_equal. f_equal.
  assert (S : forall n, span d n = INR n) by (induction n as [|n IH]; [reflexivity|cbn [span]; rewrite IH, Hd, S_INR; cbn; ring]).
  rewrite !S. change (INR 1) with 1. apply c_eq; cbn; field.
Qed.
Local Notation Em := (carried 2 false 1 kw (dxe L5 2) E).
Local Notation Hm := (carried 2 false 1 kw (dxh L5 2) H).
Lemma Em0 z : Em 1%nat 0%nat 0%nat z = (0 : CC)%K /\ Em 2%nat 0%nat 0%nat z = (0 : CC)%K.
Proof. rewrite !carried_line by reflexivity. rewrite line_E1, line_E2. split; ring. Qed.
Lemma Hm0 : Hm 0%nat 0%nat 0%nat 1%nat = (0 : CC)%K.
Proof. rewrite carried_line by reflexivity. rewrite line_H0. ring. Qed.
Lemma turn_0 a : cexp (ki * rl (a * (INR 1 - 1)))%K = (1 : CC)%K.
Proof. cbn [INR]. replace (rl (a * (1 - 1))) with (0 : CC)%K by (apply c_eq; cbn; ring). rewrite <- cexp_0. f_equal. ring. Qed.
Lemma turn_1 a : cexp (ki * rl (a * (INR 2 - 1)))%K = cexp (ki * rl a)%K.
Proof. cbn [INR]. do 3 f_equal. ring. Qed.
Lemma turn_2 a : cexp (ki * rl (a * (INR 3 - 1)))%K = (cexp (ki * rl a) * cexp (ki * rl a))%K.
Proof. cbn [INR]. rewrite <- cexp_add. f_equal. apply c_eq; cbn; ring. Qed.
Lemma Hm1 : Hm 1%nat 0%nat 0%nat 1%nat = (nf * cexp (ki * rl (- (k / 2))))%K.
Proof. rewrite carried_line, turn_0 by reflexivity. rewrite line_H1. ring. Qed.
Lemma Em_1 : Em 0%nat 0%nat 0%nat 1%nat = nf.
Proof. rewrite carried_line, turn_0, line_E0 by reflexivity. ring. Qed.
Lemma Em_2 : Em 0%nat 0%nat 0%nat 2%nat = (cexp (ki * rl (- k)) * nf)%K.
Proof. rewrite carried_line, turn_1, line_E0 by reflexivity. ring. Qed.
Lemma Em_3 : Em 0%nat 0%nat 0%nat 3%nat = (cexp (ki * rl (- k)) * cexp (ki * rl (- k)) * nf)%K.
Proof. rewrite carried_line, turn_2, line_E0 by reflexivity. ring. Qed.
Lemma p_mode_gen : pairing L5 2 st len (1 : CC)%K (Some ones) Em Hm Em =
  (nf * nf * (cexp (ki * rl (- k)) * (rl (cos (k / 2)) + (1 + 1) * rl (sin (k / 2)) * rl (cos k) * cexp (ki * rl (- (k / 2))))))%K.
Proof.
  rewrite pairing_line, flux_h_line, flux_e_line by (intros; first [apply Hm0|apply Em0]). rewrite Hm1, Em_1, Em_2, Em_3.
  set (h := cexp (ki * rl (- (k / 2)))%K). set (h' := cexp (ki * rl (k / 2))%K).
  assert (Q : cexp (ki * rl (- k))%K = (h * h)%K) by (unfold h; rewrite <- cexp_add; f_equal; apply c_eq; cbn; field).
  assert (I : (h * h')%K = (1 : CC)%K) by (unfold h, h'; rewrite <- cexp_add, <- cexp_0; f_equal; apply c_eq; cbn; field).
  assert (Q' : cexp (ki * rl k)%K = (h' * h')%K) by (unfold h'; rewrite <- cexp_add; f_equal; apply c_eq; cbn; field).
  assert (C : rl (cos (k / 2)) = ((h + h') / (1 + 1))%K :> CC) by (unfold h, h'; rewrite !cexp_turn, cos_neg, sin_neg; apply c_eq; cbn; unfold cdiv, cinv, cmul, cscale, cconj; cbn; field).
  assert (S : rl (sin (k / 2)) = (ki * (h - h') / (1 + 1))%K :> CC) by (unfold h, h'; rewrite !cexp_turn, cos_neg, sin_neg; apply c_eq; cbn; unfold cdiv, cinv, cmul, cscale, cconj; cbn; field).
  assert (C2 : rl (cos k) = ((h * h + h' * h') / (1 + 1))%K :> CC) by (rewrite <- Q, <- Q', !cexp_turn, cos_neg, sin_neg; apply c_eq; cbn; unfold cdiv, cinv, cmul, cscale, cconj; cbn; field).
  rewrite Q, C, S, C2. clearbody h h'.
  assert (NI : forall a : CC, (a / - ki)%K = (a * ki)%K).
  { intros a. transitivity (a * (ki * - ki) / - ki)%K; [|field; exact nki]. replace (ki * - ki)%K with (1 : CC)%K; [f_equal; ring|]. symmetry. apply c_eq; cbn; ring. }
  rewrite !NI.
  assert (R1 : (h * h * (h + h'))%K = (h * (h * h) + h)%K) by (transitivity (h * (h * h) + h * (h * h'))%K; [ring|rewrite I; ring]).
  assert (R2 : (h * h * ((h - h') * (h * h + h' * h') * h))%K = ((h * h - 1) * (h * h * (h * h) + 1))%K).
  { transitivity (h * h * (h * h) * (h * h) + h * h * (h * h') * (h * h') - h * h * (h * h) * (h * h') - (h * h') * (h * h') * (h * h'))%K; [ring|rewrite I; ring]. }
  pose proof two_CC as T2. unfold two in T2.
  transitivity (nf * nf * ((h * h * (h + h')) / (1 + 1) + ki * (h * h * ((h - h') * (h * h + h' * h') * h)) / (1 + 1)))%K; [rewrite R1, R2|]; field; auto.
Qed.
Lemma p_mode_nz : nf <> (0 : CC)%K -> 0 < k <= 1 -> pairing L5 2 st len (1 : CC)%K (Some ones) Em Hm Em <> (0 : CC)%K.
Proof.
  intros Hn Hk. rewrite p_mode_gen. pose proof PI2_3_2.
  assert (0 < cos (k / 2)) by (apply cos_gt_0; lra). assert (0 < sin (k / 2)) by (apply sin_gt_0; lra). assert (0 < cos k) by (apply cos_gt_0; lra).
  apply (@kmul_neq0 CC); [now apply (@kmul_neq0 CC)|]. apply (@kmul_neq0 CC).
  - rewrite cexp_turn. intros Z. pose proof (sin2_cos2 (- k)) as SC. unfold Rsqr in SC. injection Z as Z1 Z2. rewrite Z1, Z2 in SC. lra.
  - rewrite cexp_turn, cos_neg. intros Z. apply (f_equal fst) in Z. cbn in Z.
    assert (0 < sin (k / 2) * cos k * cos (k / 2)) by (repeat apply Rmult_lt_0_compat; auto). nra.
Qed.
End Mode.
Local Notation kw := (rl (PI / 3)).
Local Notation mode3 := (line_mode (1 : CC)%K (PI / 3)).
Local Notation Em := (carried 2 false 1 kw (dxe L5 2) (fst mode3)).
Local Notation Hm := (carried 2 false 1 kw (dxh L5 2) (snd mode3)).
(** the wave that travels backward *)
Definition back_wave : field3 CC := fun c _ _ z => if Nat.eqb c 0 then cexp (ki * rl (PI / 3 * (INR z - 1)))%K else (0 : CC)%K.
Lemma sq3 : sqrt 3 * sqrt 3 = 3.
Proof. apply sqrt_sqrt. lra. Qed.
Lemma p_mode : pairing L5 2 st len (1 : CC)%K (Some ones) Em Hm Em = ((sqrt 3 / 4, - (5 / 4)) : CC).
Proof.
  rewrite p_mode_gen. replace (PI / 3 / 2) with (PI / 6) by field. rewrite !cexp_turn, !cos_neg, !sin_neg, cos_PI6, sin_PI6, cos_PI3, sin_PI3.
  pose proof sq3 as S. apply c_eq; cbn; nra.
Qed.
Lemma p_back : pairing L5 2 st len (1 : CC)%K (Some ones) Em Hm back_wave = ((0, - (1 / 2)) : CC).
Proof.
  assert (B1 : back_wave 0%nat 0%nat 0%nat 1%nat = (1 : CC)%K).
  { unfold back_wave. cbn [Nat.eqb]. rewrite cexp_turn. cbn [INR]. replace (PI / 3 * (1 - 1)) with 0 by ring. rewrite cos_0, sin_0. reflexivity. }
  assert (B2 : back_wave 0%nat 0%nat 0%nat 2%nat = ((1 / 2, sqrt 3 / 2) : CC)).
  { unfold back_wave. cbn [Nat.eqb]. rewrite cexp_turn. cbn [INR]. replace (PI / 3 * (1 + 1 - 1)) with (PI / 3) by ring. rewrite cos_PI3, sin_PI3. reflexivity. }
  assert (B3 : back_wave 0%nat 0%nat 0%nat 3%nat = ((- (1 / 2), sqrt 3 / 2) : CC)).
  { unfold back_wave. cbn [Nat.eqb]. rewrite cexp_turn. cbn [INR]. replace (PI / 3 * (1 + 1 + 1 - 1)) with (2 * (PI / 3)) by ring. rewrite cos_2PI3, sin_2PI3. apply c_eq; cbn; field. }
  rewrite pairing_line, flux_h_line, flux_e_line by (intros; first [apply Hm0|reflexivity]). rewrite Hm1, Em_1, Em_2, B1, B2, B3. replace (PI / 3 / 2) with (PI / 6) by field. rewrite !cexp_turn, !cos_neg, !sin_neg, cos_PI6, sin_PI6, cos_PI3, sin_PI3.
  pose proof sq3 as S. apply c_eq; cbn; unfold cdiv, cinv, cmul, cscale, cconj; cbn; unfold Rdiv; set (r := sqrt 3) in *; clearbody r; field_simplify; try lra;
    match goal with |- ?a = ?b => assert (a - b = 0); [field_simplify; replace (r ^ 2) with 3 by (rewrite <- S; ring); try field|lra] end.
Qed.
Local Notation w := (cexp (ki * rl (PI / 3)))%K.
Lemma back_next z : back_wave 0%nat 0%nat 0%nat (S z) = (w * back_wave 0%nat 0%nat 0%nat z)%K.
Proof. unfold back_wave. cbn [Nat.eqb]. rewrite <- cexp_add. f_equal. rewrite S_INR. apply c_eq; cbn; ring. Qed.
Lemma w_sq : (w * w)%K = (w - 1)%K :> CC.
Proof. rewrite cexp_turn, cos_PI3, sin_PI3. pose proof sq3. apply c_eq; cbn; nra. Qed.
Lemma back_solves c x y z : (c < 3)%nat -> in_grid L5 x y z -> (1 <= z)%nat -> (z + 1 < 5)%nat -> wave_equation L5 (1 : CC)%K ones ones back_wave c x y z = (0 : CC)%K.
Proof.
  intros Hc (Hx & Hy & Hz) H1 H2. cbn in Hx, Hy, Hz. assert (x = 0%nat) by lia. assert (y = 0%nat) by lia. subst x y. destruct z as [|l]; [lia|].
  unfold wave_equation, fcurl_h, fcurl_e, fcurl, de, dh, ones. 
  assert (B1 : forall x y z, back_wave 1%nat x y z = (0 : CC)%K) by reflexivity. assert (B2 : forall x y z, back_wave 2%nat x y z = (0 : CC)%K) by reflexivity.
  assert (B0 : forall x y z, back_wave 0%nat x y z = back_wave 0%nat 0%nat 0%nat z) by reflexivity.
  change (dxh L5) with (fun _ _ : nat => (1 : CC)%K). change (dxe L5) with (fun _ _ : nat => (1 : CC)%K). cbv beta.
  destruct c as [|[|[|]]]; try lia; cbn [roll_forward roll_back]; rewrite ?B1, ?B2; change (dim L5 2) with 5%nat; change (dim L5 1) with 1%nat; change (dim L5 0) with 1%nat;
    repeat match goal with |- context [back_wave 0%nat ?x ?y ?z] => lazymatch x with 0%nat => lazymatch y with 0%nat => fail | _ => idtac end | _ => idtac end; change (back_wave 0%nat x y z) with (back_wave 0%nat 0%nat 0%nat z) end; [| field; exact N1 ..].

  replace ((S l + 5 - 1) mod 5)%nat with l by (replace (S l + 5 - 1)%nat with (l + 1 * 5)%nat by lia; rewrite Nat.mod_add by lia; now rewrite Nat.mod_small by lia).
  rewrite !Nat.mod_small by lia. replace (S l + 1)%nat with (S (S l)) by lia. replace (l + 1)%nat with (S l) by lia.
  rewrite !back_next. pose proof w_sq as W. set (f := back_wave 0%nat 0%nat 0%nat l). set (q := w) in *.
  clearbody q f.
  transitivity (- (q * q - q + 1) * f)%K; [field; exact N1|rewrite W; ring].
Qed.
Lemma back_step c x y z : (z + 1 < 5)%nat -> roll_forward L5 (back_wave c) 2 x y z = (w * back_wave c x y z)%K.
Proof.
  intros Hz. cbn [roll_forward]. change (dim L5 2) with 5%nat. rewrite Nat.mod_small by lia. replace (z + 1)%nat with (S z) by lia.
  destruct c as [|c]; [exact (back_next z)|]. change ((0 : CC)%K = (w * 0)%K). ring.
Qed.
Lemma back_lemma : exists C, compute_overlap_e L5 2 false st len (1 : CC)%K kw (Some ones) (fst mode3) (snd mode3) = Ok C /\
  (cabs (grid_dot L5 C Em) = 1 /\ cabs (grid_dot L5 C back_wave) = 1 / sqrt 7).
Proof.
  pose proof (@compute_overlap_lemma L5 2 false st len (1 : CC)%K kw (Some ones) (fst mode3) (snd mode3) ltac:(lia) N1 ltac:(intros ? ? ? ? _ _; exact N1)) as L. cbv zeta in L.
  change (st 2%nat) with 1%nat in L.
  destruct (compute_overlap_e _ _ _ _ _ _ _ _ _ _) as [C|e].
  - exists C. split; [reflexivity|]. destruct L as [N L]. rewrite !L. rewrite p_back. rewrite p_mode in *. clear L.
    assert (A : cabs ((sqrt 3 / 4, - (5 / 4)) : CC) = sqrt 7 / 2).
    { unfold cabs. cbn [fst snd]. replace (sqrt 3 / 4 * (sqrt 3 / 4) + - (5 / 4) * - (5 / 4)) with (7 / (2 * 2)) by (pose proof sq3; nra).
      rewrite sqrt_div_alt, sqrt_square by lra. reflexivity. }
    assert (S7 : 0 < sqrt 7) by (apply sqrt_lt_R0; lra).
    assert (B : cabs ((0, - (1 / 2)) : CC) = 1 / 2).
    { unfold cabs. cbn [fst snd]. replace (0 * 0 + - (1 / 2) * - (1 / 2)) with (1 / 2 * (1 / 2)) by field. rewrite sqrt_square; lra. }
    rewrite !cabs_div by (rewrite A; lra). rewrite A, B. split; field; lra.
  - exfalso. destruct L as [_ L]. rewrite p_mode in L. apply (f_equal snd) in L. cbn in L. lra.
Qed.
Lemma built_ok power : exists E H C, mode_fields L5 2 false st len (1 : CC)%K ones ones wave_v (1 : CC)%K = Ok (E, H) /\
  build_overlap L5 2 false st len (1 : CC)%K ones (Some ones) power wave_v (1 : CC)%K = Ok C /\ E 0%nat 0%nat 0%nat 1%nat <> (0 : CC)%K.
Proof.
  set (nf := (rl (1 / sqrt (1 / 2)) * unturn (entry g2 (v2e g2 (1 : CC)%K o2 o2 (1 : CC)%K wave_v) (Nat.div (3 * (dim g2 0 * dim g2 1)) 2)))%K : CC).
  assert (NF : norm_factor g2 (v2e g2 (1 : CC)%K o2 o2 (1 : CC)%K wave_v) (v2h g2 o2 (1 : CC)%K wave_v) = Ok nf).
  { unfold norm_factor. rewrite one_power; try reflexivity; [|intros; split; reflexivity]. destruct (Rlt_dec 0 (1 / 2)); [reflexivity|lra]. }
  assert (Nz : nf <> (0 : CC)%K).
  { intros Z. assert (A : cabs nf = 1 / sqrt (1 / 2)).
    { unfold nf. match goal with |- cabs (kmul ?a ?b) = _ => change (cabs (cmul a b) = 1 / sqrt (1 / 2)) end. rewrite cabs_mul, cabs_unturn, cabs_rl; [ring|].
      apply Rlt_le, Rdiv_lt_0_compat; [lra|apply sqrt_lt_R0; lra]. }
    rewrite Z in A. change (cabs c0 = 1 / sqrt (1 / 2)) in A. rewrite cabs_0 in A. assert (0 < 1 / sqrt (1 / 2)) by (apply Rdiv_lt_0_compat; [lra|apply sqrt_lt_R0; lra]). lra. }
  set (k := sin (1 / 2) * 2).
  assert (Kc : corrected_solvers (1 : CC)%K = rl k) by (unfold corrected_solvers, k; apply c_eq; cbn; [replace (1 * 1 / 2) with (1 / 2) by field; field|reflexivity]).
  assert (Kb : 0 < k <= 1).
  { unfold k. pose proof PI2_3_2. assert (0 < sin (1 / 2)) by (apply sin_gt_0; lra). assert (sin (1 / 2) < 1 / 2) by (apply sin_lt_x; lra). lra. }
  assert (MF : mode_fields L5 2 false st len (1 : CC)%K ones ones wave_v (1 : CC)%K = Ok (line_mode nf k)).
  { unfold mode_fields. cbv zeta. rewrite NF. cbn [bind]. rewrite Kc. reflexivity. }
  pose proof (@build_overlap_lemma L5 2 false st len (1 : CC)%K ones (Some ones) power wave_v (1 : CC)%K ltac:(lia) N1 ltac:(intros ? ? ? ? _ _; exact N1) ltac:(cbn; lia) ltac:(cbn; lia) ltac:(cbn; lia)) as L.
  change (mu_or_1 (Some ones)) with ones in L. rewrite MF in L. destruct (line_mode nf k) as [E H] eqn:LM. cbv zeta in L. rewrite Kc in L. destruct L as [_ L].
  pose proof (@p_mode_nz nf k Nz Kb) as P. rewrite LM in P. cbn [fst snd] in P. destruct (L P) as (C & t & HC & _).
  exists E, H, C. split; [exact MF|]. split; [exact HC|]. pose proof (line_E0 nf k) as E0. rewrite LM in E0. cbn [fst] in E0. rewrite E0. exact Nz.
Qed.
(** everything that the theorem about a source and an overlap asks for *)
Lemma line_arrives_hyps : exists C, evenly L5 2 (rl 1) /\ proper L5 ones ones /\ invariant_along L5 2 ones /\
  eigenvector g2 (1 : CC)%K (1 : CC)%K o2 o2 wave_v /\ dispersion cexp (rl (PI / 3)) (rl 1) (1 : CC)%K = (0 : CC)%K /\
  (forall x y z, in_grid L5 x y z -> fst (line_mode (1 : CC)%K (PI / 3)) 2%nat x y z = (0 : CC)%K) /\
  compute_overlap_e L5 2 false st len (1 : CC)%K (rl (PI / 3)) (Some ones) (fst (line_mode (1 : CC)%K (PI / 3))) (snd (line_mode (1 : CC)%K (PI / 3))) = Ok C.
Proof.
  destruct back_lemma as (C & HC & _). exists C. split; [intros l Hl; split; reflexivity|]. split; [split; intros; split; exact N1|]. split; [intros c x y z x' y' z' _ _ _ _; reflexivity|].
  split; [apply (@one_eigenvector g2 o2 o2); intros; try split; reflexivity|]. split; [|split; [|exact HC]].
  - change (1 : CC)%K with (rl 1). rewrite dispersion_real by lra. replace (PI / 3 * 1 / 2) with (PI / 6) by field. rewrite sin_PI6. apply c_eq; cbn; field.
  - intros x y z (Hx & Hy & Hz). cbn in Hx, Hy, Hz. assert (x = 0%nat) by lia. assert (y = 0%nat) by lia. subst.
    destruct (Nat.eq_dec z 1) as [->|Hn]; [apply line_E2|]. unfold line_mode, solve_waveguide_mode. cbn [fst]. unfold expand.
    replace (forallb _ _) with false; [reflexivity|]. symmetry. cbn [seq forallb pick whole_start whole_len Nat.eqb]. rewrite !andb_true_r. rewrite !andb_false_iff. right. right.
    rewrite Nat.leb_gt, Nat.ltb_ge. lia.
Qed.
