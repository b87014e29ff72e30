(** The field of plane waves and of Gaussian beams. *)
From Coq Require Import Reals ZArith Lra Lia.
From Verif Require Import Base CField GMath_Model GMath_Proofs CplxField Maxwell_Model Wg_Model Wg_Model2 Fs_Model Fs_Spec Fs_Proofs.
Set Implicit Arguments.
Local Open Scope R_scope.

Lemma along_at axis u v w a : (axis < 3)%nat -> (a < 3)%nat -> along axis u v w a = v3 u v w (reverse_order axis a).
Proof. intros Hx Ha. idx axis Hx; idx a Ha; reflexivity. Qed.
Lemma order_reverse axis a : (axis < 3)%nat -> (a < 3)%nat -> order axis (reverse_order axis a) = a.
Proof. intros Hx Ha. idx axis Hx; idx a Ha; reflexivity. Qed.
Lemma reverse_lt axis a : (reverse_order axis a < 3)%nat.
Proof. unfold reverse_order. apply Nat.mod_upper_bound. lia. Qed.
Lemma cross_along axis u v w u' v' w' a : (axis < 3)%nat -> (a < 3)%nat ->
  cross_prod (along axis u v w) (along axis u' v' w') a = cross_prod (v3 u v w) (v3 u' v' w') (reverse_order axis a).
Proof. intros Hx Ha. idx axis Hx; idx a Ha; unfold cross_prod, along; cbn [reverse_order Nat.modulo Nat.divmod Nat.add Nat.sub fst snd Nat.eqb v3]; reflexivity. Qed.
Lemma dot_along axis u v w (p : vec3) : (axis < 3)%nat ->
  dot (along axis u v w) p = u * p (order axis 0) + v * p (order axis 1) + w * p (order axis 2).
Proof. intros Hx. idx axis Hx; unfold dot, along, order; cbn [Nat.modulo Nat.divmod Nat.add Nat.sub fst snd Nat.eqb]; ring. Qed.

Section Dirs.
Variables (back : bool) (theta psi pol : R).
Local Notation s := (sign back).
Lemma direction_at axis a : (axis < 3)%nat -> (a < 3)%nat -> k_turned back theta psi (reverse_order axis a) = direction axis s theta psi a.
Proof. intros Hx Ha. rewrite k_turned_at by apply reverse_lt. unfold direction. now rewrite along_at. Qed.
Lemma polarized_at axis a : (axis < 3)%nat -> (a < 3)%nat -> e_turned back theta psi pol (reverse_order axis a) = polarized axis s theta psi pol a.
Proof.
  intros Hx Ha. rewrite e_turned_at by apply reverse_lt. unfold polarized, direction. rewrite along_at, cross_along by auto.
  f_equal. f_equal. pose proof (reverse_lt axis a) as Hr. set (r := reverse_order axis a) in *. clearbody r.
  idx r Hr; unfold cross_prod; rewrite !k_turned_at by lia; reflexivity.
Qed.
(** coordinates along the third axis of the rotated frame *)
Lemma row2 axis (d : vec3) : (axis < 3)%nat ->
  inv3 (total_rotation back theta psi pol) 2%nat 0%nat * d (order axis 0) + inv3 (total_rotation back theta psi pol) 2%nat 1%nat * d (order axis 1)
  + inv3 (total_rotation back theta psi pol) 2%nat 2%nat * d (order axis 2) = s * dot (direction axis s theta psi) d.
Proof.
  intros Hx. rewrite !(inv3_orth (total_orth back theta psi pol)) by lia. rewrite !total_col2 by lia. unfold direction. rewrite dot_along by auto.
  rewrite !k_turned_at by lia. cbn [v3]. ring.
Qed.
Lemma rows_norm axis (d : vec3) : (axis < 3)%nat -> let M := inv3 (total_rotation back theta psi pol) in
  let x := M 0%nat 0%nat * d (order axis 0) + M 0%nat 1%nat * d (order axis 1) + M 0%nat 2%nat * d (order axis 2) in
  let y := M 1%nat 0%nat * d (order axis 0) + M 1%nat 1%nat * d (order axis 1) + M 1%nat 2%nat * d (order axis 2) in
  let z := M 2%nat 0%nat * d (order axis 0) + M 2%nat 1%nat * d (order axis 1) + M 2%nat 2%nat * d (order axis 2) in
  x * x + y * y = dot d d - z * z.
Proof.
  intros Hx M x y z. pose proof (total_orth back theta psi pol) as HO. pose proof (det_orth HO) as Hd.
  assert (Hd0 : det3 (total_rotation back theta psi pol) <> 0) by (intros E; rewrite E in Hd; lra).
  pose proof (inv3_right Hd0) as HR.
  assert (G : forall i j, (i < 3)%nat -> (j < 3)%nat -> M 0%nat i * M 0%nat j + M 1%nat i * M 1%nat j + M 2%nat i * M 2%nat j = id3 i j).
  { intros i j Hi Hj. rewrite <- (HR i j Hi Hj). unfold mm3. fold M. unfold M. rewrite <- !(inv3_orth HO (c:=i)) by lia. reflexivity. }
  pose proof (G 0 0 ltac:(lia) ltac:(lia))%nat as H00. pose proof (G 0 1 ltac:(lia) ltac:(lia))%nat as H01. pose proof (G 0 2 ltac:(lia) ltac:(lia))%nat as H02.
  pose proof (G 1 1 ltac:(lia) ltac:(lia))%nat as H11. pose proof (G 1 2 ltac:(lia) ltac:(lia))%nat as H12. pose proof (G 2 2 ltac:(lia) ltac:(lia))%nat as H22.
  unfold id3 in *. cbn [Nat.eqb] in *.
  assert (E : dot d d = d (order axis 0) * d (order axis 0) + d (order axis 1) * d (order axis 1) + d (order axis 2) * d (order axis 2)).
  { clear -Hx. unfold dot, order. idx axis Hx; cbn [Nat.modulo Nat.divmod Nat.add Nat.sub fst snd]; ring. }
  rewrite E. unfold x, y, z. set (a := d (order axis 0)). set (b := d (order axis 1)). set (c := d (order axis 2)).
  clearbody a b c. clearbody M. clear -H00 H01 H02 H11 H12 H22.
  transitivity (a * a * (M 0%nat 0%nat * M 0%nat 0%nat + M 1%nat 0%nat * M 1%nat 0%nat + M 2%nat 0%nat * M 2%nat 0%nat)
   + b * b * (M 0%nat 1%nat * M 0%nat 1%nat + M 1%nat 1%nat * M 1%nat 1%nat + M 2%nat 1%nat * M 2%nat 1%nat)
   + c * c * (M 0%nat 2%nat * M 0%nat 2%nat + M 1%nat 2%nat * M 1%nat 2%nat + M 2%nat 2%nat * M 2%nat 2%nat)
   + 2 * a * b * (M 0%nat 0%nat * M 0%nat 1%nat + M 1%nat 0%nat * M 1%nat 1%nat + M 2%nat 0%nat * M 2%nat 1%nat)
   + 2 * a * c * (M 0%nat 0%nat * M 0%nat 2%nat + M 1%nat 0%nat * M 1%nat 2%nat + M 2%nat 0%nat * M 2%nat 2%nat)
   + 2 * b * c * (M 0%nat 1%nat * M 0%nat 2%nat + M 1%nat 1%nat * M 1%nat 2%nat + M 2%nat 1%nat * M 2%nat 2%nat)
   - (M 2%nat 0%nat * a + M 2%nat 1%nat * b + M 2%nat 2%nat * c) * (M 2%nat 0%nat * a + M 2%nat 1%nat * b + M 2%nat 2%nat * c)); [ring|].
  rewrite H00, H01, H02, H11, H12, H22. ring.
Qed.
Lemma direction_unit axis : (axis < 3)%nat -> dot (direction axis s theta psi) (direction axis s theta psi) = 1.
Proof.
  intros Hx. unfold direction. rewrite dot_along by auto. pose proof (k_unit back theta psi) as H. unfold unit3 in H. rewrite !k_turned_at in H by lia. cbn [v3] in H.
  rewrite !along_at by (auto; unfold order; apply Nat.mod_upper_bound; lia).
  rewrite <- H. clear H. idx axis Hx; reflexivity.
Qed.
Lemma polarized_unit axis : (axis < 3)%nat -> dot (polarized axis s theta psi pol) (polarized axis s theta psi pol) = 1.
Proof.
  intros Hx. pose proof (total_orth back theta psi pol (r:=0) (c:=0) ltac:(lia) ltac:(lia))%nat as H. unfold mm3, tr3, id3 in H. cbn [Nat.eqb] in H.
  rewrite !total_col0 in H by lia. unfold dot. rewrite <- !polarized_at by (auto; lia).
  rewrite <- H. clear H. idx axis Hx; unfold reverse_order; cbn [Nat.modulo Nat.divmod Nat.add Nat.sub fst snd]; ring.
Qed.
Lemma polarized_transverse axis : (axis < 3)%nat -> dot (polarized axis s theta psi pol) (direction axis s theta psi) = 0.
Proof.
  intros Hx. pose proof (total_orth back theta psi pol (r:=0) (c:=2) ltac:(lia) ltac:(lia))%nat as H. unfold mm3, tr3, id3 in H. cbn [Nat.eqb] in H.
  rewrite !total_col0, !total_col2 in H by lia. unfold dot. rewrite <- !polarized_at, <- !direction_at by (auto; lia).
  assert (H' : e_turned back theta psi pol 0%nat * k_turned back theta psi 0%nat + e_turned back theta psi pol 1%nat * k_turned back theta psi 1%nat
               + e_turned back theta psi pol 2%nat * k_turned back theta psi 2%nat = 0) by (destruct back; unfold sign in H; lra).
  rewrite <- H'. clear H H'. idx axis Hx; unfold reverse_order; cbn [Nat.modulo Nat.divmod Nat.add Nat.sub fst snd]; ring.
Qed.
End Dirs.

Lemma along_minus axis (p c : vec3) i : (axis < 3)%nat -> (i < 3)%nat ->
  v3 (p (order axis 0)) (p (order axis 1)) (p (order axis 2)) i - c i = p (order axis i) - along axis (c 0%nat) (c 1%nat) (c 2%nat) (order axis i).
Proof. intros Hx Hi. idx axis Hx; idx i Hi; reflexivity. Qed.
Lemma wave_number omega eps_val : 0 < omega -> 0 < eps_val -> 2 * PI / wavelength omega eps_val = omega * sqrt eps_val.
Proof.
  intros Ho He. unfold wavelength. pose proof PI_RGT_0. pose proof (sqrt_lt_R0 _ He). field. repeat split; try lra; nra.
Qed.
Section Fields.
Variables (g : grid CC) (pos : places) (eps : field3 CC) (omega : R) (axis : nat) (sl : slices) (theta psi pol : R) (back : bool) (power : R).
Hypothesis Hx : (axis < 3)%nat.
Hypothesis Ho : 0 < omega.
Local Notation eps_val := (average g sl (eps 0%nat)).
Hypothesis He : 0 < eps_val.
Local Notation s := (sign back).
Local Notation n := (direction axis s theta psi).
Local Notation k := (omega * sqrt eps_val).
Lemma k_field_at scalar a : (a < 3)%nat -> f_k (vector_fields g pos eps omega axis sl theta psi pol back power scalar) a = k * n a.
Proof. intros Ha. cbn [vector_fields f_k]. rewrite direction_at by auto. ring. Qed.
Lemma E_field_at scalar c x y z : (c < 3)%nat -> f_E (vector_fields g pos eps omega axis sl theta psi pol back power scalar) c x y z =
  (rl (sqrt power) * (scalar (inv3 (total_rotation back theta psi pol)) (v3 (place pos c x y z (order axis 0)) (place pos c x y z (order axis 1)) (place pos c x y z (order axis 2)))
     * rl (polarized axis s theta psi pol c)))%K.
Proof.
  intros Hc. cbn [vector_fields f_E]. unfold turned_back, turned_E. rewrite order_reverse, polarized_at by auto. reflexivity.
Qed.
Lemma plane_wave_at (p : vec3) : plane_wave omega eps_val back (inv3 (total_rotation back theta psi pol)) (v3 (p (order axis 0)) (p (order axis 1)) (p (order axis 2)))
  = turn (- (k * dot n p)).
Proof.
  unfold plane_wave. cbn [v3]. rewrite row2 by auto. rewrite wave_number by auto. f_equal. pose proof (sign2 back) as H.
  transitivity (- (s * s) * (k * dot n p)); [ring|]. rewrite H. ring.
Qed.
(** Gaussian beam *)
Lemma cexp_sum (a b : CC) : (cexp a * cexp b)%K = cexp (a + b)%K.
Proof. unfold cexp. apply c_eq; cbn; rewrite exp_plus, ?cos_plus, ?sin_plus; ring. Qed.
Lemma turn_rl t phi : (rl (exp t) * turn phi)%K = cexp (t, phi).
Proof. unfold turn, cexp, rl. apply c_eq; cbn; rewrite exp_0; ring. Qed.
Lemma turn_turn a b : (turn a * turn b)%K = turn (a + b).
Proof. unfold turn. rewrite cexp_sum. f_equal. apply c_eq; cbn; ring. Qed.
Lemma gouy xi : ((1 : CC) / (1 - ki * rl xi))%K = (rl (/ sqrt (1 + xi * xi)) * turn (atan xi))%K.
Proof.
  assert (Hp : 0 < 1 + xi * xi) by nra. assert (Hs : 0 < sqrt (1 + xi * xi)) by (apply sqrt_lt_R0; lra).
  assert (Hq : sqrt (1 + xi * xi) * sqrt (1 + xi * xi) = 1 + xi * xi) by (apply sqrt_sqrt; lra).
  assert (Hc : cos (atan xi) = / sqrt (1 + xi * xi)) by (rewrite cos_atan; unfold Rdiv, Rsqr; ring).
  assert (Hn : sin (atan xi) = xi / sqrt (1 + xi * xi)) by (rewrite sin_atan; unfold Rsqr; reflexivity).
  unfold turn, cexp, rl. apply c_eq; cbn; rewrite exp_0, Hc, Hn; unfold cn2; cbn.
  - transitivity (/ (1 + xi * xi)); [field; nra|]. rewrite <- Hq at 1. field. lra.
  - transitivity (xi / (1 + xi * xi)); [field; nra|]. rewrite <- Hq at 1. field. lra.
Qed.
Lemma gaussian_at w0 (center p : vec3) : 0 < w0 ->
  gaussian_beam w0 center omega eps_val back (inv3 (total_rotation back theta psi pol)) (v3 (p (order axis 0)) (p (order axis 1)) (p (order axis 2)))
  = (rl (sqrt (/ sqrt eps_val) * 2 / (sqrt PI * w0)) * beam k w0 (along axis (center 0%nat) (center 1%nat) (center 2%nat)) n p)%K.
Proof.
  intros Hw. set (q := along axis (center 0%nat) (center 1%nat) (center 2%nat)). set (d := minus3 p q).
  assert (Hd : forall i, (i < 3)%nat -> v3 (p (order axis 0)) (p (order axis 1)) (p (order axis 2)) i - center i = d (order axis i)).
  { intros i Hi. unfold d, minus3, q. now apply along_minus. }
  assert (Hse : 0 < sqrt eps_val) by (apply sqrt_lt_R0; lra). assert (Hk : 0 < k) by nra.
  pose proof PI_RGT_0 as Hpi. assert (Hw2 : 0 < w0 * w0) by nra. assert (Hspi : 0 < sqrt PI) by (apply sqrt_lt_R0; lra).
  unfold gaussian_beam. cbv zeta. rewrite !Hd by lia. rewrite !row2 by auto.
  pose proof (rows_norm back theta psi pol d Hx) as HN. cbv zeta in HN. rewrite row2 in HN by auto. rewrite HN. clear HN.
  rewrite wave_number by auto.
  assert (Ez : PI * (w0 * w0) / wavelength omega eps_val = k * (w0 * w0) / 2).
  { unfold wavelength. field. repeat split; nra. }
  rewrite Ez. unfold beam. fold d. set (zeta := dot d n). assert (Edn : dot n d = zeta) by (unfold zeta, dot; ring). rewrite Edn.
  set (zr := k * (w0 * w0) / 2). assert (Hzr : 0 < zr) by (unfold zr; nra).
  set (xi := zeta / zr). pose proof (sign2 back) as Hs2.
  set (rho2 := dot d d - zeta * zeta).
  assert (Er : dot d d - s * zeta * (s * zeta) = rho2) by (unfold rho2; transitivity (dot d d - (s * s) * (zeta * zeta)); [ring|rewrite Hs2; ring]).
  rewrite Er.
  assert (Exx : s * zeta / zr * (s * zeta / zr) = xi * xi).
  { unfold xi. transitivity ((s * s) * ((zeta / zr) * (zeta / zr))); [field; lra|rewrite Hs2; ring]. }
  rewrite Exx. assert (Hp : 0 < 1 + xi * xi) by nra. assert (Hq : 0 < sqrt (1 + xi * xi)) by (apply sqrt_lt_R0; lra).
  assert (Hqq : sqrt (1 + xi * xi) * sqrt (1 + xi * xi) = 1 + xi * xi) by (apply sqrt_sqrt; lra).
  assert (Hsz : s <> 0) by (destruct back; unfold sign; lra).
  (* curvature *)
  assert (Ec : s * (if Req_EM_T (s * zeta) 0 then 0 else / (s * zeta * (1 + zr / (s * zeta) * (zr / (s * zeta))))) = xi / (zr * (1 + xi * xi))).
  { destruct (Req_EM_T (s * zeta) 0) as [E|E].
    - assert (zeta = 0) by (apply Rmult_integral in E; tauto). unfold xi. rewrite H. unfold Rdiv. ring.
    - assert (zeta <> 0) by (intros Z; apply E; rewrite Z; ring). unfold xi. transitivity ((s * s) * zeta / ((s * s) * (zeta * zeta) + zr * zr)).
      + field. repeat split; auto; destruct back; unfold sign; nra.
      + rewrite Hs2. field. repeat split; nra. }
  (* Gouy phase *)
  assert (Eg : s * atan (s * zeta / zr) = atan xi).
  { destruct back; unfold sign.
    - replace (-1 * zeta / zr) with (- xi) by (unfold xi; field; lra). rewrite atan_opp. ring.
    - replace (1 * zeta / zr) with xi by (unfold xi; field; lra). ring. }
  set (cv := if Req_EM_T (s * zeta) 0 then 0 else _) in *. clearbody cv.
  assert (Eph : - s * (k * (s * zeta) + k * cv * (rho2 / 2) - atan (s * zeta / zr)) = - (k * zeta) + (- (rho2 / (w0 * w0)) * xi / (1 + xi * xi)) + atan xi).
  { transitivity (- (s * s) * (k * zeta) - k * (s * cv) * (rho2 / 2) + s * atan (s * zeta / zr)); [ring|].
    rewrite Hs2, Ec, Eg. unfold zr. field. repeat split; nra. }
  rewrite Eph.
  assert (Eex : cexp (- rl (rho2 / (w0 * w0)) / (1 - ki * rl xi))%K = (rl (exp (- rho2 / (w0 * w0 * (1 + xi * xi)))) * turn (- (rho2 / (w0 * w0)) * xi / (1 + xi * xi)))%K).
  { rewrite turn_rl. f_equal. apply c_eq; cbn; unfold cn2; cbn; field; repeat split; nra. }
  rewrite Eex, gouy.
  assert (Ea : sqrt (sqrt (1 / eps_val)) * 2 / (sqrt PI * w0) * (w0 / (w0 * sqrt (1 + xi * xi))) * exp (- rho2 / (w0 * sqrt (1 + xi * xi) * (w0 * sqrt (1 + xi * xi))))
    = sqrt (/ sqrt eps_val) * 2 / (sqrt PI * w0) * / sqrt (1 + xi * xi) * exp (- rho2 / (w0 * w0 * (1 + xi * xi)))).
  { f_equal.
    - replace (1 / eps_val) with (/ eps_val) by (unfold Rdiv; ring). rewrite <- sqrt_inv. field. repeat split; lra.
    - replace (w0 * sqrt (1 + xi * xi) * (w0 * sqrt (1 + xi * xi))) with (w0 * w0 * (sqrt (1 + xi * xi) * sqrt (1 + xi * xi))) by ring. rewrite Hqq. reflexivity. }
  rewrite Ea. rewrite <- !turn_turn.
  set (A := sqrt (/ sqrt eps_val) * 2 / (sqrt PI * w0)). set (B := / sqrt (1 + xi * xi)). set (D := exp _).
  assert (RL : forall a b, rl (a * b) = (rl a * rl b)%K) by (intros; unfold rl; apply c_eq; cbn; ring). rewrite !RL.
  set (t1 := turn _). set (t2 := turn _). set (t3 := turn _).
  generalize (rl A), (rl B), (rl D), t1, t2, t3. intros. 
  pose proof (k_field CC) as FT. apply c_eq; cbn; ring.
Qed.
End Fields.
