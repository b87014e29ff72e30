(** The source does not depend on the scale and phase of the eigenvector. *)
From Coq Require Import Reals Lra.
From Verif Require Import Base CField CField_Proofs GMath_Model GMath_Proofs CplxField Maxwell_Model Wg_Model Wg_Model2 Wg_Spec Wg_Proofs7.
From Coq Require Import Lia.
Set Implicit Arguments.

Section Lin.
Variable K : cfield.
Local Open Scope K_scope.
Add Field Kf8 : (k_field K).
Variables (g : grid K) (omega : K) (eps mu : field3 K) (beta a : K) (v : array K * array K).
Lemma v2h_scaled c i j l : v2h g mu beta (scaled a v) c i j l = a * v2h g mu beta v c i j l.
Proof.
  unfold v2h, op_dv, de, roll_forward, scaled. cbn [fst snd]. destruct c as [|[|]]; auto. rewrite !(Fdiv_def (k_field K)). ring.
Qed.
Lemma v2e_scaled c i j l : v2e g omega eps mu beta (scaled a v) c i j l = a * v2e g omega eps mu beta v c i j l.
Proof.
  unfold v2e, wg_curl_h, wg_curl, dh, roll_back. destruct c as [|[|]]; rewrite !v2h_scaled, !(Fdiv_def (k_field K)); ring.
Qed.
(** compute_source depends on the values only *)
Lemma compute_source_ext ce axis back s w k E H E' H' : (forall c x y z, E c x y z = E' c x y z) -> (forall c x y z, H c x y z = H' c x y z) ->
  forall c x y z, compute_source ce g axis back s w k mu E H c x y z = compute_source ce g axis back s w k mu E' H' c x y z.
Proof.
  intros HE HH c x y z. unfold compute_source, fcurl_h, fcurl, dh, roll_back, roll_forward.
  destruct axis as [|[|]]; destruct c as [|[|]]; rewrite ?HE, ?HH; reflexivity.
Qed.
End Lin.

Local Open Scope R_scope.
Lemma cabs_mul (x y : C) : cabs (cmul x y) = cabs x * cabs y.
Proof.
  destruct x as [x1 x2], y as [y1 y2]. unfold cabs, cmul. cbn [fst snd]. rewrite <- sqrt_mult_alt.
  - f_equal. ring.
  - pose proof (Rle_0_sqr x1). pose proof (Rle_0_sqr x2). unfold Rsqr in *. lra.
Qed.
Lemma cabs_sq (x : C) : cabs x * cabs x = cn2 x.
Proof. unfold cabs, cn2. apply sqrt_sqrt. pose proof (Rle_0_sqr (fst x)). pose proof (Rle_0_sqr (snd x)). unfold Rsqr in *. lra. Qed.
Lemma cabs_pos (x : C) : x <> c0 -> 0 < cabs x.
Proof. intros H. apply sqrt_lt_R0. apply cn2_pos. exact H. Qed.
Lemma cabs_conj (x : C) : cabs (cconj x) = cabs x.
Proof. unfold cabs. f_equal. destruct x; cbn; ring. Qed.
Lemma cabs_0 : cabs c0 = 0.
Proof. unfold cabs. cbn. replace (0 * 0 + 0 * 0) with 0 by ring. apply sqrt_0. Qed.

Lemma re_rl r (z : CC) : re (rl r * z)%K = r * re z.
Proof. destruct z as [z1 z2]. unfold re, rl. change (fst (cmul (r, 0) (z1, z2)) = r * fst (z1, z2)). unfold cmul. cbn [fst snd]. ring. Qed.
Add Field CCf : (k_field CC).
Lemma fsum_scale_ext n f f' (a : CC) : (forall i, (i < n)%nat -> f' i = (a * f i)%K) -> fsum n f' = (a * fsum n f)%K.
Proof.
  induction n; intros H; cbn [fsum].
  - change (c0 = cmul a c0). cring.
  - rewrite IHn, H by auto. change (cadd (cmul a (fsum n f)) (cmul a (f n)) = cmul a (cadd (fsum n f) (f n))). cring.
Qed.
Lemma mode_power_scaled g E H E' H' (a : CC) :
  (forall c i j l, E' c i j l = (a * E c i j l)%K) -> (forall c i j l, H' c i j l = (a * H c i j l)%K) ->
  mode_power g E' H' = cn2 a * mode_power g E H.
Proof.
  intros HE HH. unfold mode_power, sum_plane.
  match goal with |- _ = _ * (_ * re (fsum _ ?f)) => rewrite (@fsum_scale_ext (dim g 0) f _ (rl (cn2 a))) end.
  - rewrite re_rl. ring.
  - intros i Hi. apply fsum_scale_ext. intros j Hj.
    assert (N : (a * kconj a)%K = rl (cn2 a)) by (apply c_eq; cbn; unfold cn2; ring).
    unfold roll_back. rewrite !HE, !HH, !(kconj_mul CC). rewrite <- N.
    generalize (kconj a). intros b. repeat match goal with |- context [kconj ?x] => generalize (kconj x); intro end. ring.
Qed.
Lemma entry_scaled g (E E' : field3 CC) (a : CC) m : (forall c i j l, E' c i j l = (a * E c i j l)%K) -> entry g E' m = (a * entry g E m)%K.
Proof. intros H. unfold entry. apply H. Qed.
Lemma rl_neq0 r : r <> 0 -> rl r <> (0 : CC)%K.
Proof. intros H E. apply H. apply (f_equal fst) in E. exact E. Qed.
Lemma conj_sq (a : CC) : (a * kconj a)%K = (rl (cabs a) * rl (cabs a))%K.
Proof.
  transitivity (rl (cn2 a)); [apply c_eq; cbn; unfold cn2; ring|]. rewrite <- cabs_sq. apply c_eq; cbn; ring.
Qed.
Lemma rl_mul r s : rl (r * s) = (rl r * rl s)%K.
Proof. apply c_eq; cbn; ring. Qed.
Lemma rl_inv r : r <> 0 -> rl (1 / r) = (1 / rl r)%K.
Proof. intros H. apply c_eq; cbn; unfold cdiv, cinv, cmul, cscale, cconj; cbn; field; intuition. Qed.
Lemma cabs_rl r : 0 <= r -> cabs (rl r) = r.
Proof. intros H. unfold cabs. cbn. replace (r * r + 0 * 0) with (r * r) by ring. apply sqrt_square. exact H. Qed.
Lemma cabs_div (x : CC) r : 0 < r -> cabs (x / rl r)%K = cabs x / r.
Proof.
  intros H. assert (E : cabs x = cabs (x / rl r)%K * r).
  { rewrite <- (cabs_rl (r := r)) at 2 by lra. rewrite <- cabs_mul. f_equal. change (x = (x / rl r * rl r)%K). field. apply rl_neq0; lra. }
  rewrite E. field. lra.
Qed.
Lemma unturn_0 : unturn (0 : CC)%K = (1 : CC)%K.
Proof. unfold unturn. destruct (czero c0) eqn:E; [change (czero (0 : CC)%K) with (czero c0); now rewrite E|]. exfalso. assert (czero c0 = true) by now apply czero_spec. congruence. Qed.
Lemma unturn_nz (z : CC) : z <> (0 : CC)%K -> unturn z = (kconj z / rl (cabs z))%K.
Proof. intros H. unfold unturn. now rewrite (czero_false H). Qed.
Lemma norm_factor_scaled g E H E' H' (a : CC) : a <> (0 : CC)%K ->
  (forall c i j l, E' c i j l = (a * E c i j l)%K) -> (forall c i j l, H' c i j l = (a * H c i j l)%K) ->
  match norm_factor g E H with
  | Ok nf => exists nf' (t : CC), norm_factor g E' H' = Ok nf' /\ cabs t = 1 /\ (nf' * a)%K = (t * nf)%K
  | Err e => norm_factor g E' H' = Err e
  end.
Proof.
  intros Ha HE HH. unfold norm_factor. rewrite (@mode_power_scaled g E H E' H' a HE HH).
  pose proof (cn2_pos Ha) as Hn. pose proof (cabs_pos Ha) as Hc.
  set (P := mode_power g E H).
  destruct (Rlt_dec 0 P) as [HP|HP]; destruct (Rlt_dec 0 (cn2 a * P)) as [HP'|HP'].
  - rewrite (@entry_scaled g E E' a _ HE). set (z := entry g E _).
    assert (Sq : sqrt (cn2 a * P) = cabs a * sqrt P) by (rewrite <- cabs_sq, sqrt_mult_alt by (apply Rmult_le_pos; lra); rewrite sqrt_square by lra; reflexivity).
    rewrite Sq. pose proof (sqrt_lt_R0 _ HP) as HS.
    assert (N1 : rl (cabs a) <> (0 : CC)%K) by (apply rl_neq0; lra).
    assert (N2 : rl (sqrt P) <> (0 : CC)%K) by (apply rl_neq0; lra).
    assert (F : rl (1 / (cabs a * sqrt P)) = (1 / (rl (cabs a) * rl (sqrt P)))%K) by (rewrite rl_inv by (apply Rmult_integral_contrapositive; lra); now rewrite rl_mul).
    rewrite F, (rl_inv (r := sqrt P)) by lra.
    destruct (czero z) eqn:Z.
    + apply czero_spec in Z. change (z = (0 : CC)%K) in Z. rewrite Z. replace (a * 0)%K with (0 : CC)%K by ring. rewrite unturn_0.
      eexists. exists (a / rl (cabs a))%K. split; [reflexivity|]. split.
      * rewrite cabs_div by lra. field. lra.
      * field. auto.
    + assert (Nz : z <> (0 : CC)%K). { intros E0. assert (czero z = true) by now apply czero_spec. congruence. }
      assert (Naz : (a * z)%K <> (0 : CC)%K) by (apply (cmul_nz Ha Nz)).
      rewrite !unturn_nz by auto. eexists. exists (1 : CC)%K. split; [reflexivity|]. split.
      * apply (cabs_rl (r := 1)). lra.
      * assert (M : cabs (a * z)%K = cabs a * cabs z) by apply cabs_mul. rewrite M, rl_mul, (kconj_mul CC).
        assert (N3 : rl (cabs z) <> (0 : CC)%K) by (apply rl_neq0; pose proof (cabs_pos Nz); lra).
        transitivity (a * kconj a / (rl (cabs a) * rl (cabs a)) * (1 / rl (sqrt P) * (kconj z / rl (cabs z))))%K; [field; auto|].
        rewrite conj_sq. field. auto.
  - exfalso. apply HP'. apply Rmult_lt_0_compat; auto.
  - exfalso. apply HP. apply (Rmult_lt_reg_l (cn2 a)); auto. lra.
  - reflexivity.
Qed.
Lemma solve_scaled (g : grid CC) axis (back : bool) st len omega eps mu v beta nf nf' k (a t : CC) : (nf' * a)%K = (t * nf)%K ->
  let tt : CC := if back then kconj t else t in
  forall c x y z,
  fst (solve_waveguide_mode cexp g axis back st len omega eps mu (scaled a v) beta nf' k) c x y z
    = (tt * fst (solve_waveguide_mode cexp g axis back st len omega eps mu v beta nf k) c x y z)%K /\
  snd (solve_waveguide_mode cexp g axis back st len omega eps mu (scaled a v) beta nf' k) c x y z
    = (tt * snd (solve_waveguide_mode cexp g axis back st len omega eps mu v beta nf k) c x y z)%K.
Proof.
  intros Hn tt c x y z. unfold solve_waveguide_mode. cbn [fst snd]. unfold expand.
  destruct (forallb _ _); [|split; ring].
  set (p := pick _ x y z). set (q := pick _ x y z). clearbody p q.
  assert (Q : forall y0 : CC, (nf' * (a * y0))%K = (t * (nf * y0))%K).
  { intros y0. transitivity (nf' * a * y0)%K; [ring|]. rewrite Hn. ring. }
  unfold tt. destruct back; unfold scale3; rewrite v2e_scaled, v2h_scaled, !Q, ?(kconj_mul CC); split; ring.
Qed.
Lemma flattenC_ext {A} g (f f' : nat -> nat -> nat -> A) : (forall x y z, f x y z = f' x y z) -> flattenC g f = flattenC g f'.
Proof.
  intros H. unfold flattenC. apply flat_map_ext. intros x. apply flat_map_ext. intros y. apply map_ext. auto.
Qed.
Lemma flat_map_map {A B C'} (h : B -> C') (f : A -> list B) l : flat_map (fun x => map h (f x)) l = map h (flat_map f l).
Proof. induction l; cbn; auto. now rewrite map_app, IHl. Qed.
Lemma flattenC_map {A B} (h : A -> B) g f : flattenC g (fun x y z => h (f x y z)) = map h (flattenC g f).
Proof.
  unfold flattenC. rewrite <- flat_map_map. apply flat_map_ext. intros x. rewrite <- flat_map_map. apply flat_map_ext. intros y. now rewrite map_map.
Qed.
Lemma field_phase_scaled g (E E' : field3 CC) (t : CC) : cabs t = 1 -> (forall c x y z, E' c x y z = (t * E c x y z)%K) ->
  field_phase g E' = (t * field_phase g E)%K.
Proof.
  intros Ht HE. unfold field_phase.
  assert (Ab : forall y0 : CC, cabs (t * y0)%K = cabs y0) by (intros y0; change (cabs (cmul t y0) = cabs y0); rewrite cabs_mul, Ht; ring).
  rewrite (@flattenC_ext R g _ (fun x y z => sqrt (cabs (E 0%nat x y z) ^ 2 + cabs (E 1%nat x y z) ^ 2 + cabs (E 2%nat x y z) ^ 2))) by (intros; now rewrite !HE, !Ab).
  set (mi := argmax (flattenC g _)).
  assert (N : forall i, nth mi (flattenC g (E' i)) (0 : CC)%K = (t * nth mi (flattenC g (E i)) (0 : CC)%K)%K).
  { intros i. rewrite (@flattenC_ext CC g _ (fun x y z => (t * E i x y z)%K)) by auto. rewrite (flattenC_map (fun w : CC => (t * w)%K)).
    transitivity (nth mi (map (fun w : CC => (t * w)%K) (flattenC g (E i))) (t * (0 : CC))%K); [f_equal; ring|]. apply map_nth. }
  cbn [map]. rewrite !N, !Ab. set (mc := argmax _). clearbody mc.
  set (m0 := nth mi (flattenC g (E 0%nat)) (0 : CC)%K). set (m1 := nth mi (flattenC g (E 1%nat)) (0 : CC)%K). set (m2 := nth mi (flattenC g (E 2%nat)) (0 : CC)%K).
  assert (NN : nth mc [t * m0; t * m1; t * m2]%K (0 : CC)%K = (t * nth mc [m0; m1; m2] (0 : CC)%K)%K).
  { destruct mc as [|[|[|[|]]]]; cbn [nth]; auto; ring. }
  rewrite NN, Ab. rewrite !(Fdiv_def (k_field CC)). ring.
Qed.
Lemma div_scaled (t p x : CC) : cabs t = 1 -> (t * x / (t * p))%K = (x / p)%K.
Proof.
  intros Ht. assert (Nt : t <> (0 : CC)%K). { intros E. rewrite E in Ht. change (cabs c0 = 1) in Ht. rewrite cabs_0 in Ht. lra. }
  destruct (czero p) eqn:Z.
  - apply czero_spec in Z. change (p = (0 : CC)%K) in Z. rewrite Z. replace (t * 0)%K with (0 : CC)%K by ring.
    assert (I0 : forall y0 : CC, (y0 / 0)%K = (0 : CC)%K). { intros [y1 y2]. change (cdiv (y1, y2) c0 = c0). unfold cdiv, cinv, cscale, cconj, cmul, c0, creal. apply c_eq; cbn; ring. }
    now rewrite !I0.
  - assert (Np : p <> (0 : CC)%K). { intros E0. assert (czero p = true) by now apply czero_spec. congruence. }
    field. auto.
Qed.
Lemma build_scaled_lemma g axis back st len omega eps mu power v beta (a : CC) : a <> (0 : CC)%K ->
  match build_waveguide_source g axis back st len omega eps mu power v beta, build_waveguide_source g axis back st len omega eps mu power (scaled a v) beta with
  | Ok J, Ok J' => forall c x y z, J' c x y z = J c x y z
  | Err e, Err e' => e' = e
  | _, _ => False
  end.
Proof.
  intros Ha. unfold build_waveguide_source.
  set (g2 := plane g axis st len). set (eps2 := in_plane axis st eps). set (mu2 := in_plane axis st mu).
  pose proof (@norm_factor_scaled g2 (v2e g2 omega eps2 mu2 beta v) (v2h g2 mu2 beta v) (v2e g2 omega eps2 mu2 beta (scaled a v)) (v2h g2 mu2 beta (scaled a v)) a Ha
    (@v2e_scaled CC g2 omega eps2 mu2 beta a v) (@v2h_scaled CC g2 mu2 beta a v)) as NF.
  destruct (norm_factor g2 (v2e g2 omega eps2 mu2 beta v) (v2h g2 mu2 beta v)) as [nf|e]; [|now rewrite NF].
  destruct NF as (nf' & t & E1 & Ht & Hn). rewrite E1. cbn [bind].
  set (k := corrected_solvers beta).
  pose proof (@solve_scaled g axis back st len omega eps mu v beta nf nf' k a t Hn) as SS. cbv zeta in SS.
  set (tt := if back then kconj t else t) in *.
  assert (Htt : cabs tt = 1) by (unfold tt; destruct back; auto; change (cabs (cconj t) = 1); now rewrite cabs_conj).
  destruct (solve_waveguide_mode cexp g axis back st len omega eps mu v beta nf k) as [E H].
  destruct (solve_waveguide_mode cexp g axis back st len omega eps mu (scaled a v) beta nf' k) as [E' H']. cbn [fst snd] in SS.
  intros c x y z. f_equal.
  rewrite (@field_phase_scaled g E E' tt Htt (fun c x y z => proj1 (SS c x y z))).
  apply compute_source_ext; intros c' x' y' z'; [rewrite (proj1 (SS c' x' y' z'))|rewrite (proj2 (SS c' x' y' z'))]; apply div_scaled; auto.
Qed.
