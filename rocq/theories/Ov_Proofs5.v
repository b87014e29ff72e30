(** Overlaps: the wave of a source arrives at the overlap *)
From Coq Require Import Reals ZArith Lra.
From Verif Require Import Base CField CField_Proofs GMath_Model CplxField Maxwell_Model Maxwell_Spec Maxwell_Proofs Wg_Model Wg_Model2 Wg_Spec Wg_Proofs Wg_Proofs2 Wg_Proofs3 Wg_Proofs4 Wg_Proofs5 Wg_Proofs6 Wg_Proofs7 Fs_Model
  Ov_Model Ov_Spec Ov_Proofs Ov_Proofs2 Ov_Proofs3 GMath_Proofs Wg_Proofs8 Wg_Proofs11 Fs_Proofs3 Fs_Proofs.
Set Implicit Arguments.

Section Planes.
Variable K : cfield.
Add Field Kf5 : (k_field K).
Local Open Scope K_scope.
Variables (g g' : grid K) (omega beta : K) (eps mu eps' mu' : field3 K) (v : array K * array K).
Hypothesis D : forall a, (a < 2)%nat -> dim g a = dim g' a.
Hypothesis De : forall a i, (a < 2)%nat -> (i < dim g a)%nat -> dxe g a i = dxe g' a i /\ dxh g a i = dxh g' a i.
Hypothesis He : forall c i j, (c < 3)%nat -> (i < dim g 0)%nat -> (j < dim g 1)%nat -> eps c i j 0%nat = eps' c i j 0%nat /\ mu c i j 0%nat = mu' c i j 0%nat.
Lemma de_plane (f f' : array K) a i j : (a < 2)%nat -> (forall i j, (i < dim g 0)%nat -> (j < dim g 1)%nat -> f i j 0%nat = f' i j 0%nat) -> (i < dim g 0)%nat -> (j < dim g 1)%nat ->
  de g f a i j 0%nat = de g' f' a i j 0%nat.
Proof.
  intros Ha Hf Hi Hj. unfold de. destruct a as [|[|]]; [| |lia]; cbn [roll_forward pick]; rewrite <- !D by lia.
  - rewrite (proj1 (De Ha Hi)), !Hf by (auto; apply Nat.mod_upper_bound; lia). reflexivity.
  - rewrite (proj1 (De Ha Hj)), !Hf by (auto; apply Nat.mod_upper_bound; lia). reflexivity.
Qed.
Lemma dh_plane (f f' : array K) a i j : (a < 2)%nat -> (forall i j, (i < dim g 0)%nat -> (j < dim g 1)%nat -> f i j 0%nat = f' i j 0%nat) -> (i < dim g 0)%nat -> (j < dim g 1)%nat ->
  dh g f a i j 0%nat = dh g' f' a i j 0%nat.
Proof.
  intros Ha Hf Hi Hj. unfold dh. destruct a as [|[|]]; [| |lia]; cbn [roll_back pick]; rewrite <- !D by lia.
  - rewrite (proj2 (De Ha Hi)), !Hf by (auto; apply Nat.mod_upper_bound; lia). reflexivity.
  - rewrite (proj2 (De Ha Hj)), !Hf by (auto; apply Nat.mod_upper_bound; lia). reflexivity.
Qed.
Lemma v2h_plane c i j : (i < dim g 0)%nat -> (j < dim g 1)%nat -> v2h g mu beta v c i j 0%nat = v2h g' mu' beta v c i j 0%nat.
Proof.
  intros Hi Hj. unfold v2h. destruct c as [|[|c]]; auto. f_equal. unfold op_dv. rewrite (proj2 (@He 2%nat i j ltac:(lia) Hi Hj)).
  f_equal. f_equal; apply de_plane; auto; intros i' j' Hi' Hj'; [rewrite (proj2 (@He 0%nat i' j' ltac:(lia) Hi' Hj'))|rewrite (proj2 (@He 1%nat i' j' ltac:(lia) Hi' Hj'))]; reflexivity.
Qed.
Lemma v2e_plane c i j : (c < 3)%nat -> (i < dim g 0)%nat -> (j < dim g 1)%nat -> v2e g omega eps mu beta v c i j 0%nat = v2e g' omega eps' mu' beta v c i j 0%nat.
Proof.
  intros Hc Hi Hj. unfold v2e. rewrite (proj1 (@He c i j Hc Hi Hj)). f_equal. unfold wg_curl_h, wg_curl.
  assert (H0 : forall a c', (a < 2)%nat -> dh g (v2h g mu beta v c') a i j 0%nat = dh g' (v2h g' mu' beta v c') a i j 0%nat) by (intros; apply dh_plane; auto; intros; now apply v2h_plane).
  destruct c as [|[|c]]; rewrite ?H0, ?v2h_plane by (auto; lia); reflexivity.
Qed.
End Planes.

Local Open Scope R_scope.
Add Field CCo5 : (k_field CC).
Lemma plane_same_E (g : grid CC) axis s s2 back (omega beta nf : CC) eps mu v : (axis < 3)%nat -> (s < dim g axis)%nat -> (s2 < dim g axis)%nat -> invariant_along g axis eps -> invariant_along g axis mu ->
  forall c i j, (c < 3)%nat -> (i < dim (plane g axis (whole_start axis s) (whole_len g axis)) 0)%nat -> (j < dim (plane g axis (whole_start axis s) (whole_len g axis)) 1)%nat ->
  mode_E g axis s back omega beta nf eps mu v c i j 0%nat = mode_E g axis s2 back omega beta nf eps mu v c i j 0%nat.
Proof.
  intros Hx Hs Hs2 Ie Im c i j Hc Hi Hj. unfold mode_E.
  assert (Q : v2e (plane g axis (whole_start axis s) (whole_len g axis)) omega (in_plane axis (whole_start axis s) eps) (in_plane axis (whole_start axis s) mu) beta v c i j 0%nat
     = v2e (plane g axis (whole_start axis s2) (whole_len g axis)) omega (in_plane axis (whole_start axis s2) eps) (in_plane axis (whole_start axis s2) mu) beta v c i j 0%nat).
  { apply v2e_plane; auto.
    - intros a i' Ha Hi'. split; clear - Hx Ha; idx axis Hx; (destruct a as [|[|]]; [reflexivity|reflexivity|lia]).
    - intros c' i' j' Hc' Hi' Hj'.
      assert (INV : forall f, invariant_along g axis f -> in_plane axis (whole_start axis s) f c' i' j' 0%nat = in_plane axis (whole_start axis s2) f c' i' j' 0%nat).
      { intros f If. unfold in_plane, turned, sliced. clear - Hx Hs Hs2 Hc' Hi' Hj' If.
        idx axis Hx; unfold whole_start; cbn [Nat.eqb]; rewrite ?Nat.add_0_r; cbn [Nat.add]; apply If;
          try (unfold order; apply Nat.mod_upper_bound; lia);
          try (cbn in Hi', Hj'; repeat split; assumption);
          intros a Ha Hn; destruct a as [|[|[|]]]; try lia; reflexivity. }
      split; apply INV; auto. }
  unfold scale3. destruct back; now rewrite Q.
Qed.
Lemma in_plane_cell (g : grid CC) axis s x y z : (axis < 3)%nat -> in_grid g x y z ->
  (pick (order axis 0) x y z < dim (plane g axis (whole_start axis s) (whole_len g axis)) 0)%nat /\ (pick (order axis 1) x y z < dim (plane g axis (whole_start axis s) (whole_len g axis)) 1)%nat.
Proof. intros Hx (H0 & H1 & H2). idx axis Hx; cbn; auto. Qed.
Lemma expand_whole (g : grid CC) axis s2 (f : field3 CC) c x y z : (axis < 3)%nat -> in_grid g x y z -> pick axis x y z = s2 ->
  expand axis (whole_start axis s2) (whole_len g axis) f c x y z = spread axis f c x y z.
Proof.
  intros Hx (H0 & H1 & H2) Hp. unfold expand, spread, whole_start, whole_len.
  replace (forallb _ (seq 0 3)) with true.
  - clear - Hx. idx axis Hx; cbn; rewrite ?Nat.sub_0_r; reflexivity.
  - symmetry. cbn [seq forallb]. clear - Hx H0 H1 H2 Hp. idx axis Hx; cbn [Nat.eqb pick] in *; rewrite !andb_true_iff, !Nat.leb_le, !Nat.ltb_lt; repeat split; lia.
Qed.
Lemma cabs_kpow (u : CC) n : cabs u = 1 -> cabs (@kpow CC u n) = 1.
Proof.
  intros Hu. induction n as [|n IH]; cbn [kpow]; [exact (@cabs_rl 1 ltac:(lra))|]. change (cabs (cmul u (@kpow CC u n)) = 1). rewrite cabs_mul, Hu, IH. ring.
Qed.
Lemma span_even (d : nat -> CC) r n : (forall l, (l <= n)%nat -> d l = rl r) -> span d n = INR n * r.
Proof.
  induction n as [|n IH]; intros H; [cbn; ring|]. cbn [span]. rewrite IH by (intros; apply H; lia). rewrite H by lia. rewrite S_INR. cbn. ring.
Qed.
Lemma arrives_lemma (g : grid CC) axis s s2 back k d (omega beta nf : CC) eps mu v E H E2 H2 C : (axis < 3)%nat -> (1 <= s < dim g axis)%nat -> (s2 + 2 < dim g axis)%nat -> (forall i, (i < 3)%nat -> lit back s (s2 + i) = true) ->
  omega <> (0 : CC)%K -> beta <> (0 : CC)%K -> evenly g axis (rl d) -> proper g eps mu -> invariant_along g axis eps -> invariant_along g axis mu ->
  eigenvector (plane g axis (whole_start axis s) (whole_len g axis)) omega beta (in_plane axis (whole_start axis s) eps) (in_plane axis (whole_start axis s) mu) v ->
  (back = true -> lossless g omega eps mu /\ kconj beta = beta) ->
  dispersion cexp (rl k) (rl d) beta = (0 : CC)%K ->
  solve_waveguide_mode cexp g axis back (whole_start axis s) (whole_len g axis) omega eps mu v beta nf (rl k) = (E, H) ->
  solve_waveguide_mode cexp g axis back (whole_start axis s2) (whole_len g axis) omega eps mu v beta nf (rl k) = (E2, H2) ->
  (forall x y z, in_grid g x y z -> E2 axis x y z = (0 : CC)%K) ->
  compute_overlap_e g axis back (whole_start axis s2) (whole_len g axis) omega (rl k) (Some mu) E2 H2 = Ok C ->
  exists F : field3 CC,
    (forall c x y z, (c < 3)%nat -> in_grid g x y z -> (1 <= pick axis x y z)%nat -> (pick axis x y z + 1 < dim g axis)%nat ->
       wave_equation g omega eps mu F c x y z = (- ki * omega * compute_source cexp g axis back s omega (rl k) mu E H c x y z)%K) /\
    (forall c x y z, lit back s (pick axis x y z) = false -> F c x y z = (0 : CC)%K) /\
    cabs (grid_dot g C F) = 1.
Proof.
  intros Hax Hs Hs2 Hlit Hw Hb Hev (Hd & Hm) Ie Im Hv Hbk Hdisp HS HS2 Hz HC.
  assert (Hdn : rl d <> (0 : CC)%K) by (rewrite <- (proj1 (Hev s (proj2 Hs))); apply Hd; lia).
  assert (Hrl : back = true -> kconj omega = omega /\ kconj beta = beta /\
    (forall c x y z, (c < 3)%nat -> in_grid g x y z -> kconj (eps c x y z) = eps c x y z /\ kconj (mu c x y z) = mu c x y z) /\
    (forall k i, (k < 3)%nat -> (i < dim g k)%nat -> kconj (dxe g k i) = dxe g k i /\ kconj (dxh g k i) = dxh g k i)).
  { intros Hbt. destruct (Hbk Hbt) as ((A & B & C') & D). auto. }
  pose proof (@mode_source_explicit CC cexp cexp_add cexp_0 two_CC g axis s back Hax omega (rl k) (rl d) beta nf eps mu v Hw Hb Hs Hdn
    (fun l Hl => proj1 (Hev l Hl)) (fun l Hl => proj2 (Hev l Hl)) Hd (fun c x y z Hc Hg => proj1 (Hm c x y z Hc Hg)) (fun c x y z Hc Hg => proj2 (Hm c x y z Hc Hg)) Ie Im Hv Hrl E H HS) as ME.
  cbv zeta in ME. set (u := half_step CC cexp back (rl k) (rl d)) in *. set (Et := wave_e axis s u (mode_E g axis s back omega beta nf eps mu v)) in *.
  destruct ME as (_ & _ & _ & _ & W). rewrite Hdisp in W.
  assert (E2x : E2 = expand axis (whole_start axis s2) (whole_len g axis) (mode_E g axis s2 back omega beta nf eps mu v)) by (unfold solve_waveguide_mode in HS2; injection HS2 as <- _; reflexivity).
  exists (one_sided axis back s Et). split; [|split].
  - intros c x y z Hc Hg H1 H2'. rewrite W by auto. ring.
  - intros c x y z Hl. unfold one_sided. now rewrite Hl.
  - assert (Cu : cabs u = 1) by (unfold u, half_step; replace (- polarity CC back * ki * (1 / two CC) * rl k * rl d)%K with (- polarity CC back * ki * rl (1 / 2 * k) * rl d)%K;
      [apply cabs_phase|rewrite rl_mul; f_equal; rewrite rl_inv by lra; unfold two; replace (rl 2) with ((1 + 1) : CC)%K by (apply c_eq; cbn; ring); ring]).
    assert (Nu : u <> (0 : CC)%K) by (intros E0; rewrite E0 in Cu; change (cabs c0 = 1) in Cu; rewrite cabs_0 in Cu; lra).
    assert (Uu : forall l, @kpow CC u l <> (0 : CC)%K) by (intros l; now apply kpow_neq0).
    set (a := (- (@kpow CC u (2 * s2) / @kpow CC u (2 * s)))%K : CC).
    assert (Ca : cabs a = 1).
    { assert (X : cabs a * cabs (@kpow CC u (2 * s)) = cabs (@kpow CC u (2 * s2))).
      { rewrite <- cabs_mul. change (cabs (a * @kpow CC u (2 * s))%K = cabs (@kpow CC u (2 * s2))). replace (a * @kpow CC u (2 * s))%K with (rl (-1) * @kpow CC u (2 * s2))%K.
        - change (cabs (cmul (rl (-1)) (@kpow CC u (2 * s2))) = cabs (@kpow CC u (2 * s2))). rewrite cabs_mul. replace (cabs (rl (-1))) with 1; [ring|]. unfold cabs. cbn. replace (-1 * -1 + 0 * 0) with 1 by ring. now rewrite sqrt_1.
        - unfold a. replace (rl (-1)) with (- (1 : CC))%K by (apply c_eq; cbn; ring). field. auto. }
      rewrite !cabs_kpow in X by auto. lra. }
    assert (St : (whole_start axis s2 axis) = s2) by (unfold whole_start; now rewrite Nat.eqb_refl).
    assert (Ln : (whole_len g axis axis) = 1%nat) by (unfold whole_len; now rewrite Nat.eqb_refl).
    assert (Hmu : nz_mu g (Some mu)) by (intros c x y z Hc Hg; apply (proj2 (Hm c x y z Hc Hg))).
    pose proof (@mode_overlap_lemma g axis back (whole_start axis s2) (whole_len g axis) omega (rl k) (Some mu) E2 H2 C a Hax Hw Hmu HC) as MO.
    rewrite Ca in MO. rewrite <- MO. f_equal.
    apply (@overlap_local_lemma g axis back (whole_start axis s2) (whole_len g axis) omega (rl k) (Some mu) E2 H2 C _ _ Hax Hw Hmu Ln ltac:(rewrite St; lia) HC).
    rewrite St. intros c x y z Hc Hx0 Hx1 Hx2 (i & Hi & Hp). rewrite Nat.mod_small in Hp by lia.
    assert (Hg : in_grid g x y z) by (repeat split; auto).
    unfold one_sided. rewrite Hp, Hlit by auto.
    unfold carried. rewrite Hp.
    set (xs := if Nat.eqb 0 axis then s2 else pick 0 x y z). set (ys := if Nat.eqb 1 axis then s2 else pick 1 x y z). set (zs := if Nat.eqb 2 axis then s2 else pick 2 x y z).
    assert (Hgs : in_grid g xs ys zs) by (unfold xs, ys, zs; clear - Hax Hs2 Hx0 Hx1 Hx2; idx axis Hax; cbn; repeat split; auto; lia).
    assert (Hps : pick axis xs ys zs = s2) by (unfold xs, ys, zs; clear - Hax; idx axis Hax; reflexivity).
    assert (Hos : pick (order axis 0) xs ys zs = pick (order axis 0) x y z /\ pick (order axis 1) xs ys zs = pick (order axis 1) x y z) by (unfold xs, ys, zs; clear - Hax; idx axis Hax; split; reflexivity).
    assert (EV : E2 c xs ys zs = spread axis (mode_E g axis s back omega beta nf eps mu v) c x y z).
    { rewrite E2x, (@expand_whole g axis s2) by auto. unfold spread. rewrite (proj1 Hos), (proj2 Hos).
      destruct (@in_plane_cell g axis s x y z Hax Hg). symmetry. apply plane_same_E; auto; try lia. unfold reverse_order. apply Nat.mod_upper_bound. lia. }
    rewrite EV. 
    assert (Aw : away (dxe g axis) s2 (s2 + i) = INR i * d).
    { unfold away. rewrite !(@span_even (dxe g axis) d) by (intros l Hl; apply Hev; lia). rewrite plus_INR. ring. }
    rewrite Aw.
    destruct (Nat.eq_dec c axis) as [->|Hn].
    + assert (Z0 : spread axis (mode_E g axis s back omega beta nf eps mu v) axis x y z = (0 : CC)%K) by (rewrite <- EV; now apply Hz).
      unfold Et, wave_e. rewrite Z0. ring.
    + unfold Et, wave_e. replace (Nat.eqb c axis) with false by (symmetry; now apply Nat.eqb_neq). rewrite Hp.
      set (S := spread axis _ c x y z). unfold a.
      assert (PH : cexp ((if back then 1 else - (1)) * ki * rl k * rl (INR i * d))%K = @kpow CC u (2 * i)).
      { unfold u, half_step. assert (Ph : forall n, @kpow CC (cexp (- polarity CC back * ki * (1 / two CC) * rl k * rl d)%K) n = cexp (- polarity CC back * ki * (1 / two CC) * rl k * rl d * rl (INR n))%K).
        { induction n as [|n IH]; cbn [kpow]; [change (INR 0) with 0; replace (rl 0) with (0 : CC)%K by reflexivity; rewrite <- cexp_0; f_equal; ring|].
          rewrite IH, <- cexp_add. f_equal. rewrite S_INR. replace (rl (INR n + 1)) with (rl (INR n) + 1 : CC)%K by (apply c_eq; cbn; ring). ring. }
        rewrite Ph. f_equal. rewrite mult_INR. change (INR 2) with 2. rewrite !rl_mul. replace (rl 2) with (two CC) by (unfold two; apply c_eq; cbn; ring).
        pose proof two_CC. unfold polarity. destruct back; field; auto. }
      rewrite PH. replace (2 * (s2 + i) + 0)%nat with (2 * i + 2 * s2)%nat by lia. rewrite kpow_add. field. apply Uu.
Qed.
