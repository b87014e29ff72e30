(** Overlaps: build_overlap *)
From Coq Require Import Reals ZArith Lra.
From Verif Require Import Base CField CField_Proofs GMath_Model CplxField Maxwell_Model Maxwell_Spec Maxwell_Proofs Wg_Model Wg_Model2 Wg_Spec Fs_Model
  Ov_Model Ov_Spec Ov_Proofs Ov_Proofs2 Ov_Proofs3 GMath_Proofs Wg_Proofs8 Fs_Proofs3 Fs_Proofs.
Set Implicit Arguments.
Local Open Scope R_scope.
Add Field CCo4 : (k_field CC).

Section Build.
Variable g : grid CC.
Lemma grid_dot_scale_l (C F : field3 CC) (a : CC) : grid_dot g (fun c x y z => C c x y z * a)%K F = (a * grid_dot g C F)%K.
Proof.
  rewrite <- !(@dot_cells CC g), <- fsum_scale. apply fsum_ext. intros i Hi. destruct (block_ex _ Hi) as (c & t & Hc & Ht & ->). rewrite !(@vec_at CC g) by auto. ring.
Qed.
Lemma build_overlap_lemma axis back st len (omega : CC) eps mu power v beta : (axis < 3)%nat -> omega <> (0 : CC)%K -> nz_mu g mu ->
  (0 < dim g 0)%nat -> (0 < dim g 1)%nat -> (0 < dim g 2)%nat ->
  match mode_fields g axis back st len omega eps (mu_or_1 mu) v beta with
  | Err e => build_overlap g axis back st len omega eps mu power v beta = Err e
  | Ok (E, H) =>
      let k := corrected_solvers beta in let s := st axis in
      let Em := carried axis back s k (dxe g axis) E in let Hm := carried axis back s k (dxh g axis) H in
      let p := pairing g axis st len omega mu Em Hm in
      (p Em = (0 : CC)%K -> build_overlap g axis back st len omega eps mu power v beta = Err ZeroDivisionError) /\
      (p Em <> (0 : CC)%K -> exists C (t : CC), build_overlap g axis back st len omega eps mu power v beta = Ok C /\ cabs t = 1 /\
         forall F, grid_dot g C F = (t * rl (sqrt power) * (p F / rl (cabs (p Em))))%K)
  end.
Proof.
  intros Hx Ho Hm D0 D1 D2. unfold mode_fields, build_overlap. fold (mu_or_1 mu).
  destruct (norm_factor _ _ _) as [nf|e]; cbn [bind]; [|reflexivity].
  destruct (solve_waveguide_mode _ _ _ _ _ _ _ _ _ _ _ _ _) as [E H]. set (k := corrected_solvers beta). set (s := st axis). set (Em := carried axis back s k (dxe g axis) E). set (Hm' := carried axis back s k (dxh g axis) H). set (p := pairing g axis st len omega mu Em Hm').
  set (ph := field_phase g E).
  pose proof (@compute_overlap_lemma g axis back st len omega k mu (fun c x y z => E c x y z / ph)%K (fun c x y z => H c x y z / ph)%K Hx Ho Hm) as L.
  cbv zeta in L. fold s in L.
  set (E1 := carried axis back s k (dxe g axis) (fun c x y z => E c x y z / ph)%K) in *.
  set (H1 := carried axis back s k (dxh g axis) (fun c x y z => H c x y z / ph)%K) in *.
  set (q := (kinv ph) : CC).
  assert (SE : forall c x y z, E1 c x y z = (q * Em c x y z)%K) by (intros; apply carried_scale; intros; rewrite (Fdiv_def (k_field CC)); unfold q; ring).
  assert (SH : forall c x y z, H1 c x y z = (q * Hm' c x y z)%K) by (intros; apply carried_scale; intros; rewrite (Fdiv_def (k_field CC)); unfold q; ring).
  assert (P1 : forall F, pairing g axis st len omega mu E1 H1 F = (q * p F)%K) by (intros; now apply pairing_mode_scale).
  assert (P2 : p E1 = (q * p Em)%K) by (apply pairing_field_scale; auto).
  assert (PP : pairing g axis st len omega mu E1 H1 E1 = (q * q * p Em)%K) by (rewrite P1, P2; ring).
  rewrite PP in L.
  destruct (@field_phase_cases g E D0 D1 D2) as [Ph|[Ph Z]]; fold ph in Ph.
  - assert (Nph : ph <> (0 : CC)%K) by (intros E0; rewrite E0 in Ph; change (cabs c0 = 1) in Ph; rewrite cabs_0 in Ph; lra).
    assert (qp : (q * ph)%K = (1 : CC)%K) by (unfold q; apply (Finv_l (k_field CC)); auto).
    assert (Cq : cabs q = 1). { assert (X : cabs q * cabs ph = 1) by (rewrite <- cabs_mul; change (cmul q ph) with (q * ph)%K; rewrite qp; exact (@cabs_rl 1 ltac:(lra))). rewrite Ph in X. lra. }
    assert (Nq : q <> (0 : CC)%K) by (intros E0; rewrite E0 in Cq; change (cabs c0 = 1) in Cq; rewrite cabs_0 in Cq; lra).
    split; intros Hp.
    + destruct (compute_overlap_e _ _ _ _ _ _ _ _ _ _) as [C|e]; cbn [bind].
      * destruct L as [N _]. exfalso. apply N. rewrite Hp. ring.
      * destruct L as [-> _]. reflexivity.
    + destruct (compute_overlap_e _ _ _ _ _ _ _ _ _ _) as [C|e]; cbn [bind].
      * destruct L as [_ L]. eexists. exists q. split; [reflexivity|]. split; [exact Cq|]. intros F. rewrite grid_dot_scale_l, L, P1.
        assert (CC2 : cabs (q * q * p Em)%K = cabs (p Em)). { change (cabs (cmul (cmul q q) (p Em)) = cabs (p Em)). rewrite !cabs_mul, Cq. ring. }
        rewrite CC2. rewrite !(Fdiv_def (k_field CC)). ring.
      * destruct L as [_ L]. exfalso. apply Hp. apply (@kmul_cancel CC (q * q)%K); [apply (@kmul_neq0 CC); auto|]. rewrite L. ring.
  - assert (PZ : p Em = (0 : CC)%K).
    { assert (Es : forall c x y z, (c < 3)%nat -> in_grid g x y z -> (st axis < dim g axis)%nat -> Em c x y z = (0 : CC)%K).
      { intros c x y z Hc (G0 & G1 & G2) Hs. unfold Em, carried. rewrite Z; [ring|auto|]. clear - Hx G0 G1 G2 Hs. unfold s. idx axis Hx; cbn; repeat split; auto. }
      destruct (Nat.lt_ge_cases (st axis) (dim g axis)) as [Hs|Hs].
      - unfold p. rewrite (@pairing_field_scale g axis st len omega mu Em Hm' Em Em (0 : CC)%K Hx Ho Hm); [ring|]. intros. rewrite Es by auto. ring.
      - (* nothing is selected *) unfold p, pairing. transitivity (grid_sum g (fun _ _ _ => (0 : CC)%K)).
        + apply grid_sum_ext. intros x y z Hg. destruct (in_window st len x y z) eqn:W; auto. exfalso.
          unfold in_window in W. rewrite !andb_true_iff, !Nat.leb_le, !Nat.ltb_lt in W. destruct Hg as (G0 & G1 & G2). clear - Hx Hs W G0 G1 G2. idx axis Hx; lia.
        + unfold grid_sum. repeat (apply fsum_zero; intros). reflexivity. }
    split; intros Hp; [|contradiction].
    destruct (compute_overlap_e _ _ _ _ _ _ _ _ _ _) as [C|e]; cbn [bind].
    + destruct L as [N _]. exfalso. apply N. rewrite PZ. ring.
    + destruct L as [-> _]. reflexivity.
Qed.
Lemma compute_overlap_ext axis back st len omega k mu E H E' H' : (forall c x y z, E c x y z = E' c x y z) -> (forall c x y z, H c x y z = H' c x y z) ->
  compute_overlap_e g axis back st len omega k mu E H = compute_overlap_e g axis back st len omega k mu E' H'.
Proof.
  intros HE HH. unfold compute_overlap_e, overlap_row.
  assert (P : forall a (F F' : field3 CC), (forall c x y z, F c x y z = F' c x y z) -> vec g (continue_field axis back (st axis) k a F) = vec g (continue_field axis back (st axis) k a F')).
  { intros a F F' Q. apply vec_ext3. intros. unfold continue_field, at_plane. destruct axis as [|[|]]; now rewrite Q. }
  now rewrite (P _ E E' HE), (P _ H H' HH).
Qed.
Lemma overlap_scaled_lemma axis back st len omega eps mu power v beta (a : CC) : a <> (0 : CC)%K ->
  match build_overlap g axis back st len omega eps mu power v beta, build_overlap g axis back st len omega eps mu power (scaled a v) beta with
  | Ok C, Ok C' => forall c x y z, C' c x y z = C c x y z
  | Err e, Err e' => e' = e
  | _, _ => False
  end.
Proof.
  intros Ha. unfold build_overlap. fold (mu_or_1 mu).
  set (g2 := plane g axis st len). set (eps2 := in_plane axis st eps). set (mu2 := in_plane axis st (mu_or_1 mu)).
  pose proof (@norm_factor_scaled g2 (v2e g2 omega eps2 mu2 beta v) (v2h g2 mu2 beta v) (v2e g2 omega eps2 mu2 beta (scaled a v)) (v2h g2 mu2 beta (scaled a v)) a Ha
    (@v2e_scaled CC g2 omega eps2 mu2 beta a v) (@v2h_scaled CC g2 mu2 beta a v)) as NF.
  destruct (norm_factor g2 (v2e g2 omega eps2 mu2 beta v) (v2h g2 mu2 beta v)) as [nf|e]; [|now rewrite NF].
  destruct NF as (nf' & t & E1 & Ht & Hn). rewrite E1. cbn [bind].
  set (k := corrected_solvers beta).
  pose proof (@solve_scaled g axis back st len omega eps (mu_or_1 mu) v beta nf nf' k a t Hn) as SS. cbv zeta in SS.
  set (tt := if back then kconj t else t) in *.
  assert (Htt : cabs tt = 1) by (unfold tt; destruct back; auto; change (cabs (cconj t) = 1); now rewrite cabs_conj).
  destruct (solve_waveguide_mode cexp g axis back st len omega eps (mu_or_1 mu) v beta nf k) as [E H].
  destruct (solve_waveguide_mode cexp g axis back st len omega eps (mu_or_1 mu) (scaled a v) beta nf' k) as [E' H']. cbn [fst snd] in SS.
  rewrite (@field_phase_scaled g E E' tt Htt (fun c x y z => proj1 (SS c x y z))).
  rewrite (@compute_overlap_ext axis back st len omega k mu (fun c x y z => E' c x y z / (tt * field_phase g E))%K (fun c x y z => H' c x y z / (tt * field_phase g E))%K
    (fun c x y z => E c x y z / field_phase g E)%K (fun c x y z => H c x y z / field_phase g E)%K).
  - destruct (compute_overlap_e _ _ _ _ _ _ _ _ _ _); cbn [bind]; reflexivity.
  - intros c x y z. rewrite (proj1 (SS c x y z)). now apply div_scaled.
  - intros c x y z. rewrite (proj2 (SS c x y z)). now apply div_scaled.
Qed.
(** a multiple of the mode near the plane *)
Lemma build_mode_lemma axis back st len (omega : CC) eps mu power v beta E H C F (a : CC) : (axis < 3)%nat -> omega <> (0 : CC)%K -> nz_mu g mu ->
  len axis = 1%nat -> (st axis < dim g axis)%nat -> (0 < dim g 0)%nat -> (0 < dim g 1)%nat -> (0 < dim g 2)%nat ->
  mode_fields g axis back st len omega eps (mu_or_1 mu) v beta = Ok (E, H) -> build_overlap g axis back st len omega eps mu power v beta = Ok C ->
  agree_near g axis (st axis) F (fun c x y z => a * carried axis back (st axis) (corrected_solvers beta) (dxe g axis) E c x y z)%K ->
  cabs (grid_dot g C F) = cabs a * sqrt power.
Proof.
  intros Hx Ho Hm Hl Hs D0 D1 D2 HE HC HF.
  pose proof (@build_overlap_lemma axis back st len omega eps mu power v beta Hx Ho Hm D0 D1 D2) as L. rewrite HE in L. cbv zeta in L. destruct L as [LZ L].
  set (p := pairing _ _ _ _ _ _ _ _) in *. set (Em := carried _ _ _ _ _ _) in *.
  destruct (czero (p Em)) eqn:Z.
  { apply czero_spec in Z. change (p Em = (0 : CC)%K) in Z. rewrite LZ in HC by auto. discriminate. }
  assert (N : p Em <> (0 : CC)%K) by (intros E0; assert (czero (p Em) = true) by (now apply czero_spec); congruence).
  destruct (L N) as (C' & t & HC' & Ct & Hd). rewrite HC in HC'. injection HC' as <-. rewrite Hd.
  assert (PF : p F = (a * p Em)%K). { unfold p. rewrite (@pairing_local g axis st len omega mu _ _ F _ Hx Hl Hs HF). apply pairing_field_scale; auto. }
  rewrite PF. pose proof (cabs_pos N) as P.
  replace (t * rl (sqrt power) * (a * p Em / rl (cabs (p Em))))%K with (t * rl (sqrt power) * (a * (p Em / rl (cabs (p Em)))))%K by (rewrite !(Fdiv_def (k_field CC)); ring).
  change (cabs (cmul (cmul t (rl (sqrt power))) (cmul a (p Em / rl (cabs (p Em)))%K)) = cabs a * sqrt power).
  rewrite !cabs_mul, Ct, cabs_div by auto. rewrite (cabs_rl (sqrt_pos power)). field. lra.
Qed.
End Build.
