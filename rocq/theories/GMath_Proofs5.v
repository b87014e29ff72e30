(** Norms. *)
From Coq Require Import Reals ZArith Relations Lra Psatz Ring.
From Verif Require Obj_Model.
From Verif Require Import Obj_Spec Obj_Proofs.
From Verif Require Import Base GraphExec_Spec Shape_Model GMath_Model GMath_Spec GMath_Proofs GMath_Proofs2 GMath_Proofs3 GMath_Proofs4.
Set Implicit Arguments.
Local Open Scope R_scope.

Lemma cabs_c0 : cabs c0 = 0.
Proof. unfold cabs, c0, creal. cbn. rewrite Rmult_0_l, Rplus_0_l. exact sqrt_0. Qed.
Lemma cabs_nonneg x : 0 <= cabs x.
Proof. apply sqrt_pos. Qed.
Lemma cabs_sqr x : cabs x * cabs x = cn2 x.
Proof. unfold cabs. apply sqrt_sqrt. unfold cn2. nra. Qed.

(** a function that vanishes together with its derivative, times a bounded one *)
Lemma derive_flat f h t0 : f t0 = 0 -> derivable_pt_lim f t0 0 -> (exists B, near t0 (fun t => Rabs (h t) <= B)) -> derivable_pt_lim (fun t => f t * h t) t0 0.
Proof.
  intros Hf Hd (B & del & Hdel & HB) eps Heps.
  assert (HB0 : 0 < Rabs B + 1) by (pose proof (Rabs_pos B); lra).
  destruct (Hd (eps / (Rabs B + 1))) as (del' & Hd'); [now apply Rdiv_lt_0_compat|].
  assert (Hm : 0 < Rmin del del') by (apply Rmin_glb_lt; [lra|apply cond_pos]).
  exists (mkposreal _ Hm). intros s Hs Hlt. cbn in Hlt. specialize (Hd' s Hs (Rlt_le_trans _ _ _ Hlt (Rmin_r _ _))).
  specialize (HB (t0 + s)). replace (t0 + s - t0) with s in HB by ring. specialize (HB (Rlt_le_trans _ _ _ Hlt (Rmin_l _ _))).
  rewrite Hf in *. replace ((f (t0 + s) * h (t0 + s) - 0 * h t0) / s - 0) with (((f (t0 + s) - 0) / s - 0) * h (t0 + s)) by (field; exact Hs).
  rewrite Rabs_mult. apply Rle_lt_trans with (Rabs ((f (t0 + s) - 0) / s - 0) * (Rabs B)).
  - apply Rmult_le_compat_l; [apply Rabs_pos|]. eapply Rle_trans; [exact HB|apply Rle_abs].
  - apply Rle_lt_trans with (eps / (Rabs B + 1) * Rabs B); [apply Rmult_le_compat_r; [apply Rabs_pos|lra]|].
    apply Rlt_le_trans with (eps / (Rabs B + 1) * (Rabs B + 1)); [|right; field; lra].
    apply Rmult_lt_compat_l; [now apply Rdiv_lt_0_compat|lra].
Qed.
(** derivative of [|z| ^ (p + 1)] over [p + 1] *)
Definition power_slope (p : nat) (x : C) : C := if czero x then c0 else cscale (cabs x ^ p / cabs x) (cconj x).
Lemma abs_bounded z t0 d p : z t0 = c0 -> cderive z t0 d -> exists B, near t0 (fun t => Rabs (cabs (z t) ^ p) <= B).
Proof.
  intros Hz H. pose proof (cd_n2 H) as H2. exists 1.
  assert (Hn : cn2 (z t0) < 1) by (rewrite Hz; unfold cn2, c0, creal; cbn; lra).
  eapply near_impl; [|exact (near_curve H2 (near_gt Hn))]. cbv beta. intros t Ht.
  assert (Hc : cabs (z t) <= 1). { pose proof (cabs_sqr (z t)). pose proof (cabs_nonneg (z t)). nra. }
  rewrite Rabs_right; [|apply Rle_ge, pow_le, cabs_nonneg]. rewrite <- (pow1 p). apply pow_incr. split; [apply cabs_nonneg|exact Hc].
Qed.
Lemma pow_abs_derive z t0 d p : z t0 <> c0 \/ (1 <= p)%nat -> cderive z t0 d ->
  derivable_pt_lim (fun t => cabs (z t) ^ S p) t0 (INR (S p) * fst (cmul (power_slope p (z t0)) d)).
Proof.
  intros Hs H. unfold power_slope. destruct (czero (z t0)) eqn:E.
  - apply czero_spec in E. destruct Hs as [Hs|Hs]; [contradiction|]. destruct p as [|p]; [lia|].
    eapply derive_ext; [|eapply derive_eq; [|apply (@derive_flat (fun t => cn2 (z t)) (fun t => cabs (z t) ^ p))]].
    + intros t. cbv beta. cbn [pow]. rewrite <- cabs_sqr. ring.
    + unfold cmul, c0, creal. cbn [fst snd]. ring.
    + rewrite E. unfold cn2, c0, creal. cbn. ring.
    + eapply derive_eq; [|exact (cd_n2 H)]. rewrite E. unfold cmul, cconj, c0, creal. cbn. ring.
    + exact (@abs_bounded z t0 d p E H).
  - assert (Hn : z t0 <> c0) by (intros E'; apply czero_spec in E'; congruence).
    eapply derive_eq; [|exact (derivable_pt_lim_comp (fun t => cabs (z t)) (fun y => y ^ S p) t0 _ _ (cd_abs Hn H) (derivable_pt_lim_pow _ (S p)))].
    cbn [pred]. pose proof (cabs_pos Hn). unfold cmul, cscale, cconj. cbn [fst snd]. field. lra.
Qed.
Lemma derive_rsum {A} (f : A -> R -> R) (e : A -> R) t0 l : (forall j, In j l -> derivable_pt_lim (f j) t0 (e j)) ->
  derivable_pt_lim (fun t => rsum (map (fun j => f j t) l)) t0 (rsum (map e l)).
Proof.
  induction l as [|j l IH]; intros H; cbn; [apply derivable_pt_lim_const|].
  apply (derivable_pt_lim_plus (f j) (fun t => rsum (map (fun j => f j t) l))); [apply H; now left|apply IH; intros i Hi; apply H; now right].
Qed.
Lemma rsum_nonneg {A} (f : A -> R) l : (forall x, 0 <= f x) -> 0 <= rsum (map f l).
Proof. intros H. unfold rsum. induction l as [|x l IH]; cbn; [lra|]. specialize (H x). lra. Qed.
Lemma rsum_pos {A} (f : A -> R) l : (forall x, 0 <= f x) -> (exists x, In x l /\ 0 < f x) -> 0 < rsum (map f l).
Proof.
  intros H (x & Hx & Hp). induction l as [|y l IH]; [destruct Hx|]. unfold rsum. cbn. fold (rsum (map f l)).
  destruct Hx as [->|Hx]; [pose proof (rsum_nonneg f l H)|specialize (IH Hx); pose proof (H y)]; lra.
Qed.
Lemma root_pow p s : 0 < s -> root (S p) s ^ S p = s.
Proof.
  intros H. unfold root. destruct (Rlt_dec 0 s); [|contradiction]. rewrite <- Rpower_pow by (apply exp_pos). rewrite Rpower_mult.
  rewrite Rinv_l by (apply not_0_INR; lia). now apply Rpower_1.
Qed.
Lemma root_pos p s : 0 < s -> 0 < root p s.
Proof. intros H. unfold root. destruct (Rlt_dec 0 s); [|contradiction]. apply exp_pos. Qed.
Lemma root_derive p s : 0 < s -> derivable_pt_lim (root (S p)) s (/ INR (S p) * / root (S p) s ^ p).
Proof.
  intros H. assert (Hi : INR (S p) <> 0) by (apply not_0_INR; lia).
  assert (E : / root (S p) s ^ p = Rpower s (/ INR (S p) - 1)).
  { pose proof (root_pos (S p) H) as Hr. pose proof (root_pow p H) as Hpow. cbn [pow] in Hpow.
    unfold Rminus. rewrite Rpower_plus, Rpower_Ropp, Rpower_1 by exact H.
    replace (Rpower s (/ INR (S p))) with (root (S p) s) by (unfold root; destruct (Rlt_dec 0 s); [reflexivity|contradiction]).
    assert (Hq : 0 < root (S p) s ^ p) by now apply pow_lt.
    replace (/ s) with (/ (root (S p) s * root (S p) s ^ p)) by now rewrite Hpow. field. lra. }
  rewrite E. eapply derive_ext_near; [|exact (derivable_pt_lim_power s (/ INR (S p)) H)].
  eapply near_impl; [|exact (near_lt H)]. cbv beta. intros y Hy. unfold root. destruct (Rlt_dec 0 y); [reflexivity|contradiction].
Qed.

Lemma norm_ok o fx a v us ds t0 : suits (KNorm o) fx [a] v -> size a <> 0%nat -> keval (KNorm o) [a] = Ok v -> curves t0 fx [a] us ds -> local_ok (KNorm o) fx [a] v us ds t0.
Proof.
  intros (a' & Ea & Hs) Hne Hv Hc. injection Ea as <-. inversion Hc as [|f a' u d fx' ivs' us' ds' Hm Hf Hc']; subst. inversion Hc'; subst. clear Hc Hc'.
  destruct o as [|p]; [discriminate|]. cbn [keval] in Hv. rewrite input0 in Hv. cbn [bind] in Hv. injection Hv as <-.
  change (creal 0) with c0 in Hs. set (n := size a) in *.
  assert (Hsm : forall j, (j < n)%nat -> entry a j <> c0 \/ (1 <= p)%nat).
  { intros j Hj. destruct Hs as [(E & Hs)|(E & _)]; [left; apply Hs; now apply nth_In|right; lia]. }
  assert (HS : 0 < rsum (map (fun z => cabs z ^ S p) (dat a))).
  { apply rsum_pos; [intros z; apply pow_le, cabs_nonneg|].
    assert (Hz : exists z, In z (dat a) /\ z <> c0).
    { destruct Hs as [(_ & Hs)|(_ & Hs)]; [|exact Hs]. exists (entry a 0). assert (Hin : In (entry a 0) (dat a)) by (apply nth_In; fold (size a); fold n; lia). auto. }
    destruct Hz as (z & Hz & Hn). exists z. split; [exact Hz|]. apply pow_lt. now apply cabs_pos. }
  set (s := rsum (map (fun z => cabs z ^ S p) (dat a))) in *.
  set (N := np_norm (S p) (dat a)). assert (HN : 0 < N) by exact (root_pos (S p) HS).
  set (w := fun t => mkarr false [creal (np_norm (S p) (dat (u t)))]).
  set (e0 := sumj n (fun j => fst (cmul (power_slope p (entry a j)) (nth j d c0))) / N ^ p).
  exists w, [creal e0]. split; [|split].
  - apply near_all. intros t. reflexivity.
  - constructor.
    + unfold w. now rewrite (moves_at Hm).
    + apply near_all. intros t. split; [reflexivity|]. split; [reflexivity|]. intros _. constructor; [reflexivity|constructor].
    + reflexivity.
    + intros _. constructor; [reflexivity|constructor].
    + intros j Hj. cbn in Hj. assert (j = 0)%nat as -> by lia. cbn [nth]. unfold w, entry. cbn [dat nth]. apply cd_real.
      assert (HSd : derivable_pt_lim (fun t => rsum (map (fun z => cabs z ^ S p) (dat (u t)))) t0 (INR (S p) * sumj n (fun j => fst (cmul (power_slope p (entry a j)) (nth j d c0))))).
      { eapply derive_ext_near; [|eapply derive_eq; [|apply (@derive_rsum nat (fun j t => cabs (entry (u t) j) ^ S p) (fun j => INR (S p) * fst (cmul (power_slope p (entry a j)) (nth j d c0))) t0 (seq 0 n))]].
        - eapply near_impl; [|exact (moves_near Hm)]. cbv beta. intros t (_ & E2 & _). rewrite (map_nth_seq _ (dat (u t)) c0). fold (size (u t)). rewrite E2. reflexivity.
        - rewrite rsum_scale. reflexivity.
        - intros j Hj'. apply in_seq in Hj'. assert (Hjn : (j < n)%nat) by lia. pose proof (moves_entry Hm Hjn) as Hd. specialize (Hsm j Hjn). rewrite <- (moves_at Hm) in *. exact (@pow_abs_derive (fun t => entry (u t) j) t0 _ p Hsm Hd). }
      eapply derive_eq; [|exact (derivable_pt_lim_comp (fun t => rsum (map (fun z => cabs z ^ S p) (dat (u t)))) (root (S p)) t0 _ (/ INR (S p) * / N ^ p) HSd ltac:(cbv beta; rewrite (moves_at Hm); exact (root_derive p HS)))].
      unfold e0. assert (INR (S p) <> 0) by (apply not_0_INR; lia). assert (0 < N ^ p) by now apply pow_lt. field. split; [lra|assumption].
  - intros g (Hg & HgR). destruct (one_entry g Hg) as (x & ->). specialize (HgR eq_refl). inversion HgR as [|? ? Hx _]; subst.
    set (sl := fun z => cval (norm_slope (cpx a) (S p) N z)).
    assert (Hsl : forall z, sl z = cscale (if cpx a then / 2 else 1) (cscale (/ N ^ p) (power_slope p z))).
    { intros z. unfold sl, norm_slope, power_slope. destruct (Req_EM_T N 0) as [E|_]; [lra|]. cbn [cval]. replace (S p - 1)%nat with p by lia. unfold Rdiv. rewrite Rpow_mult_distr, pow_inv.
      destruct (czero z) eqn:Ez.
      - apply czero_spec in Ez. subst z. f_equal. apply c_eq; unfold cscale, cconj, c0, creal; cbn; ring.
      - f_equal. rewrite !cscale_mul. apply c_eq; unfold cmul, creal, cconj; cbn; ring. }
    exists [map (cmul x) (map sl (dat a))]. split; [|split].
    + cbn [kgrad]. rewrite input0. cbn [bind]. fold N. rewrite (mapM_total' (norm_slope (cpx a) (S p) N)).
      * cbn [bind]. rewrite bcast_single. reflexivity.
      * intros z _. unfold norm_slope. destruct (Req_EM_T N 0); [lra|]. eauto.
    + cbn [combine]. constructor; [|constructor]. cbn [fst snd arrival]. split; [now rewrite !map_length|]. intros _. split; [now rewrite !map_length|].
      intros Ec. apply Forall_forall. intros z Hz. rewrite map_map in Hz. apply in_map_iff in Hz. destruct Hz as (y & <- & Hy).
      pose proof (proj1 (Forall_forall _ _) (moves_proper Hm Ec) y Hy) as Hy'. cbv beta in Hy'. rewrite Hsl. unfold power_slope.
      destruct (czero y); unfold cmul, cscale, cconj, c0, creal; cbn; rewrite Hx, ?Hy'; ring.
    + cbn [map total_rate]. rewrite Rplus_0_r. rewrite rate_sum by (rewrite !map_length; symmetry; exact (moves_length Hm)).
      unfold rate. cbn [cpx combine map fst snd]. unfold rsum. cbn [fold_right]. rewrite (moves_length Hm). fold n.
      rewrite <- sumj_scale.
      transitivity (sumj n (fun j => fst x / N ^ p * fst (cmul (power_slope p (entry a j)) (nth j d c0)))).
      * apply sumj_ext. intros j Hj. rewrite map_map. rewrite (nth_map _ _ c0) by exact Hj. rewrite Hsl. fold (entry a j).
        assert (0 < N ^ p) by now apply pow_lt. unfold fac. change (nth j (dat a) c0) with (entry a j). unfold cmul, cscale. cbn. rewrite Hx. destruct (cpx a); field; lra.
      * rewrite sumj_scale. unfold e0, cmul, creal. cbn. rewrite Hx. unfold Rdiv. ring.
Qed.
