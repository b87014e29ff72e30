(** The theorems of Wg_Props.v. *)
From Coq Require Import Reals Lra.
From Verif Require Import Base CField CField_Proofs GMath_Model GMath_Proofs CplxField Maxwell_Model Wg_Model Wg_Model2 Wg_Spec.
From Verif Require Import Wg_Proofs Wg_Proofs2 Wg_Proofs3 Wg_Proofs4 Wg_Proofs5 Wg_Proofs6 Wg_Proofs7 Wg_Proofs8 Wg_Proofs9 Wg_Proofs10.
From Coq Require Import Lia.
Set Implicit Arguments.

Section Gen.
Variable K : cfield.
Local Open Scope K_scope.
Add Field Kfp : (k_field K).
Lemma mode_lemma (g : grid K) omega beta eps mu v : omega <> k0 -> beta <> k0 -> (1 <= dim g 2)%nat -> proper g eps mu -> eigenvector g omega beta eps mu v ->
  forall i j, (i < dim g 0)%nat -> (j < dim g 1)%nat ->
  maxwell_mode g omega beta eps mu (v2e g omega eps mu beta v) (v2h g mu beta v) i j.
Proof.
  intros Hw Hb Hz (Hd & Hm) Hv i j Hi Hj.
  assert (He : forall c i j, (c < 3)%nat -> (i < dim g 0)%nat -> (j < dim g 1)%nat -> eps c i j 0%nat <> k0) by (intros; apply Hm; unfold in_grid; auto).
  assert (Hu : forall c i j, (c < 3)%nat -> (i < dim g 0)%nat -> (j < dim g 1)%nat -> mu c i j 0%nat <> k0) by (intros; apply Hm; unfold in_grid; auto).
  pose proof (fun c Hc => @mode_e K g omega beta eps mu v 0%nat Hw Hb He Hu (fun i => Hd 0%nat i ltac:(lia)) (fun j => Hd 1%nat j ltac:(lia)) Hv c i j Hc Hi Hj) as ME.
  pose proof (fun c Hc => @mode_h K g omega beta eps mu v 0%nat Hw He c i j Hc Hi Hj) as MH.
  pose proof (ME 0%nat ltac:(lia)) as E0. pose proof (ME 1%nat ltac:(lia)) as E1. pose proof (ME 2%nat ltac:(lia)) as E2.
  pose proof (MH 0%nat ltac:(lia)) as H0. pose proof (MH 1%nat ltac:(lia)) as H1. pose proof (MH 2%nat ltac:(lia)) as H2.
  unfold wg_curl_e, wg_curl_h, wg_curl in *. unfold maxwell_mode. 
  repeat split; first [rewrite <- E0|rewrite <- E1|rewrite <- E2|rewrite <- H0|rewrite <- H1|rewrite <- H2]; ring.
Qed.
(** compute_source for fields that solve Maxwell's equations exactly *)
Lemma one_sided_lemma (cexp : K -> K) (g : grid K) axis s back omega wavenumber eps mu (Et Ht E H : field3 K) :
  (axis < 3)%nat -> (1 <= s)%nat -> omega <> k0 -> proper g eps mu -> (s < dim g axis)%nat -> dxe g axis (s - 1) = dxh g axis s ->
  (forall c x y z, (c < 3)%nat -> c <> axis -> in_grid g x y z ->
     E c x y z = if Nat.eqb (pick axis x y z) s then Et c x y z else 0) ->
  (forall c x y z, (c < 3)%nat -> c <> axis -> in_grid g x y z ->
     cexp (ki * polarity K back * wavenumber * dxh g axis s) * H c x y z = if Nat.eqb (pick axis x y z) s then roll_back g (Ht c) axis x y z else 0) ->
  (forall c x y z, (c < 3)%nat -> in_grid g x y z -> lit back s (pick axis x y z) = true -> (pick axis x y z + 1 < dim g axis)%nat ->
     fcurl_e g Et c x y z = - ki * omega * mu c x y z * Ht c x y z) ->
  (forall c x y z, (c < 3)%nat -> in_grid g x y z -> lit back s (pick axis x y z) = true -> (1 <= pick axis x y z)%nat -> (pick axis x y z + 1 < dim g axis)%nat ->
     fcurl_h g Ht c x y z = ki * omega * eps c x y z * Et c x y z) ->
  forall c x y z, (c < 3)%nat -> in_grid g x y z -> (1 <= pick axis x y z)%nat -> (pick axis x y z + 1 < dim g axis)%nat ->
  wave_equation g omega eps mu (one_sided axis back s Et) c x y z = - ki * omega * compute_source cexp g axis back s omega wavenumber mu E H c x y z.
Proof.
  intros Hax Hs Hw (Hd & Hm) Hs' Hdd HE HH CE CH c x y z Hc Hg H1 H2.
  rewrite (@source_one_sided K cexp g axis s back Hax Hs omega wavenumber eps mu Et Ht E H (fun _ _ _ _ => 0) (fun _ _ _ _ => 0) Hw
    (fun c x y z Hc Hg => proj2 (Hm c x y z Hc Hg)) Hdd (proj2 (Hd axis s Hax Hs')) HE HH); auto.
  - assert (Z1 : fcurl_h g (cut3 axis s back (fun c0 x0 y0 z0 : nat => 0 / mu c0 x0 y0 z0)) c x y z = 0).
    { assert (Z : forall c x y z, cut3 axis s back (fun c0 x0 y0 z0 : nat => 0 / mu c0 x0 y0 z0) c x y z = 0).
      { intros c' x' y' z'. unfold cut3, cut. destruct (lit back s (pick axis x' y' z')); auto. rewrite (Fdiv_def (k_field K)). ring. }
      unfold fcurl_h, fcurl, dh, roll_back. destruct c as [|[|]]; rewrite !Z, !(Fdiv_def (k_field K)); ring. }
    rewrite Z1. unfold cut3, cut. destruct (lit back s (pick axis x y z)); ring.
  - intros. rewrite CE by auto. ring.
  - intros. rewrite CH by auto. ring.
Qed.
End Gen.

Local Open Scope R_scope.
Lemma mode_source_CC (g : grid CC) axis s back (omega k d beta nf : CC) eps mu v E H :
  (axis < 3)%nat -> (1 <= s < dim g axis)%nat -> omega <> (0 : CC)%K -> beta <> (0 : CC)%K -> evenly g axis d -> proper g eps mu ->
  invariant_along g axis eps -> invariant_along g axis mu ->
  eigenvector (plane g axis (whole_start axis s) (whole_len g axis)) omega beta (in_plane axis (whole_start axis s) eps) (in_plane axis (whole_start axis s) mu) v ->
  (back = true -> lossless g omega eps mu /\ kconj beta = beta) ->
  solve_waveguide_mode cexp g axis back (whole_start axis s) (whole_len g axis) omega eps mu v beta nf k = (E, H) ->
  let step := cexp (- polarity CC back * ki * k * d)%K in let u := half_phase cexp back k d in let err := (polarity CC back * dispersion cexp k d beta)%K in
  exists Et Ht : field3 CC,
    (forall c x y z, (c < 3)%nat -> c <> axis -> in_grid g x y z ->
      E c x y z = (if Nat.eqb (pick axis x y z) s then Et c x y z else (0 : CC)%K) /\ H c x y z = (if Nat.eqb (pick axis x y z) s then Ht c x y z else (0 : CC)%K)) /\
    (forall c x y z, (c < 3)%nat -> in_grid g x y z -> (pick axis x y z + 1 < dim g axis)%nat ->
      roll_forward g (Et c) axis x y z = (step * Et c x y z)%K /\
      roll_forward g (Ht c) axis x y z = (step * Ht c x y z)%K /\
      fcurl_e g Et c x y z = (- ki * omega * mu c x y z * Ht c x y z + err * u * axial axis Et c x y z)%K) /\
    (forall c x y z, (c < 3)%nat -> in_grid g x y z -> (1 <= pick axis x y z)%nat ->
      fcurl_h g Ht c x y z = (ki * omega * eps c x y z * Et c x y z + err * (axial axis Ht c x y z / u))%K) /\
    (forall c x y z, (c < 3)%nat -> in_grid g x y z -> (1 <= pick axis x y z)%nat -> (pick axis x y z + 1 < dim g axis)%nat ->
      wave_equation g omega eps mu (one_sided axis back s Et) c x y z
      = (- ki * omega * compute_source cexp g axis back s omega k mu E H c x y z - err * missing g axis back s omega u mu Et Ht c x y z)%K).
Proof.
  intros Hax Hs Hw Hb Hev (Hd & Hm) Ie Im Hv Hbk HS step u err.
  assert (Hdn : d <> (0 : CC)%K) by (rewrite <- (proj1 (Hev s (proj2 Hs))); apply Hd; lia).
  refine (@mode_source_lemma CC cexp cexp_add cexp_0 two_CC g axis s back Hax omega k d beta nf eps mu v Hw Hb Hs Hdn
    (fun l Hl => proj1 (Hev l Hl)) (fun l Hl => proj2 (Hev l Hl)) Hd (fun c x y z Hc Hg => proj1 (Hm c x y z Hc Hg)) (fun c x y z Hc Hg => proj2 (Hm c x y z Hc Hg)) Ie Im Hv _ E H HS).
  intros Hbt. destruct (Hbk Hbt) as ((A & B & C) & D). auto.
Qed.
Lemma build_power (g : grid CC) axis back st len omega eps mu power v beta :
  match build_waveguide_source g axis back st len omega eps mu 1 v beta with
  | Ok J => exists J', build_waveguide_source g axis back st len omega eps mu power v beta = Ok J' /\ forall c x y z, J' c x y z = (rl (sqrt power) * J c x y z)%K
  | Err e => build_waveguide_source g axis back st len omega eps mu power v beta = Err e
  end.
Proof.
  unfold build_waveguide_source. destruct (norm_factor _ _ _) as [nf|e]; cbn [bind]; [|reflexivity].
  destruct (solve_waveguide_mode _ _ _ _ _ _ _ _ _ _ _ _ _) as [E H]. eexists. split; [reflexivity|]. intros c x y z.
  rewrite sqrt_1. rewrite <- rl_1. Add Field CC11 : (k_field CC). cbv beta. ring.
Qed.
(** a wave without loss in the real direction: |exp(-i k d)| = 1 *)
Lemma cabs_phase (k d : R) back : cabs (cexp (- polarity CC back * ki * rl k * rl d)%K) = 1.
Proof.
  assert (A : exists t, (- polarity CC back * ki * rl k * rl d)%K = (0, t) :> CC).
  { destruct back; eexists; apply c_eq; cbn; try ring; reflexivity. }
  destruct A as [t ->]. unfold cexp, cabs. cbn [fst snd]. rewrite exp_0. replace (1 * cos t * (1 * cos t) + 1 * sin t * (1 * sin t)) with 1; [apply sqrt_1|].
  pose proof (sin2_cos2 t) as S. unfold Rsqr in S. lra.
Qed.
(** *** a plane wave along z *)
Definition line (n : nat) : grid CC := Grid (fun k => match k with 2 => n | _ => 1 end)%nat (fun _ _ => (1 : CC)%K) (fun _ _ => (1 : CC)%K).
Definition wave_v : array CC * array CC := (fun _ _ _ => (0 : CC)%K, fun _ _ _ => (1 : CC)%K).
Section One.
Variable g : grid CC.
Variables eps mu : field3 CC.
Hypothesis Hdx : forall a i, dxe g a i = (1 : CC)%K /\ dxh g a i = (1 : CC)%K.
Hypothesis Heps : forall c i j l, eps c i j l = (1 : CC)%K.
Hypothesis Hmu : forall c i j l, mu c i j l = (1 : CC)%K.
Lemma N1 : (1 : CC)%K <> (0 : CC)%K. Proof. exact c1_nz. Qed.
Lemma one_dv i j l : op_dv g mu (fst wave_v) (snd wave_v) i j l = (0 : CC)%K.
Proof. unfold op_dv, de, roll_forward. cbn [wave_v fst snd]. rewrite !Hmu. rewrite (proj1 (Hdx _ _)), (proj1 (Hdx 1 _)). field. exact N1. Qed.
Lemma one_cz i j l : op_cz g eps (fst wave_v) (snd wave_v) i j l = (0 : CC)%K.
Proof. unfold op_cz, dh, roll_back. cbn [wave_v fst snd]. rewrite !Heps. rewrite !(proj2 (Hdx _ _)). field. exact N1. Qed.
Lemma one_eigenvector : eigenvector g (1 : CC)%K (1 : CC)%K eps mu wave_v.
Proof.
  intros i j _ _. unfold wg_operator. cbn [fst snd]. unfold de, dh, roll_forward, roll_back. rewrite !one_dv, !one_cz, !Heps, !Hmu.
  rewrite !(proj1 (Hdx _ _)), !(proj2 (Hdx _ _)). cbn [wave_v fst snd]. split; field; exact N1.
Qed.
Lemma one_h2 i j l : v2h g mu (1 : CC)%K wave_v 2%nat i j l = (0 : CC)%K.
Proof. unfold v2h. rewrite one_dv. field. repeat split; first [exact N1|exact ki_nz]. Qed.
Lemma one_e0 i j l : v2e g (1 : CC)%K eps mu (1 : CC)%K wave_v 0%nat i j l = (1 : CC)%K.
Proof.
  unfold v2e, wg_curl_h, wg_curl, dh, roll_back. rewrite !one_h2, Heps, !(proj2 (Hdx _ _)). change (v2h g mu (1 : CC)%K wave_v 1%nat i j l) with (1 : CC)%K.
  field. repeat split; first [exact N1|exact ki_nz].
Qed.
Lemma one_e1 i j l : v2e g (1 : CC)%K eps mu (1 : CC)%K wave_v 1%nat i j l = (0 : CC)%K.
Proof.
  unfold v2e, wg_curl_h, wg_curl, dh, roll_back. rewrite !one_h2, Heps, !(proj2 (Hdx _ _)). change (v2h g mu (1 : CC)%K wave_v 0%nat i j l) with (0 : CC)%K.
  field. repeat split; first [exact N1|exact ki_nz].
Qed.
Lemma one_power : dim g 0 = 1%nat -> dim g 1 = 1%nat -> mode_power g (v2e g (1 : CC)%K eps mu (1 : CC)%K wave_v) (v2h g mu (1 : CC)%K wave_v) = 1 / 2.
Proof.
  intros D0 D1. rewrite mode_power_sum. unfold sum_plane. rewrite D0, D1. cbn [fsum]. rewrite one_e0, one_e1.
  rewrite !(proj1 (Hdx _ _)), !(proj2 (Hdx _ _)). unfold roll_back. cbn [v2h wave_v fst snd]. unfold re. cbn. field.
Qed.
End One.
