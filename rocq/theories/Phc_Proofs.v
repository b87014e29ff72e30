(** Proofs about photonic-crystal modes: eigenvectors and resonances. *)
From Verif Require Import Base CField CField_Proofs Maxwell_Model Maxwell_Spec Maxwell_Proofs Maxwell_Proofs2 Maxwell_Proofs3 Phc_Model Phc_Spec.
Set Implicit Arguments.

Section M.
Variable K : cfield.
Local Open Scope K_scope.
Add Field Kfield : (k_field K).
Variable g : grid K.
Variable ph : phases K.
Local Notation n := (cellsn g).
Local Notation N := (vlen g).
Local Notation ce := (curl_e g (ue ph) (we ph)).
Local Notation ch := (curl_h g (uh ph) (wh ph)).
Local Notation pmul := (pmul g).
Implicit Types (E H v : list K) (eps : nat -> K).

Lemma zeros_length : length (zeros K N) = N.
Proof. apply repeat_length. Qed.
Lemma zeros_ext v : length v = N -> (forall i, (i < N)%nat -> at_ v i = 0) -> v = zeros K N.
Proof. intros Hl Hz. apply vec_ext; [now rewrite zeros_length|]. intros i Hi. rewrite zeros_at. apply Hz. now rewrite <- Hl. Qed.
Lemma nonzero_pmul d v : (forall i, (i < N)%nat -> d i <> 0) -> length v = N -> v <> zeros K N -> pmul d v <> zeros K N.
Proof.
  intros Hd Hl Hv Ez. apply Hv, zeros_ext; [auto|]. intros i Hi.
  apply (@kmul_cancel K (d i)); [auto|]. rewrite <- (pmul_at g d v Hi), Ez, zeros_at. ring.
Qed.
Lemma vscale_length a v : length (vscale a v) = length v.
Proof. apply map_length. Qed.

Lemma e_res_iff eps w E : mv N (e_full g ph w eps None None None) E = zeros K N <->
  forall i, (i < N)%nat -> at_ (mv N ch (mv N ce E)) i = w * w * eps i * at_ E i.
Proof.
  assert (Ea : forall i, (i < N)%nat -> at_ (mv N (e_full g ph w eps None None None) E) i
    = at_ (mv N ch (mv N ce E)) i - w * w * eps i * at_ E i).
  { intros i Hi. rewrite mv_e_full by auto. cbn [maskv invv].
    rewrite (mv_vext ch _ (mv N ce E)).
    - ring.
    - intros k Hk. rewrite !pmul_at by auto. transitivity (at_ (mv N ce (pmul (fun _ => 1) E)) k); [change (maskv K None) with (fun _ : nat => (1 : K)); cbn [invv]; ring|]. f_equal. apply mv_vext. intros j Hj. rewrite pmul_at by auto. ring. }
  split.
  - intros Hz i Hi. pose proof (Ea i Hi) as H1. rewrite Hz, zeros_at in H1.
    transitivity (w * w * eps i * at_ E i + 0); [rewrite H1; ring|ring].
  - intros Hr. apply zeros_ext; [apply mv_length|]. intros i Hi. rewrite Ea, Hr by auto. ring.
Qed.
Lemma h_res_iff eps w H : mv N (h_full g ph w eps None None None) H = zeros K N <->
  forall i, (i < N)%nat -> at_ (mv N ce (pmul (fun i => 1 / eps i) (mv N ch H))) i = w * w * at_ H i.
Proof.
  assert (Ea : forall i, (i < N)%nat -> at_ (mv N (h_full g ph w eps None None None) H) i
    = at_ (mv N ce (pmul (fun i => 1 / eps i) (mv N ch H))) i - w * w * at_ H i).
  { intros i Hi. rewrite mv_h_full by auto. cbn [maskv muv].
    rewrite (mv_vext ce _ (pmul (fun i => 1 / eps i) (mv N ch H))).
    - ring.
    - intros k Hk. rewrite !pmul_at by auto. transitivity (1 / eps k * at_ (mv N ch (pmul (fun _ => 1) H)) k); [change (maskv K None) with (fun _ : nat => (1 : K)); cbn [invv]; ring|]. f_equal. f_equal. apply mv_vext. intros j Hj. rewrite pmul_at by auto. ring. }
  split.
  - intros Hz i Hi. pose proof (Ea i Hi) as H1. rewrite Hz, zeros_at in H1.
    transitivity (w * w * at_ H i + 0); [rewrite H1; ring|ring].
  - intros Hr. apply zeros_ext; [apply mv_length|]. intros i Hi. rewrite Ea, Hr by auto. ring.
Qed.
Lemma efield_at s v i : (i < N)%nat ->
  at_ (mv N (efield_operator g ph s) v) i = 1 / s i * at_ (mv N ch (mv N ce (pmul (fun i => 1 / s i) v))) i.
Proof. intros Hi. unfold efield_operator, eps_norm. rewrite !mv_mmul, mv_mdiag_at, mv_diag by auto. reflexivity. Qed.
Lemma hfield_mv eps v : mv N (hfield_operator g ph eps) v = mv N ce (pmul (fun i => 1 / eps i) (mv N ch v)).
Proof. unfold hfield_operator. now rewrite !mv_mmul, mv_diag. Qed.
Lemma root_nz (s eps : nat -> K) : (forall i, (i < N)%nat -> s i * s i = eps i) -> nonzero_values g eps -> forall i, (i < N)%nat -> s i <> 0.
Proof. intros Hs He i Hi E. apply (He i Hi). rewrite <- Hs, E by auto. ring. Qed.

(** eigenvectors of the operator for E and resonances *)
Lemma efield_eigen_resonance s eps w v : (forall i, (i < N)%nat -> s i * s i = eps i) -> nonzero_values g eps ->
  eigenpair g (efield_operator g ph s) (w * w) v -> e_resonance g ph eps w (mv N (eps_norm s) v).
Proof.
  intros Hs He (Hl & Hn & Hv). pose proof (@root_nz s eps Hs He) as Hnz. unfold eps_norm. rewrite mv_diag. repeat split.
  - apply pmul_length.
  - apply nonzero_pmul; auto. intros i Hi E. apply (@k1_neq_0 K). transitivity (1 / s i * s i); [field; auto|]. rewrite E. ring.
  - apply e_res_iff. intros i Hi. pose proof (f_equal (fun x => at_ x i) Hv) as H1. cbv beta in H1.
    rewrite efield_at, vscale_at in H1 by auto. rewrite pmul_at by auto. rewrite <- (Hs i Hi).
    transitivity (s i * (1 / s i * at_ (mv N ch (mv N ce (pmul (fun i => 1 / s i) v))) i)); [field; auto|].
    rewrite H1. field. auto.
Qed.
Lemma resonance_efield_eigen s eps w E : (forall i, (i < N)%nat -> s i * s i = eps i) -> nonzero_values g eps ->
  e_resonance g ph eps w E ->
  eigenpair g (efield_operator g ph s) (w * w) (mv N (mdiag s) E) /\ mv N (eps_norm s) (mv N (mdiag s) E) = E.
Proof.
  intros Hs He (Hl & Hn & Hv). pose proof (@root_nz s eps Hs He) as Hnz. rewrite mv_diag.
  assert (Eb : pmul (fun i => 1 / s i) (pmul s E) = E).
  { apply vec_ext; [now rewrite pmul_length|]. rewrite pmul_length. intros i Hi. rewrite !pmul_at by auto. field. auto. }
  split.
  - repeat split.
    + apply pmul_length.
    + apply nonzero_pmul; auto.
    + apply vec_ext; [now rewrite mv_length, vscale_length, pmul_length|]. rewrite mv_length. intros i Hi.
      rewrite efield_at, vscale_at, Eb by auto. rewrite (proj1 (e_res_iff eps w E) Hv i Hi), pmul_at by auto.
      rewrite <- (Hs i Hi). field. auto.
  - unfold eps_norm. rewrite mv_diag. exact Eb.
Qed.
Lemma hfield_eigen_iff eps w H : eigenpair g (hfield_operator g ph eps) (w * w) H <-> h_resonance g ph eps w H.
Proof.
  unfold eigenpair, h_resonance. rewrite h_res_iff, hfield_mv. split; intros (Hl & Hn & Hv); repeat split; auto.
  - intros i Hi. now rewrite Hv, vscale_at.
  - apply vec_ext; [now rewrite mv_length, vscale_length|]. rewrite mv_length. intros i Hi. now rewrite vscale_at, Hv.
Qed.
(** the two fields of a mode determine each other *)
Lemma h2e_at eps w H i : (i < N)%nat -> at_ (mv N (h2e g ph w eps) H) i = 1 / (ki * w * eps i) * at_ (mv N ch H) i.
Proof. intros Hi. unfold h2e. rewrite mv_mmul, mv_mdiag_at by auto. reflexivity. Qed.
Lemma e2h_at w E i : (i < N)%nat -> w <> 0 -> at_ (mv N (e2h g ph w None None) E) i = 1 / (- ki * w) * at_ (mv N ce E) i.
Proof.
  intros Hi Hw. unfold e2h. rewrite !mv_at by auto. rewrite <- fsum_scale. apply fsum_ext. intros j Hj.
  pose proof (@ki_neq0 K). field; repeat split; auto using kopp_neq0.
Qed.
Lemma mv_vscale (A : mat K) a v : mv N A (vscale a v) = vscale a (mv N A v).
Proof.
  apply vec_ext; [now rewrite vscale_length, !mv_length|]. rewrite mv_length. intros i Hi. rewrite vscale_at, !mv_at, <- fsum_scale by auto.
  apply fsum_ext. intros j Hj. rewrite vscale_at. ring.
Qed.
Lemma h_resonance_e eps w H : w <> 0 -> nonzero_values g eps -> h_resonance g ph eps w H ->
  e_resonance g ph eps w (mv N (h2e g ph w eps) H) /\ mv N (e2h g ph w None None) (mv N (h2e g ph w eps) H) = H.
Proof.
  intros Hw He (Hl & Hn & Hv). pose proof (@ki_neq0 K) as Hi0. pose proof (ki_sq K) as Hi2. pose proof (@kopp_neq0 K ki Hi0) as Hi1.
  assert (E1 : mv N (h2e g ph w eps) H = vscale (1 / (ki * w)) (pmul (fun i => 1 / eps i) (mv N ch H))).
  { apply vec_ext; [now rewrite vscale_length, mv_length, pmul_length|]. rewrite mv_length. intros i Hi.
    rewrite h2e_at, vscale_at, pmul_at by auto. field. repeat split; auto. }
  assert (E2 : mv N ce (mv N (h2e g ph w eps) H) = vscale (- ki * w) H).
  { rewrite E1, mv_vscale. apply vec_ext; [now rewrite !vscale_length, mv_length|]. rewrite vscale_length, mv_length. intros i Hi.
    rewrite !vscale_at, (proj1 (h_res_iff eps w H) Hv i Hi). 
    transitivity (1 / ki * w * at_ H i); [field; auto|].
    replace (1 / ki) with (- ki : K); [ring|]. apply (@kmul_cancel K ki); [auto|]. transitivity (- (ki * ki) : K); [ring|]. rewrite Hi2. field. auto. }
  assert (E3 : mv N (e2h g ph w None None) (mv N (h2e g ph w eps) H) = H).
  { apply vec_ext; [now rewrite mv_length|]. rewrite mv_length. intros i Hi. rewrite e2h_at, E2, vscale_at by auto. field.
    repeat split; auto. }
  split; [|exact E3]. repeat split.
  - apply mv_length.
  - intros Ez. apply Hn. rewrite <- E3, Ez. apply zeros_ext; [apply mv_length|]. intros i Hi.
    rewrite mv_at by auto. apply fsum_zero. intros j Hj. rewrite zeros_at. ring.
  - apply e_res_iff. intros i Hi. rewrite E2, mv_vscale, vscale_at, h2e_at by auto.
    transitivity (- (ki * ki) / ki * w * at_ (mv N ch H) i); [field; auto|]. rewrite Hi2. field. repeat split; auto.
Qed.
Lemma e_resonance_h eps w E : w <> 0 -> nonzero_values g eps -> e_resonance g ph eps w E ->
  h_resonance g ph eps w (mv N (e2h g ph w None None) E) /\ mv N (h2e g ph w eps) (mv N (e2h g ph w None None) E) = E.
Proof.
  intros Hw He (Hl & Hn & Hv). pose proof (@ki_neq0 K) as Hi0. pose proof (ki_sq K) as Hi2. pose proof (@kopp_neq0 K ki Hi0) as Hi1.
  assert (E1 : mv N (e2h g ph w None None) E = vscale (1 / (- ki * w)) (mv N ce E)).
  { apply vec_ext; [now rewrite vscale_length, !mv_length|]. rewrite mv_length. intros i Hi. now rewrite e2h_at, vscale_at by auto. }
  assert (E2 : forall i, (i < N)%nat -> at_ (mv N ch (mv N (e2h g ph w None None) E)) i = ki * w * eps i * at_ E i).
  { intros i Hi. rewrite E1, mv_vscale, vscale_at, (proj1 (e_res_iff eps w E) Hv i Hi).
    transitivity (- (1) / ki * w * eps i * at_ E i); [field; auto|].
    replace (- (1) / ki) with (ki : K); [ring|]. rewrite <- Hi2. field. auto. }
  assert (E3 : mv N (h2e g ph w eps) (mv N (e2h g ph w None None) E) = E).
  { apply vec_ext; [now rewrite mv_length|]. rewrite mv_length. intros i Hi. rewrite h2e_at, E2 by auto. field. repeat split; auto. }
  split; [|exact E3]. repeat split.
  - apply mv_length.
  - intros Ez. apply Hn. rewrite <- E3, Ez. apply zeros_ext; [apply mv_length|]. intros i Hi.
    rewrite mv_at by auto. apply fsum_zero. intros j Hj. rewrite zeros_at. ring.
  - apply h_res_iff. intros i Hi.
    rewrite (mv_vext ce _ (vscale (ki * w) E)).
    + rewrite mv_vscale, vscale_at, e2h_at by auto.
      transitivity (w * (1 / - ki) * at_ (mv N ce E) i); [|field; auto].
      replace (1 / - ki) with (ki : K); [ring|]. apply (@kmul_cancel K (- ki)); [now apply kopp_neq0|].
      transitivity (- (ki * ki) : K); [ring|]. rewrite Hi2. field. auto.
    + intros j Hj. rewrite pmul_at, vscale_at, E2 by auto. field. auto.
Qed.
End M.
