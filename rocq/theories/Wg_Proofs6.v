(** solve_waveguide_mode followed by compute_source. *)
From Verif Require Import Base CField CField_Proofs Maxwell_Model Wg_Model Wg_Spec Wg_Proofs Wg_Proofs2 Wg_Proofs3 Wg_Proofs4 Wg_Proofs5.
From Coq Require Import Lia.
Set Implicit Arguments.

Section Final.
Variable K : cfield.
Local Open Scope K_scope.
Add Field Kf6 : (k_field K).

Section Curls.
Variable g : grid K.
Lemma curl_scale (d : array K -> nat -> array K) (Hlin : forall a f ax i j l, d (fun i j l => a * f i j l) ax i j l = a * d f ax i j l)
    beta a f c i j l : (c < 3)%nat -> wg_curl d beta (scale3 a f) c i j l = a * wg_curl d beta f c i j l.
Proof. intros Hc. unfold wg_curl, scale3. destruct c as [|[|[|]]]; try lia; rewrite !Hlin; ring. Qed.
Lemma de_lin a f ax i j l : de g (fun i j l => a * f i j l) ax i j l = a * de g f ax i j l.
Proof. unfold de, roll_forward. destruct ax as [|[|]]; rewrite !(Fdiv_def (k_field K)); ring. Qed.
Lemma dh_lin a f ax i j l : dh g (fun i j l => a * f i j l) ax i j l = a * dh g f ax i j l.
Proof. unfold dh, roll_back. destruct ax as [|[|]]; rewrite !(Fdiv_def (k_field K)); ring. Qed.
Lemma curl_conj (d : array K -> nat -> array K) i j l
    (Hc : forall f ax, (ax < 2)%nat -> kconj (d f ax i j l) = d (fun i j l => kconj (f i j l)) ax i j l)
    beta f c : kconj beta = beta -> (c < 3)%nat ->
  kconj (wg_curl d beta f c i j l) = wg_curl d (- beta) (fun c i j l => kconj (f c i j l)) c i j l.
Proof.
  intros Hb H3. unfold wg_curl. destruct c as [|[|[|]]]; try lia;
    rewrite kconj_sub, ?kconj_mul, ?kconj_opp, ?kconj_i, ?Hc, ?Hb by lia; try ring;
    rewrite ?kconj_mul, ?kconj_opp, ?kconj_i, ?Hb; ring.
Qed.
End Curls.

Variable cexp : K -> K.
Hypothesis cexp_add : forall a b, cexp (a + b) = cexp a * cexp b.
Hypothesis cexp_0 : cexp 0 = 1.
Hypothesis Htwo : two K <> 0.
Variable g : grid K.
Variables (axis s : nat) (back : bool).
Hypothesis Hax : (axis < 3)%nat.
Local Notation N := (dim g axis).
Local Notation st := (whole_start axis s).
Local Notation len := (whole_len g axis).
Local Notation g2 := (plane g axis st len).
Local Notation pol := (polarity K back).
Variables (omega k d beta nf : K) (eps mu : field3 K) (v : array K * array K).
Hypothesis Homega : omega <> 0.
Hypothesis Hbeta : beta <> 0.
Hypothesis Hs : (1 <= s < N)%nat.
Hypothesis Hd : d <> 0.
Hypothesis Hde : forall l, (l < N)%nat -> dxe g axis l = d.
Hypothesis Hdh : forall l, (l < N)%nat -> dxh g axis l = d.
Hypothesis Hne : forall k i, (k < 3)%nat -> (i < dim g k)%nat -> dxe g k i <> 0 /\ dxh g k i <> 0.
Hypothesis Heps : forall c x y z, (c < 3)%nat -> in_grid g x y z -> eps c x y z <> 0.
Hypothesis Hmu : forall c x y z, (c < 3)%nat -> in_grid g x y z -> mu c x y z <> 0.
Hypothesis Ieps : invariant_along g axis eps.
Hypothesis Imu : invariant_along g axis mu.
Hypothesis Heig : forall i j, (i < dim g2 0)%nat -> (j < dim g2 1)%nat ->
  fst (wg_operator g2 omega (in_plane axis st eps) (in_plane axis st mu) v) i j 0%nat = beta * beta * fst v i j 0%nat /\
  snd (wg_operator g2 omega (in_plane axis st eps) (in_plane axis st mu) v) i j 0%nat = beta * beta * snd v i j 0%nat.
Hypothesis Hreal : back = true -> kconj omega = omega /\ kconj beta = beta /\
  (forall c x y z, (c < 3)%nat -> in_grid g x y z -> kconj (eps c x y z) = eps c x y z /\ kconj (mu c x y z) = mu c x y z) /\
  (forall k i, (k < 3)%nat -> (i < dim g k)%nat -> kconj (dxe g k i) = dxe g k i /\ kconj (dxh g k i) = dxh g k i).
Ltac axes := match goal with H : (axis < 3)%nat |- _ => destruct axis as [|[|[|]]]; [| | |exfalso; clear -H; lia] end.

Lemma plane_cell c i j : (c < 3)%nat -> (i < dim g2 0)%nat -> (j < dim g2 1)%nat ->
  exists a x y z, (a < 3)%nat /\ in_grid g x y z /\ forall f : field3 K, in_plane axis st f c i j 0%nat = f a x y z.
Proof.
  intros Hc Hi Hj. exists (order axis c).
  exists (match axis with 0 => s | 1 => j | _ => i end)%nat, (match axis with 0 => i | 1 => s | _ => j end)%nat, (match axis with 0 => j | 1 => i | _ => s end)%nat.
  split; [unfold order; apply Nat.mod_upper_bound; lia|].
  unfold in_grid, in_plane, turned, sliced.
  axes; cbn [order Nat.modulo Nat.divmod Nat.eqb Nat.add fst snd Nat.sub plane dim whole_len whole_start] in *; rewrite ?Nat.add_0_r; (split; [lia|]); reflexivity.
Qed.
Lemma plane_d0 i : (i < dim g2 0)%nat -> dxe g2 0 i <> 0 /\ dxh g2 0 i <> 0.
Proof.
  intros Hi. axes; cbn [order Nat.modulo Nat.divmod Nat.eqb Nat.add fst snd Nat.sub plane dim dxe dxh whole_len whole_start] in *; apply Hne; lia.
Qed.
Lemma plane_d1 i : (i < dim g2 1)%nat -> dxe g2 1 i <> 0 /\ dxh g2 1 i <> 0.
Proof.
  intros Hi. axes; cbn [order Nat.modulo Nat.divmod Nat.eqb Nat.add fst snd Nat.sub plane dim dxe dxh whole_len whole_start] in *; apply Hne; lia.
Qed.
Lemma plane_real ax i : back = true -> (ax < 2)%nat -> (i < dim g2 ax)%nat -> kconj (dxe g2 ax i) = dxe g2 ax i /\ kconj (dxh g2 ax i) = dxh g2 ax i.
Proof.
  intros Hb Hx Hi. destruct (Hreal Hb) as (_ & _ & _ & R).
  axes; destruct ax as [|[|]]; try lia; cbn [order Nat.modulo Nat.divmod Nat.eqb Nat.add fst snd Nat.sub plane dim dxe dxh whole_len whole_start] in *; apply R; lia.
Qed.
Local Notation mu2 := (in_plane axis st mu).
Local Notation eps2 := (in_plane axis st eps).
Definition mode_E : field3 K := let e := scale3 nf (v2e g2 omega eps2 mu2 beta v) in
  if back then fun c i j l => kconj (e c i j l) else e.
Definition mode_H : field3 K := let h := scale3 nf (v2h g2 mu2 beta v) in
  if back then fun c i j l => - kconj (h c i j l) else h.
Lemma mode_eqs c i j : (c < 3)%nat -> (i < dim g2 0)%nat -> (j < dim g2 1)%nat ->
  wg_curl_e g2 (pol * beta) mode_E c i j 0%nat = - ki * omega * mu2 c i j 0%nat * mode_H c i j 0%nat /\
  wg_curl_h g2 (pol * beta) mode_H c i j 0%nat = ki * omega * eps2 c i j 0%nat * mode_E c i j 0%nat.
Proof.
  intros Hc Hi Hj.
  assert (P : forall f : field3 K, (forall c x y z, (c < 3)%nat -> in_grid g x y z -> f c x y z <> 0) ->
    forall c i j, (c < 3)%nat -> (i < dim g2 0)%nat -> (j < dim g2 1)%nat -> in_plane axis st f c i j 0%nat <> 0).
  { intros f Hf c' i' j' Hc' Hi' Hj'. destruct (plane_cell Hc' Hi' Hj') as (a & x & y & z & Ha & Hg & E). rewrite E. auto. }
  assert (E0 := @mode_e K g2 omega beta eps2 mu2 v 0%nat Homega Hbeta (P _ Heps) (P _ Hmu) plane_d0 plane_d1 Heig c i j Hc Hi Hj).
  assert (H0 := @mode_h K g2 omega beta eps2 mu2 v 0%nat Homega (P _ Heps) c i j Hc Hi Hj).
  assert (E1 : wg_curl_e g2 beta (scale3 nf (v2e g2 omega eps2 mu2 beta v)) c i j 0%nat = - ki * omega * mu2 c i j 0%nat * scale3 nf (v2h g2 mu2 beta v) c i j 0%nat).
  { unfold wg_curl_e in *. rewrite curl_scale by (auto using de_lin). rewrite E0. unfold scale3. ring. }
  assert (H1 : wg_curl_h g2 beta (scale3 nf (v2h g2 mu2 beta v)) c i j 0%nat = ki * omega * eps2 c i j 0%nat * scale3 nf (v2e g2 omega eps2 mu2 beta v) c i j 0%nat).
  { unfold wg_curl_h in *. rewrite curl_scale by (auto using dh_lin). rewrite H0. unfold scale3. ring. }
  clear E0 H0. revert E1 H1. unfold mode_E, mode_H.
  generalize (scale3 nf (v2h g2 mu2 beta v)) (scale3 nf (v2e g2 omega eps2 mu2 beta v)). intros h e E1 H1.
  pose proof plane_real as PR. pose proof Hreal as HR.
  unfold polarity. destruct back.
  - destruct (HR eq_refl) as (Ro & Rb & Rm & Rd).
    destruct (plane_cell Hc Hi Hj) as (a & x & y & z & Ha & Hg & Pc). destruct (Rm a x y z Ha Hg) as [Re Rmu]. rewrite <- (Pc eps) in Re. rewrite <- (Pc mu) in Rmu.
    assert (Cd : forall f ax, (ax < 2)%nat -> kconj (de g2 f ax i j 0%nat) = de g2 (fun i j l => kconj (f i j l)) ax i j 0%nat).
    { intros f ax Hx. unfold de. destruct ax as [|[|]]; try lia; cbn [pick roll_forward].
      - rewrite kconj_div, kconj_sub by (apply plane_d0; auto). rewrite (proj1 (PR 0%nat i eq_refl ltac:(lia) Hi)). reflexivity.
      - rewrite kconj_div, kconj_sub by (apply plane_d1; auto). rewrite (proj1 (PR 1%nat j eq_refl ltac:(lia) Hj)). reflexivity. }
    assert (Ch : forall f ax, (ax < 2)%nat -> kconj (dh g2 f ax i j 0%nat) = dh g2 (fun i j l => kconj (f i j l)) ax i j 0%nat).
    { intros f ax Hx. unfold dh. destruct ax as [|[|]]; try lia; cbn [pick roll_back].
      - rewrite kconj_div, kconj_sub by (apply plane_d0; auto). rewrite (proj2 (PR 0%nat i eq_refl ltac:(lia) Hi)). reflexivity.
      - rewrite kconj_div, kconj_sub by (apply plane_d1; auto). rewrite (proj2 (PR 1%nat j eq_refl ltac:(lia) Hj)). reflexivity. }
    apply (f_equal kconj) in E1, H1.
    unfold wg_curl_e in E1. unfold wg_curl_h in H1. rewrite curl_conj in E1, H1 by auto.
    rewrite !kconj_mul, ?kconj_opp, kconj_i in E1. rewrite !kconj_mul, kconj_i in H1. rewrite Ro, Rmu in E1. rewrite Ro, Re in H1.
    replace (- (1) * beta) with (- beta) by ring. split.
    + unfold wg_curl_e. rewrite E1. ring.
    + unfold wg_curl_h. assert (Sg := @curl_scale (dh g2) (@dh_lin g2) (- beta) (- (1)) (fun c i j l => kconj (h c i j l)) c i j 0%nat Hc).
      unfold scale3 in Sg. transitivity (wg_curl (dh g2) (- beta) (fun a x y z => - (1) * kconj (h a x y z)) c i j 0%nat).
      { unfold wg_curl. assert (T : forall f ax, dh g2 (fun i j l => - kconj (f i j l)) ax i j 0%nat = dh g2 (fun i j l => - (1) * kconj (f i j l)) ax i j 0%nat).
        { intros f ax. unfold dh, roll_back. destruct ax as [|[|]]; f_equal; ring. }
        destruct c as [|[|[|]]]; try lia; rewrite !T; ring. }
      rewrite Sg, H1. ring.
  - replace (1 * beta) with beta by ring. auto.
Qed.
Definition half_step : K := cexp (- pol * ki * (1 / two K) * k * d).
Lemma half_inv : cexp (pol * ki * (1 / two K) * k * d) * half_step = 1.
Proof. unfold half_step. rewrite <- cexp_add, <- cexp_0. f_equal. ring. Qed.
Lemma half_neq0 : half_step <> 0.
Proof. intros E. pose proof half_inv as H. rewrite E in H. apply (F_1_neq_0 (k_field K)). rewrite <- H. ring. Qed.
Lemma half_disp : (half_step - 1 / half_step) / d + ki * (pol * beta) = pol * dispersion cexp k d beta.
Proof.
  assert (I : 1 / half_step = cexp (pol * ki * (1 / two K) * k * d)).
  { pose proof half_neq0. pose proof half_inv as HI. set (w := cexp (pol * ki * (1 / two K) * k * d)) in *. transitivity (w * half_step / half_step); [now rewrite HI|field; auto]. }
  rewrite I. unfold half_step, polarity, dispersion. fold (two K). destruct back.
  - assert (E1 : - - (1) * ki * (1 / two K) * k * d = ki * k * d / two K) by (field; auto).
    assert (E2 : - (1) * ki * (1 / two K) * k * d = - ki * k * d / two K) by (field; auto).
    rewrite E1, E2. field. auto.
  - assert (E1 : - (1) * ki * (1 / two K) * k * d = - ki * k * d / two K) by (field; auto).
    assert (E2 : 1 * ki * (1 / two K) * k * d = ki * k * d / two K) by (field; auto).
    rewrite E1, E2. field. auto.
Qed.
Lemma half_exp : cexp (ki * pol * k * d) = 1 / (half_step * half_step).
Proof.
  pose proof half_neq0 as H0.
  assert (E : cexp (ki * pol * k * d) * (half_step * half_step) = 1).
  { unfold half_step. rewrite <- !cexp_add. transitivity (cexp 0); [|exact cexp_0]. f_equal. unfold two in *. field. auto. }
  transitivity (cexp (ki * pol * k * d) * (half_step * half_step) / (half_step * half_step)); [field; auto|]. now rewrite E.
Qed.
Lemma mode_source_explicit : forall E H, solve_waveguide_mode cexp g axis back st len omega eps mu v beta nf k = (E, H) ->
  let Et := wave_e axis s half_step mode_E in let Ht := wave_h axis s half_step mode_H in
  E = expand axis st len mode_E /\
    (forall c x y z, (c < 3)%nat -> c <> axis -> in_grid g x y z ->
       E c x y z = (if Nat.eqb (pick axis x y z) s then Et c x y z else 0) /\
       H c x y z = (if Nat.eqb (pick axis x y z) s then Ht c x y z else 0)) /\
    (forall c x y z, (c < 3)%nat -> in_grid g x y z -> (pick axis x y z + 1 < N)%nat ->
       roll_forward g (Et c) axis x y z = cexp (- pol * ki * k * d) * Et c x y z /\
       roll_forward g (Ht c) axis x y z = cexp (- pol * ki * k * d) * Ht c x y z /\
       fcurl_e g Et c x y z = - ki * omega * mu c x y z * Ht c x y z + pol * dispersion cexp k d beta * half_step * axial axis Et c x y z) /\
    (forall c x y z, (c < 3)%nat -> in_grid g x y z -> (1 <= pick axis x y z)%nat ->
       fcurl_h g Ht c x y z = ki * omega * eps c x y z * Et c x y z + pol * dispersion cexp k d beta * (axial axis Ht c x y z / half_step)) /\
    (forall c x y z, (c < 3)%nat -> in_grid g x y z -> (1 <= pick axis x y z)%nat -> (pick axis x y z + 1 < N)%nat ->
       wave_equation g omega eps mu (one_sided axis back s Et) c x y z
       = - ki * omega * compute_source cexp g axis back s omega k mu E H c x y z
         - pol * dispersion cexp k d beta * missing g axis back s omega half_step mu Et Ht c x y z).
Proof.
  intros E H Eq.
  assert (Dp : 1 / two K * (dxe g axis (st axis) + dxh g axis (st axis)) = d).
  { unfold whole_start. rewrite Nat.eqb_refl, Hde, Hdh by lia. unfold two in *. field. auto. }
  unfold solve_waveguide_mode in Eq. rewrite Dp in Eq.
  change ((expand axis st len mode_E, expand axis st len (scale3 half_step mode_H)) = (E, H)) in Eq.
  injection Eq as <- <-.
  intros Et Ht. split; [reflexivity|]. unfold Et, Ht. clear Et Ht.
  pose proof half_neq0 as H0. pose proof half_disp as HD. pose proof half_exp as HX.
  assert (Sq : half_step * half_step = cexp (- pol * ki * k * d)).
  { unfold half_step. rewrite <- cexp_add. f_equal. unfold two in *. field. auto. }
  assert (Hm : forall c i j, (c < 3)%nat -> (i < dim g2 0)%nat -> (j < dim g2 1)%nat -> wg_curl_e g2 (pol * beta) mode_E c i j 0%nat = - ki * omega * mu2 c i j 0%nat * mode_H c i j 0%nat) by (intros; apply mode_eqs; auto).
  assert (Hh : forall c i j, (c < 3)%nat -> (i < dim g2 0)%nat -> (j < dim g2 1)%nat -> wg_curl_h g2 (pol * beta) mode_H c i j 0%nat = ki * omega * eps2 c i j 0%nat * mode_E c i j 0%nat) by (intros; apply mode_eqs; auto).
  split; [|split; [|split]].
  - intros. split; [apply Et_plane; auto; lia|apply Ht_at; auto; lia].
  - intros. rewrite Et_next, Ht_next by auto. rewrite Sq. split; [reflexivity|split; [reflexivity|]].
    rewrite <- HD. apply (@Et_curl K g axis s Hax omega d (pol * beta) half_step eps mu mode_E mode_H); auto; try (intros; apply Hne; auto).
  - intros. rewrite <- HD. apply (@Ht_curl K g axis s Hax omega d (pol * beta) half_step eps mu mode_E mode_H); auto; try (intros; apply Hne; auto).
  - intros. rewrite <- HD. apply (@source_of_mode K g axis s Hax cexp back omega k d (pol * beta) half_step eps mu mode_E mode_H); auto; try (intros; apply Hne; auto).
Qed.
Lemma mode_source_lemma : forall E H, solve_waveguide_mode cexp g axis back st len omega eps mu v beta nf k = (E, H) ->
  exists Et Ht : field3 K,
    (forall c x y z, (c < 3)%nat -> c <> axis -> in_grid g x y z ->
       E c x y z = (if Nat.eqb (pick axis x y z) s then Et c x y z else 0) /\
       H c x y z = (if Nat.eqb (pick axis x y z) s then Ht c x y z else 0)) /\
    (forall c x y z, (c < 3)%nat -> in_grid g x y z -> (pick axis x y z + 1 < N)%nat ->
       roll_forward g (Et c) axis x y z = cexp (- pol * ki * k * d) * Et c x y z /\
       roll_forward g (Ht c) axis x y z = cexp (- pol * ki * k * d) * Ht c x y z /\
       fcurl_e g Et c x y z = - ki * omega * mu c x y z * Ht c x y z + pol * dispersion cexp k d beta * half_step * axial axis Et c x y z) /\
    (forall c x y z, (c < 3)%nat -> in_grid g x y z -> (1 <= pick axis x y z)%nat ->
       fcurl_h g Ht c x y z = ki * omega * eps c x y z * Et c x y z + pol * dispersion cexp k d beta * (axial axis Ht c x y z / half_step)) /\
    (forall c x y z, (c < 3)%nat -> in_grid g x y z -> (1 <= pick axis x y z)%nat -> (pick axis x y z + 1 < N)%nat ->
       wave_equation g omega eps mu (one_sided axis back s Et) c x y z
       = - ki * omega * compute_source cexp g axis back s omega k mu E H c x y z
         - pol * dispersion cexp k d beta * missing g axis back s omega half_step mu Et Ht c x y z).
Proof.
  intros E H Eq. destruct (mode_source_explicit Eq) as (_ & R). now exists (wave_e axis s half_step mode_E), (wave_h axis s half_step mode_H).
Qed.
End Final.
