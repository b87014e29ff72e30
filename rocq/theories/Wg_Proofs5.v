(** Source of a waveguide mode. *)
From Verif Require Import Base CField CField_Proofs Maxwell_Model Wg_Model Wg_Spec Wg_Proofs Wg_Proofs2 Wg_Proofs3 Wg_Proofs4.
From Coq Require Import Lia.
Set Implicit Arguments.

Section ModeSource.
Variable K : cfield.
Local Open Scope K_scope.
Add Field Kf5 : (k_field K).
Variable g : grid K.
Variables (axis s : nat).
Hypothesis Hax : (axis < 3)%nat.
Local Notation N := (dim g axis).
Local Notation st := (whole_start axis s).
Local Notation len := (whole_len g axis).
Local Notation g2 := (plane g axis st len).
Ltac axes := match goal with H : (axis < 3)%nat |- _ => destruct axis as [|[|[|]]]; [| | |exfalso; clear -H; lia] end.

Lemma in_plane_at (f : field3 K) a x y z : invariant_along g axis f -> (s < N)%nat -> (a < 3)%nat -> in_grid g x y z ->
  in_plane axis st f (reverse_order axis a) (pick (order axis 0) x y z) (pick (order axis 1) x y z) 0%nat = f a x y z.
Proof.
  intros Hf Hs Ha Hg. unfold in_plane, turned, sliced. unfold in_grid in Hg.
  axes; destruct a as [|[|[|]]]; try lia; cbn [pick order reverse_order Nat.modulo Nat.divmod Nat.eqb Nat.add fst snd Nat.sub whole_start] in *;
    rewrite ?Nat.add_0_r; apply Hf; unfold in_grid; try lia; intros [|[|[|]]] A B; try lia; reflexivity.
Qed.
Lemma expand_at (f : field3 K) a x y z : (a < 3)%nat -> in_grid g x y z ->
  expand axis st len f a x y z = if Nat.eqb (pick axis x y z) s then spread axis f a x y z else 0.
Proof.
  intros Ha Hg. unfold expand, spread. unfold in_grid in Hg.
  assert (B : forallb (fun k => Nat.leb (st k) (pick k x y z) && Nat.ltb (pick k x y z) (st k + len k)) (seq 0 3) = Nat.eqb (pick axis x y z) s).
  { cbn [seq forallb]. unfold whole_start, whole_len.
    axes; cbn [pick Nat.eqb];
      repeat match goal with |- context [Nat.leb ?a ?b] => destruct (Nat.leb_spec a b) | |- context [Nat.ltb ?a ?b] => destruct (Nat.ltb_spec a b) | |- context [Nat.eqb ?a ?b] => destruct (Nat.eqb_spec a b) end; cbn [andb]; try reflexivity; lia. }
  rewrite B. destruct (Nat.eqb (pick axis x y z) s); [|reflexivity].
  axes; cbn [pick order Nat.modulo Nat.divmod Nat.eqb Nat.add fst snd Nat.sub whole_start] in *; rewrite ?Nat.sub_0_r; reflexivity.
Qed.
Lemma plane_bound x y z : in_grid g x y z -> (pick (order axis 0) x y z < dim g2 0 /\ pick (order axis 1) x y z < dim g2 1)%nat.
Proof.
  unfold in_grid. intros Hg. axes; cbn [pick order Nat.modulo Nat.divmod Nat.eqb Nat.add fst snd Nat.sub plane dim whole_len]; lia.
Qed.
Lemma rev_lt a : (reverse_order axis a < 3)%nat.
Proof. unfold reverse_order. apply Nat.mod_upper_bound. lia. Qed.

Variable cexp : K -> K.
Variable back : bool.
Local Notation pol := (polarity K back).
Variables (omega k d beta u : K) (eps mu e h : field3 K).
Hypothesis Homega : omega <> 0.
Hypothesis Hs : (1 <= s < N)%nat.
Hypothesis Hu : u <> 0.
Hypothesis Hd : d <> 0.
Hypothesis Hde : forall l, (l < N)%nat -> dxe g axis l = d.
Hypothesis Hdh : forall l, (l < N)%nat -> dxh g axis l = d.
Local Notation mismatch := ((u - 1 / u) / d + ki * beta).
Hypothesis Hne : forall k i, (k < 3)%nat -> (i < dim g k)%nat -> dxe g k i <> 0.
Hypothesis Hnh : forall k i, (k < 3)%nat -> (i < dim g k)%nat -> dxh g k i <> 0.
Hypothesis Hmu : forall c x y z, (c < 3)%nat -> in_grid g x y z -> mu c x y z <> 0.
Hypothesis Ieps : invariant_along g axis eps.
Hypothesis Imu : invariant_along g axis mu.
Hypothesis Hexp : cexp (ki * pol * k * d) = 1 / (u * u).
Hypothesis Hme : forall c i j, (c < 3)%nat -> (i < dim g2 0)%nat -> (j < dim g2 1)%nat ->
  wg_curl_e g2 beta e c i j 0%nat = - ki * omega * in_plane axis st mu c i j 0%nat * h c i j 0%nat.
Hypothesis Hmh : forall c i j, (c < 3)%nat -> (i < dim g2 0)%nat -> (j < dim g2 1)%nat ->
  wg_curl_h g2 beta h c i j 0%nat = ki * omega * in_plane axis st eps c i j 0%nat * e c i j 0%nat.
Definition zcross (f : field3 K) : field3 K := fun c i j l => match c with 0 => - f 1%nat i j l | 1 => f 0%nat i j l | _ => 0 end.
Definition beta_k : K := ki * (u - 1 / u) / d.
Lemma beta_k_disp : u - 1 / u = - ki * beta_k * d.
Proof. unfold beta_k. assert (Hi2 : (ki : K) * ki = - (1)) by exact (ki_sq K). field [Hi2]. auto. Qed.
Lemma curl_shift dd f c i j l : (c < 3)%nat -> wg_curl dd beta_k f c i j l = wg_curl dd beta f c i j l + mismatch * zcross f c i j l.
Proof.
  intros Hc. assert (E : - ki * beta_k = (u - 1 / u) / d) by (rewrite beta_k_disp; field; auto).
  unfold wg_curl. rewrite E. destruct c as [|[|[|]]]; try lia; cbn [zcross]; ring.
Qed.
Local Notation Et := (wave_e axis s u e).
Local Notation Ht := (wave_h axis s u h).

Lemma zcross_e a x y z : (a < 3)%nat -> wave_h axis s u (zcross e) a x y z = u * axial axis Et a x y z.
Proof.
  intros Ha. unfold wave_h, axial, wave_e, spread. pose proof (@kpow_neq0 K u (2 * s)%nat Hu).
  axes; destruct a as [|[|[|]]]; try lia; cbn [pick order reverse_order src_order zcross Nat.modulo Nat.divmod Nat.eqb Nat.add fst snd Nat.sub]; rewrite ?Nat.add_0_r, ?kpow_add; cbn [kpow]; field; auto.
Qed.
Lemma zcross_h a x y z : (a < 3)%nat -> wave_e axis s u (zcross h) a x y z = axial axis Ht a x y z / u.
Proof.
  intros Ha. unfold wave_h, axial, wave_e, spread. pose proof (@kpow_neq0 K u (2 * s)%nat Hu).
  axes; destruct a as [|[|[|]]]; try lia; cbn [pick order reverse_order src_order zcross Nat.modulo Nat.divmod Nat.eqb Nat.add fst snd Nat.sub]; rewrite ?Nat.add_0_r, ?kpow_add; cbn [kpow]; field; auto.
Qed.
Lemma Et_curl c x y z : (c < 3)%nat -> in_grid g x y z -> (pick axis x y z + 1 < N)%nat ->
  fcurl_e g Et c x y z = - ki * omega * mu c x y z * Ht c x y z + mismatch * u * axial axis Et c x y z.
Proof.
  intros Hc Hg Hl. rewrite (@wave_curl_e K g axis s d beta_k u) by auto using beta_k_disp.
  transitivity (- ki * omega * mu c x y z * Ht c x y z + mismatch * wave_h axis s u (zcross e) c x y z); [|rewrite zcross_e by auto; ring].
  unfold wave_h, spread, wg_curl_e. destruct (plane_bound Hg). rewrite curl_shift by apply rev_lt.
  unfold wg_curl_e in Hme. rewrite Hme by auto using rev_lt.
  rewrite in_plane_at by (auto; lia). rewrite !(Fdiv_def (k_field K)). ring.
Qed.
Lemma Ht_curl c x y z : (c < 3)%nat -> in_grid g x y z -> (1 <= pick axis x y z)%nat ->
  fcurl_h g Ht c x y z = ki * omega * eps c x y z * Et c x y z + mismatch * (axial axis Ht c x y z / u).
Proof.
  intros Hc Hg Hl. rewrite (@wave_curl_h K g axis s d beta_k u) by auto using beta_k_disp.
  transitivity (ki * omega * eps c x y z * Et c x y z + mismatch * wave_e axis s u (zcross h) c x y z); [|rewrite zcross_h by auto; ring].
  unfold wave_e, spread, wg_curl_h. destruct (plane_bound Hg). rewrite curl_shift by apply rev_lt.
  unfold wg_curl_h in Hmh. rewrite Hmh by auto using rev_lt.
  rewrite in_plane_at by (auto; lia). rewrite !(Fdiv_def (k_field K)). ring.
Qed.
Lemma Et_plane c x y z : (c < 3)%nat -> c <> axis -> in_grid g x y z ->
  expand axis st len e c x y z = if Nat.eqb (pick axis x y z) s then Et c x y z else 0.
Proof.
  intros Hc Hn Hg. rewrite expand_at by auto. destruct (Nat.eqb_spec (pick axis x y z) s) as [E|]; auto.
  unfold wave_e. rewrite E. destruct (Nat.eqb_spec c axis); [contradiction|]. rewrite Nat.add_0_r.
  pose proof (@kpow_neq0 K u (2 * s)%nat Hu). field. auto.
Qed.
Lemma Ht_plane c x y z : (c < 3)%nat -> c <> axis -> in_grid g x y z ->
  1 / (u * u) * expand axis st len (scale3 u h) c x y z = if Nat.eqb (pick axis x y z) s then roll_back g (Ht c) axis x y z else 0.
Proof.
  intros Hc Hn Hg. rewrite expand_at by auto. destruct (Nat.eqb_spec (pick axis x y z) s) as [E|]; [|ring].
  pose proof (@kpow_neq0 K u (2 * s)%nat Hu) as H0.
  assert (P : exists s', s = (s' + 1)%nat) by (exists (s - 1)%nat; lia). destruct P as [s' Es].
  assert (M : forall n, (s < n)%nat -> Nat.modulo (s + n - 1) n = s').
  { intros n Hn'. rewrite Es. replace (s' + 1 + n - 1)%nat with (s' + 1 * n)%nat by lia. rewrite Nat.mod_add by lia. apply Nat.mod_small. lia. }
  unfold roll_back, wave_h, spread, scale3. pose proof (@pow_next K u s') as PN. rewrite <- Es in PN.
  axes; cbn [pick order reverse_order Nat.modulo Nat.divmod Nat.eqb Nat.add fst snd Nat.sub] in *; rewrite E, M by lia;
    destruct c as [|[|[|]]]; try lia; cbn [Nat.eqb]; rewrite kpow_add; cbn [kpow]; rewrite PN in *; field; split; auto;
    intros Z; apply H0; rewrite Z; ring.
Qed.
Lemma Et_next c x y z : in_grid g x y z -> (pick axis x y z + 1 < N)%nat ->
  roll_forward g (Et c) axis x y z = u * u * Et c x y z.
Proof using Hax.
  clear -Hax.
  intros Hg Hl. unfold roll_forward, wave_e, spread.
  axes; cbn [pick order reverse_order Nat.modulo Nat.divmod Nat.eqb Nat.add fst snd Nat.sub] in *; rewrite (Nat.mod_small _ _ Hl), kpow_add, pow_next, (@kpow_add K u (2 * _)%nat); rewrite !(Fdiv_def (k_field K)); ring.
Qed.
Lemma Ht_next c x y z : in_grid g x y z -> (pick axis x y z + 1 < N)%nat ->
  roll_forward g (Ht c) axis x y z = u * u * Ht c x y z.
Proof using Hax.
  clear -Hax.
  intros Hg Hl. unfold roll_forward, wave_h, spread.
  axes; cbn [pick order reverse_order Nat.modulo Nat.divmod Nat.eqb Nat.add fst snd Nat.sub] in *; rewrite (Nat.mod_small _ _ Hl), kpow_add, pow_next, (@kpow_add K u (2 * _)%nat); rewrite !(Fdiv_def (k_field K)); ring.
Qed.
Lemma Ht_at c x y z : (c < 3)%nat -> c <> axis -> in_grid g x y z ->
  expand axis st len (scale3 u h) c x y z = if Nat.eqb (pick axis x y z) s then Ht c x y z else 0.
Proof.
  intros Hc Hn Hg. rewrite expand_at by auto. destruct (Nat.eqb_spec (pick axis x y z) s) as [E|]; auto.
  unfold wave_h. rewrite E. destruct (Nat.eqb_spec c axis); [contradiction|]. rewrite kpow_add. cbn [kpow]. unfold spread, scale3.
  pose proof (@kpow_neq0 K u (2 * s)%nat Hu). field. auto.
Qed.
Local Notation missing := (missing g axis back s omega u mu Et Ht).
Lemma source_of_mode c x y z : (c < 3)%nat -> in_grid g x y z -> (1 <= pick axis x y z)%nat -> (pick axis x y z + 1 < N)%nat ->
  wave_equation g omega eps mu (one_sided axis back s Et) c x y z
  = - ki * omega * compute_source cexp g axis back s omega k mu (expand axis st len e) (expand axis st len (scale3 u h)) c x y z
    - mismatch * missing c x y z.
Proof.
  intros Hc Hg H1 Hl.
  transitivity (- ki * omega * compute_source cexp g axis back s omega k mu (expand axis st len e) (expand axis st len (scale3 u h)) c x y z
    - (fcurl_h g (cut3 axis s back (fun c x y z => mismatch * u * axial axis Et c x y z / mu c x y z)) c x y z
       - ki * omega * cut3 axis s back (fun c x y z => mismatch * (axial axis Ht c x y z / u)) c x y z)).
  - apply (@source_one_sided K cexp g axis s back) with (Ht := Ht) (A := fun c x y z => mismatch * u * axial axis Et c x y z) (B := fun c x y z => mismatch * (axial axis Ht c x y z / u)); auto; try lia.
    + rewrite Hde, Hdh by lia. reflexivity.
    + rewrite Hdh by lia. exact Hd.
    + intros. apply Et_plane; auto.
    + intros. rewrite Hdh by lia. rewrite Hexp. apply Ht_plane; auto.
    + intros. apply Et_curl; auto.
    + intros. apply Ht_curl; auto.
  - f_equal. unfold Wg_Spec.missing.
    assert (T : forall (b : bool) (a : K), (if b then mismatch * a else 0) = mismatch * (if b then a else 0)) by (intros [] a; ring).
    assert (S1 : fcurl_h g (cut3 axis s back (fun c x y z => mismatch * u * axial axis Et c x y z / mu c x y z)) c x y z
      = mismatch * fcurl_h g (lit_part axis back s (fun c x y z => u * axial axis Et c x y z / mu c x y z)) c x y z).
    { assert (Q : forall c x y z, cut3 axis s back (fun c x y z => mismatch * u * axial axis Et c x y z / mu c x y z) c x y z
        = mismatch * lit_part axis back s (fun c x y z => u * axial axis Et c x y z / mu c x y z) c x y z).
      { intros c' x' y' z'. unfold cut3, cut, lit_part. rewrite <- T. destruct (lit _ _ _); auto. rewrite !(Fdiv_def (k_field K)). ring. }
      unfold fcurl_h, fcurl, dh, roll_back. destruct c as [|[|[|]]]; try lia; rewrite !Q; rewrite !(Fdiv_def (k_field K)); ring. }
    rewrite S1. unfold cut3, cut, lit_part. rewrite T. ring.
Qed.
End ModeSource.
