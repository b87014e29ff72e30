(** The source made from a mode radiates the mode to one side only. *)
From Verif Require Import Base CField CField_Proofs Maxwell_Model Wg_Model Wg_Spec Wg_Proofs2.
From Coq Require Import Lia.
Set Implicit Arguments.

Section Source.
Variable K : cfield.
Local Open Scope K_scope.
Add Field Kf3 : (k_field K).
Variable cexp : K -> K.
Variable g : grid K.
Variables (axis s : nat) (back : bool).
Hypothesis Hax : (axis < 3)%nat.
Hypothesis Hs : (1 <= s)%nat.
Local Notation N := (dim g axis).
Local Notation pol := (polarity K back).
Local Notation cut := (@cut K axis s back).
Local Notation cut3 := (@cut3 K axis s back).

Lemma prev_cell ax x y z : (ax < 3)%nat -> in_grid g x y z -> (1 <= pick axis x y z)%nat ->
  exists x' y' z', in_grid g x' y' z' /\ (forall f : array K, roll_back g f ax x y z = f x' y' z') /\
    pick axis x' y' z' = if Nat.eqb ax axis then (pick axis x y z - 1)%nat else pick axis x y z.
Proof.
  intros Hx Hg Hl. unfold in_grid in Hg.
  assert (M : forall a n, (a < n -> Nat.modulo (a + n - 1) n < n /\ (1 <= a -> Nat.modulo (a + n - 1) n = a - 1))%nat).
  { intros a n Ha. split; [apply Nat.mod_upper_bound; lia|]. intros H1.
    replace (a + n - 1)%nat with (a - 1 + 1 * n)%nat by lia. rewrite Nat.mod_add by lia. apply Nat.mod_small; lia. }
  pose proof (M x (dim g 0) (proj1 Hg)). pose proof (M y (dim g 1) (proj1 (proj2 Hg))). pose proof (M z (dim g 2) (proj2 (proj2 Hg))).
  destruct ax as [|[|[|]]]; try lia.
  - exists (Nat.modulo (x + dim g 0 - 1) (dim g 0)), y, z. split; [unfold in_grid; lia|]. split; [reflexivity|].
    destruct axis as [|[|[|]]]; try lia; cbn [pick Nat.eqb] in *; lia.
  - exists x, (Nat.modulo (y + dim g 1 - 1) (dim g 1)), z. split; [unfold in_grid; lia|]. split; [reflexivity|].
    destruct axis as [|[|[|]]]; try lia; cbn [pick Nat.eqb] in *; lia.
  - exists x, y, (Nat.modulo (z + dim g 2 - 1) (dim g 2)). split; [unfold in_grid; lia|]. split; [reflexivity|].
    destruct axis as [|[|[|]]]; try lia; cbn [pick Nat.eqb] in *; lia.
Qed.
Lemma in_grid_pick x y z : in_grid g x y z -> (pick axis x y z < N)%nat.
Proof. unfold in_grid. destruct axis as [|[|[|]]]; try lia; cbn [pick]; lia. Qed.

Lemma fcurl_h_ext (X Y : field3 K) c x y z : (c < 3)%nat ->
  (forall c, (c < 3)%nat -> X c x y z = Y c x y z) ->
  (forall c ax, (c < 3)%nat -> (ax < 3)%nat -> roll_back g (X c) ax x y z = roll_back g (Y c) ax x y z) ->
  fcurl_h g X c x y z = fcurl_h g Y c x y z.
Proof.
  intros Hc H0 H1. unfold fcurl_h, fcurl, dh. destruct c as [|[|[|]]]; try lia; rewrite !H0, !H1 by lia; reflexivity.
Qed.
Lemma fcurl_h_lin (X Y : field3 K) a c x y z :
  fcurl_h g (fun c x y z => a * X c x y z - Y c x y z) c x y z = a * fcurl_h g X c x y z - fcurl_h g Y c x y z.
Proof.
  unfold fcurl_h, fcurl, dh, roll_back. destruct c as [|[|]]; rewrite !(Fdiv_def (k_field K)); ring.
Qed.
Lemma fcurl_h_lin3 (X Z Y : field3 K) a c x y z :
  fcurl_h g (fun c x y z => a * X c x y z + Z c x y z - Y c x y z) c x y z = a * fcurl_h g X c x y z + fcurl_h g Z c x y z - fcurl_h g Y c x y z.
Proof.
  unfold fcurl_h, fcurl, dh, roll_back. destruct c as [|[|]]; rewrite !(Fdiv_def (k_field K)); ring.
Qed.

(** A and B: what is missing for the incident fields to satisfy the curl equations *)
Variables (omega wavenumber : K) (eps mu Et Ht E H A B : field3 K).
Hypothesis Homega : omega <> 0.
Hypothesis Hmu : forall c x y z, (c < 3)%nat -> in_grid g x y z -> mu c x y z <> 0.
Hypothesis Hd : dxe g axis (s - 1) = dxh g axis s.
Hypothesis Hd0 : dxh g axis s <> 0.
Hypothesis HE : forall c x y z, (c < 3)%nat -> c <> axis -> in_grid g x y z ->
  E c x y z = if Nat.eqb (pick axis x y z) s then Et c x y z else 0.
Hypothesis HH : forall c x y z, (c < 3)%nat -> c <> axis -> in_grid g x y z ->
  cexp (ki * pol * wavenumber * dxh g axis s) * H c x y z
  = if Nat.eqb (pick axis x y z) s then roll_back g (Ht c) axis x y z else 0.
Hypothesis HcE : forall c x y z, (c < 3)%nat -> in_grid g x y z -> lit back s (pick axis x y z) = true -> (pick axis x y z + 1 < N)%nat ->
  fcurl_e g Et c x y z = - ki * omega * mu c x y z * Ht c x y z + A c x y z.
Hypothesis HcH : forall c x y z, (c < 3)%nat -> in_grid g x y z -> lit back s (pick axis x y z) = true -> (1 <= pick axis x y z)%nat -> (pick axis x y z + 1 < N)%nat ->
  fcurl_h g Ht c x y z = ki * omega * eps c x y z * Et c x y z + B c x y z.
Let Am : field3 K := fun c x y z => A c x y z / mu c x y z.

Let M : field3 K := ncross axis back (fun c => roll_forward g (E c) axis).
Let J0 : field3 K := ncross axis back (fun c x y z => cexp (ki * pol * wavenumber * dxh g axis s) * H c x y z).
Lemma next_cell x y z : in_grid g x y z ->
  exists x' y' z', in_grid g x' y' z' /\ (forall f : array K, roll_forward g f axis x y z = f x' y' z') /\
    pick axis x' y' z' = Nat.modulo (pick axis x y z + 1) N.
Proof.
  intros Hg. unfold in_grid in Hg.
  assert (Md : forall a n, (a < n -> Nat.modulo (a + 1) n < n)%nat) by (intros; apply Nat.mod_upper_bound; lia).
  destruct axis as [|[|[|]]]; try lia; cbn [pick].
  - exists (Nat.modulo (x + 1) (dim g 0)), y, z. split; [|split; reflexivity]. unfold in_grid. specialize (Md x (dim g 0)). lia.
  - exists x, (Nat.modulo (y + 1) (dim g 1)), z. split; [|split; reflexivity]. unfold in_grid. specialize (Md y (dim g 1)). lia.
  - exists x, y, (Nat.modulo (z + 1) (dim g 2)). split; [|split; reflexivity]. unfold in_grid. specialize (Md z (dim g 2)). lia.
Qed.
Lemma src_order_lt k : (src_order axis k < 3)%nat.
Proof. unfold src_order. apply Nat.mod_upper_bound. lia. Qed.
Lemma src_order_ne : src_order axis 1 <> axis /\ src_order axis 2 <> axis.
Proof. destruct axis as [|[|[|]]]; try lia; split; discriminate. Qed.
Lemma M_at c x y z : (c < 3)%nat -> in_grid g x y z -> (pick axis x y z + 1 < N)%nat ->
  M c x y z = if Nat.eqb (pick axis x y z + 1) s then ncross axis back (fun c => roll_forward g (Et c) axis) c x y z else 0.
Proof.
  intros Hc Hg Hl. destruct (next_cell Hg) as (x' & y' & z' & Hg' & R & P). rewrite Nat.mod_small in P by lia.
  unfold M, ncross. destruct src_order_ne. rewrite !R, !HE, P by auto using src_order_lt.
  destruct (Nat.eqb (pick axis x y z + 1) s); repeat destruct (Nat.eqb c _); ring.
Qed.
(** 1/mu curl of the field that has been cut off *)
Lemma h_cut c x y z : (c < 3)%nat -> in_grid g x y z -> (pick axis x y z + 1 < N)%nat ->
  fcurl_e g (cut3 Et) c x y z / mu c x y z = - ki * omega * cut3 Ht c x y z + cut3 Am c x y z - M c x y z / mu c x y z / dxh g axis s.
Proof.
  intros Hc Hg Hl. rewrite curl_e_cut, M_at by auto. unfold Am, cut3 at 1 2, Wg_Proofs2.cut.
  pose proof (Hmu Hc Hg) as Hm.
  destruct (Nat.eqb_spec (pick axis x y z + 1) s) as [El|].
  - replace (pick axis x y z) with (s - 1)%nat at 2 by lia. rewrite Hd.
    destruct (lit back s (pick axis x y z)) eqn:L.
    + unfold Wg_Proofs2.cut3, Wg_Proofs2.cut. rewrite HcE by auto. try rewrite L. field; auto.
    + unfold Wg_Proofs2.cut3, Wg_Proofs2.cut. try rewrite L. field; auto.
  - unfold Wg_Proofs2.cut3, Wg_Proofs2.cut. destruct (lit back s (pick axis x y z)) eqn:L; [rewrite HcE by auto|]; field; auto.
Qed.
Theorem source_one_sided c x y z : (c < 3)%nat -> in_grid g x y z -> (1 <= pick axis x y z)%nat -> (pick axis x y z + 1 < N)%nat ->
  wave_equation g omega eps mu (one_sided axis back s Et) c x y z
  = - ki * omega * compute_source cexp g axis back s omega wavenumber mu E H c x y z
    - (fcurl_h g (cut3 Am) c x y z - ki * omega * cut3 B c x y z).
Proof.
  intros Hc Hg H1 Hl.
  assert (W : wave_equation g omega eps mu (one_sided axis back s Et) c x y z = - wave_equation g omega eps mu (cut3 Et) c x y z).
  { unfold wave_equation, fcurl_h, fcurl_e, fcurl, dh, de, roll_back, roll_forward, one_sided, Wg_Proofs2.cut3, Wg_Proofs2.cut.
    assert (T : forall (b : bool) (a : K), (if b then - a else 0) = - (if b then a else 0)) by (intros [] a; ring).
    destruct c as [|[|[|]]]; try lia; rewrite !T, !(Fdiv_def (k_field K)); ring. }
  rewrite W. unfold wave_equation.
  rewrite fcurl_h_ext with (Y := fun c x y z => - ki * omega * cut3 Ht c x y z + cut3 Am c x y z - M c x y z / mu c x y z / dxh g axis s); auto.
  2:{ intros. apply h_cut; auto. }
  2:{ intros c' ax Hc' Hax'. destruct (prev_cell Hax' Hg H1) as (x' & y' & z' & Hg' & R & P). rewrite !R.
      apply h_cut; auto. destruct (Nat.eqb ax axis); lia. }
  rewrite (fcurl_h_lin3 (fun c x y z => cut3 Ht c x y z) (fun c x y z => cut3 Am c x y z) (fun c x y z => M c x y z / mu c x y z / dxh g axis s)).
  assert (C : fcurl_h g (fun c x y z => M c x y z / mu c x y z / dxh g axis s) c x y z = fcurl_h g (fun c x y z => M c x y z / mu c x y z) c x y z / dxh g axis s).
  { unfold fcurl_h, fcurl, dh, roll_back. destruct c as [|[|[|]]]; try lia; rewrite !(Fdiv_def (k_field K)); ring. }
  rewrite C. clear C.
  change (fcurl_h g (fun c x y z => cut3 Am c x y z) c x y z) with (fcurl_h g (cut3 Am) c x y z).
  change (fcurl_h g (fun c x y z => cut3 Ht c x y z) c x y z) with (fcurl_h g (cut3 Ht) c x y z).
  rewrite curl_h_cut by (auto; lia).
  assert (CS : compute_source cexp g axis back s omega wavenumber mu E H c x y z
    = (J0 c x y z + fcurl_h g (fun c x y z => M c x y z / mu c x y z) c x y z / (- ki * omega)) / dxh g axis s).
  { unfold compute_source. f_equal. f_equal. unfold J0, ncross. repeat destruct (Nat.eqb c _); ring. }
  rewrite CS. clear CS.
  assert (J : J0 c x y z = if Nat.eqb (pick axis x y z) s then ncross axis back (fun c => roll_back g (Ht c) axis) c x y z else 0).
  { unfold J0, ncross. destruct src_order_ne. rewrite !HH by auto using src_order_lt. destruct (Nat.eqb (pick axis x y z) s); repeat destruct (Nat.eqb c _); ring. }
  rewrite J. clear J.
  generalize (fcurl_h g (fun c x y z => M c x y z / mu c x y z) c x y z) as cm; intros cm.
  generalize (ncross axis back (fun c => roll_back g (Ht c) axis) c x y z) as jj; intros jj.
  generalize (fcurl_h g (cut3 Am) c x y z) as ca; intros ca.
  assert (Hi2 : (ki : K) * ki = - (1)) by exact (ki_sq K). pose proof (ki_neq0 K) as Hi.
  unfold Wg_Proofs2.cut3, Wg_Proofs2.cut.
  destruct (lit back s (pick axis x y z)) eqn:L; [change (if true then ?a else ?b) with a; rewrite HcH by auto|];
    (destruct (Nat.eqb_spec (pick axis x y z) s) as [El|]; [rewrite El|]);
    field [Hi2]; repeat split; auto using kopp_neq0.
Qed.
End Source.
