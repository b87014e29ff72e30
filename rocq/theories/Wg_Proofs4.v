(** The field that a mode continues to along the axis. *)
From Verif Require Import Base CField CField_Proofs Maxwell_Model Wg_Model Wg_Spec Wg_Proofs Wg_Proofs2 Wg_Proofs3.
From Coq Require Import Lia.
Set Implicit Arguments.

Section Wave.
Variable K : cfield.
Local Open Scope K_scope.
Add Field Kf4 : (k_field K).
Fixpoint kpow (u : K) (n : nat) : K := match n with O => 1 | S m => u * kpow u m end.
Lemma kmul_neq0 (a b : K) : a <> 0 -> b <> 0 -> a * b <> 0.
Proof. intros Ha Hb E. apply Ha. assert (a = a * b / b) by (field; auto). rewrite H, E. field; auto. Qed.
Lemma kpow_neq0 u n : u <> 0 -> kpow u n <> 0.
Proof. intros Hu. induction n; cbn [kpow]; [exact (F_1_neq_0 (k_field K))|apply kmul_neq0; auto]. Qed.
Lemma kpow_add u m n : kpow u (m + n) = kpow u m * kpow u n.
Proof. induction m; cbn [kpow Nat.add]; [ring|rewrite IHm; ring]. Qed.

Lemma pow_next u l : kpow u (2 * (l + 1)) = kpow u (2 * l) * (u * u).
Proof. replace (2 * (l + 1))%nat with (2 * l + 2)%nat by lia. rewrite kpow_add. cbn [kpow]. ring. Qed.

Variable g : grid K.
Variables (axis s : nat) (d beta u : K).
Hypothesis Hax : (axis < 3)%nat.
Hypothesis Hu : u <> 0.
Hypothesis Hd : d <> 0.
Hypothesis Hde : forall l, (l < dim g axis)%nat -> dxe g axis l = d.
Hypothesis Hdh : forall l, (l < dim g axis)%nat -> dxh g axis l = d.
Hypothesis Hdisp : u - 1 / u = - ki * beta * d.
Local Notation N := (dim g axis).
Local Notation g2 := (plane g axis (whole_start axis s) (whole_len g axis)).
(** component a of a field given in the plane, at the cell x y z *)
Definition spread (f : field3 K) : field3 K := fun a x y z =>
  f (reverse_order axis a) (pick (order axis 0) x y z) (pick (order axis 1) x y z) 0%nat.
(** E sits on the planes, its component along the axis and the other components of H half a
    cell further *)
Definition wave_e (e : field3 K) : field3 K := fun a x y z =>
  kpow u (2 * pick axis x y z + if Nat.eqb a axis then 1 else 0) / kpow u (2 * s) * spread e a x y z.
Definition wave_h (h : field3 K) : field3 K := fun a x y z =>
  kpow u (2 * pick axis x y z + if Nat.eqb a axis then 0 else 1) / kpow u (2 * s) * spread h a x y z.

Ltac axes := match goal with H : (axis < 3)%nat |- _ => destruct axis as [|[|[|]]]; [| | |exfalso; clear -H; lia] end.
Lemma u_disp : u * u = 1 - ki * beta * d * u.
Proof. assert (u * u = u * (u - 1 / u) + 1) by (field; auto). rewrite H, Hdisp. ring. Qed.

Lemma wave_curl_e e a x y z : (a < 3)%nat -> in_grid g x y z -> (pick axis x y z + 1 < N)%nat ->
  (forall k i, (k < 3)%nat -> (i < dim g k)%nat -> dxe g k i <> 0) ->
  fcurl_e g (wave_e e) a x y z = wave_h (wg_curl_e g2 beta e) a x y z.
Proof.
  intros Ha Hg Hl Hne. pose proof (kpow_neq0 (2 * s) Hu) as Hs0. pose proof u_disp as UD. unfold in_grid in Hg. destruct Hg as (Hgx & Hgy & Hgz).
  pose proof (Hne 0%nat x ltac:(lia) Hgx). pose proof (Hne 1%nat y ltac:(lia) Hgy). pose proof (Hne 2%nat z ltac:(lia) Hgz).
  unfold fcurl_e, fcurl, wave_h, wave_e, spread, wg_curl_e, wg_curl, de, roll_forward.
  axes; destruct a as [|[|[|]]]; try lia; cbn [pick order reverse_order Nat.modulo Nat.divmod Nat.eqb Nat.add fst snd Nat.sub plane dim dxe whole_start whole_len] in *;
    rewrite ?(Nat.mod_small _ _ Hl), ?Nat.add_0_r, ?kpow_add, ?Hde by lia; rewrite ?pow_next; cbn [kpow]; try (rewrite Hde in * by lia); field [UD]; auto.
Qed.
Lemma wave_curl_h h a x y z : (a < 3)%nat -> in_grid g x y z -> (1 <= pick axis x y z)%nat ->
  (forall k i, (k < 3)%nat -> (i < dim g k)%nat -> dxh g k i <> 0) ->
  fcurl_h g (wave_h h) a x y z = wave_e (wg_curl_h g2 beta h) a x y z.
Proof.
  intros Ha Hg Hl Hne. pose proof (kpow_neq0 (2 * s) Hu) as Hs0. pose proof u_disp as UD. unfold in_grid in Hg. destruct Hg as (Hgx & Hgy & Hgz).
  pose proof (Hne 0%nat x ltac:(lia) Hgx). pose proof (Hne 1%nat y ltac:(lia) Hgy). pose proof (Hne 2%nat z ltac:(lia) Hgz).
  unfold fcurl_h, fcurl, wave_h, wave_e, spread, wg_curl_h, wg_curl, dh, roll_back.
  assert (P : exists l', pick axis x y z = (l' + 1)%nat) by (exists (pick axis x y z - 1)%nat; lia). destruct P as [l' El].
  axes; destruct a as [|[|[|]]]; try lia; cbn [pick order reverse_order Nat.modulo Nat.divmod Nat.eqb Nat.add fst snd Nat.sub plane dim dxh whole_start whole_len] in *;
    try match type of El with ?v = _ => match goal with |- context [Nat.modulo (v + ?n - 1) ?n] => assert (Em : Nat.modulo (v + n - 1) n = l') by (rewrite El; replace (l' + 1 + n - 1)%nat with (l' + 1 * n)%nat by lia; rewrite Nat.mod_add by lia; apply Nat.mod_small; lia); rewrite !Em end end;
    subst; rewrite ?Nat.add_0_r, ?kpow_add, ?Hdh by lia; rewrite ?pow_next; cbn [kpow]; try (rewrite Hdh in * by lia); field [UD]; auto.
Qed.
End Wave.
