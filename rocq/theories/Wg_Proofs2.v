(** Fields cut off at a plane. *)
From Verif Require Import Base CField CField_Proofs Maxwell_Model Wg_Model Wg_Spec.
From Coq Require Import Lia.
Set Implicit Arguments.

Section Cut.
Variable K : cfield.
Local Open Scope K_scope.
Add Field Kf2 : (k_field K).
Variable g : grid K.
Variables (axis s : nat) (back : bool).
Hypothesis Hax : (axis < 3)%nat.
Hypothesis Hs : (1 <= s)%nat.
Local Notation N := (dim g axis).
Local Notation pol := (polarity K back).
Definition cut (f : array K) : array K := fun x y z => if lit back s (pick axis x y z) then f x y z else 0.
Definition cut3 (F : field3 K) : field3 K := fun c => cut (F c).

Ltac axes := match goal with H : (axis < 3)%nat |- _ => destruct axis as [|[|[|]]]; [| | |exfalso; clear -H; lia] end.
Lemma kdiv0 (d : K) : 0 / d = 0.
Proof. rewrite (Fdiv_def (k_field K)). ring. Qed.
Lemma sub0 (a : K) : a - 0 = a. Proof. ring. Qed.
Lemma step_other (f : array K) ax x y z : (ax < 3)%nat -> ax <> axis ->
  de g (cut f) ax x y z = (if lit back s (pick axis x y z) then de g f ax x y z else 0) /\
  dh g (cut f) ax x y z = if lit back s (pick axis x y z) then dh g f ax x y z else 0.
Proof.
  intros Hx Hne. unfold de, dh, cut, roll_forward, roll_back.
  axes; destruct ax as [|[|[|]]]; try lia; cbn [pick]; destruct (lit _ _ _); split; rewrite ?sub0; auto; try apply kdiv0;
    rewrite <- (kdiv0 (dxe g 0 x)); try reflexivity; rewrite ?(Fdiv_def (k_field K)); ring.
Qed.
Lemma step_axis_e (f : array K) x y z : (pick axis x y z + 1 < N)%nat ->
  de g (cut f) axis x y z = (if lit back s (pick axis x y z) then de g f axis x y z else 0)
    + (if Nat.eqb (pick axis x y z + 1) s then pol * roll_forward g f axis x y z / dxe g axis (pick axis x y z) else 0).
Proof.
  intros Hl. unfold de, cut, lit, polarity, roll_forward.
  axes; cbn [pick] in *; rewrite (Nat.mod_small _ _ Hl); rewrite !(Fdiv_def (k_field K));
    destruct back; repeat match goal with |- context [Nat.ltb ?a ?b] => destruct (Nat.ltb_spec a b) | |- context [Nat.leb ?a ?b] => destruct (Nat.leb_spec a b) | |- context [Nat.eqb ?a ?b] => destruct (Nat.eqb_spec a b) end; try lia; ring.
Qed.
Lemma step_axis_h (f : array K) x y z : (1 <= pick axis x y z < N)%nat ->
  dh g (cut f) axis x y z = (if lit back s (pick axis x y z) then dh g f axis x y z else 0)
    + (if Nat.eqb (pick axis x y z) s then pol * roll_back g f axis x y z / dxh g axis (pick axis x y z) else 0).
Proof.
  intros Hl. unfold dh, cut, lit, polarity, roll_back.
  axes; cbn [pick] in *;
    match goal with |- context [Nat.modulo (?a + ?n - 1) ?n] => assert (Em : Nat.modulo (a + n - 1) n = (a - 1)%nat) by (replace (a + n - 1)%nat with (a - 1 + 1 * n)%nat by lia; rewrite Nat.mod_add by lia; apply Nat.mod_small; lia); rewrite Em end;
    rewrite !(Fdiv_def (k_field K));
    destruct back; repeat match goal with |- context [Nat.ltb ?a ?b] => destruct (Nat.ltb_spec a b) | |- context [Nat.leb ?a ?b] => destruct (Nat.leb_spec a b) | |- context [Nat.eqb ?a ?b] => destruct (Nat.eqb_spec a b) end; try lia; ring.
Qed.
(** -n x F *)
Definition ncross (F : field3 K) : field3 K := fun c x y z =>
  if Nat.eqb c (src_order axis 1) then F (src_order axis 2) x y z * pol else
  if Nat.eqb c (src_order axis 2) then - F (src_order axis 1) x y z * pol else 0.
Lemma curl_e_cut F c x y z : (c < 3)%nat -> (pick axis x y z + 1 < N)%nat ->
  fcurl_e g (cut3 F) c x y z = cut3 (fcurl_e g F) c x y z
    - (if Nat.eqb (pick axis x y z + 1) s then ncross (fun c => roll_forward g (F c) axis) c x y z / dxe g axis (pick axis x y z) else 0).
Proof.
  intros Hc Hl. change (cut3 (fcurl_e g F) c x y z) with (if lit back s (pick axis x y z) then fcurl_e g F c x y z else 0). unfold fcurl_e, fcurl, cut3, ncross.
  assert (O := fun f ax Hx Hne => proj1 (@step_other f ax x y z Hx Hne)). assert (A := fun f => @step_axis_e f x y z Hl). clear Hl.
  axes; destruct c as [|[|[|]]]; try lia; cbn [src_order Nat.modulo Nat.divmod Nat.eqb Nat.add fst snd Nat.sub] in *;
    rewrite ?(fun f H1 => O f 0%nat H1), ?(fun f H1 => O f 1%nat H1), ?(fun f H1 => O f 2%nat H1), ?A by lia;
    destruct (lit _ _ _); destruct (Nat.eqb _ s); rewrite ?(Fdiv_def (k_field K)); ring.
Qed.
Lemma curl_h_cut F c x y z : (c < 3)%nat -> (1 <= pick axis x y z < N)%nat ->
  fcurl_h g (cut3 F) c x y z = cut3 (fcurl_h g F) c x y z
    - (if Nat.eqb (pick axis x y z) s then ncross (fun c => roll_back g (F c) axis) c x y z / dxh g axis (pick axis x y z) else 0).
Proof.
  intros Hc Hl. change (cut3 (fcurl_h g F) c x y z) with (if lit back s (pick axis x y z) then fcurl_h g F c x y z else 0). unfold fcurl_h, fcurl, cut3, ncross.
  assert (O := fun f ax Hx Hne => proj2 (@step_other f ax x y z Hx Hne)). assert (A := fun f => @step_axis_h f x y z Hl). clear Hl.
  axes; destruct c as [|[|[|]]]; try lia; cbn [src_order Nat.modulo Nat.divmod Nat.eqb Nat.add fst snd Nat.sub] in *;
    rewrite ?(fun f H1 => O f 0%nat H1), ?(fun f H1 => O f 1%nat H1), ?(fun f H1 => O f 2%nat H1), ?A by lia;
    destruct (lit _ _ _); destruct (Nat.eqb _ s); rewrite ?(Fdiv_def (k_field K)); ring.
Qed.
End Cut.
