(** Rotations and directions of free space sources. *)
From Coq Require Import Reals ZArith Lra Lia.
From Verif Require Import Base CField GMath_Model GMath_Proofs CplxField Maxwell_Model Wg_Model Wg_Model2 Fs_Model Fs_Spec.
Set Implicit Arguments.
Local Open Scope R_scope.

Lemma sc2 a : sin a * sin a + cos a * cos a = 1.
Proof. pose proof (sin2_cos2 a) as H. unfold Rsqr in H. exact H. Qed.
Lemma sign2 back : sign back * sign back = 1.
Proof. destruct back; cbn; ring. Qed.
Definition eq3 (M N : mat3) : Prop := forall r c, (r < 3)%nat -> (c < 3)%nat -> M r c = N r c.
Definition tr3 (M : mat3) : mat3 := fun r c => M c r.
Definition id3 : mat3 := fun r c => if Nat.eqb r c then 1 else 0.
Ltac idx r H := destruct r as [|[|[|r]]]; [| | |exfalso; lia]; clear H.

Definition unit3 (v : vec3) : Prop := v 0%nat * v 0%nat + v 1%nat * v 1%nat + v 2%nat * v 2%nat = 1.
Lemma rotation_orthogonal v a : unit3 v -> eq3 (mm3 (tr3 (rotation v a)) (rotation v a)) id3.
Proof.
  intros Hv r c Hr Hc. unfold unit3 in Hv. pose proof (sc2 a) as Hs.
  unfold mm3, tr3, rotation, id3. set (x := v 0%nat) in *. set (y := v 1%nat) in *. set (z := v 2%nat) in *. set (C := cos a) in *. set (S := sin a) in *.
  clearbody x y z C S.
  assert (Hz : z * z = 1 - x * x - y * y) by lra. assert (HS : S * S = 1 - C * C) by lra.
  idx r Hr; idx c Hc; cbn [Nat.eqb]; ring [Hz HS].
Qed.
Lemma mm3_assoc A B C : eq3 (mm3 (mm3 A B) C) (mm3 A (mm3 B C)).
Proof. intros r c _ _. unfold mm3. ring. Qed.
Lemma orth_mul A B : eq3 (mm3 (tr3 A) A) id3 -> eq3 (mm3 (tr3 B) B) id3 -> eq3 (mm3 (tr3 (mm3 A B)) (mm3 A B)) id3.
Proof.
  intros HA HB r c Hr Hc. rewrite <- (HB r c Hr Hc). 
  pose proof (fun i j (Hi : (i < 3)%nat) (Hj : (j < 3)%nat) => HA i j Hi Hj) as H. unfold mm3, tr3, id3 in *.
  pose proof (H 0 0 ltac:(lia) ltac:(lia))%nat as H00. pose proof (H 0 1 ltac:(lia) ltac:(lia))%nat as H01. pose proof (H 0 2 ltac:(lia) ltac:(lia))%nat as H02.
  pose proof (H 1 1 ltac:(lia) ltac:(lia))%nat as H11. pose proof (H 1 2 ltac:(lia) ltac:(lia))%nat as H12. pose proof (H 2 2 ltac:(lia) ltac:(lia))%nat as H22.
  cbn [Nat.eqb] in *. clear HA HB H. set (b0 := B 0%nat r). set (b1 := B 1%nat r). set (b2 := B 2%nat r). set (d0 := B 0%nat c). set (d1 := B 1%nat c). set (d2 := B 2%nat c).
  transitivity (b0 * d0 * (A 0%nat 0%nat * A 0%nat 0%nat + A 1%nat 0%nat * A 1%nat 0%nat + A 2%nat 0%nat * A 2%nat 0%nat)
              + b1 * d1 * (A 0%nat 1%nat * A 0%nat 1%nat + A 1%nat 1%nat * A 1%nat 1%nat + A 2%nat 1%nat * A 2%nat 1%nat)
              + b2 * d2 * (A 0%nat 2%nat * A 0%nat 2%nat + A 1%nat 2%nat * A 1%nat 2%nat + A 2%nat 2%nat * A 2%nat 2%nat)
              + (b0 * d1 + b1 * d0) * (A 0%nat 0%nat * A 0%nat 1%nat + A 1%nat 0%nat * A 1%nat 1%nat + A 2%nat 0%nat * A 2%nat 1%nat)
              + (b0 * d2 + b2 * d0) * (A 0%nat 0%nat * A 0%nat 2%nat + A 1%nat 0%nat * A 1%nat 2%nat + A 2%nat 0%nat * A 2%nat 2%nat)
              + (b1 * d2 + b2 * d1) * (A 0%nat 1%nat * A 0%nat 2%nat + A 1%nat 1%nat * A 1%nat 2%nat + A 2%nat 1%nat * A 2%nat 2%nat)); [ring|].
  rewrite H00, H01, H02, H11, H12, H22. ring.
Qed.
(** the inverse of an orthogonal matrix is its transpose *)
Lemma det_sq A : det3 (mm3 (tr3 A) A) = det3 A * det3 A.
Proof. unfold det3, cof3, mm3, tr3. cbn [Nat.modulo Nat.divmod Nat.add Nat.sub fst snd]. ring. Qed.
Lemma det_orth A : eq3 (mm3 (tr3 A) A) id3 -> det3 A * det3 A = 1.
Proof.
  intros H. rewrite <- det_sq. unfold det3, cof3. cbn [Nat.modulo Nat.divmod Nat.add Nat.sub fst snd].
  rewrite !H by lia. unfold id3. cbn [Nat.eqb]. ring.
Qed.
Lemma inv3_left A : det3 A <> 0 -> eq3 (mm3 (inv3 A) A) id3.
Proof.
  intros Hd r c Hr Hc. unfold mm3, inv3, id3.
  assert (E : (cof3 A 0 r * A 0%nat c + cof3 A 1 r * A 1%nat c + cof3 A 2 r * A 2%nat c) = if Nat.eqb r c then det3 A else 0).
  { unfold det3, cof3. idx r Hr; idx c Hc; cbn [Nat.modulo Nat.divmod Nat.add Nat.sub fst snd Nat.eqb]; ring. }
  transitivity ((cof3 A 0 r * A 0%nat c + cof3 A 1 r * A 1%nat c + cof3 A 2 r * A 2%nat c) / det3 A); [now field|].
  rewrite E. destruct (Nat.eqb r c); now field.
Qed.
Lemma inv3_right A : det3 A <> 0 -> eq3 (mm3 A (inv3 A)) id3.
Proof.
  intros Hd r c Hr Hc. unfold mm3, inv3, id3.
  assert (E : (A r 0%nat * cof3 A c 0 + A r 1%nat * cof3 A c 1 + A r 2%nat * cof3 A c 2) = if Nat.eqb r c then det3 A else 0).
  { unfold det3, cof3. idx r Hr; idx c Hc; cbn [Nat.modulo Nat.divmod Nat.add Nat.sub fst snd Nat.eqb]; ring. }
  transitivity ((A r 0%nat * cof3 A c 0 + A r 1%nat * cof3 A c 1 + A r 2%nat * cof3 A c 2) / det3 A); [now field|].
  rewrite E. destruct (Nat.eqb r c); now field.
Qed.
Lemma inv3_orth A : eq3 (mm3 (tr3 A) A) id3 -> forall r c, (r < 3)%nat -> (c < 3)%nat -> inv3 A r c = A c r.
Proof.
  intros H r c Hr Hc. pose proof (det_orth H) as Hd. assert (Hd0 : det3 A <> 0) by (intros E; rewrite E in Hd; lra).
  pose proof (fun i => inv3_right Hd0 (r:=i) (c:=c)) as HR.
  (* tr A = tr A (A inv) = inv *)
  assert (E : A 0%nat r * mm3 A (inv3 A) 0%nat c + A 1%nat r * mm3 A (inv3 A) 1%nat c + A 2%nat r * mm3 A (inv3 A) 2%nat c
              = mm3 (tr3 A) A r 0%nat * inv3 A 0%nat c + mm3 (tr3 A) A r 1%nat * inv3 A 1%nat c + mm3 (tr3 A) A r 2%nat * inv3 A 2%nat c) by (unfold mm3, tr3; ring).
  rewrite !HR, !H in E by lia. unfold id3 in E. idx r Hr; idx c Hc; cbn [Nat.eqb] in E; lra.
Qed.

Section Turn.
Variables (back : bool) (theta psi pol : R).
Local Notation s := (sign back).
Lemma tilt_orth : eq3 (mm3 (tr3 (tilt back theta psi)) (tilt back theta psi)) id3.
Proof. unfold tilt. apply orth_mul; apply rotation_orthogonal; unfold unit3, k_start, e_start, v3; [|ring]. pose proof (sign2 back). lra. Qed.
Lemma k_turned_at : forall r, (r < 3)%nat -> k_turned back theta psi r = v3 (sin theta * sin psi) (- s * sin theta * cos psi) (s * cos theta) r.
Proof.
  intros r Hr. unfold k_turned, tilt, mv3, mm3, rotation, k_start, e_start. cbn [v3]. idx r Hr; cbn [v3]; destruct back; unfold sign; ring.
Qed.
Lemma k_unit : unit3 (k_turned back theta psi).
Proof.
  unfold unit3. rewrite !k_turned_at by lia. cbn [v3]. pose proof (sc2 theta) as H1. pose proof (sc2 psi) as H2. pose proof (sign2 back) as H3.
  transitivity (sin theta * sin theta * (sin psi * sin psi + (s * s) * (cos psi * cos psi)) + (s * s) * (cos theta * cos theta)); [ring|].
  rewrite H3, !Rmult_1_l, H2, Rmult_1_r. exact H1.
Qed.
Lemma total_eq : eq3 (total_rotation back theta psi pol) (mm3 (rotation (k_turned back theta psi) pol) (tilt back theta psi)).
Proof. unfold total_rotation, tilt. apply mm3_assoc. Qed.
Lemma eq3_orth A B : eq3 A B -> eq3 (mm3 (tr3 B) B) id3 -> eq3 (mm3 (tr3 A) A) id3.
Proof. intros H HB r c Hr Hc. rewrite <- (HB r c Hr Hc). unfold mm3, tr3. rewrite !H by lia. reflexivity. Qed.
Lemma total_orth : eq3 (mm3 (tr3 (total_rotation back theta psi pol)) (total_rotation back theta psi pol)) id3.
Proof. apply (eq3_orth total_eq). apply orth_mul; [apply rotation_orthogonal, k_unit | apply tilt_orth]. Qed.
(** the rotation takes the third axis to the direction of propagation, up to the sign *)
Lemma rotation_fixes v a : unit3 v -> forall r, (r < 3)%nat -> mv3 (rotation v a) v r = v r.
Proof.
  intros Hv r Hr. unfold unit3 in Hv. unfold mv3, rotation. idx r Hr; set (x := v 0%nat) in *; set (y := v 1%nat) in *; set (z := v 2%nat) in *;
  assert (Hz : z * z = 1 - x * x - y * y) by lra; clearbody x y z; ring [Hz].
Qed.
Lemma total_col2 r : (r < 3)%nat -> total_rotation back theta psi pol r 2%nat = s * k_turned back theta psi r.
Proof.
  intros Hr. rewrite total_eq by lia. rewrite <- (rotation_fixes pol k_unit Hr). unfold mv3, mm3.
  assert (E : forall i, tilt back theta psi i 2%nat = s * k_turned back theta psi i).
  { intros i. unfold k_turned, mv3, k_start. cbn [v3]. destruct back; unfold sign; ring. }
  rewrite !E. ring.
Qed.
Lemma total_col0 r : (r < 3)%nat -> total_rotation back theta psi pol r 0%nat = e_turned back theta psi pol r.
Proof. intros Hr. unfold e_turned, mv3, e_start. cbn [v3]. ring. Qed.
Lemma e_turned_at r : (r < 3)%nat -> e_turned back theta psi pol r =
  cos pol * v3 (cos psi) (s * sin psi) 0 r + sin pol * cross_prod (k_turned back theta psi) (v3 (cos psi) (s * sin psi) 0) r.
Proof.
  intros Hr. rewrite <- total_col0 by auto. rewrite total_eq by lia. unfold mm3.
  assert (T : forall i, (i < 3)%nat -> tilt back theta psi i 0%nat = v3 (cos psi) (s * sin psi) 0 i).
  { intros i Hi. unfold tilt, mm3, rotation, k_start, e_start. cbn [v3]. idx i Hi; cbn [v3]; destruct back; unfold sign; ring. }
  rewrite !T by lia. 
  assert (D : k_turned back theta psi 0%nat * cos psi + k_turned back theta psi 1%nat * (s * sin psi) = 0).
  { rewrite !k_turned_at by lia. cbn [v3]. pose proof (sign2 back) as H2. ring [H2]. }
  unfold rotation, cross_prod. set (k0 := k_turned back theta psi 0%nat) in *. set (k1 := k_turned back theta psi 1%nat) in *. set (k2 := k_turned back theta psi 2%nat) in *.
  set (c := cos pol) in *. set (d := sin pol) in *. set (u := cos psi) in *. set (v := s * sin psi) in *. clearbody k0 k1 k2 c d u v.
  assert (D' : k0 * u = - (k1 * v)) by lra.
  idx r Hr; cbn [v3]; ring [D'].
Qed.
End Turn.
