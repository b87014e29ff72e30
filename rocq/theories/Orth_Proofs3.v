(** Fields without residual are the fields of an eigenvector. *)
From Verif Require Import Base CField CField_Proofs Maxwell_Model Wg_Model Wg_Spec Wg_Proofs Wg_Proofs9 Wg_Proofs11 Orth_Model Orth_Spec Orth_Proofs Orth_Proofs2.
From Coq Require Import Lia.
Set Implicit Arguments.

Section Res.
Variable K : cfield.
Local Open Scope K_scope.
Add Field Kfo3 : (k_field K).
Variable g : grid K.
Local Notation n0 := (dim g 0). Local Notation n1 := (dim g 1).
Variables (omega beta : K) (eps : field3 K) (mu : option (field3 K)).
Local Notation m := (mu_given mu).
Hypothesis Hom : omega <> 0.
Hypothesis Hbe : beta <> 0.
Hypothesis Hz : (1 <= dim g 2)%nat.
Hypothesis Hp : proper g eps m.
Lemma He c i j : (c < 3)%nat -> (i < n0)%nat -> (j < n1)%nat -> eps c i j 0%nat <> 0.
Proof. intros. apply (proj2 Hp); unfold in_grid; auto. Qed.
Lemma Hm c i j : (c < 3)%nat -> (i < n0)%nat -> (j < n1)%nat -> m c i j 0%nat <> 0.
Proof. intros. apply (proj2 Hp); unfold in_grid; auto. Qed.
Lemma cancel' (a x y : K) : a <> 0 -> a * x = a * y -> x = y.
Proof. apply cancel. Qed.
Lemma kis : (ki : K) * ki = - (1). Proof. apply ki2. Qed.
(** h_op in terms of the given permeability *)
Lemma h_op_eq h c i j : h_op g beta omega eps mu h c i j 0%nat =
  wg_curl_e g beta (fun c i j l => 1 / eps c i j l * wg_curl_h g beta h c i j l) c i j 0%nat - omega * omega * (m c i j 0%nat * h c i j 0%nat).
Proof. clear Hp. unfold h_op, mu_given. destruct mu; [reflexivity|]. unfold one3. ring. Qed.
Lemma e_op_eq e c i j : (c < 3)%nat -> (i < n0)%nat -> (j < n1)%nat -> e_op g beta omega eps mu e c i j 0%nat =
  wg_curl_h g beta (fun c i j l => 1 / m c i j l * wg_curl_e g beta e c i j l) c i j 0%nat - omega * omega * (eps c i j 0%nat * e c i j 0%nat).
Proof.
  clear Hp. intros Hc Hi Hj. unfold e_op, mu_given. destruct mu; [reflexivity|]. f_equal. apply (curl_h_ext beta); auto. intros c' i' j' _ _ _. unfold one3. field. apply (F_1_neq_0 (k_field K)).
Qed.
Lemma e2h_eq e c i j : (c < 3)%nat -> (i < n0)%nat -> (j < n1)%nat -> wg_e2h g beta omega mu e c i j 0%nat = 1 / m c i j 0%nat * (wg_curl_e g beta e c i j 0%nat / (- ki * omega)).
Proof.
  clear Hp. intros Hc Hi Hj. assert (Hk := ki_neq0 K). unfold wg_e2h, mu_given. destruct mu; [reflexivity|]. unfold one3. cbv zeta. generalize (wg_curl_e g beta e c i j 0%nat / (- ki * omega)). intros x. field. apply (F_1_neq_0 (k_field K)).
Qed.
Lemma h_zero_mode h : zero_plane g (h_op g beta omega eps mu h) <-> is_mode g omega beta eps m (wg_h2e g beta omega eps h) h.
Proof.
  assert (Hk := ki_neq0 K).
  assert (L : forall c i j, (c < 3)%nat -> (i < n0)%nat -> (j < n1)%nat ->
    wg_curl_e g beta (fun c i j l => 1 / eps c i j l * wg_curl_h g beta h c i j l) c i j 0%nat = ki * omega * wg_curl_e g beta (wg_h2e g beta omega eps h) c i j 0%nat).
  { intros c i j Hc Hi Hj. rewrite <- curl_e_scale by auto. apply curl_e_ext; auto. intros c' i' j' Hc' Hi' Hj'. unfold wg_h2e. assert (H := He Hc' Hi' Hj'). field. auto. }
  rewrite is_mode_iff. split.
  - intros Z c i j Hc Hi Hj. split.
    + specialize (Z c i j Hc Hi Hj). rewrite h_op_eq, L in Z by auto. apply (cancel' (a := ki * omega)).
      { intros C. apply (@kmul_neq0 K ki omega Hk Hom C). }
      set (x := wg_curl_e _ _ _ _ _ _ _) in *. transitivity (omega * omega * (m c i j 0%nat * h c i j 0%nat)).
      * transitivity (ki * omega * x - omega * omega * (m c i j 0%nat * h c i j 0%nat) + omega * omega * (m c i j 0%nat * h c i j 0%nat)); [ring|]. rewrite Z. ring.
      * transitivity (- (ki * ki) * (omega * omega * (m c i j 0%nat * h c i j 0%nat))); [rewrite kis; ring|ring].
    + unfold wg_h2e. assert (H := He Hc Hi Hj). field. auto.
  - intros M c i j Hc Hi Hj. destruct (M c i j Hc Hi Hj) as [A _]. rewrite h_op_eq, L, A by auto.
    transitivity ((- (ki * ki) - 1) * (omega * omega * (m c i j 0%nat * h c i j 0%nat))); [ring|]. rewrite kis. ring.
Qed.
Lemma e_zero_mode e : zero_plane g (e_op g beta omega eps mu e) <-> is_mode g omega beta eps m e (wg_e2h g beta omega mu e).
Proof.
  assert (Hk := ki_neq0 K).
  assert (L : forall c i j, (c < 3)%nat -> (i < n0)%nat -> (j < n1)%nat ->
    wg_curl_h g beta (fun c i j l => 1 / m c i j l * wg_curl_e g beta e c i j l) c i j 0%nat = - ki * omega * wg_curl_h g beta (wg_e2h g beta omega mu e) c i j 0%nat).
  { intros c i j Hc Hi Hj. rewrite <- curl_h_scale by auto. apply curl_h_ext; auto. intros c' i' j' Hc' Hi' Hj'. rewrite e2h_eq by auto. assert (H := Hm Hc' Hi' Hj'). field; repeat split; auto using kopp_neq0. }
  rewrite is_mode_iff. split.
  - intros Z c i j Hc Hi Hj. split.
    + rewrite e2h_eq by auto. assert (H := Hm Hc Hi Hj). field; repeat split; auto using kopp_neq0.
    + specialize (Z c i j Hc Hi Hj). rewrite e_op_eq, L in Z by auto. apply (cancel' (a := - ki * omega)).
      { intros C. apply (@kmul_neq0 K ki omega Hk Hom). transitivity (- (- ki * omega)); [ring|]. rewrite C. ring. }
      set (x := wg_curl_h _ _ _ _ _ _ _) in *. transitivity (omega * omega * (eps c i j 0%nat * e c i j 0%nat)).
      * transitivity (- ki * omega * x - omega * omega * (eps c i j 0%nat * e c i j 0%nat) + omega * omega * (eps c i j 0%nat * e c i j 0%nat)); [ring|]. rewrite Z. ring.
      * transitivity (- (ki * ki) * (omega * omega * (eps c i j 0%nat * e c i j 0%nat))); [rewrite kis; ring|ring].
  - intros M c i j Hc Hi Hj. destruct (M c i j Hc Hi Hj) as [_ A]. rewrite e_op_eq, L, A by auto.
    transitivity ((- (ki * ki) - 1) * (omega * omega * (eps c i j 0%nat * e c i j 0%nat))); [ring|]. rewrite kis. ring.
Qed.
(** every mode comes from an eigenvector *)
Lemma roll_roll (a : array K) i j : (i < n0)%nat -> (j < n1)%nat -> de g (de g a 1) 0 i j 0%nat = de g (de g a 0) 1 i j 0%nat.
Proof.
  intros Hi Hj. destruct (d0 Hp Hi), (d1 Hp Hj). unfold de, roll_forward. cbn [pick]. field. auto.
Qed.
Lemma mode_dv e h : is_mode g omega beta eps m e h -> forall i j, (i < n0)%nat -> (j < n1)%nat -> op_dv g m (h 0%nat) (h 1%nat) i j 0%nat = ki * beta * h 2%nat i j 0%nat.
Proof.
  intros M i j Hi Hj. assert (Hk := ki_neq0 K). assert (H2 := @Hm 2 i j ltac:(lia) Hi Hj). destruct (d0 Hp Hi) as [P0 _], (d1 Hp Hj) as [P1 _].
  apply (cancel' (a := - ki * omega * m 2%nat i j 0%nat)).
  { intros C. apply (@kmul_neq0 K (ki * omega) (m 2%nat i j 0%nat)); [apply kmul_neq0; auto|auto|]. transitivity (- (- ki * omega * m 2%nat i j 0%nat)); [ring|]. rewrite C. ring. }
  transitivity (de g (fun i j l => - ki * omega * m 0%nat i j l * h 0%nat i j l) 0 i j 0%nat + de g (fun i j l => - ki * omega * m 1%nat i j l * h 1%nat i j l) 1 i j 0%nat).
  { unfold op_dv, de, roll_forward. cbn [pick]. field. auto. }
  destruct (M i j Hi Hj) as (A0 & A1 & A2 & _). 
  destruct (M (Nat.modulo (i + 1) n0) j (mod_lt' Hi) Hj) as (B0 & _). destruct (M i (Nat.modulo (j + 1) n1) Hi (mod_lt' Hj)) as (_ & B1 & _).
  transitivity (ki * beta * (- ki * omega * m 2%nat i j 0%nat * h 2%nat i j 0%nat)); [|ring]. rewrite <- A2.
  pose proof (roll_roll (e 2%nat) Hi Hj) as RR.
  set (D1 := de g (e 2%nat) 1) in *. set (D0 := de g (e 2%nat) 0) in *. clearbody D0 D1.
  unfold de, roll_forward in *. cbn [pick] in *. rewrite <- A0, <- A1, <- B0, <- B1.
  set (x1 := D1 ((i + 1) mod n0)%nat j 0%nat) in *. set (y1 := D0 i ((j + 1) mod n1)%nat 0%nat) in *.
  set (a1 := e 1%nat ((i + 1) mod n0)%nat j 0%nat). set (b1 := e 0%nat i ((j + 1) mod n1)%nat 0%nat).
  transitivity ((x1 - D1 i j 0%nat) / dxe g 0 i - (y1 - D0 i j 0%nat) / dxe g 1 j + ki * beta * ((a1 - e 1%nat i j 0%nat) / dxe g 0 i - (b1 - e 0%nat i j 0%nat) / dxe g 1 j)).
  - field. auto.
  - rewrite RR. ring.
Qed.
Lemma mode_cz e h : is_mode g omega beta eps m e h -> forall i j, (i < n0)%nat -> (j < n1)%nat -> op_cz g eps (h 0%nat) (h 1%nat) i j 0%nat = ki * omega * e 2%nat i j 0%nat.
Proof.
  intros M i j Hi Hj. destruct (M i j Hi Hj) as (_ & _ & _ & _ & _ & A5). assert (H2 := @He 2 i j ltac:(lia) Hi Hj).
  unfold op_cz. transitivity (1 / eps 2%nat i j 0%nat * (dh g (h 1%nat) 0 i j 0%nat - dh g (h 0%nat) 1 i j 0%nat)); [ring|]. rewrite A5. field. auto.
Qed.
Lemma mode_is_eigenvector e h : is_mode g omega beta eps m e h -> eigenvector g omega beta eps m (h 0%nat, h 1%nat).
Proof.
  intros M i j Hi Hj. destruct (M i j Hi Hj) as (A0 & A1 & A2 & A3 & A4 & A5). destruct (d0 Hp Hi) as [P0 Q0], (d1 Hp Hj) as [P1 Q1].
  unfold wg_operator. cbn [fst snd].
  assert (D1 : de g (op_cz g eps (h 0%nat) (h 1%nat)) 1 i j 0%nat = ki * omega * de g (e 2%nat) 1 i j 0%nat).
  { unfold de, roll_forward. cbn [pick]. rewrite !(mode_cz M) by auto using mod_lt'. field; auto. }
  assert (D0 : de g (op_cz g eps (h 0%nat) (h 1%nat)) 0 i j 0%nat = ki * omega * de g (e 2%nat) 0 i j 0%nat).
  { unfold de, roll_forward. cbn [pick]. rewrite !(mode_cz M) by auto using mod_lt'. field; auto. }
  assert (F0 : dh g (op_dv g m (h 0%nat) (h 1%nat)) 0 i j 0%nat = ki * beta * dh g (h 2%nat) 0 i j 0%nat).
  { unfold dh, roll_back. cbn [pick]. rewrite !(mode_dv M) by auto using pred_lt'. field; auto. }
  assert (F1 : dh g (op_dv g m (h 0%nat) (h 1%nat)) 1 i j 0%nat = ki * beta * dh g (h 2%nat) 1 i j 0%nat).
  { unfold dh, roll_back. cbn [pick]. rewrite !(mode_dv M) by auto using pred_lt'. field; auto. }
  rewrite D0, D1, F0, F1. clear D0 D1 F0 F1 A2 A5.
  assert (X0 : de g (e 2%nat) 1 i j 0%nat = - ki * omega * m 0%nat i j 0%nat * h 0%nat i j 0%nat - ki * beta * e 1%nat i j 0%nat) by (rewrite <- A0; ring).
  assert (X1 : de g (e 2%nat) 0 i j 0%nat = - ki * beta * e 0%nat i j 0%nat - - ki * omega * m 1%nat i j 0%nat * h 1%nat i j 0%nat) by (rewrite <- A1; ring).
  assert (X2 : dh g (h 2%nat) 1 i j 0%nat = ki * omega * eps 0%nat i j 0%nat * e 0%nat i j 0%nat - ki * beta * h 1%nat i j 0%nat) by (rewrite <- A3; ring).
  assert (X3 : dh g (h 2%nat) 0 i j 0%nat = - ki * beta * h 0%nat i j 0%nat - ki * omega * eps 1%nat i j 0%nat * e 1%nat i j 0%nat) by (rewrite <- A4; ring).
  rewrite X0, X1, X2, X3. pose proof kis as I2. split; ring [I2].
Qed.
Lemma mode_v2h e h : is_mode g omega beta eps m e h -> same_plane g h (v2h g m beta (h 0%nat, h 1%nat)).
Proof.
  intros M c i j Hc Hi Hj. assert (Hk := ki_neq0 K). destruct c as [|[|[|]]]; [reflexivity|reflexivity| |lia]. cbn [v2h fst snd]. rewrite (mode_dv M) by auto. field. auto.
Qed.
Lemma mode_v2e e h : is_mode g omega beta eps m e h -> same_plane g e (v2e g omega eps m beta (h 0%nat, h 1%nat)).
Proof.
  intros M c i j Hc Hi Hj. assert (Hk := ki_neq0 K). unfold v2e. rewrite <- (curl_h_ext beta (mode_v2h M)) by auto.
  destruct (proj1 (is_mode_iff _ _ _ _ _ _ _) M c i j Hc Hi Hj) as [_ A]. rewrite A. assert (H := He Hc Hi Hj). field. auto.
Qed.
(** same fields, same mode *)
Lemma mode_same e h e' h' : same_plane g e e' -> same_plane g h h' -> is_mode g omega beta eps m e h -> is_mode g omega beta eps m e' h'.
Proof.
  intros S T M. apply is_mode_iff. intros c i j Hc Hi Hj. destruct (proj1 (is_mode_iff _ _ _ _ _ _ _) M c i j Hc Hi Hj) as [A B].
  rewrite <- (curl_e_ext beta S), <- (curl_h_ext beta T), A, B, (S c i j), (T c i j) by auto. auto.
Qed.
Lemma mode_h2e e h : is_mode g omega beta eps m e h -> same_plane g (wg_h2e g beta omega eps h) e.
Proof.
  intros M c i j Hc Hi Hj. assert (Hk := ki_neq0 K). destruct (proj1 (is_mode_iff _ _ _ _ _ _ _) M c i j Hc Hi Hj) as [_ A].
  unfold wg_h2e. rewrite A. assert (H := He Hc Hi Hj). field. auto.
Qed.
Lemma mode_e2h e h : is_mode g omega beta eps m e h -> same_plane g (wg_e2h g beta omega mu e) h.
Proof.
  intros M c i j Hc Hi Hj. assert (Hk := ki_neq0 K). destruct (proj1 (is_mode_iff _ _ _ _ _ _ _) M c i j Hc Hi Hj) as [A _].
  rewrite e2h_eq by auto. rewrite A. assert (H := Hm Hc Hi Hj). field; repeat split; auto using kopp_neq0.
Qed.
Lemma h_zero_iff h : zero_plane g (h_op g beta omega eps mu h) <-> eigenvector g omega beta eps m (h 0%nat, h 1%nat) /\ same_plane g h (v2h g m beta (h 0%nat, h 1%nat)).
Proof.
  rewrite h_zero_mode. split.
  - intros M. split; [eapply mode_is_eigenvector; eauto|eapply mode_v2h; eauto].
  - intros [V S]. pose proof (@mode_lemma K g omega beta eps m (h 0%nat, h 1%nat) Hom Hbe Hz Hp V) as M.
    apply mode_same with (3 := M).
    + intros c i j Hc Hi Hj. unfold v2e, wg_h2e. rewrite (curl_h_ext beta S) by auto. reflexivity.
    + intros c i j Hc Hi Hj. symmetry. auto.
Qed.
Lemma e_zero_iff e : zero_plane g (e_op g beta omega eps mu e) <-> exists v, eigenvector g omega beta eps m v /\ same_plane g e (v2e g omega eps m beta v).
Proof.
  rewrite e_zero_mode. split.
  - intros M. exists (wg_e2h g beta omega mu e 0%nat, wg_e2h g beta omega mu e 1%nat). split; [eapply mode_is_eigenvector; eauto|eapply mode_v2e; eauto].
  - intros (v & V & S). pose proof (@mode_lemma K g omega beta eps m v Hom Hbe Hz Hp V) as M.
    apply mode_same with (3 := M).
    + intros c i j Hc Hi Hj. symmetry. auto.
    + intros c i j Hc Hi Hj. rewrite e2h_eq by auto. rewrite (curl_e_ext beta S) by auto. rewrite <- e2h_eq by auto. symmetry. apply (mode_e2h M); auto.
Qed.
End Res.
