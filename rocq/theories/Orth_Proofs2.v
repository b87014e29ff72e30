(** Conjugate modes; power of superpositions; conversions between E and H. *)
From Verif Require Import Base CField CField_Proofs Maxwell_Model Wg_Model Wg_Spec Wg_Proofs Wg_Proofs9 Wg_Proofs11 Orth_Model Orth_Spec Orth_Proofs.
From Coq Require Import Lia.
Set Implicit Arguments.

Section Conj.
Variable K : cfield.
Local Open Scope K_scope.
Add Field Kfo2 : (k_field K).
Variable g : grid K.
Local Notation n0 := (dim g 0). Local Notation n1 := (dim g 1).
Variables (omega : K) (eps mu : field3 K).
Hypothesis Hz : (1 <= dim g 2)%nat.
Hypothesis Hp : proper g eps mu.
Lemma d0 i : (i < n0)%nat -> dxe g 0 i <> 0 /\ dxh g 0 i <> 0.
Proof. intros. apply (proj1 Hp); auto. Qed.
Lemma d1 i : (i < n1)%nat -> dxe g 1 i <> 0 /\ dxh g 1 i <> 0.
Proof. intros. apply (proj1 Hp); auto. Qed.
Definition conj3 (f : field3 K) : field3 K := fun c i j l => kconj (f c i j l).
Definition oconj3 (f : field3 K) : field3 K := fun c i j l => - kconj (f c i j l).
Section Lossless.
Hypothesis Hl : lossless g omega eps mu.
Lemma de_conj (a : array K) k i j : (k < 2)%nat -> (i < n0)%nat -> (j < n1)%nat ->
  de g (fun i j l => kconj (a i j l)) k i j 0%nat = kconj (de g a k i j 0%nat).
Proof.
  intros Hk Hi Hj. destruct Hl as (_ & _ & Hd). unfold de. destruct k as [|[|]]; [| |lia]; cbn [pick].
  - destruct (Hd 0%nat i ltac:(lia) Hi) as [E _]. rewrite kconj_div by (apply d0; auto). rewrite kconj_sub, E. reflexivity.
  - destruct (Hd 1%nat j ltac:(lia) Hj) as [E _]. rewrite kconj_div by (apply d1; auto). rewrite kconj_sub, E. reflexivity.
Qed.
Lemma dh_conj (a : array K) k i j : (k < 2)%nat -> (i < n0)%nat -> (j < n1)%nat ->
  dh g (fun i j l => kconj (a i j l)) k i j 0%nat = kconj (dh g a k i j 0%nat).
Proof.
  intros Hk Hi Hj. destruct Hl as (_ & _ & Hd). unfold dh. destruct k as [|[|]]; [| |lia]; cbn [pick].
  - destruct (Hd 0%nat i ltac:(lia) Hi) as [_ E]. rewrite kconj_div by (apply d0; auto). rewrite kconj_sub, E. reflexivity.
  - destruct (Hd 1%nat j ltac:(lia) Hj) as [_ E]. rewrite kconj_div by (apply d1; auto). rewrite kconj_sub, E. reflexivity.
Qed.
Lemma conj_mode b E H : is_mode g omega b eps mu E H -> is_mode g omega (- kconj b) eps mu (conj3 E) (oconj3 H).
Proof.
  intros M i j Hi Hj. destruct (M i j Hi Hj) as (A0 & A1 & A2 & A3 & A4 & A5). destruct Hl as (Ho & Hm & _).
  assert (G : in_grid g i j 0%nat) by (unfold in_grid; lia).
  destruct (Hm 0%nat i j 0%nat ltac:(lia) G) as [e0 m0]. destruct (Hm 1%nat i j 0%nat ltac:(lia) G) as [e1 m1]. destruct (Hm 2%nat i j 0%nat ltac:(lia) G) as [e2 m2].
  unfold maxwell_mode. 
  change (conj3 E 0%nat) with (fun i j l => kconj (E 0%nat i j l)). change (conj3 E 1%nat) with (fun i j l => kconj (E 1%nat i j l)). change (conj3 E 2%nat) with (fun i j l => kconj (E 2%nat i j l)).
  change (oconj3 H 0%nat) with (fun i j l => - (fun i j l => kconj (H 0%nat i j l)) i j l). change (oconj3 H 1%nat) with (fun i j l => - (fun i j l => kconj (H 1%nat i j l)) i j l).
  change (oconj3 H 2%nat) with (fun i j l => - (fun i j l => kconj (H 2%nat i j l)) i j l).
  rewrite !dh_opp, !de_conj, !dh_conj by (auto; lia). cbv beta.
  apply (f_equal kconj) in A0. apply (f_equal kconj) in A1. apply (f_equal kconj) in A2. apply (f_equal kconj) in A3. apply (f_equal kconj) in A4. apply (f_equal kconj) in A5.
  rewrite ?kconj_sub, ?kconj_add, ?kconj_mul, ?kconj_opp, ?kconj_mul, ?kconj_i, ?Ho, ?e0, ?e1, ?e2, ?m0, ?m1, ?m2 in *.
  assert (opp : forall a b : K, a = b -> - a = - b) by (intros; subst; reflexivity).
  repeat split.
  - transitivity (kconj (de g (E 2%nat) 1 i j 0%nat) + - ki * kconj b * kconj (E 1%nat i j 0%nat)); [ring|]. rewrite A0. ring.
  - transitivity (- - ki * kconj b * kconj (E 0%nat i j 0%nat) - kconj (de g (E 2%nat) 0 i j 0%nat)); [ring|]. rewrite A1. ring.
  - rewrite A2. ring.
  - apply opp in A3. transitivity (- (kconj (dh g (H 2%nat) 1 i j 0%nat) + - ki * kconj b * kconj (H 1%nat i j 0%nat))); [ring|]. rewrite A3. ring.
  - apply opp in A4. transitivity (- (- - ki * kconj b * kconj (H 0%nat i j 0%nat) - kconj (dh g (H 2%nat) 0 i j 0%nat))); [ring|]. rewrite A4. ring.
  - apply opp in A5. transitivity (- (kconj (dh g (H 1%nat) 0 i j 0%nat) - kconj (dh g (H 0%nat) 1 i j 0%nat))); [ring|]. rewrite A5. ring.
Qed.
Hypothesis Htwo : (1 + 1 : K) <> 0.
Lemma flux_pair E H : plane_flux g E H = - plane_pair g E (oconj3 H).
Proof.
  transitivity (- (1) * plane_pair g E (oconj3 H)); [|ring]. symmetry.
  etransitivity; [symmetry; exact (@Sm_scale K g (- (1)) (fun i j => E 0%nat i j 0%nat * oconj3 H 1%nat i j 0%nat * dxe g 0 i * dxh g 1 j - E 1%nat i j 0%nat * oconj3 H 0%nat i j 0%nat * dxh g 0 i * dxe g 1 j))|].
  apply Sm_ext. intros. unfold oconj3. ring.
Qed.
Lemma flux_orthogonal b1 b2 E1 H1 E2 H2 : is_mode g omega b1 eps mu E1 H1 -> is_mode g omega b2 eps mu E2 H2 ->
  b1 * b1 <> kconj b2 * kconj b2 -> plane_flux g E1 H2 = 0.
Proof.
  intros M1 M2 Hb. rewrite flux_pair. rewrite (@orthogonal K g d0 d1 omega eps mu Htwo b1 (- kconj b2) E1 H1 (conj3 E2) (oconj3 H2) M1 (conj_mode M2)); [ring|].
  intros C. apply Hb. rewrite C. ring.
Qed.
Lemma power_adds b1 b2 a1 a2 E1 H1 E2 H2 : is_mode g omega b1 eps mu E1 H1 -> is_mode g omega b2 eps mu E2 H2 ->
  b1 * b1 <> kconj b2 * kconj b2 ->
  plane_flux g (mix a1 a2 E1 E2) (mix a1 a2 H1 H2) = a1 * kconj a1 * plane_flux g E1 H1 + a2 * kconj a2 * plane_flux g E2 H2.
Proof.
  intros M1 M2 Hb.
  assert (Hb' : b2 * b2 <> kconj b1 * kconj b1). { intros C. apply Hb. rewrite <- (@kconj_conj K b1) at 1. rewrite <- (@kconj_conj K b1) at 2. rewrite <- kconj_mul, <- C, kconj_mul. reflexivity. }
  assert (F1 := flux_orthogonal M1 M2 Hb). assert (F2 := flux_orthogonal M2 M1 Hb').
  transitivity (a1 * kconj a1 * plane_flux g E1 H1 + a1 * kconj a2 * plane_flux g E1 H2 + (a2 * kconj a1 * plane_flux g E2 H1 + a2 * kconj a2 * plane_flux g E2 H2)).
  2:{ rewrite F1, F2. ring. }
  set (t := fun (E H : field3 K) i j => E 0%nat i j 0%nat * kconj (H 1%nat i j 0%nat) * dxe g 0 i * dxh g 1 j - E 1%nat i j 0%nat * kconj (H 0%nat i j 0%nat) * dxh g 0 i * dxe g 1 j).
  assert (X : forall E H, plane_flux g E H = Sm g (t E H)) by reflexivity. rewrite !X.
  pose proof (fun c E H => eq_sym (@Sm_scale K g c (t E H))) as Y. rewrite !Y, <- !Sm_add. apply Sm_ext. intros i j Hi Hj.
  unfold t, mix. rewrite !kconj_add, !kconj_mul. ring.
Qed.
End Lossless.

End Conj.

Section Curl.
Variable K : cfield.
Local Open Scope K_scope.
Add Field Kfo2' : (k_field K).
Variable g : grid K.
Local Notation n0 := (dim g 0). Local Notation n1 := (dim g 1).
Variables (omega : K) (eps mu : field3 K).
(** modes in terms of the two curls *)
Lemma is_mode_iff b E H : is_mode g omega b eps mu E H <->
  (forall c i j, (c < 3)%nat -> (i < n0)%nat -> (j < n1)%nat ->
    wg_curl_e g b E c i j 0%nat = - ki * omega * mu c i j 0%nat * H c i j 0%nat /\
    wg_curl_h g b H c i j 0%nat = ki * omega * eps c i j 0%nat * E c i j 0%nat).
Proof.
  split.
  - intros M c i j Hc Hi Hj. destruct (M i j Hi Hj) as (A0 & A1 & A2 & A3 & A4 & A5). unfold wg_curl_e, wg_curl_h, wg_curl.
    destruct c as [|[|[|]]]; [| | |lia]; split; first [rewrite <- A0|rewrite <- A1|rewrite <- A2|rewrite <- A3|rewrite <- A4|rewrite <- A5]; ring.
  - intros M i j Hi Hj. destruct (M 0%nat i j ltac:(lia) Hi Hj) as [A0 A3]. destruct (M 1%nat i j ltac:(lia) Hi Hj) as [A1 A4]. destruct (M 2%nat i j ltac:(lia) Hi Hj) as [A2 A5].
    unfold wg_curl_e, wg_curl_h, wg_curl in *. unfold maxwell_mode.
    repeat split; first [rewrite <- A0|rewrite <- A1|rewrite <- A2|rewrite <- A3|rewrite <- A4|rewrite <- A5]; ring.
Qed.
(** only the values in the plane matter *)
Lemma curl_e_ext b f f' c i j : same_plane g f f' -> (c < 3)%nat -> (i < n0)%nat -> (j < n1)%nat -> wg_curl_e g b f c i j 0%nat = wg_curl_e g b f' c i j 0%nat.
Proof.
  intros S Hc Hi Hj. unfold wg_curl_e, wg_curl, de, roll_forward. destruct c as [|[|[|]]]; [| | |lia]; cbn [pick]; rewrite ?S; auto using mod_lt'.
Qed.
Lemma curl_h_ext b f f' c i j : same_plane g f f' -> (c < 3)%nat -> (i < n0)%nat -> (j < n1)%nat -> wg_curl_h g b f c i j 0%nat = wg_curl_h g b f' c i j 0%nat.
Proof.
  intros S Hc Hi Hj. unfold wg_curl_h, wg_curl, dh, roll_back. destruct c as [|[|[|]]]; [| | |lia]; cbn [pick]; rewrite ?S; auto using pred_lt'.
Qed.
Lemma curl_scale (d : array K -> nat -> array K) (Hd : forall a (f : array K) k i j, (k < 2)%nat -> (i < n0)%nat -> (j < n1)%nat -> d (fun i j l => a * f i j l) k i j 0%nat = a * d f k i j 0%nat) a b f c i j :
  (c < 3)%nat -> (i < n0)%nat -> (j < n1)%nat -> wg_curl d b (fun c i j l => a * f c i j l) c i j 0%nat = a * wg_curl d b f c i j 0%nat.
Proof. intros Hc Hi Hj. unfold wg_curl. destruct c as [|[|[|]]]; [| | |lia]; rewrite !Hd by (auto; lia); ring. Qed.
Lemma curl_e_scale a b f c i j : (c < 3)%nat -> (i < n0)%nat -> (j < n1)%nat -> wg_curl_e g b (fun c i j l => a * f c i j l) c i j 0%nat = a * wg_curl_e g b f c i j 0%nat.
Proof. apply (curl_scale (de g)). intros a' f' k i' j' Hk Hi Hj. unfold de, roll_forward. rewrite !(Fdiv_def (k_field K)). destruct k as [|[|]]; cbn [pick]; ring. Qed.
Lemma curl_h_scale a b f c i j : (c < 3)%nat -> (i < n0)%nat -> (j < n1)%nat -> wg_curl_h g b (fun c i j l => a * f c i j l) c i j 0%nat = a * wg_curl_h g b f c i j 0%nat.
Proof. apply (curl_scale (dh g)). intros a' f' k i' j' Hk Hi Hj. unfold dh, roll_back. rewrite !(Fdiv_def (k_field K)). destruct k as [|[|]]; cbn [pick]; ring. Qed.
End Curl.
