(** Reciprocity of two modes. *)
From Verif Require Import Base CField CField_Proofs Maxwell_Model Wg_Model Wg_Spec Wg_Proofs Wg_Proofs9 Orth_Spec.
From Coq Require Import Lia.
Set Implicit Arguments.

Section Rec.
Variable K : cfield.
Local Open Scope K_scope.
Add Field Kfo : (k_field K).
Lemma fwd_back i n : (i < n)%nat -> Nat.modulo (Nat.modulo (i + n - 1) n + 1) n = i.
Proof.
  intros H. rewrite Nat.add_mod_idemp_l by lia. replace (i + n - 1 + 1)%nat with (i + 1 * n)%nat by lia. rewrite Nat.mod_add by lia. apply Nat.mod_small; lia.
Qed.
Lemma back_fwd i n : (i < n)%nat -> Nat.modulo (Nat.modulo (i + 1) n + n - 1) n = i.
Proof.
  intros H. assert (A := Nat.mod_upper_bound (i + 1) n ltac:(lia)). destruct (Nat.eq_dec (i + 1) n) as [E|E].
  - rewrite E, Nat.mod_same by lia. replace (0 + n - 1)%nat with i by lia. apply Nat.mod_small; lia.
  - rewrite (Nat.mod_small (i + 1) n) by lia. replace (i + 1 + n - 1)%nat with (i + 1 * n)%nat by lia. rewrite Nat.mod_add by lia. apply Nat.mod_small; lia.
Qed.
Lemma fsum_fwd n (f : nat -> K) : fsum n (fun i => f (Nat.modulo (i + 1) n)) = fsum n f.
Proof.
  rewrite <- (@fsum_back K n (fun i => f (Nat.modulo (i + 1) n))). apply fsum_ext. intros i Hi. now rewrite fwd_back.
Qed.
(** summation by parts on a circle *)
Lemma parts1d n (a b : nat -> K) :
  fsum n (fun i => a i * (b (Nat.modulo (i + 1) n) - b i) + b i * (a i - a (Nat.modulo (i + n - 1) n))) = 0.
Proof.
  set (f := fun i => a (Nat.modulo (i + n - 1) n) * b i).
  rewrite (@fsum_ext K n _ (fun i => f (Nat.modulo (i + 1) n) - f i)).
  2:{ intros i Hi. unfold f. rewrite back_fwd by auto. ring. }
  rewrite fsum_sub, fsum_fwd. ring.
Qed.

Variable g : grid K.
Local Notation n0 := (dim g 0). Local Notation n1 := (dim g 1).
Definition Sm (f : nat -> nat -> K) : K := fsum n0 (fun i => fsum n1 (fun j => f i j)).
Lemma Sm_ext f f' : (forall i j, (i < n0)%nat -> (j < n1)%nat -> f i j = f' i j) -> Sm f = Sm f'.
Proof. intros H. apply fsum_ext. intros. apply fsum_ext. auto. Qed.
Lemma Sm_add f f' : Sm (fun i j => f i j + f' i j) = Sm f + Sm f'.
Proof. unfold Sm. rewrite <- fsum_add. apply fsum_ext. intros. apply fsum_add. Qed.
Lemma Sm_sub f f' : Sm (fun i j => f i j - f' i j) = Sm f - Sm f'.
Proof. unfold Sm. rewrite <- fsum_sub. apply fsum_ext. intros. apply fsum_sub. Qed.
Lemma Sm_scale c f : Sm (fun i j => c * f i j) = c * Sm f.
Proof. unfold Sm. rewrite <- fsum_scale. apply fsum_ext. intros. apply fsum_scale. Qed.
Hypothesis Hd0 : forall i, (i < n0)%nat -> dxe g 0 i <> 0 /\ dxh g 0 i <> 0.
Hypothesis Hd1 : forall j, (j < n1)%nat -> dxe g 1 j <> 0 /\ dxh g 1 j <> 0.
Lemma parts0 (a b : array K) (w : nat -> K) :
  Sm (fun i j => (a i j 0%nat * de g b 0 i j 0%nat * dxe g 0 i + b i j 0%nat * dh g a 0 i j 0%nat * dxh g 0 i) * w j) = 0.
Proof.
  unfold Sm. rewrite fsum_swap. apply fsum_zero. intros j Hj.
  rewrite fsum_scale_r. rewrite (@fsum_ext K n0 _ (fun i => a i j 0%nat * (b (Nat.modulo (i + 1) n0) j 0%nat - b i j 0%nat) + b i j 0%nat * (a i j 0%nat - a (Nat.modulo (i + n0 - 1) n0) j 0%nat))).
  - rewrite (@parts1d n0 (fun i => a i j 0%nat) (fun i => b i j 0%nat)). ring.
  - intros i Hi. destruct (Hd0 Hi). unfold de, dh, roll_forward, roll_back. cbn [pick]. field. auto.
Qed.
Lemma parts1 (a b : array K) (w : nat -> K) :
  Sm (fun i j => (a i j 0%nat * de g b 1 i j 0%nat * dxe g 1 j + b i j 0%nat * dh g a 1 i j 0%nat * dxh g 1 j) * w i) = 0.
Proof.
  unfold Sm. apply fsum_zero. intros i Hi.
  rewrite fsum_scale_r. rewrite (@fsum_ext K n1 _ (fun j => a i j 0%nat * (b i (Nat.modulo (j + 1) n1) 0%nat - b i j 0%nat) + b i j 0%nat * (a i j 0%nat - a i (Nat.modulo (j + n1 - 1) n1) 0%nat))).
  - rewrite (@parts1d n1 (fun j => a i j 0%nat) (fun j => b i j 0%nat)). ring.
  - intros j Hj. destruct (Hd1 Hj). unfold de, dh, roll_forward, roll_back. cbn [pick]. field. auto.
Qed.
(** the energy form of two fields; symmetric *)
Definition energy (omega : K) (eps mu E1 H1 E2 H2 : field3 K) : K :=
  Sm (fun i j => let at2 (m f f' : field3 K) c := m c i j 0%nat * (f c i j 0%nat * f' c i j 0%nat) in
    (at2 mu H1 H2 0%nat * (dxh g 0 i * dxe g 1 j) + at2 mu H1 H2 1%nat * (dxe g 0 i * dxh g 1 j) + at2 mu H1 H2 2%nat * (dxe g 0 i * dxe g 1 j))
    + (at2 eps E1 E2 0%nat * (dxe g 0 i * dxh g 1 j) + at2 eps E1 E2 1%nat * (dxh g 0 i * dxe g 1 j) + at2 eps E1 E2 2%nat * (dxh g 0 i * dxh g 1 j))).
Lemma energy_sym omega eps mu E1 H1 E2 H2 : energy omega eps mu E1 H1 E2 H2 = energy omega eps mu E2 H2 E1 H1.
Proof. apply Sm_ext. intros. cbv beta zeta. ring. Qed.
Variables (omega : K) (eps mu : field3 K).
Lemma reciprocity b1 b2 E1 H1 E2 H2 : is_mode g omega b1 eps mu E1 H1 -> is_mode g omega b2 eps mu E2 H2 ->
  omega * energy omega eps mu E1 H1 E2 H2 = (b1 + b2) * plane_pair g E1 H2.
Proof.
  intros M1 M2. assert (Hk := ki_neq0 K).
  assert (P : Sm (fun i j =>
      (H2 0%nat i j 0%nat * de g (E1 2%nat) 1 i j 0%nat * dxe g 1 j + E1 2%nat i j 0%nat * dh g (H2 0%nat) 1 i j 0%nat * dxh g 1 j) * dxh g 0 i
    - (H2 1%nat i j 0%nat * de g (E1 2%nat) 0 i j 0%nat * dxe g 0 i + E1 2%nat i j 0%nat * dh g (H2 1%nat) 0 i j 0%nat * dxh g 0 i) * dxh g 1 j
    + (H2 2%nat i j 0%nat * de g (E1 1%nat) 0 i j 0%nat * dxe g 0 i + E1 1%nat i j 0%nat * dh g (H2 2%nat) 0 i j 0%nat * dxh g 0 i) * dxe g 1 j
    - (H2 2%nat i j 0%nat * de g (E1 0%nat) 1 i j 0%nat * dxe g 1 j + E1 0%nat i j 0%nat * dh g (H2 2%nat) 1 i j 0%nat * dxh g 1 j) * dxe g 0 i) = 0).
  { rewrite Sm_sub, Sm_add, Sm_sub. rewrite (parts1 (H2 0%nat) (E1 2%nat) (fun i => dxh g 0 i)), (parts0 (H2 1%nat) (E1 2%nat) (fun j => dxh g 1 j)),
    (parts0 (H2 2%nat) (E1 1%nat) (fun j => dxe g 1 j)), (parts1 (H2 2%nat) (E1 0%nat) (fun i => dxe g 0 i)). ring. }
  assert (Q : Sm (fun i j => - ki * omega * ((fun i j => let at2 (m f f' : field3 K) c := m c i j 0%nat * (f c i j 0%nat * f' c i j 0%nat) in
    (at2 mu H1 H2 0%nat * (dxh g 0 i * dxe g 1 j) + at2 mu H1 H2 1%nat * (dxe g 0 i * dxh g 1 j) + at2 mu H1 H2 2%nat * (dxe g 0 i * dxe g 1 j))
    + (at2 eps E1 E2 0%nat * (dxe g 0 i * dxh g 1 j) + at2 eps E1 E2 1%nat * (dxh g 0 i * dxe g 1 j) + at2 eps E1 E2 2%nat * (dxh g 0 i * dxh g 1 j))) i j)
     - - ki * (b1 + b2) * (E1 0%nat i j 0%nat * H2 1%nat i j 0%nat * dxe g 0 i * dxh g 1 j
    - E1 1%nat i j 0%nat * H2 0%nat i j 0%nat * dxh g 0 i * dxe g 1 j)) = 0).
  { rewrite <- P. apply Sm_ext. intros i j Hi Hj. cbv beta zeta.
    destruct (M1 i j Hi Hj) as (A0 & A1 & A2 & _). destruct (M2 i j Hi Hj) as (_ & _ & _ & A3 & A4 & A5).
    set (h0 := H1 0%nat i j 0%nat) in *. set (h1 := H1 1%nat i j 0%nat) in *. set (h2 := H1 2%nat i j 0%nat) in *.
    set (f0 := E2 0%nat i j 0%nat) in *. set (f1 := E2 1%nat i j 0%nat) in *. set (f2 := E2 2%nat i j 0%nat) in *.
    transitivity (
      H2 0%nat i j 0%nat * (- ki * omega * mu 0%nat i j 0%nat * h0) * (dxh g 0 i * dxe g 1 j)
      + H2 1%nat i j 0%nat * (- ki * omega * mu 1%nat i j 0%nat * h1) * (dxe g 0 i * dxh g 1 j)
      + H2 2%nat i j 0%nat * (- ki * omega * mu 2%nat i j 0%nat * h2) * (dxe g 0 i * dxe g 1 j)
      - (E1 0%nat i j 0%nat * (ki * omega * eps 0%nat i j 0%nat * f0) * (dxe g 0 i * dxh g 1 j)
       + E1 1%nat i j 0%nat * (ki * omega * eps 1%nat i j 0%nat * f1) * (dxh g 0 i * dxe g 1 j)
       + E1 2%nat i j 0%nat * (ki * omega * eps 2%nat i j 0%nat * f2) * (dxh g 0 i * dxh g 1 j))
      - - ki * (b1 + b2) * (E1 0%nat i j 0%nat * H2 1%nat i j 0%nat * dxe g 0 i * dxh g 1 j
    - E1 1%nat i j 0%nat * H2 0%nat i j 0%nat * dxh g 0 i * dxe g 1 j)); [ring|].
    rewrite <- A0, <- A1, <- A2, <- A3, <- A4, <- A5. ring. }
  rewrite Sm_sub in Q. rewrite Sm_scale, Sm_scale in Q.
  change (- ki * omega * energy omega eps mu E1 H1 E2 H2 - - ki * (b1 + b2) * plane_pair g E1 H2 = 0) in Q.
  assert (R : - ki * (omega * energy omega eps mu E1 H1 E2 H2) = - ki * ((b1 + b2) * plane_pair g E1 H2)).
  { transitivity (- ki * omega * energy omega eps mu E1 H1 E2 H2 - - ki * (b1 + b2) * plane_pair g E1 H2 + - ki * (b1 + b2) * plane_pair g E1 H2); [ring|]. rewrite Q. ring. }
  set (x := omega * energy omega eps mu E1 H1 E2 H2) in *. set (y := (b1 + b2) * plane_pair g E1 H2) in *.
  transitivity (ki * (- ki * x)); [rewrite <- (Radd_0_l (F_R (k_field K)) x) at 1|].
  - transitivity (- (ki * ki) * x); [rewrite (ki2 K)|]; ring.
  - rewrite R. transitivity (- (ki * ki) * y); [ring|]. rewrite (ki2 K). ring.
Qed.
(** the same mode travelling the other way *)
Definition rev_e (e : field3 K) : field3 K := fun c i j l => match c with 2 => - e c i j l | _ => e c i j l end.
Definition rev_h (h : field3 K) : field3 K := fun c i j l => match c with 2 => h c i j l | _ => - h c i j l end.
Lemma de_opp (a : array K) k i j l : de g (fun i j l => - a i j l) k i j l = - de g a k i j l.
Proof. unfold de, roll_forward. destruct k as [|[|]]; cbn [pick]; rewrite !(Fdiv_def (k_field K)); ring. Qed.
Lemma dh_opp (a : array K) k i j l : dh g (fun i j l => - a i j l) k i j l = - dh g a k i j l.
Proof. unfold dh, roll_back. destruct k as [|[|]]; cbn [pick]; rewrite !(Fdiv_def (k_field K)); ring. Qed.
Lemma reversed b E H : is_mode g omega b eps mu E H -> is_mode g omega (- b) eps mu (rev_e E) (rev_h H).
Proof.
  intros M i j Hi Hj. destruct (M i j Hi Hj) as (A0 & A1 & A2 & A3 & A4 & A5).
  unfold maxwell_mode. 
  change (rev_e E 0%nat) with (E 0%nat). change (rev_e E 1%nat) with (E 1%nat). change (rev_e E 2%nat) with (fun i j l => - E 2%nat i j l).
  change (rev_h H 0%nat) with (fun i j l => - H 0%nat i j l). change (rev_h H 1%nat) with (fun i j l => - H 1%nat i j l). change (rev_h H 2%nat) with (H 2%nat).
  rewrite !de_opp, !dh_opp.
  assert (opp : forall a b : K, a = b -> - a = - b) by (intros; subst; reflexivity).
  repeat split.
  - apply opp in A0. transitivity (- (de g (E 2%nat) 1 i j 0%nat + ki * b * E 1%nat i j 0%nat)); [ring|]. rewrite A0. ring.
  - apply opp in A1. transitivity (- (- ki * b * E 0%nat i j 0%nat - de g (E 2%nat) 0 i j 0%nat)); [ring|]. rewrite A1. ring.
  - exact A2.
  - rewrite <- A3. ring.
  - rewrite <- A4. ring.
  - apply opp in A5. transitivity (- (dh g (H 1%nat) 0 i j 0%nat - dh g (H 0%nat) 1 i j 0%nat)); [ring|]. rewrite A5. ring.
Qed.
Lemma pair_rev_h E H : plane_pair g E (rev_h H) = - plane_pair g E H.
Proof.
  transitivity (- (1) * plane_pair g E H); [|ring].
  pose proof (Sm_scale (- (1)) (fun i j => E 0%nat i j 0%nat * H 1%nat i j 0%nat * dxe g 0 i * dxh g 1 j - E 1%nat i j 0%nat * H 0%nat i j 0%nat * dxh g 0 i * dxe g 1 j)) as X.
  etransitivity; [|exact X]. apply Sm_ext. intros. unfold rev_h. ring.
Qed.
Lemma pair_rev_e E H : plane_pair g (rev_e E) H = plane_pair g E H.
Proof. reflexivity. Qed.
Lemma cancel (a x y : K) : a <> 0 -> a * x = a * y -> x = y.
Proof. intros Ha H. transitivity (a * x / a); [field; auto|]. rewrite H. field; auto. Qed.
Hypothesis Htwo : (1 + 1 : K) <> 0.
Lemma orthogonal b1 b2 E1 H1 E2 H2 : is_mode g omega b1 eps mu E1 H1 -> is_mode g omega b2 eps mu E2 H2 ->
  b1 * b1 <> b2 * b2 -> plane_pair g E1 H2 = 0.
Proof.
  intros M1 M2 Hb.
  assert (S : b1 + b2 <> 0). { intros C. apply Hb. transitivity ((b1 + b2) * (b1 - b2) + b2 * b2); [ring|]. rewrite C. ring. }
  assert (D : b1 + - b2 <> 0). { intros C. apply Hb. transitivity ((b1 + b2) * (b1 + - b2) + b2 * b2); [ring|]. rewrite C. ring. }
  assert (A : plane_pair g E1 H2 = plane_pair g E2 H1).
  { apply (@cancel _ _ _ S). rewrite <- (reciprocity M1 M2), energy_sym, (reciprocity M2 M1). ring. }
  pose proof (reversed M2) as M2'.
  assert (B : plane_pair g E1 (rev_h H2) = plane_pair g (rev_e E2) H1).
  { apply (@cancel _ _ _ D). rewrite <- (reciprocity M1 M2'), energy_sym, (reciprocity M2' M1). ring. }
  rewrite pair_rev_h, pair_rev_e, <- A in B. apply (@cancel _ _ _ Htwo).
  transitivity (plane_pair g E1 H2 + plane_pair g E1 H2); [ring|]. rewrite <- B at 1. ring.
Qed.
End Rec.
