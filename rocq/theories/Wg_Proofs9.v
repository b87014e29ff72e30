(** Conservation of power. *)
From Verif Require Import Base CField CField_Proofs Maxwell_Model Wg_Model Wg_Spec.
From Coq Require Import Lia.
Set Implicit Arguments.

Section Z.
Variable K : cfield.
Local Open Scope K_scope.
Add Field Kf9 : (k_field K).
Lemma fsum_back n (f : nat -> K) : fsum n (fun i => f (Nat.modulo (i + n - 1) n)) = fsum n f.
Proof.
  destruct n as [|m]; [reflexivity|]. cbn [fsum].
  rewrite (@fsum_ext K m _ (fun i => if Nat.eqb i 0 then f m else f (i - 1)%nat)).
  2:{ intros i Hi. destruct (Nat.eqb_spec i 0) as [->|].
      - f_equal. replace (0 + S m - 1)%nat with m by lia. apply Nat.mod_small. lia.
      - f_equal. replace (i + S m - 1)%nat with (i - 1 + 1 * S m)%nat by lia. rewrite Nat.mod_add by lia. apply Nat.mod_small. lia. }
  destruct m as [|m]; [cbn [fsum]; f_equal; f_equal; reflexivity|].
  replace (Nat.modulo (S m + S (S m) - 1) (S (S m))) with m.
  2:{ replace (S m + S (S m) - 1)%nat with (m + 1 * S (S m))%nat by lia. rewrite Nat.mod_add by lia. symmetry. apply Nat.mod_small. lia. }
  assert (F : forall k, fsum (S k) (fun i => if Nat.eqb i 0 then f (S m) else f (i - 1)%nat) = f (S m) + fsum k f).
  { induction k; [cbn; ring|]. replace (fsum (S (S k)) (fun i => if Nat.eqb i 0 then f (S m) else f (i - 1)%nat)) with (fsum (S k) (fun i => if Nat.eqb i 0 then f (S m) else f (i - 1)%nat) + f k).
    - rewrite IHk. cbn [fsum]. ring.
    - cbn [fsum Nat.eqb]. rewrite Nat.sub_succ, Nat.sub_0_r. reflexivity. }
  rewrite F. cbn [fsum]. ring.
Qed.
Lemma fsum_cycle n (f : nat -> K) : fsum n (fun i => f i - f (Nat.modulo (i + n - 1) n)) = 0.
Proof. rewrite fsum_sub, fsum_back. ring. Qed.

Variable g : grid K.
Variables (omega : K) (eps mu E H : field3 K) (l : nat).
Local Notation n0 := (dim g 0). Local Notation n1 := (dim g 1).
Hypothesis Hl : (1 <= l)%nat.
Hypothesis Hl1 : (l + 1 < dim g 2)%nat.
Hypothesis Homega : kconj omega = omega.
Hypothesis Hreal : forall c i j, (c < 3)%nat -> (i < n0)%nat -> (j < n1)%nat -> kconj (eps c i j l) = eps c i j l /\ kconj (mu c i j l) = mu c i j l.
Hypothesis Hdx : forall a i, (a < 3)%nat -> (i < dim g a)%nat ->
  dxe g a i <> 0 /\ dxh g a i <> 0 /\ kconj (dxe g a i) = dxe g a i /\ kconj (dxh g a i) = dxh g a i.
Hypothesis HE : forall c i j, (c < 3)%nat -> (i < n0)%nat -> (j < n1)%nat -> fcurl_e g E c i j l = - ki * omega * mu c i j l * H c i j l.
Hypothesis HH : forall c i j, (c < 3)%nat -> (i < n0)%nat -> (j < n1)%nat -> fcurl_h g H c i j l = ki * omega * eps c i j l * E c i j l.

Local Notation bk i n := (Nat.modulo (i + n - 1) n).
Local Notation fw i n := (Nat.modulo (i + 1) n).
Let term (l : nat) (i j : nat) : K :=
  E 0%nat i j l * kconj (H 1%nat i j (l - 1)%nat) * dxe g 0 i * dxh g 1 j - E 1%nat i j l * kconj (H 0%nat i j (l - 1)%nat) * dxh g 0 i * dxe g 1 j.
Let A i j : K := kconj (H 1%nat i j l) * E 2%nat (fw i n0) j l.
Let B i j : K := kconj (H 0%nat i j l) * E 2%nat i (fw j n1) l.
Let Y i j : K := E 0%nat i (fw j n1) l * kconj (H 2%nat i j l).
Let X i j : K := E 1%nat (fw i n0) j l * kconj (H 2%nat i j l).
(** stored energy; real *)
Let W i j : K :=
  omega * (- dxe g 2 l * (mu 1%nat i j l * (kconj (H 1%nat i j l) * H 1%nat i j l) * dxe g 0 i * dxh g 1 j + mu 0%nat i j l * (kconj (H 0%nat i j l) * H 0%nat i j l) * dxh g 0 i * dxe g 1 j)
    + dxh g 2 l * (eps 0%nat i j l * (kconj (E 0%nat i j l) * E 0%nat i j l) * dxe g 0 i * dxh g 1 j + eps 1%nat i j l * (kconj (E 1%nat i j l) * E 1%nat i j l) * dxh g 0 i * dxe g 1 j)
    + dxe g 2 l * eps 2%nat i j l * (kconj (E 2%nat i j l) * E 2%nat i j l) * dxh g 0 i * dxh g 1 j
    - dxh g 2 l * mu 2%nat i j l * (kconj (H 2%nat i j l) * H 2%nat i j l) * dxe g 0 i * dxe g 1 j).
Lemma W_real i j : (i < n0)%nat -> (j < n1)%nat -> kconj (W i j) = W i j.
Proof.
  intros Hi Hj. unfold W. destruct (Hdx (a := 0) ltac:(lia) Hi) as (_ & _ & R1 & R2). destruct (Hdx (a := 1) ltac:(lia) Hj) as (_ & _ & R3 & R4).
  destruct (Hdx (a := 2) (i := l) ltac:(lia) ltac:(lia)) as (_ & _ & R5 & R6).
  repeat rewrite ?kconj_mul, ?kconj_sub, ?kconj_add, ?kconj_opp, ?kconj_conj, ?Homega, ?R1, ?R2, ?R3, ?R4, ?R5, ?R6.
  destruct (Hreal (c := 0) ltac:(lia) Hi Hj) as (Q1 & Q2). destruct (Hreal (c := 1) ltac:(lia) Hi Hj) as (Q3 & Q4). destruct (Hreal (c := 2) ltac:(lia) Hi Hj) as (Q5 & Q6).
  rewrite Q1, Q2, Q3, Q4, Q5, Q6. ring.
Qed.
Lemma term_diff i j : (i < n0)%nat -> (j < n1)%nat ->
  term (l + 1) i j - term l i j = ki * W i j
    + dxe g 2 l * (dxh g 1 j * (A i j - A (bk i n0) j) - dxh g 0 i * (B i j - B i (bk j n1)))
    + dxh g 2 l * (dxe g 0 i * (Y i j - Y i (bk j n1)) - dxe g 1 j * (X i j - X (bk i n0) j)).
Proof.
  intros Hi Hj.
  destruct (Hdx (a := 0) ltac:(lia) Hi) as (N1 & N2 & R1 & R2). destruct (Hdx (a := 1) ltac:(lia) Hj) as (N3 & N4 & R3 & R4).
  destruct (Hdx (a := 2) (i := l) ltac:(lia) ltac:(lia)) as (N5 & N6 & R5 & R6).
  assert (FB : forall i n, (i < n)%nat -> fw (bk i n) n = i).
  { intros a n Ha. destruct a.
    - replace (0 + n - 1)%nat with (n - 1)%nat by lia. rewrite (Nat.mod_small (n - 1)) by lia. replace (n - 1 + 1)%nat with n by lia. apply Nat.mod_same. lia.
    - replace (S a + n - 1)%nat with (a + 1 * n)%nat by lia. rewrite Nat.mod_add, (Nat.mod_small a) by lia. replace (a + 1)%nat with (S a) by lia. apply Nat.mod_small. lia. }
  (* next and previous planes from the curl equations *)
  pose proof (HE (c := 0) ltac:(lia) Hi Hj) as E0. pose proof (HE (c := 1) ltac:(lia) Hi Hj) as E1. pose proof (HE (c := 2) ltac:(lia) Hi Hj) as E2.
  pose proof (HH (c := 0) ltac:(lia) Hi Hj) as H0. pose proof (HH (c := 1) ltac:(lia) Hi Hj) as H1. pose proof (HH (c := 2) ltac:(lia) Hi Hj) as H2.
  unfold fcurl_e, fcurl_h, fcurl, de, dh, roll_forward, roll_back in E0, E1, E2, H0, H1, H2. cbn [pick] in E0, E1, E2, H0, H1, H2.
  assert (Lf : Nat.modulo (l + 1) (dim g 2) = (l + 1)%nat) by (apply Nat.mod_small; lia).
  assert (Lb : Nat.modulo (l + dim g 2 - 1) (dim g 2) = (l - 1)%nat).
  { replace (l + dim g 2 - 1)%nat with (l - 1 + 1 * dim g 2)%nat by lia. rewrite Nat.mod_add by lia. apply Nat.mod_small. lia. }
  rewrite Lf in *. rewrite Lb in *.
  assert (EX : E 0%nat i j (l + 1)%nat = E 0%nat i j l + dxe g 2 l * (- ki * omega * mu 1%nat i j l * H 1%nat i j l + (E 2%nat (fw i n0) j l - E 2%nat i j l) / dxe g 0 i)) by (rewrite <- E1; field; auto).
  assert (EY : E 1%nat i j (l + 1)%nat = E 1%nat i j l + dxe g 2 l * ((E 2%nat i (fw j n1) l - E 2%nat i j l) / dxe g 1 j - - ki * omega * mu 0%nat i j l * H 0%nat i j l)) by (rewrite <- E0; field; auto).
  assert (HX : H 0%nat i j (l - 1)%nat = H 0%nat i j l - dxh g 2 l * (ki * omega * eps 1%nat i j l * E 1%nat i j l + (H 2%nat i j l - H 2%nat (bk i n0) j l) / dxh g 0 i)) by (rewrite <- H1; field; auto).
  assert (HY : H 1%nat i j (l - 1)%nat = H 1%nat i j l - dxh g 2 l * ((H 2%nat i j l - H 2%nat i (bk j n1) l) / dxh g 1 j - ki * omega * eps 0%nat i j l * E 0%nat i j l)) by (rewrite <- H0; field; auto).
  assert (EZ : dxe g 1 j * (E 1%nat (fw i n0) j l - E 1%nat i j l) - dxe g 0 i * (E 0%nat i (fw j n1) l - E 0%nat i j l) = - ki * omega * mu 2%nat i j l * H 2%nat i j l * dxe g 0 i * dxe g 1 j) by (rewrite <- E2; field; auto).
  assert (HZ : dxh g 1 j * (kconj (H 1%nat i j l) - kconj (H 1%nat (bk i n0) j l)) - dxh g 0 i * (kconj (H 0%nat i j l) - kconj (H 0%nat i (bk j n1) l)) = - ki * omega * eps 2%nat i j l * kconj (E 2%nat i j l) * dxh g 0 i * dxh g 1 j).
  { assert (Z : dxh g 1 j * (H 1%nat i j l - H 1%nat (bk i n0) j l) - dxh g 0 i * (H 0%nat i j l - H 0%nat i (bk j n1) l) = ki * omega * eps 2%nat i j l * E 2%nat i j l * dxh g 0 i * dxh g 1 j) by (rewrite <- H2; field; auto).
    apply (f_equal kconj) in Z. repeat rewrite ?kconj_mul, ?kconj_sub, ?kconj_i, ?Homega, ?R2, ?R4 in Z. rewrite (proj1 (Hreal (c := 2) ltac:(lia) Hi Hj)) in Z. exact Z. }
  apply (f_equal kconj) in HX, HY.
  rewrite kconj_sub, kconj_mul, R6 in HX, HY. rewrite kconj_add, kconj_div, kconj_sub in HX by auto. rewrite kconj_sub, kconj_div, kconj_sub in HY by auto.
  repeat rewrite ?kconj_mul, ?kconj_i, ?Homega, ?R2, ?R4 in HX. repeat rewrite ?kconj_mul, ?kconj_i, ?Homega, ?R2, ?R4 in HY.
  rewrite (proj1 (Hreal (c := 1) ltac:(lia) Hi Hj)) in HX. rewrite (proj1 (Hreal (c := 0) ltac:(lia) Hi Hj)) in HY.
  unfold term. replace (l + 1 - 1)%nat with l by lia. rewrite EX, EY, HX, HY. unfold A, B, X, Y. rewrite !FB by auto.
  unfold W.
  transitivity (ki * (omega * (- dxe g 2 l * (mu 1%nat i j l * (kconj (H 1%nat i j l) * H 1%nat i j l) * dxe g 0 i * dxh g 1 j + mu 0%nat i j l * (kconj (H 0%nat i j l) * H 0%nat i j l) * dxh g 0 i * dxe g 1 j)
    + dxh g 2 l * (eps 0%nat i j l * (kconj (E 0%nat i j l) * E 0%nat i j l) * dxe g 0 i * dxh g 1 j + eps 1%nat i j l * (kconj (E 1%nat i j l) * E 1%nat i j l) * dxh g 0 i * dxe g 1 j)))
    + dxe g 2 l * (dxh g 1 j * kconj (H 1%nat i j l) * (E 2%nat (fw i n0) j l - E 2%nat i j l) - dxh g 0 i * kconj (H 0%nat i j l) * (E 2%nat i (fw j n1) l - E 2%nat i j l))
    + dxh g 2 l * (dxe g 0 i * E 0%nat i j l * (kconj (H 2%nat i j l) - kconj (H 2%nat i (bk j n1) l)) - dxe g 1 j * E 1%nat i j l * (kconj (H 2%nat i j l) - kconj (H 2%nat (bk i n0) j l)))).
  { field. auto. }
  assert (P1 : dxe g 2 l * (dxh g 1 j * kconj (H 1%nat i j l) * (E 2%nat (fw i n0) j l - E 2%nat i j l) - dxh g 0 i * kconj (H 0%nat i j l) * (E 2%nat i (fw j n1) l - E 2%nat i j l))
    = dxe g 2 l * (dxh g 1 j * (kconj (H 1%nat i j l) * E 2%nat (fw i n0) j l - kconj (H 1%nat (bk i n0) j l) * E 2%nat i j l) - dxh g 0 i * (kconj (H 0%nat i j l) * E 2%nat i (fw j n1) l - kconj (H 0%nat i (bk j n1) l) * E 2%nat i j l))
      - dxe g 2 l * E 2%nat i j l * (dxh g 1 j * (kconj (H 1%nat i j l) - kconj (H 1%nat (bk i n0) j l)) - dxh g 0 i * (kconj (H 0%nat i j l) - kconj (H 0%nat i (bk j n1) l)))) by ring.
  assert (P2 : dxh g 2 l * (dxe g 0 i * E 0%nat i j l * (kconj (H 2%nat i j l) - kconj (H 2%nat i (bk j n1) l)) - dxe g 1 j * E 1%nat i j l * (kconj (H 2%nat i j l) - kconj (H 2%nat (bk i n0) j l)))
    = dxh g 2 l * (dxe g 0 i * (E 0%nat i (fw j n1) l * kconj (H 2%nat i j l) - E 0%nat i j l * kconj (H 2%nat i (bk j n1) l)) - dxe g 1 j * (E 1%nat (fw i n0) j l * kconj (H 2%nat i j l) - E 1%nat i j l * kconj (H 2%nat (bk i n0) j l)))
      + dxh g 2 l * kconj (H 2%nat i j l) * (dxe g 1 j * (E 1%nat (fw i n0) j l - E 1%nat i j l) - dxe g 0 i * (E 0%nat i (fw j n1) l - E 0%nat i j l))) by ring.
  rewrite P1, P2, EZ, HZ. ring.
Qed.
Lemma flux_z : let S l := fsum n0 (fun i => fsum n1 (fun j => term l i j)) in S (l + 1)%nat + kconj (S (l + 1)%nat) = S l + kconj (S l).
Proof.
  intros S.
  assert (D : S (l + 1)%nat - S l = ki * fsum n0 (fun i => fsum n1 (fun j => W i j))).
  { unfold S. rewrite <- fsum_sub.
    rewrite (@fsum_ext K n0 _ (fun i => ki * fsum n1 (fun j => W i j)
      + fsum n1 (fun j => dxe g 2 l * (dxh g 1 j * (A i j - A (bk i n0) j)) - dxh g 2 l * (dxe g 1 j * (X i j - X (bk i n0) j)))
      + (- (dxe g 2 l * dxh g 0 i) * fsum n1 (fun j => B i j - B i (bk j n1)) + dxh g 2 l * dxe g 0 i * fsum n1 (fun j => Y i j - Y i (bk j n1))))).
    2:{ intros i Hi. rewrite <- fsum_sub. rewrite <- !fsum_scale, <- !fsum_add. apply fsum_ext. intros j Hj. rewrite term_diff by auto. ring. }
    rewrite !fsum_add. rewrite !fsum_scale.
    rewrite (@fsum_ext K n0 (fun i => - (dxe g 2 l * dxh g 0 i) * fsum n1 (fun j => B i j - B i (bk j n1))) (fun _ => 0)) by (intros i Hi; rewrite (fsum_cycle n1 (fun j => B i j)); ring).
    rewrite (@fsum_ext K n0 (fun i => dxh g 2 l * dxe g 0 i * fsum n1 (fun j => Y i j - Y i (bk j n1))) (fun _ => 0)) by (intros i Hi; rewrite (fsum_cycle n1 (fun j => Y i j)); ring).
    rewrite (@fsum_swap K n0 n1 (fun i j => dxe g 2 l * (dxh g 1 j * (A i j - A (bk i n0) j)) - dxh g 2 l * (dxe g 1 j * (X i j - X (bk i n0) j)))).
    rewrite (@fsum_ext K n1 (fun j => fsum n0 (fun i => dxe g 2 l * (dxh g 1 j * (A i j - A (bk i n0) j)) - dxh g 2 l * (dxe g 1 j * (X i j - X (bk i n0) j)))) (fun _ => 0)).
    2:{ intros j Hj. rewrite fsum_sub, !fsum_scale, (fsum_cycle n0 (fun i => A i j)), (fsum_cycle n0 (fun i => X i j)). ring. }
    rewrite (@fsum_zero K n1 (fun _ => 0)), (@fsum_zero K n0 (fun _ => 0)) by reflexivity. ring. }
  assert (R : kconj (fsum n0 (fun i => fsum n1 (fun j => W i j))) = fsum n0 (fun i => fsum n1 (fun j => W i j))).
  { rewrite kconj_fsum. apply fsum_ext. intros i Hi. rewrite kconj_fsum. apply fsum_ext. intros j Hj. apply W_real; auto. }
  assert (E1 : S (l + 1)%nat = S l + ki * fsum n0 (fun i => fsum n1 (fun j => W i j))) by (rewrite <- D; ring).
  rewrite E1, kconj_add, kconj_mul, kconj_i, R. ring.
Qed.
End Z.

Section Any.
Variable K : cfield.
Local Open Scope K_scope.
Add Field Kf9b : (k_field K).
Variable g : grid K.
Variables (axis : nat) (omega : K) (eps mu E H : field3 K) (l : nat).
Hypothesis Hax : (axis < 3)%nat.
Hypothesis Hl : (1 <= l)%nat.
Hypothesis Hl1 : (l + 1 < dim g axis)%nat.
Hypothesis Homega : kconj omega = omega.
Hypothesis Hreal : forall c x y z, (c < 3)%nat -> in_grid g x y z -> pick axis x y z = l -> kconj (eps c x y z) = eps c x y z /\ kconj (mu c x y z) = mu c x y z.
Hypothesis Hdx : forall a i, (a < 3)%nat -> (i < dim g a)%nat ->
  dxe g a i <> 0 /\ dxh g a i <> 0 /\ kconj (dxe g a i) = dxe g a i /\ kconj (dxh g a i) = dxh g a i.
Hypothesis HE : forall c x y z, (c < 3)%nat -> in_grid g x y z -> pick axis x y z = l -> fcurl_e g E c x y z = - ki * omega * mu c x y z * H c x y z.
Hypothesis HH : forall c x y z, (c < 3)%nat -> in_grid g x y z -> pick axis x y z = l -> fcurl_h g H c x y z = ki * omega * eps c x y z * E c x y z.
Let gr : grid K := Grid (fun k => dim g (order axis k)) (fun k => dxe g (order axis k)) (fun k => dxh g (order axis k)).
Let rot (f : field3 K) : field3 K := fun k => turned axis (f (order axis k)).
Theorem flux_conserved_lemma : flux g axis E H (l + 1) + kconj (flux g axis E H (l + 1)) = flux g axis E H l + kconj (flux g axis E H l).
Proof.
  refine (@flux_z K gr omega (rot eps) (rot mu) (rot E) (rot H) l Hl _ Homega _ _ _ _).
  - destruct axis as [|[|[|?]]]; try lia; exact Hl1.
  - intros c i j Hc Hi Hj. unfold rot.
    destruct axis as [|[|[|?]]]; try lia; destruct c as [|[|[|?]]]; try lia; cbn in *; apply Hreal; try lia; unfold in_grid; cbn; lia.
  - intros a i Ha Hi. destruct axis as [|[|[|?]]]; try lia; destruct a as [|[|[|?]]]; try lia; cbn in *; apply Hdx; auto.
  - intros c i j Hc Hi Hj. unfold rot.
    destruct axis as [|[|[|?]]]; try lia; destruct c as [|[|[|?]]]; try lia; cbn in *; (etransitivity; [|apply HE; try lia; unfold in_grid; cbn; lia]); reflexivity.
  - intros c i j Hc Hi Hj. unfold rot.
    destruct axis as [|[|[|?]]]; try lia; destruct c as [|[|[|?]]]; try lia; cbn in *; (etransitivity; [|apply HH; try lia; unfold in_grid; cbn; lia]); reflexivity.
Qed.
End Any.
