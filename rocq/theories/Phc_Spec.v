(** Vocabulary of the statements about photonic-crystal modes. *)
From Coq Require Import Reals.
From Verif Require Import Base CField GMath_Model CplxField Maxwell_Model Maxwell_Spec.
Set Implicit Arguments.

Section Spec.
Variable K : cfield.
Variable g : grid K.
Local Open Scope K_scope.
Local Notation N := (vlen g).

(** v is an eigenvector of A for the value x *)
Definition eigenpair (A : mat K) (x : K) (v : list K) : Prop :=
  length v = N /\ v <> zeros K N /\ mv N A v = vscale x v.
(** what is expected of the external eigenvalue routine called with the matrix A: k
    eigenpairs of A, or an exception *)
Definition eig_contract (eigs : mat K -> nat -> option (list K) -> res (list (K * list K))) (A : mat K) : Prop :=
  forall k v0 l, eigs A k v0 = Ok l -> length l = k /\ forall x v, In (x, v) l -> eigenpair A x v.
Definition square_root (r : K -> K) : Prop := forall x, r x * r x = x.
(** a field, not zero, that satisfies the wave equation without sources at frequency w *)
Definition e_resonance (ph : phases K) (eps : nat -> K) (w : K) (E : list K) : Prop :=
  length E = N /\ E <> zeros K N /\ mv N (e_full g ph w eps None None None) E = zeros K N.
Definition h_resonance (ph : phases K) (eps : nat -> K) (w : K) (H : list K) : Prop :=
  length H = N /\ H <> zeros K N /\ mv N (h_full g ph w eps None None None) H = zeros K N.
(** the boundary factors belong to a real Bloch vector, the two lists of cells having the
    same total length: the forward factor of E is the conjugate of the backward one of H *)
Definition real_bloch (ph : phases K) : Prop := forall a, (a < 3)%nat -> kconj (ue ph a) = wh ph a.
Definition real_values (f : nat -> K) : Prop := forall i, (i < N)%nat -> kconj (f i) = f i.
Definition nonzero_values (f : nat -> K) : Prop := forall i, (i < N)%nat -> f i <> 0.
(** volume of the cell around each component of H *)
Definition h_volume : field3 K := fun c x y z =>
  match c with
  | 0 => dxh g 0 x * dxe g 1 y * dxe g 2 z
  | 1 => dxe g 0 x * dxh g 1 y * dxe g 2 z
  | _ => dxe g 0 x * dxe g 1 y * dxh g 2 z
  end.
(** sum over the cells of conj(E1) eps E2 dV, and of conj(H1) H2 dV *)
Definition e_product (eps : nat -> K) (E1 E2 : list K) : K :=
  fsum N (fun i => at_ (vec g (p_squared g)) i * (eps i * (kconj (at_ E1 i) * at_ E2 i))).
Definition h_product (H1 H2 : list K) : K :=
  fsum N (fun i => at_ (vec g h_volume) i * (kconj (at_ H1 i) * at_ H2 i)).
(** all cells have the same size along each axis *)
Definition uniform_cells : Prop := forall a, (a < 3)%nat -> exists d : K, forall i, (i < dim g a)%nat -> dxe g a i = d /\ dxh g a i = d.
End Spec.
Arguments eigenpair {K}. Arguments square_root {K}. Arguments real_bloch {K}.

(** positive real numbers among the complex numbers *)
Definition positive (z : CC) : Prop := snd z = 0%R /\ (0 < fst z)%R.
Definition positive_cells (g : grid CC) : Prop :=
  forall a i, (a < 3)%nat -> (i < dim g a)%nat -> positive (dxe g a i) /\ positive (dxh g a i).
(** np.sqrt of complex numbers: the root with nonnegative real part *)
Definition principal_root (r : CC -> CC) : Prop := forall z, (r z * r z)%K = z /\ (0 <= fst (r z))%R.
(** such a root *)
Definition croot (z : C) : C :=
  let m := cabs z in
  (sqrt ((m + fst z) / 2), if Rle_dec 0 (snd z) then sqrt ((m - fst z) / 2) else (- sqrt ((m - fst z) / 2))%R).
