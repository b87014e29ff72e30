(** Skewed periodic lattices and plane waves. *)
From Verif Require Import Base CField Maxwell_Model Maxwell_Spec CplxField GMath_Model Fs_Model.
From Coq Require Import ZArith Reals.
Set Implicit Arguments.

(** shifts which the operators can represent: none along the axis itself, none longer than
    the grid, and an axis towards which another one is shifted is not shifted itself *)
Definition good_shift (dim : nat -> nat) (so : nat -> nat -> Z) : Prop :=
  forall a b, (a < 3)%nat -> (b < 3)%nat ->
    so a a = 0%Z /\ (- Z.of_nat (dim b) <= so a b <= Z.of_nat (dim b))%Z /\
    (so a b <> 0%Z -> forall c, (c < 3)%nat -> so b c = 0%Z).
(** moving by one period along any axis multiplies by u and shifts sideways *)
Definition skew_periodic (K : cfield) (dim : nat -> nat) (u : nat -> K) (so : nat -> nat -> Z) (F : lattice K) : Prop :=
  forall a p, (a < 3)%nat -> F (step a (Z.of_nat (dim a)) p) = kmul (u a) (F (fun b => (p b + so a b)%Z)).

Local Open Scope R_scope.
(** exp(-i k.r) at the lattice point with indices p, cells of sizes h *)
Definition wave (k h : nat -> R) : lattice CC := fun p =>
  turn (- (k 0%nat * (h 0%nat * IZR (p 0%nat)) + k 1%nat * (h 1%nat * IZR (p 1%nat)) + k 2%nat * (h 2%nat * IZR (p 2%nat)))).
Definition wave_field (k h : nat -> R) (A : nat -> CC) : field3 CC := fun c x y z =>
  kmul (A c) (wave k h (fun b => Z.of_nat (match b with 0 => x | 1 => y | _ => z end)%nat)).
(** forward and backward difference quotients of exp(-i k.r) along an axis, divided by it *)
Definition forward_factor (k h : nat -> R) (a : nat) : CC := kdiv (ksub (turn (- (k a * h a))) k1) (h a, 0).
Definition back_factor (k h : nat -> R) (a : nat) : CC := kdiv (ksub k1 (turn (k a * h a))) (h a, 0).
(** the squared wave number on the grid: the sum of (2/h sin(k h/2))^2 *)
Definition grid_wavenumber2 (k h : nat -> R) : R :=
  Rsqr (2 / h 0%nat * sin (k 0%nat * h 0%nat / 2)) + Rsqr (2 / h 1%nat * sin (k 1%nat * h 1%nat / 2)) + Rsqr (2 / h 2%nat * sin (k 2%nat * h 2%nat / 2)).
(** no charges: the backward divergence vanishes *)
Definition transverse (k h : nat -> R) (A : nat -> CC) : Prop :=
  kadd (kadd (kmul (back_factor k h 0) (A 0%nat)) (kmul (back_factor k h 1) (A 1%nat))) (kmul (back_factor k h 2) (A 2%nat)) = k0.
