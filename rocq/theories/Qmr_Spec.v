(** What a user expects of the generic solver. *)
From Verif Require Import Base CField Maxwell_Model Maxwell_Spec.
From Coq Require Import List Arith.
Import ListNotations.

(** every hundredth element of a list, with its number counted from 1 *)
Definition every_hundredth {V : Type} (xs : list V) (out : list (nat * V)) : Prop :=
  forall i x, In (i, x) out <-> i <> 0 /\ i mod 100 = 0 /\ nth_error xs (i - 1) = Some x.
(** numbers increase *)
Definition in_order {V : Type} (out : list (nat * V)) : Prop :=
  forall i j a b, i < j -> nth_error out i = Some a -> nth_error out j = Some b -> fst a < fst b.
(** [inner] finds a solution for the matrix A whenever there is one *)
Definition exact_for {K : cfield} (n : nat) (inner : mat K -> list K -> list K) (A : mat K) : Prop :=
  forall y, length y = n -> length (inner A (mv n A y)) = n /\ mv n A (inner A (mv n A y)) = mv n A y.
(** the operator of the problem, without Bloch phases *)
Definition operator {K : cfield} (g : grid K) (omega : K) eps mu pec pmc : mat K :=
  e_full g (no_bloch K) omega eps mu pec pmc.
(** x solves A x = -i omega J *)
Definition solution {K : cfield} (g : grid K) (A : mat K) (omega : K) (J x : list K) : Prop :=
  length x = vlen g /\ mv (vlen g) A x = vscale (- ki * omega)%K J.
