(** What a user expects of HermiteParam. *)
From Coq Require Import Reals List.
Import ListNotations.
Open Scope R_scope.

(** v + h e_j *)
Definition bump (v : list R) (j : nat) (h : R) : list R := map (fun t => nth t v 0 + (if Nat.eqb t j then h else 0)) (seq 0 (length v)).
Definition in_bounds (lo up : R) (v : list R) : Prop := forall x, In x v -> lo <= x <= up.
