(** Specification vocabulary for arithmetic with goos functions: values of formulas, broadcasting,
    the terms that an operator joins. *)
From Coq Require Import Reals ZArith.
From Verif Require Import Base Shape_Model GMath_Model.
From Verif Require GMath_Spec.
Set Implicit Arguments.
Local Open Scope R_scope.

(** the value of a formula, given those of the variables *)
Fixpoint evaluate (env : nat -> res arr) (e : expr) : res arr :=
  match e with
  | Node (KVar x) _ => env x
  | Node k l =>
      bind ((fix all (l : list expr) : res (list arr) :=
               match l with [] => Ok [] | e :: l' => bind (evaluate env e) (fun v => bind (all l') (fun vs => Ok (v :: vs))) end) l)
           (keval k)
  end.
Definition value (env : nat -> res arr) (x : operand) : res arr :=
  match x with
  | PNum z c => Ok (mkarr c [z])
  | PArr a => Ok a
  | PObj e => evaluate env e
  | POther => Err TypeError
  end.

(** entry [j] after repeating a single entry *)
Definition bentry (a : arr) (j : nat) : C := GMath_Spec.entry a (if Nat.eqb (size a) 1 then 0%nat else j).
(** [c] is [op] of [a] and [b], entry by entry, a single entry standing for as many as needed *)
Definition entrywise (op : C -> C -> C) (a b c : arr) : Prop :=
  (size a = 1 \/ size a = size c)%nat /\ (size b = 1 \/ size b = size c)%nat /\ (size c = size a \/ size c = size b) /\
  forall j, (j < size c)%nat -> GMath_Spec.entry c j = op (bentry a j) (bentry b j).
Definition csub (x y : C) : C := cadd x (cscale (-1) y).
Definition cdiv (x y : C) : C := cmul x (cinv y).

(** what a formula adds up, what it multiplies *)
Definition as_expr (x : operand) : list expr :=
  match x with PNum z c => [const_num z c] | PArr a => [const_arr a] | PObj e => [e] | POther => [] end.
Definition summands (x : operand) : list expr := match x with PObj (Node KSum l) => l | _ => as_expr x end.
Definition factors (x : operand) : list expr := match x with PObj (Node KProd l) => l | _ => as_expr x end.
(** The values that Sum and Product accept: all of the same size, or at most one that is not a
    single number. *)
Definition mixable (vs : list arr) : Prop :=
  (forall a b, In a vs -> In b vs -> size a = size b) \/ (length (filter (fun a => Nat.ltb 1 (size a)) vs) <= 1)%nat.
