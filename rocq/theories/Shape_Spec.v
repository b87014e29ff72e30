(** Positions in nested lists of shapes and of gradients. *)
From Coq Require Import ZArith.
From Verif Require Import Base Shape_Model.
Set Implicit Arguments.

Section group.
Variables A G : Type.
(** the shape at a path *)
Fixpoint flow_at (f : flow A) (path : list nat) : option (flow A) :=
  match path, f with
  | [], _ => Some f
  | i :: p, Arr fs => match nth_error fs i with Some f' => flow_at f' p | None => None end
  | _, _ => None
  end.
Definition shape_at f path (a : A) (p : Z) : Prop := flow_at f path = Some (Single a p).
(** all shapes in reading order *)
Fixpoint shapes (f : flow A) : list (A * Z) :=
  match f with Single a p => [(a, p)] | Arr fs => flat_map shapes fs end.
(** the gradient at a path *)
Fixpoint grad_at (t : gflow G) (path : list nat) : option G :=
  match path, t with
  | [], GSingle g => Some g
  | i :: p, GArr gs => match nth_error gs i with Some t' => grad_at t' p | None => None end
  | _, _ => None
  end.
(** the gradient has the nesting of the inputs: one gradient per shape, one list per array *)
Inductive same_nesting : flow A -> gflow G -> Prop :=
| same_single a p g : same_nesting (Single a p) (GSingle g)
| same_arr fs gs : Forall2 same_nesting fs gs -> same_nesting (Arr fs) (GArr gs).
End group.
