(** What it means that the returned point is the optimum of a problem. *)
From Coq Require Import Reals.
From Verif Require Import Base Obj_Model Obj_Spec Bench_Model.
Set Implicit Arguments.
Local Open Scope R_scope.

Definition ident (l : list R) : list R := l.
Definition valued (e : expr) (x : list R) (v : R) : Prop := value ident x e = Ok (VS v).
Definition in_box (P : problem) (x : list R) : Prop :=
  length x = length (start P) /\ Forall (fun v => low P <= v <= high P) x.
(** points within the bounds at which the equality constraints are zero and the inequality constraints are not
    positive *)
Definition feasible (P : problem) (x : list R) : Prop :=
  in_box P x /\ Forall (fun c => valued c x 0) (eqs P) /\ Forall (fun c => exists v, valued c x v /\ v <= 0) (ineqs P).
(** every point has an objective value, and [s] is the only feasible point where it is smallest *)
Definition solves (P : problem) (s : list R) : Prop :=
  (forall x, length x = length (start P) -> exists v, valued (obj_of P) x v) /\
  feasible P s /\ in_box P (start P) /\
  forall x vs vx, feasible P x -> x <> s -> valued (obj_of P) s vs -> valued (obj_of P) x vx -> vs < vx.
(** as [solves], among points nearer than [d] (in one variable) *)
Definition solves_locally (P : problem) (s d : R) : Prop :=
  (forall x, exists v, valued (obj_of P) [x] v) /\ feasible P [s] /\
  forall x vs vx, feasible P [x] -> x <> s -> Rabs (x - s) < d -> valued (obj_of P) [s] vs -> valued (obj_of P) [x] vx -> vs < vx.
