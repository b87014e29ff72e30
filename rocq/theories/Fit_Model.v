(** Model of the permittivity fitting objective and of the constraint evaluation of an
    optimization problem.

    /repo/spins/invdes/problem/structure_objectives.py:13-35  Fit2Eps
    /repo/spins/invdes/problem/objective.py:176-231, 278-307  calculate_objective_parallel,
      calculate_gradient_parallel, OptimizationProblem.calculate_constraints,
      OptimizationProblem.calculate_constraint_gradients

    Complex numbers are pairs of reals; the structure and its derivative are real.  The three arrays
    must have matching lengths (numpy would also broadcast arrays of length one, not modelled). *)
From Verif Require Import Base Obj_Model.
From Coq Require Import Reals.
Set Implicit Arguments.
Local Open Scope R_scope.

Definition cplx : Type := R * R.
Definition cadd (a b : cplx) : cplx := (fst a + fst b, snd a + snd b).
Definition csub (a b : cplx) : cplx := (fst a - fst b, snd a - snd b).
Definition cmul (a b : cplx) : cplx := (fst a * fst b - snd a * snd b, fst a * snd b + snd a * fst b).
Definition conj (a : cplx) : cplx := (fst a, - snd a).
Definition creal (r : R) : cplx := (r, 0).
Definition c0 : cplx := (0, 0).
Definition csum (l : list cplx) : cplx := fold_right cadd c0 l.

(** [u @ v] of two vectors *)
Definition cdot (u v : list cplx) : cplx := csum (map (fun xy => cmul (fst xy) (snd xy)) (combine u v)).
(** [S @ z] *)
Definition mat_vec (S : list (list cplx)) (z : list cplx) : list cplx := map (fun row => cdot row z) S.
(** [v @ S], [m] columns *)
Definition vec_mat_c (m : nat) (v : list cplx) (S : list (list cplx)) : list cplx :=
  map (fun j => cdot v (map (fun row => nth j row c0) S)) (seq 0 m).

Section Fit.
Variable eps_bg : list cplx.
Variable S : list (list cplx).
Variable eps : list cplx.
Variable structure : list R -> list R.
Variable jac : list R -> list (list R).

(** the shapes of the arrays fit *)
Definition fits (p : list R) : bool :=
  Nat.eqb (length eps_bg) (length S) && Nat.eqb (length eps) (length S)
  && forallb (fun row => Nat.eqb (length row) (length (structure p))) S.

(** [self.eps_bg + self.S @ z - self.eps], 26 and 30 *)
Definition fit_error (p : list R) : list cplx :=
  map (fun x => csub (cadd (fst (fst x)) (snd (fst x))) (snd x))
      (combine (combine eps_bg (mat_vec S (map creal (structure p)))) eps).

(** 24-26; [np.abs(x)**2] *)
Definition fit_objective (p : list R) : res R :=
  if fits p then Ok (rsum (map (fun x => fst x * fst x + snd x * snd x) (fit_error p))) else Err ValueError.

(** 28-32 *)
Definition fit_gradient (p : list R) : res (list R) :=
  if fits p && Nat.eqb (length (jac p)) (length (structure p))
  then Ok (map fst (vec_mat_c (length p) (vec_mat_c (length (structure p)) (map conj (fit_error p)) S)
                              (map (map creal) (jac p))))
  else Err ValueError.
End Fit.

(** ** Constraints.  [f] evaluates one constraint; the executor's [map] keeps the order and raises
    the error of the first constraint that failed. *)
Section Constraints.
Variable C V : Type.
Variable f : C -> res V.
(** 176-202, 205-231 *)
Definition parallel (objs : list C) : res (list V) :=
  match objs with
  | [] => Ok []
  | [o] => bind (f o) (fun v => Ok [v])
  | _ => mapM f objs
  end.
(** 278-293, 295-307 *)
Definition calculate_constraints (cons_eq cons_ineq : list C) : res (list V * list V) :=
  bind (parallel (cons_eq ++ cons_ineq)) (fun cons =>
  Ok (firstn (length cons_eq) cons, skipn (length cons_eq) cons)).
End Constraints.
