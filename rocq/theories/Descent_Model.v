(** Model of what /repo/spins/invdes/optimization/gradient_descent.py does to a bounded parametrization; the
    optimizers themselves are in Opt_Model.v, the parametrizations in Param_Model.v. *)
From Verif Require Import Base QTac Opt_Model Param_Model.
Set Implicit Arguments.

(** DirectParam.project, parametrization.py:147-156, on vectors by index; [None] is an infinite bound *)
Definition boxed (lo hi : nat -> option Q) (x : vec) : vec := fun i => clip1 (x i) (lo i) (hi i).
(** GradientDescent.iterate as the driver sees it, gradient_descent.py:122-140: it returns None *)
Definition gd_step (grad : vec -> vec) (lo hi : nat -> option Q) (alpha : Q) (_ : Z) (x : vec) : vec * bool :=
  (gd_iterate grad (boxed lo hi) alpha x, false).
(** the same with normalize_gradient=True, lines 127-130; [norm] is np.linalg.norm of the gradient *)
Definition gd_normalized (grad : vec -> vec) (norm : vec -> Q) (lo hi : nat -> option Q) (alpha : Q) (_ : Z) (x : vec) : vec * bool :=
  (gd_iterate (fun x i => grad x i / norm (grad x)) (boxed lo hi) alpha x, false).
