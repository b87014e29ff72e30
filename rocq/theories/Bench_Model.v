(** Model of the benchmark problems of /repo/spins/invdes/optimization/problems.py.
    Numbers are real; the expressions are those of Obj_Model.v. *)
From Coq Require Import Reals.
From Verif Require Import Base Obj_Model.
Set Implicit Arguments.
Local Open Scope R_scope.

(** [OptimizationProblem(obj, cons_eq, cons_ineq)], objective.py:245-266; a plain objective is a problem without
    constraints.  [DirectParam(initial, bounds)] with the same bounds for all entries. *)
Record problem := mkprob { obj_of : expr; eqs : list expr; ineqs : list expr; start : list R; low : R; high : R }.

(** [Variable(n)[i]].  A variable of one entry stands for that entry, as numpy's broadcasting does. *)
Definition entry_of (n i : nat) : expr := Node (KSlice i n) [Node KVar []].
Definition sum_of (l : list expr) : expr := Node KSum l.
Definition prod_of (l : list expr) : expr := Node KProd l.

(** build_single_variable_quadratic, problems.py:22-31 *)
Definition single_quadratic : problem * list R :=
  let x := entry_of 1 0 in
  (mkprob (sum_of [prod_of [x; x]; prod_of [const (-4); x]; const 1]) [] [] [0] (-10) 10, [2]).

(** build_single_variable_quartic, problems.py:34-60; [None] for other instances *)
Definition quartic_obj : expr :=
  let x := entry_of 1 0 in
  prod_of [sum_of [x; const (-2)]; sum_of [x; const (-3)]; sum_of [x; const 1]; sum_of [x; const 1]].
Definition quartic (instance : nat) : option (problem * list R) :=
  match instance with
  | 0%nat => Some (mkprob quartic_obj [] [] [1] (-10) 10, [(13 + sqrt 57) / 8])
  | 1%nat => Some (mkprob quartic_obj [] [] [0] (-10) 10, [-1])
  | _ => None
  end.

(** build_two_variable_quadratic, problems.py:63-76 *)
Definition two_quadratic : problem * list R :=
  let x := entry_of 2 0 in let y := entry_of 2 1 in
  (mkprob (sum_of [prod_of [x; x]; prod_of [const 2; y; y]; prod_of [const (-5); y]; prod_of [const (-2); x; y]])
     [] [] [0; 0] (-10) 10, [5 / 2; 5 / 2]).

(** build_rosenbrock_function, problems.py:79-96 *)
Definition rosenbrock (a b : R) : problem * list R :=
  let x := entry_of 2 0 in let y := entry_of 2 1 in
  let xa := sum_of [x; const (- a)] in
  let yx := sum_of [y; prod_of [const (-1); x; x]] in
  (mkprob (sum_of [prod_of [xa; xa]; prod_of [const b; prod_of [yx; yx]]]) [] [] [0; 0] (-10) 10, [a; a ^ 2]).

(** PlaneObjective, QuadObjective, SphereObjective, problems.py:99-145: value and gradient; the structure of a
    DirectParam is its vector *)
Definition sq_dist (l r : list R) : R := rsum (map (fun p => (fst p - snd p) ^ 2) (combine l r)).
Definition plane : expr := Node (KOld (fun l => - rsum l) (map (fun _ => -1))) [].
Definition quad (r0 : list R) : expr :=
  Node (KOld (fun l => sq_dist l r0) (fun l => map (fun p => 2 * (fst p - snd p)) (combine l r0))) [].
Definition sphere (radius : R) (r0 : list R) : expr :=
  Node (KOld (fun l => radius ^ 2 - sq_dist l r0) (fun l => map (fun p => -2 * (fst p - snd p)) (combine l r0))) [].

(** build_constrained_linear_problem, problems.py:148-162; the operator [-] is [obj_neg].  Other instances raise
    UnboundLocalError: [None]. *)
Definition circle (r0 : list R) : res expr := obj_neg (sphere 1 r0).
Definition linear_problem (instance : nat) : res (option (problem * list R)) :=
  bind (circle [0; 0]) (fun c0 => bind (circle [1; 0]) (fun c1 =>
  Ok (match instance with
      | 0%nat => Some (mkprob plane [c0] [c1] [1 / 2; 1 / 2] (-1) 1, [1 / sqrt 2; 1 / sqrt 2])
      | 1%nat => Some (mkprob plane [c1] [c0] [1 / 2; 1 / 2] (-1) 1, [1 / 2; sqrt (1 - (1 / 2) ^ 2)])
      | _ => None
      end))).
(** build_constrained_quadratic_problem, problems.py:165-183 *)
Definition quadratic_problem (instance : nat) : res (option (problem * list R)) :=
  bind (circle [0; 0]) (fun c0 => bind (circle [1; 0]) (fun c1 =>
  let obj := quad [- (1 / 2); 0] in
  Ok (match instance with
      | 0%nat => Some (mkprob obj [c1] [c0] [1 / 2; 1 / 2] (-1) 1, [0; 0])
      | 1%nat => Some (mkprob obj [c1] [] [1 / 2; 1 / 2] (-1) 1, [0; 0])
      | 2%nat => Some (mkprob obj [] [c0] [1 / 2; 1 / 2] (-1) 1, [- (1 / 2); 0])
      | _ => None
      end))).
(** build_constrained_ellipsoidal_problem, problems.py:186-196: [x_var**2 + 2 * y_var**2 - 5 * y_var
    - 2 * x_var * y_var] and [y_var - x_var + 1], written with the operators *)
Definition ellipsoidal : res (problem * list R) :=
  let x := PObj (entry_of 2 0) in let y := PObj (entry_of 2 1) in
  bind (py_pow x (PNum 2)) (fun x2 =>
  bind (bind (py_pow y (PNum 2)) (py_mul (PNum 2))) (fun y2 =>
  bind (py_mul (PNum 5) y) (fun y5 =>
  bind (bind (py_mul (PNum 2) x) (fun t => py_mul t y)) (fun xy =>
  bind (bind (bind (py_add x2 y2) (fun t => py_sub t y5)) (fun t => py_sub t xy)) (fun o =>
  bind (bind (py_sub y x) (fun t => py_add t (PNum 1))) (fun c =>
  match o, c with
  | PObj o, PObj c => Ok (mkprob o [] [c] [0; 0] (-10) 10, [7 / 2; 5 / 2])
  | _, _ => Err TypeError
  end)))))).
(** build_constrained_problem_list, problems.py:199-207 *)
Definition problem_list : res (list (problem * list R)) :=
  bind ellipsoidal (fun e =>
  bind (mapM linear_problem [0; 1]%nat) (fun l =>
  bind (mapM quadratic_problem [0; 1; 2]%nat) (fun q =>
  Ok (e :: flat_map (fun o => match o with Some p => [p] | None => [] end) (l ++ q))))).
