(** Model of the objective functions of invdes and of their reverse-mode differentiation.

    /repo/spins/invdes/problem/objective.py
    /repo/spins/invdes/problem/graph_executor.py

    Simplifications.  Numbers are the real numbers (no rounding, no complex values).  Every node has
    a scalar value except the [Variable], whose value is the structure vector; arithmetic on
    array-valued nodes is not modelled ([NotImplementedError] below).  Where numpy would produce nan
    or inf the model has the error value [ValueError], since the result is not a real number. *)
From Verif Require Import Base GraphExec_Model.
From Coq Require Import Reals ZArith.
Set Implicit Arguments.
Local Open Scope R_scope.

Inductive val := VS (r : R) | VV (l : list R).

(** The classes of objective.py; the parameters are the attributes set by the constructors.
    [KExt] is any other new-style function ([eval], [grad], [heavy_compute]), [KOld] an old-style
    function: [calculate_objective_function] and [calculate_gradient] as functions of the vector of
    the parametrization. *)
Inductive kind :=
| KVar                          (* Variable, 337-361 *)
| KConst (c : R)                (* Constant, 364-426 *)
| KParam (c : R)                (* Parameter, 429-467 *)
| KSlice (i shape : nat)        (* ValueSlice, 470-502; nonnegative index *)
| KSum                          (* Sum, 505-557 *)
| KProd                         (* Product, 560-614 *)
| KPow (p : R)                  (* Power, 617-640 *)
| KAbs                          (* AbsoluteValue, 653-673, real input *)
| KPlus (alpha p : R)           (* IndicatorPlus, 676-712 *)
| KMin (beta p : R)             (* IndicatorMin, 715-750 *)
| KRange (beta alpha p : R)     (* PowerComparison, 753-796 *)
| KLse                          (* LogSumExp, 799-831 *)
| KSoft                         (* SoftmaxAverage, 834-873 *)
| KReal                         (* RealPart, 876-891, real input *)
| KExt (heavy : bool) (fn : list R -> res R) (gr : list R -> R -> res (list R))
| KOld (fn : list R -> R) (gr : list R -> list R).

(** [x ** p] for floats.  The error stands for nan, inf and complex results. *)
Definition powf (x p : R) : res R :=
  if Rlt_dec 0 x then Ok (Rpower x p)
  else if Req_EM_T p (IZR (Int_part p)) then
    (if Req_EM_T x 0
     then if Z.ltb (Int_part p) 0 then Err ValueError else Ok (powerRZ x (Int_part p))
     else Ok (powerRZ x (Int_part p)))
  else if Req_EM_T x 0 then if Rlt_dec 0 p then Ok 0 else Err ValueError
  else Err ValueError.

Definition scalar (v : val) : res R := match v with VS r => Ok r | VV _ => Err NotImplementedError end.
Definition scalars (vs : list val) : res (list R) := mapM scalar vs.
(** [input_vals[0]] *)
Definition first (l : list R) : res R := match l with [] => Err IndexError | x :: _ => Ok x end.
(** [sum(...)], [np.prod(...)] *)
Definition rsum (l : list R) : R := fold_right Rplus 0 l.
Definition rprod (l : list R) : R := fold_right Rmult 1 l.
(** [np.max] of a nonempty list. *)
Definition rmax (x : R) (l : list R) : R := fold_left Rmax l x.
(** Comparison results used as numbers. *)
Definition above (x a : R) : R := if Rlt_dec a x then 1 else 0.
(** [np.sign] *)
Definition sign (x : R) : R := if Rlt_dec 0 x then 1 else if Rlt_dec x 0 then -1 else 0.

(** ** The [eval] methods.  [p] is the vector of the parametrization, used by old-style functions
    (graph_executor.py:119-122, 144-149). *)
Definition plus_term (x alpha p : R) : res R :=
  bind (powf (Rabs (x - alpha)) p) (fun y => Ok (above x alpha * y)).
Definition min_term (x beta p : R) : res R :=
  bind (powf (Rabs (beta - x)) p) (fun y => Ok (above beta x * y)).

Definition eval_scalar (k : kind) (l : list R) : res R :=
  match k with
  | KSum => Ok (rsum l)                                                       (* 531-532 *)
  | KProd => Ok (rprod l)                                                     (* 580-584 *)
  | KPow p => bind (first l) (fun x => powf x p)                              (* 632-633 *)
  | KAbs => bind (first l) (fun x => Ok (Rabs x))                             (* 664-665 *)
  | KPlus alpha p => bind (first l) (fun x => plus_term x alpha p)            (* 698-700 *)
  | KMin beta p => bind (first l) (fun x => min_term x beta p)                (* 737-739 *)
  | KRange beta alpha p =>                                                    (* 776-781 *)
      bind (first l) (fun x => bind (min_term x beta p) (fun b =>
      bind (plus_term x alpha p) (fun a => Ok (a + b))))
  | KLse => match l with                                                      (* 816-818 *)
            | [] => Err ValueError
            | x :: l' => let m := rmax x l' in Ok (m + ln (rsum (map (fun y => exp (y - m)) l)))
            end
  | KSoft => match l with                                                     (* 851-855 *)
             | [] => Err ValueError
             | x :: l' => let m := rmax x l' in
                          let w := map (fun y => exp (y - m)) l in
                          Ok (rsum (map (fun yw => fst yw * snd yw) (combine l w)) / rsum w)
             end
  | KReal => first l                                                          (* 887-888 *)
  | KExt _ fn _ => fn l
  | _ => Err NotImplementedError
  end.

Definition keval (p : list R) (k : kind) (ivs : list val) : res val :=
  match k with
  | KVar => Err NotImplementedError       (* no eval method: 94-104 *)
  | KConst c | KParam c => Ok (VS c)
  | KOld fn _ => Ok (VS (fn p))
  | KSlice i _ => match ivs with                                              (* 492-493 *)
                  | VV l :: _ => match nth_error l i with Some r => Ok (VS r) | None => Err IndexError end
                  | VS _ :: _ => Err TypeError
                  | [] => Err IndexError
                  end
  | _ => bind (scalars ivs) (fun l => bind (eval_scalar k l) (fun r => Ok (VS r)))
  end.

(** ** The [grad] methods. *)
Inductive grad := GS (r : R) | GV (l : list R).

Definition plus_slope (x alpha p : R) : res R :=                              (* 704-707, 785-789 *)
  let d := x - alpha in
  bind (powf (Rabs d) (p - 1)) (fun y => Ok (above x alpha * p * y * sign d)).
Definition min_slope (x beta p : R) : res R :=                                (* 743-746, 786-791 *)
  let d := beta - x in
  bind (powf (Rabs d) (p - 1)) (fun y => Ok (above beta x * p * y * sign d * -1)).

(** [grads] of Product.grad, 586-594. *)
Definition prod_grads (l : list R) (g : R) : list R :=
  map (fun i => rprod (firstn i l) * rprod (skipn (S i) l) * g) (seq 0 (length l)).

Definition grad_scalar (k : kind) (l : list R) (g : R) : res (list R) :=
  match k with
  | KSum => Ok (repeat g (length l))                                          (* 534-536 *)
  | KProd => Ok (prod_grads l g)
  | KPow p => bind (first l) (fun x => bind (powf x (p - 1)) (fun y => Ok [g * p * y]))   (* 635-637 *)
  | KAbs => bind (first l) (fun x =>                                          (* 667-670 *)
      if Req_EM_T x 0 then Err ValueError else Ok [g * (x / Rabs x)])
  | KPlus alpha p => bind (first l) (fun x => bind (plus_slope x alpha p) (fun s => Ok [g * s]))
  | KMin beta p => bind (first l) (fun x => bind (min_slope x beta p) (fun s => Ok [g * s]))
  | KRange beta alpha p =>
      bind (first l) (fun x => bind (plus_slope x alpha p) (fun a =>
      bind (min_slope x beta p) (fun b => Ok [g * (b + a)])))
  | KLse => match l with                                                      (* 820-827 *)
            | [] => Err ValueError
            | x :: l' => let m := rmax x l' in
                         let denom := rsum (map (fun y => exp (y - m)) l) in
                         Ok (map (fun y => g * (1 / denom * exp (y - m))) l)
            end
  | KSoft => match l with                                                     (* 857-869 *)
             | [] => Err ValueError
             | x :: l' => let m := rmax x l' in
                          let w := map (fun y => exp (y - m)) l in
                          let num := rsum (map (fun yw => fst yw * snd yw) (combine l w)) in
                          let denom := rsum w in
                          Ok (map (fun yw => g * (((snd yw + fst yw * snd yw) * denom - num * snd yw) / (denom * denom)))
                                  (combine l w))
             end
  | KReal => Ok [g]                                                           (* 890-891 *)
  | KExt _ _ gr => gr l g
  | _ => Err NotImplementedError
  end.

(** [grad_res = np.zeros(shape); grad_res[index] = grad_val], 497-499. *)
Definition one_hot (n i : nat) (r : R) : list R := map (fun j => if Nat.eqb j i then r else 0) (seq 0 n).

Definition kgrad (k : kind) (ivs : list val) (g : grad) : res (list grad) :=
  match k with
  | KVar => Ok []                                                             (* 356-358 *)
  | KConst _ | KParam _ => Ok [GS 0]                                          (* 395-397, 462-464 *)
  | KOld _ _ => Err NotImplementedError   (* never called *)
  | KSlice i n => match g with
                  | GS r => if Nat.ltb i n then Ok [GV (one_hot n i r)] else Err IndexError
                  | GV _ => Err ValueError
                  end
  | _ => match g with
         | GS r => bind (scalars ivs) (fun l => bind (grad_scalar k l r) (fun gs => Ok (map GS gs)))
         | GV _ => Err NotImplementedError
         end
  end.

(** [grad_vals[next_node] += next_fun_grad] with numpy broadcasting. *)
Definition gadd (a b : grad) : res grad :=
  match a, b with
  | GS x, GS y => Ok (GS (x + y))
  | GS x, GV l => Ok (GV (map (fun y => x + y) l))
  | GV l, GS y => Ok (GV (map (fun x => x + y) l))
  | GV l, GV l' => if Nat.eqb (length l) (length l')
                   then Ok (GV (map (fun xy => fst xy + snd xy) (combine l l'))) else Err ValueError
  end.

(** ** graph_executor.py *)
Section Exec.
(** the object store: class and [_inputs] of every function object. *)
Variable kinds : nat -> kind.
Variable inputs : nat -> list nat.
(** iteration order of Python sets, see GraphExec_Model. *)
Variable ord : list nat -> list nat -> list nat.
Variable fuel : nat.
(** [param.get_structure()] and [param.calculate_gradient()] (one row per entry of the structure),
    as functions of the parametrization's vector. *)
Variable structure : list R -> list R.
Variable jac : list R -> list (list R).

Definition is_var (n : nat) : bool := match kinds n with KVar => true | _ => false end.
Definition is_old (n : nat) : bool := match kinds n with KOld _ _ => true | _ => false end.
(** 468-475 *)
Definition is_heavy (n : nat) : bool := match kinds n with KExt h _ _ => h | _ => false end.

(** 80-85 and 222-231: at most one [Variable], set to the structure. *)
Definition known_vals (g : graph) (p : list R) : res (dict val) :=
  match filter is_var (keys g) with
  | [] => Ok dempty
  | [v] => Ok (dset dempty v (VV (structure p)))
  | _ => Err ValueError
  end.

(** [eval_fun] with one function, 41-92; it is [calculate_objective_function], 83-92 of objective.py. *)
Definition objective_function (out : nat) (p : list R) : res val :=
  bind (build_graph inputs fuel [out]) (fun g =>
  bind (top_sort g is_heavy ord) (fun sched =>
  bind (known_vals g p) (fun start =>
  bind (eval_fun_vals g is_heavy (fun n ivs => keval p (kinds n) ivs) sched start) (fun vals =>
  dget vals out)))).

Section Backward.
Variable g : graph.
Variable vals : dict val.
Variable p : list R.

(** 278-281 and 309-311 *)
Fixpoint add_all (cs : list nat) (gs : list grad) (grads : dict grad) : res (dict grad) :=
  match cs, gs with
  | c :: cs', x :: gs' => bind (dget grads c) (fun y => bind (gadd y x) (fun z => add_all cs' gs' (dset grads c z)))
  | _, _ => Ok grads
  end.

(** [np.dot(grad_vals[node], old_grad)], 268 *)
Definition np_dot (a : grad) (l : list R) : res (list R) :=
  match a with GS r => Ok (map (fun x => r * x) l) | GV _ => Err ValueError end.

(** one node that is not heavy, 264-281; the state is (grad_vals, old_node_grads). *)
Definition back_light (st : dict grad * list (list R)) (n : nat) : res (dict grad * list (list R)) :=
  let (grads, olds) := st in
  match kinds n with
  | KOld _ gr => bind (dget grads n) (fun a => bind (np_dot a (gr p)) (fun o => Ok (grads, olds ++ [o])))
  | k => bind (get_inputs g vals n) (fun ivs => bind (dget grads n) (fun a =>
         bind (kgrad k ivs a) (fun gs => bind (add_all (adj g n) gs grads) (fun grads' => Ok (grads', olds)))))
  end.

(** 308-311 *)
Fixpoint add_block (ns : list nat) (gss : list (list grad)) (grads : dict grad) : res (dict grad) :=
  match ns, gss with
  | n :: ns', gs :: gss' => bind (add_all (adj g n) gs grads) (add_block ns' gss')
  | _, _ => Ok grads
  end.

(** a block of heavy nodes, 297-311. *)
Definition back_block (st : dict grad * list (list R)) (blk : list nat) : res (dict grad * list (list R)) :=
  let (grads, olds) := st in
  bind (mapM (fun n => bind (get_inputs g vals n) (fun ivs => bind (dget grads n) (fun a => Ok (n, ivs, a)))) blk) (fun args =>
  bind (mapM (fun x => kgrad (kinds (fst (fst x))) (snd (fst x)) (snd x)) args) (fun gss =>
  bind (add_block blk gss grads) (fun grads' => Ok (grads', olds)))).

(** 252-317 *)
Fixpoint back_loop (sched blk : list nat) (st : dict grad * list (list R)) : res (dict grad * list (list R)) :=
  match sched with
  | [] => match blk with [] => Ok st | _ => back_block st blk end
  | n :: sched' =>
      if is_heavy n then back_loop sched' (blk ++ [n]) st
      else match blk with
           | [] => bind (back_light st n) (back_loop sched' [])
           | _ => bind (back_block st blk) (fun st' => bind (back_light st' n) (back_loop sched' []))
           end
  end.

(** 241-242 *)
Definition zero_grads (out : nat) : dict grad :=
  dset (fun n => if memb n (keys g) then Some (GS 0) else None) out (GS 1).
End Backward.

(** [np.array(grad_vals[in_node]) @ param.calculate_gradient()], 322-325; [m] columns. *)
Definition vec_mat (m : nat) (a : grad) (J : list (list R)) : res (list R) :=
  match a with
  | GS _ => Err ValueError
  | GV l => if Nat.eqb (length l) (length J)
            then Ok (map (fun j => rsum (map (fun xr => fst xr * nth j (snd xr) 0) (combine l J))) (seq 0 m))
            else Err ValueError
  end.

(** [np.sum(total_grads, axis=0)], 326 *)
Definition sum_rows (ls : list (list R)) : res grad :=
  match ls with
  | [] => Ok (GS 0)
  | l :: ls' => if forallb (fun l' => Nat.eqb (length l') (length l)) ls'
                then Ok (GV (map (fun j => rsum (map (fun r => nth j r 0) ls)) (seq 0 (length l))))
                else Err ValueError
  end.

(** [eval_grad], 189-326; it is [calculate_gradient], 72-81 of objective.py. *)
Definition gradient (out : nat) (p : list R) : res grad :=
  bind (build_graph inputs fuel [out]) (fun g =>
  bind (known_vals g p) (fun start =>
  bind (top_sort g is_heavy ord) (fun sched =>
  bind (eval_fun_vals g is_heavy (fun n ivs => keval p (kinds n) ivs) sched start) (fun vals =>
  bind (back_loop g vals p sched [] (zero_grads g out, [])) (fun st =>
  match filter is_var (keys g) with
  | [] => sum_rows (snd st)
  | v :: _ => bind (dget (fst st) v) (fun a => bind (vec_mat (length p) a (jac p)) (fun r => sum_rows (snd st ++ [r])))
  end))))).
End Exec.

(** ** Operators, objective.py:127-175.  An expression is an objective with its inputs written out. *)
Inductive expr := Node (k : kind) (l : list expr).

(** What can stand on the right of an operator: a Python number, a 0-dimensional numpy array, an
    objective, anything else. *)
Inductive operand := PNum (r : R) | PArr (r : R) | PObj (e : expr) | POther.
Definition const (r : R) : expr := Node (KConst r) [].

(** Sum.__add__, 538-551 *)
Definition sum_add (l : list expr) (x : operand) : res expr :=
  match x with
  | PObj (Node KSum l') => Ok (Node KSum (l ++ l'))
  | PObj e => Ok (Node KSum (l ++ [e]))
  | PNum r | PArr r => Ok (Node KSum (l ++ [const r]))
  | POther => Err TypeError
  end.
(** OptimizationFunction.__add__, 127-140 *)
Definition generic_add (e : expr) (x : operand) : res expr :=
  match x with
  | PObj (Node KSum l) => sum_add l (PObj e)
  | PObj o => Ok (Node KSum [e; o])
  | PNum r | PArr r => Ok (Node KSum [e; const r])
  | POther => Err TypeError
  end.
(** Constant.__add__, 399-407 *)
Definition const_add (c : R) (x : operand) : res expr :=
  match x with
  | PObj (Node (KConst d) _) => Ok (const (c + d))
  | PNum r | PArr r => Ok (const (c + r))
  | _ => generic_add (const c) x
  end.
Definition obj_add (e : expr) (x : operand) : res expr :=
  match e with
  | Node KSum l => sum_add l x
  | Node (KConst c) _ => const_add c x
  | _ => generic_add e x
  end.

(** Product.__mul__, 596-606 *)
Definition prod_mul (l : list expr) (x : operand) : res expr :=
  match x with
  | PObj (Node KProd l') => Ok (Node KProd (l ++ l'))
  | PObj e => Ok (Node KProd (l ++ [e]))
  | PNum r | PArr r => Ok (Node KProd (l ++ [const r]))
  | POther => Err TypeError
  end.
(** OptimizationFunction.__mul__, 142-153.  Lines 149-150 build a Sum for an array. *)
Definition generic_mul (e : expr) (x : operand) : res expr :=
  match x with
  | PObj (Node KProd l) => prod_mul l (PObj e)
  | PObj o => Ok (Node KProd [e; o])
  | PNum r => Ok (Node KProd [e; const r])
  | PArr r => Ok (Node KSum [e; const r])
  | POther => Err TypeError
  end.
(** Constant.__mul__, 409-417 *)
Definition const_mul (c : R) (x : operand) : res expr :=
  match x with
  | PObj (Node (KConst d) _) => Ok (const (c * d))
  | PNum r | PArr r => Ok (const (c * r))
  | _ => generic_mul (const c) x
  end.
Definition obj_mul (e : expr) (x : operand) : res expr :=
  match e with
  | Node KProd l => prod_mul l x
  | Node (KConst c) _ => const_mul c x
  | _ => generic_mul e x
  end.

(** __neg__, 174-175 and 419-420 *)
Definition obj_neg (e : expr) : res expr :=
  match e with
  | Node (KConst c) _ => Ok (const (- c))
  | _ => obj_mul e (PNum (-1))
  end.

(** __pow__, 155-160 and 422-423.  A Constant cannot be raised to an objective. *)
Definition obj_pow (e : expr) (x : operand) : res expr :=
  match e, x with
  | Node (KConst c) _, PNum r | Node (KConst c) _, PArr r => bind (powf c r) (fun y => Ok (const y))
  | Node (KConst c) _, _ => Err TypeError
  | _, PNum r => Ok (Node (KPow r) [e])
  | _, PObj (Node (KConst c) _) => Ok (Node (KPow c) [e])
  | _, _ => Err TypeError
  end.

(** The Python operators on numbers and objectives; arrays only on the right of an objective (an
    array on the left is numpy's business). *)
Definition obj (r : res expr) : res operand := bind r (fun e => Ok (PObj e)).
Definition py_add (a b : operand) : res operand :=
  match a, b with
  | PNum x, PNum y => Ok (PNum (x + y))
  | PObj e, _ => obj (obj_add e b)
  | PNum _, PObj e => obj (obj_add e a)            (* __radd__, 162-163 *)
  | _, _ => Err TypeError
  end.
Definition py_mul (a b : operand) : res operand :=
  match a, b with
  | PNum x, PNum y => Ok (PNum (x * y))
  | PObj e, _ => obj (obj_mul e b)
  | PNum _, PObj e => obj (obj_mul e a)            (* __rmul__, 165-166 *)
  | _, _ => Err TypeError
  end.
Definition py_neg (a : operand) : res operand :=
  match a with
  | PNum x => Ok (PNum (- x))
  | PArr x => Ok (PNum (- x))      (* numpy returns a scalar *)
  | PObj e => obj (obj_neg e)
  | POther => Err TypeError
  end.
Definition py_sub (a b : operand) : res operand :=
  match a, b with
  | PNum x, PNum y => Ok (PNum (x - y))
  | PObj _, _ => bind (py_neg b) (py_add a)                       (* __sub__, 168-169 *)
  | PNum _, PObj _ => bind (py_neg b) (fun nb => py_add nb a)     (* __rsub__, 171-172 *)
  | _, _ => Err TypeError
  end.
Definition py_pow (a b : operand) : res operand :=
  match a, b with
  | PNum x, PNum y => bind (powf x y) (fun z => Ok (PNum z))
  | PObj e, _ => obj (obj_pow e b)
  | _, _ => Err TypeError
  end.

(** [Sum(objectives, weights)], 522-529: [weights[i] * obj]. *)
Definition weighted_sum (ws : list R) (es : list expr) : res expr :=
  if Nat.ltb (length ws) (length es) then Err IndexError
  else bind (mapM (fun we => obj_mul (snd we) (PNum (fst we))) (combine ws es)) (fun l => Ok (Node KSum l)).
