(** Model of the optimizers: /repo/spins/invdes/optimization/gradient_descent.py,
    constrained_optimizer.py, scipy_optimizer.py and /repo/spins/goos/optimize.py.
    Floats are exact rationals.  Objective functions, gradients, projections, inner
    optimizers and square roots are arguments. *)
From Verif Require Import Base QTac.
From Coq Require Import ZArith Qabs.
Set Implicit Arguments.

(** *** GradientOptimizer, gradient_descent.py:17-96 *)
Section Loop.
Variable S : Type.
(** one call of iterate(): new optimizer state, and whether it returned something true
    (iterate of every subclass but AdaptiveGradientDescent returns None); the number of
    iterations completed so far is an argument because Adam reads it *)
Variable iterate : Z -> S -> res (S * bool).
Record ostate := OState { o_s : S; o_iters : Z; o_max : option Z }.
(** [if x:] for an optional integer *)
Definition truthy (x : option Z) : option Z :=
  match x with Some z => if Z.eqb z 0 then None else Some z | None => None end.
(** lines 72-81 *)
Definition stop_iter (iters : option Z) (o : ostate) : option Z :=
  match truthy iters, truthy (o_max o) with
  | None, None => None
  | Some a, None => Some (o_iters o + a)%Z
  | None, Some b => Some b
  | Some a, Some b => Some (Z.min (o_iters o + a) b)
  end.
(** lines 83-96; [seen] is what the callback was given, oldest first *)
Fixpoint opt_loop (fuel : nat) (stop : option Z) (o : ostate) (seen : list S) : res (ostate * list S) :=
  match fuel with
  | O => Err OutOfFuel
  | Datatypes.S f =>
      bind (iterate (o_iters o) (o_s o)) (fun r =>
      let o' := OState (fst r) (o_iters o + 1) (o_max o) in
      let seen' := seen ++ [fst r] in
      if (match truthy stop with Some s => Z.leb s (o_iters o') | None => false end) then Ok (o', seen')
      else if snd r then Ok (o', seen')
      else opt_loop f stop o' seen')
  end.
Definition optimize (fuel : nat) (iters : option Z) (o : ostate) : res (ostate * list S) :=
  opt_loop fuel (stop_iter iters o) o [].
End Loop.

(** vectors, by index *)
Definition vec := nat -> Q.

Section Descent.
Variables (f : vec -> Q) (grad : vec -> vec) (proj : vec -> vec).

(** *** GradientDescent.iterate without gradient normalization, lines 122-140 *)
Definition gd_iterate (alpha : Q) (x : vec) : vec := proj (fun i => x i - alpha * grad x i).

(** *** AdaptiveGradientDescent, lines 143-227; norm of the gradient as an argument *)
Variable norm : vec -> Q.
Variables (success failure tol : Q).
Record astate := AState { a_x : vec; a_alpha : Q; a_obj : Q }.
Definition adaptive_init (x : vec) (alpha : Q) : astate := AState x alpha (f x).
(** the inner loop, lines 203-227: decode(old_vector) restores the vector *)
Fixpoint adaptive_inner (fuel : nat) (g : vec) (s : astate) : res astate :=
  match fuel with
  | O => Err OutOfFuel
  | Datatypes.S k =>
      let x' := proj (fun i => a_x s i - a_alpha s * g i) in
      let v := f x' in
      if Qle_bool v (a_obj s) then Ok (AState x' (a_alpha s * success) v)
      else adaptive_inner k g (AState (a_x s) (a_alpha s * failure) (a_obj s))
  end.
Definition adaptive_iterate (fuel : nat) (_ : Z) (s : astate) : res (astate * bool) :=
  let g := grad (a_x s) in
  if qlt (norm g) tol then Ok (s, true)
  else bind (adaptive_inner fuel g s) (fun s' => Ok (s', false)).

(** *** Adagrad, RmsProp, Adam, Nag, lines 228-385; [sqrt] as an argument, [eps] the small
    constant.  The moments start as the number 0, which broadcasts.  These iterate methods raise
    nothing and return None. *)
Variable sqrt : Q -> Q.
Variables (alpha eps : Q).
Record mstate := MState { m_x : vec; m_g : vec; m_v : vec }.
Definition zero : vec := fun _ => 0.
Definition moments_init (x : vec) : mstate := MState x zero zero.
Definition adagrad_iterate (_ : Z) (s : mstate) : mstate * bool :=
  let g := grad (m_x s) in
  let v : vec := fun i => m_v s i + g i * g i in
  (MState (proj (fun i => m_x s i - alpha * g i / sqrt (v i + eps))) (m_g s) v, false).
Definition rmsprop_iterate (gamma : Q) (_ : Z) (s : mstate) : mstate * bool :=
  let g := grad (m_x s) in
  let v : vec := fun i => gamma * m_v s i + (1 - gamma) * (g i * g i) in
  (MState (proj (fun i => m_x s i - alpha * g i / sqrt (v i + eps))) (m_g s) v, false).
(** beta ** k for an integer k >= 0 *)
Fixpoint qpower (b : Q) (k : nat) : Q := match k with O => 1 | Datatypes.S k' => b * qpower b k' end.
Definition corrected (beta : Q) (iter : Z) (m : vec) : vec := fun i => m i / (1 - qpower beta (Z.to_nat (iter + 1))).
Definition adam_iterate (beta1 beta2 : Q) (iter : Z) (s : mstate) : mstate * bool :=
  let g := grad (m_x s) in
  let m : vec := fun i => beta1 * m_g s i + (1 - beta1) * g i in
  let v : vec := fun i => beta2 * m_v s i + (1 - beta2) * (g i * g i) in
  let mh := corrected beta1 iter m in
  let vh := corrected beta2 iter v in
  (MState (proj (fun i => m_x s i - alpha * mh i / (sqrt (vh i) + eps))) m v, false).
(** the gradient is taken at a projected copy of the parametrization *)
Definition nag_iterate (gamma : Q) (_ : Z) (s : mstate) : mstate * bool :=
  let g := grad (proj (fun i => m_x s i - gamma * m_g s i)) in
  let m : vec := fun i => gamma * m_g s i + alpha * g i in
  (MState (proj (fun i => m_x s i - m i)) m (m_v s), false).
End Descent.

(** *** PenaltyOptimizer, constrained_optimizer.py:19-111 *)
Section Penalty.
Variable P : Type.                      (* parametrizations including slack variables *)
Variables (f : P -> Q) (cons : list (P -> Q)).   (* objective and equality constraints of the slack problem *)
(** the inner optimizer: objective, ftol, start *)
Variable inner : (P -> Q) -> Q -> P -> P.
Variable pw : Q -> Q.                   (* mu ** tau *)
Variables (mu0 ftol : Q) (pf : nat) (num_cycles : nat).
Definition penalty_obj (mu : Q) (x : P) : Q := f x + mu * qsum (map (fun c => qpower (c x) pf) cons).
Definition cycle_ftol (k : nat) : Q := qmax (1 / qpower 100 (k + 1)) ftol.
(** what a cycle does: number, weight, result *)
Record cycle := Cycle { c_num : nat; c_mu : Q; c_param : P }.
Fixpoint penalty_loop (ks : list nat) (mu : Q) (x : P) (log : list cycle) : P * list cycle :=
  match ks with
  | [] => (x, log)
  | k :: ks' =>
      let x' := inner (penalty_obj mu) (cycle_ftol k) x in
      penalty_loop ks' (pw mu) x' (log ++ [Cycle k mu x'])
  end.
(** __call__ on an optimizer whose attribute cycle_num is [cn]: returns the parametrization,
    the log of cycles, and the new cycle_num (the last k of the loop) *)
Definition penalty_call (cn : nat) (x : P) : P * list cycle * nat :=
  let r := penalty_loop (seq cn (num_cycles - cn)) mu0 x [] in
  (r, if Nat.ltb cn num_cycles then (num_cycles - 1)%nat else cn).

(** *** AugmentedLagrangianOptimizer, lines 114-201; mu ** 0.1, mu ** 0.9 and mu ** mu_exp as arguments *)
Variables (p01 p09 pexp : Q -> Q).
Variables (ltol_final ctol_final : Q).
Definition dot (a b : list Q) : Q := qsum (map (fun p => fst p * snd p) (combine a b)).
Definition cvals (x : P) : list Q := map (fun c => c x) cons.
Definition lagrangian (lam : list Q) (mu : Q) (x : P) : Q :=
  f x + -1 * dot lam (cvals x) + (1 # 2) * mu * qsum (map (fun c => c * c) (cvals x)).
Record lstate := LState { l_x : P; l_mu : Q; l_lam : list Q; l_ctol : Q; l_ltol : Q }.
Definition auglag_init (x : P) : lstate := LState x mu0 (repeat 1 (length cons)) (1 / p01 mu0) (1 / pexp mu0).
(** one cycle; [true]: the loop is left *)
Definition auglag_cycle (s : lstate) : lstate * bool :=
  let x := inner (lagrangian (l_lam s) (l_mu s)) (l_ltol s) (l_x s) in
  let cv := cvals x in
  let e := qsum (map Qabs cv) in
  if qlt e (l_ctol s) then
    if qlt (l_ltol s) ltol_final && qlt e ctol_final then (LState x (l_mu s) (l_lam s) (l_ctol s) (l_ltol s), true)
    else (LState x (l_mu s) (map (fun p => fst p + -1 * l_mu s * snd p) (combine (l_lam s) cv))
            (l_ctol s / p09 (l_mu s)) (l_ltol s / l_mu s), false)
  else let mu := l_mu s * 100 in (LState x mu (l_lam s) (1 / p01 mu) (1 / mu), false).
(** [calls]: what cycle_callback was given *)
Fixpoint auglag_loop (n : nat) (s : lstate) (calls : list P) : lstate * list P * bool :=
  match n with
  | O => (s, calls, false)
  | Datatypes.S n' => let r := auglag_cycle s in
      if snd r then (fst r, calls, true) else auglag_loop n' (fst r) (calls ++ [l_x (fst r)])
  end.
Definition auglag_call (x : P) : lstate * list P * bool := auglag_loop num_cycles (auglag_init x) [].
End Penalty.

(** *** constraints passed to scipy, goos/optimize.py:144-217 and scipy_optimizer.py:84-127.
    The two loop variables live in one frame; a closure reads them when it is called. *)
Section Closures.
Variables (X A : Type).                 (* points; values *)
Variable neg : A -> A.
Record frame := Frame { v_eq : option (X -> A); v_ineq : option (X -> A) }.
Inductive code := CodeEq | CodeIneq.    (* the bodies of the two cons_fun *)
Inductive ctype := TEq | TIneq.
Definition call_closure (c : code) (fr : frame) (x : X) : res A :=
  match c with
  | CodeEq => match v_eq fr with Some g => Ok (g x) | None => Err NameError end
  | CodeIneq => match v_ineq fr with Some g => Ok (neg (g x)) | None => Err NameError end
  end.
Definition build_constraints (eqs ineqs : list (X -> A)) : list (ctype * code) * frame :=
  let s0 := ([], Frame None None) in
  let s1 := fold_left (fun s g => (fst s ++ [(TEq, CodeEq)], Frame (Some g) (v_ineq (snd s)))) eqs s0 in
  fold_left (fun s g => (fst s ++ [(TIneq, CodeIneq)], Frame (v_eq (snd s)) (Some g))) ineqs s1.
(** what scipy sees while it runs: every constraint as a function of the point *)
Definition seen_constraints (eqs ineqs : list (X -> A)) : list (ctype * (X -> res A)) :=
  let s := build_constraints eqs ineqs in
  map (fun c => (fst c, call_closure (snd c) (snd s))) (fst s).
End Closures.

(** methods by name, lines 131-146 / 68-92 *)
Inductive scipy_method := NelderMead | CG | BFGS | LBFGSB | TNC | COBYLA | SLSQP | Dogleg | TrustNcg | OtherMethod.
Definition needs_jac (m : scipy_method) : bool :=
  match m with CG | BFGS | LBFGSB | TNC | SLSQP | Dogleg | TrustNcg => true | _ => false end.
Definition accepts_constraints (m : scipy_method) : bool := match m with SLSQP | COBYLA => true | _ => false end.
(** the [constraints] argument of scipy.optimize.minimize (without the additional ones of
    scipy_optimizer.py:119-121); other methods get None and a warning is logged *)
Definition passed_constraints {X A} (neg : A -> A) (m : scipy_method) (eqs ineqs : list (X -> A)) : option (list (ctype * (X -> res A))) :=
  if accepts_constraints m then Some (seen_constraints neg eqs ineqs) else None.

(** *** packing of variables, goos/optimize.py:79-122 *)
Record arr := Arr { a_shape : list nat; a_data : list Q }.   (* C order *)
Definition prod (s : list nat) : nat := fold_right Nat.mul 1%nat s.
Record bnd := Bnd { b_lo : list (option Q); b_hi : list (option Q) }.     (* flattened; None: -inf resp. inf *)
Definition var_shape (a : arr) : list nat := match a_shape a with [] => [1%nat] | s => s end.
(** initial_val; np.hstack of an empty list raises ValueError *)
Definition pack (vs : list arr) : res (list Q) :=
  match vs with [] => Err ValueError | _ => Ok (concat (map a_data vs)) end.
Definition pack_bounds (bs : list bnd) : list (option Q * option Q) :=
  concat (map (fun b => combine (b_lo b) (b_hi b)) bs).
(** unpack, lines 110-117; np.reshape raises ValueError when the slice is too short *)
Fixpoint unpack_at (cur : nat) (x : list Q) (shapes : list (list nat)) : res (list arr) :=
  match shapes with
  | [] => Ok []
  | s :: shapes' =>
      let sl := firstn (prod s) (skipn cur x) in
      if Nat.eqb (length sl) (prod s) then
        bind (unpack_at (cur + prod s) x shapes') (fun vs => Ok (Arr s sl :: vs))
      else Err ValueError
  end.
Definition unpack (x : list Q) (shapes : list (list nat)) : res (list arr) := unpack_at 0 x shapes.

(** *** options, goos/optimize.py:59-77 and 239-242.  [scipy_options] is the inner dictionary; the
    test of line 241 looks for "maxiter" in the outer dictionary, whose only key is "options" *)
Record sopts := SOpts { so_maxiter : option Z }.
Definition make_opts (max_iters : option Z) : sopts := SOpts (truthy max_iters).
Inductive okey := KOptions | KMaxiter.
Definition outer_keys : list okey := [KOptions].
Definition run_opts (o : sopts) (start : Z) : sopts :=
  if existsb (fun k => match k with KMaxiter => true | _ => false end) outer_keys
  then SOpts (match so_maxiter o with Some m => Some (m - start)%Z | None => None end) else o.
