(** Model of the transformations of a plan that optimize:
    /repo/spins/invdes/problem_graph/creator_opt.py:10-380 (ScipyOptimizer, PenaltyOptimizer,
    CubicParamSigmoidStrength), with /repo/spins/invdes/optimization/scipy_optimizer.py:13-148
    and constrained_optimizer.py:19-111 underneath.
    scipy.optimize.minimize is external: it is an arbitrary strategy that asks for values of
    the functions it was given, reports iterates to the callback and ends with a point. *)
From Coq Require Import ZArith QArith.
From stdpp Require Import gmap.
From Verif Require Import Base Solver_Model.
Set Implicit Arguments.
Local Open Scope Q_scope.

(** *** scipy.optimize.minimize.  [Ask x q k]: a call of the function number [q] (0 the
    objective, 1 the Jacobian, others constraints) at [x], whose value is given to [k].
    [Report x k]: a call of the callback with [x]. *)
Inductive strategy (X A : Type) :=
| Done (x : X)
| Ask (x : X) (q : nat) (k : A -> strategy X A)
| Report (x : X) (k : strategy X A).
Arguments Done {X A}. Arguments Ask {X A}. Arguments Report {X A}.

(** *** the run of a strategy by scipy_optimizer.py:48-142.  Every function given to scipy
    first stores its argument in the parametrization (lines 54-60, 86-116); the result is
    stored at the end (line 141).  [store]: whether the callback itself stores its argument,
    which aug_callback of constrained_optimizer.py:89-94 does and _callback of
    creator_opt.py:126-141 does not.  Returns the content of the parametrization at each call
    of the callback, after the callback has stored, and at the end. *)
Fixpoint play {X A} (store : bool) (f : nat -> X -> A) (s : strategy X A) (param : X) : list X * X :=
  match s with
  | Done x => ([], x)
  | Ask x q k => play store f (k (f q x)) x
  | Report x k => let param := if store then x else param in
                  let r := play store f k param in (param :: fst r, snd r)
  end.

(** *** options.  Keys used by the code have names; all values are numbers. *)
Inductive okey := KTol | KMaxiter | KFtol | KGtol | KMu0 | KTau | KPf | KNumCycles | KOther (n : nat).
Definition okey_eqb (a b : okey) : bool :=
  match a, b with
  | KTol, KTol | KMaxiter, KMaxiter | KFtol, KFtol | KGtol, KGtol | KMu0, KMu0 | KTau, KTau
  | KPf, KPf | KNumCycles, KNumCycles => true
  | KOther m, KOther n => Nat.eqb m n
  | _, _ => false
  end.
Definition odict := list (okey * Q).
Fixpoint oget (d : odict) (k : okey) : option Q :=
  match d with [] => None | (k', v) :: d' => if okey_eqb k k' then Some v else oget d' k end.
(** [optimization_options]: absent; a dictionary, as the docstring says; or the schema model of
    the plan (schema_opt.py:8-51), whose unset fields are None. *)
Inductive oarg := NoOptions | DictOptions (d : odict) | ModelOptions (d : list (okey * option Q)).
(** what the transformation keeps *)
Inductive okept := KeptDict (d : odict) | KeptModel (d : odict).
Definition qtrue (v : Q) : bool := negb (Qeq_bool v 0).
Definition otrue (v : option Q) : bool := match v with Some q => qtrue q | None => false end.
(** [__init__], creator_opt.py:46-53 and 242-249.  Deleting from a dictionary while iterating
    over it raises RuntimeError at the next step, also after the last item; [items] of a schema
    model is a list made beforehand. *)
Definition keep_options (o : oarg) : res okept :=
  match o with
  | NoOptions => Ok (KeptDict [])
  | DictOptions d => if forallb (fun kv => qtrue (snd kv)) d then Ok (KeptDict d) else Err RuntimeError
  | ModelOptions d =>
      Ok (KeptModel (flat_map (fun kv => match snd kv with
                                         | Some v => if qtrue v then [(fst kv, v)] else []
                                         | None => []
                                         end) d))
  end.
(** [self.optimization_options.to_native()], line 144: a dictionary has no such method; models
    leave out unset fields (schema_utils.py:190-194). *)
Definition to_native (o : okept) : res odict :=
  match o with KeptDict _ => Err AttributeError | KeptModel d => Ok d end.
(** [opt_options["maxiter"] -= iteration], lines 147-148 *)
Definition subtract_iter (d : odict) (iteration : Z) : odict :=
  map (fun kv => match fst kv with KMaxiter => (KMaxiter, snd kv - inject_Z iteration) | _ => kv end) d.
(** scipy_optimizer.py:42-46: the tolerance is taken out *)
Definition split_tol (d : odict) : option Q * odict :=
  (oget d KTol, List.filter (fun kv => negb (okey_eqb KTol (fst kv))) d).

(** *** events, creator_opt.py:13-19 and 207-215 *)
Inductive stage := SStart | SOptimizing | SEnd | SOther (n : nat).
Record event := Event { e_stage : stage; e_iter : option Z; e_cycle : option Z; e_mu : option Q }.
Definition start_event : event := Event SStart None None None.
Definition end_event : event := Event SEnd None None None.

(** *** the serialized value of a parametrization: vector and sigmoid strength,
    parametrization.py:269-277 *)
Record pval (X : Type) := PVal { p_vec : X; p_strength : Q }.
Arguments PVal {X}.
Definition with_vec {X} (p : pval X) (x : X) : pval X := PVal x (p_strength p).

Section Run.
Variables X A : Type.
(** numbers the entries of a log from [i] *)
Fixpoint numbered {B} (mk : Z -> event) (i : Z) (l : list B) : list (B * event) :=
  match l with [] => [] | x :: l' => (x, mk i) :: numbered mk (i + 1)%Z l' end.

(** The optimizer called on the strategy for tolerance, options and start. *)
Variable minimize : option Q -> odict -> X -> strategy X A.

(** [ScipyOptimizer._iterate], creator_opt.py:110-158.  [mon]: callback monitors are given;
    otherwise scipy gets no callback.  Returns what is logged and the result. *)
Definition scipy_iterate (o : okept) (mon : bool) (f : nat -> X -> A) (iteration : Z) (x : X)
  : list (X * event) * res X :=
  match to_native o with
  | Err e => ([], Err e)
  | Ok d =>
      let (tol, d') := split_tol (subtract_iter d iteration) in
      let (l, r) := play false f (minimize tol d' x) x in
      ((if mon then numbered (fun i => Event SOptimizing (Some i) None None) (iteration + 1)%Z l else []), Ok r)
  end.
(** the three stages of [__call__], lines 60-94 and 255-280.  [iterate] is given the event data. *)
Definition stages (iterate : option event -> X -> list (X * event) * res X) (ev : option event) (x : X)
  : list (X * event) * res X :=
  let '(lg1, completed) := match ev with
                            | None => ([(x, start_event)], SStart)        (* _start, lines 96-108 *)
                            | Some e => ([], e_stage e)
                            end in
  let '(lg2, r, completed) :=
    match completed with
    | SStart | SOptimizing => let '(l, r) := iterate ev x in (l, r, SOptimizing)
    | c => ([], Ok x, c)
    end in
  match r with
  | Err e => (lg1 ++ lg2, Err e)
  | Ok y => match completed with
            | SOptimizing => (lg1 ++ lg2 ++ [(y, end_event)], Ok y)     (* _end, lines 160-173 *)
            | _ => (lg1 ++ lg2, Ok y)
            end
  end.
Definition iteration_of (ev : option event) : Z :=
  match ev with Some e => match e_iter e with Some i => i | None => 0%Z end | None => 0%Z end.
(** [ScipyOptimizer(...)(param, event_data)], created by lines 176-199 *)
Definition scipy_run (o : oarg) (mon : bool) (f : nat -> X -> A) (ev : option event) (x : X)
  : list (X * event) * res X :=
  match keep_options o with
  | Err e => ([], Err e)
  | Ok k => stages (fun ev x => scipy_iterate k mon f (iteration_of ev) x) ev x
  end.
End Run.

(** *** PenaltyOptimizer *)
Section Penalty.
Variables X A : Type.
(** optimizing the vector together with the slack variables, one per inequality
    (slack_optimization_problem.py:56-113); arguments of L-BFGS-B: ftol, gtol, maxiter *)
Variable minimize : Q -> Q -> Q -> X * list Q -> strategy (X * list Q) A.
Variable pw : Q -> Q -> Q.                       (* mu ** tau *)
Variable slacks : nat.
(** the penalty objective for a weight and an exponent, and its Jacobian (constrained_optimizer.py:71-73) *)
Variable pf_obj : Q -> Q -> nat -> X * list Q -> A.

Definition kept_dict (o : okept) : odict := match o with KeptDict d | KeptModel d => d end.
Definition oget_or (d : odict) (k : okey) (v : Q) : Q := match oget d k with Some w => w | None => v end.
(** 1 / 100 ** (k + 1) for a cycle number k *)
Definition cycle_tol (k : Z) : Q := 1 / (100 ^ (k + 1)%Z).
Definition qmax (a b : Q) : Q := if Qle_bool a b then b else a.
(** the loop over cycles, constrained_optimizer.py:65-105: cycle number, number of cycles left, weight,
    number of logged iterations, parametrization with slack variables *)
Fixpoint penalty_cycles (d : odict) (n : nat) (k : Z) (mu : Q) (it : Z) (y : X * list Q)
  : list (X * event) * X :=
  match n with
  | O => ([], fst y)
  | S n' =>
      let ftol := qmax (cycle_tol k) (oget_or d KFtol (1 # 1000000000)) in
      let s := minimize ftol (oget_or d KGtol (1 # 10000000)) (oget_or d KMaxiter 30) y in
      let (l, y') := play true (pf_obj mu (oget_or d KPf 2)) s y in
      let it' := (it + Z.of_nat (length l))%Z in
      let r := penalty_cycles d n' (k + 1)%Z (pw mu (oget_or d KTau (3 # 2))) it' y' in
      (numbered (fun i => Event SOptimizing (Some i) (Some k) (Some mu)) (it + 1)%Z (map fst l) ++ fst r, snd r)
  end.
(** [range(cycle_num, num_cycles)]; the schema makes num_cycles an integer *)
Definition num_cycles (d : odict) : Z := Qnum (Qred (oget_or d KNumCycles 10)).
(** [PenaltyOptimizer._iterate], creator_opt.py:298-352: slack variables start at zero; the
    cycle and the weight are those of the event *)
Definition penalty_iterate (o : okept) (mon : bool) (ev : option event) (x : X) : list (X * event) * res X :=
  let d := kept_dict o in
  let cycle := match ev with Some e => match e_cycle e with Some c => c | None => 0%Z end | None => 0%Z end in
  let mu := match ev with Some e => match e_mu e with Some m => m | None => oget_or d KMu0 2 end
                        | None => oget_or d KMu0 2 end in
  let r := penalty_cycles d (Z.to_nat (num_cycles d - cycle)%Z) cycle mu (iteration_of ev) (x, repeat 0 slacks) in
  ((if mon then fst r else []), Ok (snd r)).
Definition penalty_run (o : oarg) (mon : bool) (ev : option event) (x : X) : list (X * event) * res X :=
  match keep_options o with
  | Err e => ([], Err e)
  | Ok k => stages (fun ev x => penalty_iterate k mon ev x) ev x
  end.
End Penalty.

(** *** a plan of such transformations, as the plans of Solver_Model.v.  The objective of a
    transformation depends on the parameters of the workspace and on the sigmoid strength.
    Simplification: an exception leaves the parametrization as it was and the plan goes on. *)
Section Plan.
Variables X A W : Type.
Inductive job :=
| JScipy (minimize : option Q -> odict -> X -> strategy X A) (o : oarg) (mon : bool)
         (f : gmap nat W -> Q -> nat -> X -> A)
| JStrength (value : Q).             (* CubicParamSigmoidStrength, creator_opt.py:355-380 *)
Variable jobs : nat -> job.          (* by name of the transformation *)
Variable dflt : pval X.              (* stands for a parametrization that does not exist; Workspace.run creates it first *)
Definition job_sem (t : transf (pval X) W) (e : env (pval X) W) (ev : option event)
  : list (pval X * event) * pval X :=
  let p := match ptz e !! t_param t with Some p => p | None => dflt end in
  match jobs (t_name t) with
  | JScipy minimize o mon f =>
      let (l, r) := scipy_run minimize o mon (f (prm e) (p_strength p)) ev (p_vec p) in
      (map (fun xe => (with_vec p (fst xe), snd xe)) l, match r with Ok x => with_vec p x | Err _ => p end)
  | JStrength v => ([], PVal (p_vec p) v)
  end.
End Plan.
