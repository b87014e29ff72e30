(** Model of spins/fdfd_tools/solvers.py: the generic solver and its wrapper of scipy's qmr. *)
From Verif Require Import Base CField Maxwell_Model.
From Coq Require Import List Arith.
Import ListNotations.

(** *** _scipy_qmr, solvers.py:14-49 *)
Section Wrapper.
Variable V : Type.
(** the variable iter of lines 27-34, the lines printed (iteration and iterate) and the
    iterates the user's function was called with *)
Record qstate := QState { iter : nat; printed : list (nat * V); user_calls : list V }.
(** lines 29-33: print_residual; the norm of A x - b is a function of the printed iterate *)
Definition print_residual (xk : V) (s : qstate) : qstate :=
  let i := S (iter s) in
  QState i (if Nat.eqb (i mod 100) 0 then printed s ++ [(i, xk)] else printed s) (user_calls s).
(** the functions that are ever the value of kwargs['callback'] *)
Inductive callback := UserFunction | PrintResidual | Augmented.
(** A call of a function.  [entry] is the value of kwargs['callback'] when the call is made:
    augmented_callback (lines 37-39) looks it up at each call.  [limit] is the recursion limit
    of the interpreter; beyond it a RecursionError, which is a RuntimeError, is raised.  That
    print_residual itself needs one more level is left out.  The user's function is taken to
    succeed. *)
Fixpoint call (limit : nat) (entry c : callback) (xk : V) (s : qstate) : qstate * res unit :=
  match limit with
  | 0 => (s, Err RuntimeError)
  | S l =>
    match c with
    | UserFunction => (QState (iter s) (printed s) (user_calls s ++ [xk]), Ok tt)
    | PrintResidual => (print_residual xk s, Ok tt)
    | Augmented => call l entry entry xk (print_residual xk s)
    end
  end.
(** lines 35-43: what kwargs['callback'] is once qmr runs *)
Definition installed (given : bool) : callback := if given then Augmented else PrintResidual.
(** scipy's qmr calls the function once for each iterate; an exception ends it *)
Fixpoint iterate (limit : nat) (cb : callback) (xs : list V) (s : qstate) : qstate * res unit :=
  match xs with
  | [] => (s, Ok tt)
  | xk :: r => match call limit cb cb xk s with (s', Ok _) => iterate limit cb r s' | e => e end
  end.
(** _scipy_qmr: [given] tells whether the options contain a callback, [xs] are the iterates of
    qmr and [x] its result; the convergence information is dropped (line 48) *)
Definition scipy_qmr (limit : nat) (given : bool) (xs : list V) (x : V) : qstate * res V :=
  let (s, r) := iterate limit (installed given) xs (QState 0 [] []) in
  (s, match r with Ok _ => Ok x | Err e => Err e end).
End Wrapper.
Arguments QState {V}. Arguments iter {V}. Arguments printed {V}. Arguments user_calls {V}.
Arguments print_residual {V}. Arguments call {V}. Arguments iterate {V}. Arguments scipy_qmr {V}.

(** *** generic, solvers.py:52-112 *)
(** [inner] is matrix_solver with its options, [p] the square roots of e_full_preconditioners;
    the operator is that of operators.e_full without Bloch phases (line 91) *)
Section Generic.
Variable K : cfield.
Local Open Scope K_scope.
Definition generic (g : grid K) (inner : mat K -> list K -> list K) (p : nat -> K) (omega : K) (J : list K)
    (eps : nat -> K) (mu : option (nat -> K)) (pec pmc : option (nat -> bool)) (adjoint : bool) : list K :=
  let n := vlen g in
  let one := fun _ : nat => 1 in
  let b0 := map (fun x => - ki * omega * x) J in
  let A0 := e_full g (Phases one one one one) omega eps mu pec pmc in
  let pl := precond_left p in
  let pr := precond_right p in
  let A := if adjoint then mherm (mmul n (mmul n pl A0) pr) else mmul n (mmul n pl A0) pr in
  let b := if adjoint then mv n (mherm pr) b0 else mv n pl b0 in
  let x := inner A b in
  if adjoint then mv n (mherm pl) x else mv n pr x.
End Generic.
Arguments generic {K}.
