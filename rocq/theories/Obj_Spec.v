(** Specification vocabulary for objective functions: the value of an expression, where it is
    smooth, and derivatives along curves. *)
From Verif Require Import Base Obj_Model.
From Coq Require Import Reals.
Set Implicit Arguments.
Local Open Scope R_scope.

(** ** Values, independent of graphs and schedules. *)
Section Value.
Variable structure : list R -> list R.
Fixpoint value (p : list R) (e : expr) : res val :=
  match e with
  | Node KVar _ => Ok (VV (structure p))
  | Node k l => bind ((fix go l := match l with
                                   | [] => Ok []
                                   | x :: l' => bind (value p x) (fun v => bind (go l') (fun vs => Ok (v :: vs)))
                                   end) l) (keval p k)
  end.
(** the number, 0 where there is none. *)
Definition number (r : res val) : R := match r with Ok (VS x) => x | _ => 0 end.
Definition rval (p : list R) (e : expr) : R := number (value p e).
End Value.

(** The object store described by [kinds] and [inputs] is the expression [E n] at object [n];
    objects may be shared. *)
Definition unfolds (kinds : nat -> kind) (inputs : nat -> list nat) (E : nat -> expr) : Prop :=
  forall n, E n = Node (kinds n) (map E (inputs n)).

(** ** Expressions the constructors can build over a variable with [N] entries. *)
Definition is_variable (e : expr) : bool := match e with Node KVar _ => true | _ => false end.
Definition shape_ok (N : nat) (k : kind) (l : list expr) : Prop :=
  match k with
  | KVar | KConst _ | KParam _ | KOld _ _ => l = []
  | KSlice i sh => sh = N /\ (i < N)%nat /\ exists v, l = [v] /\ is_variable v = true
  | KSum | KProd | KLse | KSoft | KExt _ _ _ => forall e, In e l -> is_variable e = false
  | _ => exists e, l = [e] /\ is_variable e = false
  end.
Inductive wf (N : nat) : expr -> Prop :=
| wf_node k l : shape_ok N k l -> (forall e, In e l -> wf N e) -> wf N (Node k l).

(** ** Derivatives. *)
Definition dotr (l d : list R) : R := rsum (map (fun xy => fst xy * snd xy) (combine l d)).
(** the derivative described by a gradient, in direction [d]. *)
Definition along (a : grad) (d : list R) : R := match a with GS r => r * rsum d | GV l => dotr l d end.

Definition near (t0 : R) (P : R -> Prop) : Prop := exists delta, 0 < delta /\ forall t, Rabs (t - t0) < delta -> P t.
Definition real (r : res R) : R := match r with Ok x => x | Err _ => 0 end.

(** [ws] are the partial derivatives at [xs] of a function of several numbers: along every curve
    through [xs] the function is defined near [xs] and changes at the rate [ws . ds]. *)
Definition has_partials (fn : list R -> res R) (xs ws : list R) : Prop :=
  length ws = length xs /\
  forall (us : list (R -> R)) (ds : list R) (t0 : R),
    map (fun u => u t0) us = xs -> Forall2 (fun u d => derivable_pt_lim u t0 d) us ds ->
    near t0 (fun t => exists r, fn (map (fun u => u t) us) = Ok r) /\
    derivable_pt_lim (fun t => real (fn (map (fun u => u t) us))) t0 (dotr ws ds).

(** Where [x ** q] can be differentiated. *)
Definition smooth_pow (x q : R) : Prop := 0 < x \/ ((exists z, q = IZR z) /\ (x <> 0 \/ 1 <= q)).
Definition off_kink (x a q : R) : Prop := x <> a \/ 1 < q.

Definition smooth_at (k : kind) (xs : list R) : Prop :=
  let x := nth 0 xs 0 in
  match k with
  | KPow q => smooth_pow x q
  | KAbs => x <> 0
  | KPlus alpha q => off_kink x alpha q
  | KMin beta q => off_kink x beta q
  | KRange beta alpha q => off_kink x beta q /\ off_kink x alpha q
  | KLse | KSoft => xs <> []
  | KExt _ fn gr => exists ws, has_partials fn xs ws /\ forall g, gr xs g = Ok (map (fun w => g * w) ws)
  | _ => True
  end.

(** every node of the expression is smooth at its input values. *)
Inductive smooth (structure : list R -> list R) (p : list R) : expr -> Prop :=
| smooth_node k l : smooth_at k (map (rval structure p) l) -> (forall e, In e l -> smooth structure p e) ->
    smooth structure p (Node k l).

(** [P] moves the parametrization through [p] with velocity [d] at time [t0]. *)
Definition moves (P : R -> list R) (t0 : R) (p d : list R) : Prop :=
  P t0 = p /\ length d = length p /\ (forall t, length (P t) = length p) /\
  forall j, (j < length p)%nat -> derivable_pt_lim (fun t => nth j (P t) 0) t0 (nth j d 0).
(** [gr] is the gradient of [fn] at [p]. *)
Definition is_gradient (fn : list R -> R) (p gr : list R) : Prop :=
  length gr = length p /\
  forall P t0 d, moves P t0 p d -> derivable_pt_lim (fun t => fn (P t)) t0 (dotr gr d).
(** The parametrization differentiates its structure correctly at [p]. *)
Definition param_ok (structure : list R -> list R) (jac : list R -> list (list R)) (N : nat) (p : list R) : Prop :=
  (forall q, length q = length p -> length (structure q) = N) /\ length (jac p) = N /\
  forall i, (i < N)%nat -> is_gradient (fun q => nth i (structure q) 0) p (nth i (jac p) []).
(** So do the old-style functions of the expression. *)
Definition old_ok (p : list R) (k : kind) : Prop :=
  match k with KOld fn gr => is_gradient fn p (gr p) | _ => True end.
Inductive olds_ok (p : list R) : expr -> Prop :=
| olds_node k l : old_ok p k -> (forall e, In e l -> olds_ok p e) -> olds_ok p (Node k l).

(** ** Formulas written with the operators. *)
Inductive formula :=
| FNum (r : R) | FObj (e : expr)
| FAdd (a b : formula) | FSub (a b : formula) | FMul (a b : formula) | FNeg (a : formula)
| FPow (a b : formula)
| FAddArr (a : formula) (r : R) | FMulArr (a : formula) (r : R).

(** what Python builds *)
Fixpoint build (f : formula) : res operand :=
  match f with
  | FNum r => Ok (PNum r)
  | FObj e => Ok (PObj e)
  | FAdd a b => bind (build a) (fun x => bind (build b) (py_add x))
  | FSub a b => bind (build a) (fun x => bind (build b) (py_sub x))
  | FMul a b => bind (build a) (fun x => bind (build b) (py_mul x))
  | FNeg a => bind (build a) py_neg
  | FPow a b => bind (build a) (fun x => bind (build b) (py_pow x))
  | FAddArr a r => bind (build a) (fun x => py_add x (PArr r))
  | FMulArr a r => bind (build a) (fun x => py_mul x (PArr r))
  end.

(** what the formula means *)
Section Meaning.
Variable structure : list R -> list R.
Variable p : list R.
Fixpoint meaning (f : formula) : res R :=
  match f with
  | FNum r => Ok r
  | FObj e => bind (value structure p e) scalar
  | FAdd a b => bind (meaning a) (fun x => bind (meaning b) (fun y => Ok (x + y)))
  | FSub a b => bind (meaning a) (fun x => bind (meaning b) (fun y => Ok (x - y)))
  | FMul a b => bind (meaning a) (fun x => bind (meaning b) (fun y => Ok (x * y)))
  | FNeg a => bind (meaning a) (fun x => Ok (- x))
  | FPow a b => bind (meaning a) (fun x => bind (meaning b) (fun y => powf x y))
  | FAddArr a r => bind (meaning a) (fun x => Ok (x + r))
  | FMulArr a r => bind (meaning a) (fun x => Ok (x * r))
  end.
(** the value of what was built *)
Definition result (o : operand) : res R :=
  match o with PNum r | PArr r => Ok r | PObj e => bind (value structure p e) scalar | POther => Err TypeError end.
End Meaning.

(** the formula multiplies nothing by an array. *)
Fixpoint no_array_product (f : formula) : Prop :=
  match f with
  | FNum _ | FObj _ => True
  | FAdd a b | FSub a b | FMul a b | FPow a b => no_array_product a /\ no_array_product b
  | FNeg a | FAddArr a _ => no_array_product a
  | FMulArr _ _ => False
  end.

(** textbook forms *)
Definition log_sum_exp (l : list R) : R := ln (rsum (map exp l)).
Definition softmax (l : list R) : list R := map (fun x => exp x / rsum (map exp l)) l.

(** every objective the formula starts from satisfies [P]. *)
Fixpoint leaves (P : expr -> Prop) (f : formula) : Prop :=
  match f with
  | FNum _ => True
  | FObj e => P e
  | FAdd a b | FSub a b | FMul a b | FPow a b => leaves P a /\ leaves P b
  | FNeg a | FAddArr a _ | FMulArr a _ => leaves P a
  end.
