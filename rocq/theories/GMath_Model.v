(** Model of the numeric nodes of goos, of their operators and of their differentiation:
    /repo/spins/goos/math.py, with the accumulation of gradients of
    /repo/spins/goos/graph_executor.py and /repo/spins/goos/flows.py.

    Simplifications.  Numbers are exact complex numbers; an array is the list of its entries with
    the flag "its dtype is complex" (numpy.iscomplexobj).  Shapes are reduced to the number of entries: arrays with equally
    many entries are taken to have the same shape, arrays with one entry broadcast against every
    other.  Numpy before 1.24 is assumed, where [np.sum] and [np.prod] accept lists of arrays of
    different shapes.  Where numpy would produce nan or inf the model has the error [ValueError].
    All flows have the type [NumericFlow] itself; flags and contexts are left out.  Casting errors
    of in-place operations (a complex gradient added to a real one) are left out. *)
From Verif Require Import Base GraphExec_Model GradHeap_Model Shape_Model.
From Verif Require Obj_Model.
From Coq Require Import Reals ZArith.
Set Implicit Arguments.
Local Open Scope R_scope.

Definition C : Type := (R * R)%type.
Definition cadd (x y : C) : C := (fst x + fst y, snd x + snd y).
Definition cmul (x y : C) : C := (fst x * fst y - snd x * snd y, fst x * snd y + snd x * fst y).
Definition cconj (x : C) : C := (fst x, - snd x).
Definition cscale (r : R) (x : C) : C := (r * fst x, r * snd x).
Definition cabs (x : C) : R := sqrt (fst x * fst x + snd x * snd x).
Definition creal (r : R) : C := (r, 0).
Definition cinv (x : C) : C := cscale (/ (fst x * fst x + snd x * snd x)) (cconj x).
Fixpoint cpow (x : C) (n : nat) : C := match n with O => creal 1 | S m => cmul x (cpow x m) end.
Definition czero (x : C) : bool := if Req_EM_T (fst x) 0 then if Req_EM_T (snd x) 0 then true else false else false.

Record arr := mkarr { cpx : bool; dat : list C }.
Definition size (a : arr) : nat := length (dat a).

(** entrywise operations with broadcasting of single entries *)
Definition bcast (f : C -> C -> C) (a b : list C) : res (list C) :=
  if Nat.eqb (length a) (length b) then Ok (map (fun xy => f (fst xy) (snd xy)) (combine a b))
  else match a, b with
       | [x], _ => Ok (map (f x) b)
       | _, [y] => Ok (map (fun x => f x y) a)
       | _, _ => Err ValueError
       end.
(** [a *= b], [a += b]: the result must have the shape of [a] *)
Definition inplace (f : C -> C -> C) (a b : list C) : res (list C) :=
  if Nat.eqb (length a) (length b) then Ok (map (fun xy => f (fst xy) (snd xy)) (combine a b))
  else match b with
       | [y] => Ok (map (fun x => f x y) a)
       | _ => Err ValueError
       end.
(** [np.sum(l, axis=0)], [np.prod(l, axis=0)]: the unit for the empty list *)
Fixpoint reduce (f : C -> C -> C) (a : list C) (l : list (list C)) : res (list C) :=
  match l with [] => Ok a | b :: l' => bind (bcast f a b) (fun c => reduce f c l') end.
Definition np_reduce (f : C -> C -> C) (unit : C) (l : list (list C)) : res (list C) :=
  match l with [] => Ok [unit] | a :: l' => reduce f a l' end.

(** find_dominant_numeric_flow, math.py:188-241, for flows of type NumericFlow *)
Definition dominant (l : list arr) : res nat :=
  match l with
  | [] => Err IndexError
  | a :: _ =>
      if forallb (fun b => Nat.eqb (size b) (size a)) l then Ok 0%nat
      else match filter (fun i => Nat.ltb 1 (size (nth i l a))) (seq 0 (length l)) with
           | [] => Ok 0%nat
           | [i] => Ok i
           | _ => Err ValueError
           end
  end.

(** [x ** p] for an entry: complex entries only with integer exponents *)
Definition cpowf (complex : bool) (x : C) (p : R) : res C :=
  if complex then
    if Req_EM_T p (IZR (Int_part p)) then
      match Int_part p with
      | Z.neg m => if czero x then Err ValueError else Ok (cinv (cpow x (Pos.to_nat m)))
      | z => Ok (cpow x (Z.to_nat z))
      end
    else Err NotImplementedError
  else bind (Obj_Model.powf (fst x) p) (fun r => Ok (creal r)).

(** an entry of the argument of Slice: an index, a list of two, "c"/"center", None, anything else *)
Inductive slice_spec := SAt (i : Z) | SFromTo (a b : Z) | SCenter | SNone | SOther.
(** Slice._make_slices, math.py:545-562, one axis *)
Definition slice_of (s : slice_spec) (dim : nat) : res py_slice :=
  match s with
  | SAt i => Ok (Range i (i + 1))
  | SFromTo a b => Ok (Range a b)
  | SCenter => let c := Z.of_nat (Nat.div dim 2) in Ok (Range c (c + 1))
  | SNone => Ok (Range 0 (Z.of_nat dim))
  | SOther => Err ValueError
  end.

(** The classes of math.py; [KVar x] is the variable with identity [x]; [KCast] is CastOp of
    generic.py:37-62; [KExt] is any other node. *)
Inductive kind :=
| KVar (x : nat)                (* Variable, 93-140 *)
| KConst (a : arr)              (* Constant, 70-90 *)
| KSum                          (* Sum, 244-284 *)
| KProd                         (* Product, 287-327 *)
| KPow (p : R)                  (* Power, 330-349 *)
| KAbs                          (* AbsoluteValue, 352-380 *)
| KDot                          (* DotProduct, 385-409 *)
| KNorm (ord : nat)             (* Norm, 418-466; orders 1, 2, 3, ... *)
| KMax                          (* Max, 469-498; real entries *)
| KSig                          (* Sigmoid, 505-522; real entries *)
| KSlice (s : slice_spec)       (* Slice, 525-562; one axis *)
| KConj                         (* Conjugate, 565-578 *)
| KCast
| KExt (heavy : bool) (fn : list arr -> res arr) (gr : list arr -> list C -> res (list (list C))).

Definition rsum (l : list R) : R := fold_right Rplus 0 l.
Definition csum (l : list C) : C := fold_right cadd (creal 0) l.
Definition cprod_unit : C := creal 1.
(** [input_vals[0]], [input_vals[1]] *)
Definition input (ivs : list arr) (i : nat) : res arr :=
  match nth_error ivs i with Some a => Ok a | None => Err IndexError end.

(** np.linalg.norm(l, ord) for ord >= 1; for 1 and 2 this is the sum and the square root of the
    sum of squares *)
Definition root (p : nat) (s : R) : R := if Rlt_dec 0 s then Rpower s (/ INR p) else 0.
Definition np_norm (p : nat) (l : list C) : R := root p (rsum (map (fun z => cabs z ^ p) l)).

Definition sigmoid (x : R) : R := 1 / (1 + exp (- x)).
(** np.argmax over real numbers: the first of the largest *)
Fixpoint argmax_from (l : list R) (i best : nat) (m : R) : nat :=
  match l with
  | [] => best
  | x :: l' => if Rlt_dec m x then argmax_from l' (S i) i x else argmax_from l' (S i) best m
  end.
Definition argmax (l : list R) : nat := match l with [] => 0%nat | x :: l' => argmax_from l' 1 0 x end.
Definition maximum (l : list R) : R := nth (argmax l) l 0.
(** the j-th entries of all arrays *)
Definition column (ivs : list arr) (j : nat) : list R := map (fun a => fst (nth j (dat a) (creal 0))) ivs.
(** np.stack needs equal shapes and at least one array *)
Definition stacked (ivs : list arr) : res nat :=
  match ivs with
  | [] => Err ValueError
  | a :: _ => if forallb (fun b => Nat.eqb (size b) (size a)) ivs then
                if existsb cpx ivs then Err NotImplementedError else Ok (size a)
              else Err ValueError
  end.

(** ** The [eval] methods *)
Definition keval (k : kind) (ivs : list arr) : res arr :=
  match k with
  | KVar _ => Err NotImplementedError   (* Variables are evaluated by the plan: their values are overrides *)
  | KConst a => Ok a                                                                    (* 82-84 *)
  | KSum => bind (dominant ivs) (fun _ =>                                               (* 251-255 *)
            bind (np_reduce cadd (creal 0) (map dat ivs)) (fun l => Ok (mkarr (existsb cpx ivs) l)))
  | KProd => bind (dominant ivs) (fun _ =>                                              (* 294-297 *)
             bind (np_reduce cmul (creal 1) (map dat ivs)) (fun l => Ok (mkarr (existsb cpx ivs) l)))
  | KPow p => bind (input ivs 0) (fun a =>                                              (* 337-341 *)
              bind (mapM (fun x => cpowf (cpx a) x p) (dat a)) (fun l => Ok (mkarr (cpx a) l)))
  | KAbs => bind (input ivs 0) (fun a => Ok (mkarr false (map (fun x => creal (cabs x)) (dat a))))   (* 358-361 *)
  | KDot => bind (input ivs 0) (fun a => bind (input ivs 1) (fun b =>                   (* 396-398 *)
            bind (bcast cmul (dat a) (dat b)) (fun l => Ok (mkarr (cpx a || cpx b) [csum l]))))
  | KNorm p => match p with                                                             (* 440-442 *)
               | O => Err NotImplementedError
               | _ => bind (input ivs 0) (fun a => Ok (mkarr false [creal (np_norm p (dat a))]))
               end
  | KMax => bind (stacked ivs) (fun n =>                                                (* 479-487 *)
            Ok (mkarr false (map (fun j => creal (maximum (column ivs j))) (seq 0 n))))
  | KSig => bind (input ivs 0) (fun a =>                                                (* 511-516 *)
            if cpx a then Err NotImplementedError else Ok (mkarr false (map (fun x => creal (sigmoid (fst x))) (dat a))))
  | KSlice s => bind (input ivs 0) (fun a => bind (slice_of s (size a)) (fun sl =>      (* 533-537 *)
                Ok (mkarr (cpx a) (map (fun i => nth i (dat a) (creal 0)) (selected (size a) sl)))))
  | KConj => bind (input ivs 0) (fun a => Ok (mkarr (cpx a) (map cconj (dat a))))       (* 571-572 *)
  | KCast => input ivs 0
  | KExt _ fn _ => fn ivs
  end.

(** ** The [grad] methods: one array per input. *)
(** Product.grad, lines 299-308 *)
Definition product_others (ivs : list arr) (i : nat) (g : list C) : res (list C) :=
  bind (np_reduce cmul (creal 1) (map dat (firstn i ivs))) (fun before =>
  bind (np_reduce cmul (creal 1) (map dat (skipn (S i) ivs))) (fun after =>
  bind (bcast cmul before after) (fun b => bcast cmul b g))).
(** 372-375 *)
Definition abs_slope (complex : bool) (x : C) : res C :=
  if czero x then Err ValueError else Ok (cscale (if complex then / 2 else 1) (cscale (/ cabs x) (cconj x))).
(** 446-459 *)
Definition norm_slope (complex : bool) (p : nat) (n : R) (x : C) : res C :=
  if Req_EM_T n 0 then (if Nat.eqb p 1 then Ok (creal 0) else Err ValueError)
  else let w := (cabs x / n) ^ (p - 1) in
       let y := cscale w (cconj x) in
       let y := if czero x then y else cscale (/ cabs x) y in
       Ok (cscale (if complex then / 2 else 1) y).
(** the positions of a slice take consecutive entries of [g], all other entries are zero *)
Fixpoint scatter (is_ : list nat) (g : list C) (i : nat) : C :=
  match is_, g with
  | j :: is', x :: g' => if Nat.eqb j i then x else scatter is' g' i
  | _, _ => creal 0
  end.

Definition kgrad (k : kind) (ivs : list arr) (g : list C) : res (list (list C)) :=
  match k with
  | KVar _ => Ok []                          (* graph_executor.py:290-293: the known gradients of overrides *)
  | KConst a => Ok [map (fun _ => creal 0) (dat a)]                                     (* 86-89 *)
  | KSum => bind (dominant ivs) (fun _ => Ok (map (fun _ => g) ivs))                    (* 257-267 *)
  | KProd => bind (mapM (fun i => product_others ivs i g) (seq 0 (length ivs))) (fun gs => (* 299-319 *)
             bind (dominant ivs) (fun _ => Ok gs))
  | KPow p => bind (input ivs 0) (fun a =>                                              (* 343-349 *)
              bind (mapM (fun x => bind (cpowf (cpx a) x (p - 1)) (fun y => Ok (cscale p y))) (dat a)) (fun s =>
              bind (inplace cmul g s) (fun l => Ok [l])))
  | KAbs => bind (input ivs 0) (fun a =>                                                (* 363-380 *)
            bind (mapM (abs_slope (cpx a)) (dat a)) (fun s =>
            bind (bcast cmul s g) (fun l => Ok [l])))
  | KDot => bind (input ivs 0) (fun a => bind (input ivs 1) (fun b =>                   (* 400-409 *)
            bind (bcast cmul g (dat b)) (fun l => bind (bcast cmul g (dat a)) (fun l' => Ok [l; l']))))
  | KNorm p => match p with
               | O => Err NotImplementedError
               | _ => bind (input ivs 0) (fun a =>
                      bind (mapM (norm_slope (cpx a) p (np_norm p (dat a))) (dat a)) (fun s =>
                      bind (bcast cmul g s) (fun l => Ok [l])))
               end
  | KMax => bind (stacked ivs) (fun n =>                                                (* 489-498 *)
            if Nat.eqb (length g) n then
              Ok (map (fun i => map (fun jx => if Nat.eqb (argmax (column ivs (fst jx))) i then snd jx else creal 0)
                                    (combine (seq 0 n) g)) (seq 0 (length ivs)))
            else Err IndexError)
  | KSig => bind (input ivs 0) (fun a =>                                                (* 518-522 *)
            if cpx a then Err NotImplementedError else
            bind (inplace cmul g (map (fun x => creal (sigmoid (fst x) * (1 - sigmoid (fst x)))) (dat a))) (fun l => Ok [l]))
  | KSlice s => bind (input ivs 0) (fun a => bind (slice_of s (size a)) (fun sl =>      (* 539-543 *)
                let is_ := selected (size a) sl in
                bind (inplace (fun _ y => y) (map (fun _ => creal 0) is_) g) (fun l =>
                Ok [map (scatter is_ l) (seq 0 (size a))])))
  | KConj => Ok [map cconj g]                                                           (* 574-578 *)
  | KCast => Ok [g]
  | KExt _ _ gr => gr ivs g
  end.

(** ** Accumulation.  [Broken] stands for the exception raised by [+=] on arrays whose shapes do
    not fit; here it is raised when the gradient is used or at the end of the backward pass. *)
Inductive grad := Gr (l : list C) | Broken.
Definition gadd (a b : grad) : grad :=
  match a, b with
  | Gr x, Gr y => match inplace cadd x y with Ok z => Gr z | Err _ => Broken end
  | _, _ => Broken
  end.
Definition sound (g : grad) : res (list C) := match g with Gr l => Ok l | Broken => Err ValueError end.

(** Which of the returned gradients hold the very array the method was given: all but the dominant
    one for Sum (lines 262-266), the only one for a cast. *)
Definition shares (k : kind) (ivs : list arr) (i : nat) : bool :=
  match k with
  | KSum => match dominant ivs with Ok d => negb (Nat.eqb i d) | Err _ => false end
  | KCast => Nat.eqb i 0
  | _ => false
  end.

(** ** goos.graph_executor with these nodes *)
Section Exec.
Variable kinds : nat -> kind.
Variable inputs : nat -> list nat.
Variable ord : list nat -> list nat -> list nat.
Variable fuel : nat.

Definition is_heavy (n : nat) : bool := match kinds n with KExt h _ _ => h | _ => false end.

(** [plan.eval_node]: the overrides are the values of the variables *)
Definition goos_eval (ov : dict arr) (out : nat) : res arr :=
  bind (eval_fun inputs is_heavy (fun n ivs => keval (kinds n) ivs) ord fuel [out] ov) (fun vs =>
  match vs with v :: _ => Ok v | [] => Err IndexError end).

(** [place i l gs]: the location of every returned gradient *)
Fixpoint place {A} (share : nat -> bool) (l : nat) (i : nat) (gs : list A) (m : mem A) : list nat * mem A :=
  match gs with
  | [] => ([], m)
  | g :: gs' =>
      if share i then let (ls, m') := place share l (S i) gs' m in (l :: ls, m')
      else let (ls, m') := place share l (S i) gs' (hupd (fst m) (snd m) g, S (snd m)) in (snd m :: ls, m')
  end.
Definition node_grad (n : nat) (ivs : list arr) (g : grad) : res (list grad) :=
  bind (sound g) (fun l => bind (kgrad (kinds n) ivs l) (fun gs => Ok (map Gr gs))).
Definition node_hpb (n : nat) (ivs : list arr) (l : nat) (m : mem grad) : res (list nat * mem grad) :=
  bind (node_grad n ivs (fst m l)) (fun gs => Ok (place (shares (kinds n) ivs) l 0 gs m)).

(** [eval_grad], graph_executor.py:226-377; the seed is [np.array([1.0])], line 288 *)
Definition goos_grad (ov : dict arr) (out : nat) (vars : list nat) : res (list (list C)) :=
  bind (build_graph inputs fuel [out]) (fun g =>
  bind (top_sort g is_heavy ord) (fun sched =>
  bind (eval_fun_vals g is_heavy (fun n ivs => keval (kinds n) ivs) sched ov) (fun vals =>
  bind (hbackward g is_heavy gadd node_hpb vals sched out (Gr [creal 1])) (fun st =>
  let '((h, _), hg) := st in
  bind (mapM (fun n => match hg n with Some l => sound (h l) | None => Ok [] end) (keys g)) (fun _ =>
  mapM (fun x => match hg x with
                 | Some l => sound (h l)
                 | None => bind (dget ov x) (fun v => Ok (map (fun _ => creal 0) (dat v)))
                 end) vars))))).
End Exec.

(** ** Operators, math.py:12-67.  An expression is a node with its inputs written out. *)
Inductive expr := Node (k : kind) (l : list expr).
(** what can stand beside an operator: a number, an array, a node, anything else *)
Inductive operand := PNum (z : C) (complex : bool) | PArr (a : arr) | PObj (e : expr) | POther.
Definition const_num (z : C) (complex : bool) : expr := Node (KConst (mkarr complex [z])) [].
Definition const_arr (a : arr) : expr := Node (KConst a) [].
Definition ceq (x y : C) : bool := if Req_EM_T (fst x) (fst y) then if Req_EM_T (snd x) (snd y) then true else false else false.

(** Sum.__add__, 269-284 *)
Definition sum_add (l : list expr) (x : operand) : res expr :=
  match x with
  | PObj (Node KSum l') => Ok (Node KSum (l ++ l'))
  | PObj e => Ok (Node KSum (l ++ [e]))
  | PNum z c => Ok (Node KSum (l ++ [const_num z c]))
  | PArr a => Ok (Node KSum (l ++ [const_arr a]))
  | POther => Err TypeError
  end.
(** Function.__add__, 15-27 *)
Definition fun_add (e : expr) (x : operand) : res expr :=
  match x with
  | PObj (Node KSum l) => sum_add l (PObj e)
  | PObj o => Ok (Node KSum [e; o])
  | PNum z c => if ceq z (creal 0) then Ok e else Ok (Node KSum [e; const_num z c])
  | PArr a => Ok (Node KSum [e; const_arr a])
  | POther => Err TypeError
  end.
Definition node_add (e : expr) (x : operand) : res expr :=
  match e with Node KSum l => sum_add l x | _ => fun_add e x end.
(** Product.__mul__, 321-337 *)
Definition prod_mul (l : list expr) (x : operand) : res expr :=
  match x with
  | PObj (Node KProd l') => Ok (Node KProd (l ++ l'))
  | PObj e => Ok (Node KProd (l ++ [e]))
  | PNum z c => Ok (Node KProd (l ++ [const_num z c]))
  | PArr a => Ok (Node KProd (l ++ [const_arr a]))
  | POther => Err TypeError
  end.
(** Function.__mul__, 29-41 *)
Definition fun_mul (e : expr) (x : operand) : res expr :=
  match x with
  | PObj (Node KProd l) => prod_mul l (PObj e)
  | PObj o => Ok (Node KProd [e; o])
  | PNum z c => if ceq z (creal 1) then Ok e else Ok (Node KProd [e; const_num z c])
  | PArr a => Ok (Node KProd [e; const_arr a])
  | POther => Err TypeError
  end.
Definition node_mul (e : expr) (x : operand) : res expr :=
  match e with Node KProd l => prod_mul l x | _ => fun_mul e x end.
(** 55-56: [-1 * self] *)
Definition node_neg (e : expr) : res expr := node_mul e (PNum (creal (-1)) false).
(** 64-67: real exponents *)
Definition node_pow (e : expr) (p : R) : res expr := Ok (Node (KPow p) [e]).

(** The operators of Python applied to operands of which at least one is a node (numbers among
    themselves are not the business of this code, and an array on the left of an operator is
    taken apart by numpy: both are [NotImplementedError] here). *)
Definition py_neg (x : operand) : res operand :=
  match x with
  | PNum z c => Ok (PNum (cscale (-1) z) c)
  | PArr a => Ok (PArr (mkarr (cpx a) (map (cscale (-1)) (dat a))))
  | PObj e => bind (node_neg e) (fun e' => Ok (PObj e'))
  | POther => Err TypeError
  end.
Definition obj (r : res expr) : res operand := bind r (fun e => Ok (PObj e)).
Definition py_add (x y : operand) : res operand :=
  match x, y with
  | PObj e, _ => obj (node_add e y)
  | PNum _ _, PObj e => obj (node_add e x)                      (* __radd__, 43-44 *)
  | POther, PObj e => obj (node_add e x)
  | _, _ => Err NotImplementedError
  end.
Definition py_mul (x y : operand) : res operand :=
  match x, y with
  | PObj e, _ => obj (node_mul e y)
  | PNum _ _, PObj e => obj (node_mul e x)                      (* __rmul__, 46-47 *)
  | POther, PObj e => obj (node_mul e x)
  | _, _ => Err NotImplementedError
  end.
Definition py_sub (x y : operand) : res operand :=
  match x, y with
  | PObj e, _ => bind (py_neg y) (fun y' => obj (node_add e y'))     (* 49-50 *)
  | PNum _ _, PObj e => bind (node_neg e) (fun e' => obj (node_add e' x))   (* __rsub__, 52-53 *)
  | _, _ => Err NotImplementedError
  end.
(** [obj ** -1] of a number: division by zero raises, of an array gives inf *)
Definition py_recip (x : operand) : res operand :=
  match x with
  | PNum z c => if ceq z (creal 0) then Err ZeroDivisionError else Ok (PNum (cinv z) c)
  | PArr a => bind (mapM (fun z => cpowf (cpx a) z (-1)) (dat a)) (fun l => Ok (PArr (mkarr (cpx a) l)))
  | PObj e => obj (node_pow e (-1))
  | POther => Err TypeError
  end.
Definition py_div (x y : operand) : res operand :=
  match x, y with
  | PObj e, _ => bind (py_recip y) (fun y' => obj (node_mul e y'))    (* 58-59 *)
  | PNum _ _, PObj e => bind (node_pow e (-1)) (fun e' => obj (node_mul e' x))   (* 61-62 *)
  | _, _ => Err NotImplementedError
  end.
Definition py_pow (x : operand) (p : R) : res operand :=
  match x with PObj e => obj (node_pow e p) | _ => Err NotImplementedError end.
