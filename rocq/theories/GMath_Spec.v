(** Specification vocabulary for the numeric nodes of goos: array-valued curves, what a gradient
    says about them, and where a graph can be differentiated. *)
From Coq Require Import Reals ZArith Relations.
From Verif Require Obj_Spec.
From Verif Require Import Base GraphExec_Spec Shape_Model GMath_Model.
Set Implicit Arguments.
Local Open Scope R_scope.

(** ** Curves of arrays *)
Notation near := Obj_Spec.near.
Definition entry (a : arr) (j : nat) : C := nth j (dat a) (creal 0).
(** the derivative of a complex-valued function of time, by real and imaginary parts *)
Definition cderive (u : R -> C) (t0 : R) (d : C) : Prop :=
  derivable_pt_lim (fun t => fst (u t)) t0 (fst d) /\ derivable_pt_lim (fun t => snd (u t)) t0 (snd d).
Definition real_entries (l : list C) : Prop := Forall (fun z => snd z = 0) l.
(** arrays of real dtype have real entries *)
Definition proper (a : arr) : Prop := cpx a = false -> real_entries (dat a).

(** [u] passes through [a] at time [t0] with the velocity [d], keeping number of entries and dtype *)
Record moves (u : R -> arr) (t0 : R) (a : arr) (d : list C) : Prop := {
  moves_at : u t0 = a;
  moves_near : near t0 (fun t => cpx (u t) = cpx a /\ size (u t) = size a /\ proper (u t));
  moves_length : length d = size a;
  moves_real : cpx a = false -> real_entries d;
  moves_entry : forall j, (j < size a)%nat -> cderive (fun t => entry (u t) j) t0 (nth j d (creal 0))
}.

(** The rate of change that the gradient [g] ascribes to the velocity [d]: the real part of the sum
    of the products of the entries, twice that for complex arrays (the gradient is then the
    derivative with respect to the entries, their conjugates held fixed). *)
Definition rate (complex : bool) (g d : list C) : R :=
  (if complex then 2 else 1) * rsum (map (fun xy => fst (cmul (fst xy) (snd xy))) (combine g d)).
Fixpoint total_rate (flags : list bool) (gs ds : list (list C)) : R :=
  match flags, gs, ds with
  | b :: flags', g :: gs', d :: ds' => rate b g d + total_rate flags' gs' ds'
  | _, _, _ => 0
  end.
(** a gradient with respect to [a] has the form of [a] *)
Definition grad_for (a : arr) (g : list C) : Prop := length g = size a /\ (cpx a = false -> real_entries g).

(** A node given from outside differentiates correctly at [ivs]: along all curves it is defined near
    [ivs], has a velocity, and its [grad] method gives the rates of change. *)
Definition correct_at (fn : list arr -> res arr) (gr : list arr -> list C -> res (list (list C))) (ivs : list arr) : Prop :=
  forall v, fn ivs = Ok v ->
  (forall g, grad_for v g -> exists gs, gr ivs g = Ok gs /\ Forall2 grad_for ivs gs) /\
  forall (us : list (R -> arr)) ds t0, Forall2 (fun u ad => moves u t0 (fst ad) (snd ad)) us (combine ivs ds) ->
    length us = length ivs -> length ds = length ivs ->
    exists w e, near t0 (fun t => fn (map (fun u => u t) us) = Ok (w t)) /\ moves w t0 v e /\
      forall g gs, grad_for v g -> gr ivs g = Ok gs -> total_rate (map cpx ivs) gs ds = rate (cpx v) g e.

(** ** Where the nodes can be differentiated.  [fx] tells which inputs do not move, [v] is the value. *)
Definition suits (k : kind) (fx : list bool) (ivs : list arr) (v : arr) : Prop :=
  match k with
  | KVar _ | KConst _ => True
  | KSum | KProd =>
      (* inputs that move are not broadcast and not converted to complex *)
      Forall2 (fun f a => f = true \/ (size a = size v /\ cpx a = cpx v)) fx ivs
  | KDot => exists a b, ivs = [a; b] /\ size a = size b /\ Forall2 (fun f a => f = true \/ cpx a = cpx v) fx ivs
  | KPow p => exists a, ivs = [a] /\ forall z, In z (dat a) ->
      if cpx a then (exists m, p = IZR m) /\ (z <> creal 0 \/ 1 <= p) else Obj_Spec.smooth_pow (fst z) p
  | KAbs => exists a, ivs = [a] /\ forall z, In z (dat a) -> z <> creal 0
  | KNorm o => exists a, ivs = [a] /\
      ((o = 1%nat /\ forall z, In z (dat a) -> z <> creal 0) \/ ((2 <= o)%nat /\ exists z, In z (dat a) /\ z <> creal 0))
  | KMax => (* at every position one of the inputs exceeds the others *)
      forall j, (j < size v)%nat -> exists i, (i < length ivs)%nat /\
        forall i' a a', i' <> i -> nth_error ivs i = Some a -> nth_error ivs i' = Some a' -> fst (entry a' j) < fst (entry a j)
  | KSig | KSlice _ | KConj | KCast => exists a, ivs = [a]
  | KExt _ fn gr => if Nat.eqb (length ivs) 0 then forall g, exists gs, gr [] g = Ok gs else correct_at fn gr ivs
  end.

Section Graph.
Variable kinds : nat -> kind.
Variable inputs : nat -> list nat.
Variable ov : dict arr.
Variable vars : list nat.
Variable U : list nat.

(** [v] is the value of node [n] *)
Definition value_of (n : nat) (v : arr) : Prop := Den inputs (fun n ivs => keval (kinds n) ivs) ov n v.
(** leaves that do not move: constants, and parameters whose gradient is not asked for *)
Definition fixed (n : nat) : bool := match inputs n with [] => negb (memb n vars) | _ => false end.

(** ** Sharing.  The gradients passed on by a sum (all but one) and by a cast are the array that came
    in, and gradients are accumulated in place.  A leaf used once receives one gradient, so nothing
    is added to its array after that. *)
Definition used_once (n : nat) : bool := Nat.eqb (count_occ Nat.eq_dec (flat_map inputs U) n) 1.
Definition quiet (n : nat) : bool :=
  match inputs n with [] => used_once n && negb (is_heavy kinds n) | _ => false end.
Definition spare (n : nat) : bool := quiet n && negb (memb n vars).
(** inputs without the first one that has [m] entries *)
Fixpoint but_first (m : nat) (cs : list nat) (ivs : list arr) : list nat :=
  match cs, ivs with
  | c :: cs', a :: ivs' => if Nat.eqb (size a) m then cs' else c :: but_first m cs' ivs'
  | _, _ => []
  end.
Definition passed_on (k : kind) (cs : list nat) (ivs : list arr) (v : arr) : list nat :=
  match k with KSum => but_first (size v) cs ivs | KCast => cs | _ => [] end.
(** at most one of the inputs with the common array can notice *)
Definition unnoticed (l : list nat) : Prop :=
  Forall (fun c => quiet c = true) l \/ (length (filter (fun c => negb (spare c)) l) <= 1)%nat.

(** number of entries of the gradients that reach an input *)
Definition arrives (c m : nat) : Prop :=
  exists n ivs v i a, In n U /\ Forall2 value_of (inputs n) ivs /\ value_of n v /\
    nth_error (inputs n) i = Some c /\ nth_error ivs i = Some a /\
    m = match kinds n with KSum | KProd => size v | _ => size a end.

Record differentiable : Prop := {
  d_suits : forall n ivs v, In n U -> Forall2 value_of (inputs n) ivs -> value_of n v ->
     suits (kinds n) (map fixed (inputs n)) ivs v;
  d_nonempty : forall n v, In n U -> value_of n v -> size v <> 0%nat;
  d_shared : forall n ivs v, In n U -> Forall2 value_of (inputs n) ivs -> value_of n v ->
     unnoticed (passed_on (kinds n) (inputs n) ivs v);
  d_sizes : forall c m m', fixed c = true -> arrives c m -> arrives c m' -> m = m'
}.
End Graph.

(** A computational graph: [U] lists its nodes, variables have no inputs and they are what is
    overridden, arrays of real dtype have real entries. *)
Record goos_graph (kinds : nat -> kind) (inputs : nat -> list nat) (ov : dict arr) (vars : list nat) (out : nat) (U : list nat) : Prop := {
  g_nodes : NoDup U /\ forall n, In n U <-> reachable inputs [out] n;
  g_dag : dag inputs;
  g_heavy : heavy_independent inputs (is_heavy kinds);
  g_leaf : forall n, match kinds n with KVar _ | KConst _ => inputs n = [] | _ => True end;
  g_over : forall n, ov n <> None -> exists x, kinds n = KVar x;
  g_proper : (forall n a, ov n = Some a -> proper a) /\ forall n a, In n U -> kinds n = KConst a -> proper a;
  g_ext : forall n h fn gr v, In n U -> inputs n = [] -> kinds n = KExt h fn gr -> fn [] = Ok v -> proper v;
  g_vars : NoDup vars /\ forall x, In x vars -> ov x <> None
}.

(** The variables move with velocities [ds], everything else stays. *)
Definition varying (ov : dict arr) (vars : list nat) (W : R -> dict arr) (t0 : R) (ds : list (list C)) : Prop :=
  Forall2 (fun x d => exists a u, ov x = Some a /\ (forall t, W t x = Some (u t)) /\ moves u t0 a d) vars ds /\
  forall x t, ~ In x vars -> W t x = ov x.
Definition flags (ov : dict arr) (vars : list nat) : list bool :=
  map (fun x => match ov x with Some a => cpx a | None => false end) vars.
(** the number in a result *)
Definition number (r : res arr) : R := match r with Ok a => fst (entry a 0) | Err _ => 0 end.
