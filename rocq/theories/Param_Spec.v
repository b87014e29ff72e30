(** Vocabulary for stating the properties of parametrizations. *)
From Verif Require Import QTac Raster_Spec Grid_Model Param_Model.
Open Scope Q_scope.

(** number of parameters *)
Fixpoint psize (p : param) : nat :=
  match p with
  | Direct v _ _ => length v
  | Grating e _ _ => length e
  | Composite ps _ _ => list_sum (map psize ps)
  | Slack p n _ => psize p + n
  end.
(** states of properly constructed objects *)
Fixpoint wf (p : param) : Prop :=
  match p with
  | Direct v lo hi => length (snd lo) = length v /\ length (snd hi) = length v
  | Grating e _ _ => nondecreasing e /\ Nat.even (length e) = true
  | Composite ps sz es => ps <> [] /\ sz = map psize ps /\ es = map psize ps /\ fold_right (fun p P => wf p /\ P) True ps
  | Slack p n s => length s = n /\ wf p
  end.
(** the two objects agree in everything but the values of the parameters *)
Fixpoint same_config (p q : param) : Prop :=
  match p, q with
  | Direct v lo hi, Direct v' lo' hi' => length v = length v' /\ lo = lo' /\ hi = hi'
  | Grating e n inv, Grating e' n' inv' => length e = length e' /\ n = n' /\ inv = inv'
  | Composite ps sz es, Composite qs sz' es' => sz = sz' /\ es = es' /\
      (fix all ps qs := match ps, qs with
                        | [], [] => True
                        | p :: ps', q :: qs' => same_config p q /\ all ps' qs'
                        | _, _ => False
                        end) ps qs
  | Slack p n s, Slack q n' s' => n = n' /\ same_config p q
  | _, _ => False
  end.
(** no slack variables anywhere *)
Fixpoint slack_free (p : param) : Prop :=
  match p with
  | Slack _ _ _ => False
  | Composite ps _ _ => fold_right (fun p P => slack_free p /\ P) True ps
  | _ => True
  end.
Definition above (lo : option Q) (x : Q) : Prop := match lo with Some l => l <= x | None => True end.
Definition below (x : Q) (hi : option Q) : Prop := match hi with Some h => x <= h | None => True end.
Definition consistent (lo hi : option Q) : Prop := match lo, hi with Some l, Some h => l <= h | _, _ => True end.
Definition on (l : list (option Q)) (i : nat) : option Q := nth i l None.

(** every lower bound is at most the upper one *)
Definition bounds_consistent_direct (lo hi : list (option Q)) := forall i, consistent (on lo i) (on hi i).
Fixpoint bounds_consistent (p : param) : Prop :=
  match p with
  | Direct _ lo hi => bounds_consistent_direct (snd lo) (snd hi)
  | Grating _ _ _ => True
  | Composite ps _ _ => fold_right (fun p P => bounds_consistent p /\ P) True ps
  | Slack p _ _ => bounds_consistent p
  end.
(** effective bounds: those returned, or none *)
Definition eff_bounds (n : nat) (b : option (bounds * bounds)) : list (option Q) * list (option Q) :=
  match b with Some (lo, hi) => (snd lo, snd hi) | None => (repeat None n, repeat None n) end.
(** like same_config, but [inverted] may differ (it is part of the serialized data) *)
Fixpoint same_layout (p q : param) : Prop :=
  match p, q with
  | Direct v lo hi, Direct v' lo' hi' => length v = length v' /\ lo = lo' /\ hi = hi'
  | Grating e n inv, Grating e' n' inv' => n = n'
  | Composite ps sz es, Composite qs sz' es' => sz = sz' /\ es = es' /\
      (fix all ps qs := match ps, qs with
                        | [], [] => True
                        | p :: ps', q :: qs' => same_layout p q /\ all ps' qs'
                        | _, _ => False
                        end) ps qs
  | Slack p n s, Slack q n' s' => same_layout p q
  | _, _ => False
  end.
(** a sequence of bounds has one entry per parameter *)
Definition fits (n : nat) (b : bound_arg) : Prop := match b with BSeq _ l => length l = n | _ => True end.

(** length covered by the teeth [e0,e1], [e2,e3], ... within [l,r] *)
Fixpoint teeth_cover (edges : list Q) (l r : Q) : Q :=
  match edges with
  | a :: b :: rest => overlap a b l r + teeth_cover rest l r
  | _ => 0
  end.

(** feasibility of an optimization problem *)
Definition holds_eq (f : ofun) (p : param) : Prop := exists x, value f p = Ok x /\ x == 0.
Definition holds_ineq (f : ofun) (p : param) : Prop := exists x, value f p = Ok x /\ x <= 0.
Definition feasible (pr : problem) (p : param) : Prop :=
  (forall f, In f (cons_eq pr) -> holds_eq f p) /\ (forall f, In f (cons_ineq pr) -> holds_ineq f p).
