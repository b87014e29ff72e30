(** Vocabulary for the statements about optimizing transformations. *)
From Coq Require Import ZArith QArith.
From Verif Require Import Base OptRun_Model.
Set Implicit Arguments.
Local Open Scope Q_scope.

(** What an optimizer does when its functions have the values [f]: the points at which it
    evaluates and those it reports to the callback, in order, and its result. *)
Inductive act (X : Type) := Evaluated (x : X) | Reported (x : X).
Arguments Evaluated {X}. Arguments Reported {X}.
Inductive does {X A} (f : nat -> X -> A) : strategy X A -> list (act X) -> X -> Prop :=
| does_done x : does f (Done x) [] x
| does_ask x q k tr v : does f (k (f q x)) tr v -> does f (Ask x q k) (Evaluated x :: tr) v
| does_report x k tr v : does f k tr v -> does f (Report x k) (Reported x :: tr) v.

(** The points reported. *)
Fixpoint reported {X} (tr : list (act X)) : list X :=
  match tr with [] => [] | Reported x :: tr' => x :: reported tr' | Evaluated _ :: tr' => reported tr' end.
(** For every report, the point evaluated last before it ([x] before the first evaluation). *)
Fixpoint last_evaluated {X} (x : X) (tr : list (act X)) : list X :=
  match tr with
  | [] => []
  | Evaluated y :: tr' => last_evaluated y tr'
  | Reported _ :: tr' => x :: last_evaluated x tr'
  end.

(** The options of a plan that are set and not zero; without the tolerance, and with a maximal
    number of iterations reduced by [i]; and the tolerance. *)
Definition set_options (d : list (okey * option Q)) : odict :=
  flat_map (fun kv => match kv with (k, Some v) => if Qeq_bool v 0 then [] else [(k, v)] | _ => [] end) d.
Definition scipy_options (d : list (okey * option Q)) (i : Z) : odict :=
  flat_map (fun kv => match kv with
                      | (KTol, _) => []
                      | (KMaxiter, v) => [(KMaxiter, v - inject_Z i)]
                      | kv => [kv]
                      end) (set_options d).
Definition scipy_tol (d : list (okey * option Q)) : option Q := oget (set_options d) KTol.

(** Events with consecutive iteration numbers from [i]. *)
Fixpoint events_from {X} (i : Z) (l : list X) : list (X * event) :=
  match l with [] => [] | x :: l' => (x, Event SOptimizing (Some i) None None) :: events_from (i + 1)%Z l' end.

(** The optimizer [m], started in iteration [i], can be restarted from what is in the
    parametrization when it reports, and goes on as it would have. *)
Definition restartable {X A} (f : nat -> X -> A) (m : Z -> X -> strategy X A) : Prop :=
  forall i x tr v l1 y l2, does f (m i x) tr v -> last_evaluated x tr = l1 ++ y :: l2 ->
  exists tr', does f (m (i + Z.of_nat (length l1) + 1)%Z y) tr' v /\ last_evaluated y tr' = l2.
(** The same when the callback stores the point reported, of which a restart only keeps
    [forget y]; iterations are not counted. *)
Definition restartable_stored {X A} (f : nat -> X -> A) (forget : X -> X) (m : X -> strategy X A) : Prop :=
  forall x tr v l1 y l2, does f (m x) tr v -> reported tr = l1 ++ y :: l2 ->
  exists tr', does f (m (forget y)) tr' v /\ reported tr' = l2.

(** Event data and parametrization with which a transformation may be called: at first, or after
    interruptions, each followed by a restart from what was logged last. *)
Inductive reached {X} (run : option event -> X -> list (X * event) * res X) : option event -> X -> Prop :=
| reached_first x : reached run None x
| reached_restart ev x l1 y e l2 r : reached run ev x -> run ev x = (l1 ++ (y, e) :: l2, r) -> reached run (Some e) y.

(** The weight of cycle [k]. *)
Fixpoint weight (pw : Q -> Q) (mu0 : Q) (k : nat) : Q :=
  match k with O => mu0 | S k' => pw (weight pw mu0 k') end.

(** An option of a plan, or its default when it is not set or zero. *)
Definition option_or (d : list (okey * option Q)) (k : okey) (v : Q) : Q :=
  match oget (set_options d) k with Some w => w | None => v end.
(** [n] cycles from cycle [k] with weight [mu]: each runs the optimizer [opt] of the cycle on the
    objective [obj] of the weight from the result of the previous one; the points reported, with cycle and
    weight, and the vector at the end. *)
Inductive cycles_do {X A} (opt : Z -> X * list Q -> strategy (X * list Q) A) (obj : Q -> nat -> X * list Q -> A)
    (next : Q -> Q) : nat -> Z -> Q -> X * list Q -> list (X * Z * Q) -> X -> Prop :=
| cycles_none k mu y : cycles_do opt obj next 0 k mu y [] (fst y)
| cycles_one n k mu y tr y' l v : does (obj mu) (opt k y) tr y' -> cycles_do opt obj next n (k + 1)%Z (next mu) y' l v ->
    cycles_do opt obj next (S n) k mu y (map (fun p => (fst p, k, mu)) (reported tr) ++ l) v.
(** The events for reported points, with iteration numbers from [i]. *)
Fixpoint cycle_events {X} (i : Z) (l : list (X * Z * Q)) : list (X * event) :=
  match l with
  | [] => []
  | (x, k, mu) :: l' => (x, Event SOptimizing (Some i) (Some k) (Some mu)) :: cycle_events (i + 1)%Z l'
  end.
