(** Specification vocabulary for the graph executor: what a graph *means*,
    independent of schedules, queues and dictionaries. *)
From Verif Require Import Base.
From Coq Require Import Relations.
Set Implicit Arguments.

(** [inputs n] lists the direct inputs of node [n] (with repetitions). *)
Definition depends (inputs : nat -> list nat) (n c : nat) : Prop := In c (inputs n).
Definition reachable (inputs : nat -> list nat) (outs : list nat) (n : nat) : Prop :=
  exists o, In o outs /\ clos_refl_trans nat (depends inputs) o n.
Definition dag (inputs : nat -> list nat) : Prop :=
  forall n, ~ clos_trans nat (depends inputs) n n.
(** The nodes reachable from [outs] form a finite set listed by [U]. *)
Definition universe (inputs : nat -> list nat) (outs U : list nat) : Prop :=
  incl outs U /\ forall n, In n U -> incl (inputs n) U.

(** [x] occurs strictly before [y] in [l]. *)
Definition before (l : list nat) (x y : nat) : Prop :=
  exists l1 l2 l3, l = l1 ++ x :: l2 ++ y :: l3.

(** Recursive meaning of a node: its override if there is one, otherwise the
    node function applied to the meanings of the inputs. *)
Section Den.
Variable V : Type.
Variable inputs : nat -> list nat.
Variable f : nat -> list V -> res V.
Variable ov : nat -> option V.
Inductive Den : nat -> V -> Prop :=
| Den_override n v : ov n = Some v -> Den n v
| Den_eval n ivs v : ov n = None -> Forall2 Den (inputs n) ivs -> f n ivs = Ok v -> Den n v.
End Den.

(** No expensive node is a direct input of another expensive node. *)
Definition heavy_independent (inputs : nat -> list nat) (heavy : nat -> bool) : Prop :=
  forall n c, heavy n = true -> In c (inputs n) -> heavy c = false.

(** *** Derivatives.
    Gradients [G] and tangents [T] are related by a pairing into a commutative
    monoid [K] (for arrays: the sum of products).  [jvp n ivs ts] is the
    directional derivative of node [n] at input values [ivs] along input
    tangents [ts]. *)
Section Duality.
Variables V G T K : Type.
Variable inputs : nat -> list nat.
Variable f : nat -> list V -> res V.
Variable ov : nat -> option V.
Variable heavy : nat -> bool.
Variable pb : nat -> list V -> G -> res (list (option G)).
Variable gadd : G -> G -> G.
Variable gzero : V -> G.
Variable kplus : K -> K -> K.
Variable kzero : K.
Variable pair : G -> T -> K.
Variable jvp : nat -> list V -> list T -> T.

Definition comm_monoid : Prop :=
  (forall a b c, kplus a (kplus b c) = kplus (kplus a b) c) /\
  (forall a b, kplus a b = kplus b a) /\ (forall a, kplus kzero a = a).

(** [sum over i of <gs_i, ts_i>] *)
Fixpoint sum_pair (gs : list G) (ts : list T) : K :=
  match gs, ts with
  | x :: gs', t :: ts' => kplus (pair x t) (sum_pair gs' ts')
  | _, _ => kzero
  end.

(** A [None] entry stands for the zero gradient of the corresponding input. *)
Fixpoint fill (ivs : list V) (gs : list (option G)) : list G :=
  match ivs, gs with
  | v :: ivs', Some x :: gs' => x :: fill ivs' gs'
  | v :: ivs', None :: gs' => gzero v :: fill ivs' gs'
  | _, _ => []
  end.

Definition no_none (gs : list (option G)) : Prop := Forall (fun o => o <> None) gs.

(** The node's [grad] method returns the transpose of its derivative: one
    entry per input, and [sum_i <gs_i, ts_i> = <gv, jvp ts>].  Expensive nodes
    and leaves do not use [None] entries. *)
Definition pullback_ok (n : nat) : Prop :=
  forall ivs gv, Forall2 (Den inputs f ov) (inputs n) ivs ->
  exists gs, pb n ivs gv = Ok gs /\
    ((heavy n = true \/ inputs n = []) -> no_none gs) /\
    (inputs n <> [] ->
       length gs = length (inputs n) /\
       forall ts, length ts = length (inputs n) ->
         sum_pair (fill ivs gs) ts = pair gv (jvp n ivs ts)).

(** [t] assigns a tangent to every node so that non-leaf tangents follow the
    (forward) chain rule. *)
Definition tangent (t : nat -> T) : Prop :=
  forall n ivs, inputs n <> [] -> Forall2 (Den inputs f ov) (inputs n) ivs ->
    t n = jvp n ivs (map t (inputs n)).
End Duality.
