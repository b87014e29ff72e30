(** The backward pass of [eval_grad] with array objects made explicit.

    goos/graph_executor.py:279-377, goos/flows.py:188-204, goos/math.py:257-267.
    A gradient is a [Grad] object holding one numpy array; [grad += value] is
    [self.array_grad += value.array_grad] (flows.py:201-203), an in-place
    update of the array.  The model therefore represents a gradient by the
    location of its array.  Simplifications: all arrays have the same shape
    (the type [A]), and the [None] entries of goos/graph_executor.py:303-305
    (which always allocate) are left out: see GraphExec_Model.fill_none. *)
From Verif Require Import Base GraphExec_Model.
Set Implicit Arguments.

Section Heap.
Variable V A : Type.
Variable g : graph.
Variable heavy : nat -> bool.
Variable gadd : A -> A -> A.

Definition heap := nat -> A.
Definition hupd (h : heap) (l : nat) (a : A) : heap := fun k => if Nat.eqb k l then a else h k.

(** memory: contents of arrays and the next unused location *)
Definition mem := (heap * nat)%type.

(** [node.grad(input_vals, grad_val)]: receives the location of the gradient
    with respect to the node's output, may allocate, returns locations. *)
Variable hpb : nat -> list V -> nat -> mem -> res (list nat * mem).
Variable vals : dict V.

(** lines 308-312, the loop over [zip(graph[node], node_grad_vals)]. *)
Fixpoint hadd_grads (cs : list nat) (ls : list nat) (h : heap) (hg : dict nat) : heap * dict nat :=
  match cs, ls with
  | c :: cs', l :: ls' =>
      match hg c with
      | Some lc => hadd_grads cs' ls' (hupd h lc (gadd (h lc) (h l))) hg
      | None => hadd_grads cs' ls' h (dset hg c l)
      end
  | _, _ => (h, hg)
  end.

(** lines 326-330. *)
Definition hgrad_light (m : mem) (hg : dict nat) (n : nat) : res (mem * dict nat) :=
  bind (get_inputs g vals n) (fun ivs =>
  bind (dget hg n) (fun l =>
  bind (hpb n ivs l m) (fun '(ls, (h', nx)) =>
  let (h'', hg') := hadd_grads (adj g n) ls h' hg in Ok ((h'', nx), hg')))).

(** lines 353-356: the pool evaluates [_eval_grad] for every node of the block. *)
Fixpoint hpb_all (args : list (nat * list V * nat)) (m : mem) : res (list (list nat) * mem) :=
  match args with
  | [] => Ok ([], m)
  | (n, ivs, l) :: args' =>
      bind (hpb n ivs l m) (fun '(ls, m1) =>
      bind (hpb_all args' m1) (fun '(lss, m2) => Ok (ls :: lss, m2)))
  end.

(** lines 358-359. *)
Fixpoint hupdate_block (ns : list nat) (lss : list (list nat)) (h : heap) (hg : dict nat) : heap * dict nat :=
  match ns, lss with
  | n :: ns', ls :: lss' =>
      let (h', hg') := hadd_grads (adj g n) ls h hg in hupdate_block ns' lss' h' hg'
  | _, _ => (h, hg)
  end.

(** lines 346-359. *)
Definition hgrad_block (m : mem) (hg : dict nat) (blk : list nat) : res (mem * dict nat) :=
  bind (mapM (fun n => bind (get_inputs g vals n) (fun a =>
                       bind (dget hg n) (fun l => Ok (n, a, l)))) blk) (fun args =>
  bind (hpb_all args m) (fun '(lss, (h', nx)) =>
  let (h'', hg') := hupdate_block blk lss h' hg in Ok ((h'', nx), hg'))).

(** lines 314-365. *)
Fixpoint hgrad_loop (sched blk : list nat) (m : mem) (hg : dict nat) : res (mem * dict nat) :=
  match sched with
  | [] => match blk with [] => Ok (m, hg) | _ => hgrad_block m hg blk end
  | n :: sched' =>
      match blk with
      | [] => if heavy n then hgrad_loop sched' [n] m hg
              else bind (hgrad_light m hg n) (fun '(m', hg') => hgrad_loop sched' [] m' hg')
      | _ => if heavy n then hgrad_loop sched' (blk ++ [n]) m hg
             else bind (hgrad_block m hg blk) (fun '(m1, hg1) =>
                  bind (hgrad_light m1 hg1 n) (fun '(m', hg') => hgrad_loop sched' [] m' hg'))
      end
  end.

(** lines 282-288: location 0 holds the seed array. *)
Definition hbackward (sched : list nat) (out : nat) (seed : A) : res (mem * dict nat) :=
  hgrad_loop sched [] ((fun _ => seed), 1) (dset dempty out 0).
End Heap.

(** Write consecutive fresh arrays. *)
Fixpoint halloc {A} (h : heap A) (nx : nat) (vs : list A) : heap A :=
  match vs with
  | [] => h
  | a :: vs' => halloc (hupd h nx a) (S nx) vs'
  end.

(** A [grad] method that computes a new array for every input (Product.grad
    math.py:295-314, AbsoluteValue.grad 375-382, Power.grad 341-349, ...). *)
Definition fresh_pb {V A} (pb : nat -> list V -> A -> res (list A))
    : nat -> list V -> nat -> mem A -> res (list nat * mem A) :=
  fun n ivs l '(h, nx) =>
    bind (pb n ivs (h l)) (fun gs =>
    Ok (seq nx (length gs), (halloc h nx gs, nx + length gs))).

(** [Sum.grad], math.py:257-267, with inputs of equal shape: the dominant input
    is number 0 (find_dominant_numeric_flow, math.py:207-222), it gets a deep
    copy of the gradient; every other input gets a [Grad] object around the very
    array it was given. *)
Definition sum_grad {A} (k : nat) (l : nat) (m : mem A) : list nat * mem A :=
  match k with
  | 0 => ([], m)
  | S k' => (snd m :: repeat l k', (hupd (fst m) (snd m) (fst m l), S (snd m)))
  end.
