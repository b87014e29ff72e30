(** Model of the computational-graph executor.

    goos variant:   /repo/spins/goos/graph_executor.py
    invdes variant: /repo/spins/invdes/problem/graph_executor.py
    (the graph construction and the topological sort are textually the same
    algorithm in both files). *)
From Verif Require Import Base.
From Coq Require Import ZArith.
Set Implicit Arguments.

(** Adjacency lists in dict insertion order; edges point from outputs to
    inputs.  goos/graph_executor.py:37-40. Nodes are object ids. *)
Definition graph := list (nat * list nat).
Definition keys (g : graph) : list nat := map fst g.

(** [graph[node]].  A missing key would be a KeyError; [adj] returns the empty
    list there, and the theorems are about graphs whose edges stay inside the
    key set (which [build_graph] guarantees). *)
Fixpoint adj (g : graph) (n : nat) : list nat :=
  match g with
  | [] => []
  | (k, l) :: g' => if Nat.eqb k n then l else adj g' n
  end.

(** [graph[node] = l] : overwrites in place or appends (Python dict order). *)
Fixpoint gset (g : graph) (n : nat) (l : list nat) : graph :=
  match g with
  | [] => [(n, l)]
  | (k, l') :: g' => if Nat.eqb k n then (k, l) :: g' else (k, l') :: gset g' n l
  end.

(** ** [_create_computational_graph], goos/graph_executor.py:380-440,
       invdes/problem/graph_executor.py:329-393.
    [inputs n] is [fun_map[n]._goos_inputs]; [known] is [fun_map.keys()].
    The sets [in_nodes]/[heavy_nodes] are filters of the keys and are left out
    (heavy-ness is the predicate [heavy] below).  Old-style functions (invdes)
    are nodes with no inputs, as in line 373-374 there. *)
Section Build.
Variable inputs : nat -> list nat.

(** lines 429-438: scan the inputs of one node. *)
Fixpoint scan_inputs (l : list nat) (known qu : list nat) : list nat * list nat :=
  match l with
  | [] => (known, qu)
  | c :: l' => if memb c known then scan_inputs l' known qu
               else scan_inputs l' (known ++ [c]) (qu ++ [c])
  end.

(** lines 417-438. *)
Fixpoint bfs (fuel : nat) (g : graph) (known qu : list nat) : res graph :=
  match qu with
  | [] => Ok g
  | n :: qu' =>
      match fuel with
      | 0 => Err OutOfFuel
      | S f => let g' := gset g n (inputs n) in
               let (known', qu'') := scan_inputs (inputs n) known qu' in
               bfs f g' known' qu''
      end
  end.

(** [fun_map = {node: fun ...}] removes duplicates of the output list. *)
Fixpoint dedup (l : list nat) (acc : list nat) : list nat :=
  match l with
  | [] => acc
  | x :: l' => if memb x acc then dedup l' acc else dedup l' (acc ++ [x])
  end.

Definition build_graph (fuel : nat) (outs : list nat) : res graph :=
  bfs fuel [] (dedup outs []) outs.
End Build.

(** ** [_top_sort_affinity], goos/graph_executor.py:443-512,
       invdes/problem/graph_executor.py:396-465. *)
Section TopSort.
Variable g : graph.
(** [node in affinity_nodes] *)
Variable aff : nat -> bool.
(** Iteration order of the Python set holding the current block: an arbitrary
    function of the nodes emitted so far and of the insertion order.  The
    theorems only assume that it permutes the block. *)
Variable ord : list nat -> list nat -> list nat.

Definition counter := nat -> Z.
Definition cset (p : counter) (k : nat) (v : Z) : counter :=
  fun k' => if Nat.eqb k' k then v else p k'.

(** lines 469-473. *)
Definition count_parents : counter :=
  fold_left (fun p (e : nat * list nat) =>
               fold_left (fun p c => cset p c (p c + 1)%Z) (snd e) p)
            g (fun _ => 0%Z).

(** lines 478-480. *)
Definition initial_queue (p : counter) : list nat :=
  filter (fun n => Z.eqb (p n) 0) (keys g).

(** lines 499-502 and 507-510: decrement the counters of all children,
    enqueue those that reach zero. *)
Fixpoint relax (l : list nat) (p : counter) (qu : list nat) : counter * list nat :=
  match l with
  | [] => (p, qu)
  | c :: l' => let p' := cset p c (p c - 1)%Z in
               relax l' p' (if Z.eqb (p' c) 0 then qu ++ [c] else qu)
  end.

(** lines 506-510. *)
Fixpoint relax_all (ns : list nat) (p : counter) (qu : list nat) : counter * list nat :=
  match ns with
  | [] => (p, qu)
  | n :: ns' => let (p', qu') := relax (adj g n) p qu in relax_all ns' p' qu'
  end.

(** [affinity_nodes_block.add(node)] *)
Definition set_add (n : nat) (b : list nat) : list nat :=
  if memb n b then b else b ++ [n].

(** lines 489-502: inner while loop. *)
Fixpoint inner (fuel : nat) (p : counter) (qu blk out : list nat)
  : res (counter * list nat * list nat) :=
  match qu with
  | [] => Ok (p, blk, out)
  | n :: qu' =>
      match fuel with
      | 0 => Err OutOfFuel
      | S f =>
          if aff n then inner f p qu' (set_add n blk) out
          else let (p', qu'') := relax (adj g n) p qu' in
               inner f p' qu'' blk (out ++ [n])
      end
  end.

(** lines 485-510: outer while loop. *)
Fixpoint outer (fuel : nat) (p : counter) (qu out : list nat) : res (list nat) :=
  match qu with
  | [] => Ok out
  | _ :: _ =>
      match fuel with
      | 0 => Err OutOfFuel
      | S f =>
          bind (inner (S (length g)) p qu [] out) (fun '(p1, blk, out1) =>
          let blk' := ord out1 blk in
          let (p2, qu2) := relax_all blk' p1 [] in
          outer f p2 qu2 (out1 ++ blk'))
      end
  end.

Definition top_sort : res (list nat) :=
  let p := count_parents in
  outer (S (length g)) p (initial_queue p) [].
End TopSort.

(** ** [_eval_fun_vals], goos/graph_executor.py:103-223,
       invdes/problem/graph_executor.py:95-186.
    [V] is the type of node results; in goos it is the pair (flow, flags)
    computed by [_eval_fun_and_flags] (lines 155-159), since flags follow
    exactly the same data flow as values.  [f n vs = Err e] models an exception
    raised by the node.  The thread pool (lines 210-213) evaluates pure
    functions of arguments computed beforehand, so it is modelled by
    evaluating the block left to right. *)
Section Eval.
Variable V : Type.
Variable g : graph.
Variable heavy : nat -> bool.
Variable f : nat -> list V -> res V.

(** [[fun_vals[in_node] for in_node in graph[node]]] *)
Definition get_inputs (vals : dict V) (n : nat) : res (list V) :=
  mapM (dget vals) (adj g n).

(** lines 181-184. *)
Definition eval_light (vals : dict V) (n : nat) : res (dict V) :=
  bind (get_inputs vals n) (fun ivs =>
  bind (f n ivs) (fun v => Ok (dset vals n v))).

(** lines 204-217: first all arguments, then the evaluations, then the stores. *)
Fixpoint store_all (vals : dict V) (ns : list nat) (vs : list V) : dict V :=
  match ns, vs with
  | n :: ns', v :: vs' => store_all (dset vals n v) ns' vs'
  | _, _ => vals
  end.
Definition eval_block (vals : dict V) (blk : list nat) : res (dict V) :=
  bind (mapM (get_inputs vals) blk) (fun args =>
  bind (mapM (fun na => f (fst na) (snd na)) (combine blk args)) (fun vs =>
  Ok (store_all vals blk vs))).

(** lines 165-223.  [blk = []]: the first inner loop (lines 169-186);
    [blk <> []]: the loop that collects the block of heavy nodes (196-200).
    Note that the collecting loop does not test [node in fun_vals]. *)
Fixpoint eval_loop (sched : list nat) (blk : list nat) (vals : dict V) : res (dict V) :=
  match sched with
  | [] => match blk with [] => Ok vals | _ => eval_block vals blk end
  | n :: sched' =>
      match blk with
      | [] =>
          if dmem vals n then eval_loop sched' [] vals
          else if heavy n then eval_loop sched' [n] vals
          else bind (eval_light vals n) (eval_loop sched' [])
      | _ =>
          if heavy n then eval_loop sched' (blk ++ [n]) vals
          else bind (eval_block vals blk) (fun vals' =>
               if dmem vals' n then eval_loop sched' [] vals'
               else bind (eval_light vals' n) (eval_loop sched' []))
      end
  end.

(** [eval_fun], goos/graph_executor.py:80-97, after graph construction.
    [overrides] is the initial content of [fun_vals]. *)
Definition eval_fun_vals (sched : list nat) (overrides : dict V) : res (dict V) :=
  eval_loop (rev sched) [] overrides.
End Eval.

Definition eval_fun {V} (inputs : nat -> list nat) (heavy : nat -> bool)
    (f : nat -> list V -> res V) (ord : list nat -> list nat -> list nat)
    (fuel : nat) (outs : list nat) (overrides : dict V) : res (list V) :=
  bind (build_graph inputs fuel outs) (fun g =>
  bind (top_sort g heavy ord) (fun sched =>
  bind (eval_fun_vals g heavy f sched overrides) (fun vals =>
  mapM (dget vals) outs))).

(** ** Backward pass of [eval_grad], goos/graph_executor.py:279-377.
    [G] is the type of gradients, [gadd] is [+=] read as a pure addition (the
    heap version with aliasing is in GradHeap_Model.v), [pb n ivs g] is
    [_eval_grad] (lines 290-298), a list with [None] entries allowed,
    [gzero v] is [type(v).Grad()] (line 305). *)
Section Grad.
Variable V G : Type.
Variable g : graph.
Variable heavy : nat -> bool.
Variable pb : nat -> list V -> G -> res (list (option G)).
Variable gadd : G -> G -> G.
Variable gzero : V -> G.

(** lines 303-305.  [ivs] is the variable [input_vals] captured from the
    enclosing function: it is assigned only when a light node is processed
    (line 326); before that reading it is a NameError. *)
Fixpoint fill_none (i : nat) (ivs : option (list V)) (gs : list (option G)) : res (list G) :=
  match gs with
  | [] => Ok []
  | Some x :: gs' => bind (fill_none (S i) ivs gs') (fun r => Ok (x :: r))
  | None :: gs' =>
      match ivs with
      | None => Err NameError
      | Some l => match nth_error l i with
                  | None => Err IndexError
                  | Some v => bind (fill_none (S i) ivs gs') (fun r => Ok (gzero v :: r))
                  end
      end
  end.

(** lines 308-312. *)
Fixpoint add_grads (cs : list nat) (gs : list G) (grads : dict G) : dict G :=
  match cs, gs with
  | c :: cs', x :: gs' =>
      add_grads cs' gs' (dset grads c (match grads c with Some y => gadd y x | None => x end))
  | _, _ => grads
  end.

(** [_update_grad_vals], lines 300-312. *)
Definition update_grad_vals (ivs : option (list V)) (n : nat) (gs : list (option G))
    (grads : dict G) : res (dict G) :=
  bind (fill_none 0 ivs gs) (fun gs' => Ok (add_grads (adj g n) gs' grads)).

Variable vals : dict V.

(** lines 326-330. *)
Definition grad_light (grads : dict G) (n : nat) : res (dict G * list V) :=
  bind (get_inputs g vals n) (fun ivs =>
  bind (dget grads n) (fun gv =>
  bind (pb n ivs gv) (fun gs =>
  bind (update_grad_vals (Some ivs) n gs grads) (fun grads' => Ok (grads', ivs))))).

(** lines 358-359. *)
Fixpoint update_block (ivs : option (list V)) (ns : list nat) (gss : list (list (option G)))
    (grads : dict G) : res (dict G) :=
  match ns, gss with
  | n :: ns', gs :: gss' =>
      bind (update_grad_vals ivs n gs grads) (update_block ivs ns' gss')
  | _, _ => Ok grads
  end.

(** lines 346-359. *)
Definition grad_block (ivs : option (list V)) (grads : dict G) (blk : list nat) : res (dict G) :=
  bind (mapM (fun n => bind (get_inputs g vals n) (fun a =>
                       bind (dget grads n) (fun gv => Ok (n, a, gv)))) blk) (fun args =>
  bind (mapM (fun x => pb (fst (fst x)) (snd (fst x)) (snd x)) args) (fun gss =>
  update_block ivs blk gss grads)).

(** lines 314-365. *)
Fixpoint grad_loop (sched blk : list nat) (ivs : option (list V)) (grads : dict G) : res (dict G) :=
  match sched with
  | [] => match blk with [] => Ok grads | _ => grad_block ivs grads blk end
  | n :: sched' =>
      match blk with
      | [] => if heavy n then grad_loop sched' [n] ivs grads
              else bind (grad_light grads n) (fun '(grads', ivs') =>
                   grad_loop sched' [] (Some ivs') grads')
      | _ => if heavy n then grad_loop sched' (blk ++ [n]) ivs grads
             else bind (grad_block ivs grads blk) (fun grads1 =>
                  bind (grad_light grads1 n) (fun '(grads', ivs') =>
                  grad_loop sched' [] (Some ivs') grads'))
      end
  end.

(** lines 282-288: the dictionary starts with the output's seed only. *)
Definition backward (sched : list nat) (out : nat) (seed : G) : res (dict G) :=
  grad_loop sched [] None (dset dempty out seed).
End Grad.

(** lines 369-377; [gzero_like] is [Grad(np.zeros_like(flow.array))]; the
    variable's flow comes from the override map. *)
Definition collect_grads {V G} (gzero_like : V -> G) (grads : dict G) (overrides : dict V)
    (vars : list nat) : res (list G) :=
  mapM (fun x => match grads x with
                 | Some y => Ok y
                 | None => bind (dget overrides x) (fun v => Ok (gzero_like v))
                 end) vars.

Definition eval_grad {V G} (inputs : nat -> list nat) (heavy : nat -> bool)
    (f : nat -> list V -> res V) (pb : nat -> list V -> G -> res (list (option G)))
    (gadd : G -> G -> G) (gzero gzero_like : V -> G) (seed : G)
    (ord : list nat -> list nat -> list nat) (fuel : nat)
    (out : nat) (vars : list nat) (overrides : dict V) : res (list G) :=
  bind (build_graph inputs fuel [out]) (fun g =>
  bind (top_sort g heavy ord) (fun sched =>
  bind (eval_fun_vals g heavy f sched overrides) (fun vals =>
  bind (backward g heavy pb gadd gzero vals sched out seed) (fun grads =>
  collect_grads gzero_like grads overrides vars)))).
