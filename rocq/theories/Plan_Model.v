(** Model of [OptimizationPlan], /repo/spins/goos/optplan/optplan.py:239-690. *)
From Verif Require Import Base.
Set Implicit Arguments.

(** *** Python dicts with insertion order (association lists). *)
Definition alist (X : Type) := list (nat * X).
Fixpoint aget {X} (l : alist X) (k : nat) : option X :=
  match l with
  | [] => None
  | (k', x) :: l' => if Nat.eqb k' k then Some x else aget l' k
  end.
(** [d[k] = x]: overwrite in place, or append. *)
Fixpoint aset {X} (l : alist X) (k : nat) (x : X) : alist X :=
  match l with
  | [] => [(k, x)]
  | (k', y) :: l' => if Nat.eqb k' k then (k', x) :: l' else (k', y) :: aset l' k x
  end.
Definition akeys {X} (l : alist X) : list nat := map fst l.
Definition amem {X} (l : alist X) (k : nat) : bool :=
  match aget l k with Some _ => true | None => false end.

Section Plan.
(** [V]: numpy arrays, [S]: scalars, [E]: event dictionaries. *)
Variables V S E : Type.
(** [np.ones_like(v) * s] *)
Variable full_like : V -> S -> V.
Variables ninf pinf : S.
(** truthiness of an event dictionary: an empty one is false *)
Variable truthy : E -> bool.

(** A declared bound: absent, scalar or array (math.py:93-125). *)
Inductive bound := BNone | BScalar (s : S) | BArray (v : V).

(** The part of a [Variable] node that [add_node] reads (math.py:107-121). *)
Record vardecl := { d_value : V; d_param : bool; d_lower : bound; d_upper : bound }.

(** A graph node: its name, the variable declaration if it is a [Variable],
    and its inputs.  Python objects are unfolded to trees; two objects with the
    same unfolding are not distinguished. *)
Inductive node := Node (name : nat) (decl : option vardecl) (ins : list node).
Definition nname (n : node) : nat := match n with Node k _ _ => k end.
Definition nins (n : node) : list node := match n with Node _ _ l => l end.
Definition ndecl (n : node) : option vardecl := match n with Node _ d _ => d end.

Definition bounds := (V * V)%type.
(** Variable data and node table: the state that actions work on. *)
Record core := {
  node_map : alist node;
  var_value : alist V;
  var_frozen : alist bool;
  var_bounds : alist bounds
}.

(** *** [add_node], optplan.py:482-508. *)
Definition expand (b : bound) (dflt : S) (v : V) : V :=
  match b with
  | BNone => full_like v dflt
  | BScalar s => full_like v s
  | BArray a => a
  end.
(** lines 487-504 *)
Definition register (c : core) (n : node) : core :=
  let nm := aset (node_map c) (nname n) n in
  match ndecl n with
  | None => {| node_map := nm; var_value := var_value c; var_frozen := var_frozen c; var_bounds := var_bounds c |}
  | Some d =>
      {| node_map := nm;
         var_value := aset (var_value c) (nname n) (d_value d);
         var_frozen := aset (var_frozen c) (nname n) (d_param d);
         var_bounds := aset (var_bounds c) (nname n)
           (expand (d_lower d) ninf (d_value d), expand (d_upper d) pinf (d_value d)) |}
  end.
Fixpoint add_node (n : node) (c : core) : core :=
  match n with
  | Node k d ins =>
      if amem (node_map c) k then c
      else (fix add_list (l : list node) (c : core) : core :=
              match l with
              | [] => c
              | m :: l' => add_list l' (add_node m c)
              end) ins (register c (Node k d ins))
  end.
Definition add_nodes (l : list node) (c : core) : core := fold_left (fun c n => add_node n c) l c.

(** [d[k]] *)
Definition aidx {X} (l : alist X) (k : nat) : res X :=
  match aget l k with Some x => Ok x | None => Err KeyError end.

(** The override map built by [eval_nodes], lines 643-657: for every variable
    its node, value and frozen flag. *)
Definition override_map (c : core) : res (list (node * V * bool)) :=
  mapM (fun kv => bind (aidx (var_frozen c) (fst kv)) (fun fr =>
                  bind (aidx (node_map c) (fst kv)) (fun n => Ok (n, snd kv, fr)))) (var_value c).
(** External evaluation of nodes (graph_executor.eval_fun, modelled in
    GraphExec_Model.v) as a function of the requested nodes and the override
    map. *)
Variable evalx : list node -> list (node * V * bool) -> res (list V).
Definition evaln (ns : list node) (c : core) : res (list V) :=
  bind (override_map c) (evalx ns).

(** *** Files. *)
Inductive fname := Chkpt (n : nat) (* action{n}.chkpt *) | Step (n : nat) (* step{n}.pkl *) | Other (n : nat).
(** The pickled dictionary: get_state_dict (343-366) plus, for event files,
    "event", "monitor_data", "log_counter" (402-406).  The "time", "version" and
    "action" entries are left out. *)
Record fdata := {
  f_ptr : nat;
  f_vars : alist (V * bool * bounds);
  f_event : option E;
  f_monitors : alist V;
  f_log : option nat
}.
Record world := { files : list (fname * fdata); (* newest write first *) }.

(** *** Actions: arbitrary code that talks to the plan through its API. *)
Inductive aop :=
| OSetValue (n : node) (v : V) (check : bool)
| OSetBounds (n : node) (b : bounds)
| OGetValue (n : node)
| OGetBounds (n : node)
| OFreeze (n : node)
| OThaw (n : node)
| OGetThawed
| OAddNode (n : node)
| OEval (ns : list node)
| OWriteEvent (ev : E) (mons : list node)
| OWriteCkpt (k : nat).
Inductive aval := AUnit | AVal (v : V) | ABounds (b : bounds) | ANodes (l : list node) | AVals (l : list V).
(** The continuation receives the outcome of the call, an exception included,
    so that code with try/except is covered. *)
Inductive prog := Ret | Raise (e : err) | Do (o : aop) (k : res aval -> prog).

(** An action: the nodes it refers to, its [run] method and, if it has one, its
    [resume] method.  Simplification: the Python object has no private state. *)
Record action := { a_name : nat; a_inputs : list node; a_run : prog; a_resume : option (E -> prog) }.

Record plan := {
  modifiable : bool;
  autorun : bool;
  saved : bool;             (* [_save_path] is set *)
  log_counter : nat;
  actions : list action;
  action_ptr : nat;
  action_data : option E;
  data : core
}.
Definition st := (plan * world)%type.

Definition with_data (p : plan) (c : core) : plan :=
  {| modifiable := modifiable p; autorun := autorun p; saved := saved p; log_counter := log_counter p;
     actions := actions p; action_ptr := action_ptr p; action_data := action_data p; data := c |}.
Definition with_mod (p : plan) (b : bool) : plan :=
  {| modifiable := b; autorun := autorun p; saved := saved p; log_counter := log_counter p;
     actions := actions p; action_ptr := action_ptr p; action_data := action_data p; data := data p |}.
Definition with_log (p : plan) (n : nat) : plan :=
  {| modifiable := modifiable p; autorun := autorun p; saved := saved p; log_counter := n;
     actions := actions p; action_ptr := action_ptr p; action_data := action_data p; data := data p |}.
Definition with_ptr (p : plan) (n : nat) (d : option E) : plan :=
  {| modifiable := modifiable p; autorun := autorun p; saved := saved p; log_counter := log_counter p;
     actions := actions p; action_ptr := n; action_data := d; data := data p |}.
Definition with_actions (p : plan) (l : list action) : plan :=
  {| modifiable := modifiable p; autorun := autorun p; saved := saved p; log_counter := log_counter p;
     actions := l; action_ptr := action_ptr p; action_data := action_data p; data := data p |}.

(** [__init__], optplan.py:241-283. *)
Definition init_plan (sv ar : bool) : plan :=
  {| modifiable := false; autorun := ar; saved := sv; log_counter := 0; actions := []; action_ptr := 0;
     action_data := None; data := {| node_map := []; var_value := []; var_frozen := []; var_bounds := [] |} |}.

Definition write_file (w : world) (f : fname) (d : fdata) : world := {| files := (f, d) :: files w |}.
Definition fname_eqb (a b : fname) : bool :=
  match a, b with
  | Chkpt n, Chkpt m => Nat.eqb n m
  | Step n, Step m => Nat.eqb n m
  | Other n, Other m => Nat.eqb n m
  | _, _ => false
  end.
(** current content of a file *)
Fixpoint lookup_file (l : list (fname * fdata)) (f : fname) : option fdata :=
  match l with
  | [] => None
  | (f', d) :: l' => if fname_eqb f' f then Some d else lookup_file l' f
  end.

Definition with_fr (c : core) (l : alist bool) : core :=
  {| node_map := node_map c; var_value := var_value c; var_frozen := l; var_bounds := var_bounds c |}.
Definition with_val (c : core) (l : alist V) : core :=
  {| node_map := node_map c; var_value := l; var_frozen := var_frozen c; var_bounds := var_bounds c |}.
Definition with_bnd (c : core) (l : alist bounds) : core :=
  {| node_map := node_map c; var_value := var_value c; var_frozen := var_frozen c; var_bounds := l |}.

(** [get_state_dict], lines 343-366: the variable part, then
    [self._actions[self._action_ptr]]. *)
Definition state_vars (c : core) : res (alist (V * bool * bounds)) :=
  mapM (fun kv => bind (aidx (var_frozen c) (fst kv)) (fun fr =>
                  bind (aidx (var_bounds c) (fst kv)) (fun b =>
                  Ok (fst kv, (snd kv, fr, b))))) (var_value c).
Definition get_state_dict (p : plan) : res (nat * alist (V * bool * bounds)) :=
  bind (state_vars (data p)) (fun vs =>
  match nth_error (actions p) (action_ptr p) with
  | None => Err IndexError
  | Some _ => Ok (action_ptr p, vs)
  end).

(** [write_checkpoint], lines 432-449. *)
Definition write_checkpoint (f : fname) (s : st) : st * res unit :=
  match get_state_dict (fst s) with
  | Err e => (s, Err e)
  | Ok (ptr, vs) =>
      ((fst s, write_file (snd s) f {| f_ptr := ptr; f_vars := vs; f_event := None; f_monitors := []; f_log := None |}), Ok tt)
  end.

(** [read_checkpoint], lines 451-470.  A missing file is an error of the
    environment. *)
Definition load_vars (vs : alist (V * bool * bounds)) (c : core) : core :=
  fold_left (fun c kv =>
    let '(k, (v, fr, b)) := kv in
    with_bnd (with_fr (with_val c (aset (var_value c) k v)) (aset (var_frozen c) k fr)) (aset (var_bounds c) k b)) vs c.
Definition read_checkpoint (f : fname) (s : st) : st * res unit :=
  match lookup_file (files (snd s)) f with
  | None => (s, Err (UserError 0))
  | Some d => ((with_data (with_ptr (fst s) (f_ptr d) (f_event d)) (load_vars (f_vars d) (data (fst s))), snd s), Ok tt)
  end.

(** [get_thawed_vars], lines 543-549. *)
Definition get_thawed (c : core) : res (list node) :=
  bind (mapM (fun k => bind (aidx (var_frozen c) k) (fun fr => Ok (k, fr))) (akeys (var_value c))) (fun l =>
  mapM (fun k => aidx (node_map c) k) (map fst (filter (fun x => negb (snd x)) l))).

(** [write_event], lines 372-430.  The log output is left out. *)
Definition write_event (ev : E) (mons : list node) (s : st) : st * res aval :=
  let p0 := fst s in
  let p := with_log p0 (1 + log_counter p0) in
  match nth_error (actions p) (action_ptr p) with
  | None => ((p, snd s), Err IndexError)
  | Some _ =>
      let p1 := match mons with [] => p | _ => with_data p (add_nodes mons (data p)) end in
      match (match mons with [] => Ok [] | _ => evaln mons (data p1) end) with
      | Err e => ((p1, snd s), Err e)
      | Ok vals =>
          match get_state_dict p1 with
          | Err e => ((p1, snd s), Err e)
          | Ok (ptr, vs) =>
              let p2 := with_ptr p1 (action_ptr p1) (Some ev) in
              let w2 := if saved p2 then
                  write_file (snd s) (Step (log_counter p2))
                    {| f_ptr := ptr; f_vars := vs; f_event := Some ev;
                       f_monitors := combine (map nname mons) vals; f_log := Some (log_counter p2) |}
                else snd s in
              ((p2, w2), Ok AUnit)
          end
      end
  end.

(** One API call.  [_requires_action] (228-235) guards set_var_value (513-522),
    set_var_bounds (524-527), freeze_var (535-537), thaw_var (539-541),
    get_thawed_vars and write_event. *)
Definition guarded (s : st) (r : st * res aval) : st * res aval :=
  if modifiable (fst s) then r else (s, Err ValueError).
Definition upd (s : st) (c : core) : st := (with_data (fst s) c, snd s).
Definition call (o : aop) (s : st) : st * res aval :=
  let c := data (fst s) in
  match o with
  | OSetValue n v check => guarded s (
      match (if check then aidx (var_frozen c) (nname n) else Ok false) with
      | Err e => (s, Err e)
      | Ok true => (s, Err ValueError)
      | Ok false => (upd s (with_val c (aset (var_value c) (nname n) v)), Ok AUnit)
      end)
  | OSetBounds n b => guarded s (upd s (with_bnd c (aset (var_bounds c) (nname n) b)), Ok AUnit)
  | OGetValue n => (s, bind (aidx (var_value c) (nname n)) (fun v => Ok (AVal v)))
  | OGetBounds n => (s, bind (aidx (var_bounds c) (nname n)) (fun b => Ok (ABounds b)))
  | OFreeze n => guarded s (upd s (with_fr c (aset (var_frozen c) (nname n) true)), Ok AUnit)
  | OThaw n => guarded s (upd s (with_fr c (aset (var_frozen c) (nname n) false)), Ok AUnit)
  | OGetThawed => guarded s (s, bind (get_thawed c) (fun l => Ok (ANodes l)))
  | OAddNode n => (upd s (add_node n c), Ok AUnit)
  | OEval ns => let c' := add_nodes ns c in (upd s c', bind (evaln ns c') (fun l => Ok (AVals l)))
  | OWriteEvent ev mons => guarded s (write_event ev mons s)
  | OWriteCkpt k => let (s', r) := write_checkpoint (Other k) s in (s', bind r (fun _ => Ok AUnit))
  end.

(** Running action code. *)
Fixpoint exec (p : prog) (s : st) : st * res unit :=
  match p with
  | Ret => (s, Ok tt)
  | Raise e => (s, Err e)
  | Do o k => let (s', r) := call o s in exec (k r) s'
  end.

(** [run], lines 551-572.  The number of iterations is the number of remaining
    actions (an action cannot append actions in this model). *)
Definition after_action (auto : bool) (s : st) : st * res unit :=
  let (s1, r) := if (auto && saved (fst s))%bool
                 then write_checkpoint (Chkpt (action_ptr (fst s))) s else (s, Ok tt) in
  match r with
  | Err e => (s1, Err e)
  | Ok _ => ((with_ptr (fst s1) (1 + action_ptr (fst s1)) None, snd s1), Ok tt)
  end.
Fixpoint run_loop (k : nat) (auto : bool) (s : st) : st * res unit :=
  match nth_error (actions (fst s)) (action_ptr (fst s)) with
  | None => ((with_mod (fst s) false, snd s), Ok tt)
  | Some a =>
      match k with
      | 0 => (s, Err OutOfFuel)
      | Datatypes.S k' =>
          let (s1, r) := exec (a_run a) s in
          match r with
          | Err e => (s1, Err e)
          | Ok _ => let (s2, r2) := after_action auto s1 in
                    match r2 with
                    | Err e => (s2, Err e)
                    | Ok _ => run_loop k' auto s2
                    end
          end
      end
  end.
Definition run (auto : bool) (s : st) : st * res unit :=
  run_loop (length (actions (fst s)) - action_ptr (fst s)) auto (with_mod (fst s) true, snd s).

(** [resume], lines 574-627.  The final [self.run()] uses the default
    [auto_checkpoint=True]. *)
Definition resume (ck : option fname) (auto : bool) (s : st) : st * res unit :=
  let (s0, r0) := match ck with None => (s, Ok tt) | Some f => read_checkpoint f s end in
  match r0 with
  | Err e => (s0, Err e)
  | Ok _ =>
      let s1 := (with_mod (fst s0) true, snd s0) in
      match nth_error (actions (fst s1)) (action_ptr (fst s1)) with
      | None => (s1, Err IndexError)
      | Some a =>
          let code := match action_data (fst s1) with
                      | Some ev => if truthy ev then match a_resume a with Some f => f ev | None => a_run a end else a_run a
                      | None => a_run a
                      end in
          let (s2, r2) := exec code s1 in
          match r2 with
          | Err e => (s2, Err e)
          | Ok _ =>
              let (s3, r3) := after_action auto s2 in
              match r3 with
              | Err e => (s3, Err e)
              | Ok _ => run true (with_mod (fst s3) false, snd s3)
              end
          end
      end
  end.

(** [add_action], lines 472-479. *)
Definition add_action (a : action) (s : st) : st * res unit :=
  let p := with_actions (fst s) (actions (fst s) ++ [a]) in
  let p' := with_data p (add_nodes (a_inputs a) (data p)) in
  if autorun p' then run true (p', snd s) else ((p', snd s), Ok tt).

(** *** The built-in actions of goos/math.py as programs.
    [SetVariable.run] 155-163 (node-valued [value]; [idx] picks the array of the
    single result), [FreezeVariable.run] 173-174, [ThawVariable.run] 184-185. *)
Definition param_of (n : node) : bool := match ndecl n with Some d => d_param d | None => false end.
Definition set_variable_run (var value : node) : prog :=
  Do (OEval [value]) (fun r =>
  match r with
  | Ok (AVals [v]) => Do (OSetValue var v (negb (param_of var))) (fun r' =>
                      match r' with Ok _ => Ret | Err e => Raise e end)
  | Ok _ => Raise TypeError
  | Err e => Raise e
  end).
Definition freeze_variable_run (var : node) : prog :=
  Do (OFreeze var) (fun r => match r with Ok _ => Ret | Err e => Raise e end).
Definition thaw_variable_run (var : node) : prog :=
  Do (OThaw var) (fun r => match r with Ok _ => Ret | Err e => Raise e end).

(** [Variable.set], [Variable.freeze], [Variable.thaw], goos/math.py:128-140, with the
    constructors of the actions (146-152, 169-171, 180-182): only the variable is an
    input of the action.  [name] stands for the generated name of the action. *)
Inductive vop :=
| VSet (name : nat) (var value : node)
| VFreeze (name : nat) (var : node)
| VThaw (name : nat) (var : node)
| VRun (auto : bool).
Definition var_action (name : nat) (var : node) (p : prog) : action :=
  {| a_name := name; a_inputs := [var]; a_run := p; a_resume := None |}.
Definition vstep (o : vop) (s : st) : st * res unit :=
  match o with
  | VSet k var value => add_action (var_action k var (set_variable_run var value)) s
  | VFreeze k var => add_action (var_action k var (freeze_variable_run var)) s
  | VThaw k var => if param_of var then (s, Err ValueError) else add_action (var_action k var (thaw_variable_run var)) s
  | VRun auto => run auto s
  end.

(** The calls a user can make from outside. *)
Inductive uop :=
| UCall (o : aop)
| UAddAction (a : action)
| URun (auto : bool)
| UResume (ck : option fname) (auto : bool)
| URead (f : fname).
Definition ustep (o : uop) (s : st) : st * res unit :=
  match o with
  | UCall o => let (s', r) := call o s in (s', bind r (fun _ => Ok tt))
  | UAddAction a => add_action a s
  | URun auto => run auto s
  | UResume ck auto => resume ck auto s
  | URead f => read_checkpoint f s
  end.
(** A history, with the outcome of every call. *)
Fixpoint usteps (l : list uop) (s : st) : st * list (res unit) :=
  match l with
  | [] => (s, [])
  | o :: l' => let (s1, r) := ustep o s in let (s2, rs) := usteps l' s1 in (s2, r :: rs)
  end.
End Plan.

Arguments OSetValue {V S E} n v check.
Arguments OSetBounds {V S E} n b.
Arguments OGetValue {V S E} n.
Arguments OGetBounds {V S E} n.
Arguments OFreeze {V S E} n.
Arguments OThaw {V S E} n.
Arguments OGetThawed {V S E}.
Arguments OAddNode {V S E} n.
Arguments OEval {V S E} ns.
Arguments OWriteEvent {V S E} ev mons.
Arguments OWriteCkpt {V S E} k.
Arguments Ret {V S E}.
Arguments Raise {V S E} e.
Arguments Do {V S E} o k.
Arguments VSet {V S} name var value.
Arguments VFreeze {V S} name var.
Arguments VThaw {V S} name var.
Arguments VRun {V S} auto.
Arguments UCall {V S E} o.
Arguments UAddAction {V S E} a.
Arguments URun {V S E} auto.
Arguments UResume {V S E} ck auto.
Arguments URead {V S E} f.
