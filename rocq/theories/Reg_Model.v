(** Model of the registries of node types:
    /repo/spins/invdes/problem_graph/optplan/context.py,
    /repo/spins/goos/optplan/context.py, /repo/spins/goos/schema_registry.py,
    and of the joining of monitors, /repo/spins/invdes/problem_graph/log_tools/monitor_spec.py.
    Names, models (classes) and creators (functions) are numbers. *)
From Verif Require Import Base.
Set Implicit Arguments.

(** *** dictionaries in order of insertion *)
Section Dict.
Variable V : Type.
Definition odict := list (nat * V).
Fixpoint oget (d : odict) (k : nat) : option V :=
  match d with [] => None | (k', v) :: r => if Nat.eqb k k' then Some v else oget r k end.
(** d[k] = v *)
Fixpoint oset (d : odict) (k : nat) (v : V) : odict :=
  match d with
  | [] => [(k, v)]
  | (k', v') :: r => if Nat.eqb k k' then (k', v) :: r else (k', v') :: oset r k v
  end.
(** d.update(e) *)
Definition oupdate (d e : odict) : odict := fold_left (fun d kv => oset d (fst kv) (snd kv)) e d.
End Dict.
Arguments oget {V}. Arguments oset {V}. Arguments oupdate {V}.

(** objects by address, and a stack of addresses, the top at the end *)
Record rstate (X : Type) := RState { objs : list X; rstack : list nat }.
Arguments RState {X}. Arguments objs {X}. Arguments rstack {X}.
Definition obj {X} (dflt : X) (s : rstate X) (c : nat) : X := nth c (objs s) dflt.
Definition set_obj {X} (s : rstate X) (c : nat) (x : X) : rstate X :=
  RState (firstn c (objs s) ++ x :: skipn (S c) (objs s)) (rstack s).
Definition new_obj {X} (x : X) (s : rstate X) : rstate X := RState (objs s ++ [x]) (rstack s).
Definition push_addr {X} (c : nat) (s : rstate X) : rstate X := RState (objs s) (rstack s ++ [c]).
(** stack[-1] *)
Definition top {X} (s : rstate X) : option nat := last (map Some (rstack s)) None.
Definition pop_addr {X} (s : rstate X) : rstate X := RState (objs s) (removelast (rstack s)).

(** *** OptplanContext, context.py:38-124 *)
(** a model is a class, so it is true; the creator may be None *)
Definition octx := odict (odict (nat * option nat)).
Definition ctx_entry (x : octx) (meta ty : nat) : option (nat * option nat) :=
  match oget x meta with None => None | Some m => oget m ty end.
(** get_node_model, lines 46-63; get_node_creator, 65-82 *)
Definition ctx_model (x : octx) (meta ty : nat) : option nat := option_map fst (ctx_entry x meta ty).
Definition ctx_creator (x : octx) (meta ty : nat) : option nat :=
  match ctx_entry x meta ty with Some (_, f) => f | None => None end.
(** get_node_model_dict, lines 84-102 *)
Definition ctx_model_dict (x : octx) (meta : nat) : odict nat :=
  match oget x meta with None => [] | Some m => map (fun kv => (fst kv, fst (snd kv))) m end.
(** register_node_type, lines 104-124 *)
Definition ctx_register (x : octx) (meta ty model : nat) (f : option nat) : res octx :=
  let m := match oget x meta with Some m => m | None => [] end in
  match oget m ty with
  | Some _ => Err ValueError
  | None => Ok (oset x meta (oset m ty (model, f)))
  end.
(** *** OptplanContextStack, lines 127-234 *)
Definition ostate := rstate octx.
Definition first_some {A B} (f : A -> option B) : list A -> option B :=
  fix go l := match l with [] => None | a :: r => match f a with Some b => Some b | None => go r end end.
Definition stack_model (s : ostate) (meta ty : nat) : option nat :=
  first_some (fun c => ctx_model (obj [] s c) meta ty) (rev (rstack s)).
Definition stack_creator (s : ostate) (meta ty : nat) : option nat :=
  first_some (fun c => ctx_creator (obj [] s c) meta ty) (rev (rstack s)).
Definition stack_model_dict (s : ostate) (meta : nat) : odict nat :=
  fold_left (fun d c => oupdate d (ctx_model_dict (obj [] s c) meta)) (rstack s) [].
(** what callers can do; addresses are those of existing contexts *)
Inductive oop :=
| ONew
| ORegister (c meta ty model : nat) (f : option nat)
| OPush (c : nat)
| OPop
| ORegisterTop (meta ty model : nat) (f : option nat).   (* optplan/__init__.py:58, 99: peek().register_node_type *)
Definition oregister (s : ostate) c meta ty model f : res unit * ostate :=
  match ctx_register (obj [] s c) meta ty model f with
  | Ok x => (Ok tt, set_obj s c x)
  | Err e => (Err e, s)
  end.
Definition ostep (s : ostate) (o : oop) : res unit * ostate :=
  match o with
  | ONew => (Ok tt, new_obj [] s)
  | ORegister c meta ty model f => oregister s c meta ty model f
  | OPush c => (Ok tt, push_addr c s)
  | OPop => (Ok tt, pop_addr s)                          (* None on the empty stack *)
  | ORegisterTop meta ty model f =>
      match top s with
      | Some c => oregister s c meta ty model f
      | None => (Err AttributeError, s)                  (* peek() is None *)
      end
  end.
Definition orun (s : ostate) (l : list oop) : ostate := fold_left (fun s o => snd (ostep s o)) l s.

(** *** Context and ContextStack of goos/optplan/context.py:15-62; the same classes under
    other names in goos/schema_registry.py:18-67, whose entries also hold metadata (not
    represented) *)
Definition gctx := odict (nat * nat).           (* schema, creator: an entry is true *)
Definition gstate := rstate gctx.
Definition gregister (s : gstate) (c name : nat) (e : nat * nat) : res unit * gstate :=
  match oget (obj [] s c) name with
  | Some _ => (Err ValueError, s)
  | None => (Ok tt, set_obj s c (oset (obj [] s c) name e))
  end.
Definition gget (s : gstate) (name : nat) : res (nat * nat) :=
  match first_some (fun c => oget (obj [] s c) name) (rev (rstack s)) with
  | Some e => Ok e
  | None => Err ValueError
  end.
Definition gmap (s : gstate) : odict (nat * nat) :=
  fold_left (fun d c => oupdate d (obj [] s c)) (rstack s) [].
Inductive gop :=
| GNew
| GRegister (c name : nat) (e : nat * nat)
| GPush (c : option nat)
| GPop
| GRegisterTop (name : nat) (e : nat * nat).
(** [push] differs between the two modules *)
Definition gstep (push : gstate -> option nat -> res unit * gstate) (s : gstate) (o : gop) : res unit * gstate :=
  match o with
  | GNew => (Ok tt, new_obj [] s)
  | GRegister c name e => gregister s c name e
  | GPush c => push s c
  | GPop => match rstack s with [] => (Err IndexError, s) | _ => (Ok tt, pop_addr s) end
  | GRegisterTop name e => match top s with Some c => gregister s c name e | None => (Err IndexError, s) end
  end.
(** goos/optplan/context.py:40-43 *)
Definition context_push (s : gstate) (c : option nat) : res unit * gstate :=
  match c with
  | Some c => (Ok tt, push_addr c s)
  | None => (Ok tt, push_addr (length (objs s)) (new_obj [] s))
  end.
(** goos/schema_registry.py:45-48: the name [context] is not defined in that module *)
Definition registry_push (s : gstate) (c : option nat) : res unit * gstate := (Err NameError, s).
Definition gstart : gstate := RState [[]] [0].
Definition grun push (s : gstate) (l : list gop) : gstate := fold_left (fun s o => snd (gstep push s o)) l s.

(** *** monitor_spec.py *)
(** a joiner id: not given, the empty string, or a name (names of monitors are names too) *)
Inductive joiner := JNone | JEmpty | JName (n : nat).
(** MonitorDescription, lines 16-34: the name of the monitor, its joiner id, and type,
    scalar and vector operation *)
Record mdesc := MDesc { m_name : nat; m_joiner : joiner; m_type : nat; m_scalar : nat; m_vector : nat }.
(** JoinedMonitorDescription, lines 37-69 *)
Record jdesc := JDesc { j_id : joiner; j_names : list nat; j_type : nat; j_scalar : nat; j_vector : nat }.
Definition joined (j : joiner) (names : list nat) (t sc v : nat) : jdesc :=
  JDesc (match j with JName _ => j | _ => JName (hd 0 names) end) names t sc v.
Definition jkey (j : joiner) : nat := match j with JNone => 0 | JEmpty => 1 | JName n => S (S n) end.
(** the message of the exception concatenates the joiner id *)
Definition mismatch (j : joiner) : err := match j with JNone => TypeError | _ => ValueError end.
(** get_monitor_objects, lines 81-98, the names standing for the objects *)
Definition get_monitor_objects (l : list mdesc) (filter_by : option nat) : list nat :=
  match filter_by with
  | Some t => map m_name (filter (fun m => Nat.eqb (m_type m) t) l)
  | None => map m_name l
  end.
(** convert_element_list, lines 101-140 *)
Fixpoint convert (d : odict jdesc) (l : list mdesc) : res (odict jdesc) :=
  match l with
  | [] => Ok d
  | m :: r =>
      match oget d (jkey (m_joiner m)) with
      | Some j =>
          if negb (Nat.eqb (m_type m) (j_type j)) then Err (mismatch (m_joiner m)) else
          if negb (Nat.eqb (m_scalar m) (j_scalar j)) then Err (mismatch (m_joiner m)) else
          if negb (Nat.eqb (m_vector m) (j_vector j)) then Err (mismatch (m_joiner m)) else
          convert (oset d (jkey (m_joiner m)) (JDesc (j_id j) (j_names j ++ [m_name m]) (j_type j) (j_scalar j) (j_vector j))) r
      | None =>
          convert (oset d (jkey (m_joiner m)) (joined (m_joiner m) [m_name m] (m_type m) (m_scalar m) (m_vector m))) r
      end
  end.
Definition convert_element_list (l : list mdesc) : res (list jdesc) :=
  bind (convert [] l) (fun d => Ok (map snd d)).
Definition joiner_eqb (a b : joiner) : bool := Nat.eqb (jkey a) (jkey b).
(** get_joined_monitor_description, lines 143-156: None if there is none *)
Definition get_joined_monitor_description (l : list jdesc) (j : joiner) : option jdesc :=
  find (fun d => joiner_eqb (j_id d) j) l.
