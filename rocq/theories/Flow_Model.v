(** Model of flow classes of goos, their gradients and their constancy flags
    (/repo/spins/goos/flows.py, shapes.py, array.py, generic.py,
    graph_executor.py:105-155). *)
From Coq Require Import QArith String ZArith.
From Verif Require Import Base Shape_Model.
Set Implicit Arguments.
Local Open Scope nat_scope.


(** ** Class statements *)

(** How the class [Grad] of a flow class comes about, flows.py:85-108: generated, or written out with
    the given fields, each of which is added by [+=] before [super().__iadd__] is called
    (Flow.Grad, lines 145-148, no field; NumericFlow.Grad, lines 197-203, one field). *)
Inductive gkind := GAuto | GUser (fields : list string).
(** A flow class: the base classes (positions in the table of classes), the fields declared in its
    body, with the mark of [constant_field] (lines 124-140), and the kind of its gradient class. *)
Record fclass := mkclass { c_bases : list nat; c_own : list (string * bool); c_kind : gkind }.
Definition ctable := list fclass.
Definition noclass := mkclass [] [] (GUser []).
Definition cls (t : ctable) (c : nat) : fclass := nth c t noclass.

(** Python's C3 linearization (language semantics): repeatedly take the first head that is in no
    tail; without such a head the class statement raises TypeError. *)
Definition tails_free (ls : list (list nat)) (x : nat) : bool :=
  forallb (fun l => negb (memb x (tl l))) ls.
Definition heads (ls : list (list nat)) : list nat := flat_map (fun l => match l with [] => [] | x :: _ => [x] end) ls.
Definition drop_head (x : nat) (l : list nat) : list nat :=
  match l with [] => [] | y :: l' => if Nat.eqb y x then l' else l end.
Fixpoint c3_merge (fuel : nat) (ls : list (list nat)) : res (list nat) :=
  match heads ls with
  | [] => Ok []
  | hs =>
      match fuel with
      | O => Err OutOfFuel
      | S fuel' =>
          match find (tails_free ls) hs with
          | None => Err TypeError
          | Some x => bind (c3_merge fuel' (map (drop_head x) ls)) (fun r => Ok (x :: r))
          end
      end
  end.
(** [cls.__mro__] without [object].  The classes [Grad] have the bases [Grad] of the bases of their flow
    class (flows.py:90; Flow.Grad and NumericFlow.Grad are written that way), so the same list, read as
    gradient classes, is the method resolution order of the gradient class. *)
Fixpoint mro (fuel : nat) (t : ctable) (c : nat) : res (list nat) :=
  match fuel with
  | O => Err OutOfFuel
  | S fuel' =>
      let bs := c_bases (cls t c) in
      bind (mapM (mro fuel' t) bs) (fun ms =>
      bind (c3_merge (List.length (concat ms) + List.length bs) (ms ++ [bs])) (fun r => Ok (c :: r)))
  end.

(** *** dataclass fields *)
(** [d[k] = v] for a dict with string keys: an existing key keeps its place *)
Fixpoint sset {V} (d : list (string * V)) (k : string) (v : V) : list (string * V) :=
  match d with
  | [] => [(k, v)]
  | (k', v') :: d' => if String.eqb k' k then (k, v) :: d' else (k', v') :: sset d' k v
  end.
Fixpoint sget {V} (d : list (string * V)) (k : string) : option V :=
  match d with [] => None | (k', v) :: d' => if String.eqb k' k then Some v else sget d' k end.
Definition supdate {V} (d e : list (string * V)) : list (string * V) :=
  fold_left (fun d kv => sset d (fst kv) (snd kv)) e d.
(** [dataclasses.dataclass] (library semantics): the fields of the classes of the method resolution
    order, the farthest first, then those of the class body *)
Fixpoint dc_fields (fuel : nat) (t : ctable) (c : nat) : res (list (string * bool)) :=
  match fuel with
  | O => Err OutOfFuel
  | S fuel' =>
      bind (mro fuel t c) (fun m =>
      bind (mapM (dc_fields fuel' t) (rev (tl m))) (fun fs =>
      Ok (supdate (fold_left supdate fs []) (c_own (cls t c)))))
  end.
(** flows.py:61-67: the fields that are not marked constant *)
Definition nonconst (t : ctable) (c : nat) : res (list string) :=
  bind (dc_fields (S c) t c) (fun fs => Ok (map fst (filter (fun f => negb (snd f)) fs))).
(** [grad_fields], lines 87-88, without the ending "_grad" of the names *)
Definition grad_fields (t : ctable) (c : nat) : res (list string) :=
  match c_kind (cls t c) with GUser l => Ok l | GAuto => nonconst t c end.

(** ** Gradient objects *)

(** the value of a field: a Python number or an array (reduced to its number of entries) *)
Inductive gval := Num (q : Q) | Vec (l : list Q).
(** an instance of the class [Grad] of the class [g_cls], with its attributes *)
Record gobj := mkg { g_cls : nat; g_att : list (string * gval) }.
(** [field_val.__iadd__(value_val)] and, for numbers, which have no such method,
    [value_val + field_val], lines 96-102.  numpy adds in place: the left side keeps its shape, a
    right side of one entry is repeated, other lengths raise ValueError. *)
Definition vplus (l m : list Q) : list Q := map (fun p => (fst p + snd p)%Q) (combine l m).
Definition gval_iadd (x y : gval) : res gval :=
  match x, y with
  | Num a, Num b => Ok (Num (b + a)%Q)
  | Num a, Vec m => Ok (Vec (map (fun b => (b + a)%Q) m))
  | Vec l, Num b => Ok (Vec (map (fun a => (a + b)%Q) l))
  | Vec l, Vec m =>
      if Nat.eqb (List.length m) (List.length l) then Ok (Vec (vplus l m))
      else match m with
           | [b] => Ok (Vec (map (fun a => (a + b)%Q) l))
           | _ => Err ValueError
           end
  end.
(** one round of the loop, lines 96-102.  [value] is another object that shares no array with [self]
    (the case of shared arrays is the subject of GradHeap_Model.v) *)
Definition add_field (self value : gobj) (f : string) : res gobj :=
  match sget (g_att self) f with
  | None => Err AttributeError
  | Some x =>
      match sget (g_att value) f with
      | None => Err AttributeError
      | Some y => bind (gval_iadd x y) (fun z => Ok (mkg (g_cls self) (sset (g_att self) f z)))
      end
  end.
Fixpoint add_fields (self value : gobj) (fs : list string) : res gobj :=
  match fs with
  | [] => Ok self
  | f :: fs' => bind (add_field self value f) (fun self' => add_fields self' value fs')
  end.
(** [__iadd__] of the gradient classes of [m], one after the other: each calls the next by [super()],
    lines 103 and 203; the last is Flow.Grad, which returns the object, lines 147-148 *)
Fixpoint iadd_along (t : ctable) (m : list nat) (self value : gobj) : res gobj :=
  match m with
  | [] => Ok self
  | c :: m' =>
      bind (grad_fields t c) (fun fs =>
      bind (add_fields self value fs) (fun self' => iadd_along t m' self' value))
  end.
Definition gobj_iadd (t : ctable) (self value : gobj) : res gobj :=
  bind (mro (S (g_cls self)) t (g_cls self)) (fun m => iadd_along t m self value).
(** [Grad] called with keyword arguments: a dataclass with the fields of its bases and its own, all [np.zeros(1)] by default *)
Definition gclass_fields (t : ctable) (c : nat) : res (list string) :=
  bind (mro (S c) t c) (fun m =>
  bind (mapM (grad_fields t) (rev m)) (fun fs =>
  Ok (map fst (fold_left (fun d f => sset d f tt) (concat fs) [])))).
Definition grad_new (t : ctable) (c : nat) (kwargs : list (string * gval)) : res gobj :=
  bind (gclass_fields t c) (fun fs =>
  if forallb (fun kv => existsb (String.eqb (fst kv)) fs) kwargs
  then Ok (mkg c (supdate (map (fun f => (f, Vec [0%Q])) fs) kwargs))
  else Err TypeError).
(** what the executor does with the gradients that the nodes using one node hand to it,
    graph_executor.py:308-312 *)
Fixpoint accumulate (t : ctable) (acc : gobj) (gs : list gobj) : res gobj :=
  match gs with
  | [] => Ok acc
  | g :: gs' => bind (gobj_iadd t acc g) (fun acc' => accumulate t acc' gs')
  end.

(** *** The classes of the library *)
Local Open Scope string_scope.
Definition cFlow := 0. Definition cNumeric := 1. Definition cShape := 2. Definition cCuboid := 3.
Definition cCylinder := 4. Definition cSphere := 5. Definition cPixel := 6.
Definition goos_classes : ctable :=
  [ mkclass [] [] (GUser []);                                                                     (* flows.py:143-148 *)
    mkclass [cFlow] [("array", false)] (GUser ["array"]);                                         (* flows.py:188-203 *)
    mkclass [cFlow] [("pos", false); ("rot", false); ("priority", true); ("material", true)] GAuto; (* shapes.py:10-14 *)
    mkclass [cShape] [("extents", false)] GAuto;                                                  (* shapes.py:24-31 *)
    mkclass [cShape] [("radius", false); ("height", false); ("num_points", false)] GAuto;         (* shapes.py:87-97 *)
    mkclass [cShape] [("radius", false); ("num_points", false)] GAuto;                            (* shapes.py:138-146 *)
    mkclass [cShape; cNumeric] [("material2", true); ("extents", false); ("pixel_size", true)] GAuto ]. (* shapes.py:183-205 *)

(** *** Gradients of array flows, array.py:29-47 *)
Inductive ggrad := GNone | GObj (g : gobj) | GList (gs : list ggrad).
(** [ArrayFlow.Grad.__iadd__]: [None] counts as zero; [value[i]] beyond the list raises IndexError.  An
    object of a dataclass is true, so is an ArrayFlow.Grad, which has no length of its own.  The lists of
    two entries of different kinds: adding an array gradient to one of a single flow looks for its
    attributes, the converse for its items. *)
Fixpoint ggrad_iadd (t : ctable) (x y : ggrad) : res ggrad :=
  match x, y with
  | GNone, _ => Ok y
  | _, GNone => Ok x
  | GObj a, GObj b => bind (gobj_iadd t a b) (fun r => Ok (GObj r))
  | GList xs, GList ys =>
      bind ((fix loop (xs ys : list ggrad) : res (list ggrad) :=
        match xs, ys with
        | [], _ => Ok []
        | _ :: _, [] => Err IndexError
        | x :: xs', y :: ys' =>
            bind (ggrad_iadd t x y) (fun r => bind (loop xs' ys') (fun rs => Ok (r :: rs)))
        end) xs ys) (fun rs => Ok (GList rs))
  | GObj _, GList _ => Err AttributeError
  | GList [], GObj _ => Ok x
  | GList _, GObj _ => Err TypeError
  end.
(** [IndexOp.grad], array.py:197-201: the gradient at one place, [None] elsewhere *)
Definition index_grad (n i : nat) (g : gobj) : ggrad :=
  GList (map (fun k => if Nat.eqb k i then GObj g else GNone) (seq 0 n)).

(** ** Constancy flags *)

(** [ConstFlags]: generated with one flag per field that can vary (flows.py:69-83), or the list of an
    ArrayFlow (array.py:17-28) *)
Inductive cflags := FRec (fs : list (string * bool)) | FArr (l : list cflags).
Fixpoint ftrue (f : cflags) : bool :=
  match f with FRec fs => forallb snd fs | FArr l => forallb ftrue l end.
Fixpoint fset_all (f : cflags) (v : bool) : cflags :=
  match f with
  | FRec fs => FRec (map (fun kv => (fst kv, v)) fs)
  | FArr l => FArr (map (fun g => fset_all g v) l)
  end.
(** [flags.name]; the attribute [flow_flags] of array flags is not asked for by the modelled code *)
Definition fattr (f : cflags) (k : string) : res bool :=
  match f with
  | FRec fs => match sget fs k with Some b => Ok b | None => Err AttributeError end
  | FArr _ => Err AttributeError
  end.

Section nodes.
Variable t : ctable.
Variable X : Type.           (* contents of fields *)
(** a flow: an instance of a class with its drawing priority (0 for flows that are no shapes) and its other
    fields, or an ArrayFlow *)
Inductive flow := Rec (c : nat) (prio : Z) (fs : list (string * X)) | ArrF (l : list flow).
Definition field (f : flow) (k : string) : res X :=
  match f with
  | Rec _ _ fs => match sget fs k with Some x => Ok x | None => Err AttributeError end
  | ArrF _ => Err AttributeError
  end.

(** A shape node with its own [eval_const_flags]: its class, its priority, how [eval] fills the fields
    (from the contents of one input, or with a constant of the node) and how [eval_const_flags] fills the
    flags (from [array] of the flags of an input, or [True]; flags not mentioned are [False]). *)
Inductive vsrc := FromInput (i : nat) (h : X -> X) | Fixed (x : X).
Inductive fsrc := FlagOf (i : nat) | FlagTrue.
Record shape_node := mkshape { s_cls : nat; s_prio : Z; s_val : list (string * vsrc); s_flag : list (string * fsrc) }.

Definition idX (x : X) := x.
(** Cuboid, shapes.py:52-66 *)
Definition cuboid (prio : Z) : shape_node :=
  mkshape cCuboid prio [("extents", FromInput 0 idX); ("pos", FromInput 1 idX); ("rot", FromInput 2 idX)]
    [("extents", FlagOf 0); ("pos", FlagOf 1); ("rot", FlagOf 2)].
(** Cylinder, shapes.py:114-127; [n] is the default of num_points *)
Definition cylinder (n : X) : shape_node :=
  mkshape cCylinder 0 [("pos", FromInput 0 idX); ("radius", FromInput 1 idX); ("height", FromInput 2 idX);
                       ("rot", FromInput 3 idX); ("num_points", Fixed n)]
    [("pos", FlagOf 0); ("radius", FlagOf 1); ("height", FlagOf 2); ("rot", FlagOf 3)].
(** Sphere, shapes.py:162-174 *)
Definition sphere (n : X) : shape_node :=
  mkshape cSphere 0 [("pos", FromInput 0 idX); ("radius", FromInput 1 idX); ("rot", FromInput 2 idX); ("num_points", Fixed n)]
    [("pos", FlagOf 0); ("radius", FlagOf 1); ("rot", FlagOf 2)].
(** PixelatedContShape, shapes.py:316-330; [e] are the extents *)
Definition pixelated (e : X) : shape_node :=
  mkshape cPixel 0 [("pos", FromInput 0 idX); ("rot", FromInput 1 idX); ("array", FromInput 2 idX); ("extents", Fixed e)]
    [("pos", FlagOf 0); ("rot", FlagOf 1); ("array", FlagOf 2)].
(** OldStyleParametrization, compat.py:51-71; [h] maps the vector to the structure, [r] is the rotation *)
Definition old_param (e r : X) (h : X -> X) : shape_node :=
  mkshape cPixel 0 [("array", FromInput 0 h); ("pos", FromInput 1 idX); ("rot", Fixed r); ("extents", Fixed e)]
    [("pos", FlagOf 1); ("rot", FlagTrue); ("array", FlagOf 0)].

(** The class a node is cast to, as far as its constancy flags go: a class without [eval_const_flags]
    (Function, Shape, Sum, Variable, …), or one of those that define it. *)
Inductive target := TPlain | TConst | TShape (s : shape_node) | TGroup | TTranslate.
Inductive node :=
| NVar (v : nat)                          (* math.py:93-127: given by the override map *)
| NConst (x : X)                          (* math.py:71-90 *)
| NFun (f : list flow -> res flow)        (* any node without eval_const_flags *)
| NShape (s : shape_node)
| NGroup                                  (* shapes.py:438-496 *)
| NTranslate (h : X -> X)                 (* shapes.py:499-517 *)
| NIndex (i : nat)                        (* array.py:180-195 *)
| NCast (to : target).                    (* generic.py:38-58 *)

Definition input {A} (l : list A) (i : nat) : res A :=
  match nth_error l i with Some x => Ok x | None => Err IndexError end.

(** *** eval *)
Definition eval_src (ins : list flow) (s : vsrc) : res X :=
  match s with
  | FromInput i h => bind (input ins i) (fun f => bind (field f "array") (fun x => Ok (h x)))
  | Fixed x => Ok x
  end.
Definition eval_fields (ins : list flow) (l : list (string * vsrc)) : res (list (string * X)) :=
  mapM (fun kv => bind (eval_src ins (snd kv)) (fun x => Ok (fst kv, x))) l.
(** GroupShape.eval, shapes.py:462-487: flatten, then sort by priority, the sort being stable (the full
    model, with the skeleton of gradients, is Shape_Model.group_eval) *)
Fixpoint flatten (f : flow) : list flow := match f with Rec _ _ _ => [f] | ArrF l => flat_map flatten l end.
Definition prio_of (f : flow) : Z := match f with Rec _ p _ => p | ArrF _ => 0%Z end.
Fixpoint pinsert (f : flow) (l : list flow) : list flow :=
  match l with [] => [f] | x :: l' => if Z.leb (prio_of f) (prio_of x) then f :: l else x :: pinsert f l' end.
Fixpoint psort (l : list flow) : list flow := match l with [] => [] | f :: l' => pinsert f (psort l') end.
Definition eval_node (vars : nat -> X) (n : node) (ins : list flow) : res flow :=
  match n with
  | NVar v => Ok (Rec cNumeric 0 [("array", vars v)])
  | NConst x => Ok (Rec cNumeric 0 [("array", x)])
  | NFun f => f ins
  | NShape s => bind (eval_fields ins (s_val s)) (fun fs => Ok (Rec (s_cls s) (s_prio s) fs))
  | NGroup => Ok (ArrF (psort (flat_map flatten ins)))
  | NTranslate h =>
      bind (input ins 0) (fun f =>
      match f with
      | Rec c p fs => bind (field f "pos") (fun x => Ok (Rec c p (sset fs "pos" (h x))))
      | ArrF _ => Err AttributeError
      end)
  | NIndex i => bind (input ins 0) (fun f => match f with ArrF l => input l i | Rec _ _ _ => Err TypeError end)
  | NCast _ => input ins 0
  end.

(** *** eval_const_flags *)
Definition eval_fsrc (ins : list cflags) (s : fsrc) : res bool :=
  match s with FlagOf i => bind (input ins i) (fun f => fattr f "array") | FlagTrue => Ok true end.
Definition shape_flags (s : shape_node) (ins : list cflags) : res cflags :=
  bind (mapM (fun kv => bind (eval_fsrc ins (snd kv)) (fun b => Ok (fst kv, b))) (s_flag s)) (fun given =>
  bind (nonconst t (s_cls s)) (fun fs =>
  Ok (FRec (map (fun k => (k, match sget given k with Some b => b | None => false end)) fs)))).
Definition const_hook (ins : list cflags) : res cflags := Ok (FRec [("array", true)]).
Definition hook := list cflags -> res cflags.
(** The method a class defines, if any. *)
Definition target_hook (k : target) : option hook :=
  match k with
  | TPlain => None
  | TConst => Some const_hook                               (* math.py:78-81 *)
  | TShape s => Some (shape_flags s)
  | TGroup => Some (fun ins => Ok (FArr ins))               (* shapes.py:458-460 *)
  | TTranslate => Some (fun ins => input ins 0)             (* shapes.py:506-508 *)
  end.
(** [getattr(node, "eval_const_flags")]: a CastOp inherits the method of the class it is cast to, and hands on
    anything else to the node it was made from (generic.py:56-58).  [hooks] are the methods of the nodes
    before. *)
Definition node_hook (hooks : list (option hook)) (n : node) (ins : list nat) : option hook :=
  match n with
  | NConst _ => target_hook TConst
  | NShape s => target_hook (TShape s)
  | NGroup => target_hook TGroup
  | NTranslate _ => target_hook TTranslate
  | NCast k =>
      match target_hook k with
      | Some h => Some h
      | None => match ins with i :: _ => nth i hooks None | [] => None end
      end
  | NVar _ | NFun _ | NIndex _ => None
  end.
(** [type(flow).ConstFlags()], flows.py:69-72 and array.py:19-20: all flags [False], no element *)
Definition default_flags (f : flow) : res cflags :=
  match f with
  | Rec c _ _ => bind (nonconst t c) (fun fs => Ok (FRec (map (fun k => (k, false)) fs)))
  | ArrF _ => Ok (FArr [])
  end.
(** [_eval_flags], graph_executor.py:138-153, for one of the two kinds of flags *)
Definition eval_flags (m : option hook) (ins : list cflags) (out : flow) : res cflags :=
  match m with
  | Some h => h ins
  | None => bind (default_flags out) (fun f => Ok (fset_all f (forallb ftrue ins)))
  end.

(** *** evaluation of a graph *)
(** The nodes in an order in which inputs come first (that the executor finds one is proved in
    GraphExec_Props.v), each with the positions of its inputs.  [frozen v] is what the override map
    says of a variable: [False] for the constant flags, and whether the variable is frozen for the frozen
    flags, optplan.py:644-656. *)
Definition prog := list (node * list nat).
Definition step (vars : nat -> X) (frozen : nat -> bool) (hooks : list (option hook)) (done : list (flow * cflags))
    (n : node) (ins : list nat) : res (flow * cflags) :=
  bind (mapM (input done) ins) (fun vs =>
  match n with
  | NVar v => Ok (Rec cNumeric 0 [("array", vars v)], FRec [("array", frozen v)])
  | _ =>
      bind (eval_node vars n (map fst vs)) (fun out =>
      bind (eval_flags (node_hook hooks n ins) (map snd vs) out) (fun fl => Ok (out, fl)))
  end).
Fixpoint run_from (vars : nat -> X) (frozen : nat -> bool) (hooks : list (option hook)) (done : list (flow * cflags))
    (p : prog) : res (list (flow * cflags)) :=
  match p with
  | [] => Ok done
  | (n, ins) :: p' =>
      bind (step vars frozen hooks done n ins) (fun r =>
      run_from vars frozen (hooks ++ [node_hook hooks n ins]) (done ++ [r]) p')
  end.
Definition run (vars : nat -> X) (frozen : nat -> bool) (p : prog) : res (list (flow * cflags)) :=
  run_from vars frozen [] [] p.
End nodes.
Arguments ArrF {X} l.
Arguments NVar {X} v.
Arguments NGroup {X}.
Arguments NIndex {X} i.
Arguments TPlain {X}.
Arguments TConst {X}.
Arguments TGroup {X}.
Arguments TTranslate {X}.
Arguments cuboid {X} prio.
