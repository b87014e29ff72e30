(** Model of plan serialization: names, versions, dumps and loads.
    /repo/spins/goos/optplan/schema.py:245-570 and
    /repo/spins/invdes/problem_graph/optplan/io.py:18-410. *)
From Verif Require Import Base.
From Coq Require Import ZArith String Ascii DecimalString DecimalNat.
Open Scope nat_scope.
Set Implicit Arguments.

(** *** Generated names, schema.py:245-272 and io.py:18-55. *)
(** The map from type names to counters. *)
Definition counters := string -> nat.
Definition no_counters : counters := fun _ => 0.
Definition dec (n : nat) : string := NilZero.string_of_uint (Nat.to_uint n).
(** "{}.{}".format(model_type, counter); a missing counter starts at 0 *)
Definition generate_name (m : counters) (t : string) : counters * string :=
  (fun t' => if String.eqb t' t then S (m t) else m t', (t ++ "." ++ dec (m t))%string).
(** A history of requests. *)
Fixpoint generate_names (m : counters) (ts : list string) : list string :=
  match ts with
  | [] => []
  | t :: ts' => let (m', n) := generate_name m t in n :: generate_names m' ts'
  end.

(** *** Version checks.  The version is given by its parsed parts
    ([[int(part) for part in version.split(".")]]); [split] and [int] are not
    modelled. *)
Definition part (v : list Z) (i : nat) : res Z :=
  match nth_error v i with Some z => Ok z | None => Err IndexError end.
(** schema.py:444-453: [parts[0] < 0 or parts[1] < 3] *)
Definition check_version_goos (v : list Z) : res unit :=
  bind (part v 0) (fun a => if (a <? 0)%Z then Err ValueError else
  bind (part v 1) (fun b => if (b <? 3)%Z then Err ValueError else Ok tt)).
(** io.py:282-291: [parts[0] < 0 or parts[1] < 2 or parts[2] < 3] *)
Definition check_version_invdes (v : list Z) : res unit :=
  bind (part v 0) (fun a => if (a <? 0)%Z then Err ValueError else
  bind (part v 1) (fun b => if (b <? 2)%Z then Err ValueError else
  bind (part v 2) (fun c => if (c <? 3)%Z then Err ValueError else Ok tt))).

(** *** Plans.
    A model object has a class, a name and fields.  A field holds plain data, or
    references to other objects, or embedded models; [kind] distinguishes a
    single value, a list and a dictionary, whose keys are the numbers paired with
    the entries.  Python object graphs are unfolded to trees: an object that is
    referenced twice occurs twice. *)
Inductive obj := Obj (cls : nat) (name : nat) (fields : list fval)
with fval :=
| FPrim (p : nat)
| FRefs (kind : nat) (l : list (nat * ref))
| FModels (kind : nat) (l : list (nat * obj))
with ref := RObj (o : obj) | RName (n : nat).

Definition ocls (o : obj) : nat := match o with Obj c _ _ => c end.
Definition oname (o : obj) : nat := match o with Obj _ n _ => n end.
Definition ofields (o : obj) : list fval := match o with Obj _ _ fs => fs end.

(** Structural equality (schematics Model.__eq__). *)
Definition list_eqb {A} (e : A -> A -> bool) : list A -> list A -> bool :=
  fix go l m :=
  match l, m with
  | [], [] => true
  | x :: l', y :: m' => (e x y && go l' m')%bool
  | _, _ => false
  end.
Fixpoint obj_eqb (a b : obj) {struct a} : bool :=
  match a, b with
  | Obj c n fs, Obj c' n' fs' =>
      (Nat.eqb c c' && Nat.eqb n n' && list_eqb fval_eqb fs fs')%bool
  end
with fval_eqb (a b : fval) {struct a} : bool :=
  match a, b with
  | FPrim p, FPrim q => Nat.eqb p q
  | FRefs k l, FRefs k' l' =>
      (Nat.eqb k k' && list_eqb (fun x y => Nat.eqb (fst x) (fst y) && ref_eqb (snd x) (snd y))%bool l l')%bool
  | FModels k l, FModels k' l' =>
      (Nat.eqb k k' && list_eqb (fun x y => Nat.eqb (fst x) (fst y) && obj_eqb (snd x) (snd y))%bool l l')%bool
  | _, _ => false
  end
with ref_eqb (a b : ref) {struct a} : bool :=
  match a, b with
  | RObj x, RObj y => obj_eqb x y
  | RName x, RName y => Nat.eqb x y
  | _, _ => false
  end.
Definition obj_mem (o : obj) (l : list obj) : bool := existsb (obj_eqb o) l.

Section IO.
(** which classes are problem graph nodes *)
Variable isnode : nat -> bool.

(** [_extract_nodes], schema.py:520-546 / io.py:360-386. *)
Fixpoint extract (o : obj) (acc : list obj) {struct o} : list obj :=
  match o with
  | Obj c n fs =>
      let fields := fold_left (fun acc f => extract_f f acc) fs in
      if isnode c then if obj_mem o acc then acc else fields (acc ++ [o])
      else fields acc
  end
with extract_f (f : fval) (acc : list obj) {struct f} : list obj :=
  match f with
  | FPrim _ => acc
  | FRefs _ l => fold_left (fun acc x => extract_r (snd x) acc) l acc
  | FModels _ l => fold_left (fun acc x => extract (snd x) acc) l acc
  end
with extract_r (r : ref) (acc : list obj) {struct r} : list obj :=
  match r with RObj o => extract o acc | RName _ => acc end.
Definition extract_all (l : list obj) (acc : list obj) : list obj := fold_left (fun acc o => extract o acc) l acc.

(** [_replace_ref_nodes_with_names], schema.py:549-570 / io.py:389-410: a reference
    becomes the name of the first equal node in the list, that is its own name;
    embedded models are processed recursively (275-370). *)
Definition ref_name (r : ref) : nat := match r with RObj o => oname o | RName n => n end.
Fixpoint strip (o : obj) {struct o} : obj :=
  match o with Obj c n fs => Obj c n (map strip_f fs) end
with strip_f (f : fval) {struct f} : fval :=
  match f with
  | FPrim p => FPrim p
  | FRefs k l => FRefs k (map (fun x => (fst x, RName (ref_name (snd x)))) l)
  | FModels k l => FModels k (map (fun x => (fst x, strip (snd x))) l)
  end.

(** The uniqueness check of [validate], schema.py:405-411 / io.py:247-253.  The
    schema validation of single fields is not modelled. *)
Fixpoint unique_names (seen : list nat) (l : list obj) : bool :=
  match l with
  | [] => true
  | o :: l' => if memb (oname o) seen then false else unique_names (oname o :: seen) l'
  end.

Record plan := { p_nodes : list obj; p_actions : list obj }.

(** [dumps], schema.py:490-517 / io.py:328-357 (naming unnamed nodes and the
    conversion to JSON text are not modelled). *)
Definition dumps (p : plan) : res plan :=
  let l := extract_all (p_actions p) (extract_all (p_nodes p) []) in
  if unique_names [] l
  then Ok {| p_nodes := map strip l; p_actions := map strip (p_actions p) |}
  else Err ValueError.

(** [loads], schema.py:456-487 / io.py:294-325.  Every name in a reference field
    must be a node of the plan (else KeyError); in the loaded object graph the
    field then points to that node.  The loaded plan is kept as a table of
    objects, a reference [RName n] standing for the pointer to the node named
    [n]; [resolve] reads the object graph by following pointers. *)
Definition find_node (l : list obj) (n : nat) : option obj := find (fun o => Nat.eqb (oname o) n) l.
Fixpoint refs_known (l : list obj) (o : obj) {struct o} : bool :=
  match o with Obj _ _ fs => forallb (refs_known_f l) fs end
with refs_known_f (l : list obj) (f : fval) {struct f} : bool :=
  match f with
  | FPrim _ => true
  | FRefs _ m => forallb (fun x => match find_node l (ref_name (snd x)) with Some _ => true | None => false end) m
  | FModels _ m => forallb (fun x => refs_known l (snd x)) m
  end.
Definition loads (p : plan) : res plan :=
  if unique_names [] (p_nodes p) then
    if (forallb (refs_known (p_nodes p)) (p_actions p) && forallb (refs_known (p_nodes p)) (p_nodes p))%bool
    then Ok p else Err KeyError
  else Err ValueError.

Fixpoint resolve (fuel : nat) (heap : list obj) (o : obj) : res obj :=
  match fuel with
  | 0 => Err OutOfFuel
  | S k =>
      match o with
      | Obj c n fs =>
          bind (mapM (fun f => match f with
            | FPrim p => Ok (FPrim p)
            | FRefs kd l => bind (mapM (fun x => match find_node heap (ref_name (snd x)) with
                                                | None => Err KeyError
                                                | Some o' => bind (resolve k heap o') (fun o'' => Ok (fst x, RObj o''))
                                                end) l) (fun l' => Ok (FRefs kd l'))
            | FModels kd l => bind (mapM (fun x => bind (resolve k heap (snd x)) (fun o' => Ok (fst x, o'))) l)
                                   (fun l' => Ok (FModels kd l'))
            end) fs) (fun fs' => Ok (Obj c n fs'))
      end
  end.
End IO.
