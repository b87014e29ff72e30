(** What is claimed of gradients of flows and of constancy flags. *)
From Coq Require Import QArith String ZArith.
From Verif Require Import Base Flow_Model.
Set Implicit Arguments.
Local Open Scope nat_scope.

(** the [i]-th entry of the gradient of field [f] *)
Definition entry (g : gobj) (f : string) (i : nat) : Q :=
  match sget (g_att g) f with Some (Vec l) => nth i l 0%Q | Some (Num q) => q | None => 0%Q end.
(** [g] is a gradient of class [c] whose field [f], for every [f] of [fs], is an array of [sh f] entries *)
Definition shaped (c : nat) (fs : list string) (sh : string -> nat) (g : gobj) : Prop :=
  g_cls g = c /\ forall f, In f fs -> exists l, sget (g_att g) f = Some (Vec l) /\ List.length l = sh f.
Fixpoint total (f : string) (i : nat) (gs : list gobj) : Q :=
  match gs with [] => 0%Q | g :: gs' => (entry g f i + total f i gs')%Q end.

(** A hierarchy of classes: each class of the table has a gradient with fields [fs]. *)
Definition fields_of (t : ctable) (c : nat) : list string :=
  match grad_fields t c with Ok l => l | Err _ => [] end.
(** how many of the classes [m] have a gradient with field [f] *)
Definition times (t : ctable) (m : list nat) (f : string) : nat :=
  count_occ string_dec (flat_map (fields_of t) m) f.
(** [m] is the method resolution order of [c], and the gradient classes of [m] exist *)
Definition lineage (t : ctable) (c : nat) (m : list nat) : Prop :=
  mro (S c) t c = Ok m /\ forall k, In k m -> exists fs, grad_fields t k = Ok fs.

(** [k] classes below Flow, each derived from the one before it, each declaring new varying fields *)
Definition chain (ls : list (list string)) : ctable :=
  mkclass [] [] (GUser []) ::
  map (fun p => mkclass [fst p] (map (fun f => (f, false)) (snd p)) GAuto) (combine (seq 0 (List.length ls)) ls).

(** the classes of the library: the varying fields of the base classes and those the class itself adds *)
Local Open Scope string_scope.
Definition inherited (c : nat) : list string :=
  match c with 3 | 4 | 5 => ["pos"; "rot"] | 6 => ["array"; "pos"; "rot"] | _ => [] end.
Definition own_fields (c : nat) : list string :=
  match c with
  | 1 => ["array"] | 2 => ["pos"; "rot"] | 3 => ["extents"] | 4 => ["radius"; "height"; "num_points"]
  | 5 => ["radius"; "num_points"] | 6 => ["extents"] | _ => []
  end.
Local Close Scope string_scope.

(** ** Flags *)
Section flags.
Variable X : Type.
(** the shapes of the library *)
Definition library_shape (s : shape_node X) : Prop :=
  (exists p, s = cuboid p) \/ (exists n, s = cylinder n) \/ (exists n, s = sphere n) \/
  (exists e, s = pixelated e) \/ (exists e r h, s = old_param e r h).
(** the class of a node, and so what [rename] casts it to *)
Definition class_of (n : node X) : target X :=
  match n with
  | NVar _ | NFun _ | NIndex _ => TPlain
  | NConst _ => TConst
  | NShape s => TShape s
  | NGroup => TGroup
  | NTranslate _ => TTranslate
  | NCast k => k
  end.
(** the graphs that are considered: nodes without [eval_const_flags] of their own return single flows of the
    classes of the library other than Flow itself, a cast has one input, and only constants are cast to the
    class of constants *)
Definition node_ok (before : prog X) (n : node X) (ins : list nat) : Prop :=
  match n with
  | NFun f => forall l r, f l = Ok r -> exists c p fs, r = Rec c p fs /\ 1 <= c <= 6
  | NShape s => library_shape s
  | NCast k => exists i, ins = [i] /\
      match k with
      | TConst => exists x js, nth_error before i = Some (NConst x, js)
      | TShape s => library_shape s
      | TPlain | TGroup | TTranslate => True
      end
  | _ => True
  end.
Definition prog_ok (p : prog X) : Prop :=
  forall k n ins, nth_error p k = Some (n, ins) -> node_ok (firstn k p) n ins.
(** two values of the variables that differ only where [frozen] is not set *)
Definition agree (frozen : nat -> bool) (v w : nat -> X) : Prop := forall x, frozen x = true -> v x = w x.
(** what flags promise of the values a node has under two such values of the variables *)
Definition flags_hold (fl : cflags) (a b : flow X) : Prop :=
  (ftrue fl = true -> a = b) /\
  (forall k, fattr fl k = Ok true -> field a k = field b k).
End flags.
