(** Vocabulary for the statements about serialization. *)
From Verif Require Import Base Schema_Model.
From Coq Require Import ZArith String Ascii.
Open Scope nat_scope.
Set Implicit Arguments.

(** Lexicographic order on version triples. *)
Definition version_le (a b : Z * Z * Z) : Prop :=
  let '(a1, a2, a3) := a in let '(b1, b2, b3) := b in
  (a1 < b1 \/ a1 = b1 /\ (a2 < b2 \/ a2 = b2 /\ a3 <= b3))%Z.

Fixpoint has_dot (s : string) : bool :=
  match s with
  | EmptyString => false
  | String c s' => (Ascii.eqb c "."%char || has_dot s')%bool
  end.

(** The objects directly inside [o]: referenced or embedded. *)
Definition ref_objs (r : ref) : list obj := match r with RObj o => [o] | RName _ => [] end.
Definition field_objs (f : fval) : list obj :=
  match f with
  | FPrim _ => []
  | FRefs _ l => flat_map (fun x => ref_objs (snd x)) l
  | FModels _ l => map snd l
  end.
Definition children (o : obj) : list obj := flat_map field_objs (ofields o).
(** [m] is [o] or lies inside [o] at any depth. *)
Inductive inside : obj -> obj -> Prop :=
| inside_refl o : inside o o
| inside_step m i o : In i (children o) -> inside m i -> inside m o.

(** [m] is [o] or a model embedded in [o] at any depth (references not followed). *)
Inductive embedded : obj -> obj -> Prop :=
| embedded_refl o : embedded o o
| embedded_step m k l x o : In (FModels k l) (ofields o) -> In x l -> embedded m (snd x) -> embedded m o.
(** every reference in the saved plan names a node of the plan *)
Definition refs_resolved (q : plan) : Prop :=
  forall r m k l x, In r (p_nodes q ++ p_actions q) -> embedded m r -> In (FRefs k l) (ofields m) -> In x l ->
    In (ref_name (snd x)) (map oname (p_nodes q)).

Section Spec.
Variable isnode : nat -> bool.
(** [o] is a node occurring in plan [p] *)
Definition node_of (p : plan) (o : obj) : Prop :=
  isnode (ocls o) = true /\ exists r, In r (p_nodes p ++ p_actions p) /\ inside o r.
(** In-memory objects: references hold node objects, embedded models are not nodes. *)
Definition wf_field (f : fval) : Prop :=
  match f with
  | FPrim _ => True
  | FRefs _ l => forall x, In x l -> exists o, snd x = RObj o /\ isnode (ocls o) = true
  | FModels _ l => forall x, In x l -> isnode (ocls (snd x)) = false
  end.
Definition wf_plan (p : plan) : Prop :=
  (forall o, In o (p_nodes p) -> isnode (ocls o) = true) /\
  (forall r o f, In r (p_nodes p ++ p_actions p) -> inside o r -> In f (ofields o) -> wf_field f).
(** different nodes have different names *)
Definition names_unique (p : plan) : Prop :=
  forall a b, node_of p a -> node_of p b -> oname a = oname b -> a = b.
End Spec.
