(** Theorems about the workspace object cache (C16). *)
From Verif Require Import Base Workspace_Model Workspace_Proofs.

(** [U] is the set of node descriptions in use: closed under references, and a
    Python identity belongs to one description. *)
Definition universe (U : node -> Prop) : Prop :=
  (forall n c, U n -> In c (nrefs n) -> U c) /\ (forall a b, U a -> U b -> nid a = nid b -> a = b).
Definition names_unique (U : node -> Prop) : Prop := forall a b, U a -> U b -> nname a = nname b -> a = b.

Section C16.
Variable has_creator : node -> bool.
Variable creator_raises : node -> option err.
Variable U : node -> Prop.
Notation get_object := (get_object has_creator creator_raises).
Notation serve_all := (serve_all has_creator creator_raises).

(** Once a request for a node has succeeded, every later request for it, after any
    other requests (also failing ones), returns the same object and creates
    nothing. *)
Theorem same_object_ever_after : universe U -> forall l1 l2 n o,
  Forall (request_ok U) l1 -> Forall (request_ok U) l2 -> U n ->
  let w1 := serve_all l1 ws_init in
  snd (get_object n w1) = Ok o ->
  let w2 := serve_all l2 (fst (get_object n w1)) in
  get_object n w2 = (w2, Ok o).
Proof. exact (fun H => @same_object_pf has_creator creator_raises U (proj1 H) (proj2 H)). Qed.

(** No two objects are ever created for one name, and no object is shared by two
    creations. *)
Theorem one_object_per_name : universe U -> forall l, Forall (request_ok U) l ->
  NoDup (map (fun x => nname (snd x)) (w_created (serve_all l ws_init))) /\
  NoDup (map fst (w_created (serve_all l ws_init))).
Proof. exact (fun H => @created_once_pf has_creator creator_raises U (proj1 H) (proj2 H)). Qed.

(** If names are unique, the object returned for a node was created from that
    node, and without failing creators every request succeeds. *)
Theorem object_belongs_to_node : universe U -> names_unique U -> forall l n o,
  Forall (request_ok U) l -> U n ->
  let x := get_object n (serve_all l ws_init) in
  snd x = Ok o -> In (o, n) (w_created (fst x)).
Proof. exact (fun H Hu l n o => @own_object_pf has_creator creator_raises U (proj1 H) (proj2 H) l n o Hu). Qed.
Theorem requests_succeed : universe U -> names_unique U -> (forall n, U n -> creator_raises n = None) ->
  forall l n, Forall (request_ok U) l -> U n ->
  exists o, snd (get_object n (serve_all l ws_init)) = Ok o.
Proof. exact (fun H Hu Hc l n => @own_object_total_pf has_creator creator_raises U (proj1 H) (proj2 H) l n Hu Hc). Qed.

(** A different node with the name of an existing object silently gets that
    object; with the name of a registered node without object it is rejected. *)
Theorem name_clash_gets_first_object : forall n n' w o, nname n' = nname n ->
  w_objs w (nname n) = Some o -> get_object n' w = (w, Ok o).
Proof. exact (clash_gets_other_object_pf has_creator creator_raises). Qed.
Theorem name_clash_before_creation : forall n m w, w_objs w (nname n) = None ->
  w_nodes w (nname n) = Some m -> nid m <> nid n -> snd (get_object n w) = Err ValueError.
Proof. exact (clash_error_pf has_creator creator_raises). Qed.
End C16.
Print Assumptions same_object_ever_after.
Print Assumptions one_object_per_name.
Print Assumptions object_belongs_to_node.
Print Assumptions requests_succeed.
Print Assumptions name_clash_gets_first_object.
Print Assumptions name_clash_before_creation.

(** The documented "an error is raised if a node by the same name but different
    id is added" fails: two different nodes, one object. *)
Theorem name_clash_silent_refuted : exists n n' o,
  let w := fst (get_object (fun _ => true) (fun _ => None) n ws_init) in
  nid n <> nid n' /\ nrefs n <> nrefs n' /\
  snd (get_object (fun _ => true) (fun _ => None) n ws_init) = Ok o /\
  snd (get_object (fun _ => true) (fun _ => None) n' w) = Ok o.
Proof.
  exists (Node 1 7 [Node 2 8 []]), (Node 3 7 []), 1. repeat split; try (intros H; discriminate H); reflexivity.
Qed.
Print Assumptions name_clash_silent_refuted.

(** A diamond: the shared node is created once; asking by name and by node agree. *)
Definition ex_leaf := Node 1 10 [].
Definition ex_top := Node 3 30 [Node 2 20 [ex_leaf]; ex_leaf].
Example C16_case :
  let g := get_object (fun _ => true) (fun _ => None) in
  let w := fst (g ex_top ws_init) in
  snd (g ex_top ws_init) = Ok 2 /\ map (fun x => nname (snd x)) (w_created w) = [10; 20; 30] /\
  snd (serve (fun _ => true) (fun _ => None) (ByName 10) w) = Ok 0 /\
  snd (serve (fun _ => true) (fun _ => None) (ByName 11) w) = Err KeyError.
Proof. repeat split; reflexivity. Qed.
Example C16_universe : universe (fun n => n = ex_leaf \/ n = Node 2 20 [ex_leaf] \/ n = ex_top) /\
  names_unique (fun n => n = ex_leaf \/ n = Node 2 20 [ex_leaf] \/ n = ex_top).
Proof.
  repeat split.
  - intros n c [-> | [-> | ->]]; simpl; intuition; subst; auto.
  - intros a b [-> | [-> | ->]] [-> | [-> | ->]]; simpl; congruence.
  - intros a b [-> | [-> | ->]] [-> | [-> | ->]]; simpl; congruence.
Qed.
