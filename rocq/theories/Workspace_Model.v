(** Model of the workspace object cache,
    /repo/spins/invdes/problem_graph/workspace.py:26-203. *)
From Verif Require Import Base.
Set Implicit Arguments.

(** A node description: its Python identity, its name and the nodes it refers
    to.  (Object graphs are unfolded; equal identities mean equal trees.) *)
Inductive node := Node (id nm : nat) (refs : list node).
Definition nid (n : node) : nat := match n with Node i _ _ => i end.
Definition nname (n : node) : nat := match n with Node _ m _ => m end.
Definition nrefs (n : node) : list node := match n with Node _ _ r => r end.

(** [_nodes], [_objects] (objects are numbered in creation order) and, for
    observation only, the list of creations: which object for which node. *)
Record ws := { w_nodes : dict node; w_objs : dict nat; w_created : list (nat * node) }.
Definition ws_init : ws := {| w_nodes := dempty; w_objs := dempty; w_created := [] |}.

(** [add_node], workspace.py:79-87. *)
Definition reg (n : node) (d : dict node) : dict node * res bool :=
  match d (nname n) with
  | Some m => if Nat.eqb (nid n) (nid m) then (d, Ok false) else (d, Err ValueError)
  | None => (dset d (nname n) n, Ok true)
  end.
(** [_iter_optplan_fields] with [add_node] on every reference, workspace.py:89-98 and
    io.py:114-212.  The set of visited objects only avoids repeating work and is
    left out (as is the ids-of-names set it starts from, which never matches); each
    reference is its own field. *)
Fixpoint visit (n : node) (d : dict node) {struct n} : dict node * res unit :=
  match n with
  | Node _ _ refs =>
      (fix go (l : list node) (d : dict node) : dict node * res unit :=
         match l with
         | [] => (d, Ok tt)
         | c :: l' => match visit c d with
                      | (d1, Err e) => (d1, Err e)
                      | (d1, Ok _) => match reg c d1 with
                                      | (d2, Err e) => (d2, Err e)
                                      | (d2, Ok _) => go l' d2
                                      end
                      end
         end) refs d
  end.
(** [_add_node], workspace.py:70-98. *)
Definition add_node (n : node) (d : dict node) : dict node * res unit :=
  match reg n d with
  | (d1, Err e) => (d1, Err e)
  | (d1, Ok false) => (d1, Ok tt)
  | (d1, Ok true) => visit n d1
  end.

Section Workspace.
(** whether a creator is registered for the node's type, and the exception the
    creator raises, if any, after it has obtained the objects it refers to *)
Variable has_creator : node -> bool.
Variable creator_raises : node -> option err.

Definition set_nodes (w : ws) (d : dict node) : ws :=
  {| w_nodes := d; w_objs := w_objs w; w_created := w_created w |}.
Definition create (n : node) (w : ws) : ws :=
  let o := length (w_created w) in
  {| w_nodes := w_nodes w; w_objs := dset (w_objs w) (nname n) o; w_created := w_created w ++ [(o, n)] |}.

(** [get_object] on a node, workspace.py:139-203.  A creator asks for the objects
    of all nodes the node refers to (simplification: in field order). *)
Fixpoint get_object (n : node) (w : ws) {struct n} : ws * res nat :=
  match n with
  | Node i nm refs =>
      match w_objs w nm with
      | Some o => (w, Ok o)
      | None =>
          match add_node n (w_nodes w) with
          | (d, Err e) => (set_nodes w d, Err e)
          | (d, Ok _) =>
              let w1 := set_nodes w d in
              let requests := (fix go (l : list node) (w : ws) : ws * res unit :=
                 match l with
                 | [] => (w, Ok tt)
                 | c :: l' => match get_object c w with
                              | (w', Ok _) => go l' w'
                              | (w', Err e) => (w', Err e)
                              end
                 end) in
              match (if has_creator n then requests refs w1 else (w1, Ok tt)) with
              | (w2, Err e) => (w2, Err e)
              | (w2, Ok _) =>
                  match creator_raises n with
                  | Some e => (w2, Err e)
                  | None => (create n w2, Ok (length (w_created w2)))
                  end
              end
          end
      end
  end.

(** The two ways to ask, workspace.py:168-180. *)
Inductive request := ByNode (n : node) | ByName (nm : nat).
Definition serve (q : request) (w : ws) : ws * res nat :=
  match q with
  | ByNode n => get_object n w
  | ByName nm => match w_nodes w nm with Some n => get_object n w | None => (w, Err KeyError) end
  end.
(** A history of requests; exceptions are caught by the caller. *)
Fixpoint serve_all (l : list request) (w : ws) : ws :=
  match l with [] => w | q :: l' => serve_all l' (fst (serve q w)) end.
End Workspace.
