(** Model of index slices (/repo/spins/goos/util.py) and of groups of shapes
    (/repo/spins/goos/shapes.py). *)
From Coq Require Import ZArith.
From Verif Require Import Base.
Set Implicit Arguments.

(** *** make_slice, util.py:115-157, one axis *)
(** an argument: not given, the string "center", or an index *)
Inductive slice_arg := NoArg | Center | At (x : Z).
(** the slice object: slice(None) or slice(start, stop) *)
Inductive py_slice := All | Range (start stop : Z).
Definition make_slice (a : slice_arg) (shape : nat) : py_slice :=
  match a with
  | NoArg => All
  | Center => (* lines 143-148, then the truth value of the index, lines 150-155 *)
      let x := Z.of_nat (Nat.div shape 2) in if Z.eqb x 0 then All else Range x (x + 1)
  | At x => if Z.eqb x 0 then All else Range x (x + 1)
  end.
(** Python's reading of a slice bound on an axis of length n (language semantics):
    negative bounds count from the end, then both are clipped to the axis *)
Definition bound (n : nat) (z : Z) : nat :=
  if Z.ltb z 0 then Z.to_nat (z + Z.of_nat n) else Nat.min (Z.to_nat z) n.
(** the indices [arr[slice]] selects *)
Definition selected (n : nat) (s : py_slice) : list nat :=
  match s with
  | All => seq 0 n
  | Range a b => seq (bound n a) (bound n b - bound n a)
  end.

(** *** GroupShape, shapes.py:438-496 *)
Section group.
Variables A G : Type.   (* a shape flow and its gradient *)
(** an input: a single shape with its priority, or an ArrayFlow of inputs *)
Inductive flow := Single (a : A) (prio : Z) | Arr (fs : list flow).
(** gradient skeleton: [None], a gradient, or ArrayFlow.Grad of a list *)
Inductive gflow := GNone | GSingle (g : G) | GArr (gs : list gflow).
(** an entry of the extended flow: the shape, the place of its gradient in the skeleton
    (the reference to the parent list and the index, here the path from the root) and
    its priority *)
Record entry := mkentry { e_flow : A; e_path : list nat; e_prio : Z }.

(** _create_extended_flow, shapes.py:477-487: for the [i]-th element of a list *)
Fixpoint ext_flow (f : flow) (path : list nat) : gflow * list entry :=
  match f with
  | Single a p => (GNone, [mkentry a path p])
  | Arr fs =>
      let fix loop (fs : list flow) (i : nat) : list gflow * list entry :=
        match fs with
        | [] => ([], [])
        | f :: fs' =>
            let (g, es) := ext_flow f (path ++ [i]) in
            let (gs, es') := loop fs' (S i) in
            (g :: gs, es ++ es')
        end in
      let (gs, es) := loop fs 0 in (GArr gs, es)
  end.
(** list.sort(key=priority): Python's sort is stable; any stable sort gives this list *)
Fixpoint insert (e : entry) (l : list entry) : list entry :=
  match l with [] => [e] | x :: l' => if Z.leb (e_prio e) (e_prio x) then e :: l else x :: insert e l' end.
Fixpoint sort (l : list entry) : list entry := match l with [] => [] | e :: l' => insert e (sort l') end.
(** the state kept by eval, lines 466-472 *)
Definition state := (gflow * list entry)%type.
Definition group_eval (inputs : list flow) : list A * state :=
  let (skel, es) := ext_flow (Arr inputs) [] in
  let es := sort es in (map e_flow es, (skel, es)).
(** [parent[ind] = grad] *)
Fixpoint write (t : gflow) (path : list nat) (g : G) : gflow :=
  match path, t with
  | [], _ => GSingle g
  | i :: path', GArr gs =>
      GArr ((fix upd (gs : list gflow) (i : nat) : list gflow :=
        match gs, i with
        | [], _ => []
        | t :: gs', O => write t path' g :: gs'
        | t :: gs', S i' => t :: upd gs' i'
        end) gs i)
  | _, _ => t
  end.
(** grad, lines 489-496; zip stops at the shorter list.  The inputs' list of gradients is
    the list of the skeleton. *)
Fixpoint group_grad (gs : list G) (es : list entry) (skel : gflow) : gflow :=
  match gs, es with
  | g :: gs', e :: es' => group_grad gs' es' (write skel (e_path e) g)
  | _, _ => skel
  end.
End group.
Arguments Single {A} a prio.
Arguments Arr {A} fs.
Arguments GNone {G}.
