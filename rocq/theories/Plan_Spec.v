(** Vocabulary for the statements about optimization plans. *)
From Verif Require Import Base Plan_Model.
Set Implicit Arguments.

Section Spec.
Variables V Sc Ev : Type.
Variable full_like : V -> Sc -> V.
Variables ninf pinf : Sc.
Variable evalx : list (node V Sc) -> list (node V Sc * V * bool) -> res (list V).
Notation node := (node V Sc).
Notation core := (core V Sc).
Notation prog := (prog V Sc Ev).
Notation aop := (aop V Sc Ev).
Notation action := (action V Sc Ev).
Notation st := (st V Sc Ev).
Notation call := (call full_like ninf pinf evalx).

(** [m] is [n] or one of its direct or indirect inputs. *)
Inductive sub : node -> node -> Prop :=
| sub_refl n : sub n n
| sub_step m i n : In i (nins n) -> sub m i -> sub m n.

Definition var_data (c : core) (k : nat) : option V * option bool * option (bounds V) :=
  (aget (var_value c) k, aget (var_frozen c) k, aget (var_bounds c) k).
Definition declared (d : vardecl V Sc) : option V * option bool * option (bounds V) :=
  (Some (d_value d), Some (d_param d),
   Some (expand full_like (d_lower d) ninf (d_value d), expand full_like (d_upper d) pinf (d_value d))).

(** calls that only actions may make *)
Definition is_mutator (o : aop) : bool :=
  match o with
  | OSetValue _ _ _ | OSetBounds _ _ | OFreeze _ | OThaw _ | OGetThawed | OWriteEvent _ _ => true
  | _ => false
  end.

(** Program [p] never thaws [x] and never uses the unchecked setter on it. *)
Definition op_respects (x : nat) (o : aop) : Prop :=
  match o with
  | OThaw n => nname n <> x
  | OSetValue n _ false => nname n <> x
  | _ => True
  end.
Fixpoint respects (x : nat) (p : prog) : Prop :=
  match p with
  | Do o k => op_respects x o /\ forall r, respects x (k r)
  | _ => True
  end.

(** The calls of an action, one after the other, whatever their outcome. *)
Definition calls (l : list aop) (s : st) : st := fold_left (fun s o => fst (call o s)) l s.
(** the last freeze/thaw call on [x]: [Some true] = frozen *)
Definition mark_of (x : nat) (o : aop) : option bool :=
  match o with
  | OFreeze n => if Nat.eqb (nname n) x then Some true else None
  | OThaw n => if Nat.eqb (nname n) x then Some false else None
  | _ => None
  end.
Fixpoint last_mark (x : nat) (l : list aop) : option bool :=
  match l with
  | [] => None
  | o :: l' => match last_mark x l' with Some b => Some b | None => mark_of x o end
  end.
(** values are only set on variables registered in [c] *)
Definition set_known (c : core) (o : aop) : Prop :=
  match o with OSetValue n _ _ => amem (var_value c) (nname n) = true | _ => True end.

(** Consistency of the four dictionaries. *)
Definition core_ok (c : core) : Prop :=
  NoDup (akeys (var_value c)) /\
  (forall k, amem (var_value c) k = true ->
     amem (var_frozen c) k = true /\ amem (var_bounds c) k = true /\ amem (node_map c) k = true) /\
  (forall k n, aget (node_map c) k = Some n -> nname n = k).

(** the numbers of the step files among the writes [l], newest first *)
Definition steps_of (l : list (fname * fdata V Ev)) : list nat :=
  flat_map (fun f => match fst f with Step n => [n] | _ => [] end) l.
Definition same_keys (c c' : core) : Prop :=
  node_map c = node_map c' /\ akeys (var_value c) = akeys (var_value c') /\
  akeys (var_frozen c) = akeys (var_frozen c') /\ akeys (var_bounds c) = akeys (var_bounds c').
Definition core_tight (c : core) : Prop :=
  NoDup (akeys (var_value c)) /\ akeys (var_frozen c) = akeys (var_value c) /\ akeys (var_bounds c) = akeys (var_value c).


(** Calls a user can make between runs (autorun off). *)
Definition outside (o : uop V Sc Ev) : bool :=
  match o with UCall _ | UAddAction _ => true | _ => false end.
(** Program [p] started in [s] gets to the point where [p'] remains to be done in state [s']. *)
Inductive reaches : prog -> st -> prog -> st -> Prop :=
| reaches_here p s : reaches p s p s
| reaches_call o k s p' s' : reaches (k (snd (call o s))) (fst (call o s)) p' s' -> reaches (Do o k) s p' s'.
(** The same action with other code. *)
Definition with_code (a : action) (code : prog) : action :=
  {| a_name := a_name a; a_inputs := a_inputs a; a_run := code; a_resume := a_resume a |}.
(** The same program, run with other actions. *)
Definition run_with (p : plan V Sc Ev) (l : list action) (w : world V Ev) : st * res unit :=
  run full_like ninf pinf evalx true (with_actions p l, w).
End Spec.
