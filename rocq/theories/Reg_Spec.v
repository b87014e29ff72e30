(** Vocabulary of the statements about registries and joined monitors. *)
From Verif Require Import Base Reg_Model.
Set Implicit Arguments.

(** the operations name existing contexts only *)
Definition exists_in {X} (s : rstate X) (c : nat) : Prop := c < length (objs s).
Definition o_legal (s : ostate) (o : oop) : Prop :=
  match o with ORegister c _ _ _ _ | OPush c => exists_in s c | _ => True end.
Fixpoint o_legal_run (s : ostate) (l : list oop) : Prop :=
  match l with [] => True | o :: r => o_legal s o /\ o_legal_run (snd (ostep s o)) r end.
Definition g_legal (s : gstate) (o : gop) : Prop :=
  match o with GRegister c _ _ | GPush (Some c) => exists_in s c | _ => True end.
Fixpoint g_legal_run push (s : gstate) (l : list gop) : Prop :=
  match l with [] => True | o :: r => g_legal s o /\ g_legal_run push (snd (gstep push s o)) r end.
(** no contexts *)
Definition ostart : ostate := RState [] [].
(** states that a program can reach *)
Definition o_reachable (s : ostate) : Prop := exists l, o_legal_run ostart l /\ s = orun ostart l.
Definition g_reachable push (s : gstate) : Prop := exists l, g_legal_run push gstart l /\ s = grun push gstart l.
(** c is the topmost context of the stack with a property; none has it *)
Definition topmost (stack : list nat) (P : nat -> Prop) (c : nat) : Prop :=
  exists below above, stack = below ++ c :: above /\ P c /\ Forall (fun c' => ~ P c') above.
Definition nowhere (stack : list nat) (P : nat -> Prop) : Prop := Forall (fun c => ~ P c) stack.
(** registrations on the top of the stack *)
Definition o_top_only (o : oop) : Prop := match o with ORegisterTop _ _ _ _ => True | _ => False end.
Definition g_top_only (o : gop) : Prop := match o with GRegisterTop _ _ => True | _ => False end.

(** *** monitors *)
(** monitors with the same joiner id agree in type and operations *)
Definition consistent (l : list mdesc) : Prop := forall a b, In a l -> In b l -> m_joiner a = m_joiner b ->
  m_type a = m_type b /\ m_scalar a = m_scalar b /\ m_vector a = m_vector b.
Lemma joiner_dec (a b : joiner) : {a = b} + {a <> b}.
Proof. decide equality. apply Nat.eq_dec. Defined.
(** the distinct joiner ids in order of first appearance *)
Fixpoint first_seen (l : list joiner) : list joiner :=
  match l with [] => [] | j :: r => j :: filter (fun x => if joiner_dec x j then false else true) (first_seen r) end.
(** the monitors with a joiner id, in order *)
Definition members (l : list mdesc) (j : joiner) : list mdesc :=
  filter (fun m => if joiner_dec (m_joiner m) j then true else false) l.
(** the joined description: all names, type and operations of the first, and the first name
    as id if there is none *)
Definition group (l : list mdesc) (j : joiner) : jdesc :=
  let ms := members l j in
  let m := hd (MDesc 0 JNone 0 0 0) ms in
  JDesc (match j with JName _ => j | _ => JName (m_name m) end) (map m_name ms) (m_type m) (m_scalar m) (m_vector m).
Definition named (m : mdesc) : Prop := match m_joiner m with JName _ => True | _ => False end.
