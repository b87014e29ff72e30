(** Shared vocabulary: Python exceptions as values, finite maps as functions. *)
From Coq Require Export List Arith Lia Bool Permutation.
Export ListNotations.
Set Implicit Arguments.

(** Python exceptions that the modelled code can raise.  [OutOfFuel] is not a
    Python exception: it marks exhausted recursion fuel and is excluded by the
    theorems. *)
Inductive err : Type :=
| KeyError | NameError | IndexError | ValueError | TypeError | AttributeError
| RuntimeError | NotImplementedError | ZeroDivisionError | GridError
| UserError (n : nat) (* an exception raised by user code *)
| OutOfFuel.

Inductive res (A : Type) : Type :=
| Ok (a : A)
| Err (e : err).
Arguments Ok {A} a.
Arguments Err {A} e.

Definition bind {A B} (r : res A) (f : A -> res B) : res B :=
  match r with Ok a => f a | Err e => Err e end.

Definition is_ok {A} (r : res A) : bool :=
  match r with Ok _ => true | Err _ => false end.

(** A Python dict with integer keys, as a function. *)
Definition dict (V : Type) := nat -> option V.
Definition dempty {V} : dict V := fun _ => None.
Definition dset {V} (d : dict V) (k : nat) (v : V) : dict V :=
  fun k' => if Nat.eqb k' k then Some v else d k'.
Definition dmem {V} (d : dict V) (k : nat) : bool :=
  match d k with Some _ => true | None => false end.
(** [d[k]] *)
Definition dget {V} (d : dict V) (k : nat) : res V :=
  match d k with Some v => Ok v | None => Err KeyError end.

Lemma dset_same {V} (d : dict V) k v : dset d k v k = Some v.
Proof. unfold dset. now rewrite Nat.eqb_refl. Qed.
Lemma dset_other {V} (d : dict V) k v k' : k' <> k -> dset d k v k' = d k'.
Proof. unfold dset. intros H. now apply Nat.eqb_neq in H as ->. Qed.

(** [[f x for x in l]] where [f] may raise. *)
Fixpoint mapM {A B} (f : A -> res B) (l : list A) : res (list B) :=
  match l with
  | [] => Ok []
  | x :: xs => bind (f x) (fun y => bind (mapM f xs) (fun ys => Ok (y :: ys)))
  end.

Lemma mapM_ok_Forall2 {A B} (f : A -> res B) l ys :
  mapM f l = Ok ys <-> Forall2 (fun x y => f x = Ok y) l ys.
Proof.
  revert ys; induction l as [|x xs IH]; intros ys; simpl.
  - split.
    + intros H. inversion H. constructor.
    + intros H. inversion H. reflexivity.
  - split.
    + destruct (f x) as [y|e] eqn:Hx; simpl; [|discriminate].
      destruct (mapM f xs) as [ys'|e] eqn:Hxs; simpl; [|discriminate].
      intros H. inversion H; subst. constructor; [assumption|]. now apply IH.
    + intros H. inversion H as [|? y ? ys' Hx Hxs]; subst.
      rewrite Hx; simpl. apply IH in Hxs. rewrite Hxs. reflexivity.
Qed.

Definition memb (n : nat) (l : list nat) : bool := existsb (Nat.eqb n) l.
Lemma memb_In n l : memb n l = true <-> In n l.
Proof.
  unfold memb. rewrite existsb_exists. split.
  - intros (x & Hx & He). apply Nat.eqb_eq in He. now subst.
  - intros H. exists n. split; [assumption|apply Nat.eqb_refl].
Qed.
Lemma memb_false n l : memb n l = false <-> ~ In n l.
Proof.
  rewrite <- memb_In. destruct (memb n l); split; intros H; congruence.
Qed.

Lemma Forall2_impl {A B} (P Q : A -> B -> Prop) l l' :
  (forall x y, P x y -> Q x y) -> Forall2 P l l' -> Forall2 Q l l'.
Proof. intros H. induction 1; constructor; auto. Qed.
