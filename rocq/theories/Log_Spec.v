(** What the log readers should return. *)
From Coq Require Import ZArith Sorted.
From Verif Require Import Base Log_Model.
Set Implicit Arguments.

Section log.
Variable V : Type.
Implicit Types (df : list (row V)).

(** the rows of one transformation and one event in which monitor [n] has a value *)
Definition logged df (ev t n : nat) : list (row V) :=
  filter (fun r => Nat.eqb (event r) ev && Nat.eqb (trans r) t && is_some (mons r n)) df.
(** the values, in the order they were written *)
Definition values df ev t n : list V := somes (map (fun r => mons r n) (logged df ev t n)).
Definition iterations df ev t n : list Z := somes (map (fun r => iter r) (logged df ev t n)).
(** the monitor used for a transformation: the first of the list that has a value *)
Definition chosen df ev t (names : list nat) : option nat :=
  find (fun n => negb (Nat.eqb (length (logged df ev t n)) 0)) names.
Definition chosen_values df ev names t : list V :=
  match chosen df ev t names with Some n => values df ev t n | None => [] end.
Definition chosen_iterations df ev names t : list Z :=
  match chosen df ev t names with Some n => iterations df ev t n | None => [] end.

(** every value comes with an iteration number *)
Definition numbered df ev (names : list nat) : Prop :=
  forall r n, In r df -> event r = ev -> In n names -> mons r n <> None -> iter r <> None.
(** iteration numbers of a transformation are not negative and never decrease *)
Definition counting df ev : Prop :=
  (forall r z, In r df -> iter r = Some z -> (0 <= z)%Z) /\
  forall a r b r' c z z', df = a ++ r :: b ++ r' :: c -> event r = ev -> event r' = ev -> trans r = trans r' ->
    iter r = Some z -> iter r' = Some z' -> (z <= z')%Z.

(** each segment is shifted by the last number of the joined list so far *)
Fixpoint shifted (segs : list (list Z)) (off : Z) : list Z :=
  match segs with
  | [] => []
  | s :: segs' => let s' := map (fun k => Z.add k off) s in s' ++ shifted segs' (last s' off)
  end.
(** positions at which a new nonempty segment starts, without the first *)
Fixpoint boundaries {A} (segs : list (list A)) (pos : nat) : list nat :=
  match segs with
  | [] => []
  | s :: segs' => (if Nat.eqb (length s) 0 || Nat.eqb pos 0 then [] else [pos]) ++ boundaries segs' (pos + length s)
  end.

(** the row whose value a lookup should return *)
Definition lookup df ev t n (z : option Z) : option (row V) :=
  let rows := logged df ev t n in
  match find (fun r => match iter r, z with Some i, Some z => Z.eqb i z | _, _ => false end) rows with
  | Some r => Some r
  | None => match rev rows with r :: _ => Some r | [] => None end
  end.
(** the pairs (transformation, event): the last transformation first and, within a
    transformation, the last event first *)
Definition candidates (ts evs : list nat) : list (nat * nat) :=
  flat_map (fun t => map (fun e => (t, e)) (rev evs)) (rev ts).
(** a pair for which some monitor of the list has a value *)
Definition hit df names (p : nat * nat) : bool := is_some (chosen df (snd p) (fst p) names).
End log.
