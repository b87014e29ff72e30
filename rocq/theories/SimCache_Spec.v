(** Vocabulary for the statements about the simulation cache. *)
From Verif Require Import Base SimCache_Model.
Set Implicit Arguments.

Section Spec.
Variables K F : Type.
Variable keq : K -> K -> bool.
Variable solver : K -> res F.

(** The distinct requests of a history, in the order of their last occurrence. *)
Fixpoint by_last_use (l : list K) : list K :=
  match l with
  | [] => []
  | x :: l' => if existsb (keq x) l' then by_last_use l' else x :: by_last_use l'
  end.
Definition lastn {A} (n : nat) (l : list A) : list A := skipn (length l - n) l.
(** failed requests leave no trace *)
Definition solvable (z : K) : bool := match solver z with Ok _ => true | Err _ => false end.
(** what a cache of [n] entries should hold after a history, oldest first *)
Definition lru (n : nat) (hist : list K) : list K := lastn n (by_last_use (filter solvable hist)).
(** the structures in a cache *)
Fixpoint keys (c : cache K F) : list K :=
  match c with [] => [] | None :: c' => keys c' | Some (z, _) :: c' => z :: keys c' end.

(** A sequential execution of calls by threads: cache, results and solver calls. *)
Fixpoint replay (c : cache K F) (h : list (nat * K)) : cache K F * list (nat * K * res F) * list K :=
  match h with
  | [] => (c, [], [])
  | (t, z) :: h' =>
      let '(c1, r, b) := simulate keq solver c z in
      let '(c2, rs, cs) := replay c1 h' in
      (c2, (t, z, r) :: rs, (if b then [z] else []) ++ cs)
  end.
(** the results of one thread, in order *)
Definition results_of (t : nat) (l : list (nat * K * res F)) : list (K * res F) :=
  map (fun x => (snd (fst x), snd x)) (filter (fun x => Nat.eqb (fst (fst x)) t) l).
End Spec.

Section HeapSpec.
Variable A : Type.
Variable aeq : A -> A -> bool.
Variable solver : A -> A.
Variable d : A.
(** The caller only reads arrays it has and never writes into an array it has
    passed to, or got from, [simulate] ([touched]). *)
Fixpoint careful (touched : list nat) (w : aworld A) (l : list (aop A)) : Prop :=
  match l with
  | [] => True
  | o :: l' =>
      let (w', r) := astep aeq solver d w o in
      match o with
      | ASim _ z => z < length (a_heap w) /\ careful (touched ++ z :: match r with Some f => [f] | None => [] end) w' l'
      | AWrite a _ => ~ In a touched /\ careful touched w' l'
      | ANew _ => careful touched w' l'
      end
  end.
End HeapSpec.
