(** Vocabulary for convergence: the box of the bounds, inner products and distances of the first [n] entries,
    smoothness and convexity by inequalities between value and gradient. *)
From Verif Require Import Base QTac Opt_Model.
Set Implicit Arguments.

Definition within (n : nat) (lo hi : nat -> option Q) (x : vec) : Prop :=
  forall i, (i < n)%nat -> (forall l, lo i = Some l -> l <= x i) /\ (forall h, hi i = Some h -> x i <= h).
Definition bounds_ok (n : nat) (lo hi : nat -> option Q) : Prop :=
  forall i l h, (i < n)%nat -> lo i = Some l -> hi i = Some h -> l <= h.
(** [a . (y - x)] *)
Definition slope (n : nat) (a x y : vec) : Q := sumn n (fun i => a i * (y i - x i)).
(** squared distance *)
Definition sqd (n : nat) (x y : vec) : Q := sumn n (fun i => (x i - y i) * (x i - y i)).
(** the value lies below a parabola of curvature [L], above one of curvature [mu] (0: convex) *)
Definition smooth (n : nat) (lo hi : nat -> option Q) (f : vec -> Q) (g : vec -> vec) (L : Q) : Prop :=
  forall x y, within n lo hi x -> within n lo hi y -> f y <= f x + slope n (g x) x y + L / 2 * sqd n y x.
Definition convex (n : nat) (lo hi : nat -> option Q) (f : vec -> Q) (g : vec -> vec) (mu : Q) : Prop :=
  forall x y, within n lo hi x -> within n lo hi y -> f x + slope n (g x) x y + mu / 2 * sqd n y x <= f y.
(** no feasible direction leads down *)
Definition stationary (n : nat) (lo hi : nat -> option Q) (g : vec -> vec) (x : vec) : Prop :=
  forall y, within n lo hi y -> 0 <= slope n (g x) x y.
Definition minimum (n : nat) (lo hi : nat -> option Q) (f : vec -> Q) (y : vec) : Prop :=
  within n lo hi y /\ forall z, within n lo hi z -> f y <= f z.
