(** Vocabulary for the statements about optimizers. *)
From Verif Require Import Base QTac Opt_Model.
From Coq Require Import ZArith.
Set Implicit Arguments.

(** an iterate method that raises nothing *)
Definition total {S} (it : Z -> S -> S * bool) : Z -> S -> res (S * bool) := fun k s => Ok (it k s).
(** the state after [k] iterations from state [s], the first of which is iteration [n] *)
Fixpoint after {S} (it : Z -> S -> S * bool) (n : Z) (s : S) (k : nat) : S :=
  match k with O => s | Datatypes.S k' => fst (it (n + Z.of_nat k')%Z (after it n s k')) end.
(** the [k]-th iteration (counted from 1) asks to stop *)
Definition asks {S} (it : Z -> S -> S * bool) (n : Z) (s : S) (k : nat) : bool :=
  match k with O => false | Datatypes.S k' => snd (it (n + Z.of_nat k')%Z (after it n s k')) end.
(** the optimizer is to stop after [k] more iterations, [stop] being the limit on the total *)
Definition ends {S} (it : Z -> S -> S * bool) (stop : option Z) (n : Z) (s : S) (k : nat) : Prop :=
  (exists m, stop = Some m /\ m <> 0%Z /\ (m <= n + Z.of_nat k)%Z) \/ asks it n s k = true.
(** the same in terms of what the caller passed: [iters] more iterations, a total of [max],
    zero or absent meaning no limit *)
Definition finished {S} (it : Z -> S -> S * bool) (iters max : option Z) (n : Z) (s : S) (k : nat) : Prop :=
  (exists a, iters = Some a /\ a <> 0%Z /\ (a <= Z.of_nat k)%Z) \/ (exists b, max = Some b /\ b <> 0%Z /\ (b <= n + Z.of_nat k)%Z) \/ asks it n s k = true.
(** step size after [j] rejections *)
Definition shrunk (failure alpha : Q) (j : nat) : Q := Nat.iter j (fun a => a * failure) alpha.
Definition trial (proj : vec -> vec) (x g : vec) (a : Q) : vec := proj (fun i => x i - a * g i).
(** penalty weight of cycle [k] *)
Definition weight (pw : Q -> Q) (mu0 : Q) (k : nat) : Q := Nat.iter k pw mu0.
Definition minimizes {P} (h : P -> Q) (x : P) : Prop := forall y, h x <= h y.
Definition feasible {P} (cons : list (P -> Q)) (x : P) : Prop := forall c, In c cons -> c x == 0.
Definition penalty {P} (cons : list (P -> Q)) (pf : nat) (x : P) : Q := qsum (map (fun c => qpower (c x) pf) cons).
(** sum of the squared differences of the constraint values at two points *)
Definition sqdiff {P} (cons : list (P -> Q)) (x y : P) : Q := qsum (map (fun c => (c y - c x) * (c y - c x)) cons).
(** well-formed arrays *)
Definition arr_ok (a : arr) : Prop := length (a_data a) = prod (a_shape a).
(** objective values along a list of optimizer states never increase *)
Definition descending (f : vec -> Q) (l : list astate) : Prop :=
  forall i j d, (i <= j < length l)%nat -> f (a_x (nth j l d)) <= f (a_x (nth i l d)).
(** weighted history: sum of [b ^ (k - 1 - j) * h j] for j < k *)
Definition decayed (b : Q) (h : nat -> Q) (k : nat) : Q := sumn k (fun j => qpower b (k - 1 - j) * h j).
(** a solver that honours the constraints it is given accepts [x]: "eq" means the value is zero,
    "ineq" that it is not negative (scipy's convention) *)
Definition accepted {X} (cs : option (list (ctype * (X -> res Q)))) (x : X) : Prop :=
  match cs with
  | None => True
  | Some l => forall t h, In (t, h) l -> exists v, h x = Ok v /\ match t with TEq => v == 0 | TIneq => 0 <= v end
  end.
(** what the user asked for: equalities zero, inequalities at most zero *)
Definition satisfies {X} (eqs ineqs : list (X -> Q)) (x : X) : Prop :=
  (forall g, In g eqs -> g x == 0) /\ (forall g, In g ineqs -> g x <= 0).
