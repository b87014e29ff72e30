(** Vocabulary of the statements about the objectives of simulations. *)
From Coq Require Import Reals.
From Verif Require Import Base CField Maxwell_Model Maxwell_Spec GMath_Model GMath_Spec GMath_Proofs CplxField EmObj_Model Adj_Spec.
From Verif Require Obj_Spec.
Set Implicit Arguments.
Local Open Scope R_scope.
Notation param_ok := Obj_Spec.param_ok.
Notation moves := Obj_Spec.moves.
Notation near := Obj_Spec.near.
Notation dotr := Obj_Spec.dotr.

(** [px] and [pz] are the derivatives of [f] at the fields [E] and the structure [z]: along every
    curve of fields and structures through them, f changes at the rate 2 Re(px . dE) + pz . dz. *)
Definition correct_partials (N : nat) (f : list C -> list R -> R) (E : list C) (z : list R) (px : list C) (pz : list R) : Prop :=
  length px = N /\ length pz = length z /\
  forall (u : R -> list C) du (P : R -> list R) dP t0,
    near t0 (fun t => length (u t) = N) -> u t0 = E -> length du = N ->
    (forall k, (k < N)%nat -> cderive (fun t => nth k (u t) (creal 0)) t0 (nth k du (creal 0))) ->
    moves P t0 z dP ->
    derivable_pt_lim (fun t => f (u t) (P t)) t0 (2 * fst (cdot px du) + dotr pz dP).
(** An objective computes its derivatives correctly at fields [E] of a structure [z]. *)
Definition differentiates (N : nat) (o : objective) (E : list C) (z : list R) (px : list C) : Prop :=
  o_dx o E z = Ok px /\ correct_partials N (fun E z => real (o_f o E z)) E z px (o_dz o E z).
(** The volume of the cell around the k-th field component. *)
Definition cell_volume (g : grid CC) (k : nat) : C := nth k (vec g (p_squared g)) (creal 0).
(** Absorbing layers are made of cells of complex size: neither the objective nor the design
    reaches into them. *)
Definition outside_layers (g : grid CC) (px : list C) (S : nat -> nat -> C) (n : nat) : Prop :=
  forall k, (k < vlen g)%nat -> snd (cell_volume g k) = 0 \/
    (nth k px (creal 0) = creal 0 /\ forall i, (i < n)%nat -> S k i = creal 0).
(** the distance of a number from an interval *)
Definition excess (a b x : R) : R := Rmax 0 (Rmax (a - x) (x - b)).
(** the overlap of a field with a mode *)
Definition amplitude (c E : list C) : R := cabs (cdot c E).
