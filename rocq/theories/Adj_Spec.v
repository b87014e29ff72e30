(** Vocabulary of the statements about adjoint gradients. *)
From Coq Require Import Reals.
From Verif Require Obj_Spec.
From Verif Require Import Base CField Maxwell_Model Maxwell_Spec LinAlg GMath_Model GMath_Spec CplxField Adj_Model.
Set Implicit Arguments.
Local Open Scope R_scope.

(** What is assumed of a simulation: no cell has size zero, [p] are the square roots of the
    preconditioner, the frequency is nonzero, and the matrix solver solves every nonsingular system
    exactly. *)
Record sim_ok (g : grid CC) (p : nat -> C) (inner : mat CC -> list C -> list C) (omega : R) : Prop := {
  ok_cells : nonzero_cells g;
  ok_sqrt : is_sqrt g p;
  ok_omega : omega <> 0;
  ok_inner : exact_solver (vlen g) inner
}.
(** The wave equation with permittivity [eps] has at most one solution: no resonance. *)
Definition no_resonance (g : grid CC) (ph : phases CC) (omega : R) (eps : list C) : Prop :=
  nonsingular (K:=CC) (vlen g) (wave g ph omega eps).

(** [u] is a curve of vectors of length [n] with velocity [d] at time [t0] *)
Definition cmoves (n : nat) (u : R -> list C) (t0 : R) (d : list C) : Prop :=
  (forall t, length (u t) = n) /\ length d = n /\
  forall k, (k < n)%nat -> cderive (fun t => nth k (u t) (creal 0)) t0 (nth k d (creal 0)).
(** sum of products *)
Fixpoint cdot (a b : list C) : C :=
  match a, b with x :: a', y :: b' => cadd (cmul x y) (cdot a' b') | _, _ => creal 0 end.
Definition vector (r : res (list C)) : list C := match r with Ok v => v | Err _ => [] end.
Notation is_gradient := Obj_Spec.is_gradient.
Notation real := Obj_Spec.real.

(** ** goos *)
(** the current of all sources, those that keep their mode computed for the structure [first] *)
Definition source_value (first eps : list C) (s : source) : list C :=
  match s with SKept f => f first | SFresh f => f eps end.
Definition current (n : nat) (sources : list source) (first eps : list C) : list C :=
  map (fun k => fold_right cadd (creal 0) (map (fun s => nth k (source_value first eps s) (creal 0)) sources)) (seq 0 n).
(** the value of an output, for the fields [E] *)
Definition out_value (first eps E : list C) (o : output) : arr :=
  match o with
  | OEps => mkarr true eps
  | OField => mkarr true E
  | OOverlap f => mkarr true [cdot (f first) E]
  end.
(** modes and beams are fields on the grid *)
Definition fields_of_size (n : nat) (sources : list source) (outputs : list output) : Prop :=
  (forall f eps, In (SKept f) sources \/ In (SFresh f) sources -> length (f eps) = n) /\
  (forall f eps, In (OOverlap f) outputs -> length (f eps) = n).
(** complex permittivities on the grid *)
Definition cplx_eps (n : nat) (eps : arr) : Prop := cpx eps = true /\ length (dat eps) = n.
(** incoming gradients: a number for every overlap, none for the other outputs *)
Definition overlap_weights (outputs : list output) (gs : list (option (list C))) : Prop :=
  Forall2 (fun o gv => match o with OOverlap _ => exists x, gv = Some [x] | _ => gv = None end) outputs gs.
(** the linear function of the outputs with these gradients *)
Fixpoint weighted (gs : list (option (list C))) (vals : list arr) : C :=
  match gs, vals with
  | Some gv :: gs', v :: vals' => cadd (cdot gv (dat v)) (weighted gs' vals')
  | None :: gs', _ :: vals' => weighted gs' vals'
  | _, _ => creal 0
  end.
Definition values (r : res (list arr)) : list arr := match r with Ok v => v | Err _ => [] end.
