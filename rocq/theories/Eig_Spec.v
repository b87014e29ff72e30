(** Vocabulary of the statements about eigenfrequency simulations. *)
From Coq Require Import Reals.
From Verif Require Import Base CField GMath_Model GMath_Proofs CplxField Maxwell_Model Maxwell_Spec Phc_Model Phc_Spec Eig_Model.
From Verif Require Obj_Model.
Set Implicit Arguments.
Local Open Scope R_scope.

(** a permittivity of real numbers *)
Definition real_eps (e : nat -> R) : nat -> CC := fun i => creal (e i).
Definition eps_array (g : grid CC) (e : nat -> R) : list C := vbuild (K:=CC) (vlen g) (real_eps e).
(** A mode followed along a path of permittivities: for t near 0, E t is a field without sources
    at the frequency w t; frequency and field are continuous at 0 (a mode need not be
    differentiable, nor simple). *)
Record mode_path (g : grid CC) (ph : phases CC) (eps : R -> nat -> R) (w : R -> R) (E : R -> list C) : Prop := {
  path_radius : exists r, 0 < r /\ forall t, Rabs t < r -> e_resonance g ph (real_eps (eps t)) (creal (w t)) (E t);
  path_w : continuity_pt w 0;
  path_E : forall i, (i < vlen g)%nat -> continuity_pt (fun t => fst (at_ (K:=CC) (E t) i)) 0 /\ continuity_pt (fun t => snd (at_ (K:=CC) (E t) i)) 0 }.
(** the direction of the path at 0 *)
Definition path_direction (g : grid CC) (eps : R -> nat -> R) (delta : nat -> R) : Prop :=
  forall i, (i < vlen g)%nat -> derivable_pt_lim (fun t => eps t i) 0 (delta i).
(** the vector is a multiple of sqrt(eps) E: an eigenvector of the symmetric matrix
    eps^(-1/2) curl curl eps^(-1/2), Phc_Model.efield_operator *)
Definition weighted_by_root (g : grid CC) (e : nat -> R) (E v : list C) : Prop :=
  exists c, c <> c0 /\ forall i, (i < vlen g)%nat -> at_ (K:=CC) v i = cmul c (cmul (creal (sqrt (e i))) (at_ (K:=CC) E i)).
(** sum over the entries *)
Definition along (n : nat) (gradient delta : nat -> R) : R := Obj_Model.rsum (map (fun i => gradient i * delta i) (seq 0 n)).
(** outputs that do not depend on earlier evaluations *)
Definition stateless (o : output) : Prop := match o with OOverlap _ => False | _ => True end.
(** output k is an EigenValue, and none after it is *)
Definition last_eig (outputs : list output) (k : nat) : Prop :=
  nth_error outputs k = Some OEig /\ forall j, (k < j)%nat -> nth_error outputs j <> Some OEig.
Definition no_eig (outputs : list output) : Prop := ~ In OEig outputs.
(** a gradient for each output; those of EigenValue outputs are not None and not empty *)
Definition grads_fit (outputs : list output) (gs : grads) : Prop :=
  length gs = length outputs /\
  forall j, nth_error outputs j = Some OEig -> exists d r, nth_error gs j = Some (Some (d :: r)).
