(** Properties C47 and C80: the permittivity fitting objective, constraint evaluation. *)
From Verif Require Import Base Obj_Model Obj_Spec Obj_Proofs Fit_Model Fit_Proofs.
From Coq Require Import Reals Lra.
Set Implicit Arguments.
Local Open Scope R_scope.

(** ** C47: the derivative is twice the gradient that is returned. *)
Theorem fit_gradient_is_half :
  forall eps_bg S eps structure jac N p, param_ok structure jac N p ->
  length eps_bg = length S -> length eps = length S -> Forall (fun row => length row = N) S ->
  exists gr, fit_gradient eps_bg S eps structure jac p = Ok gr /\ length gr = length p /\
    (forall q, length q = length p -> exists v, fit_objective eps_bg S eps structure q = Ok v) /\
    forall P t0 d, moves P t0 p d ->
      derivable_pt_lim (fun t => real (fit_objective eps_bg S eps structure (P t))) t0 (2 * dotr gr d).
Proof. intros. now apply (@fit_half eps_bg S eps structure jac N p). Qed.

Definition id_structure (q : list R) : list R := q.
Definition id_jac (_ : list R) : list (list R) := [[1]].
Lemma id_param x : param_ok id_structure id_jac 1 [x].
Proof.
  split; [intros q Hq; exact Hq|]. split; [reflexivity|]. intros i Hi. destruct i as [|i]; [|exfalso; inversion Hi as [|? H]; inversion H].
  split; [reflexivity|]. intros P t0 d (_ & Hl & _ & Hj). destruct d as [|d0 [|]]; try discriminate.
  eapply derive_eq; [|exact (Hj 0%nat ltac:(cbn; auto))]. unfold dotr. cbn. ring.
Qed.
Lemma id_moves x : moves (fun t => [t]) x [x] [1].
Proof.
  split; [reflexivity|]. split; [reflexivity|]. split; [reflexivity|]. intros [|j] Hj; cbn.
  - apply derivable_pt_lim_id.
  - exfalso. cbn in Hj. lia.
Qed.
(** |(1 + i) z - 3|^2 at z = 2 *)
Example fit_case : exists gr, fit_gradient [(0, 0)] [[(1, 1)]] [(3, 0)] id_structure id_jac [2] = Ok gr /\ gr = [1] /\
  derivable_pt_lim (fun t => real (fit_objective [(0, 0)] [[(1, 1)]] [(3, 0)] id_structure [t])) 2 (2 * dotr gr [1]).
Proof.
  destruct (@fit_gradient_is_half [(0, 0)] [[(1, 1)]] [(3, 0)] id_structure id_jac 1 [2] (id_param 2) eq_refl eq_refl
    ltac:(repeat constructor)) as (gr & H1 & _ & _ & H2).
  exists gr. split; [exact H1|]. split; [|exact (H2 _ _ _ (id_moves 2))].
  unfold fit_gradient in H1. cbn in H1. inversion H1. f_equal. ring.
Qed.
(** so it is not the derivative. *)
Theorem fit_gradient_refuted :
  ~ (forall eps_bg S eps structure jac N p gr, param_ok structure jac N p ->
     length eps_bg = length S -> length eps = length S -> Forall (fun row => length row = N) S ->
     fit_gradient eps_bg S eps structure jac p = Ok gr ->
     is_gradient (fun q => real (fit_objective eps_bg S eps structure q)) p gr).
Proof.
  intros H. destruct fit_case as (gr & H1 & Hg & H2).
  destruct (H [(0, 0)] [[(1, 1)]] [(3, 0)] id_structure id_jac 1%nat [2] gr (id_param 2) eq_refl eq_refl ltac:(repeat constructor) H1) as (_ & H3).
  assert (He := uniqueness_limite _ _ _ _ (H3 _ _ _ (id_moves 2)) H2). rewrite Hg in He. unfold dotr in He. cbn in He. lra.
Qed.

(** ** C80: equality and inequality constraints are evaluated in order and kept apart. *)
Theorem constraints_split :
  forall (C V : Type) (f : C -> res V) cons_eq cons_ineq eqs ineqs,
  calculate_constraints f cons_eq cons_ineq = Ok (eqs, ineqs) <-> mapM f cons_eq = Ok eqs /\ mapM f cons_ineq = Ok ineqs.
Proof. exact @constraints_ok. Qed.
Example constraints_case : calculate_constraints (fun n => if Nat.eqb n 9 then Err ValueError else Ok (n * n)%nat) [1; 2]%nat [3]%nat = Ok ([1; 4]%nat, [9]%nat).
Proof. reflexivity. Qed.

Print Assumptions fit_gradient_is_half.
Print Assumptions fit_gradient_refuted.
Print Assumptions constraints_split.
