(** The complex numbers, pairs of real numbers, as a field with conjugation. *)
From Coq Require Import Reals Lra Ring Field_theory.
From Verif Require Import Base CField GMath_Model GMath_Proofs.
Set Implicit Arguments.
Local Open Scope R_scope.

Definition cdiv (x y : C) : C := cmul x (cinv y).
Definition imag_unit : C := (0, 1).
Lemma C_field : field_theory c0 c1 cadd cmul csub copp cdiv cinv eq.
Proof.
  constructor.
  - constructor; intros; cring.
  - exact c1_nz.
  - reflexivity.
  - intros x Hx. rewrite <- (cinv_r Hx). cring.
Qed.
Definition CC : cfield.
Proof.
  refine (@CField C c0 c1 cadd cmul csub copp cdiv cinv cconj imag_unit C_field _ _ _ _ _); intros; unfold imag_unit; cring.
Defined.
