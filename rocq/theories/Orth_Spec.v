(** Vocabulary of the statements about several modes of one cross-section. *)
From Coq Require Import Reals.
From Verif Require Import Base CField GMath_Model CplxField Maxwell_Model Wg_Model Wg_Spec.
Set Implicit Arguments.
Section Spec.
Variable K : cfield.
Local Open Scope K_scope.
(** sum over the plane of (E x H) along the axis times the area, without conjugation; each
    component of E with the component of H at the same place *)
Definition plane_pair (g : grid K) (E H : field3 K) : K :=
  fsum (dim g 0) (fun i => fsum (dim g 1) (fun j =>
    E 0%nat i j 0%nat * H 1%nat i j 0%nat * dxe g 0 i * dxh g 1 j
    - E 1%nat i j 0%nat * H 0%nat i j 0%nat * dxh g 0 i * dxe g 1 j)).
(** a field with dependence exp(-i beta z) solves Maxwell's equations in the plane *)
Definition is_mode (g : grid K) (omega beta : K) (eps mu e h : field3 K) : Prop :=
  forall i j, (i < dim g 0)%nat -> (j < dim g 1)%nat -> maxwell_mode g omega beta eps mu e h i j.
Definition mix (a b : K) (f f' : field3 K) : field3 K := fun c i j l => a * f c i j l + b * f' c i j l.
(** equal in the plane *)
Definition same_plane (g : grid K) (f f' : field3 K) : Prop := forall c i j, (c < 3)%nat -> (i < dim g 0)%nat -> (j < dim g 1)%nat -> f c i j 0%nat = f' c i j 0%nat.
Definition zero_plane (g : grid K) (f : field3 K) : Prop := forall c i j, (c < 3)%nat -> (i < dim g 0)%nat -> (j < dim g 1)%nat -> f c i j 0%nat = 0.
Definition one3 : field3 K := fun _ _ _ _ => 1.
Definition mu_given (mu : option (field3 K)) : field3 K := match mu with Some m => m | None => one3 end.
End Spec.
