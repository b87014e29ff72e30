(** Several modes of one cross-section, and the error measures of modes (C150, C151).
    Vocabulary: Wg_Spec.v, Orth_Spec.v. *)
From Coq Require Import Reals Lra Lia QArith Qcanon.
From Verif Require Import Base CField CField_Proofs GMath_Model GMath_Proofs CplxField Gauss Maxwell_Model Wg_Model Wg_Model2 Wg_Spec Wg_Proofs6 Wg_Proofs7 Wg_Proofs8 Wg_Proofs9 Wg_Proofs10 Wg_Proofs11.
From Verif Require Import Orth_Model Orth_Spec Orth_Proofs Orth_Proofs2 Orth_Proofs3 Orth_Proofs4.

(** ** C150 *)
(** Two modes with different propagation constants are orthogonal, for every cross-section, with
    or without losses. *)
Theorem modes_orthogonal (K : cfield) (g : grid K) omega b1 b2 eps mu v1 v2 :
  (k1 + k1)%K <> (k0 : K) -> omega <> k0 -> b1 <> k0 -> b2 <> k0 -> (1 <= dim g 2)%nat -> proper g eps mu ->
  eigenvector g omega b1 eps mu v1 -> eigenvector g omega b2 eps mu v2 -> (b1 * b1)%K <> (b2 * b2)%K ->
  plane_pair g (v2e g omega eps mu b1 v1) (v2h g mu b2 v2) = k0.
Proof.
  intros H2 Ho H1 H1' Hz Hp V1 V2 Hb.
  exact (@orthogonal K g (d0 Hp) (d1 Hp) omega eps mu H2 b1 b2 _ _ _ _ (mode_lemma Ho H1 Hz Hp V1) (mode_lemma Ho H1' Hz Hp V2) Hb).
Qed.
(** Without losses no power is exchanged between them, so that the power of a superposition is
    the sum of the powers. *)
Theorem powers_add (K : cfield) (g : grid K) omega b1 b2 eps mu v1 v2 a1 a2 :
  (k1 + k1)%K <> (k0 : K) -> omega <> k0 -> b1 <> k0 -> b2 <> k0 -> (1 <= dim g 2)%nat -> proper g eps mu -> lossless g omega eps mu ->
  eigenvector g omega b1 eps mu v1 -> eigenvector g omega b2 eps mu v2 -> (b1 * b1)%K <> (kconj b2 * kconj b2)%K ->
  let e1 := v2e g omega eps mu b1 v1 in let h1 := v2h g mu b1 v1 in let e2 := v2e g omega eps mu b2 v2 in let h2 := v2h g mu b2 v2 in
  plane_flux g e1 h2 = k0 /\
  plane_flux g (mix a1 a2 e1 e2) (mix a1 a2 h1 h2) = (a1 * kconj a1 * plane_flux g e1 h1 + a2 * kconj a2 * plane_flux g e2 h2)%K.
Proof.
  intros H2 Ho H1 H1' Hz Hp Hl V1 V2 Hb. cbv zeta.
  pose proof (mode_lemma Ho H1 Hz Hp V1) as M1. pose proof (mode_lemma Ho H1' Hz Hp V2) as M2. split.
  - exact (flux_orthogonal Hz Hp Hl H2 M1 M2 Hb).
  - exact (power_adds Hz Hp Hl H2 a1 a2 M1 M2 Hb).
Qed.
(** Two cells of different materials; the modes with beta = 8 and beta = 3 at omega = 2. *)
Definition two_cells : grid G := Grid (fun k => match k with 1 => 2 | _ => 1 end)%nat (fun _ _ => gz 1 0) (fun _ _ => gz 1 0).
Definition two_eps : field3 G := fun c _ j _ => match c, j with 1%nat, 0%nat => gz 4 0 | 1%nat, _ => gz 6 0 | 2%nat, 1%nat => gz 2 0 | _, _ => gz 1 0 end.
Definition two_mu : field3 G := fun c _ j _ => match c, j with 0%nat, 1%nat => gz 3 0 | _, _ => gz 1 0 end.
Definition two_v (a b : Z) : array G * array G := (fun _ j _ => match j with O => gz a 0 | _ => gz b 0 end, fun _ _ _ => gz 0 0).
Example powers_add_ex : (1 <= dim two_cells 2)%nat /\ proper two_cells two_eps two_mu /\ lossless two_cells (gz 2 0) two_eps two_mu /\
  eigenvector two_cells (gz 2 0) (gz 8 0) two_eps two_mu (two_v 1 9) /\ eigenvector two_cells (gz 2 0) (gz 3 0) two_eps two_mu (two_v 6 (-1)) /\
  ((gz 8 0 : G) * gz 8 0)%K <> ((gz 3 0 : G) * gz 3 0)%K /\ (k1 + k1)%K <> (k0 : G) /\
  plane_pair two_cells (v2e two_cells (gz 2 0) two_eps two_mu (gz 8 0) (two_v 1 9)) (v2h two_cells two_mu (gz 8 0) (two_v 1 9)) = gz 55 0 /\
  plane_flux two_cells (v2e two_cells (gz 2 0) two_eps two_mu (gz 3 0) (two_v 6 (-1))) (v2h two_cells two_mu (gz 3 0) (two_v 6 (-1))) <> k0.
Proof.
  assert (IG : forall x y z, in_grid two_cells x y z -> (y = 0 \/ y = 1)%nat) by (intros x y z (_ & H & _); cbn in H; lia).
  split; [cbn; lia|]. split; [|split; [|split; [|split; [|split; [|split; [|split]]]]]].
  - split; [intros; split; apply geqb_false; reflexivity|]. intros c x y z Hc Hg. destruct (IG _ _ _ Hg) as [-> | ->]; destruct c as [|[|[|]]]; try lia; split; apply geqb_false; reflexivity.
  - split; [apply geqb_true; reflexivity|]. split; [|intros; split; apply geqb_true; reflexivity].
    intros c x y z Hc Hg. destruct (IG _ _ _ Hg) as [-> | ->]; destruct c as [|[|[|]]]; try lia; split; apply geqb_true; reflexivity.
  - intros i j Hi Hj. cbn in Hi, Hj. assert (i = 0%nat) by lia; subst i. assert (j = 0 \/ j = 1)%nat as [-> | ->] by lia; split; apply geqb_true; vm_compute; reflexivity.
  - intros i j Hi Hj. cbn in Hi, Hj. assert (i = 0%nat) by lia; subst i. assert (j = 0 \/ j = 1)%nat as [-> | ->] by lia; split; apply geqb_true; vm_compute; reflexivity.
  - apply geqb_false. vm_compute. reflexivity.
  - apply geqb_false. vm_compute. reflexivity.
  - apply geqb_true. vm_compute. reflexivity.
  - apply geqb_false. vm_compute. reflexivity.
Qed.
(** ** C151 *)
Local Open Scope R_scope.
(** The fields made from an eigenvector have relative error zero, and the conversions take each
    of them to the other; the permeability may be left out. *)
Theorem mode_errors_vanish (g : grid CC) omega beta eps mu v : omega <> (k0 : CC) -> beta <> (k0 : CC) -> (1 <= dim g 2)%nat -> proper g eps (mu_given mu) ->
  eigenvector g omega beta eps (mu_given mu) v -> (exists i j, (i < dim g 0)%nat /\ (j < dim g 1)%nat /\ (fst v i j 0%nat <> (k0 : CC) \/ snd v i j 0%nat <> (k0 : CC))) ->
  let e := v2e g omega eps (mu_given mu) beta v in let h := v2h g (mu_given mu) beta v in
  e_err g e beta omega eps mu = Ok 0 /\ h_err g h beta omega eps mu = Ok 0 /\ same_plane g (wg_e2h g beta omega mu e) h /\ same_plane g (wg_h2e g beta omega eps h) e.
Proof. exact (@mode_errs_lemma g omega beta eps mu v). Qed.
(** Only such fields have relative error zero. *)
Theorem h_error_zero (g : grid CC) omega beta eps mu h : omega <> (k0 : CC) -> beta <> (k0 : CC) -> (1 <= dim g 2)%nat -> proper g eps (mu_given mu) ->
  (h_err g h beta omega eps mu = Ok 0 <->
   ~ zero_plane g h /\ eigenvector g omega beta eps (mu_given mu) (h 0%nat, h 1%nat) /\ same_plane g h (v2h g (mu_given mu) beta (h 0%nat, h 1%nat))).
Proof. exact (@h_err_zero_lemma g omega beta eps mu h). Qed.
Theorem e_error_zero (g : grid CC) omega beta eps mu e : omega <> (k0 : CC) -> beta <> (k0 : CC) -> (1 <= dim g 2)%nat -> proper g eps (mu_given mu) ->
  (e_err g e beta omega eps mu = Ok 0 <->
   ~ zero_plane g e /\ exists v, eigenvector g omega beta eps (mu_given mu) v /\ same_plane g e (v2e g omega eps (mu_given mu) beta v)).
Proof. exact (@e_err_zero_lemma g omega beta eps mu e). Qed.
(** They are numbers unless the field is zero, and do not depend on its scale and phase. *)
Theorem errors_are_relative (g : grid CC) omega beta eps mu f :
  (zero_plane g f -> h_err g f beta omega eps mu = Err ZeroDivisionError /\ e_err g f beta omega eps mu = Err ZeroDivisionError) /\
  (~ zero_plane g f -> exists x y, h_err g f beta omega eps mu = Ok x /\ e_err g f beta omega eps mu = Ok y /\ 0 <= x /\ 0 <= y) /\
  (forall a : CC, a <> (k0 : CC) -> h_err g (scale3 a f) beta omega eps mu = h_err g f beta omega eps mu /\ e_err g (scale3 a f) beta omega eps mu = e_err g f beta omega eps mu).
Proof.
  destruct (err_domain_lemma g omega beta eps mu f) as [A B]. split; [exact A|]. split; [exact B|]. intros a. apply err_scale_lemma.
Qed.
(** A mode without a given permeability. *)
Example mode_errors_ex : (rl (5 / 3) : CC) <> k0 /\ (rl (4 / 3) : CC) <> k0 /\ (1 <= dim (strip 6) 2)%nat /\ proper (strip 6) ones (mu_given None) /\
  eigenvector (strip 6) (rl (5 / 3)) (rl (4 / 3)) ones (mu_given None) (along_y wave6) /\
  fst (along_y wave6) 0%nat 0%nat 0%nat <> (k0 : CC).
Proof.
  split; [apply rl_neq0; Lra.lra|]. split; [apply rl_neq0; Lra.lra|]. split; [cbn; lia|]. split; [|split].
  - split; intros; split; exact c1_nz.
  - intros i j Hi Hj. apply wave6_mode; assumption.
  - apply rl_neq0. cbn. Lra.lra.
Qed.
(** With another wavenumber the error of the same field is not zero. *)
Example wrong_wavenumber_ex : exists x, h_err (strip 6) (v2h (strip 6) ones (rl 1) (along_y wave6)) (rl 1) (rl (5 / 3)) ones None = Ok x /\ x <> 0.
Proof.
  destruct (errors_are_relative (strip 6) (rl (5 / 3)) (rl 1) ones None (v2h (strip 6) ones (rl 1) (along_y wave6))) as (_ & B & _).
  destruct B as (x & _ & E & _).
  - intros Z. specialize (Z 0%nat 0%nat 0%nat ltac:(lia) ltac:(cbn; lia) ltac:(cbn; lia)). revert Z. apply rl_neq0. cbn. Lra.lra.
  - exists x. split; [exact E|]. intros ->. 
    assert (N1 : (rl (5 / 3) : CC) <> k0) by (apply rl_neq0; Lra.lra). assert (N2 : (rl 1 : CC) <> k0) by (apply rl_neq0; Lra.lra).
    assert (P : proper (strip 6) ones (mu_given None)) by (split; intros; split; exact c1_nz).
    apply (proj1 (@h_error_zero (strip 6) (rl (5 / 3)) (rl 1) ones None _ N1 N2 ltac:(cbn; lia) P)) in E as (_ & V & _).
    destruct (V 0%nat 0%nat ltac:(cbn; lia) ltac:(cbn; lia)) as [V0 _].
    destruct (@wave6_mode 0%nat 0%nat ltac:(cbn; lia) ltac:(cbn; lia)) as [W0 _].
    change (fst (wg_operator (strip 6) (rl (5 / 3)) ones ones (along_y wave6)) 0%nat 0%nat 0%nat = (rl 1 * rl 1 * fst (along_y wave6) 0%nat 0%nat 0%nat)%K) in V0.
    rewrite W0 in V0. apply (f_equal fst) in V0. cbn in V0. Lra.lra.
Qed.

Print Assumptions modes_orthogonal.
Print Assumptions powers_add.
Print Assumptions mode_errors_vanish.
Print Assumptions h_error_zero.
Print Assumptions e_error_zero.
Print Assumptions errors_are_relative.
