(** C133: modes of photonic crystals. *)
From Coq Require Import Reals Lra Lia.
From Verif Require Import Base CField CField_Proofs Gauss GMath_Model GMath_Proofs CplxField Maxwell_Model Maxwell_Spec Maxwell_Proofs Maxwell_Proofs2 Maxwell_Proofs3 Maxwell_Props Phc_Model Phc_Spec Phc_Proofs Phc_Proofs2 Phc_Proofs3.
Local Open Scope K_scope.

(** *** what the solver returns *)
(** The mode returned for op_type = 'efield' is a field, not zero, that satisfies the wave
    equation of the FDFD simulation without sources at the returned frequency. *)
Theorem phc_efield_is_resonance (K : cfield) (g : grid K) ph eigs ksqrt sim k eps mu set_init init l :
  square_root ksqrt -> nonzero_values g eps ->
  eig_contract g eigs (efield_operator g ph (fun i => ksqrt (eps i))) ->
  mode_solver g ph eigs ksqrt sim k eps mu Efield set_init init = Ok l ->
  length l = 1%nat /\ forall w E, In (w, E) l -> e_resonance g ph eps w E.
Proof. intros Hr He Hc H. exact (@efield_result_lemma K g ph eigs ksqrt sim Hr k eps mu set_init init l Hc He H). Qed.
(** For op_type = 'hfield' all requested modes are magnetic resonances (one, if an initial
    vector is given); the electric field computed from one is a resonance too. *)
Theorem phc_hfield_is_resonance (K : cfield) (g : grid K) ph eigs ksqrt sim k eps mu set_init init l :
  square_root ksqrt -> nonzero_values g eps -> eig_contract g eigs (hfield_operator g ph eps) ->
  mode_solver g ph eigs ksqrt sim k eps mu Hfield set_init init = Ok l ->
  length l = match init with Some _ => 1%nat | None => k end /\
  forall w H, In (w, H) l -> h_resonance g ph eps w H /\
    (w <> 0 -> let E := mv (vlen g) (h2e g ph w eps) H in
       e_resonance g ph eps w E /\ mv (vlen g) (e2h g ph w None None) E = H).
Proof.
  intros Hr He Hc H. destruct (@hfield_result_lemma K g ph eigs ksqrt sim Hr k eps mu set_init init l Hc H) as [Hl Hm].
  split; [exact Hl|]. intros w F Hin. split; [now apply Hm|]. intros Hw. apply h_resonance_e; auto.
Qed.
(** Conversely every resonance comes from an eigenvector of the matrix that is handed to
    the eigenvalue routine, with eigenvalue w^2. *)
Theorem phc_resonance_is_eigenvector (K : cfield) (g : grid K) ph eps s w :
  nonzero_values g eps -> (forall i, (i < vlen g)%nat -> s i * s i = eps i) ->
  (forall E, e_resonance g ph eps w E <-> exists v, eigenpair g (efield_operator g ph s) (w * w) v /\ mv (vlen g) (eps_norm s) v = E) /\
  (forall H, h_resonance g ph eps w H <-> eigenpair g (hfield_operator g ph eps) (w * w) H) /\
  (w <> 0 -> (exists E, e_resonance g ph eps w E) <-> exists H, h_resonance g ph eps w H).
Proof.
  intros He Hs. split; [|split].
  - intros E. split.
    + intros HE. destruct (@resonance_efield_eigen K g ph s eps w E Hs He HE) as [A B]. eauto.
    + intros (v & Hv & <-). exact (@efield_eigen_resonance K g ph s eps w v Hs He Hv).
  - intros H. symmetry. apply hfield_eigen_iff.
  - intros Hw. split.
    + intros (E & HE). destruct (@e_resonance_h K g ph eps w E Hw He HE). eauto.
    + intros (H & HH). destruct (@h_resonance_e K g ph eps w H Hw He HH). eauto.
Qed.
(** several modes cannot be requested for op_type = 'efield' *)
Theorem phc_efield_many_raises (K : cfield) (g : grid K) ph eigs ksqrt sim k eps mu set_init :
  eig_contract g eigs (efield_operator g ph (fun i => ksqrt (eps i))) -> k <> 1%nat ->
  is_ok (mode_solver g ph eigs ksqrt sim k eps mu Efield set_init None) = false.
Proof. intros. now apply efield_many_lemma. Qed.
(** unknown kinds of operator are refused before anything is computed *)
Theorem phc_unknown_kind (K : cfield) (g : grid K) ph eigs ksqrt sim k eps mu set_init init :
  mode_solver g ph eigs ksqrt sim k eps mu OtherKind set_init init = Err ValueError.
Proof. reflexivity. Qed.

(** *** frequencies and products of modes, over the complex numbers *)
(** With positive cells and permittivity and a real Bloch vector every returned frequency is
    a real number, at least zero. *)
Theorem phc_frequencies_real (g : grid CC) ph eigs ksqrt sim k eps mu kind set_init init l :
  positive_cells g -> (forall i, (i < vlen g)%nat -> positive (eps i)) -> real_bloch ph -> principal_root ksqrt ->
  eig_contract g eigs (efield_operator g ph (fun i => ksqrt (eps i))) -> eig_contract g eigs (hfield_operator g ph eps) ->
  mode_solver g ph eigs ksqrt sim k eps mu kind set_init init = Ok l ->
  forall w F, In (w, F) l -> (snd w = 0 /\ 0 <= fst w)%R.
Proof.
  intros Hg He Hp Hr Hc1 Hc2 H w F Hin. destruct (frequency_root _ _ _ _ _ _ _ _ _ _ _ _ _ H Hin) as (x & Ex).
  assert (Hs : square_root (K:=CC) ksqrt) by (intros z; apply Hr).
  assert (Hne : nonzero_values g eps) by (intros i Hi; apply pos_neq0, He, Hi).
  assert (Hw : nonneg (kmul w w)).
  { destruct kind; [| |discriminate].
    - destruct (phc_efield_is_resonance _ _ _ _ _ _ _ _ _ _ _ _ Hs Hne Hc1 H) as [_ HE]. apply (e_resonance_real Hg Hp He (HE _ _ Hin)).
    - destruct (phc_hfield_is_resonance _ _ _ _ _ _ _ _ _ _ _ _ Hs Hne Hc2 H) as [_ HE]. apply (h_resonance_real Hg Hp He (proj1 (HE _ _ Hin))). }
  subst w. exact (root_real x Hr Hw).
Qed.
(** the same for any resonance, whichever way it was found: w^2 is real, at least zero *)
Theorem phc_resonances_real (g : grid CC) ph eps w :
  positive_cells g -> (forall i, (i < vlen g)%nat -> positive (eps i)) -> real_bloch ph ->
  ((exists E, e_resonance g ph eps w E) \/ (exists H, h_resonance g ph eps w H)) ->
  (snd (w * w)%K = 0 /\ 0 <= fst (w * w)%K)%R.
Proof.
  intros Hg He Hp [(E & HE)|(H & HH)]; [exact (e_resonance_real Hg Hp He HE)|exact (h_resonance_real Hg Hp He HH)].
Qed.
(** Modes of different frequency are orthogonal, the electric ones weighted with
    permittivity and cell volume, the magnetic ones with cell volume. *)
Theorem phc_modes_orthogonal (g : grid CC) ph eps w1 w2 :
  positive_cells g -> (forall i, (i < vlen g)%nat -> positive (eps i)) -> real_bloch ph -> w1 * w1 <> w2 * w2 ->
  (forall E1 E2, e_resonance g ph eps w1 E1 -> e_resonance g ph eps w2 E2 -> e_product g eps E1 E2 = 0) /\
  (forall H1 H2, h_resonance g ph eps w1 H1 -> h_resonance g ph eps w2 H2 -> h_product g H1 H2 = 0).
Proof.
  intros Hg He Hp Hw. assert (Hre : real_values g eps) by (intros i Hi; apply pos_real, He, Hi).
  assert (Hne : nonzero_values g eps) by (intros i Hi; apply pos_neq0, He, Hi).
  assert (Hn : forall z : CC, nonneg z -> kconj z = z).
  { intros [a b] [A B]. simpl in *. subst. unfold cconj. simpl. f_equal. ring. }
  split.
  - intros E1 E2 R1 R2. apply (e_orthogonal_lemma (pos_nonzero_cells Hg) (pos_real_cells Hg) Hp Hre R1 R2).
    rewrite (Hn _ (e_resonance_real Hg Hp He R1)). auto.
  - intros H1 H2 R1 R2. apply (h_orthogonal_lemma (pos_nonzero_cells Hg) (pos_real_cells Hg) Hp Hre Hne R1 R2).
    rewrite (Hn _ (h_resonance_real Hg Hp He R1)). auto.
Qed.
(** How a frequency moves with the permittivity: an exact relation between a mode of eps1
    and a mode of eps2. *)
Theorem phc_frequency_shift (g : grid CC) ph eps1 eps2 w1 w2 E1 E2 :
  positive_cells g -> (forall i, (i < vlen g)%nat -> positive (eps1 i)) -> real_bloch ph ->
  e_resonance g ph eps1 w1 E1 -> e_resonance g ph eps2 w2 E2 ->
  (w2 * w2 - w1 * w1) * e_product g eps1 E1 E2 = - (w2 * w2) * e_product g (fun i => eps2 i - eps1 i) E1 E2.
Proof.
  intros Hg He Hp R1 R2. assert (Hre : real_values g eps1) by (intros i Hi; apply pos_real, He, Hi).
  apply (shift_lemma (pos_nonzero_cells Hg) (pos_real_cells Hg) Hp Hre); auto.
  destruct (e_resonance_real Hg Hp He R1) as [A B]. destruct (kmul w1 w1) as [a b]. simpl in *. subst. unfold cconj. simpl. f_equal. ring.
Qed.

(** *** the normalization with sqrt(eps) makes the matrix Hermitian on uniform cells *)
Theorem phc_operator_hermitian (K : cfield) (g : grid K) ph s :
  nonzero_cells g -> real_cells g -> real_bloch ph -> uniform_cells g -> real_values g s -> nonzero_values g s ->
  hermitian (vlen g) (efield_operator g ph s).
Proof. intros Hn Hr Hp Hu Hs Hs0. exact (efield_hermitian_lemma Hn Hr Hp Hu Hs Hs0). Qed.
(** on other cells it does not *)
Theorem phc_operator_hermitian_refuted : exists (g : grid G) ph s,
  nonzero_cells g /\ real_cells g /\ real_bloch ph /\ real_values g s /\ nonzero_values g s /\
  ~ hermitian (vlen g) (efield_operator g ph s).
Proof.
  exists ex_grid, ex_phases, (fun _ => gz 1 0). repeat split.
  - apply geqb_false. destruct a as [|[|[|a]]]; [| | |lia]; destruct i as [|[|i]]; vm_compute; reflexivity.
  - apply geqb_false. destruct a as [|[|[|a]]]; [| | |lia]; destruct i as [|[|i]]; vm_compute; reflexivity.
  - intros i _. apply geqb_false. vm_compute. reflexivity.
  - intros H. specialize (H 0%nat 4%nat ltac:(vm_compute; lia) ltac:(vm_compute; lia)). revert H. apply geqb_false. vm_compute. reflexivity.
Qed.

(** *** example: one cubic cell with eps = 3, Bloch factor -1 in each direction; the field
    (1, -1, 0) has frequency 2 *)
Definition ex_cubic : grid CC := @Grid CC (fun _ => 1%nat) (fun _ _ => c1) (fun _ _ => c1).
Definition ex_minus : phases CC := @Phases CC (fun _ => copp c1) (fun _ => copp c1) (fun _ => copp c1) (fun _ => copp c1).
Definition ex_three (i : nat) : CC := (3, 0)%R.
Definition ex_mode : list CC := [c1; copp c1; c0].
Lemma ex_mode_resonance : e_resonance ex_cubic ex_minus ex_three (2, 0)%R ex_mode.
Proof.
  repeat split.
  - intros E. injection E as E _. lra.
  - apply e_res_iff. intros i Hi. destruct i as [|[|[|i]]]; [| | |exfalso; vm_compute in Hi; lia];
      cbv -[Rplus Rmult Ropp Rinv IZR]; apply f_equal2; field; lra.
Qed.
Definition ex_eigs (A : mat CC) (k : nat) (v0 : option (list CC)) : res (list (CC * list CC)) :=
  if Nat.eqb k 1 then Ok [(cmul (2, 0)%R (2, 0)%R, @mv CC 3 (@mdiag CC (fun i => croot (ex_three i))) ex_mode)] else Err TypeError.
Example phc_ex : let g := ex_cubic in
  positive_cells g /\ (forall i, positive (ex_three i)) /\ real_bloch ex_minus /\ principal_root croot /\
  eig_contract g ex_eigs (@efield_operator CC g ex_minus (fun i => croot (ex_three i))) /\
  exists (w : CC) E, @mode_solver CC g ex_minus ex_eigs croot (Err ValueError) 1 ex_three (fun _ => c1) Efield false None = Ok [(w, E)] /\ w = (2, 0)%R.
Proof.
  assert (Hr := croot_principal).
  split; [|split; [|split; [|split; [|split]]]].
  - intros a i _ _. repeat split; simpl; lra.
  - intros i. split; simpl; lra.
  - intros a _. simpl. unfold cconj, copp, c1. simpl. f_equal; ring.
  - exact Hr.
  - intros k v0 l H. unfold ex_eigs in H. destruct (Nat.eqb_spec k 1) as [->|]; [|discriminate]. injection H as <-. split; [reflexivity|].
    intros x v [E|[]]. injection E as <- <-.
    apply (@resonance_efield_eigen CC ex_cubic ex_minus (fun i => croot (ex_three i)) ex_three (2, 0)%R ex_mode).
    + intros i _. apply Hr.
    + intros i _ E. injection E as E. lra.
    + exact ex_mode_resonance.
  - eexists _, _. split; [reflexivity|]. cbn [fst].
    assert (E : cmul (2, 0)%R (2, 0)%R = (4, 0)%R) by (unfold cmul; simpl; f_equal; ring). rewrite E.
    unfold croot, cabs. cbn [fst snd]. replace (4 * 4 + 0 * 0)%R with (4 * 4)%R by ring. rewrite sqrt_square by lra.
    destruct (Rle_dec 0 0) as [_|n]; [|elim n; lra].
    replace ((4 + 4) / 2)%R with (2 * 2)%R by field. rewrite sqrt_square by lra.
    replace ((4 - 4) / 2)%R with 0%R by field. now rewrite sqrt_0.
Qed.
(** a static field of the same cell, and the same field with eps = 12 at frequency 1 *)
Example phc_orthogonal_ex : e_resonance ex_cubic ex_minus ex_three (0, 0)%R [c1; c1; c1] /\
  e_resonance ex_cubic ex_minus (fun _ => (12, 0)%R) (1, 0)%R ex_mode /\
  @e_product CC ex_cubic ex_three ex_mode ex_mode = (6, 0)%R.
Proof.
  repeat split.
  - intros E. injection E as E _. lra.
  - apply e_res_iff. intros i Hi. destruct i as [|[|[|i]]]; [| | |exfalso; vm_compute in Hi; lia];
      cbv -[Rplus Rmult Ropp Rinv IZR]; apply f_equal2; field; lra.
  - intros E. injection E as E _. lra.
  - apply e_res_iff. intros i Hi. destruct i as [|[|[|i]]]; [| | |exfalso; vm_compute in Hi; lia];
      cbv -[Rplus Rmult Ropp Rinv IZR]; apply f_equal2; field; lra.
  - cbv -[Rplus Rmult Ropp Rinv IZR]. f_equal; ring.
Qed.
Print Assumptions phc_efield_is_resonance. Print Assumptions phc_hfield_is_resonance. Print Assumptions phc_resonance_is_eigenvector.
Print Assumptions phc_efield_many_raises. Print Assumptions phc_unknown_kind. Print Assumptions phc_frequencies_real.
Print Assumptions phc_resonances_real. Print Assumptions phc_modes_orthogonal. Print Assumptions phc_frequency_shift.
Print Assumptions phc_operator_hermitian. Print Assumptions phc_operator_hermitian_refuted.
