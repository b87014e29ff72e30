(** Statements about the overlap of a field with a waveguide mode (fdfd_solvers/waveguide_mode.py). *)
From Coq Require Import Reals ZArith Lra.
From Verif Require Import Base CField GMath_Model CplxField Maxwell_Model Wg_Model Wg_Model2 Wg_Spec Wg_Proofs8 Wg_Proofs7 Wg_Proofs10 Wg_Proofs11 Wg_Proofs6 Fs_Model
  Ov_Model Ov_Spec Ov_Proofs2 Ov_Proofs3 Ov_Proofs4 Ov_Proofs5 Ov_Proofs6.
Set Implicit Arguments.
Local Open Scope R_scope.

(** ** C105 *)
(** What the overlap computes of any field F: the flux pairing of F with the mode, divided by the
    size of the mode's pairing with itself.  Where that is zero the code divides by zero. *)
Theorem overlap_is_flux_pairing (g : grid CC) axis back st len (omega k : CC) mu E H : (axis < 3)%nat -> omega <> (k0 : CC) -> nz_mu g mu ->
  let s := st axis in let Em := carried axis back s k (dxe g axis) E in let Hm := carried axis back s k (dxh g axis) H in
  let p := pairing g axis st len omega mu Em Hm in
  match compute_overlap_e g axis back st len omega k mu E H with
  | Ok C => p Em <> (k0 : CC) /\ forall F, grid_dot g C F = (p F / rl (cabs (p Em)))%K
  | Err e => e = ZeroDivisionError /\ p Em = (k0 : CC)
  end.
Proof. exact (@compute_overlap_lemma g axis back st len omega k mu E H). Qed.
(** The overlap that a simulation is given, for the mode that the solver finds: the same up to a
    phase, times the root of the power. *)
Theorem built_overlap_is_flux_pairing (g : grid CC) axis back st len (omega : CC) eps mu power v beta : (axis < 3)%nat -> omega <> (k0 : CC) -> nz_mu g mu ->
  (0 < dim g 0)%nat -> (0 < dim g 1)%nat -> (0 < dim g 2)%nat ->
  match mode_fields g axis back st len omega eps (mu_or_1 mu) v beta with
  | Err e => build_overlap g axis back st len omega eps mu power v beta = Err e
  | Ok (E, H) =>
      let k := corrected_solvers beta in let s := st axis in
      let Em := carried axis back s k (dxe g axis) E in let Hm := carried axis back s k (dxh g axis) H in
      let p := pairing g axis st len omega mu Em Hm in
      (p Em = (k0 : CC) -> build_overlap g axis back st len omega eps mu power v beta = Err ZeroDivisionError) /\
      (p Em <> (k0 : CC) -> exists C (t : CC), build_overlap g axis back st len omega eps mu power v beta = Ok C /\ cabs t = 1 /\
         forall F, grid_dot g C F = (t * rl (sqrt power) * (p F / rl (cabs (p Em))))%K)
  end.
Proof. exact (@build_overlap_lemma g axis back st len omega eps mu power v beta). Qed.
(** a plane wave on a line of five cells, overlap in plane 1 *)
Example overlap_ex : exists C, compute_overlap_e (line 5) 2 false (whole_start 2 1) (whole_len (line 5) 2) (k1 : CC) (rl (PI / 3)) (Some ones)
    (fst (line_mode (k1 : CC) (PI / 3))) (snd (line_mode (k1 : CC) (PI / 3))) = Ok C /\
  nz_mu (line 5) (Some ones).
Proof. destruct back_lemma as (C & HC & _). exists C. split; [exact HC|]. intros c x y z _ _. exact N1. Qed.
Example built_overlap_ex power : exists E H C, mode_fields (line 5) 2 false (whole_start 2 1) (whole_len (line 5) 2) (k1 : CC) ones ones wave_v (k1 : CC) = Ok (E, H) /\
  build_overlap (line 5) 2 false (whole_start 2 1) (whole_len (line 5) 2) (k1 : CC) ones (Some ones) power wave_v (k1 : CC) = Ok C /\ E 0%nat 0%nat 0%nat 1%nat <> (k0 : CC).
Proof. exact (built_ok power). Qed.

(** ** C106 *)
(** A field that near the plane is a times the mode, carried along the axis, has an overlap of size
    |a| times the root of the power. *)
Theorem overlap_measures_mode (g : grid CC) axis back st len (omega : CC) eps mu power v beta E H C F (a : CC) : (axis < 3)%nat -> omega <> (k0 : CC) -> nz_mu g mu ->
  len axis = 1%nat -> (st axis < dim g axis)%nat -> (0 < dim g 0)%nat -> (0 < dim g 1)%nat -> (0 < dim g 2)%nat ->
  mode_fields g axis back st len omega eps (mu_or_1 mu) v beta = Ok (E, H) -> build_overlap g axis back st len omega eps mu power v beta = Ok C ->
  agree_near g axis (st axis) F (fun c x y z => a * carried axis back (st axis) (corrected_solvers beta) (dxe g axis) E c x y z)%K ->
  cabs (grid_dot g C F) = cabs a * sqrt power.
Proof. exact (@build_mode_lemma g axis back st len omega eps mu power v beta E H C F a). Qed.
(** The hypotheses are met by [built_overlap_ex] with F the multiple itself. *)
Example overlap_measures_mode_ex : exists E H C, mode_fields (line 5) 2 false (whole_start 2 1) (whole_len (line 5) 2) (k1 : CC) ones (mu_or_1 (Some ones)) wave_v (k1 : CC) = Ok (E, H) /\
  build_overlap (line 5) 2 false (whole_start 2 1) (whole_len (line 5) 2) (k1 : CC) ones (Some ones) 4 wave_v (k1 : CC) = Ok C /\
  cabs (grid_dot (line 5) C (fun c x y z => rl 3 * carried 2 false 1 (corrected_solvers (k1 : CC)) (dxe (line 5) 2) E c x y z)%K) = 6.
Proof.
  destruct (built_ok 4) as (E & H & C & HM & HC & _). exists E, H, C. split; [exact HM|]. split; [exact HC|].
  rewrite (@overlap_measures_mode (line 5) 2 false (whole_start 2 1) (whole_len (line 5) 2) (k1 : CC) ones (Some ones) 4 wave_v (k1 : CC) E H C _ (rl 3)); auto; try (cbn; lia).
  - rewrite cabs_rl by lra. replace 4 with (2 * 2) by ring. rewrite sqrt_square; lra.
  - exact N1.
  - intros c x y z _ _. exact N1.
  - intros c x y z _ _ _ _ _. reflexivity.
Qed.
(** A waveguide source and, further along the same uniform waveguide, the overlap with the same
    mode: the wave that the source emits to one side has overlap 1.  The mode has no field along
    the waveguide, its wavenumber has no dispersion error, and the plane of the overlap with the
    next two lies on the side that the source emits to. *)
Theorem source_reaches_overlap (g : grid CC) axis s s2 back (k d : R) (omega beta nf : CC) eps mu v E H E2 H2 C :
  (axis < 3)%nat -> (1 <= s < dim g axis)%nat -> (s2 + 2 < dim g axis)%nat -> (forall i, (i < 3)%nat -> lit back s (s2 + i) = true) ->
  omega <> (k0 : CC) -> beta <> (k0 : CC) -> evenly g axis (rl d) -> proper g eps mu -> invariant_along g axis eps -> invariant_along g axis mu ->
  eigenvector (plane g axis (whole_start axis s) (whole_len g axis)) omega beta (in_plane axis (whole_start axis s) eps) (in_plane axis (whole_start axis s) mu) v ->
  (back = true -> lossless g omega eps mu /\ kconj beta = beta) ->
  dispersion cexp (rl k) (rl d) beta = (k0 : CC) ->
  solve_waveguide_mode cexp g axis back (whole_start axis s) (whole_len g axis) omega eps mu v beta nf (rl k) = (E, H) ->
  solve_waveguide_mode cexp g axis back (whole_start axis s2) (whole_len g axis) omega eps mu v beta nf (rl k) = (E2, H2) ->
  (forall x y z, in_grid g x y z -> E2 axis x y z = (k0 : CC)) ->
  compute_overlap_e g axis back (whole_start axis s2) (whole_len g axis) omega (rl k) (Some mu) E2 H2 = Ok C ->
  exists F : field3 CC,
    (forall c x y z, (c < 3)%nat -> in_grid g x y z -> (1 <= pick axis x y z)%nat -> (pick axis x y z + 1 < dim g axis)%nat ->
       wave_equation g omega eps mu F c x y z = (- ki * omega * compute_source cexp g axis back s omega (rl k) mu E H c x y z)%K) /\
    (forall c x y z, lit back s (pick axis x y z) = false -> F c x y z = (k0 : CC)) /\
    cabs (grid_dot g C F) = 1.
Proof. exact (@arrives_lemma g axis s s2 back k d omega beta nf eps mu v E H E2 H2 C). Qed.
Example source_reaches_overlap_ex : exists C, evenly (line 5) 2 (rl 1) /\ proper (line 5) ones ones /\ invariant_along (line 5) 2 ones /\
  eigenvector (plane (line 5) 2 (whole_start 2 1) (whole_len (line 5) 2)) (k1 : CC) (k1 : CC) (in_plane 2 (whole_start 2 1) ones) (in_plane 2 (whole_start 2 1) ones) wave_v /\
  dispersion cexp (rl (PI / 3)) (rl 1) (k1 : CC) = (k0 : CC) /\
  (forall x y z, in_grid (line 5) x y z -> fst (line_mode (k1 : CC) (PI / 3)) 2%nat x y z = (k0 : CC)) /\
  compute_overlap_e (line 5) 2 false (whole_start 2 1) (whole_len (line 5) 2) (k1 : CC) (rl (PI / 3)) (Some ones) (fst (line_mode (k1 : CC) (PI / 3))) (snd (line_mode (k1 : CC) (PI / 3))) = Ok C.
Proof. exact line_arrives_hyps. Qed.

(** ** C107 *)
(** The overlap with a mode in plane s is a matter of the planes s, s + 1 and s + 2 (modulo the
    period): fields that agree there have the same overlap, and the vector is zero elsewhere. *)
Theorem overlap_is_local (g : grid CC) axis back st len (omega k : CC) mu E H C : (axis < 3)%nat -> omega <> (k0 : CC) -> nz_mu g mu -> len axis = 1%nat -> (st axis < dim g axis)%nat ->
  compute_overlap_e g axis back st len omega k mu E H = Ok C ->
  (forall F F', agree_near g axis (st axis) F F' -> grid_dot g C F = grid_dot g C F') /\
  (forall c x y z, (c < 3)%nat -> in_grid g x y z -> (forall i, (i < 3)%nat -> pick axis x y z <> Nat.modulo (st axis + i) (dim g axis)) -> C c x y z = (k0 : CC)).
Proof.
  intros Hx Ho Hm Hl Hs HC. split.
  - intros F F' HF. now apply (@overlap_local_lemma g axis back st len omega k mu E H C F F').
  - intros c x y z Hc Hg Hp. now apply (@overlap_support_lemma g axis back st len omega k mu E H C c x y z).
Qed.
(** hypotheses: [overlap_ex]; plane 0 of the line is outside the three planes *)
Example overlap_is_local_ex : (forall i, (i < 3)%nat -> 0%nat <> Nat.modulo (1 + i) 5) /\ in_grid (line 5) 0 0 0.
Proof. split; [intros i Hi; destruct i as [|[|[|]]]; [discriminate|discriminate|discriminate|lia]|unfold in_grid; cbn; lia]. Qed.

(** ** C108 *)
(** The overlap does not depend on the scale and the phase of the eigenvector. *)
Theorem overlap_ignores_eigenvector_phase (g : grid CC) axis back st len omega eps mu power v beta (a : CC) : a <> (k0 : CC) ->
  match build_overlap g axis back st len omega eps mu power v beta, build_overlap g axis back st len omega eps mu power (scaled a v) beta with
  | Ok C, Ok C' => forall c x y z, C' c x y z = C c x y z
  | Err e, Err e' => e' = e
  | _, _ => False
  end.
Proof. exact (@overlap_scaled_lemma g axis back st len omega eps mu power v beta a). Qed.

(** ** C109 *)
(** The documentation gives the overlap as the orthogonality relation of modes, which would make
    the overlap with the same mode travelling the other way zero.  It is not: on a line of cells
    with six cells per wavelength the wave that travels backward, a solution of the wave equation,
    has an overlap of 1 / sqrt 7 with the forward mode (whose own overlap is 1). *)
Theorem backward_wave_rejected_refuted : exists (g : grid CC) s (k : R) v C (F : field3 CC),
  let st := whole_start 2 s in let len := whole_len g 2 in
  let M := solve_waveguide_mode cexp g 2 false st len (k1 : CC) ones ones v (k1 : CC) (k1 : CC) (rl k) in
  eigenvector (plane g 2 st len) (k1 : CC) (k1 : CC) (in_plane 2 st ones) (in_plane 2 st ones) v /\ evenly g 2 (k1 : CC) /\
  dispersion cexp (rl k) (k1 : CC) (k1 : CC) = (k0 : CC) /\
  compute_overlap_e g 2 false st len (k1 : CC) (rl k) (Some ones) (fst M) (snd M) = Ok C /\
  cabs (grid_dot g C (carried 2 false s (rl k) (dxe g 2) (fst M))) = 1 /\
  (forall c x y z, (c < 3)%nat -> in_grid g x y z -> (1 <= z)%nat -> (z + 1 < dim g 2)%nat ->
     wave_equation g (k1 : CC) ones ones F c x y z = (k0 : CC) /\ roll_forward g (F c) 2 x y z = (cexp (ki * rl k) * F c x y z)%K) /\
  cabs (grid_dot g C F) = 1 / sqrt 7.
Proof.
  destruct line_arrives_hyps as (C & Hev & _ & _ & Heig & Hd & _ & HC). destruct back_lemma as (C' & HC' & Hm & Hb).
  assert (C' = C) as -> by congruence.
  exists (line 5), 1%nat, (PI / 3), wave_v, C, back_wave. cbv zeta. split; [exact Heig|]. split; [exact Hev|]. split; [exact Hd|]. split; [exact HC|]. split; [exact Hm|]. split; [|exact Hb].
  intros c x y z Hc Hg H1 H2. split; [apply back_solves; auto|]. exact (@back_step c x y z H2).
Qed.
Print Assumptions overlap_is_flux_pairing.
Print Assumptions built_overlap_is_flux_pairing.
Print Assumptions overlap_measures_mode.
Print Assumptions source_reaches_overlap.
Print Assumptions overlap_is_local.
Print Assumptions overlap_ignores_eigenvector_phase.
Print Assumptions backward_wave_rejected_refuted.
