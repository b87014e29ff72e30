(** Waveguide modes and the sources made from them (C90-C96).  Vocabulary: Wg_Spec.v. *)
From Coq Require Import Reals Lra.
From Verif Require Import Base CField CField_Proofs GMath_Model GMath_Proofs CplxField Maxwell_Model Wg_Model Wg_Model2 Wg_Spec.
From Verif Require Import Wg_Proofs6 Wg_Proofs7 Wg_Proofs8 Wg_Proofs9 Wg_Proofs10 Wg_Proofs11.
From Coq Require Import Lia.

(** ** C90 *)
(** The fields made from an eigenvector of the operator satisfy Maxwell's equations for a wave
    exp(-i beta z). *)
Theorem eigenvector_is_mode (K : cfield) (g : grid K) omega beta eps mu v :
  omega <> k0 -> beta <> k0 -> (1 <= dim g 2)%nat -> proper g eps mu -> eigenvector g omega beta eps mu v ->
  forall i j, (i < dim g 0)%nat -> (j < dim g 1)%nat ->
  maxwell_mode g omega beta eps mu (v2e g omega eps mu beta v) (v2h g mu beta v) i j.
Proof. exact (@mode_lemma K g omega beta eps mu v). Qed.
(** A mode that varies across the section. *)
Example eigenvector_is_mode_ex : proper (strip 6) ones ones /\ eigenvector (strip 6) (rl (5 / 3)) (rl (4 / 3)) ones ones (along_y wave6) /\
  (rl (5 / 3) : CC) <> k0 /\ (rl (4 / 3) : CC) <> k0.
Proof.
  split; [|split; [|split; apply rl_neq0; lra]].
  - split; intros; split; exact c1_nz.
  - intros i j Hi Hj. apply wave6_mode; assumption.
Qed.

(** ** C91 *)
(** The current that compute_source returns emits to one side only: minus the field in the lit
    cells and nothing elsewhere solves the wave equation with this current, for every field that
    solves Maxwell's equations in the lit cells. *)
Theorem source_emits_one_way (K : cfield) (cexp : K -> K) (g : grid K) axis s back omega wavenumber eps mu (Et Ht E H : field3 K) :
  (axis < 3)%nat -> (1 <= s)%nat -> omega <> k0 -> proper g eps mu -> (s < dim g axis)%nat -> dxe g axis (s - 1) = dxh g axis s ->
  (forall c x y z, (c < 3)%nat -> c <> axis -> in_grid g x y z ->
     E c x y z = if Nat.eqb (pick axis x y z) s then Et c x y z else k0) ->
  (forall c x y z, (c < 3)%nat -> c <> axis -> in_grid g x y z ->
     (cexp (ki * polarity K back * wavenumber * dxh g axis s) * H c x y z)%K = if Nat.eqb (pick axis x y z) s then roll_back g (Ht c) axis x y z else k0) ->
  (forall c x y z, (c < 3)%nat -> in_grid g x y z -> lit back s (pick axis x y z) = true -> (pick axis x y z + 1 < dim g axis)%nat ->
     fcurl_e g Et c x y z = (- ki * omega * mu c x y z * Ht c x y z)%K) ->
  (forall c x y z, (c < 3)%nat -> in_grid g x y z -> lit back s (pick axis x y z) = true -> (1 <= pick axis x y z)%nat -> (pick axis x y z + 1 < dim g axis)%nat ->
     fcurl_h g Ht c x y z = (ki * omega * eps c x y z * Et c x y z)%K) ->
  forall c x y z, (c < 3)%nat -> in_grid g x y z -> (1 <= pick axis x y z)%nat -> (pick axis x y z + 1 < dim g axis)%nat ->
  wave_equation g omega eps mu (one_sided axis back s Et) c x y z = (- ki * omega * compute_source cexp g axis back s omega wavenumber mu E H c x y z)%K.
Proof. exact (@one_sided_lemma K cexp g axis s back omega wavenumber eps mu Et Ht E H). Qed.

(** The fields exp(-ikz) on a line of cells, exp(-ik) = (7 - 24 i) / 25, omega = 6 / 5. *)
Local Open Scope R_scope.
Definition line_step : CC := (7 / 25, - (24 / 25)).
Definition line_half : CC := (4 / 5, - (3 / 5)).
Definition line_e : field3 CC := fun c _ _ z => if Nat.eqb c 0 then Nat.iter z (fun a : CC => (line_step * a)%K) (k1 : CC) else (k0 : CC).
Definition line_h : field3 CC := fun c _ _ z => if Nat.eqb c 1 then (line_half * Nat.iter z (fun a : CC => (line_step * a)%K) (k1 : CC))%K else (k0 : CC).
Example source_emits_one_way_ex : let g := line 4 in let s := 2%nat in
  let E : field3 CC := fun c x y z => if Nat.eqb z s then line_e c x y z else (k0 : CC) in
  let H : field3 CC := fun c x y z => if Nat.eqb z s then line_h c x y z else (k0 : CC) in
  proper g ones ones /\
  (forall c x y z, (c < 3)%nat -> in_grid g x y z -> (kconj line_step * H c x y z)%K = if Nat.eqb (pick 2 x y z) s then roll_back g (line_h c) 2 x y z else (k0 : CC)) /\
  (forall c x y z, (c < 3)%nat -> in_grid g x y z -> (1 <= pick 2 x y z)%nat -> (pick 2 x y z + 1 < dim g 2)%nat ->
    fcurl_e g line_e c x y z = (- ki * rl (6 / 5) * ones c x y z * line_h c x y z)%K /\ fcurl_h g line_h c x y z = (ki * rl (6 / 5) * ones c x y z * line_e c x y z)%K) /\
  E 0%nat 0%nat 0%nat 2%nat <> (k0 : CC).
Proof.
  intros g s E H. split; [split; intros; split; exact c1_nz|]. split; [|split].
  - intros c x y z Hc (Hx & Hy & Hz). cbn in Hx, Hy, Hz. assert (x = 0%nat) by lia. assert (y = 0%nat) by lia. subst.
    destruct c as [|[|[|]]]; try lia; (destruct z as [|[|[|[|]]]]; try lia; (apply c_eq; cbn; unfold cdiv, cinv, cmul, cscale, cconj; cbn; field)).
  - intros c x y z Hc (Hx & Hy & Hz) Hl Hl2. cbn in Hx, Hy, Hz, Hl, Hl2. assert (x = 0%nat) by lia. assert (y = 0%nat) by lia. subst.
    destruct c as [|[|[|]]]; try lia; (destruct z as [|[|[|[|]]]]; try lia; (split; apply c_eq; cbn; unfold cdiv, cinv, cmul, cscale, cconj; cbn; field)).
  - intros Q. apply (f_equal fst) in Q. cbn in Q. lra.
Qed.

(** ** C92 *)
(** The mode continued along the waveguide with the wavenumber k, and the current made from it: it
    emits minus the mode to one side up to a current proportional to the dispersion error of k. *)
Theorem mode_source_one_way (g : grid CC) axis s back (omega k d beta nf : CC) eps mu v E H :
  (axis < 3)%nat -> (1 <= s < dim g axis)%nat -> omega <> (k0 : CC) -> beta <> (k0 : CC) -> evenly g axis d -> proper g eps mu ->
  invariant_along g axis eps -> invariant_along g axis mu ->
  eigenvector (plane g axis (whole_start axis s) (whole_len g axis)) omega beta (in_plane axis (whole_start axis s) eps) (in_plane axis (whole_start axis s) mu) v ->
  (back = true -> lossless g omega eps mu /\ kconj beta = beta) ->
  solve_waveguide_mode cexp g axis back (whole_start axis s) (whole_len g axis) omega eps mu v beta nf k = (E, H) ->
  let step := cexp (- polarity CC back * ki * k * d)%K in let u := half_phase cexp back k d in let err := (polarity CC back * dispersion cexp k d beta)%K in
  exists Et Ht : field3 CC,
    (forall c x y z, (c < 3)%nat -> c <> axis -> in_grid g x y z ->
      E c x y z = (if Nat.eqb (pick axis x y z) s then Et c x y z else k0) /\ H c x y z = (if Nat.eqb (pick axis x y z) s then Ht c x y z else k0)) /\
    (forall c x y z, (c < 3)%nat -> in_grid g x y z -> (pick axis x y z + 1 < dim g axis)%nat ->
      roll_forward g (Et c) axis x y z = (step * Et c x y z)%K /\
      roll_forward g (Ht c) axis x y z = (step * Ht c x y z)%K /\
      fcurl_e g Et c x y z = (- ki * omega * mu c x y z * Ht c x y z + err * u * axial axis Et c x y z)%K) /\
    (forall c x y z, (c < 3)%nat -> in_grid g x y z -> (1 <= pick axis x y z)%nat ->
      fcurl_h g Ht c x y z = (ki * omega * eps c x y z * Et c x y z + err * (axial axis Ht c x y z / u))%K) /\
    (forall c x y z, (c < 3)%nat -> in_grid g x y z -> (1 <= pick axis x y z)%nat -> (pick axis x y z + 1 < dim g axis)%nat ->
      wave_equation g omega eps mu (one_sided axis back s Et) c x y z
      = (- ki * omega * compute_source cexp g axis back s omega k mu E H c x y z - err * missing g axis back s omega u mu Et Ht c x y z)%K).
Proof. exact (@mode_source_CC g axis s back omega k d beta nf eps mu v E H). Qed.

(** A plane wave on a line of cells with the exact wavenumber: no dispersion error, and what is
    emitted is not zero. *)
Example mode_source_ex (back : bool) : let g := line 5 in let st := whole_start 2 2 in let len := whole_len g 2 in
  (proper g ones ones /\ evenly g 2 (k1 : CC) /\ invariant_along g 2 ones /\ lossless g (k1 : CC) ones ones /\
   eigenvector (plane g 2 st len) (k1 : CC) (k1 : CC) (in_plane 2 st ones) (in_plane 2 st ones) wave_v) /\
  dispersion cexp (rl (PI / 3)) (k1 : CC) (k1 : CC) = (k0 : CC) /\
  fst (solve_waveguide_mode cexp g 2 back st len (k1 : CC) ones ones wave_v (k1 : CC) (k1 : CC) (rl (PI / 3))) 0%nat 0%nat 0%nat 2%nat = (k1 : CC).
Proof.
  intros g st len. split; [|split].
  - split; [split; intros; split; exact c1_nz|]. split; [intros l Hl; split; reflexivity|]. split; [intros c x y z x' y' z' _ _ _ _; reflexivity|]. split.
    + split; [|split; intros; split]; apply c_eq; cbn; ring.
    + apply (@one_eigenvector (plane g 2 st len) (in_plane 2 st ones) (in_plane 2 st ones)); intros; try split; reflexivity.
  - change (k1 : CC) with (rl 1). rewrite dispersion_real by lra. replace (PI / 3 * 1 / 2) with (PI / 6) by field. rewrite sin_PI6. apply c_eq; cbn; field.
  - unfold solve_waveguide_mode. cbn [fst]. unfold expand. cbn [forallb seq pick st whole_start len whole_len Nat.eqb Nat.leb Nat.ltb Nat.add andb g line dim].
    assert (E : v2e (plane g 2 st len) (k1 : CC) (in_plane 2 st ones) (in_plane 2 st ones) (k1 : CC) wave_v 0%nat 0%nat 0%nat 0%nat = (k1 : CC))
      by (apply one_e0; intros; try split; reflexivity).
    destruct back; unfold scale3; [transitivity (kconj (k1 * v2e (plane g 2 st len) (k1 : CC) (in_plane 2 st ones) (in_plane 2 st ones) (k1 : CC) wave_v 0%nat 0%nat 0%nat 0%nat)%K)
      |transitivity (k1 * v2e (plane g 2 st len) (k1 : CC) (in_plane 2 st ones) (in_plane 2 st ones) (k1 : CC) wave_v 0%nat 0%nat 0%nat 0%nat)%K]; try reflexivity;
    rewrite E; apply c_eq; cbn; ring.
Qed.

(** ** C93 *)
(** The dispersion error of the wavenumber: what the solver that spins uses calls a correction makes
    the error larger than no correction, for every mode that the grid resolves; the emitted wave does
    not decay even if the mode does. *)
Theorem wavenumber_correction_worsens (b d : R) : 0 < b -> 0 < d -> b * d <= PI ->
  0 < snd (dispersion cexp (rl b) (rl d) (rl b)) < snd (dispersion cexp (corrected_solvers (rl b)) (rl d) (rl b)).
Proof.
  intros Hb Hd Hp. assert (E : corrected_solvers (rl b) = rl (fst (corrected_solvers (rl b)))) by (unfold corrected_solvers, rl; cbn [fst snd]; reflexivity).
  rewrite E, !dispersion_real by lra. cbn [snd]. pose proof (@uncorrected_short b d Hb Hd). pose proof (@corrected_shorter b d Hb Hd Hp). lra.
Qed.
Theorem wavenumber_correction_no_decay (w : CC) (d : R) back : cabs (cexp (- polarity CC back * ki * corrected_solvers w * rl d)%K) = 1.
Proof. apply (cabs_phase _ d back). Qed.
(** The correction of fdfd_tools helps on a grid with cells of size 1. *)
Theorem tools_correction_helps (b : R) : 0 < b -> b - sin (b / 2) <= PI / 2 ->
  0 <= snd (dispersion cexp (corrected_tools (rl b)) (rl 1) (rl b)) < snd (dispersion cexp (rl b) (rl 1) (rl b)).
Proof.
  intros Hb Hp. assert (E : corrected_tools (rl b) = rl (fst (corrected_tools (rl b)))) by (unfold corrected_tools, rl; cbn [fst snd]; reflexivity).
  rewrite E, !dispersion_real by lra. cbn [snd]. pose proof (@tools_better b Hb Hp) as T.
  replace (fst (corrected_tools (rl b)) * 1 / 2) with (fst (corrected_tools (rl b)) / 2) by field. replace (b * 1 / 2) with (b / 2) by field. lra.
Qed.
Example correction_ex : 0 < 1 /\ 1 * 1 <= PI /\ 1 - sin (1 / 2) <= PI / 2.
Proof. pose proof PI2_1. pose proof PI2_3_2. pose proof PI_RGT_0. assert (0 < sin (1 / 2)) by (apply sin_gt_0; lra). lra. Qed.

(** ** C94 *)
(** The source does not depend on the scale and the phase of the eigenvector that the eigenvalue
    solver happens to return, and it grows with the root of the power. *)
Theorem source_ignores_eigenvector_phase (g : grid CC) axis back st len omega eps mu power v beta (a : CC) : a <> (k0 : CC) ->
  match build_waveguide_source g axis back st len omega eps mu power v beta, build_waveguide_source g axis back st len omega eps mu power (scaled a v) beta with
  | Ok J, Ok J' => forall c x y z, J' c x y z = J c x y z
  | Err e, Err e' => e' = e
  | _, _ => False
  end.
Proof.
  intros Ha. pose proof (@build_scaled_lemma g axis back st len omega eps mu power v beta a Ha) as H.
  destruct (build_waveguide_source g axis back st len omega eps mu power v beta); exact H.
Qed.
Theorem source_power (g : grid CC) axis back st len omega eps mu power v beta :
  match build_waveguide_source g axis back st len omega eps mu 1 v beta with
  | Ok J => exists J', build_waveguide_source g axis back st len omega eps mu power v beta = Ok J' /\ forall c x y z, J' c x y z = (rl (sqrt power) * J c x y z)%K
  | Err e => build_waveguide_source g axis back st len omega eps mu power v beta = Err e
  end.
Proof. exact (@build_power g axis back st len omega eps mu power v beta). Qed.
Example source_ex (back : bool) : exists J, build_waveguide_source (line 5) 2 back (whole_start 2 2) (whole_len (line 5) 2) (k1 : CC) ones ones 1 wave_v (k1 : CC) = Ok J.
Proof.
  unfold build_waveguide_source, norm_factor. rewrite one_power; try reflexivity; [|intros; split; reflexivity].
  destruct (Rlt_dec 0 (1 / 2)); [|lra]. cbn [bind]. destruct (solve_waveguide_mode _ _ _ _ _ _ _ _ _ _ _ _ _). eexists. reflexivity.
Qed.

(** ** C95 *)
(** Power is conserved: without loss and without current in plane l, the power that enters the
    plane leaves it, on grids with cells of any sizes. *)
Theorem power_is_conserved (K : cfield) (g : grid K) axis omega eps mu E H l :
  (axis < 3)%nat -> (1 <= l)%nat -> (l + 1 < dim g axis)%nat -> lossless g omega eps mu ->
  (forall a i, (a < 3)%nat -> (i < dim g a)%nat -> dxe g a i <> k0 /\ dxh g a i <> k0) ->
  (forall c x y z, (c < 3)%nat -> in_grid g x y z -> pick axis x y z = l -> fcurl_e g E c x y z = (- ki * omega * mu c x y z * H c x y z)%K) ->
  (forall c x y z, (c < 3)%nat -> in_grid g x y z -> pick axis x y z = l -> fcurl_h g H c x y z = (ki * omega * eps c x y z * E c x y z)%K) ->
  (flux g axis E H (l + 1) + kconj (flux g axis E H (l + 1)) = flux g axis E H l + kconj (flux g axis E H l))%K.
Proof.
  intros Hax Hl Hl1 (Hw & Hm & Hr) Hd HE HH. refine (@flux_conserved_lemma K g axis omega eps mu E H l Hax Hl Hl1 Hw _ _ HE HH).
  - intros c x y z Hc Hg _. apply Hm; auto.
  - intros a i Ha Hi. destruct (Hd a i Ha Hi), (Hr a i Ha Hi). auto.
Qed.
(** The wave on a line of cells. *)
Example power_is_conserved_ex : let g := line 3 in
  (forall c x y z, (c < 3)%nat -> in_grid g x y z -> pick 2 x y z = 1%nat ->
    fcurl_e g line_e c x y z = (- ki * rl (6 / 5) * ones c x y z * line_h c x y z)%K /\ fcurl_h g line_h c x y z = (ki * rl (6 / 5) * ones c x y z * line_e c x y z)%K) /\
  lossless g (rl (6 / 5)) ones ones /\ re (flux g 2 line_e line_h 1) = 4 / 5.
Proof.
  intros g. split; [|split].
  - intros c x y z Hc (Hx & Hy & Hz) Hl. cbn in Hx, Hy, Hl. assert (x = 0%nat) by lia. assert (y = 0%nat) by lia. subst.
    destruct c as [|[|[|]]]; try lia; (split; apply c_eq; cbn; unfold cdiv, cinv, cmul, cscale, cconj; cbn; field).
  - repeat split; try (intros; apply c_eq; cbn; ring).
  - unfold re. cbn. unfold cdiv, cinv, cmul, cscale, cconj. cbn. field.
Qed.

(** ** C96 *)
(** Normalized modes carry power 1 on a uniform cross-section if H_y does not vary along x and H_x
    not along y; AssertionError is raised exactly if the power is not positive. *)
Theorem normalized_power_one g omega eps mu beta v : uniform_plane g ->
  (forall i i' j, (i < dim g 0)%nat -> (i' < dim g 0)%nat -> (j < dim g 1)%nat -> snd v i j 0%nat = snd v i' j 0%nat) ->
  (forall i j j', (i < dim g 0)%nat -> (j < dim g 1)%nat -> (j' < dim g 1)%nat -> fst v i j 0%nat = fst v i j' 0%nat) ->
  match normalized_fields g omega eps mu beta v with
  | Ok (e, h) => 1 / 2 * re (plane_flux g e h) = 1
  | Err e => e = UserError 1 /\ re (plane_flux g (v2e g omega eps mu beta v) (v2h g mu beta v)) <= 0
  end.
Proof. exact (@normalized_lemma g omega eps mu beta v). Qed.
Example normalized_power_one_ex : uniform_plane (line 1) /\ exists e h, normalized_fields (line 1) (k1 : CC) ones ones (k1 : CC) wave_v = Ok (e, h).
Proof.
  split; [exists (k1 : CC), (k1 : CC); repeat split; apply c_eq; cbn; ring|]. unfold normalized_fields, norm_factor. rewrite one_power; try reflexivity; [|intros; split; reflexivity].
  destruct (Rlt_dec 0 (1 / 2)); [|lra]. cbn [bind]. do 2 eexists. reflexivity.
Qed.
(** In general they do not: the fields of this mode of free space carry power 2, ... *)
Theorem normalized_power_one_refuted : exists n w b l e h, eigenvector (strip n) (rl w) (rl b) ones ones (along_y l) /\ 0 < w /\ 0 < b /\
  normalized_fields (strip n) (rl w) ones ones (rl b) (along_y l) = Ok (e, h) /\ 1 / 2 * re (plane_flux (strip n) e h) = 2.
Proof.
  destruct wave6_twice as (e & h & H1 & H2). exists 6%nat, (5 / 3), (4 / 3), wave6, e, h. split; [|repeat split; auto; lra].
  intros i j Hi Hj. apply wave6_mode; assumption.
Qed.
(** ... and this mode, which carries power forward, is refused. *)
Theorem forward_mode_refused_refuted : exists n w b l, eigenvector (strip n) (rl w) (rl b) ones ones (along_y l) /\ 0 < w /\ 0 < b /\
  0 < re (plane_flux (strip n) (v2e (strip n) (rl w) ones ones (rl b) (along_y l)) (v2h (strip n) ones (rl b) (along_y l))) /\
  normalized_fields (strip n) (rl w) ones ones (rl b) (along_y l) = Err (UserError 1).
Proof.
  exists 4%nat, (3 / 2), (1 / 2), wave4. split; [|repeat split; try lra; [rewrite wave4_flux; lra|exact wave4_refused]].
  intros i j Hi Hj. apply wave4_mode; assumption.
Qed.

Print Assumptions eigenvector_is_mode.
Print Assumptions source_emits_one_way.
Print Assumptions mode_source_one_way.
Print Assumptions wavenumber_correction_worsens.
Print Assumptions wavenumber_correction_no_decay.
Print Assumptions tools_correction_helps.
Print Assumptions source_ignores_eigenvector_phase.
Print Assumptions source_power.
Print Assumptions power_is_conserved.
Print Assumptions normalized_power_one.
Print Assumptions normalized_power_one_refuted.
Print Assumptions forward_mode_refused_refuted.
