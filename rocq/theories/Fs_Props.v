(** Free space sources (C97-C103).  Vocabulary: Fs_Spec.v. *)
From Coq Require Import Reals ZArith Lra Lia List.
From Verif Require Import Base CField CField_Proofs GMath_Model GMath_Proofs CplxField Maxwell_Model Wg_Model Wg_Model2 Wg_Spec Fs_Model Fs_Spec.
From Verif Require Import Fs_Proofs Fs_Proofs2 Fs_Proofs3 Fs_Proofs4 Fs_Proofs5 Fs_Proofs6 Fs_Proofs7 Fs_Proofs8.
Local Open Scope R_scope.

(** ** C97 *)
(** Direction and polarization are perpendicular unit vectors; the angle to the normal is theta;
    without angles the wave goes along the normal and is polarized along the next axis. *)
Theorem beam_frame axis back theta psi pol : (axis < 3)%nat ->
  let n := direction axis (sign back) theta psi in let e := polarized axis (sign back) theta psi pol in
  dot n n = 1 /\ dot e e = 1 /\ dot e n = 0 /\ n axis = sign back * cos theta.
Proof. exact (@frame_lemma axis back theta psi pol). Qed.
Theorem beam_straight axis back : (axis < 3)%nat -> forall a, (a < 3)%nat ->
  direction axis (sign back) 0 0 a = sign back * unit_vec axis a /\ polarized axis (sign back) 0 0 0 a = unit_vec (Nat.modulo (axis + 1) 3) a.
Proof. exact (@straight_lemma axis back). Qed.
Example beam_frame_ex : direction 0 (sign true) (PI / 2) 0 2%nat = 1 /\ polarized 2 (sign false) 0 0 (PI / 2) 1%nat = 1.
Proof.
  unfold polarized, direction, along, cross_prod. unfold along. cbn [Nat.eqb Nat.add Nat.modulo Nat.divmod Nat.sub fst snd sign].
  rewrite sin_0, cos_0, sin_PI2, cos_PI2. split; ring.
Qed.
(** The fields that a plane wave source is cut from: a plane wave of the wave number
    omega sqrt(eps), and the magnetic field that belongs to it on the grid. *)
Theorem plane_wave_field g pos eps omega axis sl theta psi pol back power : (axis < 3)%nat -> 0 < omega -> 0 < average g sl (eps 0%nat) ->
  let F := vector_fields g pos eps omega axis sl theta psi pol back power (plane_wave omega (average g sl (eps 0%nat)) back) in
  let k := omega * sqrt (average g sl (eps 0%nat)) in
  let n := direction axis (sign back) theta psi in let e := polarized axis (sign back) theta psi pol in
  (forall a, (a < 3)%nat -> f_k F a = k * n a) /\
  (forall c x y z, (c < 3)%nat -> f_E F c x y z = (rl (sqrt power) * (turn (- (k * dot n (place pos c x y z))) * rl (e c)))%K).
Proof. exact (@plane_field_lemma g pos eps omega axis sl theta psi pol back power). Qed.
Theorem magnetic_field g pos eps omega axis sl theta psi pol back power scalar c x y z : (axis < 3)%nat -> (c < 3)%nat -> in_grid g x y z ->
  let F := vector_fields g pos eps omega axis sl theta psi pol back power scalar in
  f_H F c x y z = magnetic g omega (f_k F) (f_E F) c x y z.
Proof. exact (@H_field g pos eps omega axis sl theta psi pol back power scalar c x y z). Qed.
Example plane_wave_field_ex : 0 < average tube middle (unit_eps 0%nat) /\ forall power, 0 < power ->
  f_E (vector_fields tube even_places unit_eps PI 2 middle 0 0 0 false power (plane_wave PI (average tube middle (unit_eps 0%nat)) false)) 0%nat 0%nat 0%nat 1%nat = rl (- sqrt power).
Proof.
  split; [rewrite tube_average; lra|]. intros p Hp. rewrite tube_E by (auto with arith; lra). cbn [Nat.even]. unfold unit_vec. cbn [Nat.eqb]. f_equal. ring.
Qed.

(** ** C98 *)
(** The Gaussian source is cut from the fundamental Gaussian beam around the point whose
    coordinates along the axes that follow the normal are the first two entries of [center], and
    whose coordinate along the normal is the third. *)
Theorem gaussian_source g pos eps omega w0 center axis sl theta psi pol back power : (axis < 3)%nat -> 0 < omega -> 0 < average g sl (eps 0%nat) -> 0 < w0 ->
  let '(J, kv, _) := build_gaussian_source g pos eps omega w0 center axis sl theta psi pol back power in
  let k := omega * sqrt (average g sl (eps 0%nat)) in
  let n := direction axis (sign back) theta psi in let e := polarized axis (sign back) theta psi pol in
  (forall a, (a < 3)%nat -> kv a = k * n a) /\
  forall c x y z, J c x y z = fst (cut_current g eps omega axis sl back kv (fun c x y z =>
    rl (sqrt power) * (rl (waist_amplitude (average g sl (eps 0%nat)) w0) * beam k w0 (permuted_center axis center) n (place pos c x y z) * rl (e c)))%K) c x y z.
Proof. exact (@gaussian_source_lemma g pos eps omega w0 center axis sl theta psi pol back power). Qed.
(** For a normal along z this is the point [center]. *)
Theorem gaussian_center_z center a : (a < 3)%nat -> permuted_center 2 center a = center a.
Proof. intros Ha. unfold permuted_center, along. idx a Ha; reflexivity. Qed.
Example gaussian_source_ex : 0 < average pair_z (all_of pair_z) (unit_eps 0%nat).
Proof. rewrite pair_average. lra. Qed.
(** For another normal it is not: in the plane of the source the beam is weaker at its center than
    beside it. *)
Theorem gaussian_center_refuted : exists g pos eps omega w0 center axis sl x y z x' y' z' c,
  let F := vector_fields g pos eps omega axis sl 0 0 0 false 1 (gaussian_beam w0 center omega (average g sl (eps 0%nat)) false) in
  (forall a, (a < 3)%nat -> place pos c x y z a = center a) /\ in_grid g x y z /\ in_grid g x' y' z' /\ pick axis x y z = pick axis x' y' z' /\
  cabs (f_E F c x y z) < cabs (f_E F c x' y' z').
Proof.
  exists pair_z, even_places, unit_eps, 1, 1, (v3 0 0 1), 0%nat, (all_of pair_z), 0%nat, 0%nat, 1%nat, 0%nat, 0%nat, 0%nat, 1%nat. cbv zeta.
  split; [intros a Ha; unfold place, even_places, v3; idx a Ha; reflexivity|]. split; [repeat split; cbn; lia|]. split; [repeat split; cbn; lia|]. split; [reflexivity|].
  exact off_beam_lemma.
Qed.

(** ** C99 *)
(** The power of the Gaussian beam: the part of |E|^2 sqrt(eps) / 2 within the radius r of the
    beam axis, at any distance zeta from the waist, is power (1 - exp(-2 r^2 / w^2)). *)
Theorem gaussian_power k w0 eps power q n m zeta : 0 < k -> 0 < w0 -> 0 < eps -> 0 <= power -> dot n n = 1 -> dot m m = 1 -> dot m n = 0 ->
  let w := w0 * sqrt (1 + (zeta / (k * (w0 * w0) / 2)) * (zeta / (k * (w0 * w0) / 2))) in
  forall rho, derivable_pt_lim (fun r => power * (1 - exp (- (2 * (r * r) / (w * w))))) rho
    (2 * PI * rho * (1 / 2 * sqrt eps * (cabs (rl (sqrt power) * (rl (waist_amplitude eps w0) * beam k w0 q n (beside q n m zeta rho)))%K ^ 2))).
Proof. exact (@beam_flux k w0 eps power q n m zeta). Qed.
Example gaussian_power_ex : dot (unit_vec 2) (unit_vec 2) = 1 /\ dot (unit_vec 0) (unit_vec 0) = 1 /\ dot (unit_vec 0) (unit_vec 2) = 0.
Proof. unfold dot, unit_vec. cbn [Nat.eqb]. repeat split; ring. Qed.
(** A plane wave source is the same for every power that is asked for: E x H* over the window
    without its borders is always 1 in total, before the borders are tapered. *)
Theorem plane_wave_power_ignored g pos eps omega axis sl theta psi pol back border power : (axis < 3)%nat -> 0 < power ->
  same_result (build_plane_wave_source g pos eps omega axis sl theta psi pol back border power)
              (build_plane_wave_source g pos eps omega axis sl theta psi pol back border 1).
Proof. intros Hx. exact (@build_power g pos eps omega axis sl theta psi pol back border Hx power). Qed.
Theorem plane_wave_source g pos eps omega axis sl theta psi pol back border power J kv s : (axis < 3)%nat -> 0 < omega -> 0 < average g sl (eps 0%nat) -> 0 < power ->
  build_plane_wave_source g pos eps omega axis sl theta psi pol back border power = Ok (J, kv, s) ->
  let k := omega * sqrt (average g sl (eps 0%nat)) in
  let n := direction axis (sign back) theta psi in let e := polarized axis (sign back) theta psi pol in
  exists (a : R) (b : nat -> Z), 0 < a /\ check_border sl axis border = Ok b /\ (forall a, (a < 3)%nat -> kv a = k * n a) /\
    let E : field3 CC := fun c x y z => (rl a * (turn (- (k * dot n (place pos c x y z))) * rl (e c)))%K in
    size sl axis = 1%Z /\ crossing g E (magnetic g omega kv E) axis (inner_window sl b) = 1 /\
    forall c x y z, J c x y z = fst (cut_current g eps omega axis sl back kv (fun c x y z => rl (make_mask g sl axis b x y z) * E c x y z)%K) c x y z.
Proof. exact (@plane_source_lemma g pos eps omega axis sl theta psi pol back border power J kv s). Qed.
Example plane_wave_source_ex : (exists J kv s, tube_wave 4 = Ok (J, kv, s)) /\ same_result (tube_wave 4) (tube_wave 1).
Proof. split; [apply tube_ok; lra|]. apply plane_wave_power_ignored; [lia|lra]. Qed.

(** ** C100 *)
(** The field E in the lit half and zero in the other half is the response to the current, in all
    planes but the first and the last, if E solves the wave equation in the lit half. *)
Theorem cut_current_one_sided (g : grid CC) eps omega axis sl back k E s : (axis < 3)%nat -> omega <> 0 -> whole_section g axis sl -> cut_index back (sl axis) = Z.of_nat s ->
  (1 <= s < dim g axis)%nat ->
  forall c x y z, (c < 3)%nat -> in_grid g x y z -> let l := pick axis x y z in (1 <= l)%nat -> (l + 1 < dim g axis)%nat ->
  (lit back s l = true -> wave_operator g eps omega k E c x y z = (0 : CC)%K) ->
  wave_operator g eps omega k (lit_part axis back s E) c x y z = (- ki * rl omega * fst (cut_current g eps omega axis sl back k E) c x y z)%K.
Proof. exact (@one_sided_lemma g eps omega axis sl back k E s). Qed.
Example cut_current_one_sided_ex : whole_section tube6 2 (set_slice (all_of tube6) 2 (2, 3)%Z) /\ cut_index false (set_slice (all_of tube6) 2 (2, 3)%Z 2%nat) = Z.of_nat 2 /\
  (forall c x y z, (c < 3)%nat -> in_grid tube6 x y z -> wave_operator tube6 unit_eps 1 (fun _ => 0) wave_six c x y z = (0 : CC)%K) /\ wave_six 0%nat 0%nat 0%nat 3%nat <> (0 : CC)%K.
Proof.
  split; [intros a Ha Hn; idx a Ha; try lia; reflexivity|]. split; [reflexivity|]. split; [exact wave_six_solves|].
  intros Z. apply (f_equal fst) in Z. cbn in Z. lra.
Qed.
(** A straight plane wave of an even grid misses the wave equation of its medium by the factor
    (2 - 2 cos(k h)) / h^2 - omega^2 eps, ... *)
Theorem plane_wave_residual g pos eps omega h off axis sl back power : (axis < 3)%nat -> 0 < omega -> 0 < h -> 0 < average g sl (eps 0%nat) -> even_grid g h ->
  (forall i, pos (Nat.modulo (axis + 1) 3) axis i = h * INR i + off) ->
  let F := vector_fields g pos eps omega axis sl 0 0 0 back power (plane_wave omega (average g sl (eps 0%nat)) back) in
  let k := omega * sqrt (average g sl (eps 0%nat)) in
  forall c x y z, (c < 3)%nat -> in_grid g x y z -> (1 <= pick axis x y z)%nat -> (pick axis x y z + 1 < dim g axis)%nat ->
  wave_operator g eps omega (f_k F) (f_E F) c x y z = ((rl ((2 - 2 * cos (k * h)) / (h * h)) - rl (omega * omega) * eps c x y z) * f_E F c x y z)%K.
Proof. exact (@plane_residual g pos eps omega h off axis sl back power). Qed.
(** ... which is never zero for eps equal to the average but of second order in the size of the cells. *)
Theorem plane_wave_residual_size k h : 0 < k -> 0 < h ->
  (2 - 2 * cos (k * h)) / (h * h) < k * k /\ (k * h <= PI / 2 -> k * k - (2 - 2 * cos (k * h)) / (h * h) <= k ^ 4 * (h * h) / 12).
Proof. exact (@dispersion_gap k h). Qed.
Example plane_wave_residual_ex : even_grid tube 1 /\ (forall i, even_places 0%nat 2%nat i = 1 * INR i + 0) /\ in_grid tube 0 0 1 /\ 0 < average tube middle (unit_eps 0%nat).
Proof.
  split; [intros a i; split; reflexivity|]. split; [intros i; unfold even_places; ring|]. split; [repeat split; cbn; lia|]. rewrite tube_average. lra.
Qed.
(** A source in the first plane is empty, without any message. *)
Theorem first_plane_empty g eps omega axis sl back k E c x y z : (axis < 3)%nat -> (2 <= dim g axis)%nat -> in_grid g x y z -> cut_index back (sl axis) = 0%Z ->
  fst (cut_current g eps omega axis sl back k E) c x y z = (0 : CC)%K.
Proof. exact (@first_plane g eps omega axis sl back k E c x y z). Qed.
Example first_plane_empty_ex : (2 <= dim tube 2)%nat /\ in_grid tube 0 0 1 /\ cut_index false (0, 1)%Z = 0%Z.
Proof. split; [cbn; lia|]. split; [repeat split; cbn; lia|reflexivity]. Qed.

(** ** C101 *)
(** The list of slices is changed: a second plane wave source from the same list fails, ... *)
Theorem plane_wave_second_call g pos eps omega axis sl theta psi pol back border p J k s : (axis < 3)%nat ->
  build_plane_wave_source g pos eps omega axis sl theta psi pol back border p = Ok (J, k, s) ->
  build_plane_wave_source g pos eps omega axis s theta psi pol back border p = Err ValueError.
Proof. exact (@second_call g pos eps omega axis sl theta psi pol back border p J k s). Qed.
Example plane_wave_second_call_ex : exists J kv s, tube_wave 4 = Ok (J, kv, s).
Proof. apply tube_ok; lra. Qed.
(** ... and Gaussian sources with polarity -1 move by one plane from call to call. *)
Theorem gaussian_calls_drift g pos eps omega w0 center axis theta psi pol back power sl n :
  calls g pos eps omega w0 center axis theta psi pol back power (S n) sl axis =
  if back then (fst (sl axis) - Z.of_nat n - 1, fst (sl axis) - Z.of_nat n + 1)%Z else (snd (sl axis) - 2, snd (sl axis))%Z.
Proof. exact (@calls_lemma g pos eps omega w0 center axis theta psi pol back power sl n). Qed.
Example gaussian_calls_drift_ex : calls tube even_places unit_eps 1 1 (v3 0 0 0) 2 0 0 0 true 1 2 middle 2%nat = (-1, 1)%Z.
Proof. rewrite gaussian_calls_drift. reflexivity. Qed.

(** ** C102 *)
Theorem mask_between g sl axis border x y z : 0 <= make_mask g sl axis border x y z <= 1.
Proof. exact (@mask_bounds g sl axis border x y z). Qed.
Theorem mask_one_inside g sl axis border x y z : in_slices g (set_slice sl axis (0, Z.of_nat (dim g axis))%Z) x y z = true ->
  (forall a, (a < 3)%nat -> a <> axis -> (border a <= Z.of_nat (pick a x y z) - fst (sl a) < size sl a - border a)%Z) ->
  make_mask g sl axis border x y z = 1.
Proof. exact (@mask_inside g sl axis border x y z). Qed.
Theorem mask_zero_edge g sl axis border x y z a : (a < 3)%nat -> a <> axis -> (0 < border a)%Z -> (2 * border a < size sl a - 1)%Z ->
  (Z.of_nat (pick a x y z) = fst (sl a) \/ Z.of_nat (pick a x y z) = snd (sl a) - 1)%Z -> make_mask g sl axis border x y z = 0.
Proof. exact (@mask_edge g sl axis border x y z a). Qed.
Theorem mask_zero_outside g sl axis border x y z : in_slices g (set_slice sl axis (0, Z.of_nat (dim g axis))%Z) x y z = false -> make_mask g sl axis border x y z = 0.
Proof. exact (@mask_outside g sl axis border x y z). Qed.
Definition wide : grid CC := box 5 5 3.
Example mask_ex : let b := fun _ : nat => 1%Z in make_mask wide (all_of wide) 2 b 2 2 1 = 1 /\ make_mask wide (all_of wide) 2 b 0 2 1 = 0.
Proof.
  split.
  - apply mask_one_inside; [reflexivity|]. intros a Ha Hn. idx a Ha; cbn; lia.
  - apply (@mask_zero_edge wide (all_of wide) 2 (fun _ => 1%Z) 0 2 1 0); cbn; lia.
Qed.
(** The borders that fit are used; borders that take all of the window raise an error, although
    the documentation says that they are ignored. *)
Theorem borders_used sl axis border : (axis < 3)%nat -> (1 <= size sl axis)%Z -> (forall a, (a < 3)%nat -> a <> axis -> (0 <= 2 * border a < size sl a)%Z) ->
  exists b, check_border sl axis border = Ok b /\ b axis = 0%Z /\ forall a, (a < 3)%nat -> a <> axis -> b a = border a.
Proof. exact (@border_used sl axis border). Qed.
Theorem large_border_raises sl axis border a : (a < 3)%nat -> a <> axis -> size sl a <> 1%Z -> (size sl a <= 2 * border a)%Z -> check_border sl axis border = Err ValueError.
Proof. exact (@border_raises sl axis border a). Qed.
Example borders_ex : (exists b, check_border (all_of wide) 2 (fun _ => 2%Z) = Ok b /\ b 0%nat = 2%Z) /\ check_border (all_of wide) 2 (fun _ => 3%Z) = Err ValueError.
Proof.
  split.
  - destruct (@borders_used (all_of wide) 2 (fun _ => 2%Z)) as (b & H1 & H2 & H3); [lia|cbn; lia|intros a Ha Hn; idx a Ha; cbn; lia|]. exists b. split; [exact H1|]. apply H3; lia.
  - apply (@large_border_raises _ _ _ 0%nat); cbn; lia.
Qed.
(** Borders that leave one cell of the window pass the check but do not taper the wave: it is cut
    off at the edges. *)
Theorem half_border_ignored g sl axis border x y z : in_slices g (set_slice sl axis (0, Z.of_nat (dim g axis))%Z) x y z = true ->
  (forall a, (a < 3)%nat -> a <> axis -> (size sl a <= 2 * border a + 1)%Z) -> make_mask g sl axis border x y z = 1.
Proof. exact (@mask_half g sl axis border x y z). Qed.
Example half_border_ignored_ex : make_mask wide (all_of wide) 2 (fun _ => 2%Z) 0 0 1 = 1.
Proof. apply half_border_ignored; [reflexivity|]. intros a Ha Hn. idx a Ha; cbn; lia. Qed.

(** ** C103 *)
(** A source that is normalized by a simulation emits the power in the same simulation, for any
    linear solver. *)
Theorem normalized_source_emits (g : grid CC) solve (source eps : field3 CC) power : linear solve -> 0 < power -> rsum (map cabs (vec g source)) <> 0 -> 0 < emits g solve eps source ->
  exists s, normalize_source_by_sim g solve source eps power = Ok s /\ emits g solve eps s = power /\
    exists a, 0 < a /\ forall c x y z, s c x y z = (source c x y z * rl a)%K.
Proof. intros Hl Hp. exact (@normalize_ok g solve source eps power Hl Hp). Qed.
Example normalized_source_emits_ex : linear absorber /\ rsum (map cabs (vec (box 1 1 1) spot)) <> 0 /\ 0 < emits (box 1 1 1) absorber unit_eps spot.
Proof. split; [exact absorber_linear|]. rewrite spot_sum, spot_emits. split; lra. Qed.

Print Assumptions beam_frame.
Print Assumptions beam_straight.
Print Assumptions plane_wave_field.
Print Assumptions magnetic_field.
Print Assumptions gaussian_source.
Print Assumptions gaussian_center_z.
Print Assumptions gaussian_center_refuted.
Print Assumptions gaussian_power.
Print Assumptions plane_wave_power_ignored.
Print Assumptions plane_wave_source.
Print Assumptions cut_current_one_sided.
Print Assumptions plane_wave_residual.
Print Assumptions plane_wave_residual_size.
Print Assumptions first_plane_empty.
Print Assumptions plane_wave_second_call.
Print Assumptions gaussian_calls_drift.
Print Assumptions mask_between.
Print Assumptions mask_one_inside.
Print Assumptions mask_zero_edge.
Print Assumptions mask_zero_outside.
Print Assumptions borders_used.
Print Assumptions large_border_raises.
Print Assumptions half_border_ignored.
Print Assumptions normalized_source_emits.
