(** Far fields: meshes of the sphere (C123), selection of directions and integration (C124),
    spherical components (C125), scattering objectives (C126).  Vocabulary: Ff_Spec.v. *)
From Coq Require Import Reals Lra Lia.
From Verif Require Obj_Model.
From Verif Require Import Base CField LinAlg Maxwell_Model Maxwell_Spec SimCache_Model Shape_Model GMath_Model GMath_Spec GMath_Proofs CplxField Adj_Model Adj_Spec Adj_Proofs7.
From Verif Require Import EmObj_Model EmObj_Spec EmObj_Proofs4 EmObj_Proofs5.
From Verif Require Import Ff_Model Ff_Spec Ff_Proofs Ff_Proofs2 Ff_Proofs3 Ff_Proofs4 Ff_Proofs5 Ff_Proofs6.
Local Open Scope R_scope.

(** ** C123 *)
(** After any number of refinements the mesh of the sphere is a triangulation of all directions. *)
Theorem sphere_triangulation n : exists pts ts, make_sphere_point n = Ok (pts, ts) /\ triangulation pts ts (fun _ => True) /\ length ts = (8 * 4 ^ n)%nat.
Proof. destruct (sphere_mesh n) as (pts & ts & E & M & L). exists pts, ts. split; [exact E|]. split; [exact (mesh_triangulation M)|exact L]. Qed.
(** The mesh of a half sphere is a triangulation of the directions of one side, with all points on it. *)
Theorem half_sphere_triangulation n s : s = 1 \/ s = -1 ->
  exists pts ts, make_half_sphere_point n s = Ok (pts, ts) /\ triangulation pts ts (fun v => 0 <= s * pz v) /\ length ts = (4 * 4 ^ n)%nat /\
    forall p, In p pts -> 0 <= s * pz p.
Proof.
  intros Hs. destruct (half_mesh n Hs) as (pts & ts & E & M & L). exists pts, ts. split; [exact E|]. split; [exact (mesh_triangulation M)|]. split; [exact L|].
  intros p Hp. exact (@half_side n s pts ts p Hs E Hp).
Qed.
Example sphere_case : exists pts ts, make_sphere_point 1 = Ok (pts, ts) /\ length ts = 32%nat /\ In (1, 0, 0) pts /\
  exists t, In t ts /\ through pts t (1, 2, -3).
Proof.
  destruct (sphere_triangulation 1) as (pts & ts & E & T & L). exists pts, ts. split; [exact E|]. split; [exact L|]. split.
  - destruct (sphere_start) as [G TR U _ _ _]. assert (G0 := G). destruct (@refine_all_spec sphere_tris sphere0 G TR) as (pts' & kss & E' & _ & X & _).
    unfold make_sphere_point in E. cbn [refine fst snd] in E. fold sphere0 in E. fold sphere_tris in E. rewrite E' in E. cbn [bind fst snd] in E. injection E as <- <-.
    apply (nth_error_In _ 0). apply X. reflexivity.
  - apply (t_cover T). exact I.
Qed.

(** ** C124 *)
(** A triangle is selected exactly if the direction of its centre lies between the bounds: the polar
    angle strictly, the azimuth up to whole turns; bounds of the azimuth up to a half turn apart are
    excluded, bounds further apart are included. *)
Theorem selection_is_region th0 th1 ph0 ph1 a b c th ph :
  azimuth (px (center a b c)) (py (center a b c)) ph -> polar (center a b c) th -> 0 <= ph1 - ph0 <= 2 * PI ->
  (selected th0 th1 ph0 ph1 a b c = true <->
   th0 < th < th1 /\ (ph1 - ph0 <= PI /\ (exists k, ph0 < ph + 2 * IZR k * PI < ph1) \/ PI < ph1 - ph0 /\ exists k, ph0 <= ph + 2 * IZR k * PI <= ph1)).
Proof. apply selected_region. Qed.
(** Integration over a triangulation: the vectors exist, and the weighted sum of the squared field
    components is the power through the selected triangles, the radial component left out. *)
Theorem integration_is_power pts ts dom th0 th1 ph0 ph1 : triangulation pts ts dom ->
  exists areas v, area_selection pts ts th0 th1 ph0 ph1 = Ok areas /\ power_vector pts ts areas = Ok v /\
    forall y, length y = (length pts + length pts + length pts)%nat -> weigh v y = power pts y (filter (inside pts th0 th1 ph0 ph1) ts).
Proof.
  intros T. assert (Cn : forall t, In t ts -> exists a b c, has_corners pts t a b c) by (intros t Ht; destruct (@t_corners _ _ _ T t Ht) as (a & b & c & Hc & _); eauto).
  eexists. eexists. split; [exact (@selection_ok pts ts th0 th1 ph0 ph1 Cn)|]. split; [exact (@vector_eq _ _ _ _ T)|]. intros y Hy.
  destruct (@weigh_power _ _ _ (tri_sel pts th0 th1 ph0 ph1) _ y T Hy (@vector_eq _ _ _ _ T)) as [_ ->]. apply power_filter.
Qed.
(** The full range of angles leaves out no triangle of the sphere, on a half sphere neither. *)
Theorem full_range_selects_all n pts ts : make_sphere_point n = Ok (pts, ts) \/ (exists s, (s = 1 \/ s = -1) /\ make_half_sphere_point n s = Ok (pts, ts)) ->
  filter (inside pts 0 PI (- PI) PI) ts = ts.
Proof.
  intros [E|(s & Hs & E)].
  - destruct (sphere_mesh n) as (pts' & ts' & E' & M & _). rewrite E in E'. injection E' as <- <-. exact (mesh_full M).
  - destruct (half_mesh n Hs) as (pts' & ts' & E' & M & _). rewrite E in E'. injection E' as <- <-. exact (mesh_full M).
Qed.
(** A mesh whose last point belongs to no triangle cannot be integrated over. *)
Theorem unused_point_fails pts p ts areas : (forall t a b c, In t ts -> t = (a, b, c) -> (a < length pts /\ b < length pts /\ c < length pts)%nat) ->
  power_vector (pts ++ [p]) ts areas = Err ValueError.
Proof.
  intros H. unfold power_vector. rewrite app_length. cbn [length]. assert (columns ts <= length pts)%nat.
  { apply columns_bound. intros [[a b] c] Ht. exact (H _ a b c Ht eq_refl). }
  destruct (Nat.eqb_spec (columns ts) (length pts + 1)); [lia|reflexivity].
Qed.
Example selection_case : let a := (1, 0, 0) in let b := (0, 1, 0) in let c := (0, 0, 1) in
  (exists th, azimuth (px (center a b c)) (py (center a b c)) (PI / 4) /\ polar (center a b c) th) /\
  selected 0 PI (3 * PI / 2) (5 * PI / 2) a b c = true /\ selected 0 PI (PI / 2) (3 * PI / 2) a b c = false /\ selected 0 PI (PI / 4) (PI / 2) a b c = false /\ selected 0 PI (PI / 4) (3 * PI / 2) a b c = true.
Proof.
  intros a b c. pose proof PI_RGT_0 as P.
  assert (Ha : azimuth (px (center a b c)) (py (center a b c)) (PI / 4)).
  { exists (sqrt 2 / 3). assert (S2 : 0 < sqrt 2) by (apply sqrt_lt_R0; lra). split; [lra|]. rewrite cos_PI4, sin_PI4. unfold center, a, b, c, px, py, pz. cbn [fst snd]. split; field; lra. }
  destruct (has_polar (center a b c) (azimuth_norm _ Ha)) as (th & Ht). assert (Hb : 0 < th < PI).
  { apply (@off_axis_polar (center a b c)); [|exact Ht]. left. unfold center, a, b, c, px, py, pz. cbn [fst snd]. lra. }
  assert (Turn : forall k : Z, (k <= -1)%Z \/ (k = 0)%Z \/ (1 <= k)%Z) by (intros; lia).
  split; [exists th; auto|]. split; [|split; [|split]].
  - apply (@selection_is_region 0 PI _ _ a b c th (PI / 4) Ha Ht); [lra|]. split; [exact Hb|]. left. split; [lra|]. exists 1%Z. lra.
  - apply Bool.not_true_iff_false. intros H. apply (@selection_is_region 0 PI _ _ a b c th (PI / 4) Ha Ht) in H; [|lra]. destruct H as (_ & [(_ & k & H1 & H2)|(H & _)]); [|lra].
    destruct (Turn k) as [K|[->|K]]; [apply IZR_le in K; nra|lra|apply IZR_le in K; nra].
  - apply Bool.not_true_iff_false. intros H. apply (@selection_is_region 0 PI _ _ a b c th (PI / 4) Ha Ht) in H; [|lra]. destruct H as (_ & [(_ & k & H1 & H2)|(H & _)]); [|lra].
    destruct (Turn k) as [K|[->|K]]; [apply IZR_le in K; nra|lra|apply IZR_le in K; nra].
  - apply (@selection_is_region 0 PI _ _ a b c th (PI / 4) Ha Ht); [lra|]. split; [exact Hb|]. right. split; [lra|]. exists 0%Z. lra.
Qed.

(** ** C125 *)
(** About the third axis the components are the radial, polar and azimuthal ones. *)
Theorem spherical_components p v : norm p <> 0 ->
  exists w, cart2spheric 2 p v = Ok w /\ px w = dot3 p v / norm p /\
    (px p <> 0 \/ py p <> 0 -> let rho := sqrt (px p * px p + py p * py p) in
       py w = (pz p * (px p * px v + py p * py v) / rho - rho * pz v) / norm p /\ pz w = (px p * py v - py p * px v) / rho).
Proof.
  intros H. exists (rows (acos (pz p / norm p)) (angle (px p) (py p)) v). split; [now apply spheric_z|]. destruct (radial_row p H) as (A & B & D). split.
  - unfold rows. cbn [px fst]. rewrite A, B, D. unfold dot3, px, py, pz. cbn [fst snd]. field. exact H.
  - intros Hxy rho. destruct (angle_azimuth Hxy) as [E1 E2]. destruct (polar_trig p H) as [E3 E4]. fold rho in E1, E2, E4. assert (Hr : rho <> 0) by (apply Rgt_not_eq, sqrt_lt_R0; destruct Hxy; nra).
    unfold rows, dot3. cbn [px py pz fst snd]. rewrite E1, E2, E3, E4. split; field; auto.
Qed.
(** They keep lengths and angles. *)
Theorem spherical_isometry p v v' w w' : cart2spheric 2 p v = Ok w -> cart2spheric 2 p v' = Ok w' -> dot3 w w' = dot3 v v'.
Proof.
  intros H H'. destruct (Req_EM_T (norm p) 0) as [Z|Z].
  - unfold cart2spheric in H. destruct (Req_EM_T (norm p) 0); [discriminate|contradiction].
  - rewrite (spheric_z p v Z) in H. rewrite (spheric_z p v' Z) in H'. injection H as <-. injection H' as <-. apply rows_isometry.
Qed.
(** About the two other axes they are not: the first component of the position itself is its
    distance only on the diagonal. *)
Theorem spherical_other_axes_wrong axis p : (axis = 0%nat \/ axis = 1%nat) -> norm p <> 0 ->
  exists w, cart2spheric axis p p = Ok w /\ (px w = norm p <-> px p = py p /\ py p = pz p).
Proof.
  intros Ha H. assert (K : forall w d, px w = d / norm p -> d = px p * py p + py p * pz p + pz p * px p -> (px w = norm p <-> px p = py p /\ py p = pz p)).
  { intros w d E1 E2. rewrite <- rearranged, <- E2. pose proof (dot_norm p) as D. unfold dot3 in D. rewrite <- D, E1. split; intros E.
    - replace d with (d / norm p * norm p) by (field; exact H). rewrite E. reflexivity.
    - rewrite E. field. exact H. }
  destruct Ha as [-> | ->].
  - destruct (spheric_x p p H) as (w & E & E1). exists w. split; [exact E|]. apply (K w _ E1). unfold dot3, px, py, pz. cbn [fst snd]. ring.
  - destruct (spheric_y p p H) as (w & E & E1). exists w. split; [exact E|]. apply (K w _ E1). unfold dot3, px, py, pz. cbn [fst snd]. ring.
Qed.
Example spherical_case : norm (3, 4, 0) = 5 /\ exists w, cart2spheric 2 (3, 4, 0) (3, 4, 0) = Ok w /\ w = (5, 0, 0).
Proof.
  assert (N : norm (3, 4, 0) = 5) by (unfold norm, px, py, pz; cbn [fst snd]; replace (3 * 3 + 4 * 4 + 0 * 0) with (5 * 5) by ring; apply sqrt_square; lra). split; [exact N|].
  destruct (spherical_components (3, 4, 0) (3, 4, 0)) as ([[x y] z] & E & E1 & E2); [rewrite N; lra|]. exists (x, y, z). split; [exact E|]. destruct E2 as [E2 E3]; [left; cbn; lra|].
  rewrite N in E1, E2. unfold dot3 in *. cbn [px py pz fst snd] in *. apply pair_equal_spec. split; [apply pair_equal_spec; split|]; [lra| |]; [rewrite E2|rewrite E3]; unfold Rdiv; ring.
Qed.

(** ** C126 *)
(** The scattering objective can be built on a sphere of any refinement; its value is (1 - D)^2 with D
    the directed part of the power scattered in all directions: between 0 and 1, and zero exactly if
    all power is directed.  Its gradient is exact.  Without scattered power neither is a number. *)
Theorem scatter_objective g ph p pc inner omega src bg S n cache_size m cond F structure jac q eps E :
  sim_ok g p inner omega -> is_sqrt (conj_grid g) pc -> length src = vlen g -> (1 <= cache_size)%nat ->
  param_ok structure jac n q -> get_epsilon g bg S n (structure q) = Ok eps -> no_resonance g ph omega eps ->
  run_fields g ph p inner omega src bg S n (structure q) = Ok E ->
  ff_matrix cond = Some F -> (forall row, In row F -> length row = vlen g /\ outside_layers g row S n) ->
  exists pts ts s, make_sphere_point m = Ok (pts, ts) /\ scatter_new m cond None = Ok s /\
    (length F = (length pts + length pts + length pts)%nat ->
     let value l z := snd (em_value g ph p inner omega src bg S n (scatter_obj s) (do_calls g ph p pc inner omega src bg S n (new_sim cache_size) l) z) in
     let gradient l := snd (em_gradient g ph p pc inner omega src bg S n (scatter_obj s) (do_calls g ph p pc inner omega src bg S n (new_sim cache_size) l) (structure q) (length q) (jac q)) in
     let y := map (fun row => cdot row E) F in
     let total := power pts y ts in
     let directed := power pts y (filter (inside pts (fst (th_bounds cond)) (snd (th_bounds cond)) (fst (ph_bounds cond)) (snd (ph_bounds cond))) ts) in
     (total <> 0 ->
        (forall l, value l (structure q) = Ok ((1 - directed / total) ^ 2)) /\ 0 <= directed / total <= 1 /\
        exists gr, (forall l, gradient l = Ok gr) /\ forall l', is_gradient (fun w => real (value l' (structure w))) q gr) /\
     (total = 0 -> forall l, value l (structure q) = Err ValueError /\ gradient l = Err ValueError)).
Proof.
  intros OK Hpc Hsrc Hc Hp He Hr HE HF Hrows. destruct (@em_fields g ph p inner omega src bg S n OK Hsrc _ _ He Hr) as (E' & HE' & HlE). rewrite HE in HE'. injection HE' as <-.
  destruct (scatter_new_spec m cond None) as (pts & ts & s & E1 & E2 & E3 & E4 & _ & _ & Hw). exists pts, ts, s. split; [exact E1|]. split; [exact E2|]. intros HlF value gradient y total directed.
  rewrite HF in E3. assert (Ly : forall x, length (apply_rows F x) = (length pts + length pts + length pts)%nat) by (intros x; unfold apply_rows; now rewrite map_length).
  assert (Hpart : forall x, 0 <= weigh (sc_directed s) (apply_rows F x) <= weigh (sc_scattered s) (apply_rows F x)).
  { intros x. destruct (Hw (apply_rows F x) (Ly x)) as [-> ->]. apply power_part. }
  assert (Hrow : forall row, In row F -> length row = vlen g) by (intros row Hi; now apply Hrows).
  assert (Ey : y = apply_rows F E) by (unfold y; symmetry; apply apply_rows_dot).
  assert (Et : weigh (sc_scattered s) (apply_rows F E) = total) by (unfold total; rewrite Ey; apply (Hw _ (Ly E))).
  assert (Ed : weigh (sc_directed s) (apply_rows F E) = directed) by (unfold directed; rewrite Ey; apply (Hw _ (Ly E))).
  split.
  - intros Ht. split; [|split].
    + intros l. unfold value. rewrite em_value_eq by exact Hc. rewrite HE. cbn [bind scatter_obj o_f]. rewrite (@scatter_value s F E4 E3 Hpart E) by (now rewrite Et). now rewrite Et, Ed.
    + rewrite <- Ed, <- Et. apply (@ratio_range s F Hpart). now rewrite Et.
    + destruct (@scatter_differentiates g s F E4 E3 Hrow Hpart E (structure q) HlE) as (px & Hd & Hs); [now rewrite Et|].
      eapply em_gradient_pf; eauto. assert (Ho : forall c, In c F -> outside_layers g c S n) by (intros c Hi; now apply Hrows).
      apply (@support_outside g S n px F Ho); [|exact Hs]. destruct F as [|row F'].
      * exfalso. apply Ht. unfold total, power, y. cbn [map] in *. assert (Z : forall t, triangle_power pts [] t = 0).
        { intros [[i j] k]. unfold triangle_power, intensity. rewrite !nth_overflow by (cbn; lia). change (creal 0) with c0. rewrite GMath_Proofs5.cabs_c0. field. }
        clear - Z. induction ts as [|t ts IH]; [reflexivity|]. cbn [map]. unfold Obj_Model.rsum in *. cbn [fold_right]. rewrite IH, Z. ring.
      * apply (@no_vecs g S n row (row :: F')); [now left|exact Ho].
  - intros Ht l. destruct (@scatter_nan s F E4 E3 E) as [N1 N2]; [now rewrite Et|]. split.
    + unfold value. rewrite em_value_eq by exact Hc. rewrite HE. exact N1.
    + unfold gradient. apply (@gradient_nan g ph p pc inner omega src bg S n cache_size Hc (scatter_obj s) l (structure q) (length q) (jac q) E HE). exact N2.
Qed.
(** With a background field, or without a surface to project from, the objective is built all the
    same, and neither value nor gradient can be had. *)
Theorem scatter_unusable n cond background : (background <> None \/ ff_matrix cond = None) ->
  exists s e, scatter_new n cond background = Ok s /\ (e = NameError \/ e = AttributeError) /\ forall x, scatter_f s x = Err e /\ scatter_dx s x = Err e.
Proof.
  intros H. destruct (scatter_new_spec n cond background) as (pts & ts & s & _ & E2 & E3 & E4 & _). exists s. destruct background as [b|].
  - exists NameError. split; [exact E2|]. split; [now left|]. intros x. unfold scatter_f, scatter_dx, far_matrix. rewrite E4. now split.
  - destruct H as [H|H]; [contradiction|]. exists AttributeError. split; [exact E2|]. split; [now right|]. intros x. unfold scatter_f, scatter_dx, far_matrix. rewrite E4, E3, H. now split.
Qed.
(** DirectedPower cannot be built. *)
Theorem directed_power_unusable cond : directed_power_new cond = Err AttributeError.
Proof.
  unfold directed_power_new. destruct (th_bounds cond) as [t0 t1]. destruct (ltb t0 (PI / 2) && ltb t1 (PI / 2)); [|destruct (ltb (PI / 2) t0 && ltb (PI / 2) t1)].
  - destruct (@half_mesh 4 1) as (pts & ts & E & _); [now left|]. now rewrite E.
  - destruct (@half_mesh 4 (-1)) as (pts & ts & E & _); [now right|]. now rewrite E.
  - destruct (sphere_mesh 4) as (pts & ts & E & _). now rewrite E.
Qed.
Example scatter_case : let F := repeat probe2 18 in let cond := FfCond (Some F) (0, PI / 2) (- PI, PI) in
  sim_ok cells2 one_p solver2 1 /\ is_sqrt (conj_grid cells2) one_p /\ param_ok direct unit_jac 2 [1; 1] /\
  get_epsilon cells2 bg2 sel2 2 (direct [1; 1]) = Ok [c1; c1; c1; c1; c1; c1] /\ no_resonance cells2 flat_phases 1 [c1; c1; c1; c1; c1; c1] /\
  run_fields cells2 flat_phases one_p solver2 1 src2 bg2 sel2 2 (direct [1; 1]) = Ok (E2 1 1) /\
  (forall row, In row F -> length row = vlen cells2 /\ outside_layers cells2 row sel2 2) /\
  exists pts ts, make_sphere_point 0 = Ok (pts, ts) /\ length F = (length pts + length pts + length pts)%nat /\ power pts (map (fun row => cdot row (E2 1 1)) F) ts <> 0.
Proof.
  intros F cond. split; [exact sim_ok2|]. split; [exact conj_sqrt2|]. split; [exact direct_ok|]. split; [exact eps_11|]. split; [exact no_res11|]. split; [apply fields2; lra|]. split.
  { intros row Hr. apply repeat_spec in Hr as ->. split; [reflexivity|apply outside2]. }
  exists sphere0, sphere_tris. split; [reflexivity|]. split; [reflexivity|]. set (y := map (fun row => cdot row (E2 1 1)) F). unfold sphere_tris, power. cbn [map].
  assert (P0 : 0 < triangle_power sphere0 y (0, 1, 4)%nat).
  { unfold triangle_power. apply Rmult_lt_0_compat; [apply area_pos; unfold det, corner, sphere0, px, py, pz; cbn; lra|].
    assert (I : forall i, (i < 6)%nat -> 0 < intensity sphere0 y i).
    { intros i Hi. pose proof (GMath_Proofs3.cabs_pos probe_nz) as K. unfold intensity. assert (Z : nth (length sphere0 + i) y (creal 0) = cdot probe2 (E2 1 1)) by (do 6 (destruct i as [|i]; [reflexivity|]); lia).
      rewrite Z. pose proof (pow2_ge_0 (cabs (nth (length sphere0 + length sphere0 + i) y (creal 0)))). nra. }
    pose proof (I 0%nat ltac:(lia)). pose proof (I 1%nat ltac:(lia)). pose proof (I 4%nat ltac:(lia)). lra. }
  unfold Obj_Model.rsum. cbn [fold_right].
  pose proof (triangle_power_nonneg sphere0 y (1, 2, 4)%nat). pose proof (triangle_power_nonneg sphere0 y (2, 3, 4)%nat). pose proof (triangle_power_nonneg sphere0 y (3, 0, 4)%nat).
  pose proof (triangle_power_nonneg sphere0 y (0, 1, 5)%nat). pose proof (triangle_power_nonneg sphere0 y (1, 2, 5)%nat). pose proof (triangle_power_nonneg sphere0 y (2, 3, 5)%nat). pose proof (triangle_power_nonneg sphere0 y (3, 0, 5)%nat). lra.
Qed.
Print Assumptions sphere_triangulation.
Print Assumptions half_sphere_triangulation.
Print Assumptions selection_is_region.
Print Assumptions integration_is_power.
Print Assumptions full_range_selects_all.
Print Assumptions unused_point_fails.
Print Assumptions spherical_components.
Print Assumptions spherical_isometry.
Print Assumptions spherical_other_axes_wrong.
Print Assumptions scatter_objective.
Print Assumptions scatter_unusable.
Print Assumptions directed_power_unusable.
