(** Cubic interpolation of control points: claims C110 to C115. *)
From Coq Require Import Reals Lra Lia.
From Verif Require Import Base Cub_Model Cub_Spec Cub_Proofs3 Cub_Proofs7 Cub_Proofs8 Cub_Proofs9
  Cub_Proofs10 Cub_Proofs11 Cub_Proofs12 Cub_Proofs13.
Set Implicit Arguments.
Open Scope R_scope.

(** *** C110: the interpolated surface *)

Theorem cubic_interpolates : forall xq yq per v,
  grid_ok (ax0 per) xq -> grid_ok (ax1 per) yq ->
  (exists f fx fy, surface_of xq yq per v f fx fy) /\
  forall f fx fy, surface_of xq yq per v f fx fy ->
  forall i j, (i < length xq)%nat -> (j < length yq)%nat ->
  f (nth i xq 0) (nth j yq 0)
  = v ((if ax0 per then i mod independent true (length xq) else i)
       + independent (ax0 per) (length xq) * (if ax1 per then j mod independent true (length yq) else j))%nat.
Proof.
  intros xq yq per v Gx Gy.
  split; [exact (ex_intro _ _ (ex_intro _ _ (ex_intro _ _ (surface_exists per Gx Gy v)))) |].
  exact (fun f fx fy S i j Hi Hj => @knots xq yq per v f fx fy i j Gx Gy S Hi Hj).
Qed.

Theorem cubic_quadratics : forall xq yq v f fx fy a0 a1 a2 b0 b1 b2 c0 c1 c2,
  let p x y := (a0 + a1 * x + a2 * x ^ 2) + (b0 + b1 * x + b2 * x ^ 2) * y
               + (c0 + c1 * x + c2 * x ^ 2) * y ^ 2 in
  grid_ok false xq -> grid_ok false yq -> surface_of xq yq (Two false false) v f fx fy ->
  (forall i j, (i < length xq)%nat -> (j < length yq)%nat ->
     v (i + length xq * j)%nat = p (nth i xq 0) (nth j yq 0)) ->
  forall x y, within xq x -> within yq y -> f x y = p x y.
Proof. exact quadratics. Qed.

Theorem cubic_constants : forall xq yq per v f fx fy a,
  grid_ok (ax0 per) xq -> grid_ok (ax1 per) yq -> surface_of xq yq per v f fx fy ->
  (forall r, (r < independent (ax0 per) (length xq) * independent (ax1 per) (length yq))%nat -> v r = a) ->
  forall x y, within xq x -> within yq y -> f x y = a.
Proof. exact constants. Qed.

Theorem cubic_outside_refused : forall xs ys xq yq per,
  xs <> [] -> ys <> [] -> xq <> [] -> yq <> [] ->
  nth 0 xs 0 < nth 0 xq 0 \/ nth 0 ys 0 < nth 0 yq 0 \/
  nth (length xq - 1) xq 0 < nth (length xs - 1) xs 0 \/
  nth (length yq - 1) yq 0 < nth (length ys - 1) ys 0 ->
  cubic_matrices xs ys xq yq per = Err ValueError.
Proof. exact outside_refused. Qed.

(** *** C111: smooth, with exact slopes *)

Theorem cubic_slopes : forall xq yq per v f fx fy x y,
  grid_ok (ax0 per) xq -> grid_ok (ax1 per) yq -> surface_of xq yq per v f fx fy ->
  within xq x -> within yq y ->
  slope_at (nth 0 xq 0) (nth (length xq - 1) xq 0) (fun t => f t y) x (fx x y) /\
  slope_at (nth 0 yq 0) (nth (length yq - 1) yq 0) (fun t => f x t) y (fy x y).
Proof. exact slopes. Qed.

(** *** C112: the arrays of control values that a parametrization can reach *)

Theorem geometry_reaches_exactly : forall nx ny symm per periods geo rev g,
  let n0 := independent (ax0 per) nx in
  let n1 := independent (ax1 per) ny in
  (1 <= n0)%nat -> (1 <= n1)%nat ->
  make_geometry_matrix (Two nx ny) symm per periods false = Ok (geo, rev, g) ->
  rows geo = (n0 * n1)%nat /\ cols geo = (ax0 g * ax1 g)%nat /\
  (forall v j, (j < n1)%nat ->
     keeps (ax0 periods) (ax0 symm) n0 (fun i => sapply geo v (i + n0 * j)%nat)) /\
  (forall v i, (i < n0)%nat ->
     keeps (ax1 periods) (ax1 symm) n1 (fun j => sapply geo v (i + n0 * j)%nat)) /\
  (forall E : nat -> nat -> R,
     (forall j, (j < n1)%nat -> keeps (ax0 periods) (ax0 symm) n0 (fun i => E i j)) ->
     (forall i, (i < n0)%nat -> keeps (ax1 periods) (ax1 symm) n1 (fun j => E i j)) ->
     exists v, forall i j, (i < n0)%nat -> (j < n1)%nat -> sapply geo v (i + n0 * j)%nat = E i j) /\
  (forall v w : nat -> R, (forall r, (r < rows geo)%nat -> sapply geo v r = sapply geo w r) ->
     forall c, (c < cols geo)%nat -> v c = w c).
Proof. exact geometry_main. Qed.

Theorem geometry_reads_back : forall nx ny symm per periods,
  let n0 := independent (ax0 per) nx in
  let n1 := independent (ax1 per) ny in
  (1 <= n0)%nat -> (1 <= n1)%nat -> fits (ax0 periods) n0 -> fits (ax1 periods) n1 ->
  exists geo full rev g,
    make_geometry_matrix (Two nx ny) symm per periods false = Ok (geo, rev, g) /\
    make_geometry_matrix (Two nx ny) symm per periods true = Ok (full, rev, g) /\
    rows full = (nx * ny)%nat /\ cols full = cols geo /\ rows rev = cols geo /\
    cols rev = (nx * ny)%nat /\
    (forall (v : nat -> R) i j, (i < nx)%nat -> (j < ny)%nat ->
       sapply full v (i + nx * j)%nat
       = sapply geo v ((if ax0 per then i mod n0 else i)
                       + n0 * (if ax1 per then j mod n1 else j))%nat) /\
    (forall (v : nat -> R) c, (c < cols geo)%nat -> sapply rev (sapply full v) c = v c).
Proof. exact geometry_round_trip. Qed.

Theorem geometry_misfit_refused : forall nx ny symm per periods full,
  let n0 := independent (ax0 per) nx in
  let n1 := independent (ax1 per) ny in
  (1 <= n0)%nat -> (1 <= n1)%nat ->
  ~ (fits (ax0 periods) n0 /\ fits (ax1 periods) n1) ->
  make_geometry_matrix (Two nx ny) symm per periods full = Err ValueError.
Proof. exact geometry_refuses. Qed.

(** *** C113: mirrored and periodic structures *)

Theorem cubic_mirror_x : forall init xq yq xs ys symm per periods lo up b p v k z c i j,
  grid_ok (ax0 per) xq -> grid_ok (ax1 per) yq -> covers xq xs -> covers yq ys ->
  ax0 symm = true -> (ax0 per = true <-> ax0 periods <> 0%nat) ->
  balanced xq c -> balanced xs c ->
  cubic_param init xq yq xs ys symm per periods lo up b = Ok p ->
  get_structure (set_k (set_vector p v) k) = Ok z ->
  (i < length xs)%nat -> (j < length ys)%nat ->
  entry (length xs) z (length xs - 1 - i) j = entry (length xs) z i j.
Proof. exact structure_mirror_x. Qed.

Theorem cubic_mirror_y : forall init xq yq xs ys symm per periods lo up b p v k z c i j,
  grid_ok (ax0 per) xq -> grid_ok (ax1 per) yq -> covers xq xs -> covers yq ys ->
  ax1 symm = true -> (ax1 per = true <-> ax1 periods <> 0%nat) ->
  balanced yq c -> balanced ys c ->
  cubic_param init xq yq xs ys symm per periods lo up b = Ok p ->
  get_structure (set_k (set_vector p v) k) = Ok z ->
  (i < length xs)%nat -> (j < length ys)%nat ->
  entry (length xs) z i (length ys - 1 - j) = entry (length xs) z i j.
Proof. exact structure_mirror_y. Qed.

Theorem cubic_period_x : forall init xq yq xs ys symm per periods lo up b p v k z d m i j,
  grid_ok (ax0 per) xq -> grid_ok (ax1 per) yq -> covers xq xs -> covers yq ys ->
  ax0 per = true -> ax0 periods <> 0%nat -> 0 < d -> equal_steps xq d ->
  (forall i, (i + m < length xs)%nat ->
     nth (i + m) xs 0 - nth i xs 0 = (nth (length xq - 1) xq 0 - nth 0 xq 0) / INR (ax0 periods)) ->
  cubic_param init xq yq xs ys symm per periods lo up b = Ok p ->
  get_structure (set_k (set_vector p v) k) = Ok z ->
  (i + m < length xs)%nat -> (j < length ys)%nat ->
  entry (length xs) z (i + m) j = entry (length xs) z i j.
Proof. exact structure_period_x. Qed.

Theorem cubic_period_y : forall init xq yq xs ys symm per periods lo up b p v k z d m i j,
  grid_ok (ax0 per) xq -> grid_ok (ax1 per) yq -> covers xq xs -> covers yq ys ->
  ax1 per = true -> ax1 periods <> 0%nat -> 0 < d -> equal_steps yq d ->
  (forall i, (i + m < length ys)%nat ->
     nth (i + m) ys 0 - nth i ys 0 = (nth (length yq - 1) yq 0 - nth 0 yq 0) / INR (ax1 periods)) ->
  cubic_param init xq yq xs ys symm per periods lo up b = Ok p ->
  get_structure (set_k (set_vector p v) k) = Ok z ->
  (i < length xs)%nat -> (j + m < length ys)%nat ->
  entry (length xs) z i (j + m) = entry (length xs) z i j.
Proof. exact structure_period_y. Qed.

(** An axis that is declared periodic without a number of periods: the mirrored
    array does not give a mirrored structure. *)
Theorem cubic_mirror_refuted :
  exists p z,
    cubic_param (Scalar 0) [0; 1; 2; 3] [0; 1; 2] [1; 2] [1] (Two true false) (Two true false)
      (Two 0 0)%nat 0 1 None = Ok p /\
    get_structure (set_k (set_vector p [1; 0; 1; 0; 1; 0]) 0) = Ok z /\
    entry 2 z 0 0 = 0 /\ entry 2 z 1 0 = 1.
Proof. exact not_mirrored. Qed.

(** *** C114: values, gradient, bounds of the cubic parametrization *)

Theorem cubic_values_open : forall p k z, k <> 0 -> get_structure (set_k p k) = Ok z ->
  forall t, In t z -> 0 < t < 1.
Proof. exact structure_open. Qed.

Theorem cubic_uniform : forall init xq yq xs ys symm per periods lo up b p a k,
  grid_ok (ax0 per) xq -> grid_ok (ax1 per) yq -> covers xq xs -> covers yq ys ->
  cubic_param init xq yq xs ys symm per periods lo up b = Ok p ->
  exists m, (forall v, length v = m -> exists z, get_structure (set_vector p v) = Ok z) /\
    (forall v, length v <> m -> get_structure (set_vector p v) = Err ValueError) /\
    get_structure (set_k (set_vector p (repeat a m)) k)
    = Ok (repeat (if Req_EM_T k 0 then a else 1 / (1 + exp (- k * (2 * a - 1))))
            (length xs * length ys)).
Proof. exact structure_uniform. Qed.

Theorem cubic_gradient : forall init xq yq xs ys symm per periods lo up b p v w k,
  grid_ok (ax0 per) xq -> grid_ok (ax1 per) yq -> covers xq xs -> covers yq ys ->
  cubic_param init xq yq xs ys symm per periods lo up b = Ok p ->
  length w = length v ->
  (exists z, get_structure (set_k (set_vector p v) k) = Ok z) ->
  exists g, gradient (set_k (set_vector p v) k) w = Ok g /\ length g = (length xs * length ys)%nat /\
  exists f : R -> list R,
    (forall h, get_structure (set_k (set_vector p (along v h w)) k) = Ok (f h)) /\
    forall r, (r < length xs * length ys)%nat -> derivative_at_0 (fun h => nth r (f h) 0) (nth r g 0).
Proof. exact gradient_main. Qed.

Theorem cubic_project : forall p, c_lower p <= c_upper p ->
  length (c_vector (project p)) = length (c_vector p) /\
  get_bounds (project p)
  = (repeat (c_lower p) (length (c_vector p)), repeat (c_upper p) (length (c_vector p))) /\
  (forall r, (r < length (c_vector p))%nat ->
     c_lower p <= nth r (c_vector (project p)) 0 <= c_upper p /\
     forall t, c_lower p <= t <= c_upper p ->
       Rabs (nth r (c_vector (project p)) 0 - nth r (c_vector p) 0) <= Rabs (t - nth r (c_vector p) 0)).
Proof. exact project_main. Qed.

(** Without the sigmoid, control values within the bounds 0 and 1 give a structure
    above 1. *)
Theorem cubic_overshoot_refuted :
  exists p z, cubic_param (Array [0; 1; 1; 0; 1; 1; 0; 1; 1]) [0; 1; 2] [0; 1; 2] [3 / 2] [1]
      (Two false false) (Two false false) (Two 0 0)%nat 0 1 None = Ok p /\
    (forall t, In t (c_vector p) -> 0 <= t <= 1) /\
    get_structure (set_k p 0) = Ok z /\ exists t, In t z /\ 1 < t.
Proof. exact overshoot. Qed.

(** *** C115: parametrizations made for a design area *)

Theorem open_axis_grids : forall d u, (1 <= d)%nat -> 0 < u ->
  exists q f, fine_grid d = Ok f /\ coarse_creator d u 0 = Ok q /\ coarse_compat d u 0 = Ok q /\
    length f = d /\ equal_steps f 1 /\ balanced f 0 /\
    grid_ok false q /\ equal_steps q u /\ balanced q 0 /\ covers q f.
Proof.
  intros d u Hd Hu. destruct (open_axis Hd Hu) as (q & f & E1 & E2 & E3 & (A1 & A2 & A3 & A4 & A5 & A6 & _) & A7).
  exists q, f. auto 12.
Qed.

Theorem goos_parametrization : forall d0 d1 u symm periods init,
  0 < u -> goos_size d0 u (ax0 periods) -> goos_size d1 u (ax1 periods) ->
  (forall n, length (init n) = n) ->
  exists p n, create_goos d0 d1 u symm periods init = Ok p /\
    c_vector p = init n /\ c_k p = 0 /\
    (forall v, length v = n -> exists z, get_structure (set_vector p v) = Ok z) /\
    structures_ok d0 d1 symm periods p.
Proof. exact goos_created. Qed.

Theorem plan_parametrization : forall d0 d1 u symm periods init,
  0 < u -> plan_size d0 u (ax0 periods) -> plan_size d1 u (ax1 periods) ->
  (forall n m, length (init n m) = (n * m)%nat) ->
  let fit d p := p = 0%nat \/ (Z.to_nat (Rround ((INR d - 1) / u)) mod p)%nat = 0%nat in
  (fit d0 (ax0 periods) -> fit d1 (ax1 periods) ->
   exists p, create_plan d0 d1 u symm periods init = Ok p /\ c_k p = 4 /\
    (exists z, get_structure p = Ok z) /\
    structures_ok d0 d1 symm periods p) /\
  (~ (fit d0 (ax0 periods) /\ fit d1 (ax1 periods)) ->
   create_plan d0 d1 u symm periods init = Err ValueError).
Proof. exact plan_created. Qed.

(** 10 x 10 pixels in two periods, undersampled by 3: refused although 10 pixels
    divide into two periods. *)
Theorem plan_periods_refuted : forall init, (forall n m, length (init n m) = (n * m)%nat) ->
  create_plan 10 10 3 (Two false false) (Two 2 0)%nat init = Err ValueError.
Proof. exact plan_refused. Qed.

(** *** Examples *)

(** A nonuniform grid with a periodic x axis is accepted. *)
Example grid_example : grid_ok true [0; 1; 3] /\ grid_ok false [0; 1; 3] /\ covers [0; 1; 3] [0; / 2; 3].
Proof.
  assert (I : increasing [0; 1; 3]).
  { intros i j [H1 H2]. cbn in H2. destruct i as [| [| i]]; destruct j as [| [| [| j]]]; cbn; try lia; lra. }
  split; [split; [exact I | cbn; lia] |]. split; [split; [exact I | cbn; lia] |].
  split; [discriminate |]. intros t [<- | [<- | [<- | []]]]; unfold within; cbn; lra.
Qed.

(** 7 x 5 points, first axis periodic with two mirrored periods, second mirrored *)
Example geometry_example : exists geo rev,
  make_geometry_matrix (Two 7 5)%nat (Two true true) (Two true false) (Two 2 0)%nat false
  = Ok (geo, rev, Two 2 3)%nat /\
  map (at_ geo) (seq 0 6) = [0; 1; 1; 0; 1; 1]%nat /\ map (fun j => at_ geo (6 * j)) (seq 0 5) = [0; 2; 4; 2; 0]%nat.
Proof. eexists. eexists. split; [reflexivity |]. split; reflexivity. Qed.

Example geometry_refused_example :
  make_geometry_matrix (Two 6 5)%nat (Two true true) (Two true false) (Two 2 0)%nat false
  = Err ValueError.
Proof. reflexivity. Qed.

(** A design area of 12 x 8 pixels, two mirrored periods along x, undersampled by 2 *)
Example goos_example : exists p n,
  create_goos 12 8 2 (Two true true) (Two 2 0)%nat (fun n => repeat (/ 2) n) = Ok p /\
  (exists z, get_structure (set_vector p (repeat 1 n)) = Ok z) /\
  structures_ok 12 8 (Two true true) (Two 2 0)%nat p.
Proof.
  destruct (@goos_created 12 8 2 (Two true true) (Two 2 0)%nat (fun n => repeat (/ 2) n))
    as (p & n & E & _ & _ & H & S).
  - lra.
  - split; [lia |]. intros _. cbn. lra.
  - split; [lia |]. intros N. now elim N.
  - intros n. apply repeat_length.
  - exists p, n. split; [exact E |]. split; [| exact S]. apply H. apply repeat_length.
Qed.

(** The same in an optimization plan, with 13 pixels: 12 / 2 = 6 control points *)
Example plan_example : exists p,
  create_plan 13 8 2 (Two true true) (Two 2 0)%nat (fun n m => repeat (/ 2) (n * m)) = Ok p /\
  structures_ok 13 8 (Two true true) (Two 2 0)%nat p.
Proof.
  destruct (@plan_created 13 8 2 (Two true true) (Two 2 0)%nat (fun n m => repeat (/ 2) (n * m)))
    as [H _].
  - lra.
  - split; [lia |]. intros _. cbn. lra.
  - split; [lia |]. intros N. now elim N.
  - intros n m. apply repeat_length.
  - destruct H as (p & E & _ & _ & S).
    + right. cbn [ax0]. replace ((INR 13 - 1) / 2) with (IZR 6) by (cbn; lra).
      rewrite Rround_int. reflexivity.
    + now left.
    + exists p. split; [exact E | exact S].
Qed.

Print Assumptions cubic_interpolates.
Print Assumptions cubic_quadratics.
Print Assumptions cubic_constants.
Print Assumptions cubic_outside_refused.
Print Assumptions cubic_slopes.
Print Assumptions geometry_reaches_exactly.
Print Assumptions geometry_reads_back.
Print Assumptions geometry_misfit_refused.
Print Assumptions cubic_mirror_x.
Print Assumptions cubic_mirror_y.
Print Assumptions cubic_period_x.
Print Assumptions cubic_period_y.
Print Assumptions cubic_mirror_refuted.
Print Assumptions cubic_values_open.
Print Assumptions cubic_uniform.
Print Assumptions cubic_gradient.
Print Assumptions cubic_project.
Print Assumptions cubic_overshoot_refuted.
Print Assumptions open_axis_grids.
Print Assumptions goos_parametrization.
Print Assumptions plan_parametrization.
Print Assumptions plan_periods_refuted.
