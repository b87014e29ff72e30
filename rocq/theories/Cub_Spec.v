(** What the user is told about control points, periods and mirror symmetry. *)
From Coq Require Import Reals Lra.
From Verif Require Import Base Cub_Model.
Set Implicit Arguments.
Open Scope R_scope.

(** Number of independent control points along an axis of [n] grid points: the
    last one repeats the first if the axis is periodic. *)
Definition independent (per : bool) (n : nat) : nat :=
  (n - if per then 1 else 0)%nat.

(** An array along an axis of [n] points, repeated [p] times ([p = 0]: no
    repetition asked for) and mirrored ([s]).  Without periods the mirror
    exchanges point i and n - 1 - i; with periods it exchanges the points at
    equal distance from the first point, on both sides. *)
Definition keeps (p : nat) (s : bool) (n : nat) (f : nat -> R) : Prop :=
  (p <> 0%nat -> forall i, (i + n / p < n)%nat -> f (i + n / p)%nat = f i) /\
  (s = true -> p = 0%nat -> forall i, (i < n)%nat -> f (n - 1 - i)%nat = f i) /\
  (s = true -> p <> 0%nat -> forall i, (0 < i < n)%nat -> f (n - i)%nat = f i).

(** The size fits the number of periods. *)
Definition fits (p n : nat) : Prop := p = 0%nat \/ exists m, n = (m * p)%nat.

(** A coarse grid that the interpolation accepts: increasing coordinates, at
    least three of them (two if the axis is periodic). *)
Definition increasing (q : list R) : Prop :=
  forall i j, (i < j < length q)%nat -> nth i q 0 < nth j q 0.
Definition grid_ok (per : bool) (q : list R) : Prop :=
  increasing q /\ (if per then 2 <= length q else 3 <= length q)%nat.

(** A point within a coarse grid; a fine grid within a coarse grid. *)
Definition within (q : list R) (t : R) : Prop :=
  nth 0 q 0 <= t <= nth (length q - 1) q 0.
Definition covers (q l : list R) : Prop := l <> [] /\ forall t, In t l -> within q t.

(** [f], [fx] and [fy] are what the three interpolation matrices compute from the
    control values [v], on every fine grid within the coarse grid. *)
Definition surface_of (xq yq : list R) (per : two bool) (v : nat -> R)
    (f fx fy : R -> R -> R) : Prop :=
  forall xs ys, covers xq xs -> covers yq ys ->
  exists m, cubic_matrices xs ys xq yq per = Ok m /\
    m v = flat_map (fun y => map (fun x => (f x y, fx x y, fy x y)) xs) ys.

(** [l] is the slope of [f] at [t], for a function defined on [a, b]. *)
Definition slope_at (a b : R) (f : R -> R) (t l : R) : Prop :=
  forall eps, 0 < eps -> exists delta, 0 < delta /\
  forall h, h <> 0 -> Rabs h < delta -> a <= t + h <= b ->
    Rabs ((f (t + h) - f t) / h - l) < eps.

(** Entry (i, j) of a result stored with x fastest, [n] points along x. *)
Definition entry (n : nat) (z : list R) (i j : nat) : R := nth (i + n * j) z 0.

(** A grid mirrored at [c]: the points lie at equal distances on both sides. *)
Definition balanced (q : list R) (c : R) : Prop :=
  forall i, (i < length q)%nat -> nth (length q - 1 - i) q 0 - c = c - nth i q 0.

(** A grid with equal steps [d]. *)
Definition equal_steps (q : list R) (d : R) : Prop :=
  forall i, (S i < length q)%nat -> nth (S i) q 0 - nth i q 0 = d.

(** [l] is the derivative of [f] at 0. *)
Definition derivative_at_0 (f : R -> R) (l : R) : Prop :=
  forall eps, 0 < eps -> exists delta, 0 < delta /\
  forall h, h <> 0 -> Rabs h < delta -> Rabs ((f h - f 0) / h - l) < eps.

(** v + h w *)
Definition along (v : list R) (h : R) (w : list R) : list R :=
  map (fun t => fst t + h * snd t) (combine v w).

(** Whatever the control values [v] and the steepness [k]: a structure of d0 x d1
    pixels, mirrored along the axes that ask for it, and repeated along an axis
    whose number of pixels is a multiple of the number of periods. *)
Definition structures_ok (d0 d1 : nat) (symm : two bool) (periods : two nat) (p : cparam) : Prop :=
  forall v k z, get_structure (set_k (set_vector p v) k) = Ok z ->
    length z = (d0 * d1)%nat /\
    (ax0 symm = true -> forall i j, (i < d0)%nat -> (j < d1)%nat ->
       entry d0 z (d0 - 1 - i) j = entry d0 z i j) /\
    (ax1 symm = true -> forall i j, (i < d0)%nat -> (j < d1)%nat ->
       entry d0 z i (d1 - 1 - j) = entry d0 z i j) /\
    (forall m, d0 = (m * ax0 periods)%nat -> forall i j, (i + m < d0)%nat -> (j < d1)%nat ->
       entry d0 z (i + m) j = entry d0 z i j) /\
    (forall m, d1 = (m * ax1 periods)%nat -> forall i j, (i < d0)%nat -> (j + m < d1)%nat ->
       entry d0 z i (j + m) = entry d0 z i j).

(** Design areas large enough for the coarse grid, undersampled by [u]; only
    periodic axes need it. *)
Definition plan_size (d : nat) (u : R) (p : nat) : Prop :=
  (1 <= d)%nat /\ (p <> 0%nat -> u / 2 < INR d - 1).
Definition goos_size (d : nat) (u : R) (p : nat) : Prop :=
  (1 <= d)%nat /\ (p <> 0%nat -> INR p * u / 2 < INR d).
