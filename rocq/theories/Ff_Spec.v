(** Vocabulary of the statements about far fields. *)
From Coq Require Import Reals.
From Verif Require Import Base GMath_Model CplxField Ff_Model.
From Verif Require Obj_Model.
Set Implicit Arguments.
Local Open Scope R_scope.

(** the corners of a triangle of a mesh *)
Definition has_corners (pts : list vec3) (t : tri) (a b c : vec3) : Prop :=
  let '(i, j, k) := t in nth_error pts i = Some a /\ nth_error pts j = Some b /\ nth_error pts k = Some c.
(** x a + y b + z c *)
Definition combination (x y z : R) (a b c : vec3) : vec3 :=
  (x * px a + y * px b + z * px c, x * py a + y * py b + z * py c, x * pz a + y * pz b + z * pz c).
(** The direction [v] passes through the triangle, or through its interior. *)
Definition through (pts : list vec3) (t : tri) (v : vec3) : Prop :=
  exists a b c x y z, has_corners pts t a b c /\ 0 <= x /\ 0 <= y /\ 0 <= z /\ v = combination x y z a b c.
Definition through_interior (pts : list vec3) (t : tri) (v : vec3) : Prop :=
  exists a b c x y z, has_corners pts t a b c /\ 0 < x /\ 0 < y /\ 0 < z /\ v = combination x y z a b c.
(** A triangulation of the directions satisfying [dom]: distinct points of the unit sphere, all used;
    triangles with corners among them and a positive area; every direction of [dom] passes through a
    triangle, and no direction through the interiors of two. *)
Record triangulation (pts : list vec3) (ts : list tri) (dom : vec3 -> Prop) : Prop := {
  t_distinct : NoDup pts;
  t_unit : forall p, In p pts -> px p * px p + py p * py p + pz p * pz p = 1;
  t_used : forall i, (i < length pts)%nat -> exists t, In t ts /\ (i = fst (fst t) \/ i = snd (fst t) \/ i = snd t);
  t_corners : forall t, In t ts -> exists a b c, has_corners pts t a b c /\ 0 < area a b c;
  t_cover : forall v, dom v -> exists t, In t ts /\ through pts t v;
  t_disjoint : forall i j t t' v, nth_error ts i = Some t -> nth_error ts j = Some t' ->
     through_interior pts t v -> through_interior pts t' v -> i = j
}.
(** [ph] is an angle of the direction (x, y) *)
Definition azimuth (x y ph : R) : Prop := exists r, 0 < r /\ x = r * cos ph /\ y = r * sin ph.
(** [th] is the angle between [p] and the third axis *)
Definition polar (p : vec3) (th : R) : Prop := 0 <= th <= PI /\ pz p = norm p * cos th.
(** The power of a far field: [y] lists the radial, polar and azimuthal components at all points; a
    triangle carries its area times the average of the intensity over its corners. *)
Definition corner (pts : list vec3) (i : nat) : vec3 := nth i pts (0, 0, 0).
Definition intensity (pts : list vec3) (y : list C) (i : nat) : R :=
  cabs (nth (length pts + i) y (creal 0)) ^ 2 + cabs (nth (length pts + length pts + i) y (creal 0)) ^ 2.
Definition triangle_power (pts : list vec3) (y : list C) (t : tri) : R :=
  let '(i, j, k) := t in
  area (corner pts i) (corner pts j) (corner pts k) * ((intensity pts y i + intensity pts y j + intensity pts y k) / 3).
Definition power (pts : list vec3) (y : list C) (ts : list tri) : R := Obj_Model.rsum (map (triangle_power pts y) ts).
(** the triangle is selected by the bounds *)
Definition inside (pts : list vec3) (th0 th1 ph0 ph1 : R) (t : tri) : bool :=
  let '(i, j, k) := t in selected th0 th1 ph0 ph1 (corner pts i) (corner pts j) (corner pts k).
