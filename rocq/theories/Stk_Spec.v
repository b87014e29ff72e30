(** The material that a layout specifies at each point. *)
From Coq Require Import Reals QArith Qreals ZArith List.
From Verif Require Import Base QTac Raster2_Model Raster2_Spec Grid_Model Layer_Model Layer_Spec Slice_Model Slice_Spec Stk_Model.
Import ListNotations.
Open Scope R_scope.

(** the integer nearest to a number, of two such the even one *)
Definition nearest (q : Q) (z : Z) : Prop :=
  Rabs (Q2R q - IZR z) <= 1 / 2 /\ (Rabs (Q2R q - IZR z) = 1 / 2 -> Z.even z = true).
Definition inside (lo hi : Q) (z : R) : Prop := Q2R lo < z < Q2R hi.
(** the point is in one of the polygons, in nanometers *)
Definition in_polygons (ps : list polygon) (x y : R) : Prop := exists p, In p ps /\ enclosed (map ptR (to_nm p)) x y = 1.
Section Layout.
Variables (material_spec layer : Type) (perm : material_spec -> res Q) (layers : layer -> list polygon).
Local Notation element := (element material_spec layer).
Local Notation mesh := (mesh material_spec layer).
(** permittivity inside of an element: foreground in its polygons, else background *)
Definition element_shows (e : element) (x y : R) (m : R) : Prop :=
  (in_polygons (layers (e_layer e)) x y /\ exists q, perm (e_fg e) = Ok q /\ m = Q2R q) \/
  (~ in_polygons (layers (e_layer e)) x y /\ exists q, perm (e_bg e) = Ok q /\ m = Q2R q).
(** the last element of the stack at the height of the point decides, else what was there *)
Definition stack_shows (stack : list element) (before : R) (x y z m : R) : Prop :=
  (exists pre e post, stack = pre ++ e :: post /\ inside (e_lo e) (e_hi e) z /\
     (forall e', In e' post -> ~ inside (e_lo e') (e_hi e') z) /\ element_shows e x y m) \/
  ((forall e, In e stack -> ~ inside (e_lo e) (e_hi e) z) /\ m = before).
Definition mesh_contains (k : mesh) (x y z : R) : Prop :=
  match k with MSlab lo hi _ => inside lo hi z | MGds l lo hi _ => inside lo hi z /\ in_polygons (layers l) x y | MOther _ => False end.
(** the last mesh that contains the point decides *)
Definition meshes_show (ms : list mesh) (before : R) (x y z m : R) : Prop :=
  (exists pre k post q, ms = pre ++ k :: post /\ mesh_contains k x y z /\ (forall k', In k' post -> ~ mesh_contains k' x y z) /\
     perm (mesh_material k) = Ok q /\ m = Q2R q) \/
  ((forall k, In k ms -> ~ mesh_contains k x y z) /\ m = before).
(** what can be drawn *)
Definition polygons_ok (ps : list polygon) : Prop := forall p, In p ps -> (3 <= length p)%nat.
Definition element_ok (e : element) : Prop := (e_lo e < e_hi e)%Q /\ polygons_ok (layers (e_layer e)).
Definition mesh_ok (k : mesh) : Prop :=
  match k with MSlab lo hi _ => (lo < hi)%Q | MGds l lo hi _ => ((lo < hi)%Q \/ layers l = []) /\ polygons_ok (layers l) | MOther _ => False end.
(** the materials have a permittivity *)
Definition has_perm (m : material_spec) : Prop := exists q, perm m = Ok q.
Definition element_known (e : element) : Prop := has_perm (e_bg e) /\ has_perm (e_fg e).
(** not on the top or bottom of anything *)
Definition off (lo hi : Q) (z : R) : Prop := z <> Q2R lo /\ z <> Q2R hi.
Definition mesh_off (k : mesh) (z : R) : Prop := match k with MSlab lo hi _ => off lo hi z | MGds _ lo hi _ => off lo hi z | MOther _ => True end.
End Layout.
(** inside of the grid along the axes across the extrusion axis *)
Definition in_plane (exyz : nat -> list Q) (ext : nat) (p : nat -> R) : Prop := forall a, (a < 3)%nat -> a <> ext -> within (exyz a) (p a).
(** the permittivity of component n drawn at the point p *)
Definition drawn (ext n : nat) (before : R) (bs : list block) (p : nat -> R) : R :=
  material n before bs (p (fst (across ext))) (p (snd (across ext))) (p ext).
(** the point is strictly inside of cell (i, j, k) of a component *)
Definition in_open_cell (c : component) (i j k : nat) (x y z : R) : Prop :=
  let e a t := Q2R (qn (cell_edges a) t) in
  e (c_x c) i < x < e (c_x c) (i + 1)%nat /\ e (c_y c) j < y < e (c_y c) (j + 1)%nat /\ e (c_z c) k < z < e (c_z c) (k + 1)%nat.
(** points of the cell are within the grid across the extrusion axis *)
Definition cell_in_plane (exyz : nat -> list Q) (ext : nat) (c : component) (i j k : nat) : Prop :=
  forall x y z, in_open_cell c i j k x y z -> within (exyz (fst (across ext))) x /\ within (exyz (snd (across ext))) y.
