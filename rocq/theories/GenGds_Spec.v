(** Vocabulary for the export of polygons, independent of the model. *)
From Verif Require Import QTac.
Section Spec.
Variable region : Type.
Variable inside : (Q * Q) -> region -> bool.
(** boolean NOT is exact: unless nothing is left, the result is the set difference *)
Definition exact_not (not_of : option region -> list region -> option region) : Prop :=
  forall r l, (exists x, inside x r = true /\ forall s, In s l -> inside x s = false) ->
  exists r', not_of (Some r) l = Some r' /\ forall x, inside x r' = inside x r && negb (existsb (inside x) l).
(** a polygon, by its first vertex and the region it encloses *)
Definition shape := ((Q * Q) * region)%type.
(** [b] lies in [a], which has its first vertex outside [b] *)
Definition within (a b : shape) : Prop := (forall x, inside x (snd b) = true -> inside x (snd a) = true) /\ inside (fst a) (snd b) = false.
Definition apart (a b : shape) : Prop := forall x, inside x (snd a) = true -> inside x (snd b) = false.
(** contours: any two polygons are nested or disjoint *)
Definition contours (l : list shape) : Prop :=
  Forall (fun a => inside (fst a) (snd a) = true) l /\
  ForallOrdPairs (fun a b => within a b \/ within b a \/ apart a b) l.
(** the polygon [a] contains the first vertex of [b] and not the other way round *)
Definition holds (a b : shape) : bool := inside (fst b) (snd a) && negb (inside (fst a) (snd b)).
(** polygons directly inside [a] *)
Definition direct (l : list shape) (a : shape) : list shape :=
  filter (fun b => holds a b && negb (existsb (fun c => holds a c && holds c b) l)) l.
(** among polygons that contain others, outer ones have at least as many polygons directly inside *)
Definition outer_have_more (l : list shape) : Prop :=
  forall a b, In a l -> In b l -> holds a b = true -> direct l b <> [] -> (length (direct l b) <= length (direct l a))%nat.
(** the polygons of the input, in microns *)
Definition in_microns (poly : list (Q * Q)) : list (Q * Q) := map (fun v => (fst v / 1000, snd v / 1000)%Q) poly.
Variable polygon_of : list (Q * Q) -> region.
Definition outline (poly : list (Q * Q)) : shape := (hd (0, 0)%Q (in_microns poly), polygon_of (in_microns poly)).
(** number of regions a point lies in *)
Definition depth (x : Q * Q) (rs : list region) : nat := length (filter (inside x) rs).
End Spec.
Arguments exact_not {region}. Arguments within {region}. Arguments apart {region}. Arguments contours {region}.
Arguments holds {region}. Arguments direct {region}. Arguments outer_have_more {region}. Arguments depth {region}. Arguments outline {region}.
