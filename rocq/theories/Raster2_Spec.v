(** What rastering a polygon should compute: averages of the winding number. *)
From Coq Require Import Reals List QArith Qreals.
From Coquelicot Require Import Coquelicot.
From Verif Require Import QTac.
Import ListNotations.
Open Scope R_scope.

(** a vertex with rational coordinates as a point of the plane *)
Definition ptR (p : Q * Q) : R * R := (Q2R (fst p), Q2R (snd p)).
Definition ind {A B : Prop} (d : {A} + {B}) : R := if d then 1 else 0.
(** the edge from [a] to [b] passes height [y] upwards *)
Definition upwards (a b : R * R) (y : R) : R := ind (Rle_dec (snd a) y) * ind (Rlt_dec y (snd b)).
(** abscissa of the line through [a] and [b] at height [y] *)
Definition abscissa (a b : R * R) (y : R) : R := fst a + (fst b - fst a) * ((y - snd a) / (snd b - snd a)).
(** signed crossing of the ray from (x, y) to the left with the edge from [a] to [b] *)
Definition crossing (a b : R * R) (x y : R) : R := (upwards b a y - upwards a b y) * ind (Rlt_dec (abscissa a b y) x).
(** the edges of a polygon, the last one from the last vertex to the first *)
Definition polygon_edges {A} (P : list A) : list (A * A) := combine P (tl P ++ firstn 1 P).
(** winding number of a polygon around a point *)
Definition winding (P : list (R * R)) (x y : R) : R :=
  fold_right Rplus 0 (map (fun e => crossing (fst e) (snd e) x y) (polygon_edges P)).
(** average of a function over a rectangle *)
Definition average (f : R -> R -> R) (x0 x1 y0 y1 : R) : R :=
  RInt (fun y => RInt (fun x => f x y) x0 x1) y0 y1 / ((x1 - x0) * (y1 - y0)).
(** 1 where a polygon winds around a point, 0 elsewhere *)
Definition enclosed (P : list (R * R)) (x y : R) : R := if Req_EM_T (winding P x y) 0 then 0 else 1.
(** a polygon that winds around every point at most once, and always the same way *)
Definition simple (P : list (R * R)) : Prop :=
  exists s, (s = 1 \/ s = -1) /\ forall x y, winding P x y = 0 \/ winding P x y = s.
(** edges of at least one cell, in increasing order *)
Definition grid_ok (g : list Q) : Prop := increasing g /\ (2 <= length g)%nat.
(** average over the cell (i, j) of a grid *)
Definition pixel_average (f : R -> R -> R) (gx gy : list Q) (i j : nat) : R :=
  average f (Q2R (qn gx i)) (Q2R (qn gx (i + 1))) (Q2R (qn gy j)) (Q2R (qn gy (j + 1))).
