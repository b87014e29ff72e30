(** What rendering blocks should compute: averages over cells of the material at each point. *)
From Coq Require Import Reals List QArith Qreals.
From Coquelicot Require Import Coquelicot.
From Verif Require Import QTac Raster2_Model Raster2_Spec Grid_Model Layer_Model.
Import ListNotations.
Open Scope R_scope.

(** average of a function over a box *)
Definition average3 (f : R -> R -> R -> R) (x0 x1 y0 y1 z0 z1 : R) : R :=
  RInt (fun z => average (fun x y => f x y z) x0 x1 y0 y1) z0 z1 / (z1 - z0).
(** the block contains the point *)
Definition contains (b : block) (x y z : R) : Prop :=
  enclosed (map ptR (b_poly b)) x y = 1 /\ Q2R (b_lo b) <= z < Q2R (b_hi b).
Definition contains_dec b x y z : {contains b x y z} + {~ contains b x y z}.
Proof.
  unfold contains. destruct (Req_EM_T (enclosed (map ptR (b_poly b)) x y) 1); [|right; tauto].
  destruct (Rle_dec (Q2R (b_lo b)) z); [|right; tauto]. destruct (Rlt_dec z (Q2R (b_hi b))); [left|right]; tauto.
Defined.
(** the permittivity of the last block drawn over the point, else the background *)
Definition material (n : nat) (bg : R) (bs : list block) (x y z : R) : R :=
  fold_left (fun m b => if contains_dec b x y z then Q2R (qn (b_eps b) n) else m) bs bg.

(** what results when every block adds its contrast to the background, however they overlap *)
Definition overlay (n : nat) (bg : R) (bs : list block) (x y z : R) : R :=
  bg + fold_right Rplus 0 (map (fun b => if contains_dec b x y z then Q2R (qn (b_eps b) n) - bg else 0) bs).

(** edges of an axis: at least one cell; the shifts of the two grids.  Both (0, 1/2) and
    (1/2, 0), the pairs of the Yee grid, are allowed. *)
Definition axis_ok (a : axis) : Prop :=
  grid_ok (a_edges a) /\ (0 <= a_shift a /\ a_shift a < 1)%Q /\
  (a_comp a == 0 \/ 0 < a_comp a /\ a_shift a <= a_comp a /\ a_comp a < 1)%Q.
Definition component_ok (c : component) : Prop := axis_ok (c_x c) /\ axis_ok (c_y c) /\ axis_ok (c_z c).
(** edges of the cells, those of the complementary grid *)
Definition cell_edges (a : axis) : list Q := shifted_edges (a_edges a) (a_periodic a) true (a_comp a).
Definition cell_average (f : R -> R -> R -> R) (c : component) (i j k : nat) : R :=
  let e a n := Q2R (qn (cell_edges a) n) in
  average3 f (e (c_x c) i) (e (c_x c) (i + 1)%nat) (e (c_y c) j) (e (c_y c) (j + 1)%nat) (e (c_z c) k) (e (c_z c) (k + 1)%nat).
Definition in_grid (c : component) (i j k : nat) : Prop :=
  (i < num_cells (c_x c))%nat /\ (j < num_cells (c_y c))%nat /\ (k < num_cells (c_z c))%nat.

(** polygons for which rastering is exact *)
Definition usable (p : polygon) : Prop :=
  (3 <= length p)%nat /\ (exists u v, In u p /\ In v p /\ (fst u < fst v)%Q) /\ simple (map ptR p).
(** the external polygon subtraction is right on a set of polygons *)
Definition clipper_ok (boolean_not : polygon -> polygon -> list polygon) (good : polygon -> Prop) : Prop :=
  (forall p, good p -> usable p) /\
  (forall p q, good p -> good q -> (forall r, In r (boolean_not p q) -> good r) /\
   forall x y, fold_right Rplus 0 (map (fun r => enclosed (map ptR r) x y) (boolean_not p q))
               = enclosed (map ptR p) x y * (1 - enclosed (map ptR q) x y)).
(** rectangles along the axes *)
Definition rect (a b c d : Q) : polygon := [(a, d); (b, d); (b, c); (a, c)].
Definition is_rect (p : polygon) : Prop := exists a b c d, (a < b)%Q /\ (c < d)%Q /\ p = rect a b c d.
