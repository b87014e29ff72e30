(** C83: rastering a polygon. *)
From Coq Require Import Reals Lia List QArith Qreals.
From Verif Require Import QTac Raster2_Model Raster2_Spec Raster2_Proofs7.
From Coq Require Import Lra.
Open Scope R_scope.

(** a polygon with two different abscissae: every pixel is the absolute value of the
    average winding number over its cell *)
Theorem raster_2D_average : forall poly gx gy, grid_ok gx -> grid_ok gy ->
  (exists p q, In p poly /\ In q poly /\ (fst p < fst q)%Q) ->
  exists r, raster_2D poly gx gy = Ok r /\ length r = (length gx - 1)%nat /\
  (forall row, In row r -> length row = (length gy - 1)%nat) /\
  forall i j, (i < length gx - 1)%nat -> (j < length gy - 1)%nat ->
  Q2R (pixel r i j) = Rabs (pixel_average (winding (map ptR poly)) gx gy i j).
Proof. exact raster_2D_average_pf. Qed.
(** a simple polygon: every pixel is the covered fraction of its cell *)
Theorem raster_2D_covered : forall poly gx gy r, grid_ok gx -> grid_ok gy ->
  (exists p q, In p poly /\ In q poly /\ (fst p < fst q)%Q) ->
  simple (map ptR poly) -> raster_2D poly gx gy = Ok r ->
  forall i j, (i < length gx - 1)%nat -> (j < length gy - 1)%nat ->
  Q2R (pixel r i j) = pixel_average (enclosed (map ptR poly)) gx gy i j /\ (0 <= pixel r i j <= 1)%Q.
Proof. exact raster_2D_simple_pf. Qed.
Theorem raster_2D_orientation : forall poly gx gy, grid_ok gx -> grid_ok gy ->
  (exists p q, In p poly /\ In q poly /\ (fst p < fst q)%Q) ->
  exists r r', raster_2D poly gx gy = Ok r /\ raster_2D (rev poly) gx gy = Ok r' /\
  forall i j, (i < length gx - 1)%nat -> (j < length gy - 1)%nat -> (pixel r i j == pixel r' i j)%Q.
Proof. exact raster_2D_rev_pf. Qed.
Theorem raster_2D_start : forall v poly gx gy, grid_ok gx -> grid_ok gy ->
  (exists p q, In p (v :: poly) /\ In q (v :: poly) /\ (fst p < fst q)%Q) ->
  exists r r', raster_2D (v :: poly) gx gy = Ok r /\ raster_2D (poly ++ [v]) gx gy = Ok r' /\
  forall i j, (i < length gx - 1)%nat -> (j < length gy - 1)%nat -> (pixel r i j == pixel r' i j)%Q.
Proof. exact raster_2D_rotate_pf. Qed.
Theorem raster_2D_errors : forall poly gx gy,
  raster_2D poly gx gy = Err ValueError <-> (length gx < 2)%nat \/ (length gy < 2)%nat \/ poly = [].
Proof. exact raster_2D_errors_pf. Qed.
(** vertices on one vertical line enclose nothing but cover a cell ten times *)
Theorem raster_2D_vertical_refuted : exists poly gx gy r, grid_ok gx /\ grid_ok gy /\
  raster_2D poly gx gy = Ok r /\ (forall p, In p poly -> (fst p == 1 # 2)%Q) /\ exists i j, (pixel r i j == 10)%Q.
Proof. exact raster_2D_vertical_refuted_pf. Qed.
(** the two halves of a bow tie cancel *)
Theorem raster_2D_bow_tie_refuted : exists poly gx gy r, grid_ok gx /\ grid_ok gy /\
  raster_2D poly gx gy = Ok r /\ (pixel r 0 0 == 0)%Q /\
  exists x0 x1 y0 y1, Q2R (qn gx 0) <= x0 < x1 /\ x1 <= Q2R (qn gx 1) /\ Q2R (qn gy 0) <= y0 < y1 /\ y1 <= Q2R (qn gy 1) /\
  forall x y, x0 < x < x1 -> y0 < y < y1 -> enclosed (map ptR poly) x y = 1.
Proof. exact raster_2D_bow_tie_refuted_pf. Qed.

(** *** Concrete cases *)
Example triangle_grid_ok : grid_ok [0; 1; 2; 3]%Q /\ grid_ok [0; 1; 2]%Q.
Proof. split; [apply grid_check; vm_compute; reflexivity|apply grid_check; vm_compute; reflexivity]. Qed.
Example triangle_case : match raster_2D [(1#2,1#2);(5#2,1#2);(1,3)]%Q [0; 1; 2; 3]%Q [0; 1; 2]%Q with
  | Ok r => map (map Qred) r | Err _ => [] end = [[9#40; 3#10]; [1#2; 13#15]; [7#40; 1#30]]%Q.
Proof. vm_compute. reflexivity. Qed.
Example simple_case : simple (map ptR [(0,0);(2,0);(0,2)]%Q).
Proof. exact simple_triangle. Qed.

Print Assumptions raster_2D_average.
Print Assumptions raster_2D_covered.
Print Assumptions raster_2D_orientation.
Print Assumptions raster_2D_start.
Print Assumptions raster_2D_errors.
Print Assumptions raster_2D_vertical_refuted.
Print Assumptions raster_2D_bow_tie_refuted.
