(** C25 (raster_1D) and C26 (get_rendering_matrix_1d). *)
From Verif Require Import QTac Raster_Model Raster_Spec Raster_Proofs.
Open Scope Q_scope.

(** *** C25 *)
Theorem raster_1D_exact : forall a b g, increasing g -> (2 <= length g)%nat ->
  exists l, raster_1D [a; b] g = Ok l /\ length l = (length g - 1)%nat /\
  forall j, (j < length g - 1)%nat -> qn l j == covered (qmin a b) (qmax a b) g j.
Proof. exact raster_1D_pf. Qed.
Theorem raster_1D_errors : forall poly g,
  raster_1D poly g = Err ValueError <-> (length poly <> 2%nat \/ (length g < 2)%nat).
Proof. exact raster_1D_errors_pf. Qed.

(** *** C26 *)
Theorem rendering_entry : forall s g r c, increasing g -> nondecreasing s ->
  (r < length g - 1)%nat -> (c < length s - 1)%nat ->
  entry (rendering_matrix_1d s g) r c
  == overlap (qn s c) (qn s (c + 1)) (qn g r) (qn g (r + 1)) / (qn g (r + 1) - qn g r).
Proof. exact rendering_entry_pf. Qed.
Theorem rendering_indices : forall s g t, nondecreasing s -> increasing g -> In t (rendering_matrix_1d s g) ->
  (fst (fst t) < length g - 1)%nat /\ (snd (fst t) < length s - 1)%nat.
Proof. exact rendering_indices_pf. Qed.
Theorem rendering_rows : forall s g r, increasing g -> nondecreasing s -> (1 <= length s)%nat -> (r < length g - 1)%nat ->
  (qn s 0 <= qn g r -> qn g (r + 1) <= qn s (length s - 1) -> sumn (length s - 1) (entry (rendering_matrix_1d s g) r) == 1) /\
  (qn s (length s - 1) <= qn g r \/ qn g (r + 1) <= qn s 0 -> sumn (length s - 1) (entry (rendering_matrix_1d s g) r) == 0).
Proof. exact render_rows_pf. Qed.
(** the rendered values are the matrix times the pixel values *)
Theorem rendering_values : forall s g v r, increasing g -> nondecreasing s -> (r < length g - 1)%nat ->
  mat_row (rendering_matrix_1d s g) r v ==
  sumn (length s - 1) (fun c => overlap (qn s c) (qn s (c + 1)) (qn g r) (qn g (r + 1)) / (qn g (r + 1) - qn g r) * qn v c).
Proof. exact render_apply_pf. Qed.
Theorem rendering_constant : forall s g r k v, increasing g -> nondecreasing s -> (1 <= length s)%nat -> (r < length g - 1)%nat ->
  (forall c, (c < length s - 1)%nat -> qn v c == k) ->
  mat_row (rendering_matrix_1d s g) r v == k * covered (qn s 0) (qn s (length s - 1)) g r.
Proof. exact render_constant_pf. Qed.
Theorem rendering_within_bounds : forall s g r lo hi v, increasing g -> nondecreasing s -> (1 <= length s)%nat ->
  (r < length g - 1)%nat -> qn s 0 <= qn g r -> qn g (r + 1) <= qn s (length s - 1) ->
  (forall c, (c < length s - 1)%nat -> lo <= qn v c <= hi) ->
  lo <= mat_row (rendering_matrix_1d s g) r v <= hi.
Proof. exact render_bounds_pf. Qed.

(** *** Concrete cases *)
Definition g4 : list Q := [0; 1; 3; 4].
Example g4_increasing : increasing g4.
Proof.
  intros i j [H1 H2]. simpl in H2. destruct j as [|[|[|[|j]]]]; [lia| | | |lia];
    destruct i as [|[|[|i]]]; try lia; reflexivity.
Qed.
Example raster_case : raster_1D [7 # 2; 1 # 2] g4 = Ok [(1 - (1#2)) / (1 - 0); 1; ((7#2) - 3) / (4 - 3)].
Proof. reflexivity. Qed.
Definition s3 : list Q := [1 # 2; 2; 5].
Example s3_nondecreasing : nondecreasing s3.
Proof.
  intros i j [H1 H2]. simpl in H2. destruct j as [|[|[|j]]]; [|  | |lia];
    destruct i as [|[|[|i]]]; try lia; vm_compute; discriminate.
Qed.
Example rendering_case : map (fun r => map (fun c => Qred (entry (rendering_matrix_1d s3 g4) r c)) [0; 1]%nat) [0; 1; 2]%nat
  = [[1 # 2; 0]; [1 # 2; 1 # 2]; [0; 1]].
Proof. reflexivity. Qed.

Print Assumptions raster_1D_exact.
Print Assumptions raster_1D_errors.
Print Assumptions rendering_entry.
Print Assumptions rendering_indices.
Print Assumptions rendering_rows.
Print Assumptions rendering_values.
Print Assumptions rendering_constant.
Print Assumptions rendering_within_bounds.
