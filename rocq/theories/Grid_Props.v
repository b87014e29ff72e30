(** C28 (simulation grids), C29 (region slices), C58 (pixels of a shape), C59 (shifted grids). *)
From Coq Require Import Qround.
From Verif Require Import QTac Grid_Model Grid_Proofs.
Open Scope Q_scope.

(** *** C28 *)
(** goos: edges are uniformly spaced and centred on [c] *)
Theorem edge_coords_centred : forall ext c dx sym, 0 < dx ->
  let e := create_edge_coords ext c dx sym in
  (1 <= length e)%nat /\ forall i, (i < length e)%nat -> qn e i == c + (qnat i - qnat (length e - 1) / 2) * dx.
Proof. exact edge_coords_pf. Qed.
(** goos, no symmetry: the total length differs from the requested one by at most half a cell *)
Theorem edge_coords_cover : forall ext c dx, 0 < dx ->
  let n := (length (create_edge_coords ext c dx false) - 1)%nat in
  (1 <= n)%nat /\ qmax ext dx - dx / 2 <= qnat n * dx /\ qnat n * dx < qmax ext dx + dx / 2.
Proof. exact edge_coords_cover_pf. Qed.
(** goos, symmetric axis: an even number of cells, rounded down *)
Theorem edge_coords_symmetric : forall ext c dx, 0 < dx ->
  let n := (length (create_edge_coords ext c dx true) - 1)%nat in
  Nat.even n = true /\ qnat n * dx <= qmax ext dx /\ qmax ext dx < qnat n * dx + 2 * dx.
Proof. exact edge_coords_sym_pf. Qed.
Theorem edge_coords_symmetric_degenerate : forall ext c dx, 0 < dx -> ext < 2 * dx ->
  length (create_edge_coords ext c dx true) = 1%nat.
Proof. exact edge_coords_sym_degenerate_pf. Qed.
(** invdes: the grid starts half a cell below the region *)
Theorem edge_coords_invdes_uniform : forall ext c dx, 0 < dx -> 0 <= ext ->
  let e := create_edge_coords_invdes ext c dx in
  let n := (length e - 1)%nat in
  (1 <= length e)%nat /\
  (forall i, (i < length e)%nat -> qn e i == c - ext / 2 - dx / 2 + qnat i * dx) /\
  ext <= qnat n * dx /\ qnat n * dx < ext + dx.
Proof. exact edge_coords_invdes_pf. Qed.
Theorem edge_coords_invdes_centred_refuted : exists ext c dx, 0 < dx /\ 0 < ext /\
  let e := create_edge_coords_invdes ext c dx in
  ~ (qn e 0 + qlast e) / 2 == c /\ qlast e < c + ext / 2.
Proof. exists 4, 0, 1. repeat split; vm_compute; congruence. Qed.

(** *** C29 *)
Theorem region_slice_covers : forall e, increasing e -> (2 <= length e)%nat -> forall center extent, 0 <= extent ->
  let n := (length e - 1)%nat in
  let mn := center - extent / 2 in let mx := center + extent / 2 in
  mn <= qlast e -> qn e 0 <= mx ->
  exists i0 i1, region_slice e center extent = Ok (i0, i1) /\ (i0 < i1 <= n)%nat /\
    (* every cell that reaches into the region and ends inside it is selected *)
    (forall k, (k < n)%nat -> mn < qn e (k + 1) -> qn e (k + 1) <= mx -> (i0 <= k < i1)%nat) /\
    (* past the first cell, only cells ending inside are selected, or the last cell of
       the grid if its centre lies below the region's end *)
    (forall k, (i0 <= k < i1)%nat -> k = i0 \/ qn e (k + 1) <= mx \/ (k + 1 = n)%nat /\ (qn e k + qn e (k + 1)) / 2 < mx) /\
    (mn < (qn e 0 + qn e 1) / 2 /\ i0 = 0%nat \/ qn e i0 <= mn).
Proof. exact slice_pf. Qed.
Theorem region_slice_outside : forall e, increasing e -> (2 <= length e)%nat -> forall center extent, 0 <= extent ->
  (2 <= length e - 1)%nat ->
  (qlast e < center - extent / 2 \/ center + extent / 2 < qn e 0) -> region_slice e center extent = Err GridError.
Proof. exact slice_err_pf. Qed.
(** a cell whose centre is inside the region can be left out *)
Theorem region_slice_centre_refuted : exists e center extent i0 i1 k, increasing e /\ (k < length e - 1)%nat /\
  region_slice e center extent = Ok (i0, i1) /\ ~ (i0 <= k < i1)%nat /\
  center - extent / 2 < (qn e k + qn e (k + 1)) / 2 /\ (qn e k + qn e (k + 1)) / 2 < center + extent / 2.
Proof.
  exists [0; 1; 2; 3], (21 # 20), (17 # 10), 0%nat, 1%nat, 1%nat. split; [|repeat split; try reflexivity; simpl; lia].
  intros i j [H1 H2]. simpl in H2. destruct j as [|[|[|[|j]]]]; [lia| | | |lia];
    destruct i as [|[|[|i]]]; try lia; reflexivity.
Qed.

(** *** C58 *)
Theorem pixel_count_is_ceiling : forall ext p, 0 < p -> 0 <= ext -> pixel_count ext p = Qceiling (ext / p).
Proof. exact pixel_count_ceiling. Qed.
Theorem pixel_edges : forall ext p, 0 < p -> 0 < ext ->
  let n := Z.to_nat (pixel_count ext p) in
  let e := relative_edge_coords ext p in
  length e = S n /\ (1 <= n)%nat /\ qn e 0 == - ext / 2 /\ qn e n == ext / 2 /\
  forall i, (0 < i < n)%nat -> qn e i == (qnat i - qnat n / 2) * p.
Proof. exact pixel_edges_pf. Qed.
Theorem pixel_sizes : forall ext p, 0 < p -> 0 < ext ->
  let n := Z.to_nat (pixel_count ext p) in
  forall i, (i < n)%nat ->
  let w := qn (relative_edge_coords ext p) (S i) - qn (relative_edge_coords ext p) i in
  ((0 < i)%nat -> (S i < n)%nat -> w == p) /\ 0 < w /\ w <= p /\ ((2 <= n)%nat -> p / 2 < w).
Proof. exact pixel_sizes_pf. Qed.

(** *** C59 *)
Theorem shifted_sizes_match_edges : forall e per comp s, (2 <= length e)%nat -> (comp = false \/ s == 0 \/ s == 1 # 2) ->
  let E := shifted_edges e per comp s in let D := shifted_sizes e per comp s in
  length D = (length E - 1)%nat /\ forall i, (i < length D)%nat -> qn D i == qn E (i + 1) - qn E i.
Proof. exact shifted_sizes_pf. Qed.
Theorem shifted_sizes_refuted : exists e per s, increasing e /\
  ~ qn (shifted_sizes e per true s) 0 == qn (shifted_edges e per true s) 1 - qn (shifted_edges e per true s) 0.
Proof.
  exists [0; 1; 2], false, (1 # 4). split; [|vm_compute; congruence].
  intros i j [H1 H2]. simpl in H2. destruct j as [|[|[|j]]]; [lia| | |lia]; destruct i as [|[|i]]; try lia; reflexivity.
Qed.
Theorem render_edges_valid : forall e per s, increasing e -> (2 <= length e)%nat -> 0 <= s -> s < 1 ->
  let E := render_edges e per s in
  length E = length e /\ increasing E /\
  (s == 0 -> forall i, (i < length e)%nat -> qn E i == qn e i) /\
  (s == 1 # 2 -> forall i, (0 < i < length e)%nat -> qn E i == (qn e (i - 1) + qn e i) / 2).
Proof. exact render_edges_pf. Qed.

(** *** Concrete cases *)
Example edge_coords_case : map Qred (create_edge_coords (7 # 2) 1 1 false) = [-1 # 2; 1 # 2; 3 # 2; 5 # 2].
Proof. reflexivity. Qed.
Example edge_coords_sym_case : map Qred (create_edge_coords (7 # 2) 1 1 true) = [0; 1; 2].
Proof. reflexivity. Qed.
Example edge_coords_sym_degenerate_case : map Qred (create_edge_coords (3 # 2) 1 1 true) = [1].
Proof. reflexivity. Qed.
Example edge_coords_invdes_case : map Qred (create_edge_coords_invdes 4 0 1) = [-5 # 2; -3 # 2; -1 # 2; 1 # 2; 3 # 2].
Proof. reflexivity. Qed.
Example region_slice_case : region_slice [0; 1; 2; 3; 4] 2 2 = Ok (1, 3)%nat. Proof. reflexivity. Qed.
Example region_slice_outside_case : region_slice [0; 1; 2; 3; 4] 7 2 = Err GridError. Proof. reflexivity. Qed.
Example pixels_case : pixel_count (7 # 2) 1 = 4%Z /\ map Qred (relative_edge_coords (7 # 2) 1) = [-7 # 4; -1; 0; 1; 7 # 4].
Proof. split; reflexivity. Qed.
Example shifted_case : map Qred (shifted_edges [0; 1; 3] false true (1 # 2)) = [-1; 1 # 2; 2; 4]
  /\ map Qred (shifted_sizes [0; 1; 3] false true (1 # 2)) = [3 # 2; 3 # 2; 2].
Proof. split; reflexivity. Qed.
Example render_edges_case : map Qred (render_edges [0; 1; 3] false (1 # 2)) = [-1; 1 # 2; 2]. Proof. reflexivity. Qed.

Print Assumptions edge_coords_centred.
Print Assumptions edge_coords_cover.
Print Assumptions edge_coords_symmetric.
Print Assumptions edge_coords_symmetric_degenerate.
Print Assumptions edge_coords_invdes_uniform.
Print Assumptions edge_coords_invdes_centred_refuted.
Print Assumptions region_slice_covers.
Print Assumptions region_slice_outside.
Print Assumptions region_slice_centre_refuted.
Print Assumptions pixel_count_is_ceiling.
Print Assumptions pixel_edges.
Print Assumptions pixel_sizes.
Print Assumptions shifted_sizes_match_edges.
Print Assumptions shifted_sizes_refuted.
Print Assumptions render_edges_valid.
