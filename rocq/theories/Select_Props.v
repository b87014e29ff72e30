(** C38, C76, C77: selection matrices. *)
From Verif Require Import Base QTac Select_Model Select_Spec Select_Proofs Select_Proofs2 Select_Proofs3.
From Coq Require Import ZArith.
Set Implicit Arguments.

(** *** C38: a selection matrix averages the structure over the points of each cell *)
Theorem direct_lattice_average nx ny nz x0 y0 x1 y1 s u comp a b z :
  (x0 <= x1 < 2 * nx)%nat -> (y0 <= y1 < 2 * ny)%nat -> direct_lattice nx ny nz x0 y0 x1 y1 = Ok s -> (a < nx)%nat -> (b < ny)%nat -> (z < nz)%nat ->
  apply s (area_x x0 x1 * area_y y0 y1) (flat (area_x x0 x1) x0 y0 u) (cell nx ny nz comp a b z) == cell_average nx ny x0 y0 x1 y1 u comp a b.
Proof. intros [X1 X2] [Y1 Y2]. exact (@lattice_average nx ny nz x0 y0 x1 y1 X1 Y1 X2 Y2 s u comp a b z). Qed.
Theorem direct_lattice_partition nx ny nz x0 y0 x1 y1 s comp a b z :
  (x0 <= x1)%nat -> (y0 <= y1)%nat -> direct_lattice nx ny nz x0 y0 x1 y1 = Ok s -> (a < nx)%nat -> (b < ny)%nat -> (z < nz)%nat ->
  (forall c, (c < area_x x0 x1 * area_y y0 y1)%nat -> 0 <= s (cell nx ny nz comp a b z) c) /\
  sumn (area_x x0 x1 * area_y y0 y1) (s (cell nx ny nz comp a b z)) == if Qeq_bool (touching nx ny x0 y0 x1 y1 comp a b) 0 then 0 else 1.
Proof. intros H1 H2 H3. exact (@direct_partition nx ny nz x0 y0 x1 y1 s H1 H2 H3 comp a b z). Qed.
Theorem direct_lattice_bounds nx ny nz x0 y0 x1 y1 : (2 * nx <= x1 \/ 2 * ny <= y1)%nat -> direct_lattice nx ny nz x0 y0 x1 y1 = Err ValueError.
Proof. exact (@lattice_bounds_checked nx ny nz x0 y0 x1 y1). Qed.
Theorem old_lattice_average nx ny nz x0 y0 x1 y1 u comp a b z :
  (x0 <= x1 < nx)%nat -> (y0 <= y1 < ny)%nat -> (a < nx)%nat -> (b < ny)%nat -> (z < nz)%nat ->
  apply (direct_lattice_old nx ny nz x0 y0 x1 y1) (num_design nx ny x0 y0 x1 y1) (flat (2 * ax nx x0 x1) (2 * x0) (2 * y0) u) (cell nx ny nz comp a b z) ==
  mean4 (old_quadrant nx ny comp a b) (inside (2 * x0) (2 * y0) (2 * x1 + 1) (2 * y1 + 1)) u.
Proof. intros [X1 X2] [Y1 Y2]. exact (@old_average nx ny nz x0 y0 x1 y1 X1 Y1 X2 Y2 u comp a b z). Qed.
Theorem old_lattice_partition nx ny nz x0 y0 x1 y1 comp a b z :
  (x0 <= x1 < nx)%nat -> (y0 <= y1 < ny)%nat -> (a < nx)%nat -> (b < ny)%nat -> (z < nz)%nat ->
  (forall c, (c < num_design nx ny x0 y0 x1 y1)%nat -> 0 <= direct_lattice_old nx ny nz x0 y0 x1 y1 (cell nx ny nz comp a b z) c) /\
  sumn (num_design nx ny x0 y0 x1 y1) (direct_lattice_old nx ny nz x0 y0 x1 y1 (cell nx ny nz comp a b z)) ==
  if Qeq_bool (sum4 (old_quadrant nx ny comp a b) (fun pt => if inside (2 * x0) (2 * y0) (2 * x1 + 1) (2 * y1 + 1) pt then 1 else 0)) 0 then 0 else 1.
Proof. intros [X1 X2] [Y1 Y2]. exact (@old_partition nx ny nz x0 y0 x1 y1 X1 Y1 X2 Y2 comp a b z). Qed.
(** reduced: one degree of freedom for each cell, standing for its four points *)
Theorem reduced_lattice_average nx ny nz x0 y0 x1 y1 u comp a b z :
  (x0 <= x1 < nx)%nat -> (y0 <= y1 < ny)%nat -> (a < nx)%nat -> (b < ny)%nat -> (z < nz)%nat ->
  apply (reduced_lattice nx ny nz x0 y0 x1 y1) (ax nx x0 x1 * ay ny y0 y1) (flat (ax nx x0 x1) x0 y0 u) (cell nx ny nz comp a b z) ==
  mean4 (old_quadrant nx ny comp a b) (inside (2 * x0) (2 * y0) (2 * x1 + 1) (2 * y1 + 1)) (fun pt => u ((fst pt / 2)%nat, (snd pt / 2)%nat)).
Proof. intros [X1 X2] [Y1 Y2]. exact (@reduced_average nx ny nz x0 y0 x1 y1 X1 Y1 X2 Y2 u comp a b z). Qed.
Theorem reduced_lattice_partition nx ny nz x0 y0 x1 y1 comp a b z :
  (x0 <= x1 < nx)%nat -> (y0 <= y1 < ny)%nat -> (a < nx)%nat -> (b < ny)%nat -> (z < nz)%nat ->
  (forall c, (c < ax nx x0 x1 * ay ny y0 y1)%nat -> 0 <= reduced_lattice nx ny nz x0 y0 x1 y1 (cell nx ny nz comp a b z) c) /\
  sumn (ax nx x0 x1 * ay ny y0 y1) (reduced_lattice nx ny nz x0 y0 x1 y1 (cell nx ny nz comp a b z)) ==
  if Qeq_bool (sum4 (old_quadrant nx ny comp a b) (fun pt => if inside (2 * x0) (2 * y0) (2 * x1 + 1) (2 * y1 + 1) pt then 1 else 0)) 0 then 0 else 1.
Proof. intros [X1 X2] [Y1 Y2]. exact (@reduced_partition nx ny nz x0 y0 x1 y1 X1 Y1 X2 Y2 comp a b z). Qed.
(** structures in [0, 1] give permittivities between background and foreground *)
Theorem selection_permittivity nx ny nz bg fg s dims v :
  selection_matrix nx ny nz bg fg = Ok (s, dims) -> (forall c, (c < fst dims * snd dims)%nat -> 0 <= v c <= 1) ->
  forall comp a b z, (a < nx)%nat -> (b < ny)%nat -> (z < nz)%nat ->
  amid (bg comp a b z) (bg comp a b z + apply s (fst dims * snd dims) v (cell nx ny nz comp a b z)) (fg comp a b z).
Proof. exact (@selection_between nx ny nz bg fg s dims v). Qed.
Theorem reduced_permittivity nx ny nz bg fg s dims v :
  reduced_matrix nx ny nz bg fg = Ok (s, dims) -> (forall c, (c < fst dims * snd dims)%nat -> 0 <= v c <= 1) ->
  forall comp a b z, (a < nx)%nat -> (b < ny)%nat -> (z < nz)%nat ->
  amid (bg comp a b z) (bg comp a b z + apply s (fst dims * snd dims) v (cell nx ny nz comp a b z)) (fg comp a b z).
Proof. exact (@reduced_between nx ny nz bg fg s dims v). Qed.
(** a 2 x 2 grid, design points (1, 1)-(2, 2): cell (1, 1) of the z component covers points 1, 2 in x and y *)
Example direct_case : exists s, direct_lattice 2 2 1 1 1 2 2 = Ok s /\
  map (fun c => Qred (s (cell 2 2 1 2 1 1 0) c)) [0; 1; 2; 3]%nat = [1 # 4; 1 # 4; 1 # 4; 1 # 4] /\
  Qred (s (cell 2 2 1 0 0 1 0) 0%nat) = 1 # 2 /\ Qred (s (cell 2 2 1 0 0 1 0) 2%nat) = 1 # 2 /\ s (cell 2 2 1 0 0 1 0) 1%nat == 0.
Proof. eexists. split; [reflexivity|]. vm_compute. repeat split; reflexivity. Qed.
Example reduced_case :
  map (fun c => Qred (reduced_lattice 3 3 1 0 0 1 1 (cell 3 3 1 0 0 0 0) c)) [0; 1; 2; 3]%nat = [1 # 2; 1 # 2; 0; 0] /\
  map (fun c => Qred (reduced_lattice 3 3 1 0 0 1 1 (cell 3 3 1 1 2 0 0) c)) [0; 1; 2; 3]%nat = [0; 0; 0; 0].
Proof. vm_compute. split; reflexivity. Qed.

(** *** C76: the design area, and what an all-ones structure gives *)
Theorem selection_design_bounds nx ny nz bg fg x0 y0 x1 y1 : design_bounds nx ny nz bg fg = Ok (x0, y0, x1, y1) ->
  (x0 <= x1 < 2 * nx)%nat /\ (y0 <= y1 < 2 * ny)%nat /\
  (forall i j, (i < 2 * nx)%nat -> (j < 2 * ny)%nat -> differs nx ny nz bg fg i j -> inside x0 y0 x1 y1 (i, j) = true) /\
  (exists j, (j < 2 * ny)%nat /\ differs nx ny nz bg fg x0 j) /\ (exists j, (j < 2 * ny)%nat /\ differs nx ny nz bg fg x1 j) /\
  (exists i, (i < 2 * nx)%nat /\ differs nx ny nz bg fg i y0) /\ (exists i, (i < 2 * nx)%nat /\ differs nx ny nz bg fg i y1).
Proof. exact (@design_bounds_spec nx ny nz bg fg x0 y0 x1 y1). Qed.
Theorem selection_empty_design nx ny nz bg fg : nx <> 0%nat -> ny <> 0%nat ->
  (exists s dims, selection_matrix nx ny nz bg fg = Ok (s, dims)) \/
  selection_matrix nx ny nz bg fg = Err ValueError /\ forall i j, (i < 2 * nx)%nat -> (j < 2 * ny)%nat -> ~ differs nx ny nz bg fg i j.
Proof. exact (@selection_none nx ny nz bg fg). Qed.
Theorem selection_all_ones nx ny nz bg fg s dims x0 y0 x1 y1 :
  selection_matrix nx ny nz bg fg = Ok (s, dims) -> design_bounds nx ny nz bg fg = Ok (x0, y0, x1, y1) ->
  forall comp a b z, (a < nx)%nat -> (b < ny)%nat -> (z < nz)%nat ->
  bg comp a b z + apply s (fst dims * snd dims) (fun _ => 1) (cell nx ny nz comp a b z) ==
  if existsb (fun p => existsb (fun q => inside x0 y0 x1 y1 (quadrant nx ny comp a b p q)) [0; 1]%nat) [0; 1]%nat then fg comp a b z else bg comp a b z.
Proof. exact (@selection_ones nx ny nz bg fg s dims x0 y0 x1 y1). Qed.
Theorem selection_reaches_foreground nx ny nz bg fg s dims : selection_matrix nx ny nz bg fg = Ok (s, dims) ->
  forall comp a b z, (a < nx)%nat -> (b < ny)%nat -> (z < nz)%nat ->
  (fg comp a b z == bg comp a b z \/ exists p q, (p < 2)%nat /\ (q < 2)%nat /\ differs nx ny nz bg fg (fst (quadrant nx ny comp a b p q)) (snd (quadrant nx ny comp a b p q))) ->
  bg comp a b z + apply s (fst dims * snd dims) (fun _ => 1) (cell nx ny nz comp a b z) == fg comp a b z.
Proof. exact (@selection_foreground nx ny nz bg fg s dims). Qed.
Theorem reduced_reaches_foreground nx ny nz bg fg s dims x0 y0 x1 y1 :
  reduced_matrix nx ny nz bg fg = Ok (s, dims) -> design_bounds_yee nx ny nz bg fg = Ok (x0, y0, x1, y1) ->
  forall comp a b z, (comp < 3)%nat -> (a < nx)%nat -> (b < ny)%nat -> (z < nz)%nat ->
    let eps := bg comp a b z + apply s (fst dims * snd dims) (fun _ => 1) (cell nx ny nz comp a b z) in
    ((x0 <= a <= x1 /\ y0 <= b <= y1)%nat -> eps == fg comp a b z) /\ qabs (eps - fg comp a b z) <= 1 # 1000000.
Proof. exact (@reduced_foreground nx ny nz bg fg s dims x0 y0 x1 y1). Qed.
(** a cell that differs in one component only, away from the others, keeps the background *)
Definition bg0 : field := fun _ _ _ _ => 1.
Definition fg0 : field := fun comp a b _ => if Nat.eqb a 0 && Nat.eqb b 0 || Nat.eqb comp 2 && Nat.eqb a 2 && Nat.eqb b 2 then 12 else 1.
Example bounds0 : design_bounds 4 4 1 bg0 fg0 = Ok (0, 0, 0, 0)%nat.
Proof. vm_compute. reflexivity. Qed.
Theorem selection_foreground_refuted : exists s dims, selection_matrix 4 4 1 bg0 fg0 = Ok (s, dims) /\
  bg0 2%nat 2%nat 2%nat 0%nat + apply s (fst dims * snd dims) (fun _ => 1) (cell 4 4 1 2 2 2 0) == 1 /\ fg0 2%nat 2%nat 2%nat 0%nat == 12.
Proof.
  destruct (@selection_ok 4 4 1 bg0 fg0 _ bounds0) as (s & dims & E). exists s, dims. split; [exact E|]. split; [|reflexivity].
  rewrite (@selection_all_ones 4 4 1 bg0 fg0 s dims _ _ _ _ E bounds0 2%nat 2%nat 2%nat 0%nat) by lia. reflexivity.
Qed.
(** and there is an error if no point differs in all three *)
Theorem selection_one_component_refuted : selection_matrix 4 4 1 bg0 (fun comp a b _ => if Nat.eqb comp 2 && Nat.eqb a 1 && Nat.eqb b 1 then 12 else 1) = Err ValueError.
Proof. vm_compute. reflexivity. Qed.
Example foreground_case : design_bounds 4 4 1 bg0 (fun _ a b _ => if Nat.eqb a 1 && Nat.leb b 1 then 12 else 1) = Ok (2, 0, 2, 2)%nat.
Proof. vm_compute. reflexivity. Qed.
Example reduced_foreground_case : design_bounds_yee 3 3 1 bg0 (fun _ a b _ => if Nat.eqb a 1 && Nat.leb 1 b then 12 else 1) = Ok (1, 1, 1, 2)%nat.
Proof. vm_compute. reflexivity. Qed.

(** *** C77: [average_2xFarEdge] *)
Theorem far_edge_values gx gy gz x0 y0 x1 y1 (u : nat -> nat -> Q) comp i j z : (x0 <= x1 < gx)%nat -> (y0 <= y1 < gy)%nat -> (i < gx)%nat -> (j < gy)%nat -> (z < gz)%nat ->
  apply (average_far_edge gx gy gz x0 y0 x1 y1) ((x1 - x0 + 1) * (y1 - y0 + 1)) (fun c => u (c mod (x1 - x0 + 1))%nat (c / (x1 - x0 + 1))%nat) (cell gx gy gz comp i j z) ==
  if inside x0 y0 x1 y1 (i, j)
  then match comp with 0%nat => far_x (x1 - x0 + 1) u (i - x0) (j - y0) | 1%nat => far_y (y1 - y0 + 1) u (i - x0) (j - y0) | _ => u (i - x0)%nat (j - y0)%nat end
  else 0.
Proof. intros H1 H2. exact (@far_edge_value gx gy gz x0 y0 x1 y1 H1 H2 u comp i j z). Qed.
Theorem far_edge_row_sums gx gy gz x0 y0 x1 y1 comp i j z : (x0 <= x1 < gx)%nat -> (y0 <= y1 < gy)%nat -> (i < gx)%nat -> (j < gy)%nat -> (z < gz)%nat ->
  sumn ((x1 - x0 + 1) * (y1 - y0 + 1)) (average_far_edge gx gy gz x0 y0 x1 y1 (cell gx gy gz comp i j z)) ==
  if inside x0 y0 x1 y1 (i, j) then (if Nat.eqb comp 0 && Nat.eqb i x1 && Nat.leb 3 (x1 - x0 + 1) then 3 # 2 else 1) else 0.
Proof. intros H1 H2. exact (@far_edge_rows gx gy gz x0 y0 x1 y1 H1 H2 comp i j z). Qed.
(** so it is no partition of unity: a structure of ones overshoots on the last column of pixels *)
Theorem far_edge_partition_refuted : sumn 9 (average_far_edge 5 5 1 1 1 3 3 (cell 5 5 1 0 3 2 0)) == 3 # 2.
Proof. vm_compute. reflexivity. Qed.
Example far_edge_case :
  let u := fun i j => inject_Z (Z.of_nat (i + 10 * j)) in
  map (fun i => Qred (apply (average_far_edge 5 5 1 1 1 3 3) 9 (fun c => u (c mod 3)%nat (c / 3)%nat) (cell 5 5 1 0 i 2 0))) [0; 1; 2; 3; 4]%nat = [0; 11; 21 # 2; 35 # 2; 0] /\
  map (fun j => Qred (apply (average_far_edge 5 5 1 1 1 3 3) 9 (fun c => u (c mod 3)%nat (c / 3)%nat) (cell 5 5 1 1 1 j 0))) [0; 1; 2; 3; 4]%nat = [0; 10; 15; 15; 0].
Proof. vm_compute. split; reflexivity. Qed.

Print Assumptions direct_lattice_average.
Print Assumptions direct_lattice_partition.
Print Assumptions old_lattice_average.
Print Assumptions old_lattice_partition.
Print Assumptions reduced_lattice_average.
Print Assumptions reduced_lattice_partition.
Print Assumptions selection_permittivity.
Print Assumptions reduced_permittivity.
Print Assumptions selection_design_bounds.
Print Assumptions selection_empty_design.
Print Assumptions selection_all_ones.
Print Assumptions selection_reaches_foreground.
Print Assumptions reduced_reaches_foreground.
Print Assumptions far_edge_values.
Print Assumptions far_edge_row_sums.
