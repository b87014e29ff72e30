(** Property C53: rendered permittivities are averages of the drawn material. *)
From Coq Require Import Reals List QArith Qreals.
From Verif Require Import QTac Raster2_Model Raster2_Spec Raster2_Proofs7 Layer_Model Layer_Spec Layer_Proofs4 Layer_Proofs7 Layer_Proofs8.
From Coq Require Import Lia Lra.
Import ListNotations.
Open Scope R_scope.

(** Every cell of every component gets the average, over the cell, of the material at each
    point: the permittivity of the block drawn last over the point, else the background.
    The polygon subtraction of the external library is assumed right on the polygons used. *)
Theorem render_exact boolean_not good cs num_shifts bs :
  clipper_ok boolean_not good -> (forall c, In c cs -> component_ok c) -> (num_shifts <= length cs)%nat ->
  (forall b, In b bs -> good (b_poly b) /\ (length cs <= length (b_eps b))%nat) ->
  exists r, render boolean_not cs num_shifts bs false = Ok r /\ length r = length cs /\
  forall n c, nth_error cs n = Some c -> exists v, nth_error r n = Some v /\
  forall i j k, in_grid c i j k -> Q2R (v i j k) = cell_average (material n (Q2R (c_bg c i j k)) bs) c i j k.
Proof.
  intros CL CS NS H. destruct (render_exact_pf boolean_not cs CS bs num_shifts NS (fun b Hb => proj2 (H b Hb)) good CL (fun b Hb => proj1 (H b Hb))) as (r & E & L & V).
  exists r. split; [assumption|]. split; [assumption|]. intros n c Hc. assert (Hn : (n < length cs)%nat) by (apply nth_error_Some; congruence).
  exists (nth n r (fun _ _ _ => 0%Q)). split; [apply nth_error_nth'; lia|]. intros i j k Hg. apply nth_error_nth with (d := dc) in Hc. subst c. apply V; assumption.
Qed.
(** So the rendered values lie between the least and the greatest permittivity drawn. *)
Theorem render_bounds boolean_not good cs num_shifts bs r n c v lo hi i j k :
  clipper_ok boolean_not good -> (forall c, In c cs -> component_ok c) ->
  (forall b, In b bs -> good (b_poly b) /\ (length cs <= length (b_eps b))%nat) ->
  render boolean_not cs num_shifts bs false = Ok r -> nth_error cs n = Some c -> nth_error r n = Some v -> in_grid c i j k ->
  (lo <= c_bg c i j k <= hi)%Q -> (forall b, In b bs -> lo <= qn (b_eps b) n <= hi)%Q ->
  (lo <= v i j k <= hi)%Q.
Proof.
  intros CL CS H E Hc Hv Hg Hb He. assert (Hn : (n < length cs)%nat) by (apply nth_error_Some; congruence).
  assert (NS : (num_shifts <= length cs)%nat) by (eapply render_num_grids_pf; eassumption).
  apply nth_error_nth with (d := dc) in Hc. apply nth_error_nth with (d := fun _ _ _ => 0%Q) in Hv. subst c v.
  eapply (render_bounds_pf boolean_not cs CS bs num_shifts NS (fun b Hb => proj2 (H b Hb)) good CL (fun b Hb => proj1 (H b Hb))); eassumption.
Qed.
(** A cell of uniform material gets exactly its permittivity. *)
Theorem render_uniform boolean_not good cs num_shifts bs r n c v i j k m :
  clipper_ok boolean_not good -> (forall c, In c cs -> component_ok c) ->
  (forall b, In b bs -> good (b_poly b) /\ (length cs <= length (b_eps b))%nat) ->
  render boolean_not cs num_shifts bs false = Ok r -> nth_error cs n = Some c -> nth_error r n = Some v -> in_grid c i j k ->
  (forall x y z, let e a t := Q2R (qn (cell_edges a) t) in
     e (c_x c) i < x < e (c_x c) (i + 1)%nat -> e (c_y c) j < y < e (c_y c) (j + 1)%nat -> e (c_z c) k < z < e (c_z c) (k + 1)%nat ->
     material n (Q2R (c_bg c i j k)) bs x y z = Q2R m) ->
  (v i j k == m)%Q.
Proof.
  intros CL CS H E Hc Hv Hg U. assert (NS : (num_shifts <= length cs)%nat) by (eapply render_num_grids_pf; eassumption).
  destruct (render_exact boolean_not good cs num_shifts bs CL CS NS H) as (r' & E' & _ & V). rewrite E in E'. injection E' as <-.
  destruct (V n c Hc) as (v' & Hv' & V'). rewrite Hv in Hv'. injection Hv' as <-. apply eqR_Qeq. rewrite (V' i j k Hg).
  assert (Oc : component_ok c) by (apply CS; eapply nth_error_In; eassumption).
  rewrite <- (cell_average_const (Q2R m) c i j k Oc Hg). apply cell_average_ext; assumption.
Qed.
(** Without removal of overlaps every block adds its contrast, whether or not another one covers
    it; nothing is asked of the subtraction. *)
Theorem render_overlay boolean_not cs num_shifts bs :
  (forall c, In c cs -> component_ok c) -> (num_shifts <= length cs)%nat ->
  (forall b, In b bs -> usable (b_poly b) /\ (length cs <= length (b_eps b))%nat) ->
  exists r, render boolean_not cs num_shifts bs true = Ok r /\ length r = length cs /\
  forall n c, nth_error cs n = Some c -> exists v, nth_error r n = Some v /\
  forall i j k, in_grid c i j k -> Q2R (v i j k) = cell_average (overlay n (Q2R (c_bg c i j k)) bs) c i j k.
Proof.
  intros CS NS H. destruct (render_overlay_pf boolean_not cs bs num_shifts CS NS H) as (r & E & L & V).
  exists r. split; [assumption|]. split; [assumption|]. intros n c Hc. assert (Hn : (n < length cs)%nat) by (apply nth_error_Some; congruence).
  exists (nth n r (fun _ _ _ => 0%Q)). split; [apply nth_error_nth'; lia|]. intros i j k Hg. apply nth_error_nth with (d := dc) in Hc. subst c. apply V; assumption.
Qed.
(** For disjoint blocks that is the same. *)
Theorem render_disjoint boolean_not cs num_shifts bs :
  (forall c, In c cs -> component_ok c) -> (num_shifts <= length cs)%nat ->
  (forall b, In b bs -> usable (b_poly b) /\ (length cs <= length (b_eps b))%nat) ->
  ForallOrdPairs (fun a b => forall x y z, ~ (contains a x y z /\ contains b x y z)) bs ->
  exists r, render boolean_not cs num_shifts bs true = Ok r /\ length r = length cs /\
  forall n c, nth_error cs n = Some c -> exists v, nth_error r n = Some v /\
  forall i j k, in_grid c i j k -> Q2R (v i j k) = cell_average (material n (Q2R (c_bg c i j k)) bs) c i j k.
Proof.
  intros CS NS H D. destruct (render_overlay boolean_not cs num_shifts bs CS NS H) as (r & E & L & V).
  exists r. split; [assumption|]. split; [assumption|]. intros n c Hc. destruct (V n c Hc) as (v & Hv & V'). exists v. split; [assumption|]. intros i j k Hg. rewrite (V' i j k Hg).
  apply cell_average_ext; [apply CS; eapply nth_error_In; eassumption|assumption|]. intros x y z _ _ _. now apply overlay_disjoint.
Qed.
(** For overlapping ones the values can leave the range of the permittivities. *)
Theorem disable_intersection_refuted : exists cs bs, (forall c, In c cs -> component_ok c) /\
  (forall b, In b bs -> usable (b_poly b) /\ (length cs <= length (b_eps b))%nat /\ (1 <= qn (b_eps b) 0 <= 2)%Q) /\
  (forall c, In c cs -> forall i j k, c_bg c i j k = 1%Q) /\
  forall boolean_not, exists v, render boolean_not cs 1 bs true = Ok [v] /\ (v 0 0 0 == 3)%nat%Q.
Proof. exact disable_intersection_refuted_pf. Qed.
(** A grid made with fewer grids than shifts cannot be rendered. *)
Theorem render_num_grids_refuted boolean_not cs num_shifts bs dis : (length cs < num_shifts)%nat ->
  forall r, render boolean_not cs num_shifts bs dis <> Ok r.
Proof. intros H r E. apply render_num_grids_pf in E. lia. Qed.

(** Drawing a polygon adds a block: the polygon moved to the center, extruded around it.
    It hides what was drawn before and shows its permittivity where it is. *)
Theorem draw_polygon_block bs cx cy cz poly thickness eps : (3 <= length poly)%nat -> (0 < thickness)%Q ->
  exists b, draw_polygon bs cx cy cz poly thickness eps = Ok (bs ++ [b]) /\
  (forall x y z, contains b x y z <-> enclosed (map ptR poly) (x - Q2R cx) (y - Q2R cy) = 1 /\ Q2R cz - Q2R thickness / 2 <= z < Q2R cz + Q2R thickness / 2) /\
  (forall n bg x y z, contains b x y z -> material n bg (bs ++ [b]) x y z = Q2R (qn eps n)) /\
  (forall n bg x y z, ~ contains b x y z -> material n bg (bs ++ [b]) x y z = material n bg bs x y z).
Proof.
  intros H T. destruct (draw_polygon_pf bs cx cy cz poly thickness eps H T) as (b & E & Eb & V). exists b. split; [assumption|]. split; [assumption|].
  split; intros n bg x y z C; rewrite material_last; destruct contains_dec; tauto || (try now rewrite Eb).
Qed.
(** A cuboid is the box of the given extents around the center. *)
Theorem draw_cuboid_block bs cx cy cz ex ey ez eps : (0 < ex)%Q -> (0 < ey)%Q -> (0 < ez)%Q ->
  exists b, draw_cuboid bs cx cy cz ex ey ez eps = Ok (bs ++ [b]) /\ b_eps b = eps /\ is_rect (b_poly b) /\
  forall x y z, contains b x y z <-> Q2R cx - Q2R ex / 2 < x <= Q2R cx + Q2R ex / 2 /\ Q2R cy - Q2R ey / 2 <= y < Q2R cy + Q2R ey / 2 /\
                                     Q2R cz - Q2R ez / 2 <= z < Q2R cz + Q2R ez / 2.
Proof. exact (draw_cuboid_pf bs cx cy cz ex ey ez eps). Qed.
Theorem draw_errors bs cx cy cz poly thickness eps : (length poly <= 2)%nat \/ (thickness <= 0)%Q ->
  draw_polygon bs cx cy cz poly thickness eps = Err GridError.
Proof.
  intros H. unfold draw_polygon. destruct (Nat.leb (length poly) 2) eqn:E; [reflexivity|]. apply Nat.leb_gt in E. destruct H as [H|H]; [lia|].
  apply Qle_bool_iff in H. now rewrite H.
Qed.

(** A subtraction right on rectangles exists, so the theorems apply to cuboids. *)
Example rectangles : clipper_ok rect_not is_rect.
Proof. exact rect_clipper_pf. Qed.
(** two cuboids, the second over a corner of the first *)
Example two_cuboids : exists b1 b2, draw_cuboid [] 2 2 2 2 2 2 [3%Q] = Ok [b1] /\ draw_cuboid [b1] 3 3 2 2 2 4 [5%Q] = Ok [b1; b2] /\
  (forall c, In c [ex_comp] -> component_ok c) /\ (forall b, In b [b1; b2] -> is_rect (b_poly b) /\ (1 <= length (b_eps b))%nat) /\
  in_grid ex_comp 1 0 1 /\
  match render rect_not [ex_comp] 1 [b1; b2] false with Ok [v] => (v 1 1 1 == 13 # 4)%nat%Q | _ => False end.
Proof.
  eexists _, _. split; [reflexivity|]. split; [reflexivity|]. split; [intros c [<-|[]]; split; [|split]; apply ex_axis_ok|]. split.
  { intros b [<-|[<-|[]]]; (split; [|cbn; lia]); eexists _, _, _, _; (split; [|split; [|reflexivity]]); reflexivity. }
  split; [repeat split; cbn; lia|]. vm_compute. reflexivity.
Qed.

Print Assumptions render_exact.
Print Assumptions render_bounds.
Print Assumptions render_uniform.
Print Assumptions render_overlay.
Print Assumptions render_disjoint.
Print Assumptions disable_intersection_refuted.
Print Assumptions render_num_grids_refuted.
Print Assumptions draw_polygon_block.
Print Assumptions draw_cuboid_block.
Print Assumptions draw_errors.
