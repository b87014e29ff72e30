(** Theorems about the drawing of layouts (C164, C165). *)
From Coq Require Import Reals QArith Qreals ZArith List.
From Verif Require Import Base QTac Raster2_Model Raster2_Spec Grid_Model Layer_Model Layer_Spec Layer_Proofs8 Layer_Props Slice_Model Slice_Spec Stk_Model Stk_Spec Stk_Proofs.
From Coq Require Import Lia Lra.
Import ListNotations.
Open Scope R_scope.

(** *** C164: stacks of layers *)
(** at every point the last element of the stack at its height decides: its foreground in the
    polygons of its layer, else its background; elsewhere the background of the grid stays *)
Theorem gds_stack (M L : Type) (perm : M -> res Q) (layers : L -> list polygon) exyz ext ns stack :
  grid3 exyz ext -> (forall e, In e stack -> element_known M L perm e) -> (forall e, In e stack -> element_ok M L layers e) ->
  exists bs, draw_gds exyz ext ns perm layers [] stack = Ok bs /\
  forall n bg p, (n < ns)%nat -> in_plane exyz ext p -> (forall e, In e stack -> off (e_lo e) (e_hi e) (p ext)) ->
    stack_shows M L perm layers stack bg (p (fst (across ext))) (p (snd (across ext))) (p ext) (drawn ext n bg bs p).
Proof. intros G K H. exact (gds_drawn exyz ext ns G M L perm layers stack [] K H). Qed.
(** extents that do not increase, and polygons with fewer than three points, are refused *)
Theorem gds_refused (M L : Type) (perm : M -> res Q) (layers : L -> list polygon) exyz ext ns stack bs :
  grid3 exyz ext -> (forall e, In e stack -> element_known M L perm e) ->
  (exists e, In e stack /\ ((e_hi e <= e_lo e)%Q \/ exists p, In p (layers (e_layer e)) /\ (length p < 3)%nat)) ->
  draw_gds exyz ext ns perm layers bs stack = Err GridError.
Proof.
  intros G K (e & He & H). apply gds_refused_lemma; [exact G|exact K|]. exists e. split; [exact He|]. intros [O P].
  destruct H as [H|(p & Hp & Hl)]; [apply (Qle_not_lt _ _ H O)|]. specialize (P p Hp). lia.
Qed.
(** a material that is not known raises its error, the background of an element first *)
Theorem gds_unknown (M L : Type) (perm : M -> res Q) (layers : L -> list polygon) exyz ext ns pre e post er bs :
  grid3 exyz ext -> (forall e', In e' pre -> element_known M L perm e' /\ element_ok M L layers e') ->
  (perm (e_bg e) = Err er \/ has_perm M perm (e_bg e) /\ perm (e_fg e) = Err er) ->
  draw_gds exyz ext ns perm layers bs (pre ++ e :: post) = Err er.
Proof. intros G K H. exact (gds_unknown_lemma exyz ext ns G M L perm layers pre e post er K H bs). Qed.
(** rendering: a cell that no top or bottom of an element cuts, and all whose points show the
    same permittivity, gets that permittivity.  The polygon subtraction of the external library
    is assumed right, as in C53, where cells of more than one material are treated. *)
Theorem gds_cell (M L : Type) (perm : M -> res Q) (layers : L -> list polygon) boolean_not good cs exyz ext ns stack bs r n c v i j k m :
  grid3 exyz ext -> (forall e, In e stack -> element_known M L perm e) -> (forall e, In e stack -> element_ok M L layers e) ->
  clipper_ok boolean_not good -> (forall c, In c cs -> component_ok c) -> length cs = ns ->
  draw_gds exyz ext ns perm layers [] stack = Ok bs -> (forall b, In b bs -> good (b_poly b) /\ (length cs <= length (b_eps b))%nat) ->
  render boolean_not cs ns bs false = Ok r -> nth_error cs n = Some c -> nth_error r n = Some v -> in_grid c i j k -> cell_in_plane exyz ext c i j k ->
  (forall x y z, in_open_cell c i j k x y z -> (forall e, In e stack -> off (e_lo e) (e_hi e) z) /\
     forall q, stack_shows M L perm layers stack (Q2R (c_bg c i j k)) x y z q -> q = Q2R m) ->
  (v i j k == m)%Q.
Proof.
  intros G K O CL CS Ln D H E Hc Hv Hg Hp Hm. destruct (gds_stack M L perm layers exyz ext ns stack G K O) as (bs' & D' & S). rewrite D in D'. injection D' as <-.
  eapply cell_lemma; try eassumption; [exact (proj1 G)|]. intros p Pp Pc. destruct (Hm _ _ _ Pc) as [Of Sh]. apply Sh. apply S; try assumption.
  rewrite <- Ln. apply nth_error_Some. congruence.
Qed.
(** coordinates are rounded to whole nanometers, halves to even ones *)
Theorem nm_rounding poly i x y : nth_error poly i = Some (x, y) ->
  exists a b, nth_error (to_nm poly) i = Some (inject_Z a, inject_Z b) /\ nearest (x * 1000) a /\ nearest (y * 1000) b.
Proof.
  intros H. exists (around (x * 1000)), (around (y * 1000)). split; [|split; apply around_nearest].
  unfold to_nm. rewrite nth_error_map, H. reflexivity.
Qed.

(** *** C165: lists of meshes *)
Theorem mesh_list (M L : Type) (perm : M -> res Q) (layers : L -> list polygon) exyz ext ns ms :
  grid3 exyz ext -> (forall k, In k ms -> has_perm M perm (mesh_material k)) -> (forall k, In k ms -> mesh_ok M L layers k) ->
  exists bs, draw_meshes exyz ext ns perm layers [] ms = Ok bs /\
  forall n bg p, (n < ns)%nat -> in_plane exyz ext p -> (forall k, In k ms -> mesh_off M L k (p ext)) ->
    meshes_show M L perm layers ms bg (p (fst (across ext))) (p (snd (across ext))) (p ext) (drawn ext n bg bs p).
Proof. intros G K H. exact (meshes_drawn exyz ext ns G M L perm layers ms [] K H). Qed.
Theorem mesh_cell (M L : Type) (perm : M -> res Q) (layers : L -> list polygon) boolean_not good cs exyz ext ns ms bs r n c v i j k m :
  grid3 exyz ext -> (forall k, In k ms -> has_perm M perm (mesh_material k)) -> (forall k, In k ms -> mesh_ok M L layers k) ->
  clipper_ok boolean_not good -> (forall c, In c cs -> component_ok c) -> length cs = ns ->
  draw_meshes exyz ext ns perm layers [] ms = Ok bs -> (forall b, In b bs -> good (b_poly b) /\ (length cs <= length (b_eps b))%nat) ->
  render boolean_not cs ns bs false = Ok r -> nth_error cs n = Some c -> nth_error r n = Some v -> in_grid c i j k -> cell_in_plane exyz ext c i j k ->
  (forall x y z, in_open_cell c i j k x y z -> (forall k, In k ms -> mesh_off M L k z) /\
     forall q, meshes_show M L perm layers ms (Q2R (c_bg c i j k)) x y z q -> q = Q2R m) ->
  (v i j k == m)%Q.
Proof.
  intros G K O CL CS Ln D H E Hc Hv Hg Hp Hm. destruct (mesh_list M L perm layers exyz ext ns ms G K O) as (bs' & D' & S). rewrite D in D'. injection D' as <-.
  eapply cell_lemma; try eassumption; [exact (proj1 G)|]. intros p Pp Pc. destruct (Hm _ _ _ Pc) as [Of Sh]. apply Sh. apply S; try assumption.
  rewrite <- Ln. apply nth_error_Some. congruence.
Qed.
(** the first mesh that cannot be drawn raises GridError, one of unknown type ValueError *)
Theorem mesh_refusals (M L : Type) (perm : M -> res Q) (layers : L -> list polygon) exyz ext ns pre k post bs :
  grid3 exyz ext -> (forall k', In k' (pre ++ [k]) -> has_perm M perm (mesh_material k')) -> (forall k', In k' pre -> mesh_ok M L layers k') -> ~ mesh_ok M L layers k ->
  draw_meshes exyz ext ns perm layers bs (pre ++ k :: post) = Err (match k with MOther _ => ValueError | _ => GridError end).
Proof. intros G K O N. exact (meshes_refused_lemma exyz ext ns G M L perm layers pre k post K O N bs). Qed.

(** *** examples: materials are numbers, material 9 is unknown; layer 1 has a triangle *)
Definition ex_perm (m : nat) : res Q := if Nat.eqb m 9 then Err ValueError else Ok (inject_Z (Z.of_nat m)).
Definition ex_layers (l : nat) : list polygon := if Nat.eqb l 1 then [[(0, 0); (1 # 100, 0); (1 # 100, 1 # 100)]]%Q else [].
Definition ex_exyz (a : nat) : list Q := [0; 10; 20]%Q.
Definition ex_stack : list (element nat nat) := [Element 1%nat 0 10 2%nat 12%nat; Element 2%nat 5 15 3%nat 4%nat]%Q.
Definition ex_point (a : nat) : R := match a with 2%nat => 7 | _ => 5 end.
Lemma ex_grid3 : grid3 ex_exyz 2.
Proof.
  split; [lia|]. intros a _. split; [|cbn; lia]. intros i j Hi. cbn [ex_exyz length] in Hi.
  destruct i as [|[|i]], j as [|[|[|j]]]; try lia; reflexivity.
Qed.
Lemma ex_known : forall e, In e ex_stack -> element_known nat nat ex_perm e /\ element_ok nat nat ex_layers e.
Proof.
  intros e [<-|[<-|[]]]; (split; [split; eexists; reflexivity|]); (split; [reflexivity|]).
  - intros p [<-|[]]. cbn. lia.
  - intros p [].
Qed.
Lemma ex_Q2R z : Q2R (inject_Z z) = IZR z.
Proof. apply Q2R_Z. Qed.
(** at height 7 both elements are there; the second one decides *)
Example gds_ex : exists bs, draw_gds ex_exyz 2 3 ex_perm ex_layers [] ex_stack = Ok bs /\ drawn 2 0 1 bs ex_point = 3.
Proof.
  destruct (gds_stack nat nat ex_perm ex_layers ex_exyz 2 3 ex_stack ex_grid3 (fun e H => proj1 (ex_known e H)) (fun e H => proj2 (ex_known e H))) as (bs & E & S).
  exists bs. split; [exact E|].
  assert (I2 : inside 5 15 7) by (unfold inside, Q2R; cbn; Lra.lra).
  destruct (S 0%nat 1 ex_point) as [(pre & e & post & Es & I & N & Sh)|[N _]].
  - lia.
  - intros a Ha Hn. destruct a as [|[|[|a]]]; try lia; unfold within, Q2R; cbn; Lra.lra.
  - intros e [<-|[<-|[]]]; unfold off, Q2R; cbn; Lra.lra.
  - destruct pre as [|e1 [|e2 pre]].
    + injection Es as <- <-. exfalso. apply (N (Element 2%nat 5 15 3%nat 4%nat)%Q); [now left|exact I2].
    + injection Es as _ <- <-. destruct Sh as [[(q & [] & _) _]|[_ (q & Eq & ->)]]. injection Eq as <-. rewrite Q2R_Z. reflexivity.
    + apply (f_equal (@length _)) in Es. cbn in Es. rewrite app_length in Es. cbn in Es. lia.
  - exfalso. apply (N (Element 2%nat 5 15 3%nat 4%nat)%Q); [right; now left|exact I2].
Qed.
(** a cell of a rendered stack: both elements are there, the second one decides *)
Definition ex_edges (a : nat) : list Q := [0; 2; 4]%Q.
Definition ex_slabs : list (element nat nat) := [Element 2%nat 0 4 2%nat 12%nat; Element 2%nat 2 4 3%nat 4%nat]%Q.
Example gds_cell_drawn : match draw_gds ex_edges 2 1 ex_perm ex_layers [] ex_slabs with
  | Ok bs => match render rect_not [ex_comp] 1 bs false with Ok [v] => (v 1%nat 1%nat 1%nat == 3)%Q | _ => False end
  | Err _ => False end.
Proof. vm_compute. reflexivity. Qed.
Example gds_cell_ex bs r v : draw_gds ex_edges 2 1 ex_perm ex_layers [] ex_slabs = Ok bs -> render rect_not [ex_comp] 1 bs false = Ok r -> nth_error r 0 = Some v ->
  (v 1%nat 1%nat 1%nat == 3)%Q.
Proof.
  intros D E V.
  assert (G : grid3 ex_edges 2).
  { split; [lia|]. intros a _. split; [|cbn; lia]. intros i j Hi. cbn [ex_edges length] in Hi.
    destruct i as [|[|i]], j as [|[|[|j]]]; try lia; reflexivity. }
  assert (C : forall x y z, in_open_cell ex_comp 1 1 1 x y z -> 1 < x < 3 /\ 2 < y < 4 /\ 2 < z < 4).
  { intros x y z. unfold in_open_cell, Q2R. cbn. Lra.lra. }
  refine (gds_cell nat nat ex_perm ex_layers rect_not is_rect [ex_comp] ex_edges 2 1 ex_slabs bs r 0 ex_comp v 1 1 1 3%Q _ _ _ _ _ eq_refl D _ E eq_refl V _ _ _).
  - exact G.
  - intros e [<-|[<-|[]]]; (split; eexists; reflexivity).
  - intros e [<-|[<-|[]]]; (split; [reflexivity|intros p []]).
  - exact rectangles.
  - intros c [<-|[]]. split; [|split]; apply ex_axis_ok.
  - vm_compute in D. injection D as <-. clear. intros b [<-|[<-|[]]]; (split; [|cbn; lia]); eexists _, _, _, _; (split; [|split; [|reflexivity]]); reflexivity.
  - repeat split; cbn; lia.
  - intros x y z H. apply C in H. unfold within, Q2R. cbn. Lra.lra.
  - intros x y z H. apply C in H. split; [intros e [<-|[<-|[]]]; unfold off, Q2R; cbn; Lra.lra|].
    assert (I : inside 2 4 z) by (unfold inside, Q2R; cbn; Lra.lra).
    intros q [(pre & e & post & Es & _ & N & Sh)|[N _]].
    + destruct pre as [|e1 [|e2 pre]].
      * injection Es as <- <-. exfalso. apply (N (Element 2%nat 2 4 3%nat 4%nat)%Q); [now left|exact I].
      * injection Es as _ <- <-. destruct Sh as [[(p & [] & _) _]|[_ (p & Ep & ->)]]. injection Ep as <-. reflexivity.
      * apply (f_equal (@length _)) in Es. cbn in Es. rewrite app_length in Es. cbn in Es. lia.
    + exfalso. apply (N (Element 2%nat 2 4 3%nat 4%nat)%Q); [right; now left|exact I].
Qed.
Example gds_ex_refused : draw_gds ex_exyz 2 3 ex_perm ex_layers [] [Element 1%nat 10 0 2%nat 12%nat]%Q = Err GridError /\
  draw_gds ex_exyz 2 3 ex_perm ex_layers [] (ex_stack ++ [Element 1%nat 10 0 2%nat 9%nat]%Q) = Err ValueError.
Proof. split; reflexivity. Qed.
Example nm_ex : to_nm [(1 # 1000, 15 # 10000); (25 # 10000, - 26 # 10000)]%Q = [(1, 2); (2, -3)]%Q.
Proof. reflexivity. Qed.
Example mesh_ex : (exists bs, draw_meshes ex_exyz 2 3 ex_perm ex_layers [] [MSlab 0 10 2%nat; MGds 1%nat 5 15 3%nat]%Q = Ok bs /\ length bs = 2%nat) /\
  draw_meshes ex_exyz 2 3 ex_perm ex_layers [] [MSlab 0 10 2%nat; MOther 3%nat]%Q = Err ValueError /\
  draw_meshes ex_exyz 2 3 ex_perm ex_layers [] [MGds 1%nat 5 5 3%nat; MOther 3%nat]%Q = Err GridError.
Proof. split; [eexists; split; reflexivity|split; reflexivity]. Qed.

Print Assumptions gds_stack. Print Assumptions gds_cell. Print Assumptions mesh_cell. Print Assumptions gds_refused. Print Assumptions gds_unknown. Print Assumptions nm_rounding.
Print Assumptions mesh_list. Print Assumptions mesh_refusals.
