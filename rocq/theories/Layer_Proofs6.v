(** Lemmas about rendering, sixth part: overlaps, the material at a point, averages over cells. *)
From Coq Require Import Reals Lia List QArith Qreals Sorted.
From Coquelicot Require Import Coquelicot.
From Verif Require Import QTac Grid_Model Raster_Model Raster_Spec Raster2_Model Raster2_Spec Raster2_Proofs3 Raster2_Proofs5 Raster2_Proofs6 Raster2_Proofs7 Layer_Model Layer_Spec Layer_Proofs Layer_Proofs2 Layer_Proofs3 Layer_Proofs4 Layer_Proofs5.
From Coq Require Import Lra.
Open Scope R_scope.

Notation En p x y := (enclosed (map ptR p) x y).
(** what a layer adds to the background at a point *)
Definition dlay (n : nat) (bg : R) (l : layer) (x y : R) : R := Rsum (map (fun it : polygon * list Q => (Q2R (qn (snd it) n) - bg) * En (fst it) x y) l).
Lemma nice_sum {A} (F : A -> R -> R -> R) l : (forall a, In a l -> nice (F a)) -> nice (fun x y => Rsum (map (fun a => F a x y) l)).
Proof.
  induction l as [|a l IH]; intros H; [exact (nice_const 0)|]. cbn [map].
  apply (nice_ext (fun x y => F a x y + Rsum (map (fun a => F a x y) l))); [reflexivity|]. apply nice_plus; [apply H; now left|apply IH; intros; apply H; now right].
Qed.
Lemma average_sum {A} (F : A -> R -> R -> R) x0 x1 y0 y1 l : x0 < x1 -> y0 < y1 -> (forall a, In a l -> nice (F a)) ->
  average (fun x y => Rsum (map (fun a => F a x y) l)) x0 x1 y0 y1 = Rsum (map (fun a => average (F a) x0 x1 y0 y1) l).
Proof.
  intros Hx Hy. induction l as [|a l IH]; intros H; [exact (average_const x0 x1 y0 y1 Hx Hy 0)|]. cbn [map]. change (Rsum (?a :: ?b)) with (a + Rsum b).
  rewrite <- IH by (intros; apply H; now right). rewrite <- average_plus; [reflexivity|assumption|assumption|apply H; now left|]. apply nice_sum. intros; apply H; now right.
Qed.
Lemma nice_dlay n bg l : (forall it, In it l -> usable (fst it)) -> nice (dlay n bg l).
Proof.
  intros H. unfold dlay. apply (nice_sum (fun (it : polygon * list Q) x y => (Q2R (qn (snd it) n) - bg) * En (fst it) x y)). intros it Hit. apply nice_scal, nice_enclosed. now apply H.
Qed.
Lemma average_dlay n bg l c i j : component_ok c -> (i < num_cells (c_x c))%nat -> (j < num_cells (c_y c))%nat -> (forall it, In it l -> usable (fst it)) ->
  pixel_average (dlay n bg l) (cell_edges (c_x c)) (cell_edges (c_y c)) i j = Dsum n c bg l i j.
Proof.
  intros (Ox & Oy & _) Hi Hj H. unfold pixel_average, dlay. pose proof (cell_pos _ _ Ox Hi) as X. pose proof (cell_pos _ _ Oy Hj) as Y.
  rewrite (average_sum (fun (it : polygon * list Q) x y => (Q2R (qn (snd it) n) - bg) * En (fst it) x y)); [|assumption|assumption|].
  - unfold Dsum. apply Rsum_ext. intros it Hit. unfold share, pixel_average. apply average_mult; [assumption|assumption|]. apply nice_enclosed. now apply H.
  - intros it Hit. apply nice_scal, nice_enclosed. now apply H.
Qed.
(** average over a cell of a function that is constant in z within each layer *)
Lemma cell_average_layers f c i j k zs bg (d : nat -> R -> R -> R) : component_ok c -> in_grid c i j k -> increasing zs ->
  (forall q, (q < length zs - 1)%nat -> nice (d q)) ->
  (forall x y z, f x y z = bg + Rsum (map (fun q => win zs q z * d q x y) (seq 0 (length zs - 1)))) ->
  cell_average f c i j k = bg + Rsum (map (fun q => pixel_average (d q) (cell_edges (c_x c)) (cell_edges (c_y c)) i j * zfrac c (qn zs q) (qn zs (q + 1)) k) (seq 0 (length zs - 1))).
Proof.
  intros (Ox & Oy & Oz) (Hi & Hj & Hk) I N E. pose proof (cell_pos _ _ Ox Hi) as X. pose proof (cell_pos _ _ Oy Hj) as Y. pose proof (cell_pos _ _ Oz Hk) as Z.
  unfold cell_average, average3. set (A := fun q => pixel_average (d q) (cell_edges (c_x c)) (cell_edges (c_y c)) i j).
  rewrite (RInt_same _ (fun z => bg + Rsum (map (fun q => win zs q z * A q) (seq 0 (length zs - 1))))); [|lra|].
  - assert (L : (qn (cell_edges (c_z c)) k < qn (cell_edges (c_z c)) (k + 1))%Q) by (apply (cE_inc Oz); pose proof (cE_len Oz); lia).
    rewrite (is_RInt_unique _ _ _ _ (windows_integral zs A _ _ bg I L (seq 0 (length zs - 1)) ltac:(intros q Hq; apply in_seq in Hq; lia))).
    set (w := Q2R (qn (cell_edges (c_z c)) (k + 1)) - Q2R (qn (cell_edges (c_z c)) k)).
    assert (W : w <> 0) by (unfold w; lra).
    rewrite (Rsum_ext (fun q => A q * zfrac c (qn zs q) (qn zs (q + 1)) k) (fun q => / w * (A q * Q2R (overlap (qn zs q) (qn zs (q + 1)) (qn (cell_edges (c_z c)) k) (qn (cell_edges (c_z c)) (k + 1)))))).
    + rewrite Rsum_scal. fold w. field. assumption.
    + intros q Hq. apply in_seq in Hq. unfold zfrac. assert (M : (qn zs q <= qn zs (q + 1))%Q) by (apply (increasing_le I); lia).
      assert (C : (covered (qmin (qn zs q) (qn zs (q + 1))) (qmax (qn zs q) (qn zs (q + 1))) (cell_edges (c_z c)) k == covered (qn zs q) (qn zs (q + 1)) (cell_edges (c_z c)) k)%Q).
      { unfold covered. apply Raster_Proofs.div_ext. unfold overlap. set (s := qn zs q) in *. set (t := qn zs (q + 1)) in *. clearbody s t. qlra. }
      rewrite (Q2R_eq _ _ C). unfold covered. rewrite Q2R_div by (intros H; Lqa.lra). rewrite Q2R_minus. fold w. field. assumption.
  - intros z _. rewrite (average_ext _ _ _ _ X Y _ (fun x y => bg + Rsum (map (fun q => win zs q z * d q x y) (seq 0 (length zs - 1))))) by (intros; apply E).
    assert (NS : nice (fun x y => Rsum (map (fun q => win zs q z * d q x y) (seq 0 (length zs - 1))))).
    { apply (nice_sum (fun q x y => win zs q z * d q x y)). intros q Hq. apply in_seq in Hq. apply nice_scal, N. lia. }
    rewrite average_plus; [|assumption|assumption|apply nice_const|assumption]. rewrite average_const by assumption. f_equal.
    rewrite (average_sum (fun q x y => win zs q z * d q x y)); [|assumption|assumption|].
    + apply Rsum_ext. intros q Hq. apply in_seq in Hq. unfold A, pixel_average. apply average_mult; [assumption|assumption|]. apply N. lia.
    + intros q Hq. apply in_seq in Hq. apply nice_scal, N. lia.
Qed.

(** *** overlaps *)
Lemma box_disjoint p q x y : check_bounding_box p q = false -> En p x y * En q x y = 0.
Proof.
  assert (S : forall l, ~ (amax l < amin l)%Q).
  { intros l H. destruct l as [|a l]; [cbn in H; Lqa.lra|]. pose proof (amin_amax (a :: l) ltac:(discriminate)). Lqa.lra. }
  assert (V : forall r v, In v (map ptR r) -> exists u, In u r /\ fst v = Q2R (fst u) /\ snd v = Q2R (snd u)).
  { intros r v Hv. apply in_map_iff in Hv as (u & <- & Hu). exists u. auto. }
  unfold check_bounding_box. cbv zeta. intros H.
  destruct (qlt (amax (map fst p)) (amin (map fst q)) || qlt (amax (map fst q)) (amin (map fst q))) eqn:E1.
  - apply Bool.orb_true_iff in E1 as [E|E]; qhyps; [|exfalso; exact (S _ E)]. destruct (Rle_dec x (Q2R (amin (map fst q)))) as [K|K].
    + rewrite (enclosed_outside (map ptR q)); [ring|]. left. intros v Hv. destruct (V q v Hv) as (u & Hu & -> & _).
      assert (L : (amin (map fst q) <= fst u)%Q) by (apply amin_le, in_map, Hu). apply Q2R_le in L. lra.
    + rewrite (enclosed_outside (map ptR p)); [ring|]. right. left. intros v Hv. destruct (V p v Hv) as (u & Hu & -> & _).
      assert (L : (fst u <= amax (map fst p))%Q) by (apply amax_le, in_map, Hu). apply Q2R_le in L. apply Q2R_lt in E. lra.
  - destruct (qlt (amax (map snd p)) (amin (map snd q)) || qlt (amax (map snd q)) (amin (map snd q))) eqn:E2; [|discriminate].
    apply Bool.orb_true_iff in E2 as [E|E]; qhyps; [|exfalso; exact (S _ E)]. destruct (Rlt_dec y (Q2R (amin (map snd q)))) as [K|K].
    + rewrite (enclosed_outside (map ptR q)); [ring|]. right. right. left. intros v Hv. destruct (V q v Hv) as (u & Hu & _ & ->).
      assert (L : (amin (map snd q) <= snd u)%Q) by (apply amin_le, in_map, Hu). apply Q2R_le in L. lra.
    + rewrite (enclosed_outside (map ptR p)); [ring|]. right. right. right. intros v Hv. destruct (V p v Hv) as (u & Hu & _ & ->).
      assert (L : (snd u <= amax (map snd p))%Q) by (apply amax_le, in_map, Hu). apply Q2R_le in L. apply Q2R_lt in E. lra.
Qed.
Section overlap.
Variable boolean_not : polygon -> polygon -> list polygon.
Variable good : polygon -> Prop.
Hypothesis CL : clipper_ok boolean_not good.
Lemma intersection_sum p q x y : good p -> good q -> Rsum (map (fun r => En r x y) (compute_intersection boolean_not p q)) = En p x y * (1 - En q x y).
Proof.
  intros P Q. unfold compute_intersection. destruct (check_bounding_box p q) eqn:E.
  - apply (proj2 CL p q P Q).
  - pose proof (box_disjoint p q x y E). cbn. lra.
Qed.
Lemma intersection_good p q : good p -> good q -> forall r, In r (compute_intersection boolean_not p q) -> good r.
Proof.
  intros P Q r. unfold compute_intersection. destruct (check_bounding_box p q); [apply (proj2 CL p q P Q)|]. intros [<-|[]]. assumption.
Qed.
Definition wins (n : nat) (x y : R) (m : R) (it : polygon * list Q) : R := if Req_EM_T (En (fst it) x y) 1 then Q2R (qn (snd it) n) else m.
Definition allgood (l : layer) : Prop := forall it, In it l -> good (fst it).
Lemma step_good red it : allgood red -> good (fst it) -> allgood (reduce_step boolean_not red it).
Proof.
  intros G H r Hr. unfold reduce_step in Hr. apply in_app_or in Hr as [Hr|[<-|[]]]; [|assumption].
  apply in_flat_map in Hr as (r0 & H0 & Hr). apply in_map_iff in Hr as (p & <- & Hp). cbn [fst]. revert p Hp. apply intersection_good; [now apply G|assumption].
Qed.
Lemma step_sum n bg red it x y : allgood red -> good (fst it) ->
  bg + dlay n bg (reduce_step boolean_not red it) x y = wins n x y (bg + dlay n bg red x y) it.
Proof.
  intros G H. unfold reduce_step, dlay. rewrite map_app, Rsum_app.
  assert (K : Rsum (map (fun it0 : polygon * list Q => (Q2R (qn (snd it0) n) - bg) * En (fst it0) x y) (flat_map (fun r => map (fun p => (p, snd r)) (compute_intersection boolean_not (fst r) (fst it))) red))
    = (1 - En (fst it) x y) * Rsum (map (fun it0 : polygon * list Q => (Q2R (qn (snd it0) n) - bg) * En (fst it0) x y) red)).
  { induction red as [|r red IH]; [cbn; ring|]. cbn [flat_map map]. rewrite map_app, Rsum_app, IH by (intros r' Hr'; apply G; now right).
    rewrite map_map. cbn [fst snd]. rewrite (Rsum_scal (Q2R (qn (snd r) n) - bg)). rewrite intersection_sum; [|apply G; now left|assumption].
    change (Rsum (?a :: ?b)) with (a + Rsum b). ring. }
  rewrite K. cbn [map]. change (Rsum [?a]) with (a + 0). unfold wins. destruct (enclosed_01 (map ptR (fst it)) x y) as [E|E]; rewrite E; destruct Req_EM_T; lra.
Qed.
Lemma reduce_good l : allgood l -> allgood (reduce_layer boolean_not l).
Proof.
  destruct l as [|it l]; intros G; [assumption|]. cbn [reduce_layer].
  assert (H : forall l red, allgood red -> allgood l -> allgood (fold_left (reduce_step boolean_not) l red)).
  { clear G l. intros l. induction l as [|a l IH]; intros red R L; [assumption|]. cbn [fold_left]. apply IH; [apply step_good; [assumption|apply L; now left]|intros b Hb; apply L; now right]. }
  apply H; [intros r [<-|[]]; apply G; now left|intros r Hr; apply G; now right].
Qed.
Lemma reduce_eps (P : list Q -> Prop) l : (forall it, In it l -> P (snd it)) -> forall it, In it (reduce_layer boolean_not l) -> P (snd it).
Proof.
  destruct l as [|a l]; intros G; [assumption|]. cbn [reduce_layer].
  assert (H : forall l red, (forall it, In it red -> P (snd it)) -> (forall it, In it l -> P (snd it)) -> forall it, In it (fold_left (reduce_step boolean_not) l red) -> P (snd it)).
  { clear. intros l. induction l as [|a l IH]; intros red R L; [assumption|]. cbn [fold_left]. apply IH; [|intros b Hb; apply L; now right].
    intros it Hit. unfold reduce_step in Hit. apply in_app_or in Hit as [Hr|[<-|[]]]; [|apply L; now left].
    apply in_flat_map in Hr as (r0 & H0 & Hr). apply in_map_iff in Hr as (p & <- & Hp). cbn [snd]. now apply R. }
  apply H; [intros r [<-|[]]; apply G; now left|intros r Hr; apply G; now right].
Qed.
Lemma reduce_sum n bg l x y : allgood l -> bg + dlay n bg (reduce_layer boolean_not l) x y = fold_left (wins n x y) l bg.
Proof.
  destruct l as [|it l]; intros G; [unfold dlay; cbn; ring|]. cbn [reduce_layer fold_left].
  assert (H : forall l red, allgood red -> allgood l -> bg + dlay n bg (fold_left (reduce_step boolean_not) l red) x y = fold_left (wins n x y) l (bg + dlay n bg red x y)).
  { clear G l. intros l. induction l as [|a l IH]; intros red R L; [reflexivity|]. cbn [fold_left]. rewrite IH; [|apply step_good; [assumption|apply L; now left]|intros b Hb; apply L; now right].
    f_equal. apply step_sum; [assumption|apply L; now left]. }
  rewrite H; [|intros r [<-|[]]; apply G; now left|intros r Hr; apply G; now right]. f_equal.
  unfold dlay, wins. cbn [map]. change (Rsum [?a]) with (a + 0). destruct (enclosed_01 (map ptR (fst it)) x y) as [E|E]; rewrite E; destruct Req_EM_T; lra.
Qed.
End overlap.

(** *** the material at a point *)
Definition at_level (zs : list Q) (q : nat) (b : block) : bool := Qle_bool (b_lo b) (qn zs q) && qlt (qn zs q) (b_hi b).
Lemma level_iff bs b q z : In b bs -> (q < length (layer_z bs) - 1)%nat -> Q2R (qn (layer_z bs) q) <= z < Q2R (qn (layer_z bs) (q + 1)) ->
  (at_level (layer_z bs) q b = true <-> Q2R (b_lo b) <= z < Q2R (b_hi b)).
Proof.
  intros Hb Hq Hz. destruct (z_has bs b Hb) as [(m & Hm & Em) (h & Hh & Eh)]. pose proof (z_increasing bs) as I. set (zs := layer_z bs) in *.
  apply Q2R_eq in Em, Eh. unfold at_level. rewrite Bool.andb_true_iff. split.
  - intros [A B]. qhyps. apply Q2R_le in A. apply Q2R_lt in B. split; [lra|]. destruct (Nat.le_gt_cases h q) as [L|L].
    + pose proof (Q2R_inc zs h q I ltac:(lia)). lra.
    + pose proof (Q2R_inc zs (q + 1) h I ltac:(lia)). lra.
  - intros [A B]. split.
    + apply Qle_bool_iff. apply Rle_Qle. destruct (Nat.le_gt_cases m q) as [L|L].
      * pose proof (Q2R_inc zs m q I ltac:(lia)). lra.
      * pose proof (Q2R_inc zs (q + 1) m I ltac:(lia)). lra.
    + destruct (qlt (qn zs q) (b_hi b)) eqn:E; [reflexivity|]. qhyps. apply Q2R_le in E. lra.
Qed.
Lemma outside_level bs b z : In b bs -> ((length (layer_z bs) = 0)%nat \/ z < Q2R (qn (layer_z bs) 0) \/ Q2R (qn (layer_z bs) (length (layer_z bs) - 1)) <= z) -> ~ (Q2R (b_lo b) <= z < Q2R (b_hi b)).
Proof.
  intros Hb H [A B]. destruct (z_has bs b Hb) as [(m & Hm & Em) (h & Hh & Eh)]. pose proof (z_increasing bs) as I. set (zs := layer_z bs) in *.
  apply Q2R_eq in Em, Eh. destruct H as [H|[H|H]]; [lia| |].
  - pose proof (Q2R_inc zs 0 m I ltac:(lia)). lra.
  - pose proof (Q2R_inc zs h (length zs - 1) I ltac:(lia)). lra.
Qed.
Lemma fold_filter {A B C} (f : C -> B -> C) (g : A -> B) (h : A -> bool) l : forall c, fold_left f (map g (filter h l)) c = fold_left (fun c a => if h a then f c (g a) else c) l c.
Proof. induction l as [|a l IH]; intros c; cbn; [reflexivity|]. destruct (h a); cbn; apply IH. Qed.
Lemma fold_ext {A C} (f g : C -> A -> C) l : (forall c a, In a l -> f c a = g c a) -> forall c, fold_left f l c = fold_left g l c.
Proof. intros H. induction l as [|a l IH]; intros c; cbn; [reflexivity|]. rewrite H by now left. apply IH. intros; apply H; now right. Qed.
Lemma fold_id {A C} (f : C -> A -> C) l : (forall c a, In a l -> f c a = c) -> forall c, fold_left f l c = c.
Proof. intros H. induction l as [|a l IH]; intros c; cbn; [reflexivity|]. rewrite H by now left. apply IH. intros; apply H; now right. Qed.
Lemma material_layer n bg bs x y z q : (q < length (layer_z bs) - 1)%nat -> Q2R (qn (layer_z bs) q) <= z < Q2R (qn (layer_z bs) (q + 1)) ->
  material n bg bs x y z = fold_left (wins n x y) (nth q (layer_polygons bs) []) bg.
Proof.
  intros Hq Hz. rewrite layer_polygons_nth by assumption. rewrite fold_filter. unfold material. apply fold_ext. intros m b Hb.
  pose proof (level_iff bs b q z Hb Hq Hz) as L. unfold at_level in L. unfold wins. cbn [fst snd]. destruct (contains_dec b x y z) as [[C1 C2]|C].
  - apply L in C2. rewrite C2. destruct Req_EM_T; [reflexivity|tauto].
  - destruct (_ && _) eqn:E; [|reflexivity]. destruct Req_EM_T as [F|F]; [|reflexivity]. exfalso. apply C. split; [assumption|]. now apply L.
Qed.
