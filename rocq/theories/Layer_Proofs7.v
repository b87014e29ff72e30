(** Lemmas about rendering, seventh part: the rendered values. *)
From Coq Require Import Reals Lia List QArith Qreals Sorted.
From Coquelicot Require Import Coquelicot.
From Verif Require Import QTac Grid_Model Raster_Model Raster_Spec Raster2_Model Raster2_Spec Raster2_Proofs3 Raster2_Proofs5 Raster2_Proofs6 Raster2_Proofs7 Layer_Model Layer_Spec Layer_Proofs Layer_Proofs2 Layer_Proofs3 Layer_Proofs4 Layer_Proofs5 Layer_Proofs6.
From Coq Require Import Lra.
Open Scope R_scope.

Lemma layers_in bs l x : In l (layer_polygons bs) -> In x l -> exists b, In b bs /\ x = (b_poly b, b_eps b).
Proof.
  unfold layer_polygons. cbv zeta. intros Hl Hx. apply in_map_iff in Hl as (q & <- & _). apply in_map_iff in Hx as (b & <- & Hb). apply filter_In in Hb as [Hb _]. eauto.
Qed.
Lemma nth_map_layers (f : layer -> layer) ls q : f [] = [] -> nth q (map f ls) [] = f (nth q ls []).
Proof. intros E. rewrite <- E at 1. apply map_nth. Qed.

Section main.
Variable boolean_not : polygon -> polygon -> list polygon.
Variable cs : list component.
Hypothesis CS : forall c, In c cs -> component_ok c.
Variable bs : list block.
Variable num_shifts : nat.
Hypothesis NS : (num_shifts <= length cs)%nat.
Hypothesis EPS : forall b, In b bs -> (length cs <= length (b_eps b))%nat.
Definition value (r : list array) n i j k : R := Q2R (nth n r (fun _ _ _ => 0%Q) i j k).

(** the point function of which a rendering takes averages, with and without removal of overlaps *)
Definition pointwise (ls : list layer) (n : nat) (bg : R) (x y z : R) : R :=
  bg + Rsum (map (fun q => win (layer_z bs) q z * dlay n bg (nth q ls []) x y) (seq 0 (length (layer_z bs) - 1))).
Lemma render_average dis : let ls := if (dis : bool) then layer_polygons bs else map (reduce_layer boolean_not) (layer_polygons bs) in
  (forall l x, In l ls -> In x l -> goodx cs x) ->
  exists r, render boolean_not cs num_shifts bs dis = Ok r /\ length r = length cs /\
  forall n i j k, (n < length cs)%nat -> in_grid (nth n cs dc) i j k ->
  value r n i j k = cell_average (pointwise ls n (Q2R (c_bg (nth n cs dc) i j k))) (nth n cs dc) i j k.
Proof.
  intros ls G. destruct (render_engine cs CS boolean_not num_shifts bs dis NS G) as (r & E & L & V). fold ls in V.
  exists r. split; [assumption|]. split; [assumption|]. intros n i j k Hn Hg. unfold value. rewrite (V n Hn i j k Hg).
  set (c := nth n cs dc) in *. set (bg := Q2R (c_bg c i j k)). assert (Oc : component_ok c) by (apply CS, nth_In; lia).
  assert (Ll : length ls = (length (layer_z bs) - 1)%nat) by (unfold ls; destruct dis; [|rewrite map_length]; apply layer_polygons_length).
  assert (U : forall q it, In it (nth q ls []) -> usable (fst it)).
  { intros q it Hit. destruct (Nat.lt_ge_cases q (length ls)) as [Hq|Hq]; [|rewrite nth_overflow in Hit by assumption; destruct Hit].
    apply (G (nth q ls []) it); [now apply nth_In|assumption]. }
  rewrite (cell_average_layers _ c i j k (layer_z bs) bg (fun q => dlay n bg (nth q ls [])) Oc Hg (z_increasing bs)).
  - rewrite Ll. f_equal. apply Rsum_ext. intros q Hq. f_equal. symmetry. destruct Hg as (Hi & Hj & Hk). apply average_dlay; [assumption|assumption|assumption|]. apply U.
  - intros q Hq. apply nice_dlay. apply U.
  - reflexivity.
Qed.

(** with removal of overlaps *)
Variable good : polygon -> Prop.
Hypothesis CL : clipper_ok boolean_not good.
Hypothesis GD : forall b, In b bs -> good (b_poly b).
Lemma layers_good q : allgood good (nth q (layer_polygons bs) []).
Proof.
  intros it Hit. destruct (Nat.lt_ge_cases q (length (layer_polygons bs))) as [Hq|Hq]; [|rewrite nth_overflow in Hit by assumption; destruct Hit].
  destruct (layers_in bs _ it (nth_In _ [] Hq) Hit) as (b & Hb & ->). cbn [fst]. now apply GD.
Qed.
Lemma pointwise_material n bg x y z : pointwise (map (reduce_layer boolean_not) (layer_polygons bs)) n bg x y z = material n bg bs x y z.
Proof.
  unfold pointwise. destruct (win_sum (layer_z bs) z (fun q => dlay n bg (nth q (map (reduce_layer boolean_not) (layer_polygons bs)) []) x y) (z_increasing bs)) as [(q & Hq & Hz & E)|(Hz & E)]; refine (eq_trans (f_equal (Rplus bg) E) _).
  - rewrite nth_map_layers by reflexivity. rewrite (reduce_sum boolean_not good CL) by apply layers_good. symmetry. now apply material_layer.
  - unfold material. rewrite fold_id; [ring|]. intros m b Hb. destruct (contains_dec b x y z) as [[_ C]|C]; [|reflexivity]. exfalso. exact (outside_level bs b z Hb Hz C).
Qed.
Lemma reduced_good l x : In l (map (reduce_layer boolean_not) (layer_polygons bs)) -> In x l -> goodx cs x.
Proof.
  intros Hl Hx. apply in_map_iff in Hl as (l0 & <- & H0). split.
  - apply (proj1 CL). apply (reduce_good boolean_not good CL l0); [|assumption]. intros it Hit. destruct (layers_in bs l0 it H0 Hit) as (b & Hb & ->). now apply GD.
  - revert x Hx. apply (reduce_eps boolean_not (fun e => (length cs <= length e)%nat)). intros it Hit. destruct (layers_in bs l0 it H0 Hit) as (b & Hb & ->). now apply EPS.
Qed.
Lemma cell_average_ext f g c i j k : component_ok c -> in_grid c i j k ->
  (forall x y z, Q2R (qn (cell_edges (c_x c)) i) < x < Q2R (qn (cell_edges (c_x c)) (i + 1)) -> Q2R (qn (cell_edges (c_y c)) j) < y < Q2R (qn (cell_edges (c_y c)) (j + 1)) ->
    Q2R (qn (cell_edges (c_z c)) k) < z < Q2R (qn (cell_edges (c_z c)) (k + 1)) -> f x y z = g x y z) ->
  cell_average f c i j k = cell_average g c i j k.
Proof.
  intros (Ox & Oy & Oz) (Hi & Hj & Hk) E. pose proof (cell_pos _ _ Ox Hi) as X. pose proof (cell_pos _ _ Oy Hj) as Y. pose proof (cell_pos _ _ Oz Hk) as Z.
  unfold cell_average, average3. f_equal. apply RInt_same; [lra|]. intros z Iz. apply average_ext; [assumption|assumption|]. intros x y Ix Iy. now apply E.
Qed.
Lemma cell_average_const v c i j k : component_ok c -> in_grid c i j k -> cell_average (fun _ _ _ => v) c i j k = v.
Proof.
  intros (Ox & Oy & Oz) (Hi & Hj & Hk). pose proof (cell_pos _ _ Ox Hi) as X. pose proof (cell_pos _ _ Oy Hj) as Y. pose proof (cell_pos _ _ Oz Hk) as Z.
  unfold cell_average, average3. rewrite (RInt_same _ (fun _ => v)); [|lra|intros z _; now apply average_const].
  rewrite (is_RInt_unique _ _ _ _ (int_const v _ _ _ eq_refl)). field. lra.
Qed.
Lemma render_exact_pf : exists r, render boolean_not cs num_shifts bs false = Ok r /\ length r = length cs /\
  forall n i j k, (n < length cs)%nat -> in_grid (nth n cs dc) i j k ->
  value r n i j k = cell_average (material n (Q2R (c_bg (nth n cs dc) i j k)) bs) (nth n cs dc) i j k.
Proof.
  destruct (render_average false reduced_good) as (r & E & L & V). exists r. split; [assumption|]. split; [assumption|]. intros n i j k Hn Hg. rewrite (V n i j k Hn Hg).
  apply cell_average_ext; [apply CS, nth_In; lia|assumption|]. intros x y z _ _ _. apply pointwise_material.
Qed.
(** bounds *)
Lemma average_mono f g x0 x1 y0 y1 : x0 < x1 -> y0 < y1 -> nice f -> nice g -> (forall x y, f x y <= g x y) -> average f x0 x1 y0 y1 <= average g x0 x1 y0 y1.
Proof.
  intros X Y F G H. destruct (F x0 x1 y0 y1 X Y) as [F1 F2], (G x0 x1 y0 y1 X Y) as [G1 G2]. unfold average, Rdiv. apply Rmult_le_compat_r.
  - left. apply Rinv_0_lt_compat. apply Rmult_lt_0_compat; lra.
  - apply RInt_le; [lra|assumption|assumption|]. intros y _. apply RInt_le; [lra|apply F1|apply G1|]. intros x _. apply H.
Qed.
Lemma nice_pointwise ls n bg z : (forall q it, In it (nth q ls []) -> usable (fst it)) -> nice (fun x y => pointwise ls n bg x y z).
Proof.
  intros U. unfold pointwise. apply nice_plus; [apply nice_const|]. apply (nice_sum (fun q x y => win (layer_z bs) q z * dlay n bg (nth q ls []) x y)).
  intros q _. apply nice_scal, nice_dlay, U.
Qed.
Lemma pointwise_bounds ls n bg c i j k lo hi : component_ok c -> in_grid c i j k -> (forall q it, In it (nth q ls []) -> usable (fst it)) ->
  (forall x y z, lo <= pointwise ls n bg x y z <= hi) -> lo <= cell_average (pointwise ls n bg) c i j k <= hi.
Proof.
  intros Oc Hg U B. pose proof Oc as (Ox & Oy & Oz). pose proof Hg as (Hi & Hj & Hk). pose proof (cell_pos _ _ Ox Hi) as X. pose proof (cell_pos _ _ Oy Hj) as Y. pose proof (cell_pos _ _ Oz Hk) as Z.
  unfold cell_average, average3. set (x0 := Q2R (qn (cell_edges (c_x c)) i)) in *. set (x1 := Q2R (qn (cell_edges (c_x c)) (i + 1))) in *. set (y0 := Q2R (qn (cell_edges (c_y c)) j)) in *. set (y1 := Q2R (qn (cell_edges (c_y c)) (j + 1))) in *.
  assert (A : forall z, lo <= average (fun x y => pointwise ls n bg x y z) x0 x1 y0 y1 <= hi).
  { intros z. pose proof (average_const x0 x1 y0 y1 X Y lo) as Al. pose proof (average_const x0 x1 y0 y1 X Y hi) as Ah.
    split; [rewrite <- Al|rewrite <- Ah]; apply average_mono; try assumption; try apply nice_const; try (apply nice_pointwise; exact U); intros; apply B. }
  assert (I : ex_RInt (fun z => average (fun x y => pointwise ls n bg x y z) x0 x1 y0 y1) (Q2R (qn (cell_edges (c_z c)) k)) (Q2R (qn (cell_edges (c_z c)) (k + 1)))).
  { assert (L : (qn (cell_edges (c_z c)) k < qn (cell_edges (c_z c)) (k + 1))%Q) by (apply (cE_inc Oz); pose proof (cE_len Oz); lia).
    apply (ex_ext (fun z => bg + Rsum (map (fun q => win (layer_z bs) q z * average (dlay n bg (nth q ls [])) x0 x1 y0 y1) (seq 0 (length (layer_z bs) - 1))))); [lra| |].
    - intros z _. unfold pointwise. rewrite average_plus; [|assumption|assumption|apply nice_const|].
      + rewrite average_const by assumption. f_equal. rewrite (average_sum (fun q x y => win (layer_z bs) q z * dlay n bg (nth q ls []) x y)); [|assumption|assumption|].
        * apply Rsum_ext. intros q _. symmetry. apply average_mult; [assumption|assumption|]. apply nice_dlay, U.
        * intros q _. apply nice_scal, nice_dlay, U.
      + apply (nice_sum (fun q x y => win (layer_z bs) q z * dlay n bg (nth q ls []) x y)). intros q _. apply nice_scal, nice_dlay, U.
    - eexists. apply (windows_integral (layer_z bs) (fun q => average (dlay n bg (nth q ls [])) x0 x1 y0 y1) _ _ bg (z_increasing bs) L). intros q Hq. apply in_seq in Hq. lia. }
  set (z0 := Q2R (qn (cell_edges (c_z c)) k)) in *. set (z1 := Q2R (qn (cell_edges (c_z c)) (k + 1))) in *.
  assert (P : 0 < / (z1 - z0)) by (apply Rinv_0_lt_compat; lra).
  assert (C : forall v, ex_RInt (fun _ : R => v) z0 z1) by (intros v; eexists; now apply int_const).
  assert (Cv : forall v, RInt (fun _ : R => v) z0 z1 * / (z1 - z0) = v).
  { intros v. rewrite (is_RInt_unique _ _ _ _ (int_const v _ _ _ eq_refl)). field. lra. }
  unfold Rdiv. split; [rewrite <- (Cv lo)|rewrite <- (Cv hi)]; apply Rmult_le_compat_r; try lra; apply RInt_le; try lra; auto; intros z _; apply A.
Qed.
Lemma material_bounds n bg lo hi x y z : lo <= bg <= hi -> (forall b, In b bs -> lo <= Q2R (qn (b_eps b) n) <= hi) -> lo <= material n bg bs x y z <= hi.
Proof.
  intros Hb He. unfold material. clear - Hb He. revert bg Hb. induction bs as [|b l IH]; intros bg Hb; cbn [fold_left]; [assumption|]. apply IH; [intros; apply He; now right|].
  destruct contains_dec; [apply He; now left|assumption].
Qed.
Lemma render_bounds_pf r n i j k lo hi : render boolean_not cs num_shifts bs false = Ok r -> (n < length cs)%nat -> in_grid (nth n cs dc) i j k ->
  (lo <= c_bg (nth n cs dc) i j k <= hi)%Q -> (forall b, In b bs -> lo <= qn (b_eps b) n <= hi)%Q -> (lo <= nth n r (fun _ _ _ => 0%Q) i j k <= hi)%Q.
Proof.
  intros E Hn Hg Hb He. destruct (render_average false reduced_good) as (r' & E' & L & V). rewrite E in E'. injection E' as <-. specialize (V n i j k Hn Hg). unfold value in V.
  assert (B : Q2R lo <= Q2R (nth n r (fun _ _ _ => 0%Q) i j k) <= Q2R hi).
  { rewrite V. apply pointwise_bounds; [apply CS, nth_In; lia|assumption| |].
    - intros q it Hit. rewrite nth_map_layers in Hit by reflexivity. apply (proj1 CL). revert it Hit. apply reduce_good; [assumption|apply layers_good].
    - intros x y z. rewrite pointwise_material. apply material_bounds; [split; apply Q2R_le; apply Hb|]. intros b Hb'. split; apply Q2R_le; now apply He. }
  split; apply Rle_Qle; apply B.
Qed.
End main.

(** without removal of overlaps *)
Lemma pointwise_overlay bs n bg x y z : pointwise bs (layer_polygons bs) n bg x y z = overlay n bg bs x y z.
Proof.
  unfold pointwise, overlay. f_equal. destruct (win_sum (layer_z bs) z (fun q => dlay n bg (nth q (layer_polygons bs) []) x y) (z_increasing bs)) as [(q & Hq & Hz & E)|(Hz & E)]; refine (eq_trans E _).
  - rewrite layer_polygons_nth by assumption. unfold dlay. rewrite map_map.
    assert (H : forall l, (forall b, In b l -> In b bs) -> Rsum (map (fun b => (Q2R (qn (snd (b_poly b, b_eps b)) n) - bg) * En (fst (b_poly b, b_eps b)) x y)
       (filter (fun b => Qle_bool (b_lo b) (qn (layer_z bs) q) && qlt (qn (layer_z bs) q) (b_hi b)) l)) = fold_right Rplus 0 (map (fun b => if contains_dec b x y z then Q2R (qn (b_eps b) n) - bg else 0) l)).
    { induction l as [|b l IH]; intros Hl; [reflexivity|]. specialize (IH (fun b' Hb' => Hl b' (or_intror Hb'))). cbn [filter map fold_right].
      pose proof (level_iff bs b q z (Hl b (or_introl eq_refl)) Hq Hz) as Lv. unfold at_level in Lv. destruct (_ && _) eqn:F.
      - cbn [map]. change (Rsum (?a :: ?b)) with (a + Rsum b). rewrite IH. f_equal. cbn [fst snd]. destruct contains_dec as [[C1 C2]|C]; [rewrite C1; ring|].
        destruct (enclosed_01 (map ptR (b_poly b)) x y) as [Z|Z]; [rewrite Z; ring|]. exfalso. apply C. split; [assumption|]. now apply Lv.
      - rewrite IH. destruct contains_dec as [[C1 C2]|C]; [|ring]. apply Lv in C2. discriminate. }
    apply H. auto.
  - symmetry. apply Rsum_zero. intros b Hb. destruct (contains_dec b x y z) as [[_ C]|C]; [|reflexivity]. exfalso. exact (outside_level bs b z Hb Hz C).
Qed.
Lemma render_overlay_pf boolean_not cs bs num_shifts : (forall c, In c cs -> component_ok c) -> (num_shifts <= length cs)%nat ->
  (forall b, In b bs -> usable (b_poly b) /\ (length cs <= length (b_eps b))%nat) ->
  exists r, render boolean_not cs num_shifts bs true = Ok r /\ length r = length cs /\
  forall n i j k, (n < length cs)%nat -> in_grid (nth n cs dc) i j k ->
  value r n i j k = cell_average (overlay n (Q2R (c_bg (nth n cs dc) i j k)) bs) (nth n cs dc) i j k.
Proof.
  intros CS NS H. destruct (render_average boolean_not cs CS bs num_shifts NS true) as (r & E & L & V).
  { intros l x Hl Hx. destruct (layers_in bs l x Hl Hx) as (b & Hb & ->). exact (H b Hb). }
  exists r. split; [assumption|]. split; [assumption|]. intros n i j k Hn Hg. rewrite (V n i j k Hn Hg).
  apply cell_average_ext; [apply CS, nth_In; lia|assumption|]. intros x y z _ _ _. apply pointwise_overlay.
Qed.
Lemma overlay_disjoint n bg bs x y z : ForallOrdPairs (fun a b => forall x y z, ~ (contains a x y z /\ contains b x y z)) bs ->
  overlay n bg bs x y z = material n bg bs x y z.
Proof.
  intros H. unfold overlay, material. assert (K : forall m, (forall b, In b bs -> contains b x y z -> m = bg) ->
    m + fold_right Rplus 0 (map (fun b => if contains_dec b x y z then Q2R (qn (b_eps b) n) - bg else 0) bs) = fold_left (fun m b => if contains_dec b x y z then Q2R (qn (b_eps b) n) else m) bs m).
  { induction H as [|b bs F _ IH]; intros m Hm; cbn [map fold_right fold_left]; [ring|]. rewrite Forall_forall in F. destruct (contains_dec b x y z) as [C|C].
    - rewrite (Hm b (or_introl eq_refl) C). rewrite <- IH; [ring|]. intros b' Hb' C'. exfalso. exact (F b' Hb' x y z (conj C C')).
    - rewrite <- IH; [ring|]. intros b' Hb'. apply Hm. now right. }
  apply K. reflexivity.
Qed.
