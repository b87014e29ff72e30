(** Lemmas about rendering, eighth part: drawing, rectangles, examples. *)
From Coq Require Import Reals Lia List QArith Qreals Sorted.
From Coquelicot Require Import Coquelicot.
From Verif Require Import QTac Grid_Model Raster_Model Raster_Spec Raster2_Model Raster2_Spec Raster2_Proofs5 Raster2_Proofs6 Raster2_Proofs7 Layer_Model Layer_Spec Layer_Proofs Layer_Proofs4 Layer_Proofs7.
From Coq Require Import Lra.
Open Scope R_scope.

(** *** moving a polygon *)
Lemma ind_iff {A B C D : Prop} (d : {A} + {B}) (e : {C} + {D}) : (A <-> C) -> (B -> ~ A) -> (D -> ~ C) -> ind d = ind e.
Proof. unfold ind. destruct d, e; tauto. Qed.
Lemma ind_le_shift a b c : ind (Rle_dec (a + c) b) = ind (Rle_dec a (b - c)).
Proof. apply ind_iff; lra. Qed.
Lemma ind_lt_shift a b c : ind (Rlt_dec b (a + c)) = ind (Rlt_dec (b - c) a).
Proof. apply ind_iff; lra. Qed.
Lemma ind_lt_shift' a b c : ind (Rlt_dec (a + c) b) = ind (Rlt_dec a (b - c)).
Proof. apply ind_iff; lra. Qed.
Definition moveR (cx cy : R) (p : R * R) : R * R := (fst p + cx, snd p + cy).
Lemma crossing_shift cx cy a b x y : crossing (moveR cx cy a) (moveR cx cy b) x y = crossing a b (x - cx) (y - cy).
Proof.
  unfold crossing, upwards, moveR. cbn [fst snd]. rewrite !ind_le_shift, !ind_lt_shift. f_equal.
  rewrite <- ind_lt_shift'. f_equal. unfold abscissa. cbn [fst snd].
  replace (y - (snd a + cy)) with (y - cy - snd a) by ring. replace (snd b + cy - (snd a + cy)) with (snd b - snd a) by ring.
  replace (fst a + cx + (fst b + cx - (fst a + cx)) * ((y - cy - snd a) / (snd b - snd a))) with (fst a + (fst b - fst a) * ((y - cy - snd a) / (snd b - snd a)) + cx) by ring. reflexivity.
Qed.
Lemma edges_map {A B} (f : A -> B) P : polygon_edges (map f P) = map (fun e => (f (fst e), f (snd e))) (polygon_edges P).
Proof.
  unfold polygon_edges. replace (tl (map f P) ++ firstn 1 (map f P)) with (map f (tl P ++ firstn 1 P)) by (destruct P; cbn; [reflexivity|now rewrite map_app]).
  generalize (tl P ++ firstn 1 P). intros Q. revert Q. induction P as [|a P IH]; intros [|b Q]; cbn; try reflexivity. now rewrite IH.
Qed.
Lemma winding_shift cx cy P x y : winding (map (moveR cx cy) P) x y = winding P (x - cx) (y - cy).
Proof. unfold winding. rewrite edges_map, map_map. f_equal. apply map_ext. intros e. cbn [fst snd]. apply crossing_shift. Qed.
Lemma enclosed_shift (cx cy : Q) (p : polygon) x y :
  enclosed (map ptR (map (fun v => (fst v + cx, snd v + cy)%Q) p)) x y = enclosed (map ptR p) (x - Q2R cx) (y - Q2R cy).
Proof.
  unfold enclosed. rewrite <- winding_shift. rewrite !map_map. f_equal. f_equal. f_equal. 
  rewrite (map_ext (fun v => ptR (fst v + cx, snd v + cy)%Q) (fun v => moveR (Q2R cx) (Q2R cy) (ptR v))); [reflexivity|].
  intros v. unfold ptR, moveR. cbn [fst snd]. now rewrite !Q2R_plus.
Qed.
Lemma draw_polygon_pf bs cx cy cz poly thickness eps : (3 <= length poly)%nat -> (0 < thickness)%Q ->
  exists b, draw_polygon bs cx cy cz poly thickness eps = Ok (bs ++ [b]) /\ b_eps b = eps /\
  forall x y z, contains b x y z <-> enclosed (map ptR poly) (x - Q2R cx) (y - Q2R cy) = 1 /\ Q2R cz - Q2R thickness / 2 <= z < Q2R cz + Q2R thickness / 2.
Proof.
  intros H T. unfold draw_polygon. assert (Nat.leb (length poly) 2 = false) as -> by (apply Nat.leb_gt; lia).
  destruct (Qle_bool thickness 0) eqn:E; [qhyps; exfalso; Lqa.lra|].
  eexists. split; [reflexivity|]. split; [reflexivity|]. intros x y z. unfold contains. cbn [b_poly b_lo b_hi]. rewrite enclosed_shift, Q2R_minus, Q2R_plus, Q2R_mult, Q2R_half.
  replace (/ 2 * Q2R thickness) with (Q2R thickness / 2) by field. tauto.
Qed.
Lemma material_last n bg bs b x y z : material n bg (bs ++ [b]) x y z = if contains_dec b x y z then Q2R (qn (b_eps b) n) else material n bg bs x y z.
Proof. unfold material. now rewrite fold_left_app. Qed.

(** *** rectangles *)
Definition span (a b t : R) : R := ind (Rle_dec a t) * ind (Rlt_dec t b).
Definition spanr (a b t : R) : R := ind (Rlt_dec a t) * ind (Rle_dec t b).
Lemma winding_rect (a b c d x y : R) : a <= b -> c < d -> winding [(a, d); (b, d); (b, c); (a, c)] x y = - (spanr a b x * span c d y).
Proof.
  intros Hab Hcd. unfold winding, polygon_edges. cbn [map tl firstn app combine fst snd fold_right]. unfold crossing, upwards, abscissa. cbn [fst snd].
  rewrite !Rminus_eq_0, !Rmult_0_l, !Rplus_0_r. unfold span, spanr, ind. 
  generalize (a + (b - a) * ((y - d) / 0)) (b + (a - b) * ((y - c) / 0)). intros u v. real_cases; lra.
Qed.
Lemma enclosed_rect a b c d x y : a <= b -> c < d -> enclosed [(a, d); (b, d); (b, c); (a, c)] x y = spanr a b x * span c d y.
Proof. intros H1 H2. unfold enclosed. rewrite winding_rect by assumption. destruct Req_EM_T as [E|E]; [lra|]. revert E. unfold span, spanr, ind. real_cases; lra. Qed.
Lemma simple_rect a b c d : a <= b -> c < d -> simple [(a, d); (b, d); (b, c); (a, c)].
Proof. intros H1 H2. exists (-1). split; [auto|]. intros x y. rewrite winding_rect by assumption. unfold span, spanr, ind. real_cases; lra. Qed.
Lemma rect_usable a b c d : (a < b)%Q -> (c < d)%Q -> usable (rect a b c d).
Proof.
  intros H1 H2. split; [cbn; lia|]. split.
  - exists (a, d), (b, d). cbn. tauto.
  - unfold rect, ptR. cbn [map fst snd]. apply Q2R_lt in H1, H2. apply simple_rect; lra.
Qed.
Lemma rect_enclosed a b c d x y : (a < b)%Q -> (c < d)%Q -> enclosed (map ptR (rect a b c d)) x y = spanr (Q2R a) (Q2R b) x * span (Q2R c) (Q2R d) y.
Proof. intros H1 H2. unfold rect, ptR. cbn [map fst snd]. apply Q2R_lt in H1, H2. apply enclosed_rect; lra. Qed.
(** a subtraction that is right for rectangles *)
Definition piece (l r b t : Q) : list polygon := if qlt l r && qlt b t then [rect l r b t] else [].
Definition rect_not (p q : polygon) : list polygon :=
  match p, q with
  | [(a, d); _; (b, c); _], [(a', d'); _; (b', c'); _] =>
      let c1 := qmax c c' in let d1 := qmin d d' in
      piece a b c (qmin d c') ++ piece a b (qmax c d') d ++ piece a (qmin b a') c1 d1 ++ piece (qmax a b') b c1 d1
  | _, _ => [p]
  end.
Lemma rect_not_eq a b c d a' b' c' d' : rect_not (rect a b c d) (rect a' b' c' d') =
  piece a b c (qmin d c') ++ piece a b (qmax c d') d ++ piece a (qmin b a') (qmax c c') (qmin d d') ++ piece (qmax a b') b (qmax c c') (qmin d d').
Proof. reflexivity. Qed.
Lemma piece_sum l r b t x y : Rsum (map (fun p => enclosed (map ptR p) x y) (piece l r b t)) = spanr (Q2R l) (Q2R r) x * span (Q2R b) (Q2R t) y.
Proof.
  unfold piece. destruct (qlt l r) eqn:E1, (qlt b t) eqn:E2; cbn [andb map Rsum fold_right]; qhyps;
    [unfold Rsum; cbn [fold_right]; rewrite rect_enclosed by assumption; ring| | |]; repeat match goal with H : (_ <= _)%Q |- _ => apply Q2R_le in H | H : (_ < _)%Q |- _ => apply Q2R_lt in H end;
    unfold span, spanr, ind, Rsum; cbn [fold_right]; real_cases; lra.
Qed.
Lemma span_parts c d c' d' t : c < d -> c' < d' -> span c (Rmin d c') t + span (Rmax c c') (Rmin d d') t + span (Rmax c d') d t = span c d t /\ span (Rmax c c') (Rmin d d') t = span c d t * span c' d' t.
Proof. intros H1 H2. unfold span, ind, Rmin, Rmax. destruct (Rle_dec d c'), (Rle_dec c c'), (Rle_dec d d'), (Rle_dec c d'); split; real_cases; lra. Qed.
Lemma spanr_parts c d c' d' t : c < d -> c' < d' -> spanr c (Rmin d c') t + spanr c d t * spanr c' d' t + spanr (Rmax c d') d t = spanr c d t.
Proof. intros H1 H2. unfold spanr, ind, Rmin, Rmax. destruct (Rle_dec d c'), (Rle_dec c d'); real_cases; lra. Qed.
Lemma rect_clipper_pf : clipper_ok rect_not is_rect.
Proof.
  split; [intros p (a & b & c & d & H1 & H2 & ->); now apply rect_usable|].
  intros p q (a & b & c & d & H1 & H2 & ->) (a' & b' & c' & d' & H1' & H2' & ->). split.
  - intros r. rewrite rect_not_eq.
    assert (P : forall l r b t p, In p (piece l r b t) -> is_rect p).
    { intros l r0 b0 t p. unfold piece. destruct (qlt l r0) eqn:E1, (qlt b0 t) eqn:E2; cbn [andb]; intros H; cbn [In] in H; try contradiction. destruct H as [<-|[]]. qhyps. exists l, r0, b0, t. auto. }
    rewrite !in_app_iff. intros [H|[H|[H|H]]]; revert H; apply P.
  - intros x y. rewrite !rect_enclosed by assumption. rewrite rect_not_eq. change (fold_right Rplus 0 ?l) with (Rsum l).
    rewrite !map_app, !Rsum_app, !piece_sum, !Q2R_qmin, !Q2R_qmax. apply Q2R_lt in H1, H2, H1', H2'.
    destruct (span_parts _ _ _ _ y H2 H2') as [Y1 Y2]. pose proof (spanr_parts _ _ _ _ x H1 H1') as X.
    set (Xl := spanr _ (Rmin _ _) x) in *. set (Xr := spanr (Rmax _ _) _ x) in *. set (Yb := span _ (Rmin _ (Q2R c')) y) in *. set (Yt := span (Rmax _ (Q2R d')) _ y) in *. set (Ym := span (Rmax _ _) (Rmin _ _) y) in *.
    transitivity (spanr (Q2R a) (Q2R b) x * (Yb + Yt) + (Xl + Xr) * Ym); [ring|].
    replace (Yb + Yt) with (span (Q2R c) (Q2R d) y - Ym) by lra. replace (Xl + Xr) with (spanr (Q2R a) (Q2R b) x - spanr (Q2R a) (Q2R b) x * spanr (Q2R a') (Q2R b') x) by lra. rewrite Y2. ring.
Qed.
Lemma draw_cuboid_pf bs cx cy cz ex ey ez eps : (0 < ex)%Q -> (0 < ey)%Q -> (0 < ez)%Q ->
  exists b, draw_cuboid bs cx cy cz ex ey ez eps = Ok (bs ++ [b]) /\ b_eps b = eps /\ is_rect (b_poly b) /\
  forall x y z, contains b x y z <-> Q2R cx - Q2R ex / 2 < x <= Q2R cx + Q2R ex / 2 /\ Q2R cy - Q2R ey / 2 <= y < Q2R cy + Q2R ey / 2 /\
                                     Q2R cz - Q2R ez / 2 <= z < Q2R cz + Q2R ez / 2.
Proof.
  intros Hx Hy Hz. unfold draw_cuboid. cbv zeta. set (P := [_; _; _; _]).
  destruct (draw_polygon_pf bs cx cy cz P ez eps) as (b & E & Eb & V); [cbn; lia|assumption|].
  exists b. split; [assumption|]. split; [assumption|]. split.
  - unfold draw_polygon in E. cbn [length P Nat.leb] in E. destruct (Qle_bool ez 0) eqn:F; [discriminate|]. injection E as E. apply app_inv_head in E. injection E as <-. cbn [b_poly].
    unfold P. cbn [map fst snd]. eexists _, _, _, _. split; [|split; [|reflexivity]]; Lqa.lra.
  - intros x y z. rewrite (V x y z). unfold P. change [((1 # 2) * - ex, (1 # 2) * ey); ((1 # 2) * ex, (1 # 2) * ey); ((1 # 2) * ex, (1 # 2) * - ey); ((1 # 2) * - ex, (1 # 2) * - ey)]%Q
      with (rect ((1 # 2) * - ex) ((1 # 2) * ex) ((1 # 2) * - ey) ((1 # 2) * ey)). rewrite rect_enclosed by Lqa.lra.
    rewrite !Q2R_mult, !Q2R_opp, Q2R_half. unfold spanr, span, ind. real_cases; split; intros H; repeat match goal with |- _ /\ _ => split end; lra.
Qed.

(** *** examples *)
Definition ex_axis : axis := mkaxis [0; 2; 4]%Q false 0 (1 # 2).
Definition ex_axis' : axis := mkaxis [0; 2; 4]%Q false (1 # 2) 0.
Definition ex_comp : component := mkcomp ex_axis ex_axis' ex_axis' (fun _ _ _ => 1%Q).
Lemma ex_axis_ok : axis_ok ex_axis /\ axis_ok ex_axis'.
Proof.
  assert (G : grid_ok [0; 2; 4]%Q) by (apply grid_check; reflexivity).
  split; (split; [exact G|]); split; unfold ex_axis, ex_axis'; cbn [a_shift a_comp]; try (split; reflexivity || discriminate).
  - right. repeat split; reflexivity || discriminate.
  - left. reflexivity.
Qed.
Lemma render_num_grids_pf boolean_not cs num_shifts bs dis r : render boolean_not cs num_shifts bs dis = Ok r -> (num_shifts <= length cs)%nat.
Proof.
  unfold render. destruct (render_layers _ _ _ _ _) as [st|e]; cbn [bind]; [|discriminate]. destruct (Nat.ltb (length cs) num_shifts) eqn:E; [discriminate|]. apply Nat.ltb_ge in E. auto.
Qed.
Definition unit_axis : axis := mkaxis [0; 1]%Q false (1 # 2) 0.
Lemma unit_axis_ok : axis_ok unit_axis.
Proof. split; [apply grid_check; reflexivity|]. split; [split; [discriminate|reflexivity]|left; reflexivity]. Qed.
Lemma disable_intersection_refuted_pf : exists cs bs, (forall c, In c cs -> component_ok c) /\
  (forall b, In b bs -> usable (b_poly b) /\ (length cs <= length (b_eps b))%nat /\ (1 <= qn (b_eps b) 0 <= 2)%Q) /\
  (forall c, In c cs -> forall i j k, c_bg c i j k = 1%Q) /\
  forall boolean_not, exists v, render boolean_not cs 1 bs true = Ok [v] /\ (v 0 0 0 == 3)%nat%Q.
Proof.
  exists [mkcomp unit_axis unit_axis unit_axis (fun _ _ _ => 1%Q)], [mkblock (rect 0 1 0 1) 0 1 [2%Q]; mkblock (rect 0 1 0 1) 0 1 [2%Q]].
  split; [intros c [<-|[]]; repeat split; apply unit_axis_ok|]. split.
  - intros b [<-|[<-|[]]]; (split; [now apply rect_usable|]); split; cbn; auto; split; discriminate.
  - split; [intros c [<-|[]]; reflexivity|]. intros bn. eexists. split; [reflexivity|]. vm_compute. reflexivity.
Qed.
