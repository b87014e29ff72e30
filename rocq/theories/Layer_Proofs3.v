(** Lemmas about rendering, third part: the weights of a polygon. *)
From Coq Require Import Reals Lia List QArith Qreals.
From Coquelicot Require Import Coquelicot.
From Verif Require Import QTac Grid_Model Raster_Model Raster_Spec Raster_Proofs Raster2_Model Raster2_Spec Raster2_Proofs3 Raster2_Proofs5 Raster2_Proofs6 Raster2_Proofs7 Layer_Model Layer_Spec Layer_Proofs Layer_Proofs2.
From Coq Require Import Lra.
Open Scope R_scope.

(** share of a cell in the plane covered by a polygon *)
Definition share (c : component) (p : polygon) (i j : nat) : R :=
  pixel_average (enclosed (map ptR p)) (cell_edges (c_x c)) (cell_edges (c_y c)) i j.

Lemma cell_pos a n : axis_ok a -> (n < num_cells a)%nat -> Q2R (qn (cell_edges a) n) < Q2R (qn (cell_edges a) (n + 1)).
Proof. intros H Hn. apply Q2R_lt. apply (cE_inc H). pose proof (cE_len H). lia. Qed.

Lemma amin_amax l : l <> [] -> (amin l <= amax l)%Q.
Proof. destruct l as [|x l]; [tauto|]. intros _. apply (Qle_trans _ x); [apply amin_le|apply amax_le]; now left. Qed.

Lemma share_outside c p i j : component_ok c -> (i < num_cells (c_x c))%nat -> (j < num_cells (c_y c))%nat ->
  (let e := cell_edges (c_x c) in (qn e (i + 1) <= amin (map fst p) \/ amax (map fst p) <= qn e i)%Q) \/
  (let e := cell_edges (c_y c) in (qn e (j + 1) <= amin (map snd p) \/ amax (map snd p) <= qn e j)%Q) ->
  share c p i j = 0.
Proof.
  intros (Ox & Oy & _) Hi Hj H. unfold share, pixel_average. pose proof (cell_pos _ _ Ox Hi) as X. pose proof (cell_pos _ _ Oy Hj) as Y.
  rewrite (average_ext _ _ _ _ X Y _ (fun _ _ => 0)); [apply average_const; assumption|].
  intros x y Ix Iy. apply enclosed_outside.
  assert (F : forall v, In v (map ptR p) -> (exists q, In q p /\ fst v = Q2R (fst q) /\ snd v = Q2R (snd q))).
  { intros v Hv. apply in_map_iff in Hv as (q & <- & Hq). exists q. auto. }
  cbv zeta in H. destruct H as [[H|H]|[H|H]]; apply Q2R_le in H.
  - left. intros v Hv. destruct (F v Hv) as (q & Hq & -> & _). assert (K : (amin (map fst p) <= fst q)%Q) by (apply amin_le, in_map, Hq). apply Q2R_le in K. lra.
  - right. left. intros v Hv. destruct (F v Hv) as (q & Hq & -> & _). assert (K : (fst q <= amax (map fst p))%Q) by (apply amax_le, in_map, Hq). apply Q2R_le in K. lra.
  - right. right. left. intros v Hv. destruct (F v Hv) as (q & Hq & _ & ->). assert (K : (amin (map snd p) <= snd q)%Q) by (apply amin_le, in_map, Hq). apply Q2R_le in K. lra.
  - right. right. right. intros v Hv. destruct (F v Hv) as (q & Hq & _ & ->). assert (K : (snd q <= amax (map snd p))%Q) by (apply amax_le, in_map, Hq). apply Q2R_le in K. lra.
Qed.
Lemma covered_outside a b g k : (qn g k < qn g (k + 1))%Q -> (a <= b)%Q -> (qn g (k + 1) <= a \/ b <= qn g k)%Q -> (covered a b g k == 0)%Q.
Proof.
  intros Hg Hab H. unfold covered. assert (overlap a b (qn g k) (qn g (k + 1)) == 0)%Q as ->; [|field; Lqa.lra].
  unfold overlap. set (l := qn g k) in *. set (r := qn g (k + 1)) in *. clearbody l r. destruct H; qlra.
Qed.

Lemma weights_pf c p z0 z1 : component_ok c -> usable p ->
  exists w, weights c p z0 z1 = Ok w /\ forall i j k, in_grid c i j k ->
  Q2R (w i j k) = share c p i j * Q2R (covered (qmin z0 z1) (qmax z0 z1) (cell_edges (c_z c)) k).
Proof.
  intros (Ox & Oy & Oz) (H3 & W & S).
  assert (NE : p <> []) by (intros ->; cbn in H3; lia).
  set (lx := amin (map fst p)). set (hx := amax (map fst p)). set (ly := amin (map snd p)). set (hy := amax (map snd p)).
  assert (Lx : (lx <= hx)%Q) by (apply amin_amax; now destruct p). assert (Ly : (ly <= hy)%Q) by (apply amin_amax; now destruct p).
  assert (Lz : (qmin z0 z1 <= qmax z0 z1)%Q) by qlra. set (lz := qmin z0 z1) in *. set (hz := qmax z0 z1) in *.
  pose proof (slice_ok Ox Lx) as Gx. pose proof (slice_ok Oy Ly) as Gy. pose proof (slice_ok Oz Lz) as Gz.
  destruct (raster_2D_average_pf p _ _ Gx Gy W) as (r & Er & _ & _ & _). pose proof (raster_2D_simple_pf p _ _ r Gx Gy W S Er) as V.
  destruct (@raster_1D_pf z0 z1 _ (proj1 Gz) (proj2 Gz)) as (l & El & _ & Vz). fold lz hz in Vz.
  pose proof (slice_len Ox Lx) as Nx. pose proof (slice_len Oy Ly) as Ny. pose proof (slice_len Oz Lz) as Nz.
  pose proof (fun t => @slice_nth _ Ox _ _ Lx t) as Tx. pose proof (fun t => @slice_nth _ Oy _ _ Ly t) as Ty. pose proof (fun t => @slice_nth _ Oz _ _ Lz t) as Tz.
  pose proof (corners_range Ox Lx) as Rx. pose proof (corners_range Oy Ly) as Ry. pose proof (corners_range Oz Lz) as Rz.
  pose proof (@unaffected _ Ox lx hx) as Ux. pose proof (@unaffected _ Oy ly hy) as Uy. pose proof (@unaffected _ Oz lz hz) as Uz.
  unfold weights. fold lx hx ly hy lz hz. cbv zeta. cbn [fst snd]. rewrite Er. cbn [bind]. rewrite El. cbn [bind].
  eexists. split; [reflexivity|]. intros i j k (Hi & Hj & Hk).
  destruct (corners (c_x c) lx hx) as [jx fx] eqn:Cx. destruct (corners (c_y c) ly hy) as [jy fy] eqn:Cy. destruct (corners (c_z c) lz hz) as [jz fz] eqn:Cz. cbn [fst snd] in *.
  destruct (Nat.leb jx i && Nat.leb i fx) eqn:Ei.
  2:{ cbn [andb]. rewrite Q2R_0, share_outside; [ring|repeat split; apply Ox || apply Oy || apply Oz|assumption|assumption|]. left. cbv zeta. apply Ux; [assumption|].
      apply Bool.andb_false_iff in Ei as [E|E]; apply Nat.leb_gt in E; lia. }
  destruct (Nat.leb jy j && Nat.leb j fy) eqn:Ej.
  2:{ cbn [andb]. rewrite Q2R_0, share_outside; [ring|repeat split; apply Ox || apply Oy || apply Oz|assumption|assumption|]. right. cbv zeta. apply Uy; [assumption|].
      apply Bool.andb_false_iff in Ej as [E|E]; apply Nat.leb_gt in E; lia. }
  destruct (Nat.leb jz k && Nat.leb k fz) eqn:Ek.
  2:{ cbn [andb]. rewrite Q2R_0. rewrite (Q2R_eq (covered _ _ _ _) 0), Q2R_0; [ring|]. apply covered_outside; [apply (cE_inc Oz); pose proof (cE_len Oz); lia|assumption|]. apply Uz; [assumption|].
      apply Bool.andb_false_iff in Ek as [E|E]; apply Nat.leb_gt in E; lia. }
  cbn [andb]. apply andb_prop in Ei as [Ei1 Ei2], Ej as [Ej1 Ej2], Ek as [Ek1 Ek2]. apply Nat.leb_le in Ei1, Ei2, Ej1, Ej2, Ek1, Ek2.
  rewrite Q2R_mult. f_equal.
  - destruct (V (i - jx)%nat (j - jy)%nat) as [E _]; [rewrite Nx; lia|rewrite Ny; lia|]. rewrite E. unfold share, pixel_average.
    rewrite !Tx, !Ty by lia. now replace (jx + (i - jx))%nat with i by lia; replace (jx + (i - jx + 1))%nat with (i + 1)%nat by lia; replace (jy + (j - jy))%nat with j by lia; replace (jy + (j - jy + 1))%nat with (j + 1)%nat by lia.
  - rewrite (Q2R_eq _ _ (Vz (k - jz)%nat ltac:(rewrite Nz; lia))). unfold covered. rewrite !Tz by lia.
    now replace (jz + (k - jz))%nat with k by lia; replace (jz + (k - jz + 1))%nat with (k + 1)%nat by lia.
Qed.
