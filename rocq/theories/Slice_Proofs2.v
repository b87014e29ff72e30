(** Slabs and fills. *)
From Coq Require Import Reals Qreals Lra Lia Qround.
From Verif Require Import QTac Grid_Model Layer_Model Raster2_Spec Layer_Spec Layer_Proofs4 Layer_Proofs7 Layer_Proofs8 Layer_Props Slice_Model Slice_Spec Slice_Proofs.
Set Implicit Arguments.
Open Scope Q_scope.

Lemma dxyz_at e i : (i < length e - 1)%nat -> qn (dxyz e) i == qn e (S i) - qn e i.
Proof.
  intros H. unfold qn, dxyz. rewrite (nth_indep _ 0 ((fun i => qn e (S i) - qn e i) 0%nat)) by (rewrite map_length, seq_length; lia).
  rewrite (map_nth (fun i => qn e (S i) - qn e i)), seq_nth by lia. reflexivity.
Qed.
Lemma dxyz_len e : length (dxyz e) = (length e - 1)%nat.
Proof. unfold dxyz. now rewrite map_length, seq_length. Qed.
Lemma ghost_is e per : (2 <= length e)%nat -> ghost_size e per == if per then qn e 1 - qn e 0 else qlast e - qn e (length e - 2).
Proof.
  intros H. unfold ghost_size. destruct per; [apply dxyz_at; lia|]. unfold qlast. rewrite dxyz_len, dxyz_at by lia.
  replace (S (length e - 1 - 1)) with (length e - 1)%nat by lia. replace (length e - 1 - 1)%nat with (length e - 2)%nat by lia. reflexivity.
Qed.
Lemma center_reach e per : increasing e -> (2 <= length e)%nat -> balanced e per ->
  grid_center e - qabs (qlast e - qn e 0) <= qn e 0 - ghost_size e per / 2 /\ qlast e < grid_center e + qabs (qlast e - qn e 0) /\
  grid_center e - qabs (qlast e - qn e 0) < qn e 0 /\ 0 < qabs (qlast e - qn e 0).
Proof.
  intros Inc L B. assert (G := ghost_is e per L). unfold grid_center, qabs. unfold qlast in *.
  assert (A : qn e 0 < qn e (length e - 1)) by (apply Inc; lia).
  assert (A1 : qn e 1 <= qn e (length e - 1)) by (apply increasing_le; [exact Inc|lia]).
  assert (A2 : qn e 0 <= qn e (length e - 2)) by (apply increasing_le; [exact Inc|lia]).
  assert (A3 : qn e 0 < qn e 1) by (apply Inc; lia).
  assert (A4 : qn e (length e - 2) < qn e (length e - 1)) by (apply Inc; lia).
  assert (K : (length e = 2)%nat \/ qn e 1 <= qn e (length e - 2)). { destruct (Nat.eq_dec (length e) 2); [auto|right]. apply increasing_le; [exact Inc|lia]. }
  destruct (Qle_bool 0 (qn e (length e - 1) - qn e 0)) eqn:E; [|exfalso; assert (X : 0 <= qn e (length e - 1) - qn e 0) by lra; apply Qle_bool_iff in X; congruence].
  rewrite G. assert (D4 : forall x : Q, x / 4 == x * (1 # 4)) by (intros; field). assert (D2 : forall x : Q, x / 2 == x * (1 # 2)) by (intros; field). rewrite D4, D2. clear D4 D2.
  destruct K as [K|K].
  - replace (length e - 2)%nat with 0%nat in * by lia. replace (length e - 1)%nat with 1%nat in * by lia. destruct per; repeat split; lra.
  - destruct per; [destruct B as [B|B]; [discriminate|]; unfold qlast in B|]; repeat split; lra.
Qed.
Lemma Q2R_lt a b : a < b -> (Q2R a < Q2R b)%R.
Proof. apply Qlt_Rlt. Qed.
Lemma Q2R_le a b : a <= b -> (Q2R a <= Q2R b)%R.
Proof. apply Qle_Rle. Qed.
Lemma Q2R_half x : Q2R (2 * x) = (2 * Q2R x)%R.
Proof. rewrite Q2R_mult. f_equal. unfold Q2R, Qnum, Qden. field. Qed.
Lemma Q2R_half' x : Q2R (x / 2) = (Q2R x / 2)%R.
Proof. unfold Qdiv. rewrite Q2R_mult. unfold Rdiv. f_equal. unfold Q2R. simpl. field. Qed.
Lemma reach_side e per x : increasing e -> (2 <= length e)%nat -> balanced e per -> reached e per x \/ within e x ->
  (Q2R (grid_center e) - Q2R (2 * qabs (qlast e - qn e 0)) / 2 < x < Q2R (grid_center e) + Q2R (2 * qabs (qlast e - qn e 0)) / 2)%R.
Proof.
  intros Inc L B H. destruct (center_reach Inc L B) as (A1 & A2 & A3 & A4).
  apply Q2R_le in A1. apply Q2R_lt in A2, A3. rewrite Q2R_plus in A2. rewrite !Q2R_minus in A1. rewrite Q2R_minus in A3. rewrite Q2R_half' in A1. rewrite Q2R_half.
  clear A4. destruct H as [H|H]; unfold reached, within in H; split; Lra.lra.
Qed.
Open Scope R_scope.
Lemma abs_open x c h : Rabs (x - c) <> h -> (Rabs (x - c) < h <-> c - h < x <= c + h) /\ (Rabs (x - c) < h <-> c - h <= x < c + h).
Proof. intros N. unfold Rabs in *. destruct (Rcase_abs (x - c)); repeat split; Lra.lra. Qed.
Lemma across_planar ext : across ext = planar ext.
Proof. destruct ext as [|[|]]; reflexivity. Qed.
Lemma cuboid_covers ext bs cen extent eps : (ext < 3)%nat -> (forall a, (a < 3)%nat -> (0 < extent a)%Q) ->
  exists b, cuboid3 ext bs cen extent eps = Ok (bs ++ [b]) /\ b_eps b = eps /\ is_rect (b_poly b) /\
  forall p, (forall a, (a < 3)%nat -> Rabs (p a - Q2R (cen a)) <> Q2R (extent a) / 2) ->
    (covers ext b p <-> forall a, (a < 3)%nat -> Rabs (p a - Q2R (cen a)) < Q2R (extent a) / 2).
Proof.
  intros He P. unfold cuboid3. set (p1 := fst (planar ext)). set (p2 := snd (planar ext)).
  assert (H3 : (p1 < 3 /\ p2 < 3)%nat /\ forall Q : nat -> Prop, (Q p1 /\ Q p2 /\ Q ext) <-> (forall a, (a < 3)%nat -> Q a)).
  { unfold p1, p2. destruct ext as [|[|[|]]]; [| | |lia]; cbn; (split; [lia|]); intros Q; (split; [intros (A & B & C) [|[|[|a]]] Ha; (lia || assumption)|intros H; repeat split; apply H; lia]). }
  destruct H3 as [[L1 L2] H3].
  destruct (draw_cuboid_block bs (cen p1) (cen p2) (cen ext) (extent p1) (extent p2) (extent ext) eps (P p1 L1) (P p2 L2) (P ext He)) as (b & E & Eb & R & C).
  exists b. split; [exact E|]. split; [exact Eb|]. split; [exact R|]. intros p N. unfold covers. rewrite across_planar. fold p1 p2. rewrite C.
  rewrite <- (H3 (fun a => Rabs (p a - Q2R (cen a)) < Q2R (extent a) / 2)).
  rewrite (proj1 (@abs_open _ _ _ (N p1 L1))), (proj2 (@abs_open _ _ _ (N p2 L2))), (proj2 (@abs_open _ _ _ (N ext He))). tauto.
Qed.
Section G.
Variables (exyz : nat -> list Q) (ext ns : nat).
Hypothesis G : grid3 exyz ext.
Lemma slab_covers bs d dir center t e eps : slab_dir d = Ok dir -> (dir < 3)%nat -> eps_list ns e = Ok eps -> (0 < t)%Q ->
  exists b, draw_slab exyz ext ns bs d center t e = Ok (bs ++ [b]) /\ b_eps b = eps /\ is_rect (b_poly b) /\
  forall per p, (forall a, (a < 3)%nat -> a <> dir -> balanced (exyz a) (per a) /\ (reached (exyz a) (per a) (p a) \/ within (exyz a) (p a))) ->
    Rabs (p dir - Q2R center) <> Q2R t / 2 -> (covers ext b p <-> Rabs (p dir - Q2R center) < Q2R t / 2).
Proof.
  intros Hd Hdir He Ht. destruct G as [Hext Ga]. unfold draw_slab. rewrite Hd. cbn [bind]. rewrite He. cbn [bind].
  set (cen := fun a => if Nat.eqb a dir then center else grid_center (exyz a)).
  set (xt := fun a => if Nat.eqb a dir then t else (2 * qabs (qlast (exyz a) - qn (exyz a) 0))%Q).
  assert (P : forall a, (a < 3)%nat -> (0 < xt a)%Q).
  { intros a Ha. unfold xt. destruct (Nat.eqb a dir); [exact Ht|]. destruct (Ga a Ha) as [Inc L]. destruct (@center_reach (exyz a) false Inc L (or_introl eq_refl)) as (_ & _ & _ & X). Lqa.lra. }
  destruct (@cuboid_covers ext bs cen xt eps Hext P) as (b & E & Eb & R & C). exists b. split; [exact E|]. split; [exact Eb|]. split; [exact R|].
  intros per p Hp N.
  assert (Hl : forall a, (a < 3)%nat -> a <> dir -> Rabs (p a - Q2R (cen a)) < Q2R (xt a) / 2).
  { intros a Ha Hn. unfold cen, xt. destruct (Nat.eqb_spec a dir); [contradiction|]. destruct (Ga a Ha) as [Inc L]. destruct (Hp a Ha Hn) as [B R'].
    assert (X := reach_side Inc L B R'). unfold Rabs. destruct (Rcase_abs _); Lra.lra. }
  assert (Ed : cen dir = center /\ xt dir = t) by (unfold cen, xt; now rewrite Nat.eqb_refl). destruct Ed as [E1 E2].
  rewrite C.
  - split; [intros H; specialize (H dir Hdir); now rewrite E1, E2 in H|]. intros H a Ha. destruct (Nat.eq_dec a dir) as [->|Hn]; [now rewrite E1, E2|now apply Hl].
  - intros a Ha. destruct (Nat.eq_dec a dir) as [->|Hn]; [now rewrite E1, E2|]. specialize (Hl a Ha Hn). Lra.lra.
Qed.
(** the side of a surface *)
Lemma pol_cases pol : Z.eqb pol (-1) || Z.eqb pol 1 = true -> pol = (-1)%Z \/ pol = 1%Z.
Proof. rewrite Bool.orb_true_iff, !Z.eqb_eq. auto. Qed.
Lemma Q2R_qabs x : Q2R (qabs x) = Rabs (Q2R x).
Proof.
  unfold qabs. destruct (Qle_bool 0 x) eqn:E.
  - apply Qle_bool_iff, Q2R_le in E. replace (Q2R 0) with 0 in E by (unfold Q2R, Qnum, Qden; field). rewrite Rabs_pos_eq; [reflexivity|exact E].
  - assert (X : (x < 0)%Q). { apply Qnot_le_lt. intros H. apply Qle_bool_iff in H. congruence. } apply Q2R_lt in X. replace (Q2R 0) with 0 in X by (unfold Q2R, Qnum, Qden; field).
    rewrite Q2R_opp, Rabs_left; Lra.lra.
Qed.
Lemma side_of dir pol s t x : (dir < 3)%nat -> pol = (-1)%Z \/ pol = 1%Z -> within (exyz dir) x -> x <> Q2R s ->
  (Rabs (Q2R (edge_lim exyz dir pol) - Q2R s) < t) ->
  let c := Q2R s + IZR pol * t / 2 in Rabs (x - c) <> t / 2 /\ (Rabs (x - c) < t / 2 <-> 0 < IZR pol * (x - Q2R s)).
Proof.
  intros Hd Hp [W1 W2] N T. unfold edge_lim in T. destruct Hp as [-> | ->]; cbn [Z.eqb Pos.eqb] in T; cbn zeta;
  unfold Rabs in *; repeat destruct (Rcase_abs _); repeat split; intros; Lra.lra.
Qed.
Lemma edge_limit_dist dir pol s : ~ (s == edge_lim exyz dir pol)%Q -> (0 < 2 * qabs (edge_lim exyz dir pol - s))%Q.
Proof.
  intros N. unfold qabs. destruct (Qle_bool 0 (edge_lim exyz dir pol - s)) eqn:E.
  - apply Qle_bool_iff in E. assert (~ (edge_lim exyz dir pol - s == 0)%Q) by (intros X; apply N; Lqa.lra). Lqa.lra.
  - assert ((edge_lim exyz dir pol - s < 0)%Q). { apply Qnot_le_lt. intros H. apply Qle_bool_iff in H. congruence. } Lqa.lra.
Qed.
Lemma fill_slab_covers bs dir pol s e eps : (dir < 3)%nat -> pol = (-1)%Z \/ pol = 1%Z -> eps_list ns e = Ok eps -> ~ (s == edge_lim exyz dir pol)%Q ->
  exists b, fill_slab exyz ext ns bs (DDir dir) pol s e = Ok (bs ++ [b]) /\ b_eps b = eps /\ is_rect (b_poly b) /\
  forall per p, (forall a, (a < 3)%nat -> a <> dir -> balanced (exyz a) (per a) /\ (reached (exyz a) (per a) (p a) \/ within (exyz a) (p a))) ->
    within (exyz dir) (p dir) -> p dir <> Q2R s -> (covers ext b p <-> 0 < IZR pol * (p dir - Q2R s)).
Proof.
  intros Hd Hp He N. unfold fill_slab. cbn [fill_dir bind].
  assert (X : negb (Z.eqb pol (-1) || Z.eqb pol 1) = false) by (destruct Hp as [-> | ->]; reflexivity). rewrite X.
  set (t := (2 * qabs (edge_lim exyz dir pol - s))%Q). assert (Tp : (0 < t)%Q) by now apply edge_limit_dist.
  assert (Sd : slab_dir (DInt (Z.of_nat dir)) = Ok dir).
  { cbn. rewrite Nat2Z.id. assert (Y : (Z.leb 0 (Z.of_nat dir) && Z.ltb (Z.of_nat dir) 3 = true)%bool) by (apply Bool.andb_true_iff; split; [apply Z.leb_le|apply Z.ltb_lt]; lia). now rewrite Y. }
  destruct (@slab_covers bs _ dir (s + (1 # 2) * inject_Z pol * t) t e eps Sd Hd He Tp) as (b & E & Eb & R & C).
  exists b. split; [exact E|]. split; [exact Eb|]. split; [exact R|]. intros per p Hl W Ns.
  assert (Qc : Q2R (s + (1 # 2) * inject_Z pol * t) = Q2R s + IZR pol * Q2R t / 2).
  { rewrite Q2R_plus, !Q2R_mult. replace (Q2R (inject_Z pol)) with (IZR pol) by (unfold Q2R, inject_Z, Qnum, Qden; field). replace (Q2R (1 # 2)) with (1 / 2) by (unfold Q2R, Qnum, Qden; field). Lra.lra. }
  assert (Td : Rabs (Q2R (edge_lim exyz dir pol) - Q2R s) < Q2R t).
  { apply Q2R_lt in Tp. replace (Q2R 0) with 0 in Tp by (unfold Q2R, Qnum, Qden; field). unfold t in *. rewrite Q2R_half, Q2R_qabs, Q2R_minus in *. Lra.lra. }
  destruct (side_of Hd Hp W Ns Td) as [S1 S2]. rewrite (C per p Hl); [|rewrite Qc; exact S1]. rewrite Qc. exact S2.
Qed.
Lemma trunc_pos x : (0 <= x)%Q -> trunc x = Qfloor x.
Proof. intros H. unfold trunc. apply Qle_bool_iff in H. now rewrite H. Qed.
Lemma floor_double y : (1 # 2 <= y)%Q -> (y < inject_Z (Qfloor (2 * y)))%Q.
Proof.
  intros H. assert (F := Qlt_floor (2 * y)). rewrite inject_Z_plus in F. change (inject_Z 1) with 1%Q in F.
  destruct (Qlt_le_dec y 1) as [L|L].
  - assert (X : (1 <= Qfloor (2 * y))%Z). { rewrite <- (Qfloor_Z 1). apply Qfloor_resp_le. change (inject_Z 1) with 1%Q. Lqa.lra. }
    rewrite Zle_Qle in X. change (inject_Z 1) with 1%Q in X. Lqa.lra.
  - Lqa.lra.
Qed.
Lemma fill_extent dir l t a : (dir < 3)%nat -> length l = 2%nat -> (a < 3)%nat ->
  qn (firstn dir l ++ t :: skipn dir l) a = if Nat.eqb a dir then t else lateral dir l a.
Proof.
  intros Hd Hl Ha. destruct l as [|x [|y [|]]]; try discriminate. destruct dir as [|[|[|]]]; [| | |lia]; destruct a as [|[|[|]]]; try lia; reflexivity.
Qed.
Lemma fill_cuboid_covers bs dir pol surf l int e eps : (dir < 3)%nat -> pol = (-1)%Z \/ pol = 1%Z -> eps_list ns e = Ok eps -> length l = 2%nat ->
  (forall x, In x l -> (0 < x)%Q) -> ~ (surf dir == edge_lim exyz dir pol)%Q -> (int = false \/ 1 # 2 <= qabs (edge_lim exyz dir pol - surf dir))%Q ->
  exists b, fill_cuboid exyz ext ns bs (DDir dir) pol surf l int e = Ok (bs ++ [b]) /\ b_eps b = eps /\ is_rect (b_poly b) /\
  forall p, within (exyz dir) (p dir) -> p dir <> Q2R (surf dir) ->
    (forall a, (a < 3)%nat -> a <> dir -> Rabs (p a - Q2R (surf a)) <> Q2R (lateral dir l a) / 2) ->
    (covers ext b p <-> 0 < IZR pol * (p dir - Q2R (surf dir)) /\ forall a, (a < 3)%nat -> a <> dir -> Rabs (p a - Q2R (surf a)) < Q2R (lateral dir l a) / 2).
Proof.
  intros Hd Hp He Hl Pl N I. unfold fill_cuboid. cbn [fill_dir bind].
  assert (X : negb (Z.eqb pol (-1) || Z.eqb pol 1) = false) by (destruct Hp as [-> | ->]; reflexivity). rewrite X, He. cbn [bind].
  set (t0 := (2 * qabs (edge_lim exyz dir pol - surf dir))%Q). set (t := if int then inject_Z (trunc t0) else t0).
  assert (Tp0 : (0 < t0)%Q) by now apply edge_limit_dist.
  assert (Tq : (qabs (edge_lim exyz dir pol - surf dir) < t)%Q).
  { unfold t. destruct int; [|unfold t0 in *; Lqa.lra]. destruct I as [I|I]; [discriminate|]. rewrite trunc_pos by (apply Qlt_le_weak; exact Tp0). now apply floor_double. }
  assert (Tp : (0 < t)%Q) by (unfold t0 in Tp0; Lqa.lra).
  set (xt := fun a => qn (firstn dir l ++ t :: skipn dir l) a).
  set (cen := fun a => if Nat.eqb a dir then (surf a + (1 # 2) * inject_Z pol * xt a)%Q else surf a).
  assert (Xd : forall a, (a < 3)%nat -> xt a = if Nat.eqb a dir then t else lateral dir l a) by (intros a Ha; now apply fill_extent).
  assert (P : forall a, (a < 3)%nat -> (0 < xt a)%Q).
  { intros a Ha. rewrite (Xd a Ha). destruct (Nat.eqb_spec a dir); [exact Tp|]. unfold lateral. destruct (Nat.ltb_spec a dir); apply Pl, nth_In; lia. }
  destruct (@cuboid_covers ext bs cen xt eps (proj1 G) P) as (b & E & Eb & R & C). exists b. split; [exact E|]. split; [exact Eb|]. split; [exact R|].
  intros p W Ns Na.
  assert (Td : Rabs (Q2R (edge_lim exyz dir pol) - Q2R (surf dir)) < Q2R t) by (apply Q2R_lt in Tq; rewrite Q2R_qabs, Q2R_minus in Tq; exact Tq).
  destruct (side_of Hd Hp W Ns Td) as [S1 S2].
  assert (Ed : xt dir = t) by (rewrite (Xd dir Hd), Nat.eqb_refl; reflexivity).
  assert (Qc : Q2R (cen dir) = Q2R (surf dir) + IZR pol * Q2R t / 2).
  { unfold cen. rewrite Nat.eqb_refl, Ed, Q2R_plus, !Q2R_mult. replace (Q2R (inject_Z pol)) with (IZR pol) by (unfold Q2R, inject_Z, Qnum, Qden; field). replace (Q2R (1 # 2)) with (1 / 2) by (unfold Q2R, Qnum, Qden; field). Lra.lra. }
  assert (Ec : forall a, (a < 3)%nat -> a <> dir -> cen a = surf a /\ xt a = lateral dir l a).
  { intros a Ha Hn. rewrite (Xd a Ha). unfold cen. destruct (Nat.eqb_spec a dir); [contradiction|auto]. }
  rewrite C.
  - split.
    + intros H. split; [apply S2; rewrite <- Qc, <- Ed; apply H; exact Hd|]. intros a Ha Hn. specialize (H a Ha). destruct (Ec a Ha Hn) as [E1 E2]. now rewrite E1, E2 in H.
    + intros [H1 H2] a Ha. destruct (Nat.eq_dec a dir) as [->|Hn]; [rewrite Qc, Ed; now apply S2|]. destruct (Ec a Ha Hn) as [E1 E2]. rewrite E1, E2. now apply H2.
  - intros a Ha. destruct (Nat.eq_dec a dir) as [->|Hn]; [rewrite Qc, Ed; exact S1|]. destruct (Ec a Ha Hn) as [E1 E2]. rewrite E1, E2. now apply Na.
Qed.
End G.

Open Scope Q_scope.
Lemma qn_map_seq (f : nat -> Q) n i : (i < n)%nat -> qn (map f (seq 0 n)) i = f i.
Proof. intros H. unfold qn. rewrite (nth_indep _ 0 (f 0%nat)) by (rewrite map_length, seq_length; lia). rewrite map_nth, seq_nth by lia. reflexivity. Qed.
Lemma cell_range a e i : axis_of a e -> increasing e -> (2 <= length e)%nat -> (i < num_cells a)%nat ->
  qn e 0 - ghost_size e (a_periodic a) / 2 <= qn (cell_edges a) i /\ qn (cell_edges a) (i + 1) <= qlast e.
Proof.
  intros (Ee & S0 & S1 & _) Inc L Hi. unfold num_cells in Hi. rewrite Ee in Hi. unfold cell_edges. rewrite Ee. set (s := a_comp a) in *. set (per := a_periodic a).
  assert (Gp : 0 < ghost_size e per). { rewrite (ghost_is e per L). destruct per; [assert (X := Inc 0%nat 1%nat ltac:(lia)); lra|]. unfold qlast. assert (X := Inc (length e - 2)%nat (length e - 1)%nat ltac:(lia)). lra. }
  assert (Gq : qlast (dxyz_with_ghost e per) = ghost_size e per).
  { unfold dxyz_with_ghost, qlast, qn. rewrite app_length, app_nth2 by (cbn; lia). cbn [length]. replace (length (dxyz e) + 1 - 1 - length (dxyz e))%nat with 0%nat by lia. reflexivity. }
  assert (Dn : forall k, (S k < length e)%nat -> qn (dxyz_with_ghost e per) k == qn e (S k) - qn e k).
  { intros k Hk. unfold dxyz_with_ghost, qn at 1. rewrite app_nth1 by (rewrite dxyz_len; lia). apply dxyz_at. lia. }
  assert (D2 : ghost_size e per / 2 == ghost_size e per * (1 # 2)) by field. rewrite D2. clear D2.
  unfold shifted_edges. rewrite Gq. set (l := map (fun i0 => qn e i0 + qn (dxyz_with_ghost e per) i0 * s) (seq 0 (length e))).
  assert (Ll : forall k, (k < length e)%nat -> qn l k = qn e k + qn (dxyz_with_ghost e per) k * s) by (intros k Hk; unfold l; now rewrite qn_map_seq).
  destruct (Qeq_bool s 0) eqn:Es; cbn [andb negb].
  - apply Qeq_bool_iff in Es. rewrite !Ll by lia. rewrite Es. split.
    + assert (X := increasing_le (i := 0) (j := i) Inc ltac:(lia)). lra.
    + unfold qlast. assert (X := increasing_le (i := (i + 1)%nat) (j := (length e - 1)%nat) Inc ltac:(lia)). lra.
  - split.
    + destruct i as [|i]; [cbn [qn nth]; change (qn ((qn e 0 - ghost_size e per * s) :: l) 0) with (qn e 0 - ghost_size e per * s); nra|].
      change (qn ((qn e 0 - ghost_size e per * s) :: l) (S i)) with (qn l i). rewrite Ll, Dn by lia. assert (X := increasing_le (i := 0) (j := i) Inc ltac:(lia)). assert (Y := Inc i (S i) ltac:(lia)). nra.
    + replace (i + 1)%nat with (S i) by lia. change (qn ((qn e 0 - ghost_size e per * s) :: l) (S i)) with (qn l i). rewrite Ll, Dn by lia.
      assert (X := increasing_le (i := S i) (j := (length e - 1)%nat) Inc ltac:(lia)). assert (Y := Inc i (S i) ltac:(lia)). unfold qlast. nra.
Qed.
Open Scope R_scope.
Lemma slab_rendered_pf boolean_not good cs exyz ext ns bs d dir center t e eps bs' r n c v i j k :
  grid3 exyz ext -> slab_dir d = Ok dir -> (dir < 3)%nat -> eps_list ns e = Ok eps -> (0 < t)%Q ->
  clipper_ok boolean_not good -> (forall c, In c cs -> component_ok c) -> draw_slab exyz ext ns bs d center t e = Ok bs' ->
  (forall b, In b bs' -> good (b_poly b) /\ (length cs <= length (b_eps b))%nat) ->
  render boolean_not cs ns bs' false = Ok r -> nth_error cs n = Some c -> nth_error r n = Some v -> in_grid c i j k -> component_of ext exyz c ->
  (center - t / 2 <= qn (cell_edges (axis_at ext c dir)) (at_axis ext i j k dir))%Q ->
  (qn (cell_edges (axis_at ext c dir)) (at_axis ext i j k dir + 1) <= center + t / 2)%Q ->
  (v i j k == qn eps n)%Q.
Proof.
  intros G Hd Hdir He Ht CL CS Dr Hb Hr Hc Hv Hg Co Lo Hi.
  destruct (@slab_covers exyz ext ns G bs d dir center t e eps Hd Hdir He Ht) as (b & E & Eb & Rb & C). rewrite Dr in E. injection E as ->.
  apply (@render_uniform boolean_not good cs ns (bs ++ [b]) r n c v i j k (qn eps n) CL CS Hb Hr Hc Hv Hg).
  cbn zeta. intros x y z Hx Hy Hz. rewrite material_last. destruct (contains_dec b x y z) as [|Nc]; [now rewrite Eb|]. exfalso. apply Nc. clear Nc.
  set (p := fun a => if Nat.eqb a (fst (planar ext)) then x else if Nat.eqb a (snd (planar ext)) then y else z).
  assert (Pc : covers ext b p <-> contains b x y z).
  { unfold covers, p. destruct (proj1 G) as []; destruct ext as [|[|[|]]]; try lia; cbn; reflexivity. }
  apply Pc. clear Pc.
  assert (Ec : forall a, (a < 3)%nat -> axis_of (axis_at ext c a) (exyz a) /\ (at_axis ext i j k a < num_cells (axis_at ext c a))%nat /\
    Q2R (qn (cell_edges (axis_at ext c a)) (at_axis ext i j k a)) < p a < Q2R (qn (cell_edges (axis_at ext c a)) (at_axis ext i j k a + 1))).
  { destruct Co as (C1 & C2 & C3). destruct Hg as (G1 & G2 & G3). assert (Hext := proj1 G). unfold axis_at, at_axis, p. intros a Ha.
    destruct ext as [|[|[|]]]; [| | |lia]; destruct a as [|[|[|]]]; try lia; cbn in *; auto. }
  apply Q2R_le in Lo, Hi. rewrite Q2R_plus in Hi. rewrite Q2R_minus in Lo. rewrite Q2R_half' in Lo, Hi. destruct (Ec dir Hdir) as (_ & _ & Pd).
  assert (Nd : Rabs (p dir - Q2R center) < Q2R t / 2) by (unfold Rabs; destruct (Rcase_abs _); Lra.lra).
  apply (C (fun a => a_periodic (axis_at ext c a)) p); [|Lra.lra|exact Nd].
  intros a Ha Hn. destruct (Ec a Ha) as (Oa & Ia & Pa). split; [exact (proj2 (proj2 (proj2 Oa)))|]. left.
  destruct (proj2 G a Ha) as [Inc L]. destruct (@cell_range _ _ _ Oa Inc L Ia) as [R1 R2]. apply Q2R_le in R1, R2. rewrite Q2R_minus, Q2R_half' in R1. unfold reached. Lra.lra.
Qed.
