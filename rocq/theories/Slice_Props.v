(** Positions and indices, slices; slabs and fills. *)
From Coq Require Import Reals Qreals Lra Lia Qround.
From Verif Require Import QTac Grid_Model Layer_Model Raster2_Spec Layer_Spec Layer_Proofs7 Layer_Proofs8 Layer_Props Slice_Model Slice_Spec Slice_Proofs Slice_Proofs2 Grid_Props.
Set Implicit Arguments.
Open Scope Q_scope.

(** axes without shift, with a shift of the primary grid, and with that of the Yee grid *)
Theorem axes_good e per comp s : increasing e -> (2 <= length e)%nat -> 0 <= s -> s < 1 -> (comp = false \/ s == 0 \/ s == 1 # 2) ->
  axis_good (plain e) /\ axis_good (shifted e per comp s).
Proof.
  intros Inc L S0 S1 Hc. split.
  - split; [exact Inc|]. split; [exact L|]. intros i Hi. change (S i < length e)%nat in Hi. change (qn (dxyz e) i == qn e (S i) - qn e i). apply dxyz_at. lia.
  - destruct (@shifted_sizes_match_edges e per comp s L Hc) as [Ls Sz].
    assert (Le : length (x_sedges (shifted e per comp s)) = (length e + (if comp && negb (Qeq_bool s 0) then 1 else 0))%nat).
    { unfold shifted, x_sedges, shifted_edges. destruct (comp && negb (Qeq_bool s 0)); cbn [length]; rewrite map_length, seq_length; lia. }
    assert (Sp : forall i, (i < length (shifted_sizes e per comp s))%nat -> 0 < qn (shifted_sizes e per comp s) i).
    { assert (Gp : 0 < ghost_size e per). { rewrite (ghost_is e per L). destruct per; [assert (X := Inc 0%nat 1%nat ltac:(lia)); Lqa.lra|]. unfold qlast. assert (X := Inc (length e - 2)%nat (length e - 1)%nat ltac:(lia)). Lqa.lra. }
      assert (Dn : forall k, (k < length e)%nat -> 0 < qn (dxyz_with_ghost e per) k).
      { intros k Hk. unfold dxyz_with_ghost, qn. destruct (Nat.lt_ge_cases k (length e - 1)).
        - rewrite app_nth1 by (rewrite dxyz_len; lia). fold (qn (dxyz e) k). rewrite dxyz_at by lia. assert (X := Inc k (S k) ltac:(lia)). Lqa.lra.
        - rewrite app_nth2 by (rewrite dxyz_len; lia). rewrite dxyz_len. replace (k - (length e - 1))%nat with 0%nat by lia. exact Gp. }
      assert (Gq : qlast (dxyz_with_ghost e per) = ghost_size e per).
      { unfold dxyz_with_ghost, qlast, qn. rewrite app_length, app_nth2 by (cbn; lia). cbn [length]. replace (length (dxyz e) + 1 - 1 - length (dxyz e))%nat with 0%nat by lia. reflexivity. }
      unfold shifted_sizes. rewrite Gq. set (l := map (fun i => qn (dxyz_with_ghost e per) i * (1 - s) + qn (dxyz_with_ghost e per) (S i) * s) (seq 0 (length e - 1))).
      assert (Lp : forall i, (i < length l)%nat -> 0 < qn l i).
      { intros i Hi. unfold l in Hi |- *. rewrite map_length, seq_length in Hi. rewrite qn_map_seq by lia. assert (A := Dn i ltac:(lia)). assert (B := Dn (S i) ltac:(lia)). Lqa.nra. }
      destruct (comp && negb (Qeq_bool s 0)); [|exact Lp]. intros [|i] Hi; [|cbn in Hi; apply Lp; lia].
      cbn. assert (B := Dn 0%nat ltac:(lia)). fold (qn (dxyz_with_ghost e per) 0). Lqa.nra. }
    split; [|split; [rewrite Le; lia|]].
    + unfold shifted, x_sedges. intros i j Hij. assert (G : forall n, (i + S n < length (shifted_edges e per comp s))%nat -> qn (shifted_edges e per comp s) i < qn (shifted_edges e per comp s) (i + S n)).
      { induction n as [|n IH]; intros Hn.
        - assert (A := Sz i ltac:(lia)). assert (B := Sp i ltac:(lia)). rewrite A in B. replace (i + 1)%nat with (i + 1)%nat by lia. Lqa.lra.
        - assert (A := Sz (i + S n)%nat ltac:(lia)). assert (B := Sp (i + S n)%nat ltac:(lia)). rewrite A in B. specialize (IH ltac:(lia)). replace (i + S n + 1)%nat with (i + S (S n))%nat in B by lia. Lqa.lra. }
      specialize (G (j - i - 1)%nat). replace (i + S (j - i - 1))%nat with j in G by lia. apply G. lia.
    + unfold shifted, x_sedges, x_ssizes in *. intros i Hi. rewrite (Sz i) by lia. replace (i + 1)%nat with (S i) by lia. reflexivity.
Qed.
(** C139 *)
Theorem index_of_position a r : axis_good a ->
  (forall i, in_cell (x_sedges a) i r -> pos2ind_axis a r true == qnat i /\ pos2ind_axis a r false == qnat i + fraction (x_sedges a) i r) /\
  (r < qn (x_sedges a) 0 -> forall b, pos2ind_axis a r b == 0) /\
  (qlast (x_sedges a) <= r -> forall b, pos2ind_axis a r b == qnat (length (x_sedges a) - 2)).
Proof.
  intros G. split; [intros i C; split; [exact (round_in_cell G C)|exact (index_in_cell G C)]|]. split; intros H b; [exact (index_bottom b G H)|exact (index_top b G H)].
Qed.
Theorem index_checked g r b : length g = 3%nat -> length r = 3%nat ->
  (exists e, pos2ind3 g true r b true = Err e) <-> exists a x, In (a, x) (combine g r) /\ (1 < cells a)%nat /\ (x < qn (x_sedges a) 0 \/ qlast (x_sedges a) < x).
Proof.
  intros Lg Lr. unfold pos2ind3. rewrite Lr. cbn [Nat.eqb negb andb]. destruct (existsb _ (combine g r)) eqn:E.
  - apply existsb_exists in E as ([a x] & Hin & T). cbn [fst snd] in T. split; [intros _|eauto]. exists a, x. split; [exact Hin|]. apply Bool.andb_true_iff in T as [T1 T2]. apply Nat.ltb_lt in T1. split; [exact T1|].
    apply Bool.orb_true_iff in T2 as [T2|T2]; [left|right]; unfold qlt in T2; apply Bool.negb_true_iff in T2; apply Qnot_le_lt; intros H; apply Qle_bool_iff in H; congruence.
  - split; [intros (e & H); discriminate|]. intros (a & x & Hin & Hc & H). exfalso. assert (T : existsb (fun p => (1 <? cells (fst p))%nat && (qlt (snd p) (qn (x_sedges (fst p)) 0) || qlt (qlast (x_sedges (fst p))) (snd p))) (combine g r) = true); [|congruence].
    apply existsb_exists. exists (a, x). split; [exact Hin|]. cbn [fst snd]. apply Bool.andb_true_iff. split; [now apply Nat.ltb_lt|]. apply Bool.orb_true_iff.
    destruct H as [H|H]; [left|right]; unfold qlt; apply Bool.negb_true_iff; apply Bool.not_true_is_false; intros X; apply Qle_bool_iff in X; Lqa.lra.
Qed.
Theorem position_of_rounded_index_refuted g valid ind check r : ind2pos g valid ind true check <> Ok r.
Proof. exact (@rounded_never g valid ind check r). Qed.
Theorem position_roundtrip g r : length g = 3%nat -> length r = 3%nat ->
  Forall (fun p => axis_good (fst p) /\ (qn (x_sedges (fst p)) 0 <= snd p /\ snd p < qlast (x_sedges (fst p))) /\ (length (x_sedges (fst p)) <= cells (fst p) + 2)%nat) (combine g r) ->
  exists x y, pos2ind3 g true r false true = Ok x /\ ind2pos g true (map (fun t => t - (1 # 2)) x) false true = Ok y /\ Forall2 Qeq y r.
Proof. exact (@roundtrip g r). Qed.
Theorem position_half_cell_off a i r dx : axis_good a -> in_cell (x_sedges a) i r -> (S (S i) < length (x_sedges a))%nat ->
  qn (x_sedges a) (S i) - qn (x_sedges a) i == dx -> qn (x_sedges a) (S (S i)) - qn (x_sedges a) (S i) == dx ->
  exists x y, ind2pos [a] true [pos2ind_axis a r false] false false = Ok [y] /\ x == r + dx / 2 /\ y == x.
Proof. intros G C L E1 E2. eexists (r + dx / 2), _. split; [reflexivity|]. split; [reflexivity|]. exact (half_cell_off G C L E1 E2). Qed.
Lemma incr_Z e : (forall i, (S i < length e)%nat -> qn e i < qn e (S i)) -> increasing e.
Proof.
  intros H i j Hij. assert (G : forall n, (i + S n < length e)%nat -> qn e i < qn e (i + S n)).
  { induction n as [|n IH]; intros Hn; [replace (i + 1)%nat with (S i) by lia; apply H; lia|]. apply Qlt_trans with (qn e (i + S n)); [apply IH; lia|]. replace (i + S (S n))%nat with (S (i + S n)) by lia. apply H. lia. }
  specialize (G (j - i - 1)%nat). replace (i + S (j - i - 1))%nat with j in G by lia. apply G. lia.
Qed.
Ltac incr := apply incr_Z; intros i Hi; cbn in Hi; repeat (destruct i as [|i]; [reflexivity|]); lia.
Theorem position_roundtrip_refuted : exists g r x y, Forall axis_good g /\ pos2ind3 g true r false true = Ok x /\ ind2pos g true x false true = Ok y /\ ~ Forall2 Qeq y r.
Proof.
  assert (I : increasing [0; 2; 4; 6]) by incr. assert (Ga : axis_good (plain [0; 2; 4; 6])) by (apply (@axes_good [0; 2; 4; 6] false false 0 I); [cbn; lia|Lqa.lra|Lqa.lra|auto]).
  exists [plain [0; 2; 4; 6]; plain [0; 2; 4; 6]; plain [0; 2; 4; 6]], [1; 2; 3]. eexists _, _. split; [repeat constructor; apply Ga|]. split; [reflexivity|]. split; [reflexivity|].
  intros H. inversion H as [|? ? ? ? E _]; subst. vm_compute in E. discriminate.
Qed.
Example position_case : map Qred (match pos2ind3 [plain [0; 2; 4; 6]; plain [0; 1; 3]; plain [0; 1]] true [3; 2; 1 # 2] false true with Ok l => l | Err _ => [] end) = [3 # 2; 3 # 2; 1 # 2].
Proof. vm_compute. reflexivity. Qed.
Theorem slice_planes a n1 n2 grid c : axis_good a -> length (x_sedges a) = length (x_edges a) -> qn (centers (x_edges a)) 0 <= c -> c <= qlast (centers (x_edges a)) ->
  forall i, in_cell (x_sedges a) i (inject_Z (trunc c)) ->
  let f := fraction (x_sedges a) i (inject_Z (trunc c)) in
  (inject_Z (trunc c) == qn (x_sedges a) i -> exists v, get_slice a n1 n2 false grid c 1 = Ok v /\ forall j k, v j k == grid i j k) /\
  (qn (x_sedges a) i < inject_Z (trunc c) -> (S i < cells a)%nat ->
     exists v, get_slice a n1 n2 false grid c 1 = Ok v /\ forall j k, v j k == (1 - f) * grid i j k + f * grid (S i) j k) /\
  (qn (x_sedges a) i < inject_Z (trunc c) -> S i = cells a -> get_slice a n1 n2 false grid c 1 = Err IndexError).
Proof.
  intros G L D1 D2 i C f. split; [|split].
  - intros E. exact (slice_on_edge n1 n2 grid G L (conj D1 D2) (proj1 C) E).
  - intros H. exact (proj1 (slice_inside n1 n2 grid G L (conj D1 D2) C H)).
  - intros H. exact (proj2 (slice_inside n1 n2 grid G L (conj D1 D2) C H)).
Qed.
Theorem slice_integer_part a n1 n2 cplx grid c c' sp : qn (centers (x_edges a)) 0 <= c /\ c <= qlast (centers (x_edges a)) ->
  qn (centers (x_edges a)) 0 <= c' /\ c' <= qlast (centers (x_edges a)) -> trunc c = trunc c' -> get_slice a n1 n2 cplx grid c sp = get_slice a n1 n2 cplx grid c' sp.
Proof. exact (@slice_trunc a n1 n2 cplx grid c c' sp). Qed.
Theorem slice_conditions a n1 n2 cplx grid c sp v : get_slice a n1 n2 cplx grid c sp = Ok v ->
  cplx = false /\ (qn (centers (x_edges a)) 0 <= c /\ c <= qlast (centers (x_edges a))) /\ (0 < sp)%Z /\
  (sp = 1%Z \/ (Z.of_nat n1 <= sp)%Z) /\ (sp = 1%Z \/ (Z.of_nat n2 <= sp)%Z).
Proof.
  intros H. split; [destruct cplx; [|reflexivity]; exfalso; exact (@slice_complex_fails _ _ _ _ _ _ _ H)|]. split; [exact (@slice_domain _ _ _ _ _ _ _ _ H)|].
  destruct (@slice_strided _ _ _ _ _ _ _ _ H) as (P & F1 & F2). split; [exact P|]. apply fits_spec in F1; [|lia]. apply fits_spec in F2; [|lia]. split; lia.
Qed.
(** at the center of a cell, where the permittivities are, two planes are mixed; the last fails *)
Theorem slice_center_refuted : exists e, increasing e /\ (forall grid n1 n2, exists v, get_slice (plain e) n1 n2 false grid (qn (centers e) 1) 1 = Ok v /\
    forall j k, v j k == (grid 1%nat j k + grid 2%nat j k) / 2) /\
  forall grid n1 n2, get_slice (plain e) n1 n2 false grid (qlast (centers e)) 1 = Err IndexError.
Proof.
  exists [0; 2; 4; 6]. assert (I : increasing [0; 2; 4; 6]) by incr.
  assert (Ga : axis_good (plain [0; 2; 4; 6])) by (apply (@axes_good [0; 2; 4; 6] false false 0 I); [cbn; lia|Lqa.lra|Lqa.lra|auto]).
  split; [exact I|]. split; intros grid n1 n2.
  - destruct (@slice_planes (plain [0; 2; 4; 6]) n1 n2 grid (qn (centers [0; 2; 4; 6]) 1) Ga eq_refl ltac:(vm_compute; discriminate) ltac:(vm_compute; discriminate) 1%nat) as (_ & H & _).
    { split; [cbn; lia|]. split; [vm_compute; discriminate|vm_compute; reflexivity]. }
    destruct H as (v & E & V); [vm_compute; reflexivity|cbn; lia|]. exists v. split; [exact E|]. intros j k. rewrite V.
    assert (F : fraction (x_sedges (plain [0; 2; 4; 6])) 1 (inject_Z (trunc (qn (centers [0; 2; 4; 6]) 1))) == 1 # 2) by reflexivity. rewrite F. field.
  - destruct (@slice_planes (plain [0; 2; 4; 6]) n1 n2 grid (qlast (centers [0; 2; 4; 6])) Ga eq_refl ltac:(vm_compute; discriminate) ltac:(vm_compute; discriminate) 2%nat) as (_ & _ & H).
    { split; [cbn; lia|]. split; [vm_compute; discriminate|vm_compute; reflexivity]. }
    apply H; [vm_compute; reflexivity|reflexivity].
Qed.
(** C140 *)
Theorem slab_block exyz ext ns bs d dir center t e eps : grid3 exyz ext -> slab_dir d = Ok dir -> (dir < 3)%nat -> eps_list ns e = Ok eps -> 0 < t ->
  exists b, draw_slab exyz ext ns bs d center t e = Ok (bs ++ [b]) /\ b_eps b = eps /\ is_rect (b_poly b) /\
  forall per p, (forall a, (a < 3)%nat -> a <> dir -> balanced (exyz a) (per a) /\ (reached (exyz a) (per a) (p a) \/ within (exyz a) (p a))) ->
    (Rabs (p dir - Q2R center) <> Q2R t / 2 -> (covers ext b p <-> Rabs (p dir - Q2R center) < Q2R t / 2))%R.
Proof. intros G. exact (@slab_covers exyz ext ns G bs d dir center t e eps). Qed.
Theorem slab_rendered boolean_not good cs exyz ext ns bs d dir center t e eps bs' r n c v i j k :
  grid3 exyz ext -> slab_dir d = Ok dir -> (dir < 3)%nat -> eps_list ns e = Ok eps -> 0 < t ->
  clipper_ok boolean_not good -> (forall c, In c cs -> component_ok c) -> draw_slab exyz ext ns bs d center t e = Ok bs' ->
  (forall b, In b bs' -> good (b_poly b) /\ (length cs <= length (b_eps b))%nat) ->
  render boolean_not cs ns bs' false = Ok r -> nth_error cs n = Some c -> nth_error r n = Some v -> in_grid c i j k -> component_of ext exyz c ->
  center - t / 2 <= qn (cell_edges (axis_at ext c dir)) (at_axis ext i j k dir) ->
  qn (cell_edges (axis_at ext c dir)) (at_axis ext i j k dir + 1) <= center + t / 2 ->
  v i j k == qn eps n.
Proof. exact (@slab_rendered_pf boolean_not good cs exyz ext ns bs d dir center t e eps bs' r n c v i j k). Qed.
Theorem fill_slab_block exyz ext ns bs dir pol s e eps : grid3 exyz ext -> (dir < 3)%nat -> pol = (-1)%Z \/ pol = 1%Z -> eps_list ns e = Ok eps -> ~ s == edge_lim exyz dir pol ->
  exists b, fill_slab exyz ext ns bs (DDir dir) pol s e = Ok (bs ++ [b]) /\ b_eps b = eps /\ is_rect (b_poly b) /\
  forall per p, (forall a, (a < 3)%nat -> a <> dir -> balanced (exyz a) (per a) /\ (reached (exyz a) (per a) (p a) \/ within (exyz a) (p a))) ->
    (within (exyz dir) (p dir) -> p dir <> Q2R s -> (covers ext b p <-> 0 < IZR pol * (p dir - Q2R s)))%R.
Proof. intros G. exact (@fill_slab_covers exyz ext ns G bs dir pol s e eps). Qed.
Theorem fill_cuboid_block exyz ext ns bs dir pol surf l int e eps : grid3 exyz ext -> (dir < 3)%nat -> pol = (-1)%Z \/ pol = 1%Z -> eps_list ns e = Ok eps -> length l = 2%nat ->
  (forall x, In x l -> 0 < x) -> ~ surf dir == edge_lim exyz dir pol -> int = false \/ 1 # 2 <= qabs (edge_lim exyz dir pol - surf dir) ->
  exists b, fill_cuboid exyz ext ns bs (DDir dir) pol surf l int e = Ok (bs ++ [b]) /\ b_eps b = eps /\ is_rect (b_poly b) /\
  forall p, (within (exyz dir) (p dir) -> p dir <> Q2R (surf dir) ->
    (forall a, (a < 3)%nat -> a <> dir -> Rabs (p a - Q2R (surf a)) <> Q2R (lateral dir l a) / 2) ->
    (covers ext b p <-> 0 < IZR pol * (p dir - Q2R (surf dir)) /\ forall a, (a < 3)%nat -> a <> dir -> Rabs (p a - Q2R (surf a)) < Q2R (lateral dir l a) / 2))%R.
Proof. intros G. exact (@fill_cuboid_covers exyz ext ns G bs dir pol surf l int e eps). Qed.
Theorem fill_fails exyz ext ns bs pol e : 
  (forall z s, fill_slab exyz ext ns bs (DInt z) pol s e = Err NameError) /\
  (forall z surf l int, fill_cuboid exyz ext ns bs (DInt z) pol surf l int e = Err NameError) /\
  (forall dir s, pol <> (-1)%Z -> pol <> 1%Z -> fill_slab exyz ext ns bs (DDir dir) pol s e = Err GridError) /\
  (forall dir surf l int, pol <> (-1)%Z -> pol <> 1%Z -> fill_cuboid exyz ext ns bs (DDir dir) pol surf l int e = Err GridError) /\
  (forall s eps, (ext < 3)%nat -> pol = (-1)%Z \/ pol = 1%Z -> eps_list ns e = Ok eps -> s == edge_lim exyz ext pol -> fill_slab exyz ext ns bs (DDir ext) pol s e = Err GridError) /\
  (forall surf l eps, (ext < 3)%nat -> pol = (-1)%Z \/ pol = 1%Z -> eps_list ns e = Ok eps -> length l = 2%nat ->
     qabs (edge_lim exyz ext pol - surf ext) < 1 # 2 -> fill_cuboid exyz ext ns bs (DDir ext) pol surf l true e = Err GridError).
Proof.
  assert (Z0 : forall bs cx cy cz ex ey ez eps, ez <= 0 -> draw_cuboid bs cx cy cz ex ey ez eps = Err GridError).
  { intros. unfold draw_cuboid, draw_polygon. cbn [length Nat.leb]. apply Qle_bool_iff in H. now rewrite H. }
  split; [reflexivity|]. split; [reflexivity|]. split; [|split; [|split]].
  - intros dir s H1 H2. unfold fill_slab. cbn. destruct (Z.eqb_spec pol (-1)); [contradiction|]. destruct (Z.eqb_spec pol 1); [contradiction|]. reflexivity.
  - intros dir surf l int H1 H2. unfold fill_cuboid. cbn. destruct (Z.eqb_spec pol (-1)); [contradiction|]. destruct (Z.eqb_spec pol 1); [contradiction|]. reflexivity.
  - intros s eps He Hp Hl E. unfold fill_slab. cbn [fill_dir bind]. assert (X : negb (Z.eqb pol (-1) || Z.eqb pol 1) = false) by (destruct Hp as [-> | ->]; reflexivity). rewrite X.
    unfold draw_slab. assert (Y : slab_dir (DInt (Z.of_nat ext)) = Ok ext). { cbn. rewrite Nat2Z.id. assert (W : (Z.leb 0 (Z.of_nat ext) && Z.ltb (Z.of_nat ext) 3 = true)%bool) by (apply Bool.andb_true_iff; split; [apply Z.leb_le|apply Z.ltb_lt]; lia). now rewrite W. }
    rewrite Y. cbn [bind]. rewrite Hl. cbn [bind]. unfold cuboid3. rewrite Nat.eqb_refl. apply Z0. unfold qabs. qcase; Lqa.lra.
  - intros surf l eps He Hp Hl Ll B. unfold fill_cuboid. cbn [fill_dir bind]. assert (X : negb (Z.eqb pol (-1) || Z.eqb pol 1) = false) by (destruct Hp as [-> | ->]; reflexivity). rewrite X, Hl. cbn [bind].
    unfold cuboid3. apply Z0. rewrite (@fill_extent ext l _ ext He Ll He), Nat.eqb_refl.
    assert (Pq : 0 <= 2 * qabs (edge_lim exyz ext pol - surf ext)) by (unfold qabs; qcase; Lqa.lra). rewrite (trunc_pos Pq).
    change 0 with (inject_Z 0). rewrite <- Zle_Qle. assert (F := Qfloor_le (2 * qabs (edge_lim exyz ext pol - surf ext))).
    assert (A : inject_Z (Qfloor (2 * qabs (edge_lim exyz ext pol - surf ext))) < inject_Z 1) by (change (inject_Z 1) with 1; Lqa.lra). rewrite <- Zlt_Qlt in A. lia.
Qed.
(** a slab does not reach the ghost cell of a periodic axis whose first cell is large *)
Theorem slab_reach_refuted : exists exyz ext b p, grid3 exyz ext /\ draw_slab exyz ext 3 [] (DDir 2) 0 2 (EScalar 12) = Ok [b] /\
  (forall a, (a < 3)%nat -> a <> 2%nat -> reached (exyz a) true (p a)) /\ (Rabs (p 2%nat - Q2R 0) < Q2R 2 / 2)%R /\ ~ covers ext b p.
Proof.
  set (exyz := fun a : nat => if Nat.eqb a 0 then [0; 4; 5] else [-3; 0; 3]).
  assert (G : grid3 exyz 2). { split; [lia|]. intros a Ha. unfold exyz. destruct (Nat.eqb a 0); split; try (cbn; lia); incr. }
  assert (E : exists b, draw_slab exyz 2 3 [] (DDir 2) 0 2 (EScalar 12) = Ok ([] ++ [b]) /\
    forall x y z, contains b x y z -> (Q2R (13 # 4) - Q2R 10 / 2 < x)%R).
  { destruct (draw_cuboid_block [] (grid_center (exyz 0%nat)) (grid_center (exyz 1%nat)) 0 10 12 2 (repeat (1 * 12) 3)) as (b & E & _ & _ & C); try reflexivity.
    exists b. split; [exact E|]. intros x y z H. apply C in H as [[H _] _]. assert (Q : Q2R (grid_center (exyz 0%nat)) = Q2R (13 # 4)) by (apply Qeq_eqR; reflexivity). rewrite Q in H. exact H. }
  destruct E as (b & E & C). exists exyz, 2%nat, b, (fun a => if Nat.eqb a 0 then Q2R (- 19 # 10) else 0%R). split; [exact G|]. split; [exact E|]. split; [|split].
  - intros a Ha Hn. destruct a as [|[|a]]; [| |lia]; unfold reached, exyz; cbn [Nat.eqb].
    + assert (Eg : Q2R (ghost_size [0; 4; 5] true) = Q2R 4) by (apply Qeq_eqR; reflexivity). rewrite Eg. unfold qlast, qn; cbn [length Nat.sub nth]. unfold Q2R, Qnum, Qden. split; Lra.lra.
    + assert (Eg : Q2R (ghost_size [-3; 0; 3] true) = Q2R 3) by (apply Qeq_eqR; reflexivity). rewrite Eg. unfold qlast, qn; cbn [length Nat.sub nth]. unfold Q2R, Qnum, Qden. split; Lra.lra.
  - cbn [Nat.eqb]. unfold Q2R, Qnum, Qden, Rabs. destruct (Rcase_abs _); Lra.lra.
  - intros H. apply C in H. cbn in H. unfold Q2R in H. cbn in H. Lra.lra.
Qed.
Definition edges_case (a : nat) : list Q := match a with 0%nat => [0; 2; 4] | 1%nat => [-2; 0; 1; 4] | _ => [0; 1; 3] end.
Example slab_case : grid3 edges_case 2 /\ eps_list 3 (EScalar 12) = Ok [12; 12; 12] /\ (forall a, (a < 3)%nat -> balanced (edges_case a) false) /\
  is_ok (draw_slab edges_case 2 3 [] (DDir 0) 1 (3 # 2) (EScalar 12)) = true /\ is_ok (fill_slab edges_case 2 3 [] (DDir 1) (-1) (1 # 2) (EScalar 12)) = true /\
  is_ok (fill_cuboid edges_case 2 3 [] (DDir 2) 1 (fun _ => 1) [1; 2] true (EScalar 12)) = true.
Proof.
  split; [split; [lia|]; intros a Ha; destruct a as [|[|[|]]]; try lia; (split; [incr|cbn; lia])|]. split; [reflexivity|]. split; [left; reflexivity|]. repeat split; reflexivity.
Qed.

Print Assumptions axes_good. Print Assumptions index_of_position. Print Assumptions index_checked. Print Assumptions position_of_rounded_index_refuted.
Print Assumptions position_roundtrip. Print Assumptions position_half_cell_off. Print Assumptions position_roundtrip_refuted.
Print Assumptions slice_planes. Print Assumptions slice_integer_part. Print Assumptions slice_conditions. Print Assumptions slice_center_refuted.
Print Assumptions slab_block. Print Assumptions slab_rendered. Print Assumptions fill_slab_block. Print Assumptions fill_cuboid_block. Print Assumptions fill_fails.
Print Assumptions slab_reach_refuted.
