(** Lemmas about grid construction and region slices. *)
From Coq Require Import Qround.
From Verif Require Import QTac Grid_Model.
Set Implicit Arguments.
Open Scope Q_scope.

Lemma qnat_S n : qnat (S n) == qnat n + 1.
Proof. unfold qnat. rewrite Nat2Z.inj_succ. unfold Z.succ. rewrite inject_Z_plus. reflexivity. Qed.
Lemma qnat_add a b : qnat (a + b) == qnat a + qnat b.
Proof. unfold qnat. rewrite Nat2Z.inj_add, inject_Z_plus. reflexivity. Qed.
Lemma qnat_nonneg n : 0 <= qnat n.
Proof. unfold qnat, inject_Z, Qle. simpl. lia. Qed.
Lemma qnat_lt a b : (a < b)%nat -> qnat a + 1 <= qnat b.
Proof.
  intros H. rewrite <- qnat_S. unfold qnat. rewrite <- Zle_Qle. lia.
Qed.
Lemma qnat_0 : qnat 0 == 0. Proof. reflexivity. Qed.
Lemma map_seq_nth (f : nat -> Q) n i : (i < n)%nat -> qn (map f (seq 0 n)) i = f i.
Proof.
  intros H. unfold qn. rewrite (nth_indep _ 0 (f 0%nat)) by now rewrite map_length, seq_length.
  now rewrite map_nth, seq_nth.
Qed.
Lemma map_qn (f : Q -> Q) l i : (i < length l)%nat -> qn (map f l) i = f (qn l i).
Proof.
  intros H. unfold qn. rewrite (nth_indep _ 0 (f 0)) by now rewrite map_length. apply map_nth.
Qed.
Lemma arange_length a b s : length (arange a b s) = arange_len a b s.
Proof. unfold arange. now rewrite map_length, seq_length. Qed.
Lemma arange_nth a b s i : (i < arange_len a b s)%nat -> qn (arange a b s) i = a + qnat i * s.
Proof. intros H. unfold arange. now rewrite map_seq_nth. Qed.
Lemma Qceiling_bounds x : inject_Z (Qceiling x) - 1 < x <= inject_Z (Qceiling x).
Proof.
  split; [|apply Qle_ceiling]. pose proof (Qceiling_lt x) as H.
  unfold Z.sub in H. rewrite inject_Z_plus in H. change (inject_Z (-(1))) with (-(1)) in H. lra.
Qed.
Lemma Qfloor_bounds x : inject_Z (Qfloor x) <= x < inject_Z (Qfloor x) + 1.
Proof.
  split; [apply Qfloor_le|]. pose proof (Qlt_floor x) as H. rewrite inject_Z_plus in H. change (inject_Z 1) with 1 in H. exact H.
Qed.
(** number of samples of arange *)
Lemma arange_len_bounds a b s : 0 < s -> a < b ->
  (1 <= arange_len a b s)%nat /\ a + (qnat (arange_len a b s) - 1) * s < b /\ b <= a + qnat (arange_len a b s) * s.
Proof.
  intros Hs Hab. unfold arange_len. set (x := (b - a) / s).
  assert (Hx : x * s == b - a) by (unfold x; field; lra). assert (0 < x) by nra.
  destruct (Qceiling_bounds x) as [H1 H2]. set (z := Qceiling x) in *.
  assert (0 < z)%Z. { apply Z.lt_nge. intros Hz. assert (inject_Z z <= 0) by (rewrite <- Zle_Qle with (y := 0%Z); assumption). lra. }
  assert (Hq : qnat (Z.to_nat z) == inject_Z z) by (unfold qnat; rewrite Z2Nat.id by lia; reflexivity).
  split; [lia|]. rewrite Hq. split; nra.
Qed.

(** recentred arange *)
Lemma recenter_nth l c i : (i < length l)%nat ->
  qn (map (fun x => x - (qn l 0 + qlast l) / 2 + c) l) i = qn l i - (qn l 0 + qlast l) / 2 + c.
Proof. intros H. now rewrite map_qn. Qed.

Lemma sim_extent_nonsym ext dx : sim_extent ext dx false = qmax ext dx.
Proof. reflexivity. Qed.
Lemma sim_extent_pos ext dx sym : 0 < dx -> 0 <= sim_extent ext dx sym.
Proof.
  intros Hd. unfold sim_extent. assert (dx <= qmax ext dx) by qlra. cbv zeta. set (e := qmax ext dx) in *. clearbody e.
  destruct (sym && negb (is_integer (e / (2 * dx)))); [|lra].
  assert (0 <= Qfloor (e / (2 * dx)))%Z.
  { replace 0%Z with (Qfloor 0) by reflexivity. apply Qfloor_resp_le. apply Qle_shift_div_l; lra. }
  assert (0 <= inject_Z (Qfloor (e / (2 * dx)))) by (change 0 with (inject_Z 0); now rewrite <- Zle_Qle). nra.
Qed.

Section EdgeCoords.
Variables ext c dx : Q.
Variable sym : bool.
Hypothesis Hdx : 0 < dx.
Let e := create_edge_coords ext c dx sym.
Let E := sim_extent ext dx sym.

Lemma edge_len : length e = arange_len (c - E / 2) (c + E / 2 + dx / 2) dx.
Proof. unfold e, create_edge_coords. fold E. now rewrite map_length, arange_length. Qed.
Lemma edge_len_pos : (1 <= length e)%nat.
Proof.
  rewrite edge_len. apply arange_len_bounds; [assumption|]. assert (0 <= E) by now apply sim_extent_pos.
  assert (c - E / 2 == c - E * (1#2)) by field. assert (c + E / 2 + dx / 2 == c + E * (1#2) + dx * (1#2)) by field. lra.
Qed.
Lemma edge_nth i : (i < length e)%nat -> qn e i == c + (qnat i - qnat (length e - 1) / 2) * dx.
Proof.
  intros Hi. pose proof edge_len_pos as Hl. unfold e, create_edge_coords in *. fold E in Hi, Hl |- *.
  set (l := arange _ _ _) in *. rewrite map_length in Hi, Hl |- *.
  rewrite recenter_nth by assumption. unfold qlast.
  assert (Hn : forall k, (k < length l)%nat -> qn l k == c - E / 2 + qnat k * dx).
  { intros k Hk. unfold l in *. rewrite arange_length in Hk. now rewrite arange_nth. }
  rewrite (Hn i), (Hn 0%nat), (Hn (length l - 1)%nat) by lia. rewrite qnat_0. field.
Qed.
Lemma edge_span : E - dx / 2 <= qnat (length e - 1) * dx /\ qnat (length e - 1) * dx < E + dx / 2.
Proof.
  pose proof edge_len_pos as Hl. assert (0 <= E) by now apply sim_extent_pos.
  assert (Ha : c - E / 2 == c - E * (1#2)) by field. assert (Hb : c + E / 2 + dx / 2 == c + E * (1#2) + dx * (1#2)) by field.
  assert (Hq : dx / 2 == dx * (1#2)) by field.
  destruct (@arange_len_bounds (c - E / 2) (c + E / 2 + dx / 2) dx Hdx) as (_ & H1 & H2); [lra|].
  rewrite <- edge_len in H1, H2. assert (Hn : qnat (length e) == qnat (length e - 1) + 1).
  { rewrite <- qnat_S. replace (S (length e - 1)) with (length e) by lia. reflexivity. }
  rewrite Hn in H1, H2. split; lra.
Qed.
End EdgeCoords.

Lemma edge_coords_pf ext c dx sym : 0 < dx ->
  let e := create_edge_coords ext c dx sym in
  (1 <= length e)%nat /\ forall i, (i < length e)%nat -> qn e i == c + (qnat i - qnat (length e - 1) / 2) * dx.
Proof. intros H. split; [now apply edge_len_pos|intros i Hi; now apply edge_nth]. Qed.
Lemma edge_coords_cover_pf ext c dx : 0 < dx ->
  let n := (length (create_edge_coords ext c dx false) - 1)%nat in
  (1 <= n)%nat /\ qmax ext dx - dx / 2 <= qnat n * dx /\ qnat n * dx < qmax ext dx + dx / 2.
Proof.
  intros H n. destruct (@edge_span ext c dx false H) as [H1 H2]. rewrite sim_extent_nonsym in H1, H2. fold n in H1, H2.
  split; [|split; assumption]. destruct n as [|n]; [|lia]. exfalso. rewrite qnat_0 in H1.
  assert (dx <= qmax ext dx) by qlra. assert (dx / 2 == dx * (1#2)) by field. lra.
Qed.
Lemma sim_extent_sym ext dx : 0 < dx -> exists k : Z, (0 <= k)%Z /\ sim_extent ext dx true == inject_Z k * 2 * dx /\
  inject_Z k * 2 * dx <= qmax ext dx /\ qmax ext dx < inject_Z k * 2 * dx + 2 * dx.
Proof.
  intros Hd. unfold sim_extent. cbv zeta. assert (Hm : dx <= qmax ext dx) by qlra. set (e := qmax ext dx) in *. clearbody e.
  set (x := e / (2 * dx)). assert (Hx : x * (2 * dx) == e) by (unfold x; field; lra).
  destruct (Qfloor_bounds x) as [F1 F2]. set (k := Qfloor x) in *.
  assert (0 <= k)%Z. { unfold k. replace 0%Z with (Qfloor 0) by reflexivity. apply Qfloor_resp_le. nra. }
  exists k. split; [assumption|]. cbn [andb]. unfold is_integer. fold k. destruct (Qeq_bool (inject_Z k) x) eqn:Ei; cbn [negb]; qhyps.
  - split; [rewrite <- Hx, Ei; ring|]. split; nra.
  - split; [reflexivity|]. split; nra.
Qed.
Lemma nat_even_of_Z n k : (0 <= k)%Z -> qnat n == inject_Z k * 2 -> exists m, n = (2 * m)%nat /\ Z.of_nat m = k.
Proof.
  intros Hk H. exists (Z.to_nat k). split; [|lia]. unfold qnat in H. change 2 with (inject_Z 2) in H.
  rewrite <- inject_Z_mult in H. apply (proj1 (inject_Z_injective _ _)) in H. lia.
Qed.
Lemma edge_coords_sym_pf ext c dx : 0 < dx ->
  let n := (length (create_edge_coords ext c dx true) - 1)%nat in
  Nat.even n = true /\ qnat n * dx <= qmax ext dx /\ qmax ext dx < qnat n * dx + 2 * dx.
Proof.
  intros H n. destruct (@edge_span ext c dx true H) as [H1 H2]. fold n in H1, H2.
  destruct (sim_extent_sym ext H) as (k & Hk & Hs & Hl & Hr). rewrite Hs in H1, H2.
  assert (Hd2 : dx / 2 == dx * (1#2)) by field.
  assert (Hn : qnat n == inject_Z k * 2).
  { assert (A1 : inject_Z k * 2 - (1#2) <= qnat n) by nra. assert (A2 : qnat n < inject_Z k * 2 + (1#2)) by nra.
    unfold qnat in *. change 2 with (inject_Z 2) in *. rewrite <- inject_Z_mult in *.
    apply inject_Z_injective. assert (~ (Z.of_nat n < k * 2)%Z).
    { intros Hlt. assert (inject_Z (Z.of_nat n) + 1 <= inject_Z (k * 2)).
      { change 1 with (inject_Z 1). rewrite <- inject_Z_plus, <- Zle_Qle. lia. } lra. }
    assert (~ (k * 2 < Z.of_nat n)%Z).
    { intros Hlt. assert (inject_Z (k * 2) + 1 <= inject_Z (Z.of_nat n)).
      { change 1 with (inject_Z 1). rewrite <- inject_Z_plus, <- Zle_Qle. lia. } lra. }
    lia. }
  destruct (nat_even_of_Z Hk Hn) as (m & Em & Hm).
  split; [apply Nat.even_spec; now exists m|]. rewrite Hn. split; assumption.
Qed.
Lemma edge_coords_sym_degenerate_pf ext c dx : 0 < dx -> ext < 2 * dx -> length (create_edge_coords ext c dx true) = 1%nat.
Proof.
  intros H He. destruct (@edge_coords_sym_pf ext c dx H) as (H1 & H2 & H3). pose proof (@edge_len_pos ext c dx true H) as Hl.
  set (L := length (create_edge_coords ext c dx true)) in *. destruct (Nat.eq_dec L 1) as [|Hne]; [assumption|]. exfalso.
  assert (2 <= L - 1)%nat. { destruct (L - 1)%nat as [|[|m]] eqn:Em; [lia|discriminate|lia]. }
  pose proof (@qnat_lt 1 (L - 1) ltac:(lia)) as Hq. unfold qnat at 1 in Hq. simpl in Hq.
  assert (qmax ext dx < 2 * dx) by qlra. assert (2 <= qnat (L - 1)) by (change (inject_Z 1) with 1 in Hq; lra). nra.
Qed.
(** the grid of the older code *)
Lemma edge_coords_invdes_pf ext c dx : 0 < dx -> 0 <= ext ->
  let e := create_edge_coords_invdes ext c dx in
  let n := (length e - 1)%nat in
  (1 <= length e)%nat /\
  (forall i, (i < length e)%nat -> qn e i == c - ext / 2 - dx / 2 + qnat i * dx) /\
  ext <= qnat n * dx /\ qnat n * dx < ext + dx.
Proof.
  intros Hd He e n. unfold e, create_edge_coords_invdes in *.
  set (a := c - ext / 2 - dx / 2) in *. set (b := c + ext / 2 + dx / 2) in *.
  assert (Hab : b == a + ext + dx) by (unfold a, b; field).
  destruct (@arange_len_bounds a b dx Hd) as (H1 & H2 & H3); [lra|].
  rewrite <- arange_length in H1, H2, H3. split; [assumption|]. split.
  - intros i Hi. rewrite arange_length in Hi. now rewrite arange_nth.
  - assert (Hn : qnat (length (arange a b dx)) == qnat n + 1).
    { rewrite <- qnat_S. unfold n, e, create_edge_coords_invdes. fold a b. replace (S (length (arange a b dx) - 1)) with (length (arange a b dx)) by lia. reflexivity. }
    rewrite Hn in H2, H3. split; lra.
Qed.

(** *** pixels of a shape *)
Lemma pixel_count_ceiling ext p : 0 < p -> 0 <= ext -> pixel_count ext p = Qceiling (ext / p).
Proof.
  intros Hp He. unfold pixel_count. set (x := ext / p). assert (Hx : x * p == ext) by (unfold x; field; lra).
  replace (Qfloor x + 1 - 1)%Z with (Qfloor x) by lia. destruct (Qfloor_bounds x) as [F1 F2]. destruct (Qceiling_bounds x) as [C1 C2].
  cbv zeta. replace (Qfloor x + 1 - 1)%Z with (Qfloor x) by lia.
  destruct (Qle_bool ext (p * inject_Z (Qfloor x))) eqn:E; qhyps.
  - assert (x == inject_Z (Qfloor x)) as Heq by nra. apply Z.le_antisymm.
    + rewrite Zle_Qle. lra.
    + apply Z.lt_succ_r. rewrite Zlt_Qlt. unfold Z.succ. rewrite inject_Z_plus. change (inject_Z 1) with 1. lra.
  - assert (inject_Z (Qfloor x) < x) by nra. apply Z.le_antisymm.
    + assert (Qfloor x < Qceiling x)%Z by (rewrite Zlt_Qlt; lra). lia.
    + apply Z.lt_succ_r. rewrite Zlt_Qlt. unfold Z.succ. rewrite !inject_Z_plus. change (inject_Z 1) with 1. lra.
Qed.
Section Pixels.
Variables ext p : Q.
Hypothesis Hp : 0 < p.
Hypothesis He : 0 < ext.
Let z := Qceiling (ext / p).
Let n := Z.to_nat z.
Let e := relative_edge_coords ext p.
Lemma z_pos : (1 <= z)%Z.
Proof.
  assert (0 < ext / p) by (apply Qlt_shift_div_l; lra). destruct (Qceiling_bounds (ext / p)) as [C1 C2]. fold z in C1, C2.
  assert (0 < z)%Z; [|lia]. rewrite Zlt_Qlt. change (inject_Z 0) with 0. lra.
Qed.
Lemma n_bounds : (qnat n - 1) * p < ext /\ ext <= qnat n * p.
Proof.
  pose proof z_pos. assert (Hx : (ext / p) * p == ext) by (field; lra). destruct (Qceiling_bounds (ext / p)) as [C1 C2]. fold z in C1, C2.
  assert (Hq : qnat n == inject_Z z) by (unfold qnat, n; rewrite Z2Nat.id by lia; reflexivity). rewrite Hq. split; nra.
Qed.
Lemma pixel_edges_form : length e = S n /\ (1 <= n)%nat /\ qn e 0 == - ext / 2 /\ qn e n == ext / 2 /\
  forall i, (0 < i < n)%nat -> qn e i == (qnat i - qnat n / 2) * p.
Proof.
  pose proof z_pos as Hz. pose proof n_bounds as [Hb1 Hb2]. assert (Hn1 : (1 <= n)%nat) by (unfold n; lia).
  unfold e, relative_edge_coords. fold z. cbv zeta.
  assert (qlt (inject_Z z * p) ext = false) as ->.
  { apply qlt_false. assert (Hq : qnat n == inject_Z z) by (unfold qnat, n; rewrite Z2Nat.id by lia; reflexivity). rewrite <- Hq. assumption. }
  replace (Z.to_nat (z + 1)) with (S n) by (unfold n; lia).
  set (l := map (fun i => p * qnat i) (seq 0 (S n))). assert (Ll : length l = S n) by (unfold l; now rewrite map_length, seq_length).
  set (l2 := map (fun x => x - (qn l 0 + qlast l) / 2) l). assert (L2 : length l2 = S n) by (unfold l2; now rewrite map_length).
  assert (N : forall i, (i < S n)%nat -> qn l2 i == p * qnat i - p * qnat n / 2).
  { intros i Hi. unfold l2. rewrite map_qn by lia. unfold qlast. rewrite Ll. replace (S n - 1)%nat with n by lia.
    unfold l. rewrite !map_seq_nth by lia. rewrite qnat_0. field. }
  clearbody l2. rewrite !lset_length, L2. replace (S n - 1)%nat with n by lia.
  assert (M : forall i, (i < S n)%nat -> qn (lset (lset l2 0 (- ext / 2)) n (ext / 2)) i = if Nat.eqb i n then ext / 2 else if Nat.eqb i 0 then - ext / 2 else qn l2 i).
  { intros i Hi. unfold qn. rewrite lset_nth by (rewrite lset_length; lia). rewrite lset_nth by lia. reflexivity. }
  split; [reflexivity|]. split; [assumption|]. split; [|split].
  - rewrite M by lia. destruct (Nat.eqb_spec 0 n); [lia|]. reflexivity.
  - rewrite M by lia. rewrite Nat.eqb_refl. reflexivity.
  - intros i Hi. rewrite M by lia. destruct (Nat.eqb_spec i n); [lia|]. destruct (Nat.eqb_spec i 0); [lia|]. rewrite N by lia. field.
Qed.
Lemma pixel_widths i : (i < n)%nat -> let w := qn e (S i) - qn e i in
  ((0 < i)%nat -> (S i < n)%nat -> w == p) /\ 0 < w /\ w <= p /\ ((2 <= n)%nat -> p / 2 < w).
Proof.
  intros Hi. destruct pixel_edges_form as (Hl & Hn & E0 & En & Ei). destruct n_bounds as [B1 B2].
  assert (Hh : forall x, x / 2 == x * (1#2)) by (intros; field). cbv zeta.
  destruct (Nat.eq_dec i 0) as [Hi0|Hi0]; destruct (Nat.eq_dec (S i) n) as [Hin|Hin].
  - (* single cell *) subst i. assert (n = 1%nat) as H1 by lia. rewrite H1 in *. change (qnat 1) with 1 in *. rewrite E0, En, ?Hh.
    repeat split; try lia; rewrite ?Hh; try lra.
  - subst i. rewrite E0, (Ei 1%nat) by lia. change (qnat 1) with 1. assert (2 <= qnat n) by (pose proof (@qnat_lt 1 n ltac:(lia)) as Q1; change (qnat 1) with 1 in Q1; lra).
    repeat split; try lia; rewrite ?Hh; try nra.
  - rewrite Hin, En, (Ei i) by lia. assert (Hq : qnat n == qnat i + 1) by (rewrite <- Hin; apply qnat_S). rewrite Hq in *.
    repeat split; try lia; rewrite ?Hh; try nra. 
  - rewrite (Ei i), (Ei (S i)) by lia. rewrite qnat_S. repeat split; rewrite ?Hh; try nra.
Qed.
End Pixels.

(** *** region slices *)
Lemma centers_length e : length (centers e) = (length e - 1)%nat.
Proof. unfold centers. now rewrite map_length, seq_length. Qed.
Lemma centers_nth e i : (i < length e - 1)%nat -> qn (centers e) i == (qn e i + qn e (i + 1)) / 2.
Proof. intros H. unfold centers. rewrite map_seq_nth by assumption. replace (i + 1)%nat with (S i) by lia. field. Qed.

Section Slice.
Variable e : list Q.
Hypothesis Hinc : increasing e.
Hypothesis Hlen : (2 <= length e)%nat.
Let n := (length e - 1)%nat.
(** index of the cell containing a position inside the grid *)
Lemma pos2ind_in r : qn e 0 <= r -> r <= qlast e ->
  exists i, pos2ind e r = Ok i /\ (i < n)%nat /\ qn e i <= r /\ (r < qn e (i + 1) \/ (i + 1 = n)%nat).
Proof.
  intros H1 H2. unfold pos2ind. assert (qlt r (qn e 0) = false) as -> by now apply qlt_false.
  assert (qlt (qlast e) r = false) as -> by now apply qlt_false. cbn [orb]. rewrite andb_false_r. eexists. split; [reflexivity|].
  assert (D : forall k, (k < length e)%nat -> (k < digitize r e)%nat <-> qn e k <= r) by (intros; now apply digitize_spec).
  pose proof (digitize_le r e) as L. set (d := digitize r e) in *. clearbody d.
  assert (1 <= d)%nat by (apply D; [lia|assumption]). split; [unfold n; lia|]. split; [apply D; lia|].
  destruct (le_lt_dec n d) as [Hd|Hd].
  - right. unfold n in *. lia.
  - left. replace (Nat.min (Nat.pred d) (length e - 2) + 1)%nat with d by (unfold n in *; lia). apply Qnot_le_lt. intros H3. apply D in H3; unfold n in *; lia.
Qed.
Lemma slice_pf center extent : 0 <= extent ->
  let mn := center - extent / 2 in let mx := center + extent / 2 in
  mn <= qlast e -> qn e 0 <= mx ->
  exists i0 i1, region_slice e center extent = Ok (i0, i1) /\ (i0 < i1 <= n)%nat /\
    (* every cell that meets the region and ends inside it is selected *)
    (forall k, (k < n)%nat -> mn < qn e (k + 1) -> qn e (k + 1) <= mx -> (i0 <= k < i1)%nat) /\
    (* selected cells meet the region, or are the nearest one *)
    (forall k, (i0 <= k < i1)%nat -> (k = i0 \/ qn e (k + 1) <= mx \/ (k + 1 = n)%nat /\ (qn e k + qn e (k + 1)) / 2 < mx)) /\
    (mn < (qn e 0 + qn e 1) / 2 /\ i0 = 0%nat \/ qn e i0 <= mn).
Proof.
  intros Hex mn mx Hmn Hmx. assert (Hle : mn <= mx) by (unfold mn, mx; assert (extent / 2 == extent * (1#2)) by field; lra).
  unfold region_slice. fold mn mx. cbv zeta.
  assert (Hlast : qlast (centers e) = qn (centers e) (n - 1)) by (unfold qlast; now rewrite centers_length).
  rewrite Hlast. assert (Hc0 : qn (centers e) 0 == (qn e 0 + qn e 1) / 2) by (apply centers_nth; lia).
  assert (Hcn : qn (centers e) (n - 1) == (qn e (n - 1) + qn e n) / 2).
  { rewrite centers_nth by (unfold n; lia). replace (n - 1 + 1)%nat with n by (unfold n; lia). reflexivity. }
  set (c0 := qn (centers e) 0) in *. set (cn := qn (centers e) (n - 1)) in *. clearbody c0 cn.
  assert (Hh : forall x, x / 2 == x * (1#2)) by (intros; field). rewrite Hh in Hc0, Hcn.
  unfold qlast in Hmn. fold n in Hmn.
  assert (G0 : qn e 0 < qn e 1) by (apply Hinc; lia). assert (Gn : qn e (n - 1) < qn e n) by (apply Hinc; unfold n; lia).
  assert (G1 : qn e 1 <= qn e n) by (apply (increasing_le Hinc); unfold n; lia).
  assert (G2 : qn e 0 <= qn e (n - 1)) by (apply (increasing_le Hinc); unfold n; lia).
  assert (Hm0 : qn e 0 <= qmax c0 mn /\ qmax c0 mn <= qlast e) by (unfold qlast; fold n; split; qlra).
  assert (Hm1 : qn e 0 <= qmin cn mx /\ qmin cn mx <= qlast e) by (unfold qlast; fold n; split; qlra).
  destruct (@pos2ind_in (qmax c0 mn)) as (a & Pa & Ha1 & Ha2 & Ha3); [tauto|tauto|].
  destruct (@pos2ind_in (qmin cn mx)) as (b & Pb & Hb1 & Hb2 & Hb3); [tauto|tauto|].
  rewrite Pa, Pb. cbn [bind]. clear Pa Pb Hm0 Hm1.
  assert (Mono : forall i j, (i <= j <= n)%nat -> qn e i <= qn e j) by (intros; apply (increasing_le Hinc); unfold n in *; lia).
  (* start index *)
  set (i0 := if qlt mn (qmax c0 mn) then 0%nat else a).
  assert (I0 : (i0 < n)%nat /\ (forall k, (k < n)%nat -> mn < qn e (k + 1) -> (i0 <= k)%nat) /\ (mn < (qn e 0 + qn e 1) / 2 /\ i0 = 0%nat \/ qn e i0 <= mn)).
  { unfold i0. destruct (qlt mn (qmax c0 mn)) eqn:E; qhyps.
    - split; [lia|]. split; [lia|]. left. split; [|reflexivity]. rewrite Hh. clear - E Hc0. qlra.
    - assert (Emn : qmax c0 mn == mn) by (clear - E; qlra). rewrite Emn in *. split; [assumption|]. split; [|right; assumption].
      intros k Hk Hk2. destruct (le_lt_dec a k); [assumption|]. assert (qn e (k + 1) <= qn e a) by (apply Mono; lia). lra. }
  destruct I0 as (I01 & I02 & I03). clearbody i0.
  (* stop index *)
  set (i1 := if qlt (qmin cn mx) mx then (b + 1)%nat else b).
  assert (I1 : (i1 <= n)%nat /\ (forall k, (k < n)%nat -> qn e (k + 1) <= mx -> (k < i1)%nat) /\
               (forall k, (k < i1)%nat -> qn e (k + 1) <= mx \/ (k + 1 = n)%nat /\ (qn e k + qn e (k + 1)) / 2 < mx)).
  { unfold i1. destruct (qlt (qmin cn mx) mx) eqn:E; qhyps.
    - assert (Ecn : qmin cn mx == cn) by (clear - E; qlra). assert (cn < mx) by (rewrite <- Ecn; assumption). rewrite Ecn in *.
      assert (b + 1 = n)%nat as Hbn.
      { destruct Hb3 as [Hb3|Hb3]; [|assumption]. destruct (Nat.eq_dec (b + 1) n); [assumption|].
        assert (qn e (b + 1) <= qn e (n - 1)) by (apply Mono; lia). lra. }
      rewrite Hbn. split; [lia|]. split; [lia|]. intros k Hk. destruct (Nat.eq_dec (k + 1) n) as [Hkn|Hkn].
      + right. split; [assumption|]. replace k with (n - 1)%nat by lia. replace (n - 1 + 1)%nat with n by lia. rewrite Hh. lra.
      + left. assert (qn e (k + 1) <= qn e (n - 1)) by (apply Mono; lia). lra.
    - assert (Emx : qmin cn mx == mx) by (clear - E; qlra). assert (mx <= cn) by (clear - E; qlra). rewrite Emx in *. split; [lia|]. split.
      + intros k Hk Hk2. destruct (lt_dec k b); [assumption|exfalso]. destruct Hb3 as [Hb3|Hb3].
        * assert (qn e (b + 1) <= qn e (k + 1)) by (apply Mono; lia). lra.
        * assert (qn e n <= qn e (k + 1)) by (apply Mono; lia). lra.
      + intros k Hk. left. assert (qn e (k + 1) <= qn e b) by (apply Mono; lia). lra. }
  destruct I1 as (I11 & I12 & I13). clearbody i1.
  exists i0, (Nat.max i1 (i0 + 1)). split; [reflexivity|]. split; [lia|]. split; [|split; [|assumption]].
  - intros k Hk Hk1 Hk2. specialize (I02 k Hk Hk1). specialize (I12 k Hk Hk2). lia.
  - intros k Hk. destruct (Nat.eq_dec k i0) as [->|Hne]; [now left|]. right. apply I13. lia.
Qed.
Lemma pos2ind_err r : (2 <= n)%nat -> (r < qn e 0 \/ qlast e < r) -> pos2ind e r = Err GridError.
Proof.
  intros Hn H. unfold pos2ind. fold n. assert (Nat.ltb 1 n = true) as -> by (apply Nat.ltb_lt; lia). cbn [andb].
  assert (qlt r (qn e 0) || qlt (qlast e) r = true) as ->; [|reflexivity]. apply orb_true_iff. destruct H; [left|right]; now apply qlt_true.
Qed.
Lemma slice_err_pf center extent : 0 <= extent -> (2 <= n)%nat ->
  (qlast e < center - extent / 2 \/ center + extent / 2 < qn e 0) -> region_slice e center extent = Err GridError.
Proof.
  intros Hex Hn Hout. unfold region_slice. set (mn := center - extent / 2) in *. set (mx := center + extent / 2) in *.
  assert (Hle : mn <= mx) by (unfold mn, mx; assert (extent / 2 == extent * (1#2)) by field; lra). cbv zeta.
  assert (Hc0 : qn (centers e) 0 == (qn e 0 + qn e 1) * (1#2)) by (rewrite centers_nth by lia; cbn [Nat.add]; field).
  assert (Hlast : qlast (centers e) = qn (centers e) (n - 1)) by (unfold qlast; now rewrite centers_length).
  assert (Hcn : qlast (centers e) == (qn e (n - 1) + qn e n) * (1#2)).
  { rewrite Hlast, centers_nth by (unfold n in *; lia). replace (n - 1 + 1)%nat with n by (unfold n in *; lia). field. }
  unfold qlast in Hout |- *. fold n in Hout. change (qn (centers e) (length (centers e) - 1)) with (qlast (centers e)).
  set (c0 := qn (centers e) 0) in *. set (cn := qlast (centers e)) in *. clearbody c0 cn.
  assert (G0 : qn e 0 < qn e 1) by (apply Hinc; lia). assert (Gn : qn e (n - 1) < qn e n) by (apply Hinc; unfold n in *; lia).
  assert (G1 : qn e 1 <= qn e n) by (apply (increasing_le Hinc); unfold n in *; lia).
  assert (G2 : qn e 0 <= qn e (n - 1)) by (apply (increasing_le Hinc); unfold n in *; lia).
  destruct Hout as [H|H].
  - rewrite pos2ind_err; [reflexivity|assumption|]. right. unfold qlast. fold n. qlra.
  - destruct (@pos2ind_in (qmax c0 mn)) as (a & -> & _); [qlra|unfold qlast; fold n; qlra|]. cbn [bind].
    rewrite pos2ind_err; [reflexivity|assumption|]. left. qlra.
Qed.
End Slice.

(** *** shifted grids *)
Lemma dxyz_length e : length (dxyz e) = (length e - 1)%nat.
Proof. unfold dxyz. now rewrite map_length, seq_length. Qed.
Lemma dxyz_nth e i : (i < length e - 1)%nat -> qn (dxyz e) i = qn e (S i) - qn e i.
Proof. intros H. unfold dxyz. now rewrite map_seq_nth. Qed.
Lemma ghost_length e per : (1 <= length e)%nat -> length (dxyz_with_ghost e per) = length e.
Proof. intros H. unfold dxyz_with_ghost. rewrite app_length, dxyz_length. simpl. lia. Qed.
Lemma ghost_nth e per i : (i < length e - 1)%nat -> qn (dxyz_with_ghost e per) i = qn e (S i) - qn e i.
Proof.
  intros H. unfold dxyz_with_ghost, qn at 1. rewrite app_nth1 by now rewrite dxyz_length. fold (qn (dxyz e) i). now apply dxyz_nth.
Qed.
Lemma ghost_last e per : qn (dxyz_with_ghost e per) (length e - 1) = ghost_size e per.
Proof. unfold dxyz_with_ghost, qn at 1. rewrite app_nth2, dxyz_length, Nat.sub_diag by (rewrite dxyz_length; lia). reflexivity. Qed.
Lemma ghost_pos e per : increasing e -> (2 <= length e)%nat -> 0 < ghost_size e per.
Proof.
  intros He Hl. unfold ghost_size. destruct per.
  - rewrite dxyz_nth by lia. assert (qn e 0 < qn e 1) by (apply He; lia). lra.
  - unfold qlast. rewrite dxyz_length, dxyz_nth by lia. assert (qn e (length e - 1 - 1) < qn e (S (length e - 1 - 1))) by (apply He; lia). lra.
Qed.
Lemma shifted_prim_nth e per s i : (i < length e)%nat ->
  qn (map (fun i => qn e i + qn (dxyz_with_ghost e per) i * s) (seq 0 (length e))) i = qn e i + qn (dxyz_with_ghost e per) i * s.
Proof. intros H. now rewrite map_seq_nth. Qed.

Lemma shifted_sizes_pf e per comp s : (2 <= length e)%nat -> (comp = false \/ s == 0 \/ s == 1 # 2) ->
  let E := shifted_edges e per comp s in let D := shifted_sizes e per comp s in
  length D = (length E - 1)%nat /\ forall i, (i < length D)%nat -> qn D i == qn E (i + 1) - qn E i.
Proof.
  intros Hl Hs. unfold shifted_edges, shifted_sizes. cbv zeta.
  set (d := dxyz_with_ghost e per).
  set (l := map (fun i => qn e i + qn d i * s) (seq 0 (length e))).
  set (m := map (fun i => qn d i * (1 - s) + qn d (S i) * s) (seq 0 (length e - 1))).
  assert (Ll : length l = length e) by (unfold l; now rewrite map_length, seq_length).
  assert (Lm : length m = (length e - 1)%nat) by (unfold m; now rewrite map_length, seq_length).
  assert (Hm : forall i, (i < length e - 1)%nat -> qn m i == qn l (i + 1) - qn l i).
  { intros i Hi. unfold m, l. rewrite !map_seq_nth by lia. replace (i + 1)%nat with (S i) by lia.
    assert (Hd : qn d i = qn e (S i) - qn e i) by (apply ghost_nth; assumption). rewrite Hd. ring. }
  destruct (comp && negb (Qeq_bool s 0)) eqn:Ec.
  - cbn [length]. rewrite Ll, Lm. split; [lia|]. intros [|i] Hi; cbn [Nat.add].
    + change (qn ((qlast d * (1 - s) + qn d 0 * s) :: m) 0) with (qlast d * (1 - s) + qn d 0 * s).
      change (qn ((qn e 0 - qlast d * s) :: l) 1) with (qn l 0). change (qn ((qn e 0 - qlast d * s) :: l) 0) with (qn e 0 - qlast d * s).
      unfold l. rewrite map_seq_nth by lia. apply andb_true_iff in Ec as [-> Ec]. apply negb_true_iff in Ec.
      destruct Hs as [Hs|[Hs|Hs]]; [discriminate| |].
      * apply Qeq_bool_iff in Hs. congruence.
      * rewrite Hs. ring.
    + change (qn ((qlast d * (1 - s) + qn d 0 * s) :: m) (S i)) with (qn m i).
      change (qn ((qn e 0 - qlast d * s) :: l) (S (i + 1))) with (qn l (i + 1)).
      change (qn ((qn e 0 - qlast d * s) :: l) (S i)) with (qn l i). apply Hm. lia.
  - rewrite Ll, Lm. split; [reflexivity|]. exact Hm.
Qed.
Lemma firstn_qn l k i : (i < k)%nat -> qn (firstn k l) i = qn l i.
Proof.
  intros H. unfold qn. destruct (le_lt_dec (length l) i) as [Hl|Hl].
  - rewrite !nth_overflow; [reflexivity|assumption|]. rewrite firstn_length. lia.
  - rewrite <- (firstn_skipn k l) at 2. rewrite app_nth1; [reflexivity|]. rewrite firstn_length. lia.
Qed.
(** the grid used for rendering component [axis] has one cell per grid cell, centred
    for half shifts on the lower edge of the cell *)
Lemma render_edges_pf e per s : increasing e -> (2 <= length e)%nat -> 0 <= s -> s < 1 ->
  let E := render_edges e per s in
  length E = length e /\ increasing E /\
  (s == 0 -> forall i, (i < length e)%nat -> qn E i == qn e i) /\
  (s == 1 # 2 -> forall i, (0 < i < length e)%nat -> qn E i == (qn e (i - 1) + qn e i) / 2).
Proof.
  intros He Hl Hs0 Hs1 E. unfold E, render_edges, shifted_edges. cbv zeta. cbn [andb].
  set (d := dxyz_with_ghost e per). set (l := map (fun i => qn e i + qn d i * s) (seq 0 (length e))).
  assert (Ll : length l = length e) by (unfold l; now rewrite map_length, seq_length).
  assert (Nl : forall i, (i < length e - 1)%nat -> qn l i == qn e i + (qn e (S i) - qn e i) * s).
  { intros i Hi. unfold l. rewrite map_seq_nth by lia. unfold d. rewrite ghost_nth by assumption. reflexivity. }
  assert (Hdl : 0 < qlast d) by (unfold qlast, d; rewrite ghost_length, ghost_last by lia; now apply ghost_pos).
  assert (Nlast : qn l (length e - 1) == qn e (length e - 1) + qlast d * s).
  { unfold l. rewrite map_seq_nth by lia. unfold qlast, d. rewrite ghost_length by lia. reflexivity. }
  assert (Mid : forall i, (i < length e - 1)%nat -> qn e i <= qn l i /\ qn l i < qn e (S i)).
  { intros i Hi. rewrite (Nl i Hi). assert (qn e i < qn e (S i)) by (apply He; lia). split; nra. }
  assert (Inc : increasing l).
  { intros i j [Hij Hj]. rewrite Ll in Hj. destruct (Mid i ltac:(lia)) as [_ M1].
    assert (qn e (S i) <= qn e j) by (apply (increasing_le He); lia).
    destruct (Nat.eq_dec j (length e - 1)) as [->|Hne].
    - rewrite Nlast. assert (0 <= qlast d * s) by nra. lra.
    - destruct (Mid j ltac:(lia)) as [M2 _]. lra. }
  destruct (Qeq_bool s 0) eqn:Es; cbn [negb].
  - rewrite Ll, Nat.eqb_refl. qhyps. split; [assumption|]. split; [assumption|]. split.
    + intros _ i Hi. destruct (Nat.eq_dec i (length e - 1)) as [->|Hne]; [rewrite Nlast|rewrite Nl by lia]; rewrite Es; ring.
    + intros Hh. exfalso. rewrite Hh in Es. discriminate.
  - cbn [length]. rewrite Ll. assert (Nat.eqb (S (length e)) (length e) = false) as -> by (apply Nat.eqb_neq; lia).
    replace (S (length e) - 1)%nat with (length e) by lia. set (F := (qn e 0 - qlast d * s) :: l).
    split; [rewrite firstn_length; unfold F; cbn [length]; lia|].
    assert (Hsp : 0 < s). { destruct (Qlt_le_dec 0 s); [assumption|]. exfalso. assert (s == 0) as Hz by lra. apply Qeq_bool_iff in Hz. congruence. }
    split; [|split].
    + intros i j [Hij Hj]. rewrite firstn_length in Hj. unfold F in Hj. cbn [length] in Hj. rewrite !firstn_qn by lia.
      destruct j as [|j]; [lia|]. change (qn F (S j)) with (qn l j). destruct i as [|i].
      * change (qn F 0) with (qn e 0 - qlast d * s). destruct (Mid j ltac:(lia)) as [M2 _].
        assert (qn e 0 <= qn e j) by (apply (increasing_le He); lia). nra.
      * change (qn F (S i)) with (qn l i). apply Inc. lia.
    + intros Hz. apply Qeq_bool_iff in Hz. congruence.
    + intros Hh i Hi. rewrite firstn_qn by lia. destruct i as [|i]; [lia|]. change (qn F (S i)) with (qn l i).
      rewrite Nl by lia. rewrite Hh. replace (S i - 1)%nat with i by lia. field.
Qed.
Lemma pixel_edges_pf ext p : 0 < p -> 0 < ext ->
  let n := Z.to_nat (pixel_count ext p) in
  let e := relative_edge_coords ext p in
  length e = S n /\ (1 <= n)%nat /\ qn e 0 == - ext / 2 /\ qn e n == ext / 2 /\
  forall i, (0 < i < n)%nat -> qn e i == (qnat i - qnat n / 2) * p.
Proof. intros Hp He. cbv zeta. rewrite pixel_count_ceiling by lra. now apply pixel_edges_form. Qed.
Lemma pixel_sizes_pf ext p : 0 < p -> 0 < ext ->
  let n := Z.to_nat (pixel_count ext p) in
  forall i, (i < n)%nat ->
  let w := qn (relative_edge_coords ext p) (S i) - qn (relative_edge_coords ext p) i in
  ((0 < i)%nat -> (S i < n)%nat -> w == p) /\ 0 < w /\ w <= p /\ ((2 <= n)%nat -> p / 2 < w).
Proof. intros Hp He. cbv zeta. rewrite pixel_count_ceiling by lra. now apply pixel_widths. Qed.
