(** Consequences: partitions of unity, permittivities between background and foreground. *)
From Verif Require Import Base QTac Render_Proofs Select_Model Select_Spec Select_Proofs Select_Proofs2.
From Coq Require Import ZArith Setoid.
Set Implicit Arguments.

Lemma apply_ext m cols u v r : (forall c, (c < cols)%nat -> u c == v c) -> apply m cols u r == apply m cols v r.
Proof. intros H. unfold apply. apply sumn_ext. intros c Hc. rewrite H by exact Hc. reflexivity. Qed.
(** every vector is a structure *)
Definition of_vec (w x0 y0 : nat) (v : nat -> Q) (pt : nat * nat) : Q := v ((snd pt - y0) * w + (fst pt - x0))%nat.
Lemma flat_of_vec w x0 y0 v c : (0 < w)%nat -> flat w x0 y0 (of_vec w x0 y0 v) c = v c.
Proof.
  intros Hw. unfold flat, of_vec. cbn [fst snd]. f_equal. replace (y0 + c / w - y0)%nat with (c / w)%nat by lia. replace (x0 + c mod w - x0)%nat with (c mod w)%nat by lia.
  rewrite Nat.mul_comm. symmetry. apply Nat.div_mod. lia.
Qed.
Lemma of_vec_range w h x0 y0 x1 y1 v : (w = x1 - x0 + 1)%nat -> (h = y1 - y0 + 1)%nat -> (forall c, (c < w * h)%nat -> 0 <= v c <= 1) ->
  forall pt, inside x0 y0 x1 y1 pt = true -> 0 <= of_vec w x0 y0 v pt <= 1.
Proof. intros Ew Eh H pt I. unfold inside in I. rewrite !andb_true_iff, !Nat.leb_le in I. apply H. nia. Qed.
(** a matrix that maps vectors with values in [0, 1] to such values has nonnegative rows summing to at most one *)
Lemma range_nonneg m cols r : (forall v, (forall c, (c < cols)%nat -> 0 <= v c <= 1) -> 0 <= apply m cols v r <= 1) -> forall c, (c < cols)%nat -> 0 <= m r c.
Proof.
  intros H c Hc. assert (E : apply m cols (fun k => if Nat.eqb k c then 1 else 0) r == m r c).
  { unfold apply. rewrite (@sumn_ext _ _ (fun k => if Nat.eqb k c then m r k else 0)) by (intros k _; destruct (Nat.eqb k c); ring). now apply sumn_pick. }
  rewrite <- E. apply H. intros k _. destruct (Nat.eqb k c); lra.
Qed.
Lemma apply_ones m cols r : apply m cols (fun _ => 1) r == sumn cols (m r).
Proof. unfold apply. apply sumn_ext. intros c _. ring. Qed.
Lemma mix_between a b t : 0 <= t <= 1 -> amid a (a + (b - a) * t) b.
Proof. intros H. unfold amid. destruct (Qlt_le_dec a b); [left|right]; split; nra. Qed.

Section D.
Variables (nx ny nz x0 y0 x1 y1 : nat) (s : mat).
Hypothesis Hx : (x0 <= x1)%nat.
Hypothesis Hy : (y0 <= y1)%nat.
Hypothesis E : direct_lattice nx ny nz x0 y0 x1 y1 = Ok s.
Notation w := (area_x x0 x1).
Notation h := (area_y y0 y1).
Lemma direct_bounds : (x1 < 2 * nx /\ y1 < 2 * ny)%nat.
Proof. unfold direct_lattice in E. destruct (Nat.leb_spec (2 * nx) x1); [discriminate|]. destruct (Nat.leb_spec (2 * ny) y1); [discriminate|]. lia. Qed.
Lemma direct_range comp a b z v : (a < nx)%nat -> (b < ny)%nat -> (z < nz)%nat -> (forall c, (c < w * h)%nat -> 0 <= v c <= 1) -> 0 <= apply s (w * h) v (cell nx ny nz comp a b z) <= 1.
Proof.
  intros Ha Hb Hz Hv. destruct direct_bounds as [Bx By]. rewrite (@apply_ext s (w * h) v (flat w x0 y0 (of_vec w x0 y0 v))) by (intros c _; rewrite flat_of_vec by (unfold area_x; lia); reflexivity).
  rewrite (@lattice_average nx ny nz x0 y0 x1 y1 Hx Hy Bx By s _ comp a b z E Ha Hb Hz). apply average_range. now apply (@of_vec_range w h).
Qed.
Theorem direct_partition comp a b z : (a < nx)%nat -> (b < ny)%nat -> (z < nz)%nat ->
  (forall c, (c < w * h)%nat -> 0 <= s (cell nx ny nz comp a b z) c) /\
  sumn (w * h) (s (cell nx ny nz comp a b z)) == if Qeq_bool (touching nx ny x0 y0 x1 y1 comp a b) 0 then 0 else 1.
Proof.
  intros Ha Hb Hz. destruct direct_bounds as [Bx By]. split.
  - apply range_nonneg. intros v Hv. now apply direct_range.
  - rewrite <- apply_ones. rewrite <- average_ones. exact (@lattice_average nx ny nz x0 y0 x1 y1 Hx Hy Bx By s (fun _ => 1) comp a b z E Ha Hb Hz).
Qed.
End D.
Section O.
Variables (nx ny nz x0 y0 x1 y1 : nat).
Hypothesis Hx : (x0 <= x1)%nat.
Hypothesis Hy : (y0 <= y1)%nat.
Hypothesis Bx : (x1 < nx)%nat.
Hypothesis By : (y1 < ny)%nat.
Notation w := (ax nx x0 x1).
Notation h := (ay ny y0 y1).
Notation nd := (num_design nx ny x0 y0 x1 y1).
Notation hits comp a b := (sum4 (old_quadrant nx ny comp a b) (fun pt => if inside (2 * x0) (2 * y0) (2 * x1 + 1) (2 * y1 + 1) pt then 1 else 0)).
Lemma old_range comp a b z v : (a < nx)%nat -> (b < ny)%nat -> (z < nz)%nat -> (forall c, (c < nd)%nat -> 0 <= v c <= 1) -> 0 <= apply (direct_lattice_old nx ny nz x0 y0 x1 y1) nd v (cell nx ny nz comp a b z) <= 1.
Proof.
  intros Ha Hb Hz Hv. pose proof (@w_eq nx x0 x1 Hx Bx) as Ew. pose proof (@h_eq ny y0 y1 Hy By) as Eh.
  rewrite (@apply_ext _ nd v (flat (2 * w) (2 * x0) (2 * y0) (of_vec (2 * w) (2 * x0) (2 * y0) v))) by (intros c _; rewrite flat_of_vec by lia; reflexivity).
  rewrite (@old_average nx ny nz x0 y0 x1 y1 Hx Hy Bx By _ comp a b z Ha Hb Hz). apply mean4_range. apply (@of_vec_range (2 * w) (2 * h)); [lia|lia|exact Hv].
Qed.
Theorem old_partition comp a b z : (a < nx)%nat -> (b < ny)%nat -> (z < nz)%nat ->
  (forall c, (c < nd)%nat -> 0 <= direct_lattice_old nx ny nz x0 y0 x1 y1 (cell nx ny nz comp a b z) c) /\
  sumn nd (direct_lattice_old nx ny nz x0 y0 x1 y1 (cell nx ny nz comp a b z)) == if Qeq_bool (hits comp a b) 0 then 0 else 1.
Proof.
  intros Ha Hb Hz. split.
  - apply range_nonneg. intros v Hv. now apply old_range.
  - rewrite <- apply_ones. rewrite <- mean4_ones. exact (@old_average nx ny nz x0 y0 x1 y1 Hx Hy Bx By (fun _ => 1) comp a b z Ha Hb Hz).
Qed.
Lemma reduced_range comp a b z v : (a < nx)%nat -> (b < ny)%nat -> (z < nz)%nat -> (forall c, (c < w * h)%nat -> 0 <= v c <= 1) -> 0 <= apply (reduced_lattice nx ny nz x0 y0 x1 y1) (w * h) v (cell nx ny nz comp a b z) <= 1.
Proof.
  intros Ha Hb Hz Hv. pose proof (@w_eq nx x0 x1 Hx Bx) as Ew. pose proof (@h_eq ny y0 y1 Hy By) as Eh.
  rewrite (@apply_ext _ (w * h) v (flat w x0 y0 (of_vec w x0 y0 v))) by (intros c _; rewrite flat_of_vec by lia; reflexivity).
  rewrite (@reduced_average nx ny nz x0 y0 x1 y1 Hx Hy Bx By _ comp a b z Ha Hb Hz). apply mean4_range. intros pt I. apply (@of_vec_range w h x0 y0 x1 y1); [lia|lia|exact Hv|].
  unfold inside in *. cbn [fst snd]. rewrite !andb_true_iff, !Nat.leb_le in *. destruct I as (((I1 & I2) & I3) & I4).
  assert (D : forall k lo hi, (2 * lo <= k -> k <= 2 * hi + 1 -> lo <= k / 2 <= hi)%nat).
  { clear. intros k lo hi A B. split; [apply Nat.div_le_lower_bound; lia|]. assert (k / 2 < hi + 1)%nat by (apply Nat.div_lt_upper_bound; lia). lia. }
  pose proof (D _ _ _ I1 I2). pose proof (D _ _ _ I3 I4). lia.
Qed.
Theorem reduced_partition comp a b z : (a < nx)%nat -> (b < ny)%nat -> (z < nz)%nat ->
  (forall c, (c < w * h)%nat -> 0 <= reduced_lattice nx ny nz x0 y0 x1 y1 (cell nx ny nz comp a b z) c) /\
  sumn (w * h) (reduced_lattice nx ny nz x0 y0 x1 y1 (cell nx ny nz comp a b z)) == if Qeq_bool (hits comp a b) 0 then 0 else 1.
Proof.
  intros Ha Hb Hz. split.
  - apply range_nonneg. intros v Hv. now apply reduced_range.
  - rewrite <- apply_ones. rewrite <- mean4_ones. exact (@reduced_average nx ny nz x0 y0 x1 y1 Hx Hy Bx By (fun _ => 1) comp a b z Ha Hb Hz).
Qed.
End O.

Section S.
Variables (nx ny nz : nat) (bg fg : field).
Theorem selection_between s dims v : selection_matrix nx ny nz bg fg = Ok (s, dims) -> (forall c, (c < fst dims * snd dims)%nat -> 0 <= v c <= 1) ->
  forall comp a b z, (a < nx)%nat -> (b < ny)%nat -> (z < nz)%nat ->
  amid (bg comp a b z) (bg comp a b z + apply s (fst dims * snd dims) v (cell nx ny nz comp a b z)) (fg comp a b z).
Proof.
  intros E Hv comp a b z Ha Hb Hz. destruct (@selection_spec nx ny nz bg fg _ _ E) as (x0 & y0 & x1 & y1 & Eb & -> & N). cbn [fst snd] in *.
  assert (Av : apply s (area_x x0 x1 * area_y y0 y1) v (cell nx ny nz comp a b z) == (fg comp a b z - bg comp a b z) * cell_average nx ny x0 y0 x1 y1 (of_vec (area_x x0 x1) x0 y0 v) comp a b).
  { rewrite <- N by assumption. apply apply_ext. intros c _. rewrite flat_of_vec by (unfold area_x; lia). reflexivity. }
  pose proof (@average_range nx ny x0 y0 x1 y1 (of_vec (area_x x0 x1) x0 y0 v) comp a b (@of_vec_range (area_x x0 x1) (area_y y0 y1) x0 y0 x1 y1 v eq_refl eq_refl Hv)) as R.
  pose proof (mix_between (bg comp a b z) (fg comp a b z) R) as M. unfold amid in *. lra.
Qed.
Theorem reduced_between s dims v : reduced_matrix nx ny nz bg fg = Ok (s, dims) -> (forall c, (c < fst dims * snd dims)%nat -> 0 <= v c <= 1) ->
  forall comp a b z, (a < nx)%nat -> (b < ny)%nat -> (z < nz)%nat ->
  amid (bg comp a b z) (bg comp a b z + apply s (fst dims * snd dims) v (cell nx ny nz comp a b z)) (fg comp a b z).
Proof.
  intros E Hv comp a b z Ha Hb Hz. unfold reduced_matrix in E. destruct (design_bounds_yee nx ny nz bg fg) as [[[[x0 y0] x1] y1]|] eqn:Eb; [|discriminate]. cbn [bind] in E. injection E as <- <-. cbn [fst snd] in *.
  destruct (rectangle_spec _ _ _ Eb) as (Rx & Ry & _).
  pose proof (@reduced_range nx ny nz x0 y0 x1 y1 ltac:(lia) ltac:(lia) ltac:(lia) ltac:(lia) comp a b z v Ha Hb Hz Hv) as R.
  pose proof (mix_between (bg comp a b z) (fg comp a b z) R) as M.
  assert (Av : apply (fun r c => (vec nx ny nz fg r - vec nx ny nz bg r) * reduced_lattice nx ny nz x0 y0 x1 y1 r c) (ax nx x0 x1 * ay ny y0 y1) v (cell nx ny nz comp a b z) == (fg comp a b z - bg comp a b z) * apply (reduced_lattice nx ny nz x0 y0 x1 y1) (ax nx x0 x1 * ay ny y0 y1) v (cell nx ny nz comp a b z)).
  { unfold apply. rewrite <- sumn_scale. apply sumn_ext. intros c _. rewrite !vec_cell by assumption. ring. }
  unfold amid in *. lra.
Qed.
(** a structure of ones gives the foreground wherever a cell shares a point with the design area, the background elsewhere *)
Theorem selection_ones s dims x0 y0 x1 y1 : selection_matrix nx ny nz bg fg = Ok (s, dims) -> design_bounds nx ny nz bg fg = Ok (x0, y0, x1, y1) ->
  forall comp a b z, (a < nx)%nat -> (b < ny)%nat -> (z < nz)%nat ->
  bg comp a b z + apply s (fst dims * snd dims) (fun _ => 1) (cell nx ny nz comp a b z) ==
  if existsb (fun p => existsb (fun q => inside x0 y0 x1 y1 (quadrant nx ny comp a b p q)) [0; 1]%nat) [0; 1]%nat then fg comp a b z else bg comp a b z.
Proof.
  intros E Eb comp a b z Ha Hb Hz. destruct (@selection_spec nx ny nz bg fg _ _ E) as (X0 & Y0 & X1 & Y1 & Eb' & -> & N). rewrite Eb in Eb'. injection Eb' as <- <- <- <-.
  specialize (N (fun _ => 1) comp a b z Ha Hb Hz). rewrite average_ones in N. unfold flat in N. rewrite N. unfold touching, over_quadrants. cbn [sumn existsb].
  destruct (inside x0 y0 x1 y1 (quadrant nx ny comp a b 0 0)), (inside x0 y0 x1 y1 (quadrant nx ny comp a b 0 1)), (inside x0 y0 x1 y1 (quadrant nx ny comp a b 1 0)), (inside x0 y0 x1 y1 (quadrant nx ny comp a b 1 1)); cbn; ring.
Qed.
(** the points at which all three components differ noticeably are inside, and the rectangle is the smallest one *)
Notation differs := (Select_Spec.differs nx ny nz bg fg).
Lemma in_design_differs i j : (i < 2 * nx)%nat -> (j < 2 * ny)%nat -> in_design nx ny nz bg fg i j = true <-> differs i j.
Proof.
  intros Hi Hj. destruct (@threshold_spec nx ny nz bg fg ltac:(lia) ltac:(lia)) as (M & Et & Ub & c0 & a0 & b0 & H1 & H2 & H3 & Em). rewrite in_design_iff by assumption. unfold Select_Spec.differs. split.
  - intros H comp a b p q Hc Ha Hb Hp Hq Eq comp' a' b' Hc' Ha' Hb'. specialize (H comp a b p q Hc Ha Hb Hp Hq Eq). specialize (Ub comp' a' b' Hc' Ha' Hb'). unfold diff_grid in *. lra.
  - intros H comp a b p q Hc Ha Hb Hp Hq Eq. specialize (H comp a b p q Hc Ha Hb Hp Hq Eq c0 a0 b0 H1 H2 H3). unfold diff_grid in *. lra.
Qed.
Theorem design_bounds_spec x0 y0 x1 y1 : design_bounds nx ny nz bg fg = Ok (x0, y0, x1, y1) ->
  (x0 <= x1 < 2 * nx)%nat /\ (y0 <= y1 < 2 * ny)%nat /\ (forall i j, (i < 2 * nx)%nat -> (j < 2 * ny)%nat -> differs i j -> inside x0 y0 x1 y1 (i, j) = true) /\
  (exists j, (j < 2 * ny)%nat /\ differs x0 j) /\ (exists j, (j < 2 * ny)%nat /\ differs x1 j) /\ (exists i, (i < 2 * nx)%nat /\ differs i y0) /\ (exists i, (i < 2 * nx)%nat /\ differs i y1).
Proof.
  intros Eb. destruct (rectangle_spec _ _ _ Eb) as (Rx & Ry & Rin & (j0 & J0 & M0) & (j1 & J1 & M1) & (i0 & I0 & N0) & (i1 & I1 & N1)). split; [exact Rx|]. split; [exact Ry|]. split.
  - intros i j Hi Hj H. apply Rin; [assumption|assumption|]. now apply in_design_differs.
  - split; [exists j0|split; [exists j1|split; [exists i0|exists i1]]]; (split; [assumption|]); apply in_design_differs; try assumption; lia.
Qed.
Theorem selection_none : nx <> 0%nat -> ny <> 0%nat ->
  (exists s dims, selection_matrix nx ny nz bg fg = Ok (s, dims)) \/
  selection_matrix nx ny nz bg fg = Err ValueError /\ forall i j, (i < 2 * nx)%nat -> (j < 2 * ny)%nat -> ~ differs i j.
Proof.
  intros H1 H2. destruct (@selection_total nx ny nz bg fg H1 H2) as [A|[A B]]; [left; exact A|right]. split; [exact A|]. intros i j Hi Hj H. apply in_design_differs in H; [|assumption|assumption]. rewrite B in H by assumption. discriminate.
Qed.
Lemma selection_ok b : design_bounds nx ny nz bg fg = Ok b -> exists s dims, selection_matrix nx ny nz bg fg = Ok (s, dims).
Proof.
  destruct b as [[[x0 y0] x1] y1]. intros Eb. unfold selection_matrix. rewrite Eb. cbn [bind]. destruct (rectangle_spec _ _ _ Eb) as (Rx & Ry & _). unfold direct_lattice.
  destruct (Nat.leb_spec (2 * nx) x1); [lia|]. destruct (Nat.leb_spec (2 * ny) y1); [lia|]. cbn [orb bind]. eauto.
Qed.
(** hence the foreground is reached if every cell that has something to change shares a point with the points that differ in all components *)
Theorem selection_foreground s dims : selection_matrix nx ny nz bg fg = Ok (s, dims) ->
  forall comp a b z, (a < nx)%nat -> (b < ny)%nat -> (z < nz)%nat ->
  (fg comp a b z == bg comp a b z \/ exists p q, (p < 2)%nat /\ (q < 2)%nat /\ differs (fst (quadrant nx ny comp a b p q)) (snd (quadrant nx ny comp a b p q))) ->
  bg comp a b z + apply s (fst dims * snd dims) (fun _ => 1) (cell nx ny nz comp a b z) == fg comp a b z.
Proof.
  intros E comp a b z Ha Hb Hz H. destruct (@selection_spec nx ny nz bg fg _ _ E) as (x0 & y0 & x1 & y1 & Eb & _ & _). rewrite (@selection_ones s dims x0 y0 x1 y1 E Eb comp a b z Ha Hb Hz).
  destruct (existsb _ [0; 1]%nat) eqn:Ex; [reflexivity|]. destruct H as [H|(p & q & Hp & Hq & H)]; [symmetry; exact H|]. exfalso. apply not_true_iff_false in Ex. apply Ex.
  destruct (design_bounds_spec Eb) as (_ & _ & In & _). destruct (@quadrant_lt nx ny comp a b p q Ha Hb Hp Hq) as [Q1 Q2]. specialize (In _ _ Q1 Q2 H). rewrite <- surjective_pairing in In.
  apply existsb_exists. exists p. split; [cbn; lia|]. apply existsb_exists. exists q. split; [cbn; lia|exact In].
Qed.
End S.

(** row sums of average_2xFarEdge *)
Lemma far_x_ones w i j : far_x w (fun _ _ => 1) i j == if Nat.eqb i (w - 1) && Nat.leb 3 w then 3 # 2 else 1.
Proof.
  unfold far_x. destruct (Nat.eqb_spec w 1), (Nat.eqb_spec i 0), (Nat.eqb_spec i (w - 1)), (Nat.eqb_spec w 2), (Nat.leb_spec 3 w); cbn [andb]; try lia; reflexivity.
Qed.
Lemma far_y_ones h i j : far_y h (fun _ _ => 1) i j == 1.
Proof. unfold far_y. destruct (Nat.leb j 1); reflexivity. Qed.

Lemma in_area_inside x0 y0 x1 y1 i j : in_area x0 y0 x1 y1 i j = inside x0 y0 x1 y1 (i, j).
Proof. unfold in_area, inside. cbn [fst snd]. rewrite !andb_assoc. reflexivity. Qed.
Section F.
Variables (gx gy gz x0 y0 x1 y1 : nat).
Hypothesis Hx : (x0 <= x1 < gx)%nat.
Hypothesis Hy : (y0 <= y1 < gy)%nat.
Notation w := (x1 - x0 + 1)%nat.
Notation h := (y1 - y0 + 1)%nat.
Theorem far_edge_value (u : nat -> nat -> Q) comp i j z : (i < gx)%nat -> (j < gy)%nat -> (z < gz)%nat ->
  apply (average_far_edge gx gy gz x0 y0 x1 y1) (w * h) (fun c => u (c mod w)%nat (c / w)%nat) (cell gx gy gz comp i j z) ==
  if inside x0 y0 x1 y1 (i, j) then match comp with 0%nat => far_x w u (i - x0) (j - y0) | 1%nat => far_y h u (i - x0) (j - y0) | _ => u (i - x0)%nat (j - y0)%nat end else 0.
Proof.
  intros Hi Hj Hz. rewrite <- in_area_inside. destruct Hx as [X1 X2], Hy as [Y1 Y2]. destruct comp as [|[|comp]].
  - exact (@far_edge_x gx gy gz x0 y0 x1 y1 X1 Y1 X2 Y2 u i j z Hi Hj Hz).
  - exact (@far_edge_y gx gy gz x0 y0 x1 y1 X1 Y1 X2 Y2 u i j z Hi Hj Hz).
  - exact (@far_edge_z gx gy gz x0 y0 x1 y1 X1 Y1 X2 Y2 u i j z (S (S comp)) ltac:(lia) Hi Hj Hz).
Qed.
Theorem far_edge_rows comp i j z : (i < gx)%nat -> (j < gy)%nat -> (z < gz)%nat ->
  sumn (w * h) (average_far_edge gx gy gz x0 y0 x1 y1 (cell gx gy gz comp i j z)) ==
  if inside x0 y0 x1 y1 (i, j) then (if Nat.eqb comp 0 && Nat.eqb i x1 && Nat.leb 3 w then 3 # 2 else 1) else 0.
Proof.
  intros Hi Hj Hz. rewrite <- apply_ones. rewrite (@far_edge_value (fun _ _ => 1) comp i j z Hi Hj Hz). destruct (inside x0 y0 x1 y1 (i, j)) eqn:In; [|reflexivity].
  unfold inside in In. cbn [fst snd] in In. rewrite !andb_true_iff, !Nat.leb_le in In. destruct comp as [|[|comp]]; cbn [Nat.eqb andb]; [|apply far_y_ones|reflexivity].
  rewrite far_x_ones. replace (Nat.eqb (i - x0) (w - 1)) with (Nat.eqb i x1); [reflexivity|]. destruct (Nat.eqb_spec i x1), (Nat.eqb_spec (i - x0) (w - 1)); try reflexivity; lia.
Qed.
End F.
