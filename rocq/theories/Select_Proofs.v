(** Direct lattice selection matrices. *)
From Verif Require Import Base QTac Render_Proofs Select_Model Select_Spec.
From Coq Require Import ZArith Setoid.
Set Implicit Arguments.

Lemma sumn_at n k w : (k < n)%nat -> sumn n (fun c => if Nat.eqb c k then w else 0) == w.
Proof.
  intros H. pose proof (@sumn_single n k (fun c => if Nat.eqb c k then w else 0) H) as E. cbv beta in E. rewrite Nat.eqb_refl in E. apply E.
  intros i Hi Hne. destruct (Nat.eqb_spec i k); [congruence|reflexivity].
Qed.
Lemma sumn_pick n k f : (k < n)%nat -> sumn n (fun c => if Nat.eqb c k then f c else 0) == f k.
Proof.
  intros H. rewrite (@sumn_ext n _ (fun c => if Nat.eqb c k then f k else 0)); [now apply sumn_at|]. intros c _. destruct (Nat.eqb_spec c k) as [->|]; reflexivity.
Qed.
Lemma sumn_none n k f : (n <= k)%nat -> sumn n (fun c => if Nat.eqb c k then f c else 0) == 0.
Proof. intros H. apply sumn_zero. intros c Hc. destruct (Nat.eqb_spec c k); [lia|reflexivity]. Qed.
Lemma sum_half n b f : (b < n)%nat -> sumn (2 * n) (fun j => if Nat.eqb (j / 2) b then f j else 0) == sumn 2 (fun q => f (2 * b + q)%nat).
Proof.
  intros H. rewrite Nat.mul_comm, sumn_mul. rewrite (@sumn_ext n _ (fun i => if Nat.eqb i b then sumn 2 (fun q => f (2 * b + q)%nat) else 0)); [now apply sumn_at|].
  intros i _. destruct (Nat.eqb_spec i b) as [->|Hne].
  - apply sumn_ext. intros q Hq. destruct (@divmod_flat b q 2 Hq) as [-> _]. rewrite Nat.eqb_refl. rewrite (Nat.mul_comm b 2). reflexivity.
  - apply sumn_zero. intros q Hq. destruct (@divmod_flat i q 2 Hq) as [-> _]. destruct (Nat.eqb_spec i b); [congruence|reflexivity].
Qed.
Lemma roll1_left n i : (i < n)%nat -> roll1 n i = left_of n i.
Proof.
  intros H. unfold roll1, left_of. destruct i as [|i]; [cbn [Nat.add]; apply Nat.mod_small; lia|]. replace (S i + (n - 1))%nat with (i + 1 * n)%nat by lia. rewrite Nat.mod_add by lia. apply Nat.mod_small. lia.
Qed.
Lemma left_lt n i : (i < n)%nat -> (left_of n i < n)%nat.
Proof. destruct i; cbn; lia. Qed.
Lemma eqb3 z b a z' b' a' n m : (a < n)%nat -> (a' < n)%nat -> (b < m)%nat -> (b' < m)%nat ->
  Nat.eqb ((z * m + b) * n + a) ((z' * m + b') * n + a') = Nat.eqb z z' && Nat.eqb b b' && Nat.eqb a a'.
Proof.
  intros Ha Ha' Hb Hb'. rewrite eqb_divmod by exact Ha. destruct (@divmod_flat (z' * m + b') a' n Ha') as [-> ->]. rewrite eqb_divmod by exact Hb. destruct (@divmod_flat z' b' m Hb') as [-> ->]. reflexivity.
Qed.
Lemma eqb2 b a b' a' n : (a < n)%nat -> (a' < n)%nat -> Nat.eqb (a + n * b) (a' + n * b') = Nat.eqb a a' && Nat.eqb b b'.
Proof.
  intros Ha Ha'. replace (a + n * b)%nat with (b * n + a)%nat by lia. replace (a' + n * b')%nat with (b' * n + a')%nat by lia. rewrite eqb_divmod by exact Ha. destruct (@divmod_flat b' a' n Ha') as [-> ->]. apply andb_comm.
Qed.

Section D.
Variables (nx ny nz : nat).
Definition ravel (pt : nat * nat) : nat := (fst pt + 2 * nx * snd pt)%nat.
Lemma quadrant_lt comp a b p q : (a < nx)%nat -> (b < ny)%nat -> (p < 2)%nat -> (q < 2)%nat ->
  (fst (quadrant nx ny comp a b p q) < 2 * nx)%nat /\ (snd (quadrant nx ny comp a b p q) < 2 * ny)%nat.
Proof. intros Ha Hb Hp Hq. destruct comp as [|[|comp]]; cbn [quadrant fst snd]; split; try (apply left_lt; lia); lia. Qed.
Lemma direct_quadrant comp a b p q z : (a < nx)%nat -> (b < ny)%nat -> (p < 2)%nat -> (q < 2)%nat ->
  ind_direct nx ny comp ((z * (2 * ny) + (2 * b + q)) * (2 * nx) + (2 * a + p))%nat = ravel (quadrant nx ny comp a b p q).
Proof.
  intros Ha Hb Hp Hq. unfold ind_direct, at_x, at_y, ravel. destruct (@divmod_flat (z * (2 * ny) + (2 * b + q)) (2 * a + p) (2 * nx)) as [-> ->]; [lia|].
  destruct (@divmod_flat z (2 * b + q) (2 * ny)) as [_ ->]; [lia|]. destruct comp as [|[|comp]]; cbn [rolls_x rolls_y quadrant fst snd]; rewrite ?roll1_left by lia; reflexivity.
Qed.
Lemma half_lt i n : (i < 2 * n)%nat -> (i / 2 < n)%nat.
Proof. intros H. apply Nat.div_lt_upper_bound; lia. Qed.
Lemma to_yee_entry comp a b z d : (a < nx)%nat -> (b < ny)%nat -> (z < nz)%nat ->
  to_yee nx ny nz comp ((z * ny + b) * nx + a)%nat d == over_quadrants nx ny comp a b (fun pt => if Nat.eqb (ravel pt) d then 1 # 4 else 0).
Proof.
  intros Ha Hb Hz. unfold to_yee, coo, over_quadrants. replace (2 * nx * (2 * ny) * nz)%nat with (nz * (2 * ny * (2 * nx)))%nat by lia. rewrite sumn_mul.
  set (G := fun p q => if Nat.eqb (ravel (quadrant nx ny comp a b p q)) d then 1 # 4 else 0).
  rewrite (@sumn_ext nz _ (fun z' => if Nat.eqb z' z then sumn 2 (fun p => sumn 2 (fun q => G p q)) else 0)); [apply sumn_at; exact Hz|].
  intros z' _. rewrite sumn_mul.
  assert (C : forall j i, (j < 2 * ny)%nat -> (i < 2 * nx)%nat -> Nat.eqb (ind_yee nx ny (z' * (2 * ny * (2 * nx)) + (j * (2 * nx) + i))) ((z * ny + b) * nx + a) = Nat.eqb z' z && Nat.eqb (j / 2) b && Nat.eqb (i / 2) a).
  { intros j i Hj Hi. replace (z' * (2 * ny * (2 * nx)) + (j * (2 * nx) + i))%nat with ((z' * (2 * ny) + j) * (2 * nx) + i)%nat by lia. unfold ind_yee, at_x, at_y, at_z.
    destruct (@divmod_flat (z' * (2 * ny) + j) i (2 * nx) Hi) as [-> ->]. destruct (@divmod_flat z' j (2 * ny) Hj) as [-> ->].
    replace (i / 2 + nx * (j / 2) + z' * (nx * ny))%nat with ((z' * ny + j / 2) * nx + i / 2)%nat by lia. apply eqb3; auto using half_lt. }
  destruct (Nat.eq_dec z' z) as [Ez|Hne].
  - subst z'. rewrite Nat.eqb_refl. rewrite (@sumn_ext (2 * ny) _ (fun j => if Nat.eqb (j / 2) b then sumn 2 (fun p => if Nat.eqb (ind_direct nx ny comp ((z * (2 * ny) + j) * (2 * nx) + (2 * a + p))) d then 1 # 4 else 0) else 0)).
    + rewrite sum_half by exact Hb. rewrite sumn_swap. apply sumn_ext. intros p Hp. apply sumn_ext. intros q Hq. rewrite direct_quadrant by assumption. reflexivity.
    + intros j Hj. destruct (Nat.eqb (j / 2) b) eqn:Ej.
      * rewrite <- (@sum_half nx a (fun i => if Nat.eqb (ind_direct nx ny comp ((z * (2 * ny) + j) * (2 * nx) + i)) d then 1 # 4 else 0) Ha). apply sumn_ext. intros i Hi. rewrite C by assumption. rewrite Ej.
        rewrite Nat.eqb_refl. cbn [andb]. replace (z * (2 * ny * (2 * nx)) + (j * (2 * nx) + i))%nat with ((z * (2 * ny) + j) * (2 * nx) + i)%nat by lia. destruct (Nat.eqb (i / 2) a); reflexivity.
      * apply sumn_zero. intros i Hi. rewrite C by assumption. rewrite Ej, andb_false_r. reflexivity.
  - destruct (Nat.eqb_spec z' z) as [|_]; [congruence|]. apply sumn_zero. intros j Hj. apply sumn_zero. intros i Hi. rewrite C by assumption. destruct (Nat.eqb_spec z' z); [congruence|]. reflexivity.
Qed.
Lemma cell_comp comp a b z : (a < nx)%nat -> (b < ny)%nat -> (z < nz)%nat -> (cell nx ny nz comp a b z / ncell nx ny nz = comp)%nat /\ (cell nx ny nz comp a b z mod ncell nx ny nz = (z * ny + b) * nx + a)%nat.
Proof.
  intros Ha Hb Hz. unfold cell, ncell. apply divmod_flat. assert (H : (z * ny + b < ny * nz)%nat) by nia. nia.
Qed.
Variables (x0 y0 x1 y1 : nat).
Hypothesis Hx : (x0 <= x1)%nat.
Hypothesis Hy : (y0 <= y1)%nat.
Hypothesis Bx : (x1 < 2 * nx)%nat.
Hypothesis By : (y1 < 2 * ny)%nat.
Notation w := (area_x x0 x1).
Notation h := (area_y y0 y1).
Lemma w_pos : (0 < w)%nat. Proof. unfold area_x. lia. Qed.
Lemma mapping_lt c : (c < w * h)%nat -> (mapping nx x0 y0 x1 c < ndirect nx ny)%nat.
Proof.
  intros H. unfold mapping, ndirect. pose proof w_pos. assert ((c mod w < w)%nat) by (apply Nat.mod_upper_bound; lia). assert ((c / w < h)%nat) by (apply Nat.div_lt_upper_bound; lia).
  unfold area_x, area_y in *. assert (x0 + c mod w < 2 * nx)%nat by (unfold area_x; lia). assert (y0 + c / w < 2 * ny)%nat by (unfold area_x; lia). unfold area_x in *. nia.
Qed.
Lemma std_entry d c : (c < w * h)%nat -> struct_to_direct nx x0 y0 x1 y1 d c == (if Nat.eqb d (mapping nx x0 y0 x1 c) then 1 else 0).
Proof.
  intros H. unfold struct_to_direct, coo. rewrite (@sumn_ext _ _ (fun k => if Nat.eqb k c then (if Nat.eqb d (mapping nx x0 y0 x1 c) then 1 else 0) else 0)); [now apply sumn_at|].
  intros k _. destruct (Nat.eqb_spec k c) as [->|]; [rewrite andb_true_r, Nat.eqb_sym; reflexivity|now rewrite andb_false_r].
Qed.
Lemma matmul_std (m : mat) r c : (c < w * h)%nat -> matmul (ndirect nx ny) m (struct_to_direct nx x0 y0 x1 y1) r c == m r (mapping nx x0 y0 x1 c).
Proof.
  intros H. unfold matmul. rewrite (@sumn_ext _ _ (fun d => if Nat.eqb d (mapping nx x0 y0 x1 c) then m r d else 0)).
  - apply sumn_pick. now apply mapping_lt.
  - intros d _. rewrite std_entry by exact H. destruct (Nat.eqb d _); ring.
Qed.
(** summing over the columns that correspond to a point of the direct lattice *)
Lemma sum_mapping (u : nat * nat -> Q) pt : (fst pt < 2 * nx)%nat -> (snd pt < 2 * ny)%nat ->
  sumn (w * h) (fun c => if Nat.eqb (ravel pt) (mapping nx x0 y0 x1 c) then flat w x0 y0 u c else 0) == if inside x0 y0 x1 y1 pt then u pt else 0.
Proof.
  intros Px Py. pose proof w_pos as Hw. rewrite Nat.mul_comm, sumn_mul.
  assert (C : forall j i, (j < h)%nat -> (i < w)%nat -> (if Nat.eqb (ravel pt) (mapping nx x0 y0 x1 (j * w + i)) then flat w x0 y0 u (j * w + i) else 0) =
    (if Nat.eqb (y0 + j) (snd pt) then (if Nat.eqb (x0 + i) (fst pt) then u ((x0 + i)%nat, (y0 + j)%nat) else 0) else 0)).
  { intros j i Hj Hi. unfold flat, mapping, ravel. destruct (@divmod_flat j i w Hi) as [-> ->]. rewrite eqb2 by (unfold area_x in *; lia). rewrite (Nat.eqb_sym (fst pt)), (Nat.eqb_sym (snd pt)).
    destruct (Nat.eqb (x0 + i) (fst pt)), (Nat.eqb (y0 + j) (snd pt)); reflexivity. }
  rewrite (@sumn_ext h _ (fun j => if Nat.eqb (y0 + j) (snd pt) then sumn w (fun i => if Nat.eqb (x0 + i) (fst pt) then u ((x0 + i)%nat, (y0 + j)%nat) else 0) else 0)).
  2:{ intros j Hj. destruct (Nat.eqb (y0 + j) (snd pt)) eqn:E; [|apply sumn_zero; intros i Hi; rewrite C by assumption; now rewrite E]. apply sumn_ext. intros i Hi. rewrite C by assumption. now rewrite E. }
  destruct pt as [px py]. cbn [fst snd] in *. unfold inside. cbn [fst snd].
  assert (SH : forall n o k (f : nat -> Q), sumn n (fun i => if Nat.eqb (o + i) k then f i else 0) == if Nat.leb o k && Nat.ltb k (o + n) then f (k - o)%nat else 0).
  { intros n o k f. destruct (Nat.leb_spec o k) as [L|L]; cbn [andb].
    - rewrite (@sumn_ext n _ (fun i => if Nat.eqb i (k - o) then f i else 0)) by (intros i _; destruct (Nat.eqb_spec (o + i) k), (Nat.eqb_spec i (k - o)); try lia; reflexivity).
      destruct (Nat.ltb_spec k (o + n)); [apply sumn_pick; lia|apply sumn_none; lia].
    - apply sumn_zero. intros i _. destruct (Nat.eqb_spec (o + i) k); [lia|reflexivity]. }
  rewrite SH. replace (Nat.ltb py (y0 + h)) with (Nat.leb py y1) by (unfold area_y; destruct (Nat.leb_spec py y1), (Nat.ltb_spec py (y0 + (y1 - y0 + 1))); try lia; reflexivity).
  destruct (Nat.leb_spec y0 py) as [Ly|Ly]; cbn [andb]; [|now rewrite !andb_false_r]. destruct (Nat.leb py y1); cbn [andb]; [|now rewrite !andb_false_r].
  rewrite SH. replace (Nat.ltb px (x0 + w)) with (Nat.leb px x1) by (unfold area_x; destruct (Nat.leb_spec px x1), (Nat.ltb_spec px (x0 + (x1 - x0 + 1))); try lia; reflexivity).
  destruct (Nat.leb_spec x0 px) as [Lx|Lx]; cbn [andb]; [|reflexivity]. destruct (Nat.leb px x1); cbn [andb]; [|reflexivity].
  replace (x0 + (px - x0))%nat with px by lia. replace (y0 + (py - y0))%nat with py by lia. reflexivity.
Qed.
Lemma yee_sum (u : nat * nat -> Q) comp a b z : (a < nx)%nat -> (b < ny)%nat -> (z < nz)%nat ->
  sumn (w * h) (fun c => direct_to_yee nx ny nz (cell nx ny nz comp a b z) (mapping nx x0 y0 x1 c) * flat w x0 y0 u c) ==
  (1 # 4) * over_quadrants nx ny comp a b (fun pt => if inside x0 y0 x1 y1 pt then u pt else 0).
Proof.
  intros Ha Hb Hz. unfold direct_to_yee. destruct (@cell_comp comp a b z Ha Hb Hz) as [-> ->].
  rewrite (@sumn_ext _ _ (fun c => sumn 2 (fun p => sumn 2 (fun q => (1 # 4) * (if Nat.eqb (ravel (quadrant nx ny comp a b p q)) (mapping nx x0 y0 x1 c) then flat w x0 y0 u c else 0))))).
  - rewrite sumn_swap. unfold over_quadrants. rewrite <- sumn_scale. apply sumn_ext. intros p Hp. rewrite sumn_swap. rewrite <- sumn_scale. apply sumn_ext. intros q Hq. rewrite sumn_scale.
    destruct (@quadrant_lt comp a b p q Ha Hb Hp Hq) as [Q1 Q2]. rewrite sum_mapping by assumption. reflexivity.
  - intros c Hc. rewrite to_yee_entry by assumption. unfold over_quadrants. rewrite Qmult_comm, <- sumn_scale. apply sumn_ext. intros p Hp. rewrite <- sumn_scale. apply sumn_ext. intros q Hq.
    destruct (Nat.eqb _ _); ring.
Qed.
Lemma norm_eq comp a b z : (a < nx)%nat -> (b < ny)%nat -> (z < nz)%nat ->
  sumn (w * h) (fun c => matmul (ndirect nx ny) (direct_to_yee nx ny nz) (struct_to_direct nx x0 y0 x1 y1) (cell nx ny nz comp a b z) c) == (1 # 4) * touching nx ny x0 y0 x1 y1 comp a b.
Proof.
  intros Ha Hb Hz. unfold touching. rewrite <- (@yee_sum (fun _ => 1) comp a b z Ha Hb Hz). apply sumn_ext. intros c Hc. rewrite matmul_std by exact Hc. unfold flat. ring.
Qed.
Theorem lattice_average s u comp a b z : direct_lattice nx ny nz x0 y0 x1 y1 = Ok s -> (a < nx)%nat -> (b < ny)%nat -> (z < nz)%nat ->
  apply s (w * h) (flat w x0 y0 u) (cell nx ny nz comp a b z) == cell_average nx ny x0 y0 x1 y1 u comp a b.
Proof.
  intros E Ha Hb Hz. unfold direct_lattice in E. destruct (Nat.leb_spec (2 * nx) x1); [lia|]. destruct (Nat.leb_spec (2 * ny) y1); [lia|]. cbn [orb] in E. injection E as <-.
  unfold apply. set (r := cell nx ny nz comp a b z). set (nr := row_norm nx ny nz x0 y0 x1 y1 r).
  rewrite (@sumn_ext _ _ (fun c => (1 / nr) * (direct_to_yee nx ny nz r (mapping nx x0 y0 x1 c) * flat w x0 y0 u c))) by (intros c Hc; rewrite matmul_std by exact Hc; fold nr; ring).
  rewrite sumn_scale. unfold r. rewrite yee_sum by assumption. unfold cell_average. set (T := touching nx ny x0 y0 x1 y1 comp a b).
  assert (N := @norm_eq comp a b z Ha Hb Hz). fold T in N. unfold nr, row_norm. fold r in N. set (S0 := sumn _ _) in *. cbv zeta.
  destruct (Qeq_bool T 0) eqn:ET.
  - apply Qeq_bool_eq in ET. assert (Z : over_quadrants nx ny comp a b (fun pt => if inside x0 y0 x1 y1 pt then u pt else 0) == 0); [|rewrite Z; ring].
    unfold T, touching, over_quadrants in *. cbn [sumn] in *.
    destruct (inside x0 y0 x1 y1 (quadrant nx ny comp a b 0 0)), (inside x0 y0 x1 y1 (quadrant nx ny comp a b 0 1)), (inside x0 y0 x1 y1 (quadrant nx ny comp a b 1 0)), (inside x0 y0 x1 y1 (quadrant nx ny comp a b 1 1)); first [reflexivity|exfalso; vm_compute in ET; discriminate].
  - apply Qeq_bool_neq in ET. assert (ES : Qeq_bool S0 0 = false) by (apply not_true_is_false; intros Hc; apply Qeq_bool_eq in Hc; rewrite Hc in N; apply ET; lra). rewrite ES. rewrite N. field. exact ET.
Qed.
End D.

Theorem lattice_bounds_checked nx ny nz x0 y0 x1 y1 : (2 * nx <= x1 \/ 2 * ny <= y1)%nat -> direct_lattice nx ny nz x0 y0 x1 y1 = Err ValueError.
Proof. intros H. unfold direct_lattice. destruct (Nat.leb_spec (2 * nx) x1), (Nat.leb_spec (2 * ny) y1); try reflexivity. lia. Qed.
Lemma average_range nx ny x0 y0 x1 y1 u comp a b : (forall pt, inside x0 y0 x1 y1 pt = true -> 0 <= u pt <= 1) -> 0 <= cell_average nx ny x0 y0 x1 y1 u comp a b <= 1.
Proof.
  intros H. unfold cell_average. set (n := touching _ _ _ _ _ _ _ _ _). set (s := over_quadrants _ _ _ _ _ _).
  assert (R : 0 <= s /\ s <= n).
  { assert (O : forall f g, (forall pt, f pt <= g pt) -> over_quadrants nx ny comp a b f <= over_quadrants nx ny comp a b g) by (intros f g L; unfold over_quadrants; apply sumn_le; intros p _; apply sumn_le; intros q _; apply L).
    split.
    - replace 0 with (over_quadrants nx ny comp a b (fun _ => 0)) by reflexivity. apply O. intros pt. specialize (H pt). destruct (inside x0 y0 x1 y1 pt); [apply H; reflexivity|lra].
    - apply O. intros pt. specialize (H pt). destruct (inside x0 y0 x1 y1 pt); [apply H; reflexivity|lra]. }
  destruct (Qeq_bool n 0) eqn:E; [lra|]. apply Qeq_bool_neq in E. assert (P : 0 < n) by (destruct (Qlt_le_dec 0 n); [assumption|exfalso; apply E; lra]). split.
  - apply Qle_shift_div_l; [exact P|lra].
  - apply Qle_shift_div_r; [exact P|lra].
Qed.
Lemma average_ones nx ny x0 y0 x1 y1 comp a b : cell_average nx ny x0 y0 x1 y1 (fun _ => 1) comp a b == if Qeq_bool (touching nx ny x0 y0 x1 y1 comp a b) 0 then 0 else 1.
Proof. unfold cell_average. destruct (Qeq_bool _ 0) eqn:E; [reflexivity|]. apply Qeq_bool_neq in E. unfold touching in *. field. exact E. Qed.
Lemma touching_pos nx ny x0 y0 x1 y1 comp a b p q : (p < 2)%nat -> (q < 2)%nat -> inside x0 y0 x1 y1 (quadrant nx ny comp a b p q) = true -> 1 <= touching nx ny x0 y0 x1 y1 comp a b.
Proof.
  intros Hp Hq H. unfold touching, over_quadrants. destruct p as [|[|p]]; try lia; destruct q as [|[|q]]; try lia; cbn [sumn]; rewrite H;
  repeat match goal with |- context [inside _ _ _ _ ?t] => destruct (inside x0 y0 x1 y1 t) end; vm_compute; discriminate.
Qed.

(** *** create_selection_matrix *)
Lemma vec_cell nx ny nz f comp a b z : (a < nx)%nat -> (b < ny)%nat -> (z < nz)%nat -> vec nx ny nz f (cell nx ny nz comp a b z) = f comp a b z.
Proof.
  intros Ha Hb Hz. unfold vec. destruct (@cell_comp nx ny nz comp a b z Ha Hb Hz) as [-> ->]. destruct (@divmod_flat (z * ny + b) a nx Ha) as [-> ->]. destruct (@divmod_flat z b ny Hb) as [-> ->]. reflexivity.
Qed.
Lemma last_filter_seq (f : nat -> bool) n d : forall o i, (o <= i < o + n)%nat -> f i = true -> (i <= List.last (filter f (seq o n)) d)%nat.
Proof.
  intros o i Hi Hf. induction n as [|n IH]; [lia|]. rewrite seq_S, filter_app. cbn [filter]. destruct (f (o + n)%nat) eqn:E.
  - rewrite last_last. lia.
  - rewrite app_nil_r. apply IH. destruct (Nat.eq_dec i (o + n)); [subst; congruence|lia].
Qed.
Lemma hd_filter_seq (f : nat -> bool) n : forall o i a l, filter f (seq o n) = a :: l -> (o <= i < o + n)%nat -> f i = true -> (a <= i)%nat.
Proof.
  induction n as [|n IH]; intros o i a l E Hi Hf; [lia|]. cbn [seq filter] in E. destruct (f o) eqn:Eo; [injection E as <- _; lia|].
  apply (IH (S o) i a l E); [|exact Hf]. destruct (Nat.eq_dec i o); [subst; congruence|lia].
Qed.
Lemma last_In {A} (l : list A) d : l <> [] -> In (List.last l d) l.
Proof. intros H. destruct (exists_last H) as (l' & x & ->). rewrite last_last. apply in_or_app. right. now left. Qed.
Theorem rectangle_spec n m mark x0 y0 x1 y1 : rectangle n m mark = Ok (x0, y0, x1, y1) ->
  (x0 <= x1 < n)%nat /\ (y0 <= y1 < m)%nat /\ (forall i j, (i < n)%nat -> (j < m)%nat -> mark i j = true -> inside x0 y0 x1 y1 (i, j) = true) /\
  (exists j, (j < m)%nat /\ mark x0 j = true) /\ (exists j, (j < m)%nat /\ mark x1 j = true) /\ (exists i, (i < n)%nat /\ mark i y0 = true) /\ (exists i, (i < n)%nat /\ mark i y1 = true).
Proof.
  unfold rectangle. set (ix := filter _ (seq 0 n)). set (iy := filter _ (seq 0 m)). intros E.
  destruct ix as [|a ix'] eqn:Ex; [discriminate|]. destruct iy as [|b iy'] eqn:Ey; [discriminate|]. rewrite <- Ex, <- Ey in E.
  assert (Nx : ix <> []) by (rewrite Ex; discriminate). assert (Ny : iy <> []) by (rewrite Ey; discriminate).
  injection E as <- <- <- <-.
  assert (Ia : In a ix) by (rewrite Ex; now left). assert (Ib : In b iy) by (rewrite Ey; now left). pose proof (last_In a Nx) as Ic. pose proof (last_In b Ny) as Id.
  assert (Fx : forall i, In i ix -> (i < n)%nat /\ exists j, (j < m)%nat /\ mark i j = true).
  { intros i Hi. unfold ix in Hi. apply filter_In in Hi as [Hs Hm]. apply in_seq in Hs. apply existsb_exists in Hm as (j & Hj & Hm). apply in_seq in Hj. split; [lia|]. exists j. split; [lia|exact Hm]. }
  assert (Fy : forall j, In j iy -> (j < m)%nat /\ exists i, (i < n)%nat /\ mark i j = true).
  { intros j Hj. unfold iy in Hj. apply filter_In in Hj as [Hs Hm]. apply in_seq in Hs. apply existsb_exists in Hm as (i & Hi & Hm). apply in_seq in Hi. split; [lia|]. exists i. split; [lia|exact Hm]. }
  assert (Bx : forall i j, (i < n)%nat -> (j < m)%nat -> mark i j = true -> (a <= i <= List.last ix a)%nat).
  { intros i j Hi Hj Hm. assert (M : existsb (mark i) (seq 0 m) = true) by (apply existsb_exists; exists j; split; [apply in_seq; lia|exact Hm]). split.
    - eapply hd_filter_seq; [exact Ex| |]; [lia|exact M].
    - apply (last_filter_seq (fun i => existsb (mark i) (seq 0 m))); [lia|exact M]. }
  assert (By : forall i j, (i < n)%nat -> (j < m)%nat -> mark i j = true -> (b <= j <= List.last iy b)%nat).
  { intros i j Hi Hj Hm. assert (M : existsb (fun i => mark i j) (seq 0 n) = true) by (apply existsb_exists; exists i; split; [apply in_seq; lia|exact Hm]). split.
    - eapply hd_filter_seq; [exact Ey| |]; [lia|exact M].
    - apply (last_filter_seq (fun j => existsb (fun i => mark i j) (seq 0 n))); [lia|exact M]. }
  destruct (Fx a Ia) as (A1 & ja & A2 & A3). destruct (Fx _ Ic) as (C1 & jc & C2 & C3). destruct (Fy b Ib) as (B1 & ib & B2 & B3). destruct (Fy _ Id) as (D1 & id & D2 & D3).
  pose proof (Bx a ja A1 A2 A3). pose proof (By ib b B2 B1 B3).
  split; [lia|]. split; [lia|]. split.
  - intros i j Hi Hj Hm. unfold inside. cbn [fst snd]. pose proof (Bx i j Hi Hj Hm). pose proof (By i j Hi Hj Hm). rewrite !andb_true_iff, !Nat.leb_le. lia.
  - split; [now exists ja|]. split; [now exists jc|]. split; [now exists ib|now exists id].
Qed.
Theorem rectangle_none n m mark : (forall i j, (i < n)%nat -> (j < m)%nat -> mark i j = false) <-> rectangle n m mark = Err ValueError.
Proof.
  split.
  - intros H. unfold rectangle. replace (filter (fun i => existsb (mark i) (seq 0 m)) (seq 0 n)) with (@nil nat); [reflexivity|]. symmetry.
    destruct (filter _ (seq 0 n)) as [|a l] eqn:E; [reflexivity|]. assert (I : In a (filter (fun i => existsb (mark i) (seq 0 m)) (seq 0 n))) by (rewrite E; now left).
    apply filter_In in I as [Hs Hm]. apply in_seq in Hs. apply existsb_exists in Hm as (j & Hj & Hm). apply in_seq in Hj. rewrite H in Hm by lia. discriminate.
  - intros E i j Hi Hj. destruct (mark i j) eqn:M; [|reflexivity]. exfalso. unfold rectangle in E.
    assert (I : In i (filter (fun i => existsb (mark i) (seq 0 m)) (seq 0 n))) by (apply filter_In; split; [apply in_seq; lia|]; apply existsb_exists; exists j; split; [apply in_seq; lia|exact M]).
    assert (J : In j (filter (fun j => existsb (fun i => mark i j) (seq 0 n)) (seq 0 m))) by (apply filter_In; split; [apply in_seq; lia|]; apply existsb_exists; exists i; split; [apply in_seq; lia|exact M]).
    destruct (filter _ (seq 0 n)); [destruct I|]. destruct (filter _ (seq 0 m)); [destruct J|discriminate].
Qed.
Section C.
Variables (nx ny nz : nat) (bg fg : field).
Theorem selection_spec s dims : selection_matrix nx ny nz bg fg = Ok (s, dims) ->
  exists x0 y0 x1 y1, design_bounds nx ny nz bg fg = Ok (x0, y0, x1, y1) /\ dims = (area_x x0 x1, area_y y0 y1) /\
  forall u comp a b z, (a < nx)%nat -> (b < ny)%nat -> (z < nz)%nat ->
    apply s (fst dims * snd dims) (flat (fst dims) x0 y0 u) (cell nx ny nz comp a b z) == (fg comp a b z - bg comp a b z) * cell_average nx ny x0 y0 x1 y1 u comp a b.
Proof.
  intros E. unfold selection_matrix in E. destruct (design_bounds nx ny nz bg fg) as [[[[x0 y0] x1] y1]|] eqn:Eb; [|discriminate]. cbn [bind] in E.
  destruct (direct_lattice nx ny nz x0 y0 x1 y1) as [m|] eqn:Em; [|discriminate]. cbn [bind] in E. injection E as <- <-. exists x0, y0, x1, y1. split; [reflexivity|]. split; [reflexivity|].
  intros u comp a b z Ha Hb Hz. cbn [fst snd]. destruct (rectangle_spec _ _ _ Eb) as (Rx & Ry & _).
  rewrite <- (@lattice_average nx ny nz x0 y0 x1 y1 ltac:(lia) ltac:(lia) ltac:(lia) ltac:(lia) m u comp a b z Em Ha Hb Hz). unfold apply. rewrite <- sumn_scale. apply sumn_ext. intros c Hc.
  rewrite !vec_cell by assumption. ring.
Qed.
Theorem selection_total : nx <> 0%nat -> ny <> 0%nat -> (exists s dims, selection_matrix nx ny nz bg fg = Ok (s, dims)) \/ selection_matrix nx ny nz bg fg = Err ValueError /\ forall i j, (i < 2 * nx)%nat -> (j < 2 * ny)%nat -> in_design nx ny nz bg fg i j = false.
Proof.
  intros H1 H2. unfold selection_matrix. destruct (design_bounds nx ny nz bg fg) as [[[[x0 y0] x1] y1]|e] eqn:Eb; cbn [bind].
  - left. destruct (rectangle_spec _ _ _ Eb) as (Rx & Ry & _). unfold direct_lattice. destruct (Nat.leb_spec (2 * nx) x1); [lia|]. destruct (Nat.leb_spec (2 * ny) y1); [lia|]. cbn [orb bind]. eauto.
  - right. unfold design_bounds in Eb. assert (e = ValueError) as -> by (unfold rectangle in Eb; destruct (filter _ _); [congruence|]; destruct (filter _ _); congruence). split; [reflexivity|]. now apply rectangle_none.
Qed.
(** which points belong to the design *)
Lemma right_left n i : (i < n)%nat -> rollm1 n (left_of n i) = i.
Proof. intros H. unfold rollm1, left_of. destruct i as [|i]; [replace (n - 1 + 1)%nat with n by lia; apply Nat.mod_same; lia|]. replace (i + 1)%nat with (S i) by lia. now apply Nat.mod_small. Qed.
Lemma des_quadrant comp a b p q : (a < nx)%nat -> (b < ny)%nat -> (p < 2)%nat -> (q < 2)%nat ->
  des_grid nx ny nz bg fg comp (fst (quadrant nx ny comp a b p q)) (snd (quadrant nx ny comp a b p q)) = diff_grid nz bg fg comp a b.
Proof.
  intros Ha Hb Hp Hq. unfold des_grid. assert (D : forall c r, (r < 2)%nat -> ((2 * c + r) / 2 = c)%nat) by (intros c r Hr; rewrite (Nat.mul_comm 2 c); apply divmod_flat; exact Hr).
  destruct comp as [|[|comp]]; cbn [rolls_x rolls_y quadrant fst snd]; rewrite ?right_left by lia; rewrite !D by assumption; reflexivity.
Qed.
(** every point of the direct lattice lies in exactly one cell of each component *)
Lemma quadrant_onto comp i j : (i < 2 * nx)%nat -> (j < 2 * ny)%nat -> exists a b p q, (a < nx)%nat /\ (b < ny)%nat /\ (p < 2)%nat /\ (q < 2)%nat /\ quadrant nx ny comp a b p q = (i, j).
Proof.
  intros Hi Hj.
  assert (L : forall n i, (i < 2 * n)%nat -> exists a p, (a < n)%nat /\ (p < 2)%nat /\ (2 * a + p = i)%nat).
  { intros n k Hk. exists (k / 2)%nat, (k mod 2)%nat. split; [now apply half_lt|]. split; [apply Nat.mod_upper_bound; lia|]. symmetry. apply Nat.div_mod. lia. }
  assert (R : forall n i, (i < 2 * n)%nat -> exists a p, (a < n)%nat /\ (p < 2)%nat /\ left_of (2 * n) (2 * a + p) = i).
  { intros n k Hk. destruct (Nat.eq_dec k (2 * n - 1)) as [->|Hne].
    - exists 0%nat, 0%nat. cbn [Nat.mul Nat.add left_of]. split; [lia|]. split; [lia|]. lia.
    - destruct (L n (S k) ltac:(lia)) as (a & p & A & P & E). exists a, p. split; [exact A|]. split; [exact P|]. rewrite E. reflexivity. }
  destruct comp as [|[|comp]]; cbn [quadrant].
  - destruct (L nx i Hi) as (a & p & A & P & E). destruct (R ny j Hj) as (b & q & B & Q0 & F). exists a, b, p, q. rewrite E, F. auto.
  - destruct (R nx i Hi) as (a & p & A & P & E). destruct (L ny j Hj) as (b & q & B & Q0 & F). exists a, b, p, q. rewrite E, F. auto.
  - destruct (R nx i Hi) as (a & p & A & P & E). destruct (R ny j Hj) as (b & q & B & Q0 & F). exists a, b, p, q. rewrite E, F. auto.
Qed.
Lemma in_design_iff i j : (i < 2 * nx)%nat -> (j < 2 * ny)%nat -> in_design nx ny nz bg fg i j = true <->
  forall comp a b p q, (comp < 3)%nat -> (a < nx)%nat -> (b < ny)%nat -> (p < 2)%nat -> (q < 2)%nat -> quadrant nx ny comp a b p q = (i, j) -> threshold nx ny nz bg fg < diff_grid nz bg fg comp a b.
Proof.
  intros Hi Hj. unfold in_design. rewrite forallb_forall. split.
  - intros H comp a b p q Hc Ha Hb Hp Hq E. specialize (H comp). rewrite <- (@des_quadrant comp a b p q Ha Hb Hp Hq), E. cbn [fst snd]. apply qlt_true. apply H. cbn. lia.
  - intros H comp Hc. apply qlt_true. destruct (quadrant_onto comp Hi Hj) as (a & b & p & q & Ha & Hb & Hp & Hq & E). specialize (H comp a b p q ltac:(cbn in Hc; lia) Ha Hb Hp Hq E).
    rewrite <- (@des_quadrant comp a b p q Ha Hb Hp Hq) in H. rewrite E in H. exact H.
Qed.
Lemma qabs_nonneg q : 0 <= qabs q. Proof. unfold qabs. destruct (Qle_bool 0 q) eqn:E; qhyps; lra. Qed.
Lemma qabs_zero q : qabs q == 0 -> q == 0. Proof. unfold qabs. destruct (Qle_bool 0 q) eqn:E; qhyps; lra. Qed.
Lemma diff_nonneg comp a b : 0 <= diff_grid nz bg fg comp a b.
Proof. unfold diff_grid. rewrite <- (@sumn_zero nz (fun _ => 0)) by reflexivity. apply sumn_le. intros. apply qabs_nonneg. Qed.
Lemma fold_max_ub l v : In v l -> v <= fold_right qmax 0 l.
Proof.
  induction l as [|a l IH]; intros H; [destruct H|]. cbn [fold_right]. unfold qmax at 1. destruct H as [->|H].
  - destruct (Qle_bool _ _) eqn:E; qhyps; lra.
  - specialize (IH H). destruct (Qle_bool _ _) eqn:E; qhyps; lra.
Qed.
Lemma fold_max_at l : l <> [] -> Forall (fun v => 0 <= v) l -> exists v, In v l /\ v == fold_right qmax 0 l.
Proof.
  induction l as [|a l IH]; intros Hne F; [congruence|]. inversion F as [|? ? Ha F']. subst. cbn [fold_right]. destruct l as [|b l'].
  - exists a. split; [now left|]. cbn [fold_right]. unfold qmax. destruct (Qle_bool _ _) eqn:E; qhyps; lra.
  - destruct (IH ltac:(discriminate) F') as (v & Hv & Ev). unfold qmax at 1. fold (fold_right qmax 0 (b :: l')). destruct (Qle_bool a _); [exists v; split; [now right|exact Ev]|exists a; split; [now left|reflexivity]].
Qed.
(** the threshold is a thousandth of the largest difference *)
Lemma threshold_spec : nx <> 0%nat -> ny <> 0%nat -> exists M, threshold nx ny nz bg fg == (1 # 1000) * M /\
  (forall comp a b, (comp < 3)%nat -> (a < nx)%nat -> (b < ny)%nat -> diff_grid nz bg fg comp a b <= M) /\
  exists comp a b, (comp < 3)%nat /\ (a < nx)%nat /\ (b < ny)%nat /\ diff_grid nz bg fg comp a b == M.
Proof.
  intros Nx Ny. unfold threshold. set (l := flat_map _ _). exists (fold_right qmax 0 l). split; [reflexivity|].
  assert (In_l : forall v, In v l <-> exists comp i j, (comp < 3)%nat /\ (i < 2 * nx)%nat /\ (j < 2 * ny)%nat /\ v = des_grid nx ny nz bg fg comp i j).
  { intros v. unfold l. rewrite in_flat_map. split.
    - intros (comp & Hc & Hv). apply in_map_iff in Hv as ([i j] & <- & Hp). unfold grid_points in Hp. apply in_flat_map in Hp as (i' & Hi & Hp). apply in_map_iff in Hp as (j' & E & Hj). injection E as <- <-.
      apply in_seq in Hi, Hj. exists comp, i', j'. cbn in Hc. repeat split; lia.
    - intros (comp & i & j & Hc & Hi & Hj & ->). exists comp. split; [cbn; lia|]. apply in_map_iff. exists (i, j). split; [reflexivity|]. unfold grid_points. apply in_flat_map. exists i. split; [apply in_seq; lia|]. apply in_map_iff. exists j. split; [reflexivity|apply in_seq; lia]. }
  pose proof (@fold_max_ub l) as Ub.
  assert (Fr : forall comp a b, (a < nx)%nat -> (b < ny)%nat -> (comp < 3)%nat -> In (diff_grid nz bg fg comp a b) l).
  { intros comp a b Ha Hb Hc. apply In_l. destruct (@quadrant_lt nx ny comp a b 0 0 Ha Hb ltac:(lia) ltac:(lia)) as [Q1 Q2]. exists comp, (fst (quadrant nx ny comp a b 0 0)), (snd (quadrant nx ny comp a b 0 0)).
    split; [exact Hc|]. split; [exact Q1|]. split; [exact Q2|]. symmetry. apply des_quadrant; lia. }
  split; [intros comp a b Hc Ha Hb; apply Ub; now apply Fr|].
  pose proof (@fold_max_at l) as At.
  assert (Nn : Forall (fun v => 0 <= v) l) by (apply Forall_forall; intros v Hv; apply In_l in Hv as (comp & i & j & _ & _ & _ & ->); apply diff_nonneg).
  destruct (At ltac:(intros Hl; pose proof (Fr 0%nat 0%nat 0%nat ltac:(lia) ltac:(lia) ltac:(lia)) as I; rewrite Hl in I; destruct I) Nn) as (v & Hv & Ev).
  apply In_l in Hv as (comp & i & j & Hc & Hi & Hj & ->). destruct (quadrant_onto comp Hi Hj) as (a & b & p & q & Ha & Hb & Hp & Hq & E).
  exists comp, a, b. split; [exact Hc|]. split; [exact Ha|]. split; [exact Hb|]. rewrite <- (@des_quadrant comp a b p q Ha Hb Hp Hq), E. exact Ev.
Qed.
End C.
