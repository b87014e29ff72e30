(** Selection of triangles and integration over them. *)
From Coq Require Import Reals Lra Psatz Lia Ring Field.
From Verif Require Import Base GMath_Model GMath_Proofs CplxField EmObj_Model EmObj_Proofs3 Ff_Model Ff_Spec Ff_Proofs Ff_Proofs2 Ff_Proofs3.
From Verif Require Obj_Model.
Set Implicit Arguments.
Local Open Scope R_scope.

Lemma angle_polar r d : 0 < r -> - PI < d <= PI -> angle (r * cos d) (r * sin d) = d.
Proof.
  intros Hr Hd. unfold angle. assert (E : sqrt (r * cos d * (r * cos d) + r * sin d * (r * sin d)) = r).
  { replace (r * cos d * (r * cos d) + r * sin d * (r * sin d)) with (r * r) by (pose proof (sin2_cos2 d) as K; unfold Rsqr in K; nra). apply sqrt_square. lra. }
  rewrite E. destruct (Req_EM_T r 0); [lra|]. replace (r * cos d / r) with (cos d) by (field; lra).
  destruct (Rle_dec 0 (r * sin d)) as [H|H].
  - apply acos_cos. split; [|lra]. destruct (Rle_lt_dec 0 d) as [K|K]; [exact K|]. exfalso.
    assert (0 < sin (- d)) by (apply sin_gt_0; lra). rewrite sin_neg in H0. nra.
  - destruct (Rle_lt_dec d 0) as [K|K].
    + rewrite <- (cos_neg d). rewrite acos_cos by lra. lra.
    + exfalso. apply H. apply Rmult_le_pos; [lra|]. apply sin_ge_0; lra.
Qed.
Lemma wrap x : exists k : Z, - PI < x + 2 * IZR k * PI <= PI.
Proof.
  pose proof PI_RGT_0 as P. exists (up ((- PI - x) / (2 * PI))). destruct (archimed ((- PI - x) / (2 * PI))) as [H1 H2].
  set (t := (- PI - x) / (2 * PI)) in *. assert (E : - PI - x = t * (2 * PI)) by (unfold t; field; lra). nra.
Qed.
Lemma cos_turns x k : cos (x + 2 * IZR k * PI) = cos x.
Proof.
  destruct (Z_le_dec 0 k).
  - rewrite <- (Z2Nat.id k) by assumption. rewrite <- INR_IZR_INZ. apply cos_period.
  - set (y := x + 2 * IZR k * PI). replace x with (y + 2 * INR (Z.to_nat (- k)) * PI).
    + symmetry. apply cos_period.
    + unfold y. rewrite INR_IZR_INZ, Z2Nat.id by lia. rewrite opp_IZR. ring.
Qed.
Lemma sin_turns x k : sin (x + 2 * IZR k * PI) = sin x.
Proof.
  destruct (Z_le_dec 0 k).
  - rewrite <- (Z2Nat.id k) by assumption. rewrite <- INR_IZR_INZ. apply sin_period.
  - set (y := x + 2 * IZR k * PI). replace x with (y + 2 * INR (Z.to_nat (- k)) * PI).
    + symmetry. apply sin_period.
    + unfold y. rewrite INR_IZR_INZ, Z2Nat.id by lia. rewrite opp_IZR. ring.
Qed.
Lemma angle_wrapped r x k : 0 < r -> - PI < x + 2 * IZR k * PI <= PI -> angle (r * cos x) (r * sin x) = x + 2 * IZR k * PI.
Proof. intros Hr Hk. rewrite <- (cos_turns x k), <- (sin_turns x k). now apply angle_polar. Qed.
Lemma between_phasors a b : angle_between (phasor a) (phasor b) = angle (1 * cos (a - b)) (1 * sin (a - b)).
Proof.
  unfold angle_between, phasor. cbn [fst snd]. pose proof (sin2_cos2 b) as K. unfold Rsqr in K. replace (cos b * cos b + sin b * sin b) with 1 by lra.
  rewrite cos_minus, sin_minus. f_equal; field.
Qed.
Lemma azimuth_phasor x y ph : azimuth x y ph -> phasor (angle x y) = phasor ph.
Proof.
  intros (r & Hr & -> & ->). destruct (wrap ph) as (k & Hk). rewrite (angle_wrapped k Hr Hk). unfold phasor. now rewrite cos_turns, sin_turns.
Qed.
Lemma wrap_unique x k j : - PI < x + 2 * IZR k * PI <= PI -> - PI < x + 2 * IZR j * PI <= PI -> k = j.
Proof.
  intros H1 H2. pose proof PI_RGT_0 as P. assert (- 1 < IZR (k - j) < 1) by (rewrite minus_IZR; nra). destruct H as [A B]. apply lt_IZR in B. change (-1) with (IZR (-1)) in A. apply lt_IZR in A. lia.
Qed.
Lemma ltb_true a b : ltb a b = true <-> a < b.
Proof. unfold ltb. destruct (Rlt_dec a b); split; auto; discriminate. Qed.
Definition in_azimuth (ph0 ph1 x y : R) : bool :=
  let php := phasor (angle x y) in
  if Rle_dec (ph1 - ph0) PI
  then ltb (angle_between php (phasor ph0)) (angle_between (phasor ph1) (phasor ph0)) && ltb 0 (angle_between php (phasor ph0))
  else negb (ltb (angle_between php (phasor ph1)) (angle_between (phasor ph0) (phasor ph1)) && ltb 0 (angle_between php (phasor ph1))).
Lemma narrow b0 b1 x y ph : azimuth x y ph -> 0 <= b1 - b0 <= PI -> in_azimuth b0 b1 x y = true <-> exists k, b0 < ph + 2 * IZR k * PI < b1.
Proof.
  intros Ha [Hw Hw']. pose proof PI_RGT_0 as P. unfold in_azimuth. rewrite (azimuth_phasor Ha). destruct (Rle_dec (b1 - b0) PI); [|lra]. rewrite !between_phasors.
  rewrite (@angle_polar 1 (b1 - b0)) by lra. destruct (wrap (ph - b0)) as (k & Hk). rewrite (angle_wrapped k Rlt_0_1 Hk). rewrite Bool.andb_true_iff, !ltb_true. split.
  - intros [H1 H2]. exists k. lra.
  - intros (j & H1 & H2). assert (k = j) by (apply (@wrap_unique (ph - b0)); lra). subst j. lra.
Qed.
Lemma wide b0 b1 x y ph : azimuth x y ph -> PI < b1 - b0 <= 2 * PI -> in_azimuth b0 b1 x y = true <-> exists k, b0 <= ph + 2 * IZR k * PI <= b1.
Proof.
  intros Ha [Hw Hw']. pose proof PI_RGT_0 as P. unfold in_azimuth. rewrite (azimuth_phasor Ha). destruct (Rle_dec (b1 - b0) PI); [lra|]. rewrite !between_phasors.
  rewrite (@angle_wrapped 1 (b0 - b1) 1%Z) by (cbn; lra). destruct (wrap (ph - b1)) as (k & Hk). rewrite (angle_wrapped k Rlt_0_1 Hk).
  rewrite Bool.negb_true_iff, <- Bool.not_true_iff_false, Bool.andb_true_iff, !ltb_true. set (d := ph - b1 + 2 * IZR k * PI) in *. split.
  - intros H. destruct (Rle_lt_dec d 0) as [K|K].
    + exists k. unfold d in *. lra.
    + exists (k - 1)%Z. rewrite minus_IZR. assert (b0 - b1 + 2 * 1 * PI <= d) by (destruct (Rlt_le_dec d (b0 - b1 + 2 * 1 * PI)); [exfalso; apply H; lra|lra]). unfold d in *. lra.
  - intros (j & H1 & H2) [H3 H4]. assert (K : IZR (j - k) < 0). { rewrite minus_IZR. unfold d in *. nra. } apply lt_IZR in K.
    assert (IZR (j - k) <= -1) by (apply IZR_le; lia). rewrite minus_IZR in H. unfold d in *. nra.
Qed.
Lemma polar_acos p th : 0 < norm p -> polar p th -> acos (pz p / norm p) = th.
Proof. intros Hn [H1 H2]. rewrite H2. replace (norm p * cos th / norm p) with (cos th) by (field; lra). now apply acos_cos. Qed.
Lemma selected_split th0 th1 ph0 ph1 a b c : selected th0 th1 ph0 ph1 a b c = true <->
  (th0 < acos (pz (center a b c) / norm (center a b c)) < th1) /\ in_azimuth ph0 ph1 (px (center a b c)) (py (center a b c)) = true.
Proof. unfold selected. fold (in_azimuth ph0 ph1 (px (center a b c)) (py (center a b c))). cbn zeta. rewrite !Bool.andb_true_iff, !ltb_true. tauto. Qed.
Lemma azimuth_norm p ph : azimuth (px p) (py p) ph -> 0 < norm p.
Proof. intros (r & Hr & E1 & E2). unfold norm. apply sqrt_lt_R0. rewrite E1, E2. pose proof (sin2_cos2 ph) as K. unfold Rsqr in K. nra. Qed.
Lemma selected_region th0 th1 ph0 ph1 a b c th ph : azimuth (px (center a b c)) (py (center a b c)) ph -> polar (center a b c) th -> 0 <= ph1 - ph0 <= 2 * PI ->
  selected th0 th1 ph0 ph1 a b c = true <->
  th0 < th < th1 /\ (ph1 - ph0 <= PI /\ (exists k, ph0 < ph + 2 * IZR k * PI < ph1) \/ PI < ph1 - ph0 /\ exists k, ph0 <= ph + 2 * IZR k * PI <= ph1).
Proof.
  intros Ha Hp Hw. rewrite selected_split, (polar_acos (azimuth_norm _ Ha) Hp). destruct (Rle_lt_dec (ph1 - ph0) PI) as [H|H].
  - rewrite (narrow Ha) by lra. split; [intros [? ?]; split; auto|]. intros [? [[_ ?]|[? _]]]; [auto|lra].
  - rewrite (@wide ph0 ph1 _ _ ph Ha) by lra. split; [intros [? ?]; split; auto|]. intros [? [[? _]|[_ ?]]]; [lra|auto].
Qed.
(** every direction off the axis has angles *)
Lemma has_azimuth x y : x <> 0 \/ y <> 0 -> exists ph, azimuth x y ph.
Proof.
  intros H. set (r := sqrt (x * x + y * y)). assert (Hr : 0 < r) by (apply sqrt_lt_R0; nra). assert (Er : r * r = x * x + y * y) by (apply sqrt_sqrt; nra).
  assert (B : -1 <= x / r <= 1). { assert (x = x / r * r) by (field; lra). assert (x / r * (x / r) <= 1) by (replace (x / r * (x / r)) with (x * x / (r * r)) by (field; lra); rewrite Er; apply (Rmult_le_reg_r (x * x + y * y)); [nra|]; replace (x * x / (x * x + y * y) * (x * x + y * y)) with (x * x) by (field; nra); nra). nra. }
  assert (S : sin (acos (x / r)) = Rabs y / r).
  { rewrite sin_acos by lra. rewrite <- (sqrt_Rsqr (Rabs y / r)) by (apply Rmult_le_pos; [apply Rabs_pos|left; now apply Rinv_0_lt_compat]). f_equal. unfold Rsqr.
    replace (Rabs y / r * (Rabs y / r)) with (Rabs y * Rabs y / (r * r)) by (field; lra). rewrite <- Rabs_mult, Rabs_pos_eq by nra. replace (y * y) with (r * r - x * x) by lra. field. lra. }
  destruct (Rle_lt_dec 0 y) as [K|K].
  - exists (acos (x / r)), r. split; [exact Hr|]. rewrite cos_acos by lra. rewrite S, Rabs_pos_eq by lra. split; field; lra.
  - exists (- acos (x / r)), r. split; [exact Hr|]. rewrite cos_neg, sin_neg, cos_acos by lra. rewrite S, Rabs_left by lra. split; field; lra.
Qed.
Lemma has_polar p : 0 < norm p -> exists th, polar p th.
Proof.
  intros H. exists (acos (pz p / norm p)). split; [apply acos_bound|]. rewrite cos_acos; [field; lra|].
  assert (E : norm p * norm p = px p * px p + py p * py p + pz p * pz p) by (apply sqrt_sqrt; nra).
  assert (pz p = pz p / norm p * norm p) by (field; lra). assert (pz p / norm p * (pz p / norm p) * (norm p * norm p) = pz p * pz p) by (field; lra). set (q := pz p / norm p) in *.
  assert (Q : q * q <= 1) by (apply (Rmult_le_reg_r (norm p * norm p)); nra). split; nra.
Qed.
Lemma off_axis_polar p th : px p <> 0 \/ py p <> 0 -> polar p th -> 0 < th < PI.
Proof.
  intros H [[A B] E]. pose proof PI_RGT_0 as P. assert (N : norm p * norm p = px p * px p + py p * py p + pz p * pz p) by (apply sqrt_sqrt; nra). destruct A as [A|A]; [|exfalso; rewrite <- A, cos_0 in E; rewrite E in N; nra].
  destruct B as [B|B]; [lra|]. exfalso. rewrite B, cos_PI in E. rewrite E in N. nra.
Qed.
Lemma full_selection a b c : px (center a b c) <> 0 \/ py (center a b c) <> 0 -> selected 0 PI (- PI) PI a b c = true.
Proof.
  intros H. destruct (has_azimuth H) as (ph & Ha). destruct (has_polar (center a b c) (azimuth_norm _ Ha)) as (th & Ht). pose proof PI_RGT_0 as P.
  apply (@selected_region _ _ _ _ _ _ _ th ph Ha Ht); [lra|]. split; [now apply off_axis_polar with (p := center a b c)|]. right. split; [lra|]. destruct (wrap ph) as (k & Hk). exists k. lra.
Qed.
(** ** Integration *)
Lemma corners_ok pts t a b c : has_corners pts t a b c -> corners pts t = Ok (a, b, c).
Proof. destruct t as [[i j] k]. intros (H1 & H2 & H3). unfold corners, get. now rewrite H1, H2, H3. Qed.
Definition tri_area (pts : list vec3) (t : tri) : R := let '(i, j, k) := t in area (corner pts i) (corner pts j) (corner pts k).
Definition tri_sel (pts : list vec3) (th0 th1 ph0 ph1 : R) (t : tri) : R := (if inside pts th0 th1 ph0 ph1 t then 1 else 0) * tri_area pts t.
Lemma nth_corner pts i a : nth_error pts i = Some a -> corner pts i = a.
Proof. intros H. now apply nth_error_nth. Qed.
Lemma tri_sel_eq pts th0 th1 ph0 ph1 t a b c : has_corners pts t a b c -> tri_sel pts th0 th1 ph0 ph1 t = (if selected th0 th1 ph0 ph1 a b c then 1 else 0) * area a b c.
Proof. destruct t as [[i j] k]. intros (H1 & H2 & H3). unfold tri_sel, inside, tri_area. now rewrite (nth_corner _ _ H1), (nth_corner _ _ H2), (nth_corner _ _ H3). Qed.
Lemma selection_ok pts ts th0 th1 ph0 ph1 : (forall t, In t ts -> exists a b c, has_corners pts t a b c) -> area_selection pts ts th0 th1 ph0 ph1 = Ok (map (tri_sel pts th0 th1 ph0 ph1) ts).
Proof. intros H. apply mapM_ok. intros t Ht. destruct (H t Ht) as (a & b & c & Hc). rewrite (@corners_ok _ _ _ _ _ Hc). cbn [bind]. now rewrite (@tri_sel_eq _ _ _ _ _ _ _ _ _ Hc). Qed.
Lemma columns_bound ts N : (forall t, In t ts -> fst (fst t) < N /\ snd (fst t) < N /\ snd t < N)%nat -> (columns ts <= N)%nat.
Proof.
  induction ts as [|[[i j] k] ts IH]; intros H; [apply Nat.le_0_l|]. destruct (H (i, j, k) (or_introl eq_refl)) as (H1 & H2 & H3). cbn [fst snd] in *.
  assert (columns ts <= N)%nat by (apply IH; intros; apply H; now right). unfold columns in *. cbn [map fold_right]. lia.
Qed.
Lemma columns_used ts t i : In t ts -> uses i t -> (i < columns ts)%nat.
Proof.
  induction ts as [|[[a b] c] ts IH]; intros Ht Hu; [destruct Ht|]. unfold columns. cbn [map fold_right]. fold (columns ts). destruct Ht as [<-|Ht].
  - unfold uses in Hu. cbn [fst snd] in Hu. lia.
  - specialize (IH Ht Hu). unfold columns in *. lia.
Qed.
Lemma corner_bound pts t a b c : has_corners pts t a b c -> (fst (fst t) < length pts /\ snd (fst t) < length pts /\ snd t < length pts)%nat.
Proof. destruct t as [[i j] k]. intros (H1 & H2 & H3). cbn [fst snd]. repeat split; apply nth_error_Some; congruence. Qed.
Lemma columns_eq pts ts dom : triangulation pts ts dom -> columns ts = length pts.
Proof.
  intros T. apply Nat.le_antisymm.
  - apply columns_bound. intros t Ht. destruct (@t_corners _ _ _ T t Ht) as (a & b & c & Hc & _). exact (@corner_bound _ _ _ _ _ Hc).
  - destruct pts as [|p pts]; [cbn; lia|]. destruct (@t_used _ _ _ T (length pts)) as (t & Ht & Hu); [cbn; lia|]. cbn [length]. exact (@columns_used _ _ _ Ht Hu).
Qed.
(** sums over the points *)
Definition tot := Obj_Model.rsum.
Lemma tot_cons a l : tot (a :: l) = a + tot l.
Proof. reflexivity. Qed.
Lemma tot_app l l' : tot (l ++ l') = tot l + tot l'.
Proof. induction l as [|a l IH]; cbn [app]; [unfold tot, Obj_Model.rsum; cbn; ring|]. rewrite !tot_cons, IH. ring. Qed.
Lemma tot_plus {A} (f h : A -> R) l : tot (map (fun x => f x + h x) l) = tot (map f l) + tot (map h l).
Proof. induction l as [|a l IH]; cbn [map]; [unfold tot, Obj_Model.rsum; cbn; ring|]. rewrite !tot_cons, IH. ring. Qed.
Lemma tot_scal {A} (k : R) (f : A -> R) l : tot (map (fun x => k * f x) l) = k * tot (map f l).
Proof. induction l as [|a l IH]; cbn [map]; [unfold tot, Obj_Model.rsum; cbn; ring|]. rewrite !tot_cons, IH. ring. Qed.
Lemma tot_ext {A} (f h : A -> R) l : (forall x, In x l -> f x = h x) -> tot (map f l) = tot (map h l).
Proof. intros H. f_equal. now apply map_ext_in. Qed.
Lemma tot_swap {A B} (f : A -> B -> R) l l' : tot (map (fun x => tot (map (f x) l')) l) = tot (map (fun y => tot (map (fun x => f x y) l)) l').
Proof.
  induction l as [|a l IH]; cbn [map].
  - induction l' as [|b l' IH']; [reflexivity|]. cbn [map]. rewrite tot_cons, <- IH'. unfold tot, Obj_Model.rsum. cbn. ring.
  - rewrite tot_cons, IH, <- tot_plus. apply tot_ext. intros y _. now rewrite tot_cons.
Qed.
Lemma tot_one (f : nat -> R) i N s : (s <= i < s + N)%nat -> tot (map (fun k => (if Nat.eqb k i then 1 / 3 else 0) * f k) (seq s N)) = 1 / 3 * f i.
Proof.
  revert s. induction N as [|N IH]; intros s H; [lia|]. cbn [seq map]. rewrite tot_cons. destruct (Nat.eqb_spec s i) as [->|n].
  - rewrite (tot_ext _ (fun _ => 0)); [|intros k Hk; apply in_seq in Hk; destruct (Nat.eqb_spec k i); [lia|ring]]. clear.
    assert (tot (map (fun _ : nat => 0) (seq (S i) N)) = 0). { generalize (seq (S i) N). intros l. induction l as [|a l IH]; [reflexivity|]. cbn [map]. rewrite tot_cons, IH. ring. } rewrite H. ring.
  - rewrite IH by lia. ring.
Qed.
Lemma average_ok (f : nat -> R) t N : (fst (fst t) < N /\ snd (fst t) < N /\ snd t < N)%nat ->
  tot (map (fun k => average_row t k * f k) (seq 0 N)) = (f (fst (fst t)) + f (snd (fst t)) + f (snd t)) / 3.
Proof.
  destruct t as [[i j] l]. cbn [fst snd]. intros (H1 & H2 & H3). unfold average_row.
  rewrite (tot_ext _ (fun k => (if Nat.eqb k i then 1 / 3 else 0) * f k + ((if Nat.eqb k j then 1 / 3 else 0) * f k + (if Nat.eqb k l then 1 / 3 else 0) * f k))) by (intros; ring).
  rewrite !tot_plus, !tot_one by lia. field.
Qed.
