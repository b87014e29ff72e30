(** The power vectors and the spherical components. *)
From Coq Require Import Reals Lra Psatz Lia Ring Field.
From Verif Require Import Base GMath_Model GMath_Proofs CplxField EmObj_Model EmObj_Proofs3 Ff_Model Ff_Spec Ff_Proofs Ff_Proofs2 Ff_Proofs3 Ff_Proofs4.
From Verif Require Obj_Model.
Set Implicit Arguments.
Local Open Scope R_scope.

Lemma weigh_seq w : forall y, length w = length y -> weigh w y = tot (map (fun k => nth k w 0 * cabs (nth k y (creal 0)) ^ 2) (seq 0 (length w))).
Proof.
  induction w as [|a w IH]; intros [|b y] H; try discriminate; [reflexivity|]. unfold weigh in *. cbn [combine map length seq fst snd]. rewrite tot_cons. cbn [nth].
  change (Obj_Model.rsum (?p :: ?q)) with (p + Obj_Model.rsum q). f_equal. rewrite IH by (cbn in H; lia). rewrite <- seq_shift, map_map. reflexivity.
Qed.
Lemma tot_zero {A} (l : list A) : tot (map (fun _ => 0) l) = 0.
Proof. induction l as [|a l IH]; [reflexivity|]. cbn [map]. rewrite tot_cons, IH. ring. Qed.
Lemma tot_shift (f : nat -> R) s N : tot (map f (seq s N)) = tot (map (fun k => f (s + k)%nat) (seq 0 N)).
Proof.
  revert s f. induction N as [|N IH]; intros s f; [reflexivity|]. cbn [seq map]. rewrite !tot_cons, Nat.add_0_r. f_equal. rewrite (IH (S s) f), (IH 1%nat (fun k => f (s + k)%nat)).
  apply tot_ext. intros k _. f_equal. lia.
Qed.
Definition weights (ts : list tri) (w : tri -> R) (k : nat) : R := tot (map (fun t => w t * average_row t k) ts).
Lemma vector_eq pts ts dom w : triangulation pts ts dom -> power_vector pts ts (map w ts) = Ok (map (fun _ => 0) pts ++ map (weights ts w) (seq 0 (length pts)) ++ map (weights ts w) (seq 0 (length pts))).
Proof.
  intros T. unfold power_vector. rewrite (columns_eq T), Nat.eqb_refl. cbn zeta.
  assert (E : map (fun k => Obj_Model.rsum (map (fun at_ => fst at_ * average_row (snd at_) k) (combine (map w ts) ts))) (seq 0 (length pts)) = map (weights ts w) (seq 0 (length pts))).
  { apply map_ext. intros k. unfold weights, tot. rewrite combine_map_self, map_map. reflexivity. }
  now rewrite E.
Qed.
Definition mean (pts : list vec3) (y : list C) (t : tri) : R := (intensity pts y (fst (fst t)) + intensity pts y (snd (fst t)) + intensity pts y (snd t)) / 3.
Lemma nth_zeros (pts : list vec3) k : nth k (map (fun _ => 0) pts) 0 = 0.
Proof. revert k. induction pts as [|p pts IH]; intros [|k]; cbn; auto. Qed.
Lemma weigh_power pts ts dom w v y : triangulation pts ts dom -> length y = (length pts + length pts + length pts)%nat -> power_vector pts ts (map w ts) = Ok v ->
  length v = length y /\ weigh v y = tot (map (fun t => w t * mean pts y t) ts).
Proof.
  intros T Hy E. rewrite (@vector_eq _ _ _ w T) in E. injection E as <-. set (N := length pts) in *. set (W := map (weights ts w) (seq 0 N)).
  assert (LW : length W = N) by (unfold W; now rewrite map_length, seq_length). assert (LZ : length (map (fun _ : vec3 => 0) pts) = N) by now rewrite map_length.
  split; [rewrite !app_length, LW, LZ; lia|]. rewrite weigh_seq by (rewrite !app_length, LW, LZ; lia). rewrite !app_length, LW, LZ.
  rewrite !seq_app, !map_app, !tot_app. cbn [plus].
  assert (NW : forall k, (k < N)%nat -> nth k W 0 = weights ts w k).
  { intros k Hk. unfold W. rewrite nth_indep with (d' := weights ts w 0%nat) by (now rewrite map_length, seq_length). rewrite map_nth, seq_nth by exact Hk. reflexivity. }
  rewrite (tot_ext _ (fun _ => 0) (seq 0 N)).
  2:{ intros k Hk. apply in_seq in Hk. rewrite app_nth1 by lia. rewrite nth_zeros. ring. }
  rewrite tot_zero, Rplus_0_l. rewrite !(tot_shift _ N N), (tot_shift _ (N + N)%nat N), <- tot_plus.
  rewrite (tot_ext _ (fun k => weights ts w k * intensity pts y k)).
  2:{ intros k Hk. apply in_seq in Hk. rewrite app_nth2, LZ by lia. rewrite app_nth1 by lia. rewrite app_nth2, LZ by lia. rewrite app_nth2, LW by lia.
      replace (N + k - N)%nat with k by lia. replace (N + N + k - N - N)%nat with k by lia. rewrite NW by lia. unfold intensity. fold N. ring. }
  unfold weights. rewrite (tot_ext _ (fun k => tot (map (fun t => w t * average_row t k * intensity pts y k) ts))).
  2:{ intros k _. rewrite Rmult_comm, <- tot_scal. apply tot_ext. intros; ring. }
  rewrite tot_swap. apply tot_ext. intros t Ht. unfold mean. destruct (@t_corners _ _ _ T t Ht) as (a & b & c & Hc & _).
  rewrite <- (@average_ok (intensity pts y) t N (@corner_bound _ _ _ _ _ Hc)). rewrite <- tot_scal. apply tot_ext. intros; ring.
Qed.
Lemma triangle_power_eq pts y t : triangle_power pts y t = tri_area pts t * mean pts y t.
Proof. destruct t as [[i j] k]. reflexivity. Qed.
Lemma power_filter pts y th0 th1 ph0 ph1 ts : tot (map (fun t => tri_sel pts th0 th1 ph0 ph1 t * mean pts y t) ts) = power pts y (filter (inside pts th0 th1 ph0 ph1) ts).
Proof.
  unfold power. fold tot. induction ts as [|t ts IH]; [reflexivity|]. cbn [map filter]. rewrite tot_cons, IH. unfold tri_sel. destruct (inside pts th0 th1 ph0 ph1 t).
  - cbn [map]. rewrite tot_cons, triangle_power_eq. ring.
  - ring.
Qed.
Lemma filter_all {A} (f : A -> bool) l : (forall x, In x l -> f x = true) -> filter f l = l.
Proof. induction l as [|a l IH]; intros H; [reflexivity|]. cbn. rewrite H by now left. rewrite IH by (intros; apply H; now right). reflexivity. Qed.
Lemma inside_eq pts th0 th1 ph0 ph1 t a b c : has_corners pts t a b c -> inside pts th0 th1 ph0 ph1 t = selected th0 th1 ph0 ph1 a b c.
Proof. destruct t as [[i j] k]. intros (H1 & H2 & H3). unfold inside. now rewrite (nth_corner _ _ H1), (nth_corner _ _ H2), (nth_corner _ _ H3). Qed.
Lemma mesh_full Z dom pts ts : mesh (octants Z) dom pts ts -> filter (inside pts 0 PI (- PI) PI) ts = ts.
Proof.
  intros M. apply filter_all. intros t Ht. destruct (@t_corners _ _ _ (mesh_triangulation M) t Ht) as (a & b & c & Hc & _). rewrite (@inside_eq _ _ _ _ _ _ _ _ _ Hc). apply full_selection. exact (@center_off_axis _ _ _ _ _ _ _ _ M Ht Hc).
Qed.
Lemma intensity_nonneg pts y i : 0 <= intensity pts y i.
Proof. unfold intensity. pose proof (pow2_ge_0 (cabs (nth (length pts + i) y (creal 0)))). pose proof (pow2_ge_0 (cabs (nth (length pts + length pts + i) y (creal 0)))). lra. Qed.
Lemma area_nonneg a b c : 0 <= area a b c.
Proof. unfold area. apply Rmult_le_pos; [lra|apply sqrt_pos]. Qed.
Lemma triangle_power_nonneg pts y t : 0 <= triangle_power pts y t.
Proof.
  destruct t as [[i j] k]. unfold triangle_power. apply Rmult_le_pos; [apply area_nonneg|]. pose proof (intensity_nonneg pts y i). pose proof (intensity_nonneg pts y j). pose proof (intensity_nonneg pts y k). lra.
Qed.
Lemma power_part pts y f ts : 0 <= power pts y (filter f ts) <= power pts y ts.
Proof.
  unfold power. fold tot. induction ts as [|t ts IH]; [cbn; lra|]. cbn [filter map]. rewrite tot_cons. pose proof (triangle_power_nonneg pts y t). destruct (f t); [cbn [map]; rewrite tot_cons|]; lra.
Qed.
(** ** Spherical components *)
Lemma dot_norm p : norm p * norm p = dot3 p p.
Proof. unfold norm, dot3. apply sqrt_sqrt. nra. Qed.
Definition rows (th ph : R) (v : vec3) : vec3 :=
  (dot3 (sin th * cos ph, sin th * sin ph, cos th) v, dot3 (cos th * cos ph, cos th * sin ph, - sin th) v, dot3 (- sin ph, cos ph, 0) v).
Lemma rows_isometry th ph v w : dot3 (rows th ph v) (rows th ph w) = dot3 v w.
Proof.
  destruct v as [[v1 v2] v3]. destruct w as [[w1 w2] w3]. unfold rows, dot3, px, py, pz. cbn [fst snd].
  pose proof (sin2_cos2 th) as A. pose proof (sin2_cos2 ph) as B. unfold Rsqr in A, B. set (s := sin th) in *. set (c := cos th) in *. set (t := sin ph) in *. set (d := cos ph) in *.
  replace (_ + _ + _) with ((s * s + c * c) * (d * v1 + t * v2) * (d * w1 + t * w2) + (s * s + c * c) * (v3 * w3) + (t * v1 - d * v2) * (t * w1 - d * w2)) by ring.
  rewrite A. replace (_ + _ + _) with ((t * t + d * d) * (v1 * w1 + v2 * w2) + v3 * w3) by ring. rewrite B. ring.
Qed.
Lemma angle_azimuth x y : x <> 0 \/ y <> 0 -> let r := sqrt (x * x + y * y) in cos (angle x y) = x / r /\ sin (angle x y) = y / r.
Proof.
  intros H r. destruct (has_azimuth H) as (ph & r' & Hr & E1 & E2). assert (E : r = r').
  { unfold r. rewrite E1, E2. replace (r' * cos ph * (r' * cos ph) + r' * sin ph * (r' * sin ph)) with (r' * r') by (pose proof (sin2_cos2 ph) as K; unfold Rsqr in K; nra). apply sqrt_square. lra. }
  destruct (wrap ph) as (k & Hk). replace (angle x y) with (ph + 2 * IZR k * PI) by (rewrite E1, E2; symmetry; now apply angle_wrapped). rewrite cos_turns, sin_turns, E, E1, E2. split; field; lra.
Qed.
Lemma polar_trig p : norm p <> 0 -> let th := acos (pz p / norm p) in cos th = pz p / norm p /\ sin th = sqrt (px p * px p + py p * py p) / norm p.
Proof.
  intros Hn th. assert (Hp : 0 < norm p) by (pose proof (sqrt_pos (px p * px p + py p * py p + pz p * pz p)) as K; fold (norm p) in K; lra).
  pose proof (dot_norm p) as D. unfold dot3 in D. set (rho := sqrt (px p * px p + py p * py p)). assert (Hr : 0 <= rho) by apply sqrt_pos. assert (R2 : rho * rho = px p * px p + py p * py p) by (apply sqrt_sqrt; nra).
  assert (B : -1 <= pz p / norm p <= 1).
  { assert (pz p = pz p / norm p * norm p) by (field; lra). set (q := pz p / norm p) in *. assert (Q : q * q <= 1) by (apply (Rmult_le_reg_r (norm p * norm p)); nra). split; nra. }
  unfold th. split; [now apply cos_acos|]. rewrite sin_acos by exact B. rewrite <- (sqrt_Rsqr (rho / norm p)) by (apply Rmult_le_pos; [lra|left; now apply Rinv_0_lt_compat]). f_equal. unfold Rsqr.
  replace (rho / norm p * (rho / norm p)) with (rho * rho / (norm p * norm p)) by (field; lra). rewrite R2. replace (px p * px p + py p * py p) with (norm p * norm p - pz p * pz p) by lra. field. lra.
Qed.
Lemma radial_row p : norm p <> 0 -> let th := acos (pz p / norm p) in let ph := angle (px p) (py p) in
  sin th * cos ph = px p / norm p /\ sin th * sin ph = py p / norm p /\ cos th = pz p / norm p.
Proof.
  intros Hn th ph. destruct (polar_trig p Hn) as [E1 E2]. fold th in E1, E2. destruct (Req_dec (px p) 0) as [X|X]; [destruct (Req_dec (py p) 0) as [Y|Y]|].
  - rewrite E2, X, Y. replace (0 * 0 + 0 * 0) with 0 by ring. rewrite sqrt_0. rewrite E1. repeat split; field; exact Hn.
  - destruct (@angle_azimuth (px p) (py p) (or_intror Y)) as [A1 A2]. fold ph in A1, A2. rewrite E1, E2, A1, A2. set (rho := sqrt (px p * px p + py p * py p)). assert (rho <> 0) by (apply Rgt_not_eq, sqrt_lt_R0; nra). repeat split; field; auto.
  - destruct (@angle_azimuth (px p) (py p) (or_introl X)) as [A1 A2]. fold ph in A1, A2. rewrite E1, E2, A1, A2. set (rho := sqrt (px p * px p + py p * py p)). assert (rho <> 0) by (apply Rgt_not_eq, sqrt_lt_R0; nra). repeat split; field; auto.
Qed.
Lemma spheric_z p v : norm p <> 0 -> cart2spheric 2 p v = Ok (rows (acos (pz p / norm p)) (angle (px p) (py p)) v).
Proof. intros H. unfold cart2spheric. destruct (Req_EM_T (norm p) 0); [contradiction|]. reflexivity. Qed.
Lemma norm_roll x y z : norm (y, z, x) = norm (x, y, z).
Proof. unfold norm, px, py, pz. cbn [fst snd]. f_equal. ring. Qed.
Lemma spheric_y p v : norm p <> 0 -> exists w, cart2spheric 1 p v = Ok w /\ px w = dot3 (py p, pz p, px p) v / norm p.
Proof.
  intros H. unfold cart2spheric. destruct (Req_EM_T (norm p) 0); [contradiction|]. cbn [bind]. eexists. split; [reflexivity|]. cbn [roll Nat.sub px fst].
  destruct p as [[x y] z]. assert (N : norm (z, x, y) = norm (x, y, z)) by (symmetry; apply norm_roll). assert (H' : norm (z, x, y) <> 0) by now rewrite N. destruct (@radial_row (z, x, y) H') as (A & B & D).
  rewrite N in A, B, D. unfold px, py, pz in *. cbn [fst snd] in *. rewrite A, B, D. unfold dot3, px, py, pz. cbn [fst snd]. field. exact H.
Qed.
Lemma spheric_x p v : norm p <> 0 -> exists w, cart2spheric 0 p v = Ok w /\ px w = dot3 (pz p, px p, py p) v / norm p.
Proof.
  intros H. unfold cart2spheric. destruct (Req_EM_T (norm p) 0); [contradiction|]. cbn [bind]. eexists. split; [reflexivity|]. cbn [roll Nat.sub px fst].
  destruct p as [[x y] z]. assert (N : norm (y, z, x) = norm (x, y, z)) by apply norm_roll. assert (H' : norm (y, z, x) <> 0) by now rewrite N. destruct (@radial_row (y, z, x) H') as (A & B & D).
  rewrite N in A, B, D. unfold px, py, pz in *. cbn [fst snd] in *. rewrite A, B, D. unfold dot3, px, py, pz. cbn [fst snd]. field. exact H.
Qed.
Lemma rearranged x y z : x * y + y * z + z * x = x * x + y * y + z * z <-> x = y /\ y = z.
Proof.
  split; [|intros [-> ->]; ring]. intros H. pose proof (Rle_0_sqr (x - y)) as A. pose proof (Rle_0_sqr (y - z)) as B. pose proof (Rle_0_sqr (z - x)) as D. unfold Rsqr in A, B, D.
  assert (x - y = 0) by (apply Rsqr_0_uniq; unfold Rsqr; nra). assert (y - z = 0) by (apply Rsqr_0_uniq; unfold Rsqr; nra). lra.
Qed.
