(** The grids and parametrizations made by the two creators. *)
From Coq Require Import Reals Lra Lia.
From Verif Require Import Base Cub_Model Cub_Spec Cub_Proofs Cub_Proofs2 Cub_Proofs3 Cub_Proofs4
  Cub_Proofs5 Cub_Proofs6 Cub_Proofs7 Cub_Proofs8 Cub_Proofs9 Cub_Proofs10 Cub_Proofs11.
Set Implicit Arguments.
Open Scope R_scope.

(** *** Rounding *)
Lemma Rabs_le_both a b : Rabs a <= b -> - b <= a <= b.
Proof. intros H. unfold Rabs in H. destruct (Rcase_abs a); lra. Qed.
Lemma Rceil_spec x : x <= IZR (Rceil x) < x + 1.
Proof.
  unfold Rceil. rewrite opp_IZR. destruct (base_Int_part (- x)). lra.
Qed.
Lemma Rceil_unique x z : x <= IZR z < x + 1 -> Rceil x = z.
Proof.
  intros H. pose proof (Rceil_spec x).
  assert (A : (z - 1 < Rceil x)%Z) by (apply lt_IZR; rewrite minus_IZR; lra).
  assert (B : (Rceil x - 1 < z)%Z) by (apply lt_IZR; rewrite minus_IZR; lra). lia.
Qed.
Lemma Rround_spec x : Rabs (IZR (Rround x) - x) <= / 2.
Proof.
  unfold Rround. destruct (base_Int_part x). set (f := Int_part x) in *.
  apply Rabs_le.
  destruct (Rlt_dec (x - IZR f) (/ 2)); [lra |].
  destruct (Rlt_dec (/ 2) (x - IZR f)); [rewrite plus_IZR; lra |].
  destruct (Z.even f); rewrite ?plus_IZR; lra.
Qed.
Lemma Rround_pos x : / 2 < x -> (1 <= Rround x)%Z.
Proof.
  intros H. pose proof (Rround_spec x) as S. apply Rabs_le_both in S.
  assert (A : (0 < Rround x)%Z) by (apply lt_IZR; lra). lia.
Qed.
Lemma Rround_nonneg x : 0 <= x -> (0 <= Rround x)%Z.
Proof.
  intros H. pose proof (Rround_spec x) as S. apply Rabs_le_both in S.
  assert (A : (-1 < Rround x)%Z) by (apply lt_IZR; lra). lia.
Qed.
Lemma Rround_int z : Rround (IZR z) = z.
Proof.
  pose proof (Rround_spec (IZR z)) as S. apply Rabs_le_both in S.
  assert (A : (z - 1 < Rround (IZR z))%Z) by (apply lt_IZR; rewrite minus_IZR; lra).
  assert (B : (Rround (IZR z) < z + 1)%Z) by (apply lt_IZR; rewrite plus_IZR; lra). lia.
Qed.

(** *** Centred grids *)
Definition lin (m : nat) (h : R) : list R := map (fun k => (INR k - INR m / 2) * h) (seq 0 (S m)).

Lemma lin_length m h : length (lin m h) = S m.
Proof. unfold lin. now rewrite map_length, seq_length. Qed.
Lemma lin_nth m h i : (i <= m)%nat -> nthR (lin m h) i = (INR i - INR m / 2) * h.
Proof.
  intros Hi. unfold nthR, lin.
  set (f := fun k => (INR k - INR m / 2) * h).
  rewrite (nth_indep _ 0 (f 0%nat)) by (rewrite map_length, seq_length; lia).
  rewrite map_nth, seq_nth by lia. reflexivity.
Qed.

Lemma first_last_map (f : nat -> R) m :
  first_last (map f (seq 0 (S m))) = Ok (f 0%nat, f m).
Proof.
  change (seq 0 (S m)) with (0%nat :: seq 1 m). cbn [map first_last]. f_equal. f_equal.
  change (f 0%nat :: map f (seq 1 m)) with (map f (seq 0 (S m))).
  rewrite seq_S, map_app. cbn [map Nat.add]. apply last_last.
Qed.

Lemma center_lin a h m : center (map (fun k => a + INR k * h) (seq 0 (S m))) = Ok (lin m h).
Proof.
  unfold center. rewrite first_last_map. cbn [bind fst snd]. f_equal. unfold lin.
  rewrite map_map. apply map_ext. intros k. cbn [INR]. field.
Qed.

Lemma fine_lin m : fine_grid (S m) = Ok (lin m 1).
Proof.
  unfold fine_grid, arange.
  replace (Rceil _) with (Z.of_nat (S m)).
  - rewrite Nat2Z.id. apply center_lin.
  - symmetry. apply Rceil_unique. rewrite <- INR_IZR_INZ. lra.
Qed.

Lemma lin_steps m h : equal_steps (lin m h) h.
Proof.
  intros i Hi. rewrite lin_length in Hi. fold (nthR (lin m h) (S i)). fold (nthR (lin m h) i).
  rewrite !lin_nth by lia. rewrite S_INR. ring.
Qed.
Lemma lin_balanced m h : balanced (lin m h) 0.
Proof.
  intros i Hi. rewrite lin_length in *. fold (nthR (lin m h) (S m - 1 - i)). fold (nthR (lin m h) i).
  rewrite !lin_nth by lia. replace (S m - 1 - i)%nat with (m - i)%nat by lia.
  rewrite minus_INR by lia. field.
Qed.
Lemma lin_increasing m h : 0 < h -> increasing (lin m h).
Proof.
  intros Hh i j [Hij Hj]. rewrite lin_length in Hj.
  fold (nthR (lin m h) j). fold (nthR (lin m h) i). rewrite !lin_nth by lia.
  apply Rmult_lt_compat_r; [exact Hh |]. apply lt_INR in Hij. lra.
Qed.
Lemma lin_ends m h : nth 0 (lin m h) 0 = - (INR m * h / 2) /\
  nth (length (lin m h) - 1) (lin m h) 0 = INR m * h / 2.
Proof.
  rewrite lin_length. replace (S m - 1)%nat with m by lia.
  fold (nthR (lin m h) 0). fold (nthR (lin m h) m). rewrite !lin_nth by lia. cbn [INR]. split; field.
Qed.
Lemma lin_covers m h n k : 0 <= k -> INR n * k <= INR m * h -> covers (lin m h) (lin n k).
Proof.
  intros Hk H. split; [discriminate |]. intros t Ht. unfold within.
  destruct (lin_ends m h) as [-> ->].
  apply in_map_iff in Ht. destruct Ht as (i & <- & Hi). apply in_seq in Hi.
  assert (A : 0 <= INR i * k) by (apply Rmult_le_pos; [apply pos_INR | exact Hk]).
  assert (B : INR i * k <= INR n * k).
  { apply Rmult_le_compat_r; [exact Hk |]. apply le_INR. lia. }
  lra.
Qed.

(** *** One axis *)
Lemma coarse_open d u : (1 <= d)%nat -> 0 < u ->
  exists m, coarse_creator d u 0 = Ok (lin m u) /\ coarse_compat d u 0 = Ok (lin m u) /\
    (2 <= m)%nat /\ INR d + u <= INR m * u < INR d + 2 * u.
Proof.
  intros Hd Hu. destruct d as [| d]; [lia |].
  assert (D : 1 <= INR (S d)) by (apply (le_INR 1); lia).
  pose proof (Rceil_spec ((INR (S d) / 2 + u - (- INR (S d) / 2 - u)) / u)) as C.
  replace (INR (S d) / 2 + u - (- INR (S d) / 2 - u)) with (INR (S d) + 2 * u) in C by field.
  set (c := Rceil _) in C.
  assert (E : (INR (S d) + 2 * u) / u = INR (S d) / u + 2) by (field; lra).
  assert (P : 0 < INR (S d) / u) by (apply Rdiv_lt_0_compat; lra).
  assert (C3 : (2 < c)%Z) by (apply lt_IZR; lra).
  exists (Z.to_nat (c - 1)).
  assert (CN : Z.to_nat c = S (Z.to_nat (c - 1))) by lia.
  assert (M : INR (Z.to_nat (c - 1)) = IZR c - 1).
  { rewrite INR_IZR_INZ, Z2Nat.id by lia. now rewrite minus_IZR. }
  assert (Q : center (arange (- INR (S d) / 2 - u) (INR (S d) / 2 + u) u) = Ok (lin (Z.to_nat (c - 1)) u)).
  { unfold arange.
    replace (INR (S d) / 2 + u - (- INR (S d) / 2 - u)) with (INR (S d) + 2 * u) by field.
    fold c. rewrite CN. apply center_lin. }
  unfold coarse_creator, coarse_compat. rewrite fine_lin. cbn [bind].
  unfold lin at 1 3. rewrite !first_last_map. cbn [bind Nat.eqb negb].
  split; [exact Q |]. split; [exact Q |]. split; [lia |].
  rewrite M. rewrite E in C.
  assert (K : INR (S d) / u * u = INR (S d)) by (field; lra).
  destruct C as [Ca Cb].
  apply (Rmult_le_compat_r u) in Ca; [| lra]. apply (Rmult_lt_compat_r u) in Cb; [| lra]. lra.
Qed.

Lemma linspace_lin a b m : center (linspace a b (S m)) = Ok (lin m ((b - a) / INR m)).
Proof.
  unfold linspace. replace (S m - 1)%nat with m by lia. apply center_lin.
Qed.

Lemma INR_pos n : n <> 0%nat -> 0 < INR n.
Proof. intros H. apply lt_0_INR. lia. Qed.

Lemma coarse_per_creator d u p : (1 <= d)%nat -> 0 < u -> p <> 0%nat -> u / 2 < INR d - 1 ->
  exists m, coarse_creator d u p = Ok (lin m (INR d / INR m)) /\ (1 <= m)%nat /\
    m = Z.to_nat (Rround ((INR d - 1) / u)) /\
    Rabs (INR m * u - (INR d - 1)) <= u / 2.
Proof.
  intros Hd Hu Hp Hs. destruct d as [| d]; [lia |].
  unfold coarse_creator. rewrite fine_lin. cbn [bind]. unfold lin at 1.
  rewrite first_last_map. cbn [bind fst snd].
  apply Nat.eqb_neq in Hp. rewrite Hp. cbn [negb].
  replace ((INR d - INR d / 2) * 1 - (INR 0 - INR d / 2) * 1) with (INR (S d) - 1)
    by (rewrite S_INR; cbn [INR]; field).
  set (x := (INR (S d) - 1) / u).
  assert (X : / 2 < x).
  { unfold x. apply Rmult_lt_reg_r with u; [exact Hu |].
    replace ((INR (S d) - 1) / u * u) with (INR (S d) - 1) by (field; lra). lra. }
  pose proof (Rround_pos X) as R1. pose proof (Rround_spec x) as R2.
  exists (Z.to_nat (Rround x)).
  replace (Z.to_nat (Rround x + 1)) with (S (Z.to_nat (Rround x))) by lia.
  rewrite linspace_lin.
  replace ((INR d - INR d / 2) * 1 + 1 - (INR 0 - INR d / 2) * 1) with (INR (S d))
    by (rewrite S_INR; cbn [INR]; field).
  split; [reflexivity |]. split; [lia |]. split; [reflexivity |].
  rewrite INR_IZR_INZ, Z2Nat.id by lia.
  replace (IZR (Rround x) * u - (INR (S d) - 1)) with ((IZR (Rround x) - x) * u)
    by (unfold x; field; lra).
  rewrite Rabs_mult, (Rabs_right u) by lra. 
  apply (Rmult_le_compat_r u) in R2; lra.
Qed.

Lemma coarse_per_compat d u p : (1 <= d)%nat -> 0 < u -> p <> 0%nat -> INR p * u / 2 < INR d ->
  exists r, (1 <= r)%nat /\ 
    coarse_compat d u p = Ok (lin (r * p) (INR d / INR (r * p))) /\
    Rabs (INR (r * p) * u - INR d) <= INR p * u / 2.
Proof.
  intros Hd Hu Hp Hs. destruct d as [| d]; [lia |].
  pose proof (INR_pos Hp) as IP.
  unfold coarse_compat. rewrite fine_lin. cbn [bind]. unfold lin at 1.
  rewrite first_last_map. cbn [bind fst snd].
  pose proof Hp as Hp'. apply Nat.eqb_neq in Hp'. rewrite Hp'. cbn [negb].
  replace ((INR d - INR d / 2) * 1 + 1 - (INR 0 - INR d / 2) * 1) with (INR (S d))
    by (rewrite S_INR; cbn [INR]; field).
  assert (PU : 0 < INR p * u) by (apply Rmult_lt_0_compat; assumption).
  set (x := INR (S d) / (INR p * u)).
  assert (X : / 2 < x).
  { unfold x. apply Rmult_lt_reg_r with (INR p * u); [exact PU |].
    replace (INR (S d) / (INR p * u) * (INR p * u)) with (INR (S d)) by (field; lra). lra. }
  pose proof (Rround_pos X) as R1. pose proof (Rround_spec x) as R2.
  exists (Z.to_nat (Rround x)). split; [lia |].
  replace (Z.to_nat (Rround x * Z.of_nat p + 1)) with (S (Z.to_nat (Rround x) * p)) by nia.
  rewrite linspace_lin.
  replace ((INR d - INR d / 2) * 1 + 1 - (INR 0 - INR d / 2) * 1) with (INR (S d))
    by (rewrite S_INR; cbn [INR]; field).
  split; [reflexivity |].
  rewrite mult_INR. rewrite (INR_IZR_INZ (Z.to_nat _)), Z2Nat.id by lia.
  replace (IZR (Rround x) * INR p * u - INR (S d)) with ((IZR (Rround x) - x) * (INR p * u))
    by (unfold x; field; lra).
  rewrite Rabs_mult, (Rabs_right (INR p * u)) by lra.
  apply (Rmult_le_compat_r (INR p * u)) in R2; lra.
Qed.

(** What every axis made by the creators provides *)
Definition axis_ok (d : nat) (p : nat) (q f : list R) : Prop :=
  grid_ok (negb (Nat.eqb p 0)) q /\ covers q f /\ length f = d /\
  balanced q 0 /\ balanced f 0 /\ equal_steps f 1 /\
  (exists h, 0 < h /\ equal_steps q h) /\
  (p <> 0%nat -> nth (length q - 1) q 0 - nth 0 q 0 = INR d).

Lemma open_axis d u : (1 <= d)%nat -> 0 < u ->
  exists q f, fine_grid d = Ok f /\ coarse_creator d u 0 = Ok q /\ coarse_compat d u 0 = Ok q /\
    axis_ok d 0 q f /\ equal_steps q u.
Proof.
  intros Hd Hu. destruct (coarse_open Hd Hu) as (m & E1 & E2 & M2 & B).
  destruct d as [| d]; [lia |].
  exists (lin m u), (lin d 1). split; [apply fine_lin |]. split; [exact E1 |]. split; [exact E2 |].
  split; [| apply lin_steps].
  assert (0 <= INR d) by apply pos_INR. rewrite S_INR in B.
  split; [split; [apply lin_increasing; exact Hu | rewrite lin_length; cbn; lia] |].
  split; [apply lin_covers; lra |]. split; [apply lin_length |].
  split; [apply lin_balanced |]. split; [apply lin_balanced |]. split; [apply lin_steps |].
  split; [exists u; split; [exact Hu | apply lin_steps] |]. intros H0. now elim H0.
Qed.

Lemma closed_axis d m p : (1 <= d)%nat -> (1 <= m)%nat -> p <> 0%nat ->
  axis_ok d p (lin m (INR d / INR m)) (lin (d - 1) 1).
Proof.
  intros Hd Hm Hp. assert (D : 0 < INR d) by (apply INR_pos; lia).
  assert (M : 0 < INR m) by (apply INR_pos; lia).
  assert (H : 0 < INR d / INR m) by (now apply Rdiv_lt_0_compat).
  assert (K : INR m * (INR d / INR m) = INR d) by (field; lra).
  pose proof Hp as Hp'. apply Nat.eqb_neq in Hp'. unfold axis_ok. rewrite Hp'. cbn [negb].
  split; [split; [now apply lin_increasing | rewrite lin_length; cbn; lia] |].
  split. { apply lin_covers; [lra |]. rewrite minus_INR by lia. cbn [INR]. lra. }
  split; [rewrite lin_length; lia |].
  split; [apply lin_balanced |]. split; [apply lin_balanced |]. split; [apply lin_steps |].
  split; [eexists; split; [exact H | apply lin_steps] |].
  intros _. destruct (lin_ends m (INR d / INR m)) as [-> ->]. lra.
Qed.

Lemma fine_lin' d : (1 <= d)%nat -> fine_grid d = Ok (lin (d - 1) 1).
Proof. intros H. destruct d; [lia |]. rewrite fine_lin. f_equal. f_equal. lia. Qed.

Lemma plan_axis d u p : 0 < u -> plan_size d u p ->
  exists q f, fine_grid d = Ok f /\ coarse_creator d u p = Ok q /\ axis_ok d p q f /\
    (p <> 0%nat -> independent true (length q) = Z.to_nat (Rround ((INR d - 1) / u))).
Proof.
  intros Hu [Hd S]. destruct (Nat.eq_dec p 0) as [-> | Hp].
  - destruct (open_axis Hd Hu) as (q & f & E1 & E2 & _ & A & _). exists q, f.
    split; [exact E1 |]. split; [exact E2 |]. split; [exact A |]. intros H. now elim H.
  - destruct (@coarse_per_creator d u p Hd Hu Hp (S Hp)) as (m & E & M1 & M2 & _).
    exists (lin m (INR d / INR m)), (lin (d - 1) 1).
    split; [now apply fine_lin' |]. split; [exact E |]. split; [now apply closed_axis |].
    intros _. unfold independent. rewrite lin_length. lia.
Qed.

Lemma goos_axis d u p : 0 < u -> goos_size d u p ->
  exists q f, fine_grid d = Ok f /\ coarse_compat d u p = Ok q /\ axis_ok d p q f /\
    fits p (independent (negb (Nat.eqb p 0)) (length q)).
Proof.
  intros Hu [Hd S]. destruct (Nat.eq_dec p 0) as [-> | Hp].
  - destruct (open_axis Hd Hu) as (q & f & E1 & _ & E2 & A & _). exists q, f.
    split; [exact E1 |]. split; [exact E2 |]. split; [exact A |]. now left.
  - destruct (@coarse_per_compat d u p Hd Hu Hp (S Hp)) as (r & R1 & E & _).
    exists (lin (r * p) (INR d / INR (r * p))), (lin (d - 1) 1).
    split; [now apply fine_lin' |]. split; [exact E |]. split; [apply closed_axis; auto; nia |].
    right. exists r. apply Nat.eqb_neq in Hp. rewrite Hp. unfold independent. cbn [negb].
    rewrite lin_length. lia.
Qed.

(** *** Whole parametrizations *)
Lemma var_geon p s n : divides p n ->
  var_axis (n + if negb (Nat.eqb p 0) then 1 else 0) p s = geon p s n.
Proof.
  intros D. unfold var_axis, geon, boundn, cellb, unitn.
  destruct (Nat.eqb_spec p 0) as [-> | Hp]; cbn [negb andb].
  - rewrite Nat.add_0_r, Nat.sub_0_r. cbn [Nat.max]. rewrite Nat.div_1_r.
    destruct s; rewrite ?Nat.add_0_r; reflexivity.
  - replace (n + 1 - 1)%nat with n by lia. replace (Nat.max p 1) with p by lia.
    destruct s; reflexivity.
Qed.

Lemma param_made init xq yq xs ys symm per periods :
  grid_ok (ax0 per) xq -> grid_ok (ax1 per) yq -> covers xq xs -> covers yq ys ->
  fits (ax0 periods) (independent (ax0 per) (length xq)) ->
  fits (ax1 periods) (independent (ax1 per) (length yq)) ->
  let n := (geon (ax0 periods) (ax0 symm) (independent (ax0 per) (length xq))
            * geon (ax1 periods) (ax1 symm) (independent (ax1 per) (length yq)))%nat in
  (length init = n \/ length init = (length xq * length yq)%nat) ->
  exists p, cubic_param (Array init) xq yq xs ys symm per periods 0 1 None = Ok p /\
    length (c_vector p) = n /\ c_cols p = n /\ (length init = n -> c_vector p = init).
Proof.
  intros Gx Gy Cx Cy F0 F1 n L.
  pose proof (grid_good Gx) as Gx'. pose proof (grid_good Gy) as Gy'.
  apply fits_divides in F0, F1.
  destruct (@geometry_views (length xq) (length yq) symm per periods
      (red_pos Gx') (red_pos Gy') F0 F1) as (geo & geof & rev & E1 & _ & V & _ & VR).
  assert (R1 : rows rev = n) by apply (v_rows VR).
  assert (R2 : cols rev = (length xq * length yq)%nat) by apply (v_cols VR).
  assert (R3 : cols geo = n) by apply (v_cols V).
  assert (R4 : rows geo = (n_red (ax0 per) xq * n_red (ax1 per) yq)%nat) by apply (v_rows V).
  unfold cubic_param. rewrite E1. cbn [bind]. rewrite R1, R2.
  destruct (@matrices_ok xs ys xq yq per Gx' Gy' Cx Cy) as (m & EM & _). rewrite EM.
  rewrite R4, Nat.eqb_refl, R3.
  destruct (Nat.eqb_spec (length init) n) as [Q | Q].
  - cbn [bind]. eexists. split; [reflexivity |]. cbn [c_vector c_cols]. auto.
  - destruct L as [L | L]; [contradiction |]. rewrite L, Nat.eqb_refl. cbn [bind].
    eexists. split; [reflexivity |]. cbn [c_vector c_cols]. rewrite map_length, seq_length.
    split; [reflexivity |]. split; [reflexivity |]. intros H. elim Q. now rewrite L.
Qed.

Lemma axes_iff p : negb (Nat.eqb p 0) = true <-> p <> 0%nat.
Proof. rewrite Bool.negb_true_iff. apply Nat.eqb_neq. Qed.

Lemma steps_1 f i m : equal_steps f 1 -> (i + m < length f)%nat -> nth (i + m) f 0 - nth i f 0 = INR m.
Proof.
  intros E H. apply steps_uniform in E. unfold uniform, nthR in E.
  rewrite (E (i + m)%nat H), (E i) by lia. rewrite plus_INR. ring.
Qed.

Lemma made_structures d0 d1 symm periods init qx qy fx fy p :
  axis_ok d0 (ax0 periods) qx fx -> axis_ok d1 (ax1 periods) qy fy ->
  cubic_param init qx qy fx fy symm (periodic_axes periods) periods 0 1 None = Ok p ->
  structures_ok d0 d1 symm periods p.
Proof.
  intros (Gx & Cx & Lx & Bx & Bfx & Sfx & (hx & Hx & Sx) & Px)
         (Gy & Cy & Ly & By & Bfy & Sfy & (hy & Hy & Sy) & Py) E v k z ES.
  set (per := periodic_axes periods) in *.
  assert (Gx' : grid_ok (ax0 per) qx) by exact Gx.
  assert (Gy' : grid_ok (ax1 per) qy) by exact Gy.
  split; [| split; [| split; [| split]]].
  - destruct (@structure_inv _ _ _ _ _ _ _ _ _ _ _ _ _ _ _ Gx' Gy' Cx Cy E ES) as (geo & rev & g & _ & _ & ->).
    rewrite (@flat_map_length _ _ _ (length fx)); [now rewrite Lx, Ly |]. intros. apply map_length.
  - intros S i j Hi Hj. rewrite <- Lx in *. rewrite <- Ly in *.
    apply (@structure_mirror_x _ _ _ _ _ _ _ _ _ _ _ _ _ _ _ 0 i j Gx' Gy' Cx Cy S (axes_iff _) Bx Bfx E ES Hi Hj).
  - intros S i j Hi Hj. rewrite <- Lx in *. rewrite <- Ly in *.
    apply (@structure_mirror_y _ _ _ _ _ _ _ _ _ _ _ _ _ _ _ 0 i j Gx' Gy' Cx Cy S (axes_iff _) By Bfy E ES Hi Hj).
  - intros m Hm i j Hi Hj.
    assert (Hp : ax0 periods <> 0%nat) by (intros H; rewrite H in Hm; lia).
    assert (IP : INR (ax0 periods) <> 0) by (apply not_0_INR; exact Hp).
    rewrite <- Lx in Hi |- *. rewrite <- Ly in Hj.
    apply (@structure_period_x init qx qy fx fy symm per periods 0 1 None p v k z hx m i j Gx' Gy' Cx Cy
             (proj2 (axes_iff _) Hp) Hp Hx Sx); auto.
    intros i0 H0. rewrite (Px Hp), (@steps_1 fx i0 m Sfx H0), Hm, mult_INR. field. exact IP.
  - intros m Hm i j Hi Hj.
    assert (Hp : ax1 periods <> 0%nat) by (intros H; rewrite H in Hm; lia).
    assert (IP : INR (ax1 periods) <> 0) by (apply not_0_INR; exact Hp).
    rewrite <- Lx in Hi |- *. rewrite <- Ly in Hj.
    apply (@structure_period_y init qx qy fx fy symm per periods 0 1 None p v k z hy m i j Gx' Gy' Cx Cy
             (proj2 (axes_iff _) Hp) Hp Hy Sy); auto.
    intros i0 H0. rewrite (Py Hp), (@steps_1 fy i0 m Sfy H0), Hm, mult_INR. field. exact IP.
Qed.

Lemma structures_set_k d0 d1 symm periods p k :
  structures_ok d0 d1 symm periods p -> structures_ok d0 d1 symm periods (set_k p k).
Proof. intros H v k' z ES. apply (H v k' z). destruct p; exact ES. Qed.

Lemma len_ind per (q : list R) : grid_ok per q ->
  length q = (independent per (length q) + if per then 1 else 0)%nat.
Proof. intros [_ L]. unfold independent. destruct per; lia. Qed.

Lemma goos_created d0 d1 u symm periods init :
  0 < u -> goos_size d0 u (ax0 periods) -> goos_size d1 u (ax1 periods) ->
  (forall n, length (init n) = n) ->
  exists p n, create_goos d0 d1 u symm periods init = Ok p /\
    c_vector p = init n /\ c_k p = 0 /\
    (forall v, length v = n -> exists z, get_structure (set_vector p v) = Ok z) /\
    structures_ok d0 d1 symm periods p.
Proof.
  intros Hu S0 S1 HI.
  destruct (goos_axis Hu S0) as (qx & fx & E1 & E2 & Ax & F0).
  destruct (goos_axis Hu S1) as (qy & fy & E3 & E4 & Ay & F1).
  unfold create_goos. rewrite E1, E3, E2, E4. cbn [bind].
  set (n := (_ * _)%nat).
  pose proof Ax as (Gx & Cx & _). pose proof Ay as (Gy & Cy & _).
  assert (N : n = (geon (ax0 periods) (ax0 symm) (independent (ax0 (periodic_axes periods)) (length qx))
            * geon (ax1 periods) (ax1 symm) (independent (ax1 (periodic_axes periods)) (length qy)))%nat).
  { unfold n. cbn [periodic_axes ax0 ax1]. f_equal.
    - rewrite (len_ind Gx) at 1. apply var_geon. now apply fits_divides.
    - rewrite (len_ind Gy) at 1. apply var_geon. now apply fits_divides. }
  destruct (@param_made (init n) qx qy fx fy symm (periodic_axes periods) periods Gx Gy Cx Cy F0 F1)
    as (p & EP & LP & CP & VP).
  { left. rewrite HI. exact N. }
  rewrite EP. cbn [bind]. exists (set_k p 0), n. split; [reflexivity |].
  split. { cbn [set_k c_vector]. apply VP. rewrite HI. exact N. }
  split; [reflexivity |]. split.
  - intros v Hv. unfold get_structure, z_cubic. cbn [set_k set_vector c_vector c_cols c_z c_k].
    rewrite CP, Hv, N, Nat.eqb_refl. cbn [bind]. eauto.
  - apply structures_set_k. now apply (@made_structures d0 d1 symm periods (Array (init n)) qx qy fx fy).
Qed.

Lemma plan_created d0 d1 u symm periods init :
  0 < u -> plan_size d0 u (ax0 periods) -> plan_size d1 u (ax1 periods) ->
  (forall n m, length (init n m) = (n * m)%nat) ->
  let fit d p := p = 0%nat \/ (Z.to_nat (Rround ((INR d - 1) / u)) mod p)%nat = 0%nat in
  (fit d0 (ax0 periods) -> fit d1 (ax1 periods) ->
   exists p, create_plan d0 d1 u symm periods init = Ok p /\ c_k p = 4 /\
    (exists z, get_structure p = Ok z) /\
    structures_ok d0 d1 symm periods p) /\
  (~ (fit d0 (ax0 periods) /\ fit d1 (ax1 periods)) ->
   create_plan d0 d1 u symm periods init = Err ValueError).
Proof.
  intros Hu S0 S1 HI fit.
  destruct (plan_axis Hu S0) as (qx & fx & E1 & E2 & Ax & F0).
  destruct (plan_axis Hu S1) as (qy & fy & E3 & E4 & Ay & F1).
  unfold create_plan. rewrite E1, E3, E2, E4. cbn [bind].
  pose proof Ax as (Gx & Cx & _). pose proof Ay as (Gy & Cy & _).
  assert (FX : fit d0 (ax0 periods) <-> divides (ax0 periods) (independent (ax0 (periodic_axes periods)) (length qx))).
  { unfold fit, divides. destruct (Nat.eq_dec (ax0 periods) 0) as [Z | Z]; [tauto |].
    cbn [periodic_axes ax0]. rewrite (proj2 (axes_iff _) Z), F0 by exact Z. tauto. }
  assert (FY : fit d1 (ax1 periods) <-> divides (ax1 periods) (independent (ax1 (periodic_axes periods)) (length qy))).
  { unfold fit, divides. destruct (Nat.eq_dec (ax1 periods) 0) as [Z | Z]; [tauto |].
    cbn [periodic_axes ax1]. rewrite (proj2 (axes_iff _) Z), F1 by exact Z. tauto. }
  split.
  - intros A B. apply FX, divides_fits in A. apply FY, divides_fits in B.
    destruct (@param_made (init (length qx) (length qy)) qx qy fx fy symm (periodic_axes periods) periods Gx Gy Cx Cy A B)
      as (p & EP & LP & CP & _).
    { right. apply HI. }
    exists p. split; [exact EP |].
    destruct (@param_inv _ _ _ _ _ _ (periodic_axes periods) _ _ _ _ _ Gx Gy Cx Cy EP)
      as (geo & rev & g & _ & _ & EK & _).
    split; [exact EK |]. split.
    + unfold get_structure, z_cubic. rewrite LP, CP, Nat.eqb_refl. cbn [bind]. eauto.
    + now apply (@made_structures d0 d1 symm periods (Array (init (length qx) (length qy))) qx qy fx fy).
  - intros N. unfold cubic_param.
    rewrite (@geometry_refuses (length qx) (length qy) symm (periodic_axes periods) periods false
      (red_pos (grid_good Gx)) (red_pos (grid_good Gy))); [reflexivity |].
    intros [A B]. apply N. split; [apply FX | apply FY]; now apply fits_divides.
Qed.
