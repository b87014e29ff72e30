(** Structures of CubicParam: mirror symmetry, periods. *)
From Coq Require Import Reals Lra Lia.
From Verif Require Import Base Cub_Model Cub_Spec Cub_Proofs Cub_Proofs2 Cub_Proofs3 Cub_Proofs4
  Cub_Proofs5 Cub_Proofs6 Cub_Proofs7 Cub_Proofs8 Cub_Proofs9.
Set Implicit Arguments.
Open Scope R_scope.

Lemma n_red_independent per q : n_red per q = independent per (length q).
Proof. reflexivity. Qed.

Lemma balanced_mirrored q c : balanced q c -> mirrored q (2 * c).
Proof. intros B i Hi. specialize (B i Hi). unfold nthR. lra. Qed.

Lemma steps_uniform q d : equal_steps q d -> uniform q d.
Proof.
  intros E i. induction i as [| i IH]; intros Hi.
  - unfold nthR. cbn [INR]. ring.
  - specialize (E i Hi). fold (nthR q (S i)) in E. fold (nthR q i) in E.
    rewrite S_INR. rewrite IH in E by lia. lra.
Qed.

(** values along a line of control points that keeps the symmetry *)
Lemma keeps_ev per q p g : good per q -> (per = true <-> p <> 0%nat) ->
  keeps p true (n_red per q) g ->
  forall i, (i < length q)%nat -> ev per q g (length q - 1 - i) = ev per q g i.
Proof.
  intros G P (K1 & K2 & K3) i Hi. pose proof (good_2 G) as L2.
  unfold ev. rewrite !wrapb_mod by lia.
  unfold n_red in *. destruct per.
  - assert (Hp : p <> 0%nat) by now apply P.
    destruct (Nat.eq_dec i 0) as [-> | N0].
    { rewrite Nat.sub_0_r, Nat.mod_same, Nat.mod_0_l by lia. reflexivity. }
    destruct (Nat.eq_dec i (length q - 1)) as [-> | N1].
    { rewrite Nat.mod_same by lia. rewrite Nat.sub_diag, Nat.mod_0_l by lia. reflexivity. }
    rewrite !Nat.mod_small by lia. apply (K3 eq_refl Hp i). lia.
  - assert (Hp : p = 0%nat).
    { destruct (Nat.eq_dec p 0); [assumption |]. apply P in n. discriminate. }
    rewrite Nat.sub_0_r in K2. now apply (K2 eq_refl Hp).
Qed.

Section surf.
  Variables (xq yq : list R) (per : two bool) (v : nat -> R).
  Hypothesis Gx : good (ax0 per) xq.
  Hypothesis Gy : good (ax1 per) yq.
  Let nx := n_red (ax0 per) xq.
  Let ny := n_red (ax1 per) yq.

  Lemma red_lt b (q : list R) i : good b q -> (i < length q)%nat -> (wrapb b (length q) i < n_red b q)%nat.
  Proof.
    intros G Hi. pose proof (good_2 G). rewrite wrapb_mod by lia. unfold n_red.
    destruct b; [apply Nat.mod_upper_bound |]; lia.
  Qed.

  Lemma surf_mirror_x p s x y : (ax0 per = true <-> p <> 0%nat) -> mirrored xq s ->
    (forall j, (j < ny)%nat -> keeps p true nx (fun i => v (i + nx * j)%nat)) ->
    inside xq x -> inside yq y ->
    surf xq yq per v (s - x) y = surf xq yq per v x y.
  Proof.
    intros P M K Hx Hy. unfold surf. apply I1_mirror; auto.
    intros i Hi. unfold ev.
    apply (@I1_ext (ax1 per) yq); auto. intros m Hm.
    apply (@keeps_ev (ax0 per) xq p (fun i => arr per xq v i m) Gx P (K m Hm) i Hi).
  Qed.

  Lemma surf_mirror_y p s x y : (ax1 per = true <-> p <> 0%nat) -> mirrored yq s ->
    (forall i, (i < nx)%nat -> keeps p true ny (fun j => v (i + nx * j)%nat)) ->
    inside xq x -> inside yq y ->
    surf xq yq per v x (s - y) = surf xq yq per v x y.
  Proof.
    intros P M K Hx Hy. unfold surf. apply (@I1_ext (ax0 per) xq); auto. intros k Hk.
    apply I1_mirror; auto. 
    exact (@keeps_ev (ax1 per) yq p (arr per xq v k) Gy P (K k Hk)).
  Qed.

  Lemma keeps_weaken p s n g : keeps p s n g -> keeps p false n g.
  Proof. intros (K & _). split; [exact K |]. split; intros H; discriminate H. Qed.

  Lemma surf_period_x p s d x y : ax0 per = true -> p <> 0%nat -> divides p nx -> 0 < d -> uniform xq d ->
    (forall j, (j < ny)%nat -> keeps p s nx (fun i => v (i + nx * j)%nat)) ->
    inside xq x -> inside xq (x + INR (nx / p) * d) -> inside yq y ->
    surf xq yq per v (x + INR (nx / p) * d) y = surf xq yq per v x y.
  Proof.
    intros P Hp F Hd U K Hx Hx2 Hy.
    assert (G' : good true xq) by (rewrite <- P; exact Gx).
    assert (N : nx = (length xq - 1)%nat) by (unfold nx, n_red; now rewrite P).
    unfold surf. rewrite P. rewrite N in *.
    apply (@I1_period xq (fun k => I1 (ax1 per) yq (arr per xq v k) y) d p G' Hd U Hp F);
      [| exact Hx | exact Hx2].
    split; [| split; intros H; discriminate H].
    intros _ i Hi. apply (@I1_ext (ax1 per) yq); auto. intros m Hm.
    destruct (K m Hm) as (K1 & _). unfold arr. fold nx. rewrite N. apply (K1 Hp). exact Hi.
  Qed.

  Lemma surf_period_y p s d x y : ax1 per = true -> p <> 0%nat -> divides p ny -> 0 < d -> uniform yq d ->
    (forall i, (i < nx)%nat -> keeps p s ny (fun j => v (i + nx * j)%nat)) ->
    inside xq x -> inside yq y -> inside yq (y + INR (ny / p) * d) ->
    surf xq yq per v x (y + INR (ny / p) * d) = surf xq yq per v x y.
  Proof.
    intros P Hp F Hd U K Hx Hy Hy2.
    assert (G' : good true yq) by (rewrite <- P; exact Gy).
    assert (N : ny = (length yq - 1)%nat) by (unfold ny, n_red; now rewrite P).
    unfold surf. apply (@I1_ext (ax0 per) xq); auto. intros k Hk. rewrite P.
    rewrite N in *.
    apply (@I1_period yq (arr per xq v k) d p G' Hd U Hp F); [| exact Hy | exact Hy2].
    apply (keeps_weaken (K k Hk)).
  Qed.
End surf.

(** ** CubicParam *)

Lemma flat_map_length {A B} (f : A -> list B) n l : (forall a, length (f a) = n) ->
  length (flat_map f l) = (n * length l)%nat.
Proof. intros H. induction l as [| a l IH]; cbn; [lia |]. rewrite app_length, H, IH. lia. Qed.

Lemma entry_flat (F : R -> R -> R) xs ys i j : (i < length xs)%nat -> (j < length ys)%nat ->
  entry (length xs) (flat_map (fun y => map (fun x => F x y) xs) ys) i j
  = F (nthR xs i) (nthR ys j).
Proof.
  intros Hi. unfold entry. revert j. induction ys as [| y ys IH]; intros j Hj; cbn in Hj; [lia |].
  cbn [flat_map]. destruct j as [| j].
  - rewrite Nat.mul_0_r, Nat.add_0_r. rewrite app_nth1 by (rewrite map_length; exact Hi).
    rewrite (nth_indep _ 0 (F 0 y)) by (rewrite map_length; exact Hi).
    rewrite (map_nth (fun x => F x y)). reflexivity.
  - rewrite app_nth2 by (rewrite map_length; lia). rewrite map_length.
    replace (i + length xs * S j - length xs)%nat with (i + length xs * j)%nat by lia.
    apply IH. lia.
Qed.

Definition finish (k t : R) : R :=
  if Req_EM_T k 0 then t else 1 / (1 + exp (- k * (2 * t - 1))).

Lemma param_inv init xq yq xs ys symm per periods lo up b p :
  grid_ok (ax0 per) xq -> grid_ok (ax1 per) yq -> covers xq xs -> covers yq ys ->
  cubic_param init xq yq xs ys symm per periods lo up b = Ok p ->
  exists geo rev g,
    make_geometry_matrix (Two (length xq) (length yq)) symm per periods false = Ok (geo, rev, g) /\
    c_cols p = cols geo /\ c_k p = 4 /\
    c_lower p = (match b with Some t => fst t | None => lo end) /\
    c_upper p = (match b with Some t => snd t | None => up end) /\
    (forall c, init = Scalar c -> c_vector p = repeat c (cols geo)) /\
    (forall l, init = Array l -> length l = rows rev -> c_vector p = l) /\
    forall v, c_z p v = flat_map (fun y => map (fun x =>
      (surf xq yq per (sapply geo v) x y, surf_x xq yq per (sapply geo v) x y,
       surf_y xq yq per (sapply geo v) x y)) xs) ys.
Proof.
  intros Gx Gy Cx Cy E. unfold cubic_param in E.
  destruct (make_geometry_matrix _ symm per periods false) as [[[geo rev] g] | e] eqn:EG; [| discriminate].
  cbn [bind] in E.
  destruct (match init with Scalar c => _ | Array l => _ end) as [vec | e] eqn:EV; [| discriminate].
  cbn [bind] in E.
  destruct (matrices_ok per (grid_good Gx) (grid_good Gy) Cx Cy) as (m & EM & HM).
  rewrite EM in E. cbn [bind] in E.
  exists geo, rev, g. split; [reflexivity |].
  assert (S : c_cols p = cols geo /\ c_k p = 4 /\ c_z p = (fun v => m (sapply geo v)) /\
     c_vector p = vec /\
    c_lower p = (match b with Some t => fst t | None => lo end) /\
    c_upper p = (match b with Some t => snd t | None => up end)).
  { destruct b as [[b0 b1] |]; destruct (Nat.eqb _ _); try discriminate; injection E as <-; cbn; auto 9. }
  destruct S as (S1 & S2 & S3 & S4 & S5 & S6).
  do 4 (split; [assumption |]).
  split; [| split].
  - intros c ->. injection EV as <-. exact S4.
  - intros l -> Hl. rewrite Hl, Nat.eqb_refl in EV. injection EV as <-. exact S4.
  - intros v. rewrite S3. cbv beta. apply HM.
Qed.

Lemma structure_inv init xq yq xs ys symm per periods lo up b p v k z :
  grid_ok (ax0 per) xq -> grid_ok (ax1 per) yq -> covers xq xs -> covers yq ys ->
  cubic_param init xq yq xs ys symm per periods lo up b = Ok p ->
  get_structure (set_k (set_vector p v) k) = Ok z ->
  exists geo rev g,
    make_geometry_matrix (Two (length xq) (length yq)) symm per periods false = Ok (geo, rev, g) /\
    length v = cols geo /\
    z = flat_map (fun y => map (fun x => finish k (surf xq yq per (sapply geo (nthR v)) x y)) xs) ys.
Proof.
  intros Gx Gy Cx Cy E ES.
  destruct (@param_inv _ _ _ _ _ _ _ _ _ _ _ _ Gx Gy Cx Cy E) as (geo & rev & g & EG & EC & EK & _ & _ & _ & _ & EZ).
  exists geo, rev, g. split; [exact EG |].
  unfold get_structure, z_cubic in ES. cbn [set_k set_vector c_vector c_cols c_k c_z] in ES.
  destruct (Nat.eqb_spec (length v) (c_cols p)) as [EL | _]; [| discriminate].
  cbn [bind] in ES. rewrite EZ in ES. split; [congruence |].
  assert (M : forall (f : R -> R), map f (map (fun t => fst (fst t)) (flat_map (fun y => map (fun x =>
      (surf xq yq per (sapply geo (nthR v)) x y, surf_x xq yq per (sapply geo (nthR v)) x y,
       surf_y xq yq per (sapply geo (nthR v)) x y)) xs) ys))
     = flat_map (fun y => map (fun x => f (surf xq yq per (sapply geo (nthR v)) x y)) xs) ys).
  { intros f. rewrite !flat_map_concat_map, !concat_map, !map_map. f_equal. apply map_ext. intros y.
    rewrite !map_map. reflexivity. }
  unfold finish. destruct (Req_EM_T k 0) as [_ | _].
  - injection ES as <-. rewrite <- (M (fun t => t)). now rewrite map_id.
  - injection ES as <-. apply M.
Qed.

Lemma red_pos per q : good per q -> (1 <= independent per (length q))%nat.
Proof. intros G. pose proof (good_2 G). unfold independent. destruct per; lia. Qed.

Lemma covers_nth q l i : covers q l -> (i < length l)%nat -> inside q (nthR l i).
Proof. intros [_ C] Hi. apply C. apply nth_In. exact Hi. Qed.

Lemma structure_mirror_x init xq yq xs ys symm per periods lo up b p v k z c i j :
  grid_ok (ax0 per) xq -> grid_ok (ax1 per) yq -> covers xq xs -> covers yq ys ->
  ax0 symm = true -> (ax0 per = true <-> ax0 periods <> 0%nat) ->
  balanced xq c -> balanced xs c ->
  cubic_param init xq yq xs ys symm per periods lo up b = Ok p ->
  get_structure (set_k (set_vector p v) k) = Ok z ->
  (i < length xs)%nat -> (j < length ys)%nat ->
  entry (length xs) z (length xs - 1 - i) j = entry (length xs) z i j.
Proof.
  intros Gx Gy Cx Cy HS HP Bq Bx E ES Hi Hj.
  destruct (@structure_inv _ _ _ _ _ _ _ _ _ _ _ _ _ _ _ Gx Gy Cx Cy E ES) as (geo & rev & g & EG & EL & ->).
  pose proof (grid_good Gx) as Gx'. pose proof (grid_good Gy) as Gy'.
  rewrite !entry_flat by lia. f_equal.
  assert (X : nthR xs (length xs - 1 - i) = 2 * c - nthR xs i)
    by (apply (balanced_mirrored Bx); exact Hi).
  rewrite X.
  destruct (@geometry_main (length xq) (length yq) symm per periods geo rev g
    (red_pos Gx') (red_pos Gy') EG) as (_ & _ & K & _).
  apply (@surf_mirror_x xq yq per (sapply geo (nthR v)) Gx' Gy' (ax0 periods)); auto.
  - now apply balanced_mirrored.
  - intros m Hm. specialize (K (nthR v) m Hm). rewrite HS in K. exact K.
  - now apply covers_nth.
  - now apply covers_nth.
Qed.

Lemma structure_mirror_y init xq yq xs ys symm per periods lo up b p v k z c i j :
  grid_ok (ax0 per) xq -> grid_ok (ax1 per) yq -> covers xq xs -> covers yq ys ->
  ax1 symm = true -> (ax1 per = true <-> ax1 periods <> 0%nat) ->
  balanced yq c -> balanced ys c ->
  cubic_param init xq yq xs ys symm per periods lo up b = Ok p ->
  get_structure (set_k (set_vector p v) k) = Ok z ->
  (i < length xs)%nat -> (j < length ys)%nat ->
  entry (length xs) z i (length ys - 1 - j) = entry (length xs) z i j.
Proof.
  intros Gx Gy Cx Cy HS HP Bq Bx E ES Hi Hj.
  destruct (@structure_inv _ _ _ _ _ _ _ _ _ _ _ _ _ _ _ Gx Gy Cx Cy E ES) as (geo & rev & g & EG & EL & ->).
  pose proof (grid_good Gx) as Gx'. pose proof (grid_good Gy) as Gy'.
  rewrite !entry_flat by lia. f_equal.
  assert (X : nthR ys (length ys - 1 - j) = 2 * c - nthR ys j)
    by (apply (balanced_mirrored Bx); exact Hj).
  rewrite X.
  destruct (@geometry_main (length xq) (length yq) symm per periods geo rev g
    (red_pos Gx') (red_pos Gy') EG) as (_ & _ & _ & K & _).
  apply (@surf_mirror_y xq yq per (sapply geo (nthR v)) Gx' Gy' (ax1 periods)); auto.
  - now apply balanced_mirrored.
  - intros m Hm. specialize (K (nthR v) m Hm). rewrite HS in K. exact K.
  - now apply covers_nth.
  - now apply covers_nth.
Qed.

Lemma structure_period_x init xq yq xs ys symm per periods lo up b p v k z d m i j :
  grid_ok (ax0 per) xq -> grid_ok (ax1 per) yq -> covers xq xs -> covers yq ys ->
  ax0 per = true -> ax0 periods <> 0%nat -> 0 < d -> equal_steps xq d ->
  (forall i, (i + m < length xs)%nat ->
     nth (i + m) xs 0 - nth i xs 0 = (nth (length xq - 1) xq 0 - nth 0 xq 0) / INR (ax0 periods)) ->
  cubic_param init xq yq xs ys symm per periods lo up b = Ok p ->
  get_structure (set_k (set_vector p v) k) = Ok z ->
  (i + m < length xs)%nat -> (j < length ys)%nat ->
  entry (length xs) z (i + m) j = entry (length xs) z i j.
Proof.
  intros Gx Gy Cx Cy HP Hp Hd U X E ES Hi Hj.
  destruct (@structure_inv _ _ _ _ _ _ _ _ _ _ _ _ _ _ _ Gx Gy Cx Cy E ES) as (geo & rev & g & EG & EL & ->).
  pose proof (grid_good Gx) as Gx'. pose proof (grid_good Gy) as Gy'.
  pose proof (good_2 Gx').
  rewrite !entry_flat by lia. f_equal.
  destruct (@geometry_divides _ _ _ _ _ _ _ EG) as [D _].
  apply steps_uniform in U.
  set (n := independent (ax0 per) (length xq)) in *.
  assert (N : n = (length xq - 1)%nat) by (unfold n, independent; now rewrite HP).
  assert (T : nthR xs (i + m) = nthR xs i + INR (n / ax0 periods) * d).
  { specialize (X i Hi). unfold nthR. fold (nthR xq (length xq - 1)) in X.
    rewrite (@U (length xq - 1)%nat) in X by lia. rewrite <- N in X.
    fold (nthR xq 0) in X. destruct D as [D | D]; [contradiction |].
    rewrite (@div_exact n _ Hp D) in X at 1. rewrite mult_INR in X.
    assert (INR (ax0 periods) <> 0) by (apply not_0_INR; exact Hp).
    replace ((nthR xq 0 + INR (ax0 periods) * INR (n / ax0 periods) * d - nthR xq 0) / INR (ax0 periods))
      with (INR (n / ax0 periods) * d) in X by (field; assumption). lra. }
  rewrite T.
  destruct (@geometry_main (length xq) (length yq) symm per periods geo rev g
    (red_pos Gx') (red_pos Gy') EG) as (_ & _ & K & _).
  apply (@surf_period_x xq yq per (sapply geo (nthR v)) Gx' Gy' (ax0 periods) (ax0 symm) d); auto.
  - apply covers_nth; [assumption | lia].
  - change (n_red (ax0 per) xq) with n. rewrite <- T. now apply covers_nth.
  - now apply covers_nth.
Qed.

Lemma structure_period_y init xq yq xs ys symm per periods lo up b p v k z d m i j :
  grid_ok (ax0 per) xq -> grid_ok (ax1 per) yq -> covers xq xs -> covers yq ys ->
  ax1 per = true -> ax1 periods <> 0%nat -> 0 < d -> equal_steps yq d ->
  (forall i, (i + m < length ys)%nat ->
     nth (i + m) ys 0 - nth i ys 0 = (nth (length yq - 1) yq 0 - nth 0 yq 0) / INR (ax1 periods)) ->
  cubic_param init xq yq xs ys symm per periods lo up b = Ok p ->
  get_structure (set_k (set_vector p v) k) = Ok z ->
  (i < length xs)%nat -> (j + m < length ys)%nat ->
  entry (length xs) z i (j + m) = entry (length xs) z i j.
Proof.
  intros Gx Gy Cx Cy HP Hp Hd U X E ES Hi Hj.
  destruct (@structure_inv _ _ _ _ _ _ _ _ _ _ _ _ _ _ _ Gx Gy Cx Cy E ES) as (geo & rev & g & EG & EL & ->).
  pose proof (grid_good Gx) as Gx'. pose proof (grid_good Gy) as Gy'.
  pose proof (good_2 Gy').
  rewrite !entry_flat by lia. f_equal.
  destruct (@geometry_divides _ _ _ _ _ _ _ EG) as [_ D].
  apply steps_uniform in U.
  set (n := independent (ax1 per) (length yq)) in *.
  assert (N : n = (length yq - 1)%nat) by (unfold n, independent; now rewrite HP).
  assert (T : nthR ys (j + m) = nthR ys j + INR (n / ax1 periods) * d).
  { specialize (X j Hj). unfold nthR. fold (nthR yq (length yq - 1)) in X.
    rewrite (@U (length yq - 1)%nat) in X by lia. rewrite <- N in X.
    fold (nthR yq 0) in X. destruct D as [D | D]; [contradiction |].
    rewrite (@div_exact n _ Hp D) in X at 1. rewrite mult_INR in X.
    assert (INR (ax1 periods) <> 0) by (apply not_0_INR; exact Hp).
    replace ((nthR yq 0 + INR (ax1 periods) * INR (n / ax1 periods) * d - nthR yq 0) / INR (ax1 periods))
      with (INR (n / ax1 periods) * d) in X by (field; assumption). lra. }
  rewrite T.
  destruct (@geometry_main (length xq) (length yq) symm per periods geo rev g
    (red_pos Gx') (red_pos Gy') EG) as (_ & _ & _ & K & _).
  apply (@surf_period_y xq yq per (sapply geo (nthR v)) Gx' Gy' (ax1 periods) (ax1 symm) d); auto.
  - now apply covers_nth.
  - apply covers_nth; [assumption | lia].
  - change (n_red (ax1 per) yq) with n. rewrite <- T. now apply covers_nth.
Qed.
