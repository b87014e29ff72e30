(** The surface: existence, control points, polynomials, slopes. *)
From Coq Require Import Reals Lra Lia.
From Verif Require Import Base Cub_Model Cub_Spec Cub_Proofs Cub_Proofs2 Cub_Proofs4
  Cub_Proofs5 Cub_Proofs6.
Set Implicit Arguments.
Open Scope R_scope.

Lemma grid_good per q : grid_ok per q -> good per q.
Proof. intros [H L]. split; [| exact L]. intros i j Hij Hj. apply H. lia. Qed.

Lemma incr_monotonic q : incr q -> monotonic q = true.
Proof.
  induction q as [| a q IH]; intros H; [reflexivity |].
  destruct q as [| b q]; [reflexivity |].
  cbn [monotonic]. assert (a < b) by apply (H 0%nat 1%nat ltac:(lia) ltac:(cbn; lia)).
  destruct (Rle_dec a b); [| lra]. cbn [andb]. apply IH, (incr_tail H).
Qed.

Lemma mapM_ok {A B} (f : A -> res B) (g : A -> B) l :
  (forall a, In a l -> f a = Ok (g a)) -> mapM f l = Ok (map g l).
Proof.
  induction l as [| a l IH]; intros H; [reflexivity |].
  cbn. rewrite H by now left. cbn. rewrite IH by (intros; apply H; now right). reflexivity.
Qed.

Lemma first_last_in l : l <> [] -> exists a b, first_last l = Ok (a, b) /\ In a l /\ In b l.
Proof.
  destruct l as [| a l]; [congruence |]. intros _. exists a, (last (a :: l) a).
  split; [reflexivity |]. split; [now left |].
  destruct (@exists_last _ (a :: l) ltac:(discriminate)) as (l' & z & E).
  rewrite E, last_last. apply in_or_app. right. now left.
Qed.

Lemma first_last_q q : (1 <= length q)%nat ->
  first_last q = Ok (nthR q 0, nthR q (length q - 1)).
Proof.
  destruct q as [| a q]; cbn [length]; [lia |]. intros _. unfold first_last.
  destruct (@exists_last _ (a :: q) ltac:(discriminate)) as (l' & z & E).
  f_equal. f_equal. unfold nthR.
  assert (L : length (a :: q) = length (l' ++ [z])) by now rewrite E.
  rewrite app_length in L. cbn [length] in L.
  rewrite E, last_last. replace (S (length q) - 1)%nat with (length l') by lia.
  rewrite app_nth2 by lia. now rewrite Nat.sub_diag.
Qed.

Lemma combine_map {A B} (g : A -> B) l : combine l (map g l) = map (fun a => (a, g a)) l.
Proof. induction l as [| a l IH]; cbn; [reflexivity |]. now rewrite IH. Qed.

Lemma flat_map_map {A B C} (g : A -> B) (f : B -> list C) l :
  flat_map f (map g l) = flat_map (fun a => f (g a)) l.
Proof. induction l as [| a l IH]; cbn; [reflexivity |]. now rewrite IH. Qed.

Lemma dquad_check_ok per q : good per q -> dquad_check per q = Ok tt.
Proof.
  intros [_ L]. unfold dquad_check. destruct per; cbn [negb andb]; [reflexivity |].
  destruct (Nat.ltb_spec (length q) 3); [lia | reflexivity].
Qed.

Definition surf xq yq per v x y :=
  I1 (ax0 per) xq (fun k => I1 (ax1 per) yq (arr per xq v k) y) x.
Definition surf_x xq yq per v x y :=
  I1' (ax0 per) xq (fun k => I1 (ax1 per) yq (arr per xq v k) y) x.
Definition surf_y xq yq per v x y :=
  I1 (ax0 per) xq (fun k => I1' (ax1 per) yq (arr per xq v k) y) x.

Lemma matrices_ok xs ys xq yq per :
  good (ax0 per) xq -> good (ax1 per) yq -> covers xq xs -> covers yq ys ->
  exists m, cubic_matrices xs ys xq yq per = Ok m /\
  forall v, m v = flat_map (fun y => map (fun x =>
    (surf xq yq per v x y, surf_x xq yq per v x y, surf_y xq yq per v x y)) xs) ys.
Proof.
  intros Gx Gy [Nx Cx] [Ny Cy]. unfold cubic_matrices.
  pose proof (good_2 Gx) as Lx. pose proof (good_2 Gy) as Ly.
  destruct (first_last_in Nx) as (a & b & -> & Ha & Hb).
  destruct (first_last_in Ny) as (c & d & -> & Hc & Hd).
  rewrite !first_last_q by lia. cbn [bind fst snd].
  pose proof (Cx a Ha) as [A1 A2]. pose proof (Cx b Hb) as [B1 B2].
  pose proof (Cy c Hc) as [C1 C2]. pose proof (Cy d Hd) as [D1 D2].
  fold (nthR xq 0) in *. fold (nthR yq 0) in *.
  fold (nthR xq (length xq - 1)) in *. fold (nthR yq (length yq - 1)) in *.
  destruct (Rlt_dec a (nthR xq 0)); [lra |]. destruct (Rlt_dec c (nthR yq 0)); [lra |].
  destruct (Rlt_dec (nthR xq (length xq - 1)) b); [lra |].
  destruct (Rlt_dec (nthR yq (length yq - 1)) d); [lra |]. cbn [orb].
  destruct Gx as [Ix Gx]. destruct Gy as [Iy Gy].
  rewrite (incr_monotonic Ix), (incr_monotonic Iy). cbn [andb negb].
  rewrite (@mapM_ok _ _ (cell xq) (cellc xq)) by (intros t Ht; apply cell_ok; auto; now apply Cx).
  rewrite (@mapM_ok _ _ (cell yq) (cellc yq)) by (intros t Ht; apply cell_ok; auto; now apply Cy).
  cbn [bind]. rewrite !dquad_check_ok by (split; assumption). cbn [bind].
  eexists. split; [reflexivity |]. intros v. cbv beta.
  rewrite !combine_map, flat_map_map.
  rewrite !flat_map_concat_map. f_equal. apply map_ext_in. intros y Hy.
  rewrite map_map. apply map_ext_in. intros x Hx. cbn [fst snd].
  destruct (@cell_ok xq x Ix Lx (Cx x Hx)) as (_ & Sx & _).
  destruct (@cell_ok yq y Iy Ly (Cy y Hy)) as (_ & Sy & _).
  rewrite point_value_eq by (try split; assumption). reflexivity.
Qed.

Lemma surface_exists xq yq per : grid_ok (ax0 per) xq -> grid_ok (ax1 per) yq ->
  forall v, surface_of xq yq per v (surf xq yq per v) (surf_x xq yq per v) (surf_y xq yq per v).
Proof.
  intros Gx Gy v xs ys Cx Cy.
  destruct (matrices_ok per (grid_good Gx) (grid_good Gy) Cx Cy) as (m & E & H).
  exists m. auto.
Qed.

Lemma covers_one q t : within q t -> covers q [t].
Proof. intros H. split; [discriminate |]. intros s [<- | []]. exact H. Qed.

Lemma surface_is xq yq per v f fx fy : grid_ok (ax0 per) xq -> grid_ok (ax1 per) yq ->
  surface_of xq yq per v f fx fy -> forall x y, within xq x -> within yq y ->
  f x y = surf xq yq per v x y /\ fx x y = surf_x xq yq per v x y /\
  fy x y = surf_y xq yq per v x y.
Proof.
  intros Gx Gy S x y Hx Hy.
  destruct (S [x] [y] (covers_one Hx) (covers_one Hy)) as (m & E & H).
  destruct (matrices_ok per (grid_good Gx) (grid_good Gy) (covers_one Hx) (covers_one Hy)) as (m' & E' & H').
  rewrite E in E'. injection E' as <-. rewrite H' in H. cbn in H. injection H as -> -> ->. auto.
Qed.

(** ** Control points *)

Lemma wrapb_mod per (q : list R) i : (2 <= length q)%nat -> (i < length q)%nat ->
  wrapb per (length q) i = if per then (i mod (length q - 1))%nat else i.
Proof.
  intros L Hi. destruct per; [| reflexivity]. cbn [wrapb]. unfold wrap.
  destruct (Nat.ltb_spec i (length q - 1)).
  - symmetry. now apply Nat.mod_small.
  - replace i with (length q - 1)%nat by lia. symmetry. apply Nat.mod_same. lia.
Qed.

Lemma within_knot q i : incr q -> (i < length q)%nat -> within q (nthR q i).
Proof. intros H Hi. split; apply incr_le; auto; lia. Qed.

Lemma surface_knots xq yq per v i j :
  good (ax0 per) xq -> good (ax1 per) yq -> (i < length xq)%nat -> (j < length yq)%nat ->
  surf xq yq per v (nthR xq i) (nthR yq j) =
  arr per xq v (wrapb (ax0 per) (length xq) i) (wrapb (ax1 per) (length yq) j).
Proof.
  intros Gx Gy Hi Hj. pose proof (good_2 Gx). pose proof (good_2 Gy).
  destruct Gx as [Ix _], Gy as [Iy _]. unfold surf.
  rewrite (proj1 (@I1_knot (ax0 per) xq _ i Ix H Hi)).
  apply (proj1 (@I1_knot (ax1 per) yq _ j Iy H0 Hj)).
Qed.

(** ** Quadratic polynomials *)

Lemma slope_quadratic q a b c i : good false q -> (i < length q)%nat ->
  slope false q (fun k => a + b * nthR q k + c * nthR q k ^ 2) i = b + 2 * c * nthR q i.
Proof.
  intros [I L] Hi. unfold slope, n_red, per_ext, wrapb, dquad. rewrite Nat.sub_0_r.
  cbn [negb]. rewrite !andb_true_r.
  destruct (Nat.eqb_spec i (length q - 1)) as [E | N].
  - assert (nthR q (i - 2) < nthR q (i - 1)) by (apply I; lia).
    assert (nthR q (i - 1) < nthR q i) by (apply I; lia).
    field. lra.
  - destruct (Nat.eqb_spec i 0) as [E | N2].
    + assert (nthR q i < nthR q (i + 1)) by (apply I; lia).
      assert (nthR q (i + 1) < nthR q (i + 2)) by (apply I; lia).
      field. lra.
    + destruct i as [| k]; [lia |]. destruct (Nat.eqb_spec (S k + 1) (length q)); [lia |].
      assert (nthR q k < nthR q (S k)) by (apply I; lia).
      assert (nthR q (S k) < nthR q (S k + 1)) by (apply I; lia).
      field. lra.
Qed.

Lemma I1_quadratic q a b c t : good false q -> inside q t ->
  I1 false q (fun k => a + b * nthR q k + c * nthR q k ^ 2) t = a + b * t + c * t ^ 2 /\
  I1' false q (fun k => a + b * nthR q k + c * nthR q k ^ 2) t = b + 2 * c * t.
Proof.
  intros G IN. pose proof G as [I L]. assert (L2 : (2 <= length q)%nat) by lia.
  destruct (cell_ok I L2 IN) as (_ & C & _). unfold I1, I1'. set (k := cellc q t) in *.
  clearbody k. unfold H1d, H1d'. rewrite !slope_quadratic by (auto; lia). cbn [wrapb].
  pose proof (gap I C). unfold herm, herm'. split; field; lra.
Qed.

Lemma ext_in per q i : (i < length q)%nat -> nthR (per_ext per q) i = nthR q i.
Proof.
  intros H. unfold per_ext. destruct per; [| reflexivity]. unfold nthR. now rewrite app_nth1.
Qed.
Lemma ext_last q : nthR (per_ext true q) (length (per_ext true q) - 1)
  = nthR q 0 - (nthR q (length q - 1) - nthR q (length q - 2)).
Proof.
  unfold per_ext. rewrite app_length. cbn [length].
  replace (length q + 1 - 1)%nat with (length q) by lia. unfold nthR at 1.
  rewrite app_nth2, Nat.sub_diag by lia. reflexivity.
Qed.

Lemma slope_const per q a i : good per q -> (i < length q)%nat ->
  slope per q (fun _ => a) i = 0.
Proof.
  intros G Hi. destruct per.
  - destruct G as [I L]. unfold slope, n_red. cbn [wrapb].
    pose proof (@wrap_lt (length q) i L) as W. set (k := wrap (length q) i) in *. clearbody k.
    unfold dquad. cbn [negb]. rewrite !andb_false_r.
    assert (E : forall x y : R, x < 0 -> 0 < y ->
      - y ^ 2 / (x * y * (x - y)) * a + (y ^ 2 - x ^ 2) / (x * y * (x - y)) * a
      + x ^ 2 / (x * y * (x - y)) * a = 0).
    { intros x y Hx Hy. field. lra. }
    apply E.
    + rewrite (@ext_in true q k) by lia. destruct k as [| k].
      * rewrite ext_last.
        assert (nthR q (length q - 2) < nthR q (length q - 1)) by (apply I; lia). lra.
      * rewrite ext_in by lia. assert (nthR q k < nthR q (S k)) by (apply I; lia). lra.
    + rewrite !ext_in by lia. assert (nthR q k < nthR q (k + 1)) by (apply I; lia). lra.
  - pose proof (@slope_quadratic q a 0 0 i G Hi) as S.
    rewrite <- (@slope_ext false q i (fun k => a + 0 * nthR q k + 0 * nthR q k ^ 2)); auto.
    + rewrite S. ring.
    + intros k Hk. ring.
Qed.

Lemma I1_const per q a t : good per q -> inside q t ->
  I1 per q (fun _ => a) t = a /\ I1' per q (fun _ => a) t = 0.
Proof.
  intros G IN. pose proof (good_2 G) as L2. pose proof G as [I _].
  destruct (cell_ok I L2 IN) as (_ & C & _). unfold I1, I1'. set (k := cellc q t) in *.
  clearbody k. unfold H1d, H1d'. rewrite !slope_const by (auto; lia).
  pose proof (gap I C). unfold herm, herm'. split; field; lra.
Qed.
