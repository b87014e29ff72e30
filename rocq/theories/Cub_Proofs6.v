(** The matrices of the code are the product of interpolations along the axes. *)
From Coq Require Import Reals Lra Lia.
From Verif Require Import Base Cub_Model Cub_Spec Cub_Proofs Cub_Proofs2 Cub_Proofs4 Cub_Proofs5.
Set Implicit Arguments.
Open Scope R_scope.

Lemma periodicity_view nx ny per :
  (ax0 per = true -> 2 <= nx)%nat -> (ax1 per = true -> 2 <= ny)%nat ->
  forall i j, (i < nx)%nat -> (j < ny)%nat ->
  at_ (periodicity_matrix nx ny per) (i + nx * j)
  = (wrapb (ax0 per) nx i + redn (ax0 per) nx * wrapb (ax1 per) ny j)%nat.
Proof.
  intros H0 H1 i j Hi Hj. unfold periodicity_matrix, redn, wrapb.
  destruct (ax0 per), (ax1 per); cbn [at_ rows cols eye]; cbv zeta.
  - specialize (H0 eq_refl). specialize (H1 eq_refl).
    rewrite (v_at (view_dup_y nx H1)) by assumption.
    pose proof (@wrap_lt ny j H1).
    rewrite (v_at (view_dup_x (ny - 1) H0)) by lia. reflexivity.
  - specialize (H0 eq_refl).
    rewrite (v_at (view_dup_x (ny - 0) H0)) by lia. reflexivity.
  - specialize (H1 eq_refl).
    rewrite (v_at (view_dup_y nx H1)) by assumption. rewrite Nat.sub_0_r. reflexivity.
  - now rewrite Nat.sub_0_r.
Qed.

(** the control values as an array *)
Definition arr (per : two bool) (xq : list R) (v : nat -> R) (i j : nat) : R :=
  v (i + n_red (ax0 per) xq * j)%nat.

Section surface.
  Variables xq yq : list R.
  Variable per : two bool.
  Hypothesis Gx : good (ax0 per) xq.
  Hypothesis Gy : good (ax1 per) yq.

  Let nx := n_red (ax0 per) xq.
  Let ny := n_red (ax1 per) yq.
  Let V (v : nat -> R) i j := arr per xq v i j.

  Lemma node v i j : (i < length xq)%nat -> (j < length yq)%nat ->
    sapply (periodicity_matrix (length xq) (length yq) per) v (i + length xq * j)
    = V v (wrapb (ax0 per) (length xq) i) (wrapb (ax1 per) (length yq) j).
  Proof.
    intros Hi Hj. unfold sapply, V, arr. rewrite periodicity_view; auto.
    - intros _. apply (good_2 Gx).
    - intros _. apply (good_2 Gy).
  Qed.

  Lemma diff_x_at v i j : (i < nx)%nat ->
    V (diff_x xq yq per v) i j = dquad (per_ext (ax0 per) xq) (ax0 per) nx i (fun k => V v k j).
  Proof.
    intros Hi. unfold V, arr, diff_x. fold nx. rewrite flat_mod, flat_div by exact Hi. reflexivity.
  Qed.
  Lemma diff_y_at v i j : (i < nx)%nat ->
    V (diff_y xq yq per v) i j = dquad (per_ext (ax1 per) yq) (ax1 per) ny j (fun k => V v i k).
  Proof.
    intros Hi. unfold V, arr, diff_y. fold nx. fold ny. rewrite flat_mod, flat_div by exact Hi. reflexivity.
  Qed.

  Definition two_d (J : (nat -> R) -> R) (K : (nat -> R) -> R) v : R :=
    K (fun k => J (fun m => V v k m)).

  Lemma n_ge3 q b : good b q -> b = false -> (3 <= n_red b q)%nat.
  Proof. intros [_ G] ->. unfold n_red. lia. Qed.

  Section cellxy.
    Variables cx cy : nat.
    Hypothesis Hcx : (S cx < length xq)%nat.
    Hypothesis Hcy : (S cy < length yq)%nat.

    Lemma slope_herm v y i : (i < length xq)%nat ->
      slope (ax0 per) xq (fun k => H1d (ax1 per) yq (V v k) cy y) i =
      herm (nthR yq (S cy) - nthR yq cy)
        (slope (ax0 per) xq (fun k => V v k (wrapb (ax1 per) (length yq) cy)) i)
        (slope (ax0 per) xq (fun k => V v k (wrapb (ax1 per) (length yq) (S cy))) i)
        (slope (ax0 per) xq (fun k => slope (ax1 per) yq (V v k) cy) i)
        (slope (ax0 per) xq (fun k => slope (ax1 per) yq (V v k) (S cy)) i)
        (y - nthR yq cy).
    Proof.
      intros Hi. unfold H1d, herm. set (u := (y - nthR yq cy) / _).
      set (d := nthR yq (S cy) - nthR yq cy).
      rewrite (@slope_ext _ _ _ _ (fun k =>
        (1 - 3 * u ^ 2 + 2 * u ^ 3) * V v k (wrapb (ax1 per) (length yq) cy)
        + 1 * ((3 * u ^ 2 - 2 * u ^ 3) * V v k (wrapb (ax1 per) (length yq) (S cy))
        + 1 * (d * (u - 2 * u ^ 2 + u ^ 3) * slope (ax1 per) yq (V v k) cy
        + d * (u ^ 3 - u ^ 2) * slope (ax1 per) yq (V v k) (S cy)))) Gx Hi).
      2:{ intros k Hk. ring. }
      rewrite (slope_linear _ _ _ (1 - 3 * u ^ 2 + 2 * u ^ 3) 1).
      rewrite (slope_linear _ _ _ (3 * u ^ 2 - 2 * u ^ 3) 1).
      rewrite slope_linear. ring.
    Qed.

    Lemma slope_herm' v y i : (i < length xq)%nat ->
      slope (ax0 per) xq (fun k => H1d' (ax1 per) yq (V v k) cy y) i =
      herm' (nthR yq (S cy) - nthR yq cy)
        (slope (ax0 per) xq (fun k => V v k (wrapb (ax1 per) (length yq) cy)) i)
        (slope (ax0 per) xq (fun k => V v k (wrapb (ax1 per) (length yq) (S cy))) i)
        (slope (ax0 per) xq (fun k => slope (ax1 per) yq (V v k) cy) i)
        (slope (ax0 per) xq (fun k => slope (ax1 per) yq (V v k) (S cy)) i)
        (y - nthR yq cy).
    Proof.
      intros Hi. unfold H1d', herm'. set (u := (y - nthR yq cy) / _).
      set (d := nthR yq (S cy) - nthR yq cy).
      rewrite (@slope_ext _ _ _ _ (fun k =>
        (/ d * (6 * u ^ 2 - 6 * u)) * V v k (wrapb (ax1 per) (length yq) cy)
        + 1 * ((/ d * (6 * u - 6 * u ^ 2)) * V v k (wrapb (ax1 per) (length yq) (S cy))
        + 1 * ((1 - 4 * u + 3 * u ^ 2) * slope (ax1 per) yq (V v k) cy
        + (3 * u ^ 2 - 2 * u) * slope (ax1 per) yq (V v k) (S cy)))) Gx Hi).
      2:{ intros k Hk. unfold Rdiv. ring. }
      rewrite (slope_linear _ _ _ (/ d * (6 * u ^ 2 - 6 * u)) 1).
      rewrite (slope_linear _ _ _ (/ d * (6 * u - 6 * u ^ 2)) 1).
      rewrite slope_linear. unfold Rdiv. ring.
    Qed.

    Lemma corners_eq v :
      let wx := wrapb (ax0 per) (length xq) in
      let wy := wrapb (ax1 per) (length yq) in
      let f i j := V v (wx i) (wy j) in
      let fx i j := slope (ax0 per) xq (fun k => V v k (wy j)) i in
      let fy i j := slope (ax1 per) yq (V v (wx i)) j in
      let fxy i j := slope (ax0 per) xq (fun k => slope (ax1 per) yq (V v k) j) i in
      corners xq yq per v cx cy =
      [f cx cy; f (S cx) cy; f cx (S cy); f (S cx) (S cy);
       fx cx cy; fx (S cx) cy; fx cx (S cy); fx (S cx) (S cy);
       fy cx cy; fy (S cx) cy; fy cx (S cy); fy (S cx) (S cy);
       fxy cx cy; fxy (S cx) cy; fxy cx (S cy); fxy (S cx) (S cy)].
    Proof.
      cbv zeta. unfold corners. cbn [app]. rewrite !Nat.add_1_r.
      rewrite !node by lia.
      assert (W : forall i, (i < length xq)%nat -> (wrapb (ax0 per) (length xq) i < nx)%nat).
      { intros i Hi. apply wrapb_lt; auto. apply (good_2 Gx). }
      assert (DX : forall i j, (i < length xq)%nat ->
        V (diff_x xq yq per v) (wrapb (ax0 per) (length xq) i) j
        = slope (ax0 per) xq (fun k => V v k j) i).
      { intros i j Hi. rewrite diff_x_at by (apply W, Hi). reflexivity. }
      assert (DY : forall i j, (i < length xq)%nat ->
        V (diff_y xq yq per v) (wrapb (ax0 per) (length xq) i) (wrapb (ax1 per) (length yq) j)
        = slope (ax1 per) yq (V v (wrapb (ax0 per) (length xq) i)) j).
      { intros i j Hi. rewrite diff_y_at by (apply W, Hi). reflexivity. }
      assert (DXY : forall i j, (i < length xq)%nat ->
        V (diff_x xq yq per (diff_y xq yq per v)) (wrapb (ax0 per) (length xq) i)
          (wrapb (ax1 per) (length yq) j)
        = slope (ax0 per) xq (fun k => slope (ax1 per) yq (V v k) j) i).
      { intros i j Hi. rewrite diff_x_at by (apply W, Hi).
        unfold slope at 1. apply dquad_ext.
        - apply W, Hi.
        - intros E. now apply n_ge3.
        - intros k Hk. rewrite diff_y_at by exact Hk. reflexivity. }
      rewrite !DX, !DY, !DXY by lia. reflexivity.
    Qed.

    Lemma point_value_eq v x y : 
      point_value xq yq per v cx cy x y =
      (H1d (ax0 per) xq (fun k => H1d (ax1 per) yq (V v k) cy y) cx x,
       H1d' (ax0 per) xq (fun k => H1d (ax1 per) yq (V v k) cy y) cx x,
       H1d (ax0 per) xq (fun k => H1d' (ax1 per) yq (V v k) cy y) cx x).
    Proof.
      unfold point_value. rewrite !Nat.add_1_r. rewrite corners_eq. cbv zeta.
      destruct Gx as [Ix _]. destruct Gy as [Iy _].
      pose proof (gap Ix Hcx). pose proof (gap Iy Hcy).
      rewrite row_f, row_fx, row_fy by lra.
      f_equal; [f_equal |].
      - unfold H1d at 1. rewrite !slope_herm by lia. reflexivity.
      - unfold H1d'. rewrite !slope_herm by lia. reflexivity.
      - unfold H1d at 1. rewrite !slope_herm' by lia. reflexivity.
    Qed.
  End cellxy.
End surface.
