(** Refusals and witnesses. *)
From Coq Require Import Reals Lra Lia.
From Verif Require Import Base Cub_Model Cub_Spec Cub_Proofs Cub_Proofs2 Cub_Proofs3 Cub_Proofs4
  Cub_Proofs5 Cub_Proofs6 Cub_Proofs7 Cub_Proofs8 Cub_Proofs9 Cub_Proofs10 Cub_Proofs11 Cub_Proofs12.
Set Implicit Arguments.
Open Scope R_scope.

Lemma first_last_nth l : l <> [] -> first_last l = Ok (nth 0 l 0, nth (length l - 1) l 0).
Proof.
  destruct l as [| a l]; [contradiction |]. intros _. cbn [first_last nth]. f_equal. f_equal.
  cbn [length]. replace (S (length l) - 1)%nat with (length l) by lia.
  assert (A : forall l a d, last (a :: l) d = nth (length l) (a :: l) 0).
  { clear. induction l as [| b l IH]; intros a d; [reflexivity |].
    change (last (a :: b :: l) d) with (last (b :: l) d). rewrite IH. reflexivity. }
  apply A.
Qed.

Lemma outside_refused xs ys xq yq per : xs <> [] -> ys <> [] -> xq <> [] -> yq <> [] ->
  nth 0 xs 0 < nth 0 xq 0 \/ nth 0 ys 0 < nth 0 yq 0 \/
  nth (length xq - 1) xq 0 < nth (length xs - 1) xs 0 \/
  nth (length yq - 1) yq 0 < nth (length ys - 1) ys 0 ->
  cubic_matrices xs ys xq yq per = Err ValueError.
Proof.
  intros A B C D H. unfold cubic_matrices. rewrite !first_last_nth by assumption. cbn [bind fst snd].
  repeat match goal with |- context [Rlt_dec ?a ?b] => destruct (Rlt_dec a b) end; cbn [orb]; try reflexivity.
  exfalso. tauto.
Qed.

Lemma knots xq yq per v f fx fy i j : grid_ok (ax0 per) xq -> grid_ok (ax1 per) yq ->
  surface_of xq yq per v f fx fy -> (i < length xq)%nat -> (j < length yq)%nat ->
  f (nth i xq 0) (nth j yq 0)
  = v ((if ax0 per then i mod independent true (length xq) else i)
       + independent (ax0 per) (length xq) * (if ax1 per then j mod independent true (length yq) else j))%nat.
Proof.
  intros Gx Gy S Hi Hj. pose proof (grid_good Gx) as Gx'. pose proof (grid_good Gy) as Gy'.
  pose proof (good_2 Gx'). pose proof (good_2 Gy').
  destruct (@surface_is xq yq per v f fx fy Gx Gy S (nth i xq 0) (nth j yq 0)) as [-> _].
  - apply within_knot; [apply Gx' | exact Hi].
  - apply within_knot; [apply Gy' | exact Hj].
  - fold (nthR xq i). fold (nthR yq j). rewrite surface_knots by assumption.
    unfold arr. rewrite !wrapb_mod by assumption. reflexivity.
Qed.

Lemma slopes xq yq per v f fx fy x y : grid_ok (ax0 per) xq -> grid_ok (ax1 per) yq ->
  surface_of xq yq per v f fx fy -> within xq x -> within yq y ->
  slope_at (nth 0 xq 0) (nth (length xq - 1) xq 0) (fun t => f t y) x (fx x y) /\
  slope_at (nth 0 yq 0) (nth (length yq - 1) yq 0) (fun t => f x t) y (fy x y).
Proof.
  intros Gx Gy S Hx Hy. pose proof (@surface_is xq yq per v f fx fy Gx Gy S) as I.
  destruct (@surf_slopes xq yq per v x y (grid_good Gx) (grid_good Gy) Hx Hy) as [A B].
  destruct (I x y Hx Hy) as (E0 & E1 & E2). rewrite E1, E2. split.
  - intros eps He. destruct (A eps He) as (dl & Hd & H). exists dl. split; [exact Hd |].
    intros h H1 H2 H3. rewrite E0. rewrite (proj1 (I (x + h) y H3 Hy)). now apply H.
  - intros eps He. destruct (B eps He) as (dl & Hd & H). exists dl. split; [exact Hd |].
    intros h H1 H2 H3. rewrite E0. rewrite (proj1 (I x (y + h) Hx H3)). now apply H.
Qed.

Lemma quadratics xq yq v f fx fy a0 a1 a2 b0 b1 b2 c0 c1 c2 :
  let p x y := (a0 + a1 * x + a2 * x ^ 2) + (b0 + b1 * x + b2 * x ^ 2) * y
               + (c0 + c1 * x + c2 * x ^ 2) * y ^ 2 in
  grid_ok false xq -> grid_ok false yq -> surface_of xq yq (Two false false) v f fx fy ->
  (forall i j, (i < length xq)%nat -> (j < length yq)%nat ->
     v (i + length xq * j)%nat = p (nth i xq 0) (nth j yq 0)) ->
  forall x y, within xq x -> within yq y -> f x y = p x y.
Proof.
  intros p Gx Gy S V x y Hx Hy.
  destruct (@surface_is xq yq (Two false false) v f fx fy Gx Gy S x y Hx Hy) as [-> _].
  exact (@surf_quadratic xq yq v a0 a1 a2 b0 b1 b2 c0 c1 c2 x y (grid_good Gx) (grid_good Gy) Hx Hy V).
Qed.

Lemma constants xq yq per v f fx fy a :
  grid_ok (ax0 per) xq -> grid_ok (ax1 per) yq -> surface_of xq yq per v f fx fy ->
  (forall r, (r < independent (ax0 per) (length xq) * independent (ax1 per) (length yq))%nat -> v r = a) ->
  forall x y, within xq x -> within yq y -> f x y = a.
Proof.
  intros Gx Gy S V x y Hx Hy.
  destruct (@surface_is xq yq per v f fx fy Gx Gy S x y Hx Hy) as [-> _].
  exact (@surf_const xq yq per v a x y (grid_good Gx) (grid_good Gy) Hx Hy V).
Qed.

(** concrete grids *)
Lemma steps_grid (b : bool) m : ((if b then 1 else 2) <= m)%nat -> grid_ok b (map INR (seq 0 (S m))).
Proof.
  intros H. split.
  - intros i j [Hij Hj]. rewrite map_length, seq_length in Hj.
    change 0 with (INR 0). rewrite !map_nth, !seq_nth by lia. apply lt_INR. lia.
  - rewrite map_length, seq_length. destruct b; lia.
Qed.

(** A mirror asked for on an axis declared periodic but with no periods. *)
Lemma not_mirrored :
  exists p z,
    cubic_param (Scalar 0) [0; 1; 2; 3] [0; 1; 2] [1; 2] [1] (Two true false) (Two true false)
      (Two 0 0)%nat 0 1 None = Ok p /\
    get_structure (set_k (set_vector p [1; 0; 1; 0; 1; 0]) 0) = Ok z /\
    entry 2 z 0 0 = 0 /\ entry 2 z 1 0 = 1.
Proof.
  assert (Gx : grid_ok (ax0 (Two true false)) [0; 1; 2; 3]).
  { assert (E : [0; 1; 2; 3] = map INR (seq 0 4)) by (cbn; repeat f_equal; lra).
    cbn [ax0]. rewrite E. now apply (@steps_grid true 3); lia. }
  assert (Gy : grid_ok (ax1 (Two true false)) [0; 1; 2]).
  { assert (E : [0; 1; 2] = map INR (seq 0 3)) by (cbn; repeat f_equal; lra).
    cbn [ax1]. rewrite E. now apply (@steps_grid false 2); lia. }
  assert (Cx : covers [0; 1; 2; 3] [1; 2]).
  { split; [discriminate |]. intros t [<- | [<- | []]]; unfold within; cbn; lra. }
  assert (Cy : covers [0; 1; 2] [1]) by (apply covers_one; unfold within; cbn; lra).
  destruct (make_geometry_matrix (Two 4 3)%nat (Two true false) (Two true false) (Two 0 0)%nat false)
    as [[[geo rev] g] | e] eqn:EG; [| vm_compute in EG; discriminate].
  assert (RR : rows geo = 9%nat /\ cols geo = 6%nat /\ at_ geo 4 = 3%nat /\ at_ geo 5 = 2%nat)
    by (vm_compute in EG; injection EG as <- _ _; repeat split; reflexivity).
  destruct RR as (R1 & R2 & R3 & R4).
  assert (E : exists p, cubic_param (Scalar 0) [0; 1; 2; 3] [0; 1; 2] [1; 2] [1] (Two true false) (Two true false)
      (Two 0 0)%nat 0 1 None = Ok p).
  { unfold cubic_param. cbn [length]. rewrite EG. cbn [bind].
    destruct (matrices_ok (Two true false) (grid_good Gx) (grid_good Gy) Cx Cy) as (m & -> & _).
    cbn [bind ax0 ax1 n_red length Nat.sub Nat.mul Nat.add]. rewrite R1. cbn [Nat.eqb]. eauto. }
  destruct E as [p E]. exists p.
  destruct (@param_inv _ _ _ _ _ _ (Two true false) _ _ _ _ _ Gx Gy Cx Cy E)
    as (geo' & rev' & g' & EG' & EC & _).
  cbn [length] in EG'. rewrite EG in EG'. injection EG' as <- <- <-.
  destruct (get_structure (set_k (set_vector p [1; 0; 1; 0; 1; 0]) 0)) as [z | e] eqn:ES.
  2:{ unfold get_structure, z_cubic in ES. cbn [set_k set_vector c_vector c_cols c_k c_z length] in ES.
      rewrite EC, R2 in ES. discriminate. }
  exists z. split; [exact E |]. split; [reflexivity |].
  destruct (@structure_inv _ _ _ _ _ _ (Two true false) _ _ _ _ _ _ _ _ Gx Gy Cx Cy E ES)
    as (geo' & rev' & g' & EG' & _ & ->).
  cbn [length] in EG'. rewrite EG in EG'. injection EG' as <- <- <-.
  change 2%nat with (length [1; 2]).
  set (F := fun x y => finish 0 (surf [0; 1; 2; 3] [0; 1; 2] (Two true false)
       (sapply geo (nthR [1; 0; 1; 0; 1; 0])) x y)).
  rewrite !(entry_flat F) by (cbn; lia).
  pose proof (@surface_knots [0; 1; 2; 3] [0; 1; 2] (Two true false)
    (sapply geo (nthR [1; 0; 1; 0; 1; 0])) 1 1 (grid_good Gx) (grid_good Gy)
    ltac:(cbn; lia) ltac:(cbn; lia)) as K1.
  pose proof (@surface_knots [0; 1; 2; 3] [0; 1; 2] (Two true false)
    (sapply geo (nthR [1; 0; 1; 0; 1; 0])) 2 1 (grid_good Gx) (grid_good Gy)
    ltac:(cbn; lia) ltac:(cbn; lia)) as K2.
  unfold arr, sapply in K1, K2. cbn [ax0 ax1 wrapb wrap n_red length] in K1, K2.
  change (wrap 4 1 + n_red true [0%R; 1%R; 2%R; 3%R] * 1)%nat with 4%nat in K1. rewrite R3 in K1.
  change (wrap 4 2 + n_red true [0%R; 1%R; 2%R; 3%R] * 1)%nat with 5%nat in K2. rewrite R4 in K2.
  change (nthR [1; 0; 1; 0; 1; 0] 3) with 0 in K1. change (nthR [1; 0; 1; 0; 1; 0] 2) with 1 in K2.
  unfold F, finish. destruct (Req_EM_T 0 0); [| contradiction].
  split; [exact K1 | exact K2].
Qed.

(** 10 pixels, undersampled by 3, two periods *)
Lemma plan_refused init : (forall n m, length (init n m) = (n * m)%nat) ->
  create_plan 10 10 3 (Two false false) (Two 2 0)%nat init = Err ValueError.
Proof.
  intros HI.
  assert (R : Z.to_nat (Rround ((INR 10 - 1) / 3)) = 3%nat).
  { replace ((INR 10 - 1) / 3) with (IZR 3) by (cbn; lra). now rewrite Rround_int. }
  destruct (@plan_created 10 10 3 (Two false false) (Two 2 0)%nat init) as [_ H]; auto.
  - lra.
  - split; [lia |]. intros _. cbn. lra.
  - split; [lia |]. intros N. now elim N.
  - apply H. cbn [ax0 ax1]. rewrite R. intros [[A | A] _]; discriminate A.
Qed.
