(** Values and gradients of CubicParam. *)
From Coq Require Import Reals Lra Lia.
From Verif Require Import Base Cub_Model Cub_Spec Cub_Proofs Cub_Proofs2 Cub_Proofs3 Cub_Proofs4
  Cub_Proofs5 Cub_Proofs6 Cub_Proofs7 Cub_Proofs8 Cub_Proofs9 Cub_Proofs10.
Set Implicit Arguments.
Open Scope R_scope.

(** *** k <> 0 *)
Lemma structure_open p k z : k <> 0 -> get_structure (set_k p k) = Ok z ->
  forall t, In t z -> 0 < t < 1.
Proof.
  intros Hk E t Ht. unfold get_structure in E.
  destruct (z_cubic (set_k p k)) as [w | e]; [| discriminate].
  cbn [bind set_k c_k] in E. destruct (Req_EM_T k 0); [contradiction |].
  injection E as <-. apply in_map_iff in Ht. destruct Ht as (s & <- & _).
  pose proof (exp_pos (- k * (2 * s - 1))) as P. set (e := exp _) in *.
  unfold Rdiv. rewrite Rmult_1_l. split.
  - apply Rinv_0_lt_compat. lra.
  - rewrite <- Rinv_1 at 2. apply Rinv_lt_contravar; lra.
Qed.

(** *** Uniform control values *)
Lemma structure_uniform init xq yq xs ys symm per periods lo up b p a k :
  grid_ok (ax0 per) xq -> grid_ok (ax1 per) yq -> covers xq xs -> covers yq ys ->
  cubic_param init xq yq xs ys symm per periods lo up b = Ok p ->
  exists m, (forall v, length v = m -> exists z, get_structure (set_vector p v) = Ok z) /\
    (forall v, length v <> m -> get_structure (set_vector p v) = Err ValueError) /\
    get_structure (set_k (set_vector p (repeat a m)) k)
    = Ok (repeat (if Req_EM_T k 0 then a else 1 / (1 + exp (- k * (2 * a - 1))))
            (length xs * length ys)).
Proof.
  intros Gx Gy Cx Cy E.
  destruct (@param_inv _ _ _ _ _ _ _ _ _ _ _ _ Gx Gy Cx Cy E)
    as (geo & rev & g & EG & EC & EK & _ & _ & _ & _ & EZ).
  exists (cols geo). split; [| split].
  - intros v Hv. unfold get_structure, z_cubic. cbn [set_vector c_vector c_cols c_z c_k].
    rewrite EC, Hv, Nat.eqb_refl. cbn [bind]. eauto.
  - intros v Hv. unfold get_structure, z_cubic. cbn [set_vector c_vector c_cols c_z c_k].
    rewrite EC. apply Nat.eqb_neq in Hv. rewrite Hv. reflexivity.
  - destruct (get_structure (set_k (set_vector p (repeat a (cols geo))) k)) as [z | e] eqn:ES.
    2:{ unfold get_structure, z_cubic in ES. cbn [set_k set_vector c_vector c_cols c_z c_k] in ES.
        rewrite repeat_length, EC, Nat.eqb_refl in ES. discriminate. }
    f_equal.
    destruct (@structure_inv _ _ _ _ _ _ _ _ _ _ _ _ _ _ _ Gx Gy Cx Cy E ES)
      as (geo' & rev' & g' & EG' & _ & ->).
    rewrite EG in EG'. injection EG' as <- <- <-.
    pose proof (grid_good Gx) as Gx'. pose proof (grid_good Gy) as Gy'.
    destruct (@geometry_divides _ _ _ _ _ _ _ EG) as [D0 D1].
    destruct (@geometry_views (length xq) (length yq) symm per periods
      (red_pos Gx') (red_pos Gy') D0 D1) as (geo' & geof & rev' & E1 & _ & V & _).
    rewrite EG in E1. injection E1 as <- <- Hg.
    assert (S : forall x y, In x xs -> In y ys ->
       surf xq yq per (sapply geo (nthR (repeat a (cols geo)))) x y = a).
    { intros x y Hx Hy. apply surf_const; auto.
      - now apply Cx.
      - now apply Cy.
      - intros r Hr. change (n_red (ax0 per) xq) with (redn (ax0 per) (length xq)) in Hr.
        change (n_red (ax1 per) yq) with (redn (ax1 per) (length yq)) in Hr.
        destruct (flat_split _ _ Hr) as (i & j & Hi & Hj & ->).
        unfold sapply. rewrite (v_at V) by assumption. unfold nthR. 
        apply (repeat_spec (cols geo) a). apply nth_In. rewrite repeat_length, (v_cols V).
        apply flat_lt; [apply (v_fx V Hi) | apply (v_fy V Hj)]. }
    fold (finish k a). clear - S. revert S. generalize (sapply geo (nthR (repeat a (cols geo)))). intros u S.
    induction ys as [| y ys' IH]; cbn [flat_map length].
    + now rewrite Nat.mul_0_r.
    + rewrite IH by (intros; apply S; [assumption | now right]).
      assert (M : map (fun x => finish k (surf xq yq per u x y)) xs = repeat (finish k a) (length xs)).
      { clear IH. induction xs as [| x xs' IH]; cbn [map length repeat]; [reflexivity |].
        rewrite S by (now left). f_equal. apply IH. intros; apply S; [now right | assumption]. }
      rewrite M, <- repeat_app. f_equal. lia.
Qed.

(** *** Gradient *)
Lemma finish_derivative k t w :
  derivative_at_0 (fun h => finish k (t + h * w))
    ((if Req_EM_T k 0 then 1 else 2 * k * exp (- k * (2 * t - 1)) / (1 + exp (- k * (2 * t - 1))) ^ 2) * w).
Proof.
  assert (D : derivable_pt_lim (fun h => finish k (t + h * w)) 0
    ((if Req_EM_T k 0 then 1 else 2 * k * exp (- k * (2 * t - 1)) / (1 + exp (- k * (2 * t - 1))) ^ 2) * w)).
  { unfold finish. destruct (Req_EM_T k 0) as [_ | _].
    - assert (A : derivable_pt_lim ((fct_cte t + mult_real_fct w id)%F) 0 (0 + w * 1)).
      { apply derivable_pt_lim_plus; [apply derivable_pt_lim_const |].
        apply derivable_pt_lim_scal. apply derivable_pt_lim_id. }
      replace (1 * w) with (0 + w * 1) by ring.
      intros eps He. destruct (A eps He) as (dl & Hd). exists dl. intros h H1 H2.
      specialize (Hd h H1 H2). unfold plus_fct, fct_cte, mult_real_fct, id in Hd.
      replace (t + (0 + h) * w - (t + 0 * w)) with (t + w * (0 + h) - (t + w * 0)) by ring. exact Hd.
    - set (a := - k * (2 * t - 1)). set (b := - k * (2 * w)).
      assert (A : derivable_pt_lim (fct_cte a + mult_real_fct b id)%F 0 (0 + b * 1)).
      { apply derivable_pt_lim_plus; [apply derivable_pt_lim_const |].
        apply derivable_pt_lim_scal. apply derivable_pt_lim_id. }
      assert (V0 : (fct_cte a + mult_real_fct b id)%F 0 = a)
        by (unfold plus_fct, fct_cte, mult_real_fct, id; ring).
      pose proof (@derivable_pt_lim_comp _ exp 0 _ (exp a) A) as B.
      rewrite V0 in B. specialize (B (derivable_pt_lim_exp a)).
      assert (C : derivable_pt_lim (fct_cte 1 + comp exp (fct_cte a + mult_real_fct b id))%F 0
                    (0 + exp a * (0 + b * 1))).
      { apply derivable_pt_lim_plus; [apply derivable_pt_lim_const | exact B]. }
      pose proof (@derivable_pt_lim_div (fct_cte 1) _ 0 0 _
        (derivable_pt_lim_const 1 0) C) as Dv.
      assert (V1 : (fct_cte 1 + comp exp (fct_cte a + mult_real_fct b id))%F 0 = 1 + exp a).
      { unfold plus_fct at 1, comp. rewrite V0. reflexivity. }
      rewrite V1 in Dv. pose proof (exp_pos a).
      specialize (Dv ltac:(lra)).
      replace (2 * k * exp a / (1 + exp a) ^ 2 * w)
        with ((0 * (1 + exp a) - (0 + exp a * (0 + b * 1)) * fct_cte 1 0) / Rsqr (1 + exp a)).
      2:{ unfold fct_cte, Rsqr, b. field. lra. }
      intros eps He. destruct (Dv eps He) as (dl & Hd). exists dl. intros h H1 H2.
      specialize (Hd h H1 H2).
      unfold div_fct, plus_fct, comp, fct_cte, mult_real_fct, id in Hd.
      replace (- k * (2 * (t + (0 + h) * w) - 1)) with (a + b * (0 + h)) by (unfold a, b; ring).
      replace (- k * (2 * (t + 0 * w) - 1)) with (a + b * 0) by (unfold a, b; ring).
      exact Hd. }
  intros eps He. destruct (D eps He) as (dl & Hd). exists dl. split; [apply cond_pos |].
  intros h H1 H2. specialize (Hd h H1 H2). cbv beta in Hd. now rewrite Rplus_0_l in Hd.
Qed.

Lemma surf_linear xq yq per a b u w x y :
  surf xq yq per (fun r => a * u r + b * w r) x y
  = a * surf xq yq per u x y + b * surf xq yq per w x y.
Proof.
  unfold surf.
  assert (A : forall k, I1 (ax1 per) yq (arr per xq (fun r => a * u r + b * w r) k) y
    = a * I1 (ax1 per) yq (arr per xq u k) y + b * I1 (ax1 per) yq (arr per xq w k) y).
  { intros k. apply (@I1_linear (ax1 per) yq a b (arr per xq u k) (arr per xq w k) y). }
  transitivity (I1 (ax0 per) xq (fun k => a * I1 (ax1 per) yq (arr per xq u k) y
     + b * I1 (ax1 per) yq (arr per xq w k) y) x).
  2:{ apply (@I1_linear (ax0 per) xq a b). }
  unfold I1 at 1 3, H1d.
  assert (S : forall g h q c, (forall k, g k = h k) -> slope (ax0 per) q g c = slope (ax0 per) q h c).
  { intros g h q c H. unfold slope, dquad. repeat rewrite H. 
    repeat match goal with |- context [if ?e then _ else _] => destruct e end; rewrite ?H; reflexivity. }
  rewrite !A. f_equal; apply S; exact A.
Qed.

Lemma along_nth v w h r : length v = length w -> nthR (along v h w) r = nthR v r + h * nthR w r.
Proof.
  unfold along, nthR. revert w r. induction v as [| a v IH]; intros [| b w] r L; try discriminate L.
  - cbn. destruct r; cbn; ring.
  - destruct r; cbn; [reflexivity |]. apply IH. now injection L.
Qed.
Lemma along_length v w h : length v = length w -> length (along v h w) = length v.
Proof. intros L. unfold along. rewrite map_length, combine_length. lia. Qed.

Lemma gradient_main init xq yq xs ys symm per periods lo up b p v w k :
  grid_ok (ax0 per) xq -> grid_ok (ax1 per) yq -> covers xq xs -> covers yq ys ->
  cubic_param init xq yq xs ys symm per periods lo up b = Ok p ->
  length w = length v ->
  (exists z, get_structure (set_k (set_vector p v) k) = Ok z) ->
  exists g, gradient (set_k (set_vector p v) k) w = Ok g /\ length g = (length xs * length ys)%nat /\
  exists f : R -> list R,
    (forall h, get_structure (set_k (set_vector p (along v h w)) k) = Ok (f h)) /\
    forall r, (r < length xs * length ys)%nat -> derivative_at_0 (fun h => nth r (f h) 0) (nth r g 0).
Proof.
  intros Gx Gy Cx Cy E Lw [z ES].
  destruct (@param_inv _ _ _ _ _ _ _ _ _ _ _ _ Gx Gy Cx Cy E)
    as (geo & rev & g & EG & EC & EK & _ & _ & _ & _ & EZ).
  destruct (@structure_inv _ _ _ _ _ _ _ _ _ _ _ _ _ _ _ Gx Gy Cx Cy E ES)
    as (geo' & rev' & g' & EG' & Lv & _).
  rewrite EG in EG'. injection EG' as <- <- <-.
  set (Z u := map (fun t => fst (fst t)) (c_z p (nthR u))).
  assert (ZF : forall u, Z u = flat_map (fun y => map (fun x => surf xq yq per (sapply geo (nthR u)) x y) xs) ys).
  { intros u. unfold Z. rewrite EZ. rewrite !flat_map_concat_map, !concat_map, !map_map. f_equal.
    apply map_ext. intros y. rewrite !map_map. reflexivity. }
  assert (ZL : forall u, length (Z u) = (length xs * length ys)%nat).
  { intros u. rewrite ZF. apply flat_map_length. intros. apply map_length. }
  assert (ZA : forall h r, (r < length xs * length ys)%nat ->
     nth r (Z (along v h w)) 0 = nth r (Z v) 0 + h * nth r (Z w) 0).
  { intros h r Hr. destruct (flat_split _ _ Hr) as (i & j & Hi & Hj & ->).
    rewrite !ZF. fold (entry (length xs) (flat_map (fun y => map (fun x =>
       surf xq yq per (sapply geo (nthR (along v h w))) x y) xs) ys) i j).
    fold (entry (length xs) (flat_map (fun y => map (fun x =>
       surf xq yq per (sapply geo (nthR v)) x y) xs) ys) i j).
    fold (entry (length xs) (flat_map (fun y => map (fun x =>
       surf xq yq per (sapply geo (nthR w)) x y) xs) ys) i j).
    rewrite !(entry_flat (fun x y => surf xq yq per (sapply geo (nthR _)) x y)) by assumption.
    replace (surf xq yq per (sapply geo (nthR v)) (nthR xs i) (nthR ys j)
      + h * surf xq yq per (sapply geo (nthR w)) (nthR xs i) (nthR ys j))
    with (1 * surf xq yq per (sapply geo (nthR v)) (nthR xs i) (nthR ys j)
      + h * surf xq yq per (sapply geo (nthR w)) (nthR xs i) (nthR ys j)) by ring.
    rewrite <- surf_linear. unfold surf.
    destruct (@I1_ext (ax0 per) xq
      (fun m => I1 (ax1 per) yq (arr per xq (sapply geo (nthR (along v h w))) m) (nthR ys j))
      (fun m => I1 (ax1 per) yq (arr per xq (fun r => 1 * sapply geo (nthR v) r
          + h * sapply geo (nthR w) r) m) (nthR ys j)) (nthR xs i) (grid_good Gx)
      (covers_nth Cx Hi)) as [-> _]; [| reflexivity].
    intros m Hm. apply (@I1_ext (ax1 per) yq); [exact (grid_good Gy) | exact (covers_nth Cy Hj) |].
    intros l Hl. unfold arr, sapply. rewrite along_nth by (now symmetry). ring. }
  unfold gradient, z_cubic. cbn [set_k set_vector c_vector c_cols c_z c_k].
  rewrite EC, Lw, Lv, Nat.eqb_refl. cbn [bind]. fold (Z v). fold (Z w).
  eexists. split; [reflexivity |]. split.
  { destruct (Req_EM_T k 0); [apply ZL |]. rewrite map_length, combine_length, !ZL. lia. }
  exists (fun h => map (finish k) (Z (along v h w))). split.
  - intros h. unfold get_structure, z_cubic. cbn [set_k set_vector c_vector c_cols c_z c_k].
    rewrite along_length, EC, Lv, Nat.eqb_refl by (now symmetry). cbn [bind]. fold (Z (along v h w)).
    unfold finish. destruct (Req_EM_T k 0); [now rewrite map_id | reflexivity].
  - intros r Hr.
    assert (FH : forall h, nth r (map (finish k) (Z (along v h w))) 0
       = finish k (nth r (Z v) 0 + h * nth r (Z w) 0)).
    { intros h. rewrite (nth_indep _ 0 (finish k 0)) by (rewrite map_length, ZL; exact Hr).
      rewrite map_nth. f_equal. now apply ZA. }
    pose proof (@finish_derivative k (nth r (Z v) 0) (nth r (Z w) 0)) as D.
    assert (N : nth r (if Req_EM_T k 0 then Z w else map (fun tw : R * R =>
        2 * k * exp (- k * (2 * fst tw - 1)) / (1 + exp (- k * (2 * fst tw - 1))) ^ 2 * snd tw)
        (combine (Z v) (Z w))) 0
      = (if Req_EM_T k 0 then 1 else 2 * k * exp (- k * (2 * nth r (Z v) 0 - 1))
          / (1 + exp (- k * (2 * nth r (Z v) 0 - 1))) ^ 2) * nth r (Z w) 0).
    { destruct (Req_EM_T k 0); [ring |].
      set (G := fun tw : R * R => 2 * k * exp (- k * (2 * fst tw - 1)) / (1 + exp (- k * (2 * fst tw - 1))) ^ 2 * snd tw).
      rewrite (nth_indep _ 0 (G (0, 0))) by (rewrite map_length, combine_length, !ZL; lia).
      rewrite map_nth, combine_nth by now rewrite !ZL. reflexivity. }
    rewrite N. intros eps He. destruct (D eps He) as (dl & Hd & Hh). exists dl. split; [exact Hd |].
    intros h H1 H2. rewrite !FH. now apply Hh.
Qed.

(** *** Bounds *)
Lemma project_main p : c_lower p <= c_upper p ->
  length (c_vector (project p)) = length (c_vector p) /\
  get_bounds (project p) = (repeat (c_lower p) (length (c_vector p)), repeat (c_upper p) (length (c_vector p))) /\
  (forall r, (r < length (c_vector p))%nat ->
     c_lower p <= nth r (c_vector (project p)) 0 <= c_upper p /\
     forall t, c_lower p <= t <= c_upper p ->
       Rabs (nth r (c_vector (project p)) 0 - nth r (c_vector p) 0) <= Rabs (t - nth r (c_vector p) 0)).
Proof.
  intros L. unfold project, get_bounds. cbn [set_vector c_vector c_lower c_upper].
  rewrite map_length. split; [reflexivity |]. split; [reflexivity |].
  intros r Hr. set (f := fun t => Rmin (Rmax t (c_lower p)) (c_upper p)).
  rewrite (nth_indep _ 0 (f 0)) by (now rewrite map_length). rewrite map_nth.
  generalize (nth r (c_vector p) 0). intros t. unfold f, Rmin, Rmax.
  destruct (Rle_dec t (c_lower p)), (Rle_dec _ (c_upper p)); (split; [lra |]); intros s Hs;
    unfold Rabs; repeat destruct (Rcase_abs _); lra.
Qed.

(** *** Overshoot *)
Lemma overshoot :
  exists p z, cubic_param (Array [0; 1; 1; 0; 1; 1; 0; 1; 1]) [0; 1; 2] [0; 1; 2] [3 / 2] [1]
      (Two false false) (Two false false) (Two 0 0)%nat 0 1 None = Ok p /\
    (forall t, In t (c_vector p) -> 0 <= t <= 1) /\
    get_structure (set_k p 0) = Ok z /\ exists t, In t z /\ 1 < t.
Proof.
  assert (G : grid_ok false [0; 1; 2]).
  { split; [| cbn; lia]. intros i j [H1 H2]. cbn in H2.
    destruct i as [| [| i]]; destruct j as [| [| [| j]]]; cbn; try lia; lra. }
  assert (C1 : covers [0; 1; 2] [3 / 2]) by (apply covers_one; unfold within; cbn; lra).
  assert (C2 : covers [0; 1; 2] [1]) by (apply covers_one; unfold within; cbn; lra).
  assert (E : exists p, cubic_param (Array [0; 1; 1; 0; 1; 1; 0; 1; 1]) [0; 1; 2] [0; 1; 2] [3 / 2] [1]
      (Two false false) (Two false false) (Two 0 0)%nat 0 1 None = Ok p).
  { unfold cubic_param.
    destruct (make_geometry_matrix _ _ _ _ _) as [[[geo rev] g] | e] eqn:EG; [| vm_compute in EG; discriminate].
    assert (RR : rows rev = 9%nat /\ rows geo = 9%nat) by (vm_compute in EG; injection EG as <- <- _; split; reflexivity).
    destruct RR as [R1 R2]. cbn [bind length]. rewrite R1, R2. cbn [Nat.eqb bind].
    destruct (@matrices_ok [3 / 2] [1] [0; 1; 2] [0; 1; 2] (Two false false) (grid_good G) (grid_good G) C1 C2)
      as (m & -> & _).
    cbn [bind ax0 ax1 n_red length Nat.sub Nat.mul Nat.add Nat.eqb]. eauto. }
  destruct E as [p E]. exists p.
  assert (V : c_vector p = [0; 1; 1; 0; 1; 1; 0; 1; 1]).
  { unfold cubic_param in E. destruct (make_geometry_matrix _ _ _ _ _) as [[[geo rev] g] | e] eqn:EG; [| discriminate].
    assert (R1 : rows rev = 9%nat) by (vm_compute in EG; injection EG as <- <- _; reflexivity).
    cbn [bind length] in E. rewrite R1 in E. cbn [Nat.eqb bind] in E.
    destruct (cubic_matrices _ _ _ _ _); [| discriminate]. cbn [bind] in E.
    destruct (Nat.eqb _ _); [| discriminate]. injection E as <-. reflexivity. }
  assert (ES : exists z, get_structure (set_k (set_vector p (c_vector p)) 0) = Ok z).
  { unfold get_structure, z_cubic. cbn [set_k set_vector c_vector c_cols c_k c_z].
    destruct (Nat.eqb_spec (length (c_vector p)) (c_cols p)); cbn [bind]; [eauto |]. exfalso.
    unfold cubic_param in E. destruct (make_geometry_matrix _ _ _ _ _) as [[[geo rev] g] | e] eqn:EG; [| discriminate].
    assert (R1 : rows rev = 9%nat /\ cols geo = 9%nat) by (vm_compute in EG; injection EG as <- <- _; split; reflexivity).
    destruct R1 as [R1 R2].
    cbn [bind length] in E. rewrite R1 in E. cbn [Nat.eqb bind] in E.
    destruct (cubic_matrices _ _ _ _ _); [| discriminate]. cbn [bind] in E.
    destruct (Nat.eqb _ _); [| discriminate]. injection E as <-. cbn in n. lia. }
  destruct ES as [z ES]. exists z. split; [exact E |]. split.
  { rewrite V. intros t Ht. repeat (destruct Ht as [<- | Ht]; [lra |]). contradiction. }
  split.
  { rewrite <- ES. destruct p; reflexivity. }
  destruct (@structure_inv _ _ _ _ _ _ (Two false false) _ _ _ _ _ _ _ _ G G C1 C2 E ES) as (geo & rev & g & EG & _ & ->).
  cbn [flat_map map app].
  eexists. split; [left; reflexivity |].
  assert (S : surf [0; 1; 2] [0; 1; 2] (Two false false) (sapply geo (nthR (c_vector p))) (3 / 2) 1 = 9 / 8).
  { rewrite (@surf_quadratic [0; 1; 2] [0; 1; 2] (sapply geo (nthR (c_vector p))) 0 (3 / 2) (- / 2) 0 0 0 0 0 0 (3 / 2) 1).
    - field.
    - exact (grid_good G).
    - exact (grid_good G).
    - unfold inside, nthR; cbn; lra.
    - unfold inside, nthR; cbn; lra.
    - rewrite V. cbn [length]. intros i j Hi Hj. vm_compute in EG. injection EG as <- _ _.
      unfold sapply. 
      destruct i as [| [| [| i]]]; [| | | lia]; destruct j as [| [| [| j]]]; try lia;
        cbn -[Rplus Rmult Rdiv Rinv Ropp]; unfold nthR; cbn -[Rplus Rmult Rdiv Rinv Ropp pow]; field. }
  rewrite S. unfold finish. destruct (Req_EM_T 0 0); lra.
Qed.
