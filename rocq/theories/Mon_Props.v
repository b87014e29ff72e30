(** Directions, field monitors, dipoles and the Bloch vectors of plans (C152-C155).  Vocabulary: Mon_Spec.v. *)
From Coq Require Import QArith Reals ZArith List Lia Lra.
From Verif Require Import Base CField GMath_Model CplxField QTac Grid_Model Maxwell_Model Maxwell_Proofs Wg_Model Wg_Model2 Fs_Model Fs_Spec Fs_Proofs6 Mon_Model Mon_Spec Mon_Proofs Mon_Proofs2 Mon_Proofs3 Imp_Proofs.
Local Open Scope R_scope.

(** ** C152 *)
(** A direction has the axis a exactly if its entry a is not zero and the other entries are at most a
    millionth of its length. *)
Theorem direction_axis v a : axisvec2axis (comps v) = Ok a <-> along_axis v a.
Proof. exact (axis_pf v a). Qed.
(** ValueError, and no other error, for the zero vector and for two entries above a millionth of the length. *)
Theorem direction_errors v e : axisvec2axis (comps v) = Err e <->
  e = ValueError /\ ((forall a, (a < 3)%nat -> v a = 0) \/
    exists a b, (a < 3)%nat /\ (b < 3)%nat /\ a <> b /\ len3 v / 1000000 < Rabs (v a) /\ len3 v / 1000000 < Rabs (v b)).
Proof. exact (axis_errors_pf v e). Qed.
(** The polarity is 1 or -1, and the direction differs from the signed axis by at most a millionth of its
    length in each entry. *)
Theorem direction_polarity v a s : axisvec2axis (comps v) = Ok a -> axisvec2polarity (comps v) = Ok s ->
  (s = 1 \/ s = -1)%Z /\ 0 < IZR s * v a /\ forall b, (b < 3)%nat -> Rabs (v b - len3 v * (IZR s * unit_vec a b)) <= len3 v / 1000000.
Proof. exact (@polarity_pf v a s). Qed.
(** Only the direction counts: a factor does not change the axis, and a negative one turns the polarity. *)
Theorem direction_scale t v : t <> 0 -> axisvec2axis (comps (cscale_by t v)) = axisvec2axis (comps v) /\
  axisvec2polarity (comps (cscale_by t v)) = bind (axisvec2polarity (comps v)) (fun s => Ok (if Rlt_dec 0 t then s else - s)%Z).
Proof. intros Ht. split; [exact (axis_scale_pf v Ht)|exact (polarity_scale_pf v Ht)]. Qed.
Lemma len3_ge v a : (a < 3)%nat -> Rabs (v a) <= len3 v.
Proof.
  intros Ha. pose proof (len3_sq v) as E. pose proof (abs_sq (v a)) as S. pose proof (Rabs_pos (v a)). pose proof (len3_pos v).
  apply Rnot_lt_le. intros C. destruct a as [|[|[|a]]]; try lia; Lra.nra.
Qed.
Example direction_ex : along_axis (v3 0 (-3) (1 / 1000000)) 1 /\ axisvec2polarity (comps (v3 0 (-3) (1 / 1000000))) = Ok (-1)%Z /\ axisvec2axis (comps (v3 1 1 0)) = Err ValueError.
Proof.
  assert (A : along_axis (v3 0 (-3) (1 / 1000000)) 1).
  { split; [lia|]. split; [cbn; Lra.lra|]. pose proof (@len3_ge (v3 0 (-3) (1 / 1000000)) 1 ltac:(lia)) as L. cbn [v3] in L. rewrite Rabs_left in L by Lra.lra.
    intros b Hb Hn. destruct b as [|[|[|b]]]; try lia; cbn [v3]; [rewrite Rabs_R0|rewrite Rabs_right]; Lra.lra. }
  split; [exact A|]. split.
  - rewrite (@polarity_eq (v3 0 (-3) (1 / 1000000)) 1) by now apply axis_pf. cbn [v3]. now rewrite npsign_neg by Lra.lra.
  - apply direction_errors. split; [reflexivity|]. right. exists 0%nat, 1%nat. cbn [v3]. rewrite Rabs_R1.
    assert (len3 (v3 1 1 0) < 2). { pose proof (len3_sq (v3 1 1 0)) as E. cbn [v3] in E. pose proof (len3_pos (v3 1 1 0)). Lra.nra. }
    repeat split; try lia; Lra.lra.
Qed.

(** ** C153 *)
(** A monitor with a point and a normal returns the field in the one layer of cells that holds the point. *)
Theorem monitor_slice e n r v a : edges_of e n -> (forall b, (b < 3)%nat -> inside (e b) (r b)) -> along_axis v a ->
  exists i, cell_holds (e a) (r a) i /\ field_monitor e (Some (three r)) (Some (comps v)) = Ok (Some (a, i)) /\
  forall (g : grid CC) (f : field3 CC), (forall b, (b < 3)%nat -> dim g b = n b) ->
  exists d, monitor_eval g (Some (a, i)) (vec g f) = Ok d /\ (forall b, (b < 3)%nat -> shape_of d b = put a 1 b (n b)) /\
    forall c x y z, (c < 3)%nat -> (x < shape_of d 0)%nat -> (y < shape_of d 1)%nat -> (z < shape_of d 2)%nat ->
      value_at d c x y z = f c (put a i 0 x) (put a i 1 y) (put a i 2 z).
Proof.
  intros He Hr Hv. destruct (@monitor_slice_pf e n r v a He Hr Hv) as (i & C & M). exists i. split; [exact C|]. split; [exact M|]. intros g f Hg.
  pose proof Hv as (Ha & _). destruct C as (C & _). destruct (He a Ha) as (_ & Hl & _). destruct (@monitor_eval_slice g f a i Ha ltac:(rewrite Hg by auto; lia)) as (d & D1 & D2 & D3).
  exists d. split; [exact D1|]. split; [intros b Hb; rewrite <- Hg by auto; now apply D2|exact D3].
Qed.
(** Without a point or without a normal the whole field is returned: a point alone or a normal alone has no effect. *)
Theorem monitor_whole e point normal : point = None \/ point = Some [] \/ normal = None \/ normal = Some [] -> field_monitor e point normal = Ok None.
Proof. intros [-> | [-> | [-> | ->]]]; unfold field_monitor; cbn [given]; try reflexivity; destruct (given point); reflexivity. Qed.
Theorem monitor_whole_field (g : grid CC) (f : field3 CC) :
  exists d, monitor_eval g None (vec g f) = Ok d /\ (forall b, (b < 3)%nat -> shape_of d b = dim g b) /\
    forall c x y z, (c < 3)%nat -> (x < dim g 0)%nat -> (y < dim g 1)%nat -> (z < dim g 2)%nat -> value_at d c x y z = f c x y z.
Proof. exact (eval_whole g f). Qed.
(** A point outside of the grid is refused, also if it is outside along the slice, where it does not matter. *)
Theorem monitor_outside e n r v a b : edges_of e n -> along_axis v a -> (b < 3)%nat -> (2 <= n b)%nat -> ~ inside (e b) (r b) ->
  field_monitor e (Some (three r)) (Some (comps v)) = Err GridError.
Proof.
  intros He Hv Hb Hn Ho. unfold field_monitor, given. unfold three at 1. unfold comps at 1. rewrite (proj2 (axis_pf v a) Hv). cbn [bind].
  now rewrite (@pos2ind3_outside e n r b He Hb Hn Ho).
Qed.
Theorem monitor_not_aligned e r v : (forall a, ~ along_axis v a) -> field_monitor e (Some (three r)) (Some (comps v)) = Err ValueError.
Proof.
  intros H. unfold field_monitor, given. unfold three at 1. unfold comps at 1. destruct (axisvec2axis (comps v)) as [a|e'] eqn:A.
  - exfalso. now apply (H a), axis_pf.
  - apply axis_errors_pf in A. destruct A as (-> & _). reflexivity.
Qed.
Theorem monitor_wrong_size (g : grid CC) sl (v : list CC) : length v <> (3 * (dim g 0 * dim g 1 * dim g 2))%nat -> monitor_eval g sl v = Err ValueError.
Proof. intros H. unfold monitor_eval. rewrite (unvec_error_lemma g v); [reflexivity|exact H]. Qed.
Definition rod : edges := fun a => match a with 0%nat => [0; 1; 2; 4]%Q | 1%nat => [0; 2]%Q | _ => [-(1); 0; 1]%Q end.
Lemma rod_edges : edges_of rod (fun a => match a with 0 => 3 | 1 => 1 | _ => 2 end%nat).
Proof.
  intros a Ha. destruct a as [|[|[|a]]]; try lia; (split; [apply ascending_increasing; reflexivity|split; [reflexivity|lia]]).
Qed.
Example monitor_ex : (forall b, (b < 3)%nat -> inside (rod b) ((fun a => match a with 0%nat => 3 | 1%nat => 1 | _ => 1 end)%Q b)) /\
  (exists i, field_monitor rod (Some [3; 1; 1]%Q) (Some (comps (v3 (-1) 0 0))) = Ok (Some (0%nat, i)) /\ i = 2%nat) /\
  field_monitor rod (Some [3; 1; 2]%Q) (Some (comps (v3 (-1) 0 0))) = Err GridError.
Proof.
  assert (A : along_axis (v3 (-1) 0 0) 0).
  { split; [lia|]. split; [cbn; Lra.lra|]. intros b Hb Hn. destruct b as [|[|[|b]]]; try lia; cbn [v3]; rewrite Rabs_R0; pose proof (len3_pos (v3 (-1) 0 0)); Lra.lra. }
  split; [intros b Hb; destruct b as [|[|[|b]]]; try lia; cbn; split; discriminate|]. split.
  - exists 2%nat. split; [|reflexivity]. unfold field_monitor, given. unfold comps at 1. rewrite (proj2 (axis_pf _ 0) A). reflexivity.
  - apply (@monitor_outside rod _ (fun a => match a with 0%nat => 3 | 1%nat => 1 | _ => 2 end)%Q (v3 (-1) 0 0) 0 2 rod_edges A); [lia|lia|]. intros (_ & H). apply H. reflexivity.
Qed.

(** ** C154 *)
(** A dipole is a current in the one cell that holds its position, along its axis.  Times the permittivity
    it has the phase that was asked for, 0 by default, and a strength that grows with the root of the power. *)
Theorem dipole e n dx (eps : field3 CC) wlen r a power phase : edges_of e n -> (forall b, (b < 3)%nat -> inside (e b) (r b)) -> (a < 3)%nat -> 0 < wlen -> 0 <= power ->
  (forall i, 0 < dx a i) -> (forall x y z, eps a x y z <> (0 : CC)%K) ->
  exists J i, dipole_call e dx eps wlen (three r) (Z.of_nat a) power phase = Ok J /\ (forall b, (b < 3)%nat -> cell_holds (e b) (r b) (i b)) /\
    (forall c x y z, J c x y z <> (0 : CC)%K -> c = a /\ x = i 0%nat /\ y = i 1%nat /\ z = i 2%nat) /\
    exists s, 0 <= s /\ (J a (i 0%nat) (i 1%nat) (i 2%nat) * eps a (i 0%nat) (i 1%nat) (i 2%nat) = rl s * turn (match phase with Some p => p | None => 0 end))%K /\
      s * s * (2661928208866846 / 100000000000000000 * ((2 * PI / wlen) * (2 * PI / wlen) * (dx a (i a) * dx a (i a) * dx a (i a)))) = power.
Proof. exact (@dipole_pf e n dx eps wlen r a power phase). Qed.
(** A negative axis counts from the last one; other axes raise IndexError; positions outside raise GridError. *)
Theorem dipole_negative_axis e dx eps wlen r a power phase : (a < 3)%nat ->
  dipole_call e dx eps wlen r (Z.of_nat a - 3) power phase = dipole_call e dx eps wlen r (Z.of_nat a) power phase.
Proof. intros Ha. unfold dipole_call. destruct (pos2ind3 e r); [|reflexivity]. cbn [bind]. unfold build_dipole_source. now rewrite pyaxis_wrap, pyaxis_nat by auto. Qed.
Theorem dipole_errors e n dx eps wlen r power phase : edges_of e n ->
  (forall b axis, (b < 3)%nat -> (2 <= n b)%nat -> ~ inside (e b) (r b) -> dipole_call e dx eps wlen (three r) axis power phase = Err GridError) /\
  (forall axis, (forall b, (b < 3)%nat -> inside (e b) (r b)) -> (axis < -3 \/ 3 <= axis)%Z -> dipole_call e dx eps wlen (three r) axis power phase = Err IndexError).
Proof.
  intros He. unfold dipole_call. split.
  - intros b axis Hb Hn Ho. now rewrite (@pos2ind3_outside e n r b He Hb Hn Ho).
  - intros axis Hr Ha. destruct (@pos2ind3_pf e n r He Hr) as (i & -> & _). cbn [bind]. unfold build_dipole_source. now rewrite pyaxis_out by exact Ha.
Qed.
Example dipole_ex : exists J i, dipole_call rod (fun _ _ => 1) unit_eps (2 * PI) [3; 1; 1]%Q 2 4 None = Ok J /\ i 0%nat = 2%nat /\ J 2%nat (i 0%nat) (i 1%nat) (i 2%nat) <> (0 : CC)%K.
Proof.
  destruct (@dipole rod _ (fun _ _ => 1) unit_eps (2 * PI) (fun a => match a with 0%nat => 3 | 1%nat => 1 | _ => 1 end)%Q 2 4 None rod_edges (proj1 monitor_ex)) as (J & i & D & C & _ & s & S0 & S1 & S2).
  - lia.
  - pose proof PI_RGT_0. Lra.lra.
  - Lra.lra.
  - intros. Lra.lra.
  - intros x y z H. assert (X : fst (unit_eps 2%nat x y z) = 0) by now rewrite H. cbn in X. Lra.lra.
  - exists J, i. split; [exact D|]. split.
    + destruct (C 0%nat ltac:(lia)) as (C1 & C2 & C3). cbn in C1, C2, C3. destruct (i 0%nat) as [|[|[|k]]]; cbn in *; try lia.
      * destruct C3 as [C3|C3]; [discriminate C3|discriminate C3].
      * destruct C3 as [C3|C3]; [discriminate C3|discriminate C3].
    + intros Z. rewrite Z in S1. assert (X : fst (rl s * turn 0 : CC)%K = 0) by (rewrite <- S1; cbn; ring). unfold turn, cexp in X. cbn in X. rewrite exp_0, cos_0, sin_0 in X.
      assert (s = 0) by Lra.lra. subst s. Lra.lra.
Qed.

(** ** C155 *)
(** The Bloch vector of a simulation whose source is a plane wave: with overwrite_bloch_vector, the wave
    vector of the source along the axes without absorbing layers and zero along the others, whatever the
    plan says; otherwise that of the plan, or zero, whatever the angle of the wave. *)
Theorem plan_bloch_vector e dx p g pos eps wlen w J b v axis s sl user : w_normal w = comps v -> axisvec2axis (comps v) = Ok axis -> axisvec2polarity (comps v) = Ok s ->
  region_slices e (w_center w) (w_extents w) = Ok sl -> 0 < wlen -> 0 < average g sl (eps 0%nat) -> 0 < w_power w ->
  plane_wave_call e dx p g pos eps wlen w = Ok (J, b) ->
  forall a, (a < 3)%nat ->
  (w_overwrite w = true -> bare p a -> simulation_bloch user (J, b) a = 2 * PI / wlen * sqrt (average g sl (eps 0%nat)) * direction axis (IZR s) (w_theta w) (w_psi w) a) /\
  (w_overwrite w = true -> ~ bare p a -> simulation_bloch user (J, b) a = 0) /\
  (w_overwrite w = false -> simulation_bloch user (J, b) a = match user with Some k => k a | None => 0 end).
Proof. exact (@bloch_pf e dx p g pos eps wlen w J b v axis s sl user). Qed.
(** The current is the same in all these cases: with absorbing layers it still belongs to the tilted wave. *)
Theorem plan_source_fixed e dx p p' g pos eps wlen w o J b : plane_wave_call e dx p g pos eps wlen w = Ok (J, b) ->
  exists b', plane_wave_call e dx p' g pos eps wlen (with_overwrite o w) = Ok (J, b').
Proof. exact (@same_current_pf e dx p p' g pos eps wlen w o J b). Qed.
(** A border is rounded down to whole cells. *)
Theorem plan_border_cells dx bx by_ : (0 < dx)%Q -> let n := border_cells dx (Some (bx, by_)) in
  (inject_Z (n 0%nat) * dx <= bx /\ bx < (inject_Z (n 0%nat) + 1) * dx /\ inject_Z (n 1%nat) * dx <= by_ /\ by_ < (inject_Z (n 1%nat) + 1) * dx)%Q.
Proof. intros Hd n. destruct (@border_floor dx bx Hd), (@border_floor dx by_ Hd). unfold n. cbn. auto. Qed.
(** The two borders are those along x and y whatever the normal: for a wave along x or y the border of that
    axis has no effect, and the wave is never tapered along z. *)
Theorem plan_border_normal e dx p g pos eps wlen w axis bx by_ cx cy : axisvec2axis (w_normal w) = Ok axis -> (axis < 3)%nat ->
  (axis = 0%nat -> by_ = cy) -> (axis = 1%nat -> bx = cx) -> axis <> 2%nat ->
  plane_wave_call e dx p g pos eps wlen (Wave (w_center w) (w_extents w) (w_normal w) (w_theta w) (w_psi w) (w_pol w) (Some (bx, by_)) (w_power w) (w_overwrite w)) =
  plane_wave_call e dx p g pos eps wlen (Wave (w_center w) (w_extents w) (w_normal w) (w_theta w) (w_psi w) (w_pol w) (Some (cx, cy)) (w_power w) (w_overwrite w)).
Proof. exact (@border_normal_pf e dx p g pos eps wlen w axis bx by_ cx cy). Qed.
Theorem plan_border_z (g : grid CC) sl axis dx border b x y z z' : axis <> 2%nat -> check_border sl axis (border_cells dx border) = Ok b ->
  in_slices g (set_slice sl axis (0, Z.of_nat (dim g axis))%Z) x y z = true -> in_slices g (set_slice sl axis (0, Z.of_nat (dim g axis))%Z) x y z' = true ->
  make_mask g sl axis b x y z = make_mask g sl axis b x y z'.
Proof.
  intros Hn Hc H1 H2. apply mask_no_z; [|exact Hn|now rewrite H1, H2]. apply (@border_zero _ _ _ _ Hc). unfold border_cells. destruct border as [[? ?]|]; reflexivity.
Qed.
Example plan_bloch_ex : exists J b, plane_wave_call tube_edges 1 (fun _ => 0%Z) tube even_places unit_eps 2 (tube_node true) = Ok (J, b) /\
  simulation_bloch (Some (v3 1 1 1)) (J, b) 2%nat = PI /\ simulation_bloch (Some (v3 1 1 1)) (J, b) 0%nat = 0.
Proof.
  destruct (tube_node_ok (fun _ => 0%Z) true) as (J & b & H). exists J, b. split; [exact H|].
  assert (P : forall a, (a < 3)%nat -> simulation_bloch (Some (v3 1 1 1)) (J, b) a = PI * direction 2 1 0 0 a).
  { intros a Ha. destruct (@plan_bloch_vector tube_edges 1 (fun _ => 0%Z) tube even_places unit_eps 2 (tube_node true) J b (v3 0 0 2) 2 1 middle (Some (v3 1 1 1)) eq_refl
      (proj2 (axis_pf _ 2) tube_axis) tube_polarity tube_slices ltac:(Lra.lra) ltac:(rewrite tube_average; Lra.lra) ltac:(cbn; Lra.lra) H a Ha) as (B & _).
    rewrite B; [|reflexivity|split; reflexivity]. rewrite tube_average, sqrt_1. cbn [tube_node w_theta w_psi]. field. }
  rewrite !P by lia. unfold direction, along. cbn [Nat.eqb Nat.add Nat.modulo Nat.divmod Nat.sub fst snd]. rewrite sin_0, cos_0. split; ring.
Qed.
Example plan_border_ex : border_cells (1 # 10) (Some ((1 # 4), (3 # 10)))%Q 0%nat = 2%Z /\ border_cells (1 # 10) (Some ((1 # 4), (3 # 10)))%Q 1%nat = 3%Z.
Proof. split; reflexivity. Qed.

Print Assumptions direction_axis. Print Assumptions direction_errors. Print Assumptions direction_polarity. Print Assumptions direction_scale.
Print Assumptions monitor_slice. Print Assumptions monitor_whole. Print Assumptions monitor_whole_field. Print Assumptions monitor_outside. Print Assumptions monitor_not_aligned. Print Assumptions monitor_wrong_size.
Print Assumptions dipole. Print Assumptions dipole_negative_axis. Print Assumptions dipole_errors.
Print Assumptions plan_bloch_vector. Print Assumptions plan_source_fixed. Print Assumptions plan_border_cells. Print Assumptions plan_border_normal. Print Assumptions plan_border_z.
