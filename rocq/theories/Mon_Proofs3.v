(** The plane wave node of a plan: wave vector and Bloch vector. *)
From Coq Require Import QArith Reals ZArith List Lia Lra.
From Verif Require Import Base CField CField_Proofs GMath_Model GMath_Proofs CplxField QTac Grid_Model Maxwell_Model Wg_Model Wg_Model2 Wg_Spec Fs_Model Fs_Spec.
From Verif Require Import Fs_Proofs Fs_Proofs2 Fs_Proofs3 Fs_Proofs4 Fs_Proofs5 Fs_Proofs6 Mon_Model Mon_Spec Mon_Proofs Mon_Proofs2.
Set Implicit Arguments.
Local Open Scope R_scope.

Lemma call_parts e dx p g pos eps wlen w J b axis s sl : axisvec2axis (w_normal w) = Ok axis -> axisvec2polarity (w_normal w) = Ok s ->
  region_slices e (w_center w) (w_extents w) = Ok sl -> plane_wave_call e dx p g pos eps wlen w = Ok (J, b) ->
  exists kv sl', build_plane_wave_source g pos eps (2 * PI / wlen) axis sl (w_theta w) (w_psi w) (w_pol w) (Z.eqb s (-1)) (border_cells dx (w_border w)) (w_power w) = Ok (J, kv, sl') /\
    b = if w_overwrite w then Some (without_pml p kv) else None.
Proof.
  intros A S R. unfold plane_wave_call. rewrite A, S, R. cbn [bind]. destruct (build_plane_wave_source _ _ _ _ _ _ _ _ _ _ _ _) as [[[J' kv] sl']|]; [|discriminate]. cbn. intros [= <- <-]. eauto.
Qed.
Lemma sign_of s : (s = 1 \/ s = -1)%Z -> sign (Z.eqb s (-1)) = IZR s.
Proof. intros [-> | ->]; reflexivity. Qed.
Lemma bloch_pf e dx p g pos eps wlen w J b v axis s sl user : w_normal w = comps v -> axisvec2axis (comps v) = Ok axis -> axisvec2polarity (comps v) = Ok s ->
  region_slices e (w_center w) (w_extents w) = Ok sl -> 0 < wlen -> 0 < average g sl (eps 0%nat) -> 0 < w_power w ->
  plane_wave_call e dx p g pos eps wlen w = Ok (J, b) ->
  forall a, (a < 3)%nat ->
  (w_overwrite w = true -> bare p a -> simulation_bloch user (J, b) a = 2 * PI / wlen * sqrt (average g sl (eps 0%nat)) * direction axis (IZR s) (w_theta w) (w_psi w) a) /\
  (w_overwrite w = true -> ~ bare p a -> simulation_bloch user (J, b) a = 0) /\
  (w_overwrite w = false -> simulation_bloch user (J, b) a = match user with Some k => k a | None => 0 end).
Proof.
  intros Hw A S R Hl Hav Hp Hc a Ha. rewrite <- Hw in A, S. destruct (@call_parts e dx p g pos eps wlen w J b axis s sl A S R Hc) as (kv & sl' & B & ->).
  rewrite Hw in A, S. destruct (@polarity_pf v axis s A S) as (Hs & _). apply axis_pf in A. destruct A as (Hx & _).
  assert (Ho : 0 < 2 * PI / wlen) by (apply Rmult_lt_0_compat; [pose proof PI_RGT_0; Lra.lra|now apply Rinv_0_lt_compat]).
  destruct (@plane_source_lemma g pos eps (2 * PI / wlen) axis sl (w_theta w) (w_psi w) (w_pol w) (Z.eqb s (-1)) (border_cells dx (w_border w)) (w_power w) J kv sl' Hx Ho Hav Hp B) as (aa & bb & _ & _ & Hk & _).
  rewrite sign_of in Hk by exact Hs. unfold simulation_bloch. cbn [snd]. repeat split.
  - intros -> (P1 & P2). unfold without_pml. rewrite P1, P2. cbn [Z.eqb andb]. now apply Hk.
  - intros -> Hn. unfold without_pml. destruct (Z.eqb_spec (p (2 * a)%nat) 0), (Z.eqb_spec (p (2 * a + 1)%nat) 0); cbn [andb]; try reflexivity. exfalso. apply Hn. now split.
  - intros ->. destruct user; reflexivity.
Qed.
(** the current does not depend on the absorbing layers nor on the choice of the Bloch vector *)
Definition with_overwrite (o : bool) (w : wave) : wave := Wave (w_center w) (w_extents w) (w_normal w) (w_theta w) (w_psi w) (w_pol w) (w_border w) (w_power w) o.
Lemma same_current_pf e dx p p' g pos eps wlen w o J b : plane_wave_call e dx p g pos eps wlen w = Ok (J, b) ->
  exists b', plane_wave_call e dx p' g pos eps wlen (with_overwrite o w) = Ok (J, b').
Proof.
  unfold plane_wave_call, with_overwrite. cbn [w_center w_extents w_normal w_theta w_psi w_pol w_border w_power w_overwrite].
  destruct (axisvec2axis _) as [axis|]; [|discriminate]. cbn [bind]. destruct (axisvec2polarity _) as [s|]; [|discriminate]. cbn [bind].
  destruct (region_slices _ _ _) as [sl|]; [|discriminate]. cbn [bind]. destruct (build_plane_wave_source _ _ _ _ _ _ _ _ _ _ _ _) as [[[J' kv] sl']|]; [|discriminate]. cbn. intros [= <- <-]. eauto.
Qed.
(** the width of a border *)
Lemma border_floor dx b : (0 < dx)%Q -> (inject_Z (Qround.Qfloor (b / dx)) * dx <= b)%Q /\ (b < (inject_Z (Qround.Qfloor (b / dx)) + 1) * dx)%Q.
Proof.
  intros Hd. pose proof (Qround.Qfloor_le (b / dx)) as L. pose proof (Qround.Qlt_floor (b / dx)) as U. rewrite inject_Z_plus in U.
  assert (N : ~ dx == 0) by (intros E; rewrite E in Hd; discriminate Hd).
  assert (E : (b == b / dx * dx)%Q) by (field; exact N). split.
  - rewrite E at 2. apply Qmult_le_compat_r; [exact L|now apply Qlt_le_weak].
  - rewrite E at 1. apply Qmult_lt_compat_r; [exact Hd|exact U].
Qed.
Lemma border_normal_pf e dx p g pos eps wlen w axis bx by_ cx cy : axisvec2axis (w_normal w) = Ok axis -> (axis < 3)%nat ->
  (axis = 0%nat -> by_ = cy) -> (axis = 1%nat -> bx = cx) -> axis <> 2%nat ->
  plane_wave_call e dx p g pos eps wlen (Wave (w_center w) (w_extents w) (w_normal w) (w_theta w) (w_psi w) (w_pol w) (Some (bx, by_)) (w_power w) (w_overwrite w)) =
  plane_wave_call e dx p g pos eps wlen (Wave (w_center w) (w_extents w) (w_normal w) (w_theta w) (w_psi w) (w_pol w) (Some (cx, cy)) (w_power w) (w_overwrite w)).
Proof.
  intros A Hx H0 H1 H2. unfold plane_wave_call. cbn [w_center w_extents w_normal w_theta w_psi w_pol w_border w_power w_overwrite]. rewrite A. cbn [bind].
  destruct (axisvec2polarity _) as [s|]; [|reflexivity]. cbn [bind]. destruct (region_slices _ _ _) as [sl|]; [|reflexivity]. cbn [bind].
  unfold build_plane_wave_source. rewrite (@border_check_ext sl axis (border_cells dx (Some (bx, by_))) (border_cells dx (Some (cx, cy))) Hx); [reflexivity|].
  intros a Ha Hn. unfold border_cells. destruct a as [|[|[|a]]]; try lia.
  - rewrite H1 by lia. reflexivity.
  - rewrite H0 by lia. reflexivity.
Qed.
(** *** a node that succeeds: the tube of Fs_Proofs6 *)
Definition tube_edges : edges := fun a => match a with 2%nat => [0; 1; 2; 3]%Q | _ => [0; 1]%Q end.
Definition tube_node (o : bool) : wave :=
  Wave (fun a => match a with 2%nat => (3 # 2)%Q | _ => (1 # 2)%Q end) (fun a => match a with 2%nat => 0%Q | _ => 1%Q end) (comps (v3 0 0 2)) 0 0 0 None 1 o.
Lemma tube_axis : along_axis (v3 0 0 2) 2.
Proof.
  split; [lia|]. split; [cbn; Lra.lra|]. intros b Hb Hn. destruct b as [|[|[|b]]]; try lia; cbn [v3]; rewrite Rabs_R0; pose proof (len3_pos (v3 0 0 2)); Lra.lra.
Qed.
Lemma tube_polarity : axisvec2polarity (comps (v3 0 0 2)) = Ok 1%Z.
Proof. rewrite (@polarity_eq (v3 0 0 2) 2) by (apply axis_pf, tube_axis). cbn [v3]. now rewrite npsign_pos by Lra.lra. Qed.
Lemma tube_slices : region_slices tube_edges (w_center (tube_node true)) (w_extents (tube_node true)) = Ok middle.
Proof.
  reflexivity.
Qed.
Lemma tube_borders dx : border_cells dx None = fun _ => 0%Z. Proof. reflexivity. Qed.
Lemma tube_node_ok p o : exists J b, plane_wave_call tube_edges 1 p tube even_places unit_eps 2 (tube_node o) = Ok (J, b).
Proof.
  destruct (@tube_ok 1 ltac:(Lra.lra)) as (J & kv & s & T). unfold tube_wave in T. unfold plane_wave_call. cbn [tube_node w_normal].
  rewrite (proj2 (axis_pf (v3 0 0 2) 2) tube_axis). cbn [bind]. rewrite tube_polarity. cbn [bind]. change (region_slices tube_edges (w_center (tube_node o)) (w_extents (tube_node o))) with (region_slices tube_edges (w_center (tube_node true)) (w_extents (tube_node true))).
  rewrite tube_slices. cbn [bind tube_node w_theta w_psi w_pol w_border w_power w_overwrite]. rewrite tube_borders. replace (2 * PI / 2) with PI by field.
  change (Z.eqb 1 (-1)) with false. rewrite T. cbn. eauto.
Qed.
