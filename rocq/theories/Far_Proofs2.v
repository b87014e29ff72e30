(** Far fields: the rows of the matrix of a plane *)
From Coq Require Import Reals List ZArith.
From Verif Require Import Base CField CField_Proofs GMath_Model GMath_Proofs CplxField Maxwell_Model Maxwell_Spec Maxwell_Proofs Maxwell_Proofs2 Maxwell_Proofs3 Wg_Model Wg_Model2 Fs_Model Ov_Model Ov_Spec Ov_Proofs Ov_Proofs3 Far_Model Far_Spec Far_Proofs.
From Verif Require Ff_Model Ff_Proofs5.
Set Implicit Arguments.
Local Open Scope K_scope.

Section Plane.
Add Field CCf3 : (k_field CC).
Variable g : grid CC.
Variable xyz : nat -> nat -> R.
Local Notation n := (cellsn g).
Local Notation N := (vlen g).
Local Notation co := (coord g).
Lemma cross_ext (x x' y y' : nat -> CC) r : (forall a, (a < 3)%nat -> x a = x' a) -> (forall a, (a < 3)%nat -> y a = y' a) -> cross_product x y r = cross_product x' y' r.
Proof. intros Hx Hy. unfold cross_product. rewrite !Hx, !Hy by lia. reflexivity. Qed.
Lemma cells_lt s e j : (j < length (selected_cells g s e))%nat -> (nth j (selected_cells g s e) 0 < n)%nat.
Proof. intros Hj. apply (nth_In _ 0%nat) in Hj. apply filter_In in Hj. destruct Hj as [Hj _]. apply in_seq in Hj. lia. Qed.
(** a component of the sum over the window of the phase times nu x V *)
Lemma flux_at pts omega axis s e nu mvm fourier v r k : let cells := selected_cells g s e in
  (r < 3)%nat -> (k < length pts)%nat -> make_fourier_matrix g xyz omega axis pts cells = Ok fourier ->
  act N (flux_matrix g mvm (vec_cross n nu) fourier (crop_fields g cells) cells) v (r * length pts + k)
  = fsum n (fun t => if in_slices g s e t then fourier_entry g xyz omega axis (nth k pts origin) t * cross_product (fun a => nu (a * n + t)%nat) (fun a => act N mvm v (a * n + t)%nat) r else 0).
Proof.
  intros cells Hr Hk HF. unfold flux_matrix. rewrite !act_mmul.
  unfold make_fourier_matrix in HF. destruct (_ || _) in HF; [discriminate|]. destruct (Nat.eqb _ 0) in HF; [discriminate|]. injection HF as <-.
  rewrite act_block_diag by auto. unfold act at 1.
  rewrite <- (fsum_filter (in_slices g s e) (fun t => fourier_entry g xyz omega axis (nth k pts origin) t * cross_product (fun a => nu (a * n + t)%nat) (fun a => act N mvm v (a * n + t)%nat) r)).
  fold (selected_cells g s e). fold cells. apply fsum_ext. intros j Hj. f_equal.
  unfold crop_fields. change N with (3 * n)%nat. rewrite act_block_diag by auto. rewrite act_crop by now apply cells_lt.
  now rewrite act_vec_cross by (auto; now apply cells_lt).
Qed.
Lemma act_lin (m : nat) (A B : mat CC) (a b : CC) v i : act m (fun i j => a * A i j - b * B i j) v i = a * act m A v i - b * act m B v i.
Proof. unfold act. rewrite <- !fsum_scale, <- fsum_sub. apply fsum_ext. intros. ring. Qed.
Lemma cross_opp (x y : nat -> CC) r : cross_product x (fun a => - y a) r = - cross_product x y r.
Proof. destruct r as [|[|r]]; unfold cross_product; cbv beta; ring. Qed.
Lemma cross_sum (x : nat -> CC) (y : nat -> nat -> CC) m r : cross_product x (fun a => fsum m (fun t => y a t)) r = fsum m (fun t => cross_product x (fun a => y a t) r).
Proof.
  unfold cross_product. destruct r as [|[|r]]; rewrite <- !fsum_scale, <- fsum_sub; reflexivity.
Qed.
Lemma cross_scale_r (x y : nat -> CC) k r : cross_product x (fun a => k * y a) r = k * cross_product x y r.
Proof. destruct r as [|[|r]]; unfold cross_product; cbv beta; ring. Qed.
Lemma cross_scale_l (x y : nat -> CC) k r : cross_product (fun a => k * x a) y r = k * cross_product x y r.
Proof. destruct r as [|[|r]]; unfold cross_product; cbv beta; ring. Qed.
Lemma rl_mul (a b : R) : rl (a * b) = rl a * rl b.
Proof. apply c_eq; simpl; ring. Qed.
Lemma rl_nz (a : R) : a <> 0%R -> rl a <> 0.
Proof. intros H E. apply H. now injection E. Qed.
Lemma rl_inv (a : R) : a <> 0%R -> rl (/ a) = 1 / rl a.
Proof.
  intros H. pose proof (rl_nz H) as H'. apply (@kmul_cancel CC (rl a)); [exact H'|]. rewrite <- rl_mul, Rinv_r by exact H. transitivity (1 : CC); [reflexivity|]. field. exact H'.
Qed.
Lemma cexp_turn omega : cexp (- ki * rl omega * rl 1) = turn (- omega).
Proof. unfold turn. f_equal. apply c_eq; simpl; ring. Qed.
Lemma entry_path omega axis p t : (axis < 3)%nat -> Ff_Model.norm p <> 0%R ->
  fourier_entry g xyz omega axis p t = turn (omega * path xyz p (co 0 t) (co 1 t) (co 2 t)) * cell_area g axis (co 0 t) (co 1 t) (co 2 t).
Proof.
  intros Ha Hp. unfold fourier_entry. f_equal.
  - f_equal. unfold path, coordinate, length3. fold (Ff_Model.px p) (Ff_Model.py p) (Ff_Model.pz p). fold (Ff_Model.norm p). field. exact Hp.
  - unfold d_area, cell_area. ax3 axis; cbn [Nat.eqb]; ring.
Qed.
Lemma flux_neg mvm cn fourier fos cells v i : act N (flux_matrix g mvm (mneg cn) fourier fos cells) v i = - act N (flux_matrix g mvm cn fourier fos cells) v i.
Proof.
  unfold flux_matrix. rewrite !act_mmul. rewrite <- (act_opp (3 * length cells) fourier). apply act_ext. intros j _. rewrite <- act_opp. apply act_ext. intros l _. apply act_mneg.
Qed.
(** the windows *)
Lemma in_slices_block s e t : in_slices g s e t = block s e (co 0 t) (co 1 t) (co 2 t).
Proof. reflexivity. Qed.
Lemma sum_window s e (f : array CC) : fsum n (fun t => if in_slices g s e t then f (co 0 t) (co 1 t) (co 2 t) else 0) = grid_sum g (fun x y z => if block s e x y z then f x y z else 0).
Proof. rewrite <- grid_sum_cells. apply fsum_ext. intros t Ht. now rewrite in_slices_block. Qed.
(** cartesian components *)
Definition cartesian (P : nat) (omega mu0 eps0 : R) (kv : nat -> CC) (A F : mat CC) : mat CC := fun i j =>
  (- ki) * rl omega * (rl (mu0 / (4 * PI * 1)) * cexp (- ki * rl omega * rl 1) * A i j)
     - (- ki) / rl eps0 * rl eps0 / rl (4 * PI * 1) * cexp (- ki * rl omega * rl 1) * mmul (3 * P) (vec_cross P kv) F i j.
Lemma cartesian_at pts omega mu0 eps0 axis pol s e fourier E r k : let cells := selected_cells g s e in let P := length pts in let p := nth k pts origin in
  let cn := vec_cross n (at_ (vec g (fun c _ _ _ => normal axis pol c))) in let fos := crop_fields g cells in
  let to_h := e2h g (Phases (fun _ => 1) (fun _ => 1) (fun _ => 1) (fun _ => 1)) (rl omega) None None in
  let kv := fun i => rl (omega * comp3 (i / P) (nth (i mod P) pts origin)) in
  (axis < 3)%nat -> (r < 3)%nat -> (k < P)%nat -> omega <> 0%R -> eps0 <> 0%R -> Ff_Model.norm p <> 0%R ->
  make_fourier_matrix g xyz omega axis pts cells = Ok fourier ->
  act N (cartesian P omega mu0 eps0 kv (mmul N (flux_matrix g (move2H_H g axis) cn fourier fos cells) to_h) (flux_matrix g (move2H_E g axis) (mneg cn) fourier fos cells)) (at_ (vec g E)) (r * P + k)
  = plane_field g xyz omega mu0 axis pol (block s e) p E r.
Proof.
  intros cells P p cn fos to_h kv Ha Hr Hk Ho He Hp HF.
  set (A := mmul N _ to_h). set (F := flux_matrix _ _ (mneg cn) _ _ _).
  transitivity (- ki * rl omega * (rl (mu0 / (4 * PI * 1)) * cexp (- ki * rl omega * rl 1)) * act N A (at_ (vec g E)) (r * P + k)
    - (- ki) / rl eps0 * rl eps0 / rl (4 * PI * 1) * cexp (- ki * rl omega * rl 1) * act N (mmul (3 * P) (vec_cross P kv) F) (at_ (vec g E)) (r * P + k)).
  { rewrite <- act_lin. unfold act, cartesian. apply fsum_ext. intros. ring. }
  set (nu := fun a => if Nat.eqb a axis then rl (IZR pol) else (0 : CC)).
  set (ph := fun t => turn (omega * path xyz p (co 0 t) (co 1 t) (co 2 t)) * cell_area g axis (co 0 t) (co 1 t) (co 2 t)).
  assert (FL : forall mvm v r (V : nat -> nat -> CC), (r < 3)%nat -> (forall a t, (a < 3)%nat -> (t < n)%nat -> act N mvm v (a * n + t) = V a t) ->
     act N (flux_matrix g mvm cn fourier fos cells) v (r * P + k) = fsum n (fun t => if in_slices g s e t then ph t * cross_product nu (fun a => V a t) r else 0)).
  { intros mvm v r' V Hr' HV. unfold cn, fos, cells. rewrite (@flux_at pts omega axis s e _ mvm fourier v r' k Hr' Hk HF). apply fsum_ext. intros t Ht. destruct (in_slices g s e t); [|reflexivity].
    fold p. rewrite entry_path by auto. fold (ph t). f_equal. apply cross_ext; intros a Hl; [|now apply HV]. rewrite vec_at by auto. reflexivity. }
  assert (EA : act N A (at_ (vec g E)) (r * P + k) = fsum n (fun t => if in_slices g s e t then ph t * cross_product nu (fun a => h_there g axis omega E a (co 0 t) (co 1 t) (co 2 t)) r else 0)).
  { unfold A. rewrite act_mmul. transitivity (act N (flux_matrix g (move2H_H g axis) cn fourier fos cells) (at_ (vec g (fe2h g (rl omega) None E))) (r * P + k)).
    - apply act_ext. intros j Hj. rewrite act_mv by auto. unfold to_h. change (Phases (fun _ => 1) (fun _ => 1) (fun _ => 1) (fun _ => 1)) with (no_bloch CC).
      rewrite <- (@fe2h_lemma CC g (rl omega) None E) by (auto using rl_nz). reflexivity.
    - apply FL; [exact Hr|]. intros a t Hl Ht. now rewrite move_H_at by auto. }
  assert (EF : act N (mmul (3 * P) (vec_cross P kv) F) (at_ (vec g E)) (r * P + k)
     = - (rl omega * fsum n (fun t => if in_slices g s e t then ph t * cross_product (fun a => rl (coordinate p a)) (cross_product nu (fun a => e_there g axis E a (co 0 t) (co 1 t) (co 2 t))) r else 0))).
  { rewrite act_mmul, act_vec_cross by auto.
    transitivity (cross_product (fun a => rl omega * rl (coordinate p a)) (fun a => - fsum n (fun t => if in_slices g s e t then ph t * cross_product nu (fun a => e_there g axis E a (co 0 t) (co 1 t) (co 2 t)) a else 0)) r).
    - apply cross_ext; intros a Hl.
      + unfold kv. rewrite block_div, block_mod, <- rl_mul by auto. fold p. reflexivity.
      + unfold F. rewrite flux_neg. f_equal. apply FL; [exact Hl|]. intros b t Hb Ht. now apply move_E_at.
    - rewrite cross_opp, cross_scale_l, cross_sum. do 2 f_equal. apply fsum_ext. intros t _. destruct (in_slices g s e t).
      + apply cross_scale_r.
      + destruct r as [|[|r]]; unfold cross_product; ring. }
  rewrite EA, EF. unfold plane_field, prefactor. rewrite cexp_turn.
  rewrite <- (sum_window s e (contribution g xyz omega mu0 p axis pol E r)).
  transitivity (- ki * rl omega * turn (- omega) / rl (4 * PI) * (rl mu0 * fsum n (fun t => if in_slices g s e t then ph t * cross_product nu (fun a => h_there g axis omega E a (co 0 t) (co 1 t) (co 2 t)) r else 0)
      + fsum n (fun t => if in_slices g s e t then ph t * cross_product (fun a => rl (coordinate p a)) (cross_product nu (fun a => e_there g axis E a (co 0 t) (co 1 t) (co 2 t))) r else 0))).
  { assert (Hpi : (4 * PI)%R <> 0%R) by (pose proof PI_RGT_0; Lra.lra). rewrite Rmult_1_r. unfold Rdiv. rewrite rl_mul, rl_inv by exact Hpi.
    pose proof (rl_nz Hpi). pose proof (rl_nz He). pose proof (F_1_neq_0 (k_field CC)). field. auto. }
  f_equal. rewrite <- fsum_scale, <- fsum_add. apply fsum_ext. intros t _. unfold contribution. fold nu. destruct (in_slices g s e t); [|ring].
  fold (ph t). ring.
Qed.
End Plane.
