(** Proofs about monitors, dipoles and plane wave nodes. *)
From Coq Require Import QArith Reals ZArith List Lia Lra.
From Verif Require Import Base CField CField_Proofs GMath_Model GMath_Proofs CplxField QTac Grid_Model Grid_Proofs Maxwell_Model Maxwell_Proofs Wg_Model Wg_Model2 Fs_Model Fs_Spec Fs_Proofs5 Mon_Model Mon_Spec Mon_Proofs.
Set Implicit Arguments.
Local Open Scope R_scope.

Lemma cell_pf e n r : increasing e -> length e = S n -> (1 <= n)%nat -> inside e r -> exists i, pos2ind e r = Ok i /\ cell_holds e r i.
Proof.
  intros Hi Hl Hn (H1 & H2). destruct (@pos2ind_in e Hi ltac:(lia) r H1 H2) as (i & P & I1 & I2 & I3).
  exists i. split; [exact P|]. split; [lia|]. split; [exact I2|]. destruct I3 as [I3|I3]; [left|right; lia]. now rewrite Nat.add_1_r in I3.
Qed.
Lemma pos2ind3_pf e n r : edges_of e n -> (forall a, (a < 3)%nat -> inside (e a) (r a)) ->
  exists i, pos2ind3 e (three r) = Ok i /\ forall a, (a < 3)%nat -> cell_holds (e a) (r a) (i a).
Proof.
  intros He Hr. assert (C : forall a, (a < 3)%nat -> exists i, pos2ind (e a) (r a) = Ok i /\ cell_holds (e a) (r a) i).
  { intros a Ha. destruct (He a Ha) as (H1 & H2 & H3). now apply (@cell_pf (e a) (n a)); auto. }
  destruct (C 0%nat ltac:(lia)) as (i & P0 & C0). destruct (C 1%nat ltac:(lia)) as (j & P1 & C1). destruct (C 2%nat ltac:(lia)) as (k & P2 & C2).
  unfold pos2ind3, three. rewrite P0, P1, P2. cbn [bind]. eexists. split; [reflexivity|]. intros a Ha. destruct a as [|[|[|a]]]; try lia; assumption.
Qed.
Lemma pos2ind_cases e r : (exists i, pos2ind e r = Ok i) \/ pos2ind e r = Err GridError.
Proof. unfold pos2ind. destruct (_ && _); [now right|left; eauto]. Qed.
Lemma pos2ind3_outside e n r b : edges_of e n -> (b < 3)%nat -> (2 <= n b)%nat -> ~ inside (e b) (r b) -> pos2ind3 e (three r) = Err GridError.
Proof.
  intros He Hb Hn Ho. assert (P : pos2ind (e b) (r b) = Err GridError).
  { destruct (He b Hb) as (H1 & H2 & H3). apply pos2ind_err; [lia|lia|]. unfold qn, qlast, qn.
    destruct (Qlt_le_dec (r b) (nth 0 (e b) 0%Q)) as [L|L]; [now left|]. destruct (Qlt_le_dec (nth (length (e b) - 1) (e b) 0%Q) (r b)) as [M|M]; [now right|].
    exfalso. apply Ho. now split. }
  unfold pos2ind3, three. destruct (pos2ind_cases (e 0%nat) (r 0%nat)) as [(i & E0)|E0], (pos2ind_cases (e 1%nat) (r 1%nat)) as [(j & E1)|E1], (pos2ind_cases (e 2%nat) (r 2%nat)) as [(k & E2)|E2];
  rewrite E0, ?E1, ?E2; cbn [bind]; try reflexivity. exfalso. destruct b as [|[|[|b]]]; try lia; congruence.
Qed.

(** *** monitors *)
Lemma monitor_slice_pf e n r v a : edges_of e n -> (forall b, (b < 3)%nat -> inside (e b) (r b)) -> along_axis v a ->
  exists i, cell_holds (e a) (r a) i /\ field_monitor e (Some (three r)) (Some (comps v)) = Ok (Some (a, i)).
Proof.
  intros He Hr Hv. destruct (@pos2ind3_pf e n r He Hr) as (i & P & C). exists (i a). pose proof Hv as (Ha & _). split; [now apply C|].
  unfold field_monitor, given. unfold three at 1. unfold comps at 1. rewrite (proj2 (axis_pf v a) Hv). cbn [bind]. fold (three r). rewrite P. cbn [bind].
  destruct (Nat.ltb_spec a 3); [reflexivity|lia].
Qed.
Lemma monitor_eval_slice (g : grid CC) (f : field3 CC) a i : (a < 3)%nat -> (i < dim g a)%nat ->
  exists d, monitor_eval g (Some (a, i)) (vec g f) = Ok d /\ (forall b, (b < 3)%nat -> shape_of d b = put a 1 b (dim g b)) /\
    forall c x y z, (c < 3)%nat -> (x < shape_of d 0)%nat -> (y < shape_of d 1)%nat -> (z < shape_of d 2)%nat ->
      value_at d c x y z = f c (put a i 0 x) (put a i 1 y) (put a i 2 z).
Proof.
  intros Ha Hi. destruct (unvec_vec_lemma g f) as (f' & U & E). unfold monitor_eval. rewrite U. cbn [bind]. eexists. split; [reflexivity|]. cbn [shape_of value_at].
  split; [reflexivity|]. intros c x y z Hc Hx Hy Hz. unfold put. destruct a as [|[|[|a]]]; try lia; cbn [Nat.eqb] in *.
  - replace (x + i)%nat with i by lia. apply E; auto.
  - replace (y + i)%nat with i by lia. apply E; auto.
  - replace (z + i)%nat with i by lia. apply E; auto.
Qed.
Lemma eval_whole (g : grid CC) (f : field3 CC) :
  exists d, monitor_eval g None (vec g f) = Ok d /\ (forall b, (b < 3)%nat -> shape_of d b = dim g b) /\
    forall c x y z, (c < 3)%nat -> (x < dim g 0)%nat -> (y < dim g 1)%nat -> (z < dim g 2)%nat -> value_at d c x y z = f c x y z.
Proof. destruct (unvec_vec_lemma g f) as (f' & U & E). unfold monitor_eval. rewrite U. cbn [bind]. eexists. split; [reflexivity|]. cbn [shape_of value_at]. split; auto. Qed.

(** *** dipoles *)
Lemma pyaxis_nat a : (a < 3)%nat -> pyaxis (Z.of_nat a) = Ok a.
Proof. intros H. destruct a as [|[|[|a]]]; try lia; reflexivity. Qed.
Lemma pyaxis_wrap a : (a < 3)%nat -> pyaxis (Z.of_nat a - 3) = Ok a.
Proof. intros H. destruct a as [|[|[|a]]]; try lia; reflexivity. Qed.
Lemma pyaxis_out a : (a < -3 \/ 3 <= a)%Z -> pyaxis a = Err IndexError.
Proof.
  intros H. unfold pyaxis. destruct (Z.leb_spec 0 a), (Z.ltb_spec a 3), (Z.leb_spec (-3) a), (Z.ltb_spec a 0); cbn; try lia; reflexivity.
Qed.
Lemma constant_pos : 0 < dipole_constant. Proof. unfold dipole_constant. Lra.lra. Qed.
Lemma j_norm_pf omega dx power : 0 < omega -> 0 < dx -> 0 <= power ->
  0 <= j_norm omega dx power /\ j_norm omega dx power * j_norm omega dx power * (dipole_constant * (omega * omega * (dx * dx * dx))) = power.
Proof.
  intros Ho Hd Hp. unfold j_norm. set (q := dipole_constant * (omega * omega * (dx * dx * dx))).
  assert (Q0 : 0 < q) by (unfold q; apply Rmult_lt_0_compat; [apply constant_pos|repeat apply Rmult_lt_0_compat; auto]).
  pose proof (sqrt_lt_R0 q Q0) as Q1. split.
  - apply Rmult_le_pos; [apply sqrt_pos|]. left. now apply Rinv_0_lt_compat.
  - transitivity (sqrt power * sqrt power); [|now apply sqrt_sqrt].
    replace q with (sqrt q * sqrt q) at 3 by (apply sqrt_sqrt; Lra.lra). field. Lra.lra.
Qed.
Section Dip.
Add Field CCf : (k_field CC).
Lemma dipole_value (ep : CC) s phi : ep <> 0%K -> (1 / ep * rl s * turn phi / rl (cabs (turn phi)) * ep)%K = (rl s * turn phi)%K.
Proof. intros He. rewrite cabs_turn. change (rl 1) with (1%K : CC). field. split; [exact He|exact (F_1_neq_0 (k_field CC))]. Qed.
End Dip.
Lemma dipole_pf e n dx (eps : field3 CC) wlen r a power phase : edges_of e n -> (forall b, (b < 3)%nat -> inside (e b) (r b)) -> (a < 3)%nat -> 0 < wlen -> 0 <= power ->
  (forall i, 0 < dx a i) -> (forall x y z, eps a x y z <> (0 : CC)%K) ->
  exists J i, dipole_call e dx eps wlen (three r) (Z.of_nat a) power phase = Ok J /\ (forall b, (b < 3)%nat -> cell_holds (e b) (r b) (i b)) /\
    (forall c x y z, J c x y z <> (0 : CC)%K -> c = a /\ x = i 0%nat /\ y = i 1%nat /\ z = i 2%nat) /\
    exists s, 0 <= s /\ (J a (i 0%nat) (i 1%nat) (i 2%nat) * eps a (i 0%nat) (i 1%nat) (i 2%nat) = rl s * turn (match phase with Some p => p | None => 0 end))%K /\
      s * s * (2661928208866846 / 100000000000000000 * ((2 * PI / wlen) * (2 * PI / wlen) * (dx a (i a) * dx a (i a) * dx a (i a)))) = power.
Proof.
  intros He Hr Ha Hw Hp Hd Hep. destruct (@pos2ind3_pf e n r He Hr) as (i & P & C).
  assert (Ho : 0 < 2 * PI / wlen) by (apply Rmult_lt_0_compat; [pose proof PI_RGT_0; Lra.lra|now apply Rinv_0_lt_compat]).
  unfold dipole_call. rewrite P. cbn [bind]. unfold build_dipole_source. rewrite pyaxis_nat by auto. cbn [bind]. eexists. exists i.
  split; [reflexivity|]. split; [exact C|]. split.
  - intros c x y z H. destruct (Nat.eqb_spec c a), (Nat.eqb_spec x (i 0%nat)), (Nat.eqb_spec y (i 1%nat)), (Nat.eqb_spec z (i 2%nat)); cbn [andb] in H; auto; now contradiction H.
  - destruct (j_norm_pf (dx := dx a (i a)) Ho (Hd (i a)) Hp) as (N1 & N2). exists (j_norm (2 * PI / wlen) (dx a (i a)) power). split; [exact N1|]. split; [|exact N2].
    rewrite !Nat.eqb_refl. cbn [andb]. apply dipole_value. apply Hep.
Qed.

(** *** plane wave nodes *)
Lemma border_check_ext sl axis b b' : (axis < 3)%nat -> (forall a, (a < 3)%nat -> a <> axis -> b a = b' a) -> check_border sl axis b = check_border sl axis b'.
Proof.
  intros Ha H. unfold check_border. destruct axis as [|[|[|axis]]]; try lia; cbn [Nat.eqb].
  - now rewrite (H 1%nat), (H 2%nat) by lia.
  - now rewrite (H 0%nat), (H 2%nat) by lia.
  - now rewrite (H 0%nat), (H 1%nat) by lia.
Qed.
Lemma border_zero sl axis b b' : check_border sl axis b = Ok b' -> b 2%nat = 0%Z -> b' 2%nat = 0%Z.
Proof.
  unfold check_border. set (b0 := fun a => if Nat.eqb a axis then 0%Z else b a). set (one := fun a => if (2 * b0 a <? size sl a)%Z then Ok (b0 a) else if (size sl a =? 1)%Z then Ok 0%Z else Err ValueError).
  cbv zeta. intros H Hb. change (bind (one 0%nat) (fun x => bind (one 1%nat) (fun y => bind (one 2%nat) (fun z =>
    Ok (fun a => let b1 := fun a => match a with 0 => x | 1 => y | _ => z end%nat in if (2 * b1 a <? size sl a)%Z then b1 a else 0%Z)))) = Ok b') in H.
  destruct (one 0%nat) as [x|]; [|discriminate]. cbn [bind] in H. destruct (one 1%nat) as [y|]; [|discriminate]. cbn [bind] in H.
  destruct (one 2%nat) as [z|] eqn:E; [|discriminate]. cbn [bind] in H. injection H as <-. cbn.
  assert (B : b0 2%nat = 0%Z) by (unfold b0; destruct (Nat.eqb 2 axis); auto).
  assert (z = 0%Z) as ->. { unfold one in E. rewrite B in E. destruct (2 * 0 <? size sl 2)%Z; [congruence|]. destruct (size sl 2 =? 1)%Z; congruence. }
  destruct (_ <? _)%Z; reflexivity.
Qed.
Lemma mask_no_z (g : grid CC) sl axis b x y z z' : b 2%nat = 0%Z -> axis <> 2%nat ->
  in_slices g (set_slice sl axis (0, Z.of_nat (dim g axis))%Z) x y z = in_slices g (set_slice sl axis (0, Z.of_nat (dim g axis))%Z) x y z' ->
  make_mask g sl axis b x y z = make_mask g sl axis b x y z'.
Proof.
  intros Hb Hn E. unfold make_mask. rewrite E. destruct (in_slices _ _ x y z'); [|reflexivity].
  assert (R0 : forall i, ramp (size sl 2) 0 i = 0) by (intros i; unfold ramp; rewrite andb_false_r; reflexivity).
  destruct (Nat.eqb_spec 2 axis) as [C|_]; [congruence|]. rewrite Hb, !R0. cbn [pick]. reflexivity.
Qed.
