(** Borders of plane wave sources, normalization by a simulation, the power of Gaussian beams. *)
From Coq Require Import Reals ZArith Lra Lia List.
From Verif Require Import Base CField CField_Proofs GMath_Model GMath_Proofs CplxField Maxwell_Model Maxwell_Spec Maxwell_Proofs Wg_Model Wg_Model2 Wg_Spec Fs_Model Fs_Spec Fs_Proofs Fs_Proofs2 Fs_Proofs3 Fs_Proofs4.
Import ListNotations.
Set Implicit Arguments.
Local Open Scope R_scope.

Lemma ramp_at s b i : (0 < b)%Z -> (2 * b < s - 1)%Z -> (0 <= i < s)%Z -> ramp s b i = Rmax 0 (1 - IZR (Z.min i (s - 1 - i)) / IZR b).
Proof.
  intros Hb Hs Hi. unfold ramp. assert (HB : 0 < IZR b) by (apply IZR_lt; lia).
  destruct (Z.ltb_spec (2 * b) (s - 1)); [|lia]. destruct (Z.ltb_spec 0 b); [|lia]. cbn [andb].
  assert (Q : forall j, 1 - IZR j / IZR b = IZR (b - j) / IZR b) by (intros; rewrite minus_IZR; field; lra).
  rewrite !Q. assert (P : forall j, (0 <= j)%Z -> 0 <= IZR j / IZR b) by (intros j Hj; apply Rmult_le_pos; [apply IZR_le; lia|left; now apply Rinv_0_lt_compat]).
  destruct (Z.ltb_spec i b); [|destruct (Z.ltb_spec i (s - b))].
  - rewrite Z.min_l by lia. rewrite Rmax_right; [reflexivity|apply P; lia].
  - rewrite Rmax_left; [reflexivity|]. assert (HM : (b - Z.min i (s - 1 - i) <= 0)%Z) by lia. apply IZR_le in HM.
    apply Rmult_le_reg_r with (IZR b); [lra|]. replace (IZR (b - Z.min i (s - 1 - i)) / IZR b * IZR b) with (IZR (b - Z.min i (s - 1 - i))) by (field; lra). lra.
  - rewrite Z.min_r by lia. replace (i - (s - b) + 1)%Z with (b - (s - 1 - i))%Z by lia. rewrite Rmax_right; [reflexivity|apply P; lia].
Qed.
Lemma ramp_bounds s b i : (0 <= b)%Z -> (0 <= i < s)%Z -> 0 <= ramp s b i <= 1.
Proof.
  intros Hb Hi. destruct (Z.ltb_spec (2 * b) (s - 1)) as [H1|H1].
  - destruct (Z.ltb_spec 0 b) as [H2|H2].
    + rewrite ramp_at by lia. split; [apply Rmax_l|]. apply Rmax_lub; [lra|]. assert (0 < IZR b) by (apply IZR_lt; lia).
      assert (0 <= IZR (Z.min i (s - 1 - i)) / IZR b) by (apply Rmult_le_pos; [apply IZR_le; lia|left; now apply Rinv_0_lt_compat]). lra.
    + unfold ramp. destruct (Z.ltb_spec 0 b); [lia|]. rewrite Bool.andb_false_r. lra.
  - unfold ramp. destruct (Z.ltb_spec (2 * b) (s - 1)); [lia|]. cbn. lra.
Qed.
Lemma smooth_bounds c : 0 <= c <= 1 -> 0 <= 1 + 2 * (c * c * c) - 3 * (c * c) <= 1.
Proof.
  intros H. split.
  - replace (1 + 2 * (c * c * c) - 3 * (c * c)) with ((1 - c) * (1 - c) * (1 + 2 * c)) by ring. apply Rmult_le_pos; [nra|lra].
  - assert (c * c * c <= c * c) by nra. assert (0 <= c * c) by nra. lra.
Qed.
Definition coord_of (sl : slices) (axis : nat) (border : nat -> Z) (x y z a : nat) : R :=
  if Nat.eqb a axis then 0 else ramp (size sl a) (border a) (Z.of_nat (pick a x y z) - fst (sl a)).
Definition clip (c : R) : R := if Rlt_dec 1 c then 1 else c.
Lemma make_mask_eq g sl axis border x y z : make_mask g sl axis border x y z =
  if in_slices g (set_slice sl axis (0, Z.of_nat (dim g axis))%Z) x y z then
    let d := coord_of sl axis border x y z in
    let co := clip (sqrt (d 0%nat * d 0%nat + d 1%nat * d 1%nat + d 2%nat * d 2%nat)) in
    1 + 2 * (co * co * co) - 3 * (co * co)
  else 0.
Proof. reflexivity. Qed.
Lemma clip_bounds c : 0 <= c -> 0 <= clip c <= 1.
Proof. intros H. unfold clip. destruct (Rlt_dec 1 c); lra. Qed.
Lemma mask_bounds g sl axis border x y z : 0 <= make_mask g sl axis border x y z <= 1.
Proof.
  rewrite make_mask_eq. destruct (in_slices _ _ _ _ _); [|lra]. cbv zeta. apply smooth_bounds, clip_bounds, sqrt_pos.
Qed.
Lemma mask_inside g sl axis border x y z : in_slices g (set_slice sl axis (0, Z.of_nat (dim g axis))%Z) x y z = true ->
  (forall a, (a < 3)%nat -> a <> axis -> (border a <= Z.of_nat (pick a x y z) - fst (sl a) < size sl a - border a)%Z) ->
  make_mask g sl axis border x y z = 1.
Proof.
  intros Hi H. rewrite make_mask_eq, Hi. cbv zeta.
  assert (Z0 : forall a, (a < 3)%nat -> coord_of sl axis border x y z a = 0).
  { intros a Ha. unfold coord_of. destruct (Nat.eqb_spec a axis) as [|Hn]; [reflexivity|]. specialize (H a Ha Hn). unfold ramp.
    destruct (Z.ltb_spec (2 * border a) (size sl a - 1)); [|reflexivity]. destruct (Z.ltb_spec 0 (border a)); [|reflexivity]. cbn [andb].
    destruct (Z.ltb_spec (Z.of_nat (pick a x y z) - fst (sl a)) (border a)); [lia|]. destruct (Z.ltb_spec (Z.of_nat (pick a x y z) - fst (sl a)) (size sl a - border a)); [reflexivity|lia]. }
  rewrite !Z0 by lia. replace (0 * 0 + 0 * 0 + 0 * 0) with 0 by ring. rewrite sqrt_0. unfold clip. destruct (Rlt_dec 1 0); [lra|]. ring.
Qed.
Lemma mask_edge g sl axis border x y z a : (a < 3)%nat -> a <> axis -> (0 < border a)%Z -> (2 * border a < size sl a - 1)%Z ->
  (Z.of_nat (pick a x y z) = fst (sl a) \/ Z.of_nat (pick a x y z) = snd (sl a) - 1)%Z -> make_mask g sl axis border x y z = 0.
Proof.
  intros Ha Hn Hb Hs He. rewrite make_mask_eq. destruct (in_slices _ _ _ _ _); [|reflexivity]. cbv zeta.
  assert (Z1 : coord_of sl axis border x y z a = 1).
  { unfold coord_of. destruct (Nat.eqb_spec a axis); [contradiction|]. rewrite ramp_at; [|lia|lia|unfold size in *; lia].
    replace (Z.min _ _) with 0%Z by (unfold size in *; lia). rewrite Rmax_right; unfold Rdiv; rewrite Rmult_0_l; lra. }
  assert (S1 : 1 <= coord_of sl axis border x y z 0 * coord_of sl axis border x y z 0 + coord_of sl axis border x y z 1 * coord_of sl axis border x y z 1 + coord_of sl axis border x y z 2 * coord_of sl axis border x y z 2).
  { pose proof (Rle_0_sqr (coord_of sl axis border x y z 0)). pose proof (Rle_0_sqr (coord_of sl axis border x y z 1)). pose proof (Rle_0_sqr (coord_of sl axis border x y z 2)). unfold Rsqr in *.
    idx a Ha; rewrite ?Z1; rewrite Z1 in *; lra. }
  assert (C : clip (sqrt (coord_of sl axis border x y z 0 * coord_of sl axis border x y z 0 + coord_of sl axis border x y z 1 * coord_of sl axis border x y z 1 + coord_of sl axis border x y z 2 * coord_of sl axis border x y z 2)) = 1).
  { unfold clip. destruct (Rlt_dec 1 _) as [|Hge]; [reflexivity|]. apply sqrt_le_1_alt in S1. rewrite sqrt_1 in S1. lra. }
  rewrite C. ring.
Qed.
Lemma mask_outside g sl axis border x y z : in_slices g (set_slice sl axis (0, Z.of_nat (dim g axis))%Z) x y z = false -> make_mask g sl axis border x y z = 0.
Proof. intros H. rewrite make_mask_eq, H. reflexivity. Qed.
(** borders that do not fit *)
Lemma border_raises sl axis border a : (a < 3)%nat -> a <> axis -> size sl a <> 1%Z -> (size sl a <= 2 * border a)%Z -> check_border sl axis border = Err ValueError.
Proof.
  intros Ha Hn H1 H2. unfold check_border.
  set (o := fun a => if Z.ltb (2 * (if Nat.eqb a axis then 0 else border a)) (size sl a) then Ok (if Nat.eqb a axis then 0%Z else border a) else if Z.eqb (size sl a) 1 then Ok 0%Z else Err ValueError).
  assert (OA : o a = Err ValueError).
  { unfold o. destruct (Nat.eqb_spec a axis); [contradiction|]. destruct (Z.ltb_spec (2 * border a) (size sl a)); [lia|]. destruct (Z.eqb_spec (size sl a) 1); [contradiction|reflexivity]. }
  assert (OO : forall b, (exists v, o b = Ok v) \/ o b = Err ValueError) by (intros b; unfold o; repeat (match goal with |- context [if ?c then _ else _] => destruct c end); eauto).
  change (bind (o 0%nat) (fun x => bind (o 1%nat) (fun y => bind (o 2%nat) (fun z => Ok (fun a => if Z.ltb (2 * match a with 0%nat => x | 1%nat => y | _ => z end) (size sl a) then match a with 0%nat => x | 1%nat => y | _ => z end else 0%Z)))) = Err ValueError).
  destruct (OO 0%nat) as [[v0 E0]|E0]; rewrite E0; [|reflexivity]. cbn [bind]. destruct (OO 1%nat) as [[v1 E1]|E1]; rewrite E1; [|reflexivity]. cbn [bind].
  destruct (OO 2%nat) as [[v2 E2]|E2]; rewrite E2; [|reflexivity]. exfalso. idx a Ha; congruence.
Qed.
Lemma border_used sl axis border : (axis < 3)%nat -> (1 <= size sl axis)%Z -> (forall a, (a < 3)%nat -> a <> axis -> (0 <= 2 * border a < size sl a)%Z) ->
  exists b, check_border sl axis border = Ok b /\ b axis = 0%Z /\ forall a, (a < 3)%nat -> a <> axis -> b a = border a.
Proof.
  intros Hx H1 H. unfold check_border.
  set (o := fun a => if Z.ltb (2 * (if Nat.eqb a axis then 0 else border a)) (size sl a) then Ok (if Nat.eqb a axis then 0%Z else border a) else if Z.eqb (size sl a) 1 then Ok 0%Z else Err ValueError).
  set (w := fun a => if Nat.eqb a axis then 0%Z else border a).
  assert (W : forall a, (a < 3)%nat -> (2 * w a < size sl a)%Z) by (intros a Ha; unfold w; destruct (Nat.eqb_spec a axis); [subst; lia|now apply H]).
  assert (OA : forall a, (a < 3)%nat -> o a = Ok (w a)).
  { intros a Ha. unfold o. fold (w a). specialize (W a Ha). destruct (Z.ltb_spec (2 * w a) (size sl a)); [reflexivity|lia]. }
  change (exists b, bind (o 0%nat) (fun x => bind (o 1%nat) (fun y => bind (o 2%nat) (fun z => Ok (fun a => if Z.ltb (2 * match a with 0%nat => x | 1%nat => y | _ => z end) (size sl a) then match a with 0%nat => x | 1%nat => y | _ => z end else 0%Z)))) = Ok b
    /\ b axis = 0%Z /\ forall a, (a < 3)%nat -> a <> axis -> b a = border a).
  rewrite !OA by lia. cbn [bind]. eexists. split; [reflexivity|].
  assert (G : forall a, (a < 3)%nat -> (if Z.ltb (2 * match a with 0%nat => w 0%nat | 1%nat => w 1%nat | _ => w 2%nat end) (size sl a) then match a with 0%nat => w 0%nat | 1%nat => w 1%nat | _ => w 2%nat end else 0%Z) = w a).
  { intros a Ha. pose proof (W a Ha) as Wa. idx a Ha; match goal with |- context [Z.ltb ?p ?q] => destruct (Z.ltb_spec p q); [reflexivity|lia] end. }
  split; [rewrite G by auto; unfold w; now rewrite Nat.eqb_refl|]. intros a Ha Hn. rewrite G by auto. unfold w. destruct (Nat.eqb_spec a axis); [contradiction|reflexivity].
Qed.

(** *** normalize_source_by_sim *)
Definition times (a : R) (v : list CC) : list CC := map (fun x => x * rl a)%K v.
Lemma cabs_times (v : CC) a : 0 <= a -> cabs (v * rl a)%K = a * cabs v.
Proof.
  intros Ha. unfold cabs. cbn. replace (_ + _) with ((a * a) * (fst v * fst v + snd v * snd v)) by ring. rewrite sqrt_mult by nra. now rewrite sqrt_square.
Qed.
Lemma rsum_times v a : 0 <= a -> rsum (map cabs (times a v)) = a * rsum (map cabs v).
Proof. intros Ha. unfold times, rsum. induction v as [|x v IH]; cbn [map fold_right]; [ring|]. rewrite cabs_times, IH by auto. ring. Qed.
Lemma csum_times v w a : 0 <= a -> csum (map (fun p => rl (cabs (fst p)) * snd p)%K (combine (times a v) w)) = (rl a * csum (map (fun p => rl (cabs (fst p)) * snd p)%K (combine v w)))%K.
Proof.
  intros Ha. unfold times, csum. revert w. induction v as [|x v IH]; intros [|y w]; cbn [map combine fold_right]; try (apply c_eq; cbn; ring).
  rewrite IH. cbn [fst snd]. rewrite cabs_times by auto. generalize (fold_right kadd 0%K (map (fun p => (rl (cabs (fst p)) * snd p)%K) (combine v w))). intros u. generalize (cabs x). intros c.
  apply c_eq; cbn; ring.
Qed.
Lemma emitted_times v e a : rsum (map (fun p => - re (kconj (fst p) * snd p)%K) (combine (times a v) (times a e))) = a * a * rsum (map (fun p => - re (kconj (fst p) * snd p)%K) (combine v e)).
Proof.
  unfold times, rsum. revert e. induction v as [|x v IH]; intros [|y e]; cbn [map combine fold_right]; try ring. rewrite IH. cbn [fst snd].
  generalize (fold_right Rplus 0 (map (fun p : CC * CC => - re (kconj (fst p) * snd p)%K) (combine v e))). intros u. unfold re. cbn. ring.
Qed.
Lemma vec_times g source a : vec g (fun c x y z => source c x y z * rl a)%K = times a (vec g source).
Proof.
  apply (@vlen_ext CC g); [apply vec_length|unfold times; rewrite map_length; apply vec_length|]. intros c t Hc Ht. rewrite vec_at by auto.
  unfold times. rewrite <- (@vec_at CC g source c t Hc Ht). unfold at_. 
  assert (Q : (0 : CC)%K = (0 * rl a)%K) by (apply c_eq; cbn; ring). rewrite Q at 2. now rewrite (map_nth (fun x : CC => (x * rl a)%K)).
Qed.
Definition linear_solver (solve : list CC -> list CC -> list CC) : Prop := forall eps J a, solve eps (times a J) = times a (solve eps J).
Section Norm.
Variables (g : grid CC) (solve : list CC -> list CC -> list CC) (source eps : field3 CC) (power : R).
Hypothesis Hlin : linear_solver solve.
Hypothesis Hp : 0 < power.
Definition run (s : field3 CC) : R := emitted g s (solve (vec g (fun _ _ _ _ => eps_average g s eps)) (vec g s)).
Lemma normalize_ok : rsum (map cabs (vec g source)) <> 0 -> 0 < run source ->
  exists s, normalize_source_by_sim g solve source eps power = Ok s /\ run s = power /\
    exists a, 0 < a /\ forall c x y z, s c x y z = (source c x y z * rl a)%K.
Proof.
  intros H0 H1. unfold normalize_source_by_sim. fold (run source). destruct (Req_EM_T _ 0) as [E|_]; [contradiction|].
  destruct (Req_EM_T (run source) 0) as [E|_]; [lra|]. set (r := power / run source). assert (Hr : 0 < r) by (apply Rdiv_lt_0_compat; lra).
  destruct (Rlt_dec r 0) as [E|_]; [lra|]. eexists. split; [reflexivity|].
  assert (Ha : 0 < sqrt r) by (apply sqrt_lt_R0; lra). assert (Haa : sqrt r * sqrt r = r) by (apply sqrt_sqrt; lra).
  split; [|exists (sqrt r); auto].
  unfold run at 1. assert (EA : eps_average g (fun c x y z => source c x y z * rl (sqrt r))%K eps = eps_average g source eps).
  { unfold eps_average. rewrite vec_times, csum_times, rsum_times by lra.
    revert H0. generalize (rsum (map cabs (vec g source))), (csum (map (fun p => rl (cabs (fst p)) * snd p)%K (combine (vec g source) (vec g eps)))). revert Ha. generalize (sqrt r). intros a Ha u v Hu.
    apply c_eq; cbn; unfold cn2; cbn; field; split; nra. }
  rewrite EA, vec_times, Hlin. unfold emitted at 1. rewrite vec_times, emitted_times, Haa. unfold r. unfold run, emitted.
  set (q := rsum _). set (d := re (dxe g 0 0)). unfold run, emitted in H1. fold q d in H1. field. split; intros Z; rewrite Z in H1; lra.
Qed.
End Norm.

(** *** the power of a Gaussian beam *)
Lemma cabs_mult (a b : CC) : cabs (a * b)%K = cabs a * cabs b.
Proof. unfold cabs. rewrite <- sqrt_mult_alt by nra. f_equal. cbn. ring. Qed.
Lemma cabs_rl r : 0 <= r -> cabs (rl r) = r.
Proof. intros H. unfold cabs, rl. cbn. replace (r * r + 0 * 0) with (r * r) by ring. now apply sqrt_square. Qed.
Lemma cabs_cexp (z : CC) : cabs (cexp z) = exp (fst z).
Proof.
  unfold cabs, cexp. cbn [fst snd]. pose proof (sc2 (snd z)) as H. replace (_ + _) with (exp (fst z) * exp (fst z)) by (transitivity (exp (fst z) * exp (fst z) * (sin (snd z) * sin (snd z) + cos (snd z) * cos (snd z))); [rewrite H; ring|ring]).
  apply sqrt_square. left. apply exp_pos.
Qed.
Lemma cabs_turn phi : cabs (turn phi) = 1.
Proof. unfold turn. rewrite cabs_cexp. cbn. apply exp_0. Qed.
Lemma beam_abs k w0 q n p : 0 < k -> 0 < w0 ->
  let d := minus3 p q in let zeta := dot d n in let rho2 := dot d d - zeta * zeta in let xi := zeta / (k * (w0 * w0) / 2) in
  cabs (beam k w0 q n p) = / sqrt (1 + xi * xi) * exp (- rho2 / (w0 * w0 * (1 + xi * xi))).
Proof.
  intros Hk Hw d zeta rho2 xi. unfold beam. fold d zeta. fold rho2 xi. rewrite !cabs_mult, cabs_turn, gouy, cabs_mult, cabs_turn, cabs_cexp.
  assert (Hp : 0 < 1 + xi * xi) by nra. assert (Hs : 0 < sqrt (1 + xi * xi)) by (apply sqrt_lt_R0; lra).
  rewrite cabs_rl by (left; now apply Rinv_0_lt_compat).
  assert (E : fst (- rl (rho2 / (w0 * w0)) / (1 - ki * rl xi))%K = - rho2 / (w0 * w0 * (1 + xi * xi))).
  { cbn. unfold cn2. cbn. field. split; nra. }
  rewrite E. ring.
Qed.
Definition at_distance (q n m : vec3) (zeta rho : R) : vec3 := fun a => q a + zeta * n a + rho * m a.
Lemma beam_flux k w0 eps power q n m zeta : 0 < k -> 0 < w0 -> 0 < eps -> 0 <= power -> dot n n = 1 -> dot m m = 1 -> dot m n = 0 ->
  let w := w0 * sqrt (1 + (zeta / (k * (w0 * w0) / 2)) * (zeta / (k * (w0 * w0) / 2))) in
  forall rho, derivable_pt_lim (fun r => power * (1 - exp (- (2 * (r * r) / (w * w))))) rho
    (2 * PI * rho * (1 / 2 * sqrt eps * (cabs (rl (sqrt power) * (rl (sqrt (/ sqrt eps) * 2 / (sqrt PI * w0)) * beam k w0 q n (at_distance q n m zeta rho)))%K ^ 2))).
Proof.
  intros Hk Hw He Hp Hn Hm Hmn w rho.
  set (xi := zeta / (k * (w0 * w0) / 2)) in *. assert (H1 : 0 < 1 + xi * xi) by nra. assert (Hs : 0 < sqrt (1 + xi * xi)) by (apply sqrt_lt_R0; lra).
  assert (Hss : sqrt (1 + xi * xi) * sqrt (1 + xi * xi) = 1 + xi * xi) by (apply sqrt_sqrt; lra).
  assert (Hww : w * w = w0 * w0 * (1 + xi * xi)) by (transitivity (w0 * w0 * (sqrt (1 + xi * xi) * sqrt (1 + xi * xi))); [unfold w; ring|now rewrite Hss]). assert (Hw2 : 0 < w * w) by (rewrite Hww; nra). clearbody w. assert (Hwn : w <> 0) by (intros Z; rewrite Z in Hw2; lra).
  assert (Hse : 0 < sqrt eps) by (apply sqrt_lt_R0; lra). pose proof PI_RGT_0 as Hpi.
  assert (Hpp : sqrt PI * sqrt PI = PI) by (apply sqrt_sqrt; lra). assert (Hsp : 0 < sqrt PI) by (apply sqrt_lt_R0; lra).
  assert (Hi : 0 < / sqrt eps) by now apply Rinv_0_lt_compat.
  assert (Hii : sqrt (/ sqrt eps) * sqrt (/ sqrt eps) = / sqrt eps) by (apply sqrt_sqrt; lra).
  assert (Hsp2 : sqrt power * sqrt power = power) by now apply sqrt_sqrt.
  rewrite !cabs_mult, beam_abs by auto. rewrite !cabs_rl; [|apply Rmult_le_pos; [apply Rmult_le_pos; [apply sqrt_pos|lra]|left; apply Rinv_0_lt_compat; nra]|apply sqrt_pos].
  assert (Ez : dot (minus3 (at_distance q n m zeta rho) q) n = zeta).
  { unfold dot, minus3, at_distance in *. transitivity (zeta * (n 0%nat * n 0%nat + n 1%nat * n 1%nat + n 2%nat * n 2%nat) + rho * (m 0%nat * n 0%nat + m 1%nat * n 1%nat + m 2%nat * n 2%nat)); [ring|]. rewrite Hn, Hmn. ring. }
  assert (Ed : dot (minus3 (at_distance q n m zeta rho) q) (minus3 (at_distance q n m zeta rho) q) = zeta * zeta + rho * rho).
  { unfold dot, minus3, at_distance in *. transitivity (zeta * zeta * (n 0%nat * n 0%nat + n 1%nat * n 1%nat + n 2%nat * n 2%nat) + 2 * zeta * rho * (m 0%nat * n 0%nat + m 1%nat * n 1%nat + m 2%nat * n 2%nat) + rho * rho * (m 0%nat * m 0%nat + m 1%nat * m 1%nat + m 2%nat * m 2%nat)); [ring|]. rewrite Hn, Hmn, Hm. ring. }
  cbv zeta. rewrite Ez, Ed. fold xi. rewrite <- Hww.
  replace (- (zeta * zeta + rho * rho - zeta * zeta) / (w * w)) with (- (rho * rho) / (w * w)) by (field; exact Hwn).
  assert (EE : exp (- (rho * rho) / (w * w)) * exp (- (rho * rho) / (w * w)) = exp (- (2 * (rho * rho) / (w * w)))) by (rewrite <- exp_plus; f_equal; field; exact Hwn).
  set (X := exp (- (rho * rho) / (w * w))) in *. set (Y := exp (- (2 * (rho * rho) / (w * w)))) in *.
  assert (EV : 2 * PI * rho * (1 / 2 * sqrt eps * (sqrt power * (sqrt (/ sqrt eps) * 2 / (sqrt PI * w0) * (/ sqrt (1 + xi * xi) * X))) ^ 2)
               = power * (4 * rho / (w * w) * Y)).
  { transitivity (PI * rho * sqrt eps * (sqrt power * sqrt power) * (sqrt (/ sqrt eps) * sqrt (/ sqrt eps)) * 4 / ((sqrt PI * sqrt PI) * (w0 * w0) * (sqrt (1 + xi * xi) * sqrt (1 + xi * xi))) * (X * X)).
    - field. repeat split; nra.
    - rewrite Hsp2, Hii, Hpp, Hss, EE, Hww. field. repeat split; nra. }
  rewrite EV. unfold Y. clear -Hw2 Hwn.
  assert (D1 : derivable_pt_lim (fun r => - (2 * (r * r) / (w * w))) rho (- (4 * rho / (w * w)))).
  { replace (- (4 * rho / (w * w))) with ((- 2 / (w * w)) * (1 * rho + rho * 1)) by (field; exact Hwn).
    apply (derivable_pt_lim_ext (fun r => (- 2 / (w * w)) * (r * r))); [intros; field; exact Hwn|].
    apply (derivable_pt_lim_scal (fun r => r * r)). apply (derivable_pt_lim_mult id id); apply derivable_pt_lim_id. }
  assert (D2 := derivable_pt_lim_comp _ _ _ _ _ D1 (derivable_pt_lim_exp (- (2 * (rho * rho) / (w * w))))).
  assert (D3 := derivable_pt_lim_minus _ _ _ _ _ (derivable_pt_lim_const 1 rho) D2).
  assert (D4 := derivable_pt_lim_scal _ power _ _ D3).
  replace (power * (4 * rho / (w * w) * exp (- (2 * (rho * rho) / (w * w))))) with (power * (0 - exp (- (2 * (rho * rho) / (w * w))) * - (4 * rho / (w * w)))) by ring.
  exact D4.
Qed.
