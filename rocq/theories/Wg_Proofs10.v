(** Power of the normalized fields. *)
From Coq Require Import Reals Lra.
From Verif Require Import Base CField CField_Proofs GMath_Model GMath_Proofs CplxField Maxwell_Model Wg_Model Wg_Model2 Wg_Spec Wg_Proofs7 Wg_Proofs8 Wg_Proofs9.
From Coq Require Import Lia.
Set Implicit Arguments.
Local Open Scope R_scope.
Add Field CCf10 : (k_field CC).

Lemma re_sub (x y : CC) : re (x - y)%K = re x - re y.
Proof. reflexivity. Qed.
Lemma sum_back0 g (f : array CC) : sum_plane g (roll_back g f 0) = sum_plane g f.
Proof. unfold sum_plane. exact (@fsum_back CC (dim g 0) (fun i => fsum (dim g 1) (fun j => f i j 0%nat))). Qed.
Lemma sum_back1 g (f : array CC) : sum_plane g (roll_back g f 1) = sum_plane g f.
Proof. unfold sum_plane. apply fsum_ext. intros i Hi. exact (@fsum_back CC (dim g 1) (fun j => f i j 0%nat)). Qed.
Lemma sum_plane_ext g (f f' : array CC) : (forall i j, (i < dim g 0)%nat -> (j < dim g 1)%nat -> f i j 0%nat = f' i j 0%nat) -> sum_plane g f = sum_plane g f'.
Proof. intros H. unfold sum_plane. apply fsum_ext. intros i Hi. apply fsum_ext. intros j Hj. auto. Qed.
Lemma sum_plane_add g (f f' : array CC) : sum_plane g (fun i j l => f i j l + f' i j l)%K = (sum_plane g f + sum_plane g f')%K.
Proof. unfold sum_plane. rewrite <- (@fsum_add CC). apply fsum_ext. intros i Hi. apply (@fsum_add CC). Qed.
Lemma sum_plane_sub g (f f' : array CC) : sum_plane g (fun i j l => f i j l - f' i j l)%K = (sum_plane g f - sum_plane g f')%K.
Proof. unfold sum_plane. rewrite <- (@fsum_sub CC). apply fsum_ext. intros i Hi. apply (@fsum_sub CC). Qed.
Lemma sum_plane_scale g (a : CC) (f : array CC) : sum_plane g (fun i j l => a * f i j l)%K = (a * sum_plane g f)%K.
Proof. unfold sum_plane. rewrite <- (@fsum_scale CC). apply fsum_ext. intros i Hi. apply (@fsum_scale CC). Qed.

Lemma rolls g (S1 S2 : array CC) :
  re (sum_plane g (fun i j l => rl (1 / 2) * ((S1 i j l + roll_back g S1 0 i j l) - (S2 i j l + roll_back g S2 1 i j l)))%K)
  = re (sum_plane g (fun i j l => S1 i j l - S2 i j l)%K).
Proof.
  rewrite (sum_plane_scale g (rl (1 / 2)) (fun i j l => (S1 i j l + roll_back g S1 0 i j l) - (S2 i j l + roll_back g S2 1 i j l))%K).
  rewrite (sum_plane_sub g (fun i j l => S1 i j l + roll_back g S1 0 i j l)%K (fun i j l => S2 i j l + roll_back g S2 1 i j l)%K).
  rewrite (sum_plane_add g S1 (roll_back g S1 0)), (sum_plane_add g S2 (roll_back g S2 1)), sum_back0, sum_back1.
  rewrite (sum_plane_sub g S1 S2). rewrite re_rl. generalize (sum_plane g S1), (sum_plane g S2). intros [a a'] [b b'].
  unfold re. cbn. field.
Qed.
(** the power the code computes, without the rolls that do not matter *)
Lemma mode_power_sum g E H : mode_power g E H = 1 / 2 * re (sum_plane g (fun i j l =>
  E 0%nat i j l * roll_back g (fun i j l => kconj (H 1%nat i j l)) 0 i j l * rl (re (dxe g 1 j)) * rl (re (dxh g 0 i))
  - E 1%nat i j l * roll_back g (fun i j l => kconj (H 0%nat i j l)) 1 i j l * rl (re (dxe g 0 i)) * rl (re (dxh g 1 j)))%K).
Proof.
  exact (f_equal (Rmult (1 / 2)) (rolls g
    (fun i j l : nat => (E 0%nat i j l * roll_back g (fun i j l => kconj (H 1%nat i j l)) 0 i j l * rl (re (dxe g 1 j)) * rl (re (dxh g 0 i)))%K)
    (fun i j l : nat => (E 1%nat i j l * roll_back g (fun i j l => kconj (H 0%nat i j l)) 1 i j l * rl (re (dxe g 0 i)) * rl (re (dxh g 1 j)))%K))).
Qed.

Lemma conj_rl (d : CC) : kconj d = d -> d = rl (re d).
Proof. destruct d as [a b]. intros H. apply (f_equal snd) in H. cbn in H. unfold rl, re. cbn. apply c_eq; cbn; lra. Qed.
Lemma mode_power_flux g E H : uniform_plane g ->
  (forall i i' j, (i < dim g 0)%nat -> (i' < dim g 0)%nat -> (j < dim g 1)%nat -> H 1%nat i j 0%nat = H 1%nat i' j 0%nat) ->
  (forall i j j', (i < dim g 0)%nat -> (j < dim g 1)%nat -> (j' < dim g 1)%nat -> H 0%nat i j 0%nat = H 0%nat i j' 0%nat) ->
  mode_power g E H = 1 / 2 * re (plane_flux g E H).
Proof.
  intros (d0 & d1 & R0 & R1 & Hd) H1 H0. apply conj_rl in R0, R1. rewrite R0, R1 in Hd. clear R0 R1. generalize dependent (re d0). generalize dependent (re d1). clear d0 d1. intros d1 d0 Hd. rewrite mode_power_sum. f_equal. f_equal. unfold plane_flux. fold (sum_plane g (fun i j l => (E 0%nat i j l * kconj (H 1%nat i j l) * dxe g 0 i * dxh g 1 j
    - E 1%nat i j l * kconj (H 0%nat i j l) * dxh g 0 i * dxe g 1 j)%K)).
  apply sum_plane_ext. intros i j Hi Hj.
  destruct (Hd i) as (A1 & A2 & _ & _). destruct (Hd j) as (_ & _ & A3 & A4). rewrite A1, A2, A3, A4. unfold roll_back. cbn [pick].
  rewrite (H1 (Nat.modulo (i + dim g 0 - 1) (dim g 0)) i j) by (auto; apply Nat.mod_upper_bound; lia).
  rewrite (H0 i (Nat.modulo (j + dim g 1 - 1) (dim g 1)) j) by (auto; apply Nat.mod_upper_bound; lia).
  change (re (rl d1)) with d1. change (re (rl d0)) with d0.
  generalize (kconj (H 1%nat i j 0%nat)), (kconj (H 0%nat i j 0%nat)). intros b c. ring.
Qed.
Lemma plane_flux_scale g E H (a : CC) : plane_flux g (scale3 a E) (scale3 a H) = (rl (cn2 a) * plane_flux g E H)%K.
Proof.
  unfold plane_flux. apply fsum_scale_ext. intros i Hi. apply fsum_scale_ext. intros j Hj.
  assert (N : (a * kconj a)%K = rl (cn2 a)) by (apply c_eq; cbn; unfold cn2; ring).
  unfold scale3. rewrite !(kconj_mul CC). rewrite <- N.
  generalize (kconj a). intros b. repeat match goal with |- context [kconj ?x] => generalize (kconj x); intro end. ring.
Qed.
Lemma cn2_cabs (x : CC) : cabs x = 1 -> cn2 x = 1.
Proof. intros H. rewrite <- cabs_sq, H. ring. Qed.
Lemma cabs_unturn z : cabs (unturn z) = 1.
Proof.
  destruct (czero z) eqn:Z.
  - apply czero_spec in Z. change (z = (0 : CC)%K) in Z. rewrite Z, unturn_0. apply (cabs_rl (r := 1)). lra.
  - assert (Nz : z <> (0 : CC)%K). { intros E0. assert (czero z = true) by now apply czero_spec. congruence. }
    rewrite unturn_nz by auto. pose proof (cabs_pos Nz). rewrite cabs_div by auto. change (kconj z) with (cconj z). rewrite cabs_conj. field. lra.
Qed.
Lemma norm_factor_abs g E H nf : norm_factor g E H = Ok nf -> 0 < mode_power g E H /\ cn2 nf * mode_power g E H = 1.
Proof.
  unfold norm_factor. destruct (Rlt_dec 0 (mode_power g E H)) as [HP|]; [|discriminate]. intros [= <-]. split; [exact HP|].
  pose proof (sqrt_lt_R0 _ HP) as HS. set (z := entry _ _ _).
  rewrite <- cabs_sq. assert (M : cabs (rl (1 / sqrt (mode_power g E H)) * unturn z)%K = 1 / sqrt (mode_power g E H)).
  { transitivity (cabs (rl (1 / sqrt (mode_power g E H))) * cabs (unturn z)); [apply cabs_mul|]. rewrite cabs_unturn, cabs_rl; [ring|].
    apply Rlt_le. apply Rdiv_lt_0_compat; lra. }
  change (cabs (rl (1 / sqrt (mode_power g E H)) * unturn z)%K * cabs (rl (1 / sqrt (mode_power g E H)) * unturn z)%K * mode_power g E H = 1).
  rewrite M. set (P := mode_power g E H) in *. transitivity (1 / sqrt P * (1 / sqrt P) * (sqrt P * sqrt P)); [now rewrite sqrt_sqrt by lra|]. field. lra.
Qed.

Theorem normalized_lemma g omega eps mu beta v : uniform_plane g ->
  (forall i i' j, (i < dim g 0)%nat -> (i' < dim g 0)%nat -> (j < dim g 1)%nat -> snd v i j 0%nat = snd v i' j 0%nat) ->
  (forall i j j', (i < dim g 0)%nat -> (j < dim g 1)%nat -> (j' < dim g 1)%nat -> fst v i j 0%nat = fst v i j' 0%nat) ->
  match normalized_fields g omega eps mu beta v with
  | Ok (e, h) => 1 / 2 * re (plane_flux g e h) = 1
  | Err e => e = UserError 1 /\ re (plane_flux g (v2e g omega eps mu beta v) (v2h g mu beta v)) <= 0
  end.
Proof.
  intros Hu H1 H0. unfold normalized_fields. set (e := v2e _ _ _ _ _ _). set (h := v2h _ _ _ _).
  pose proof (@mode_power_flux g e h Hu H1 H0) as HP.
  destruct (norm_factor g e h) as [nf|er] eqn:N; cbn [bind].
  - destruct (norm_factor_abs _ _ _ N) as [_ HN]. rewrite plane_flux_scale, re_rl. rewrite HP in HN. etransitivity; [|exact HN]. ring.
  - unfold norm_factor in N. destruct (Rlt_dec 0 (mode_power g e h)); [discriminate|]. injection N as <-. split; auto. lra.
Qed.

(** *** Two modes of free space on a periodic grid of n x 1 cells *)
Definition strip (n : nat) : grid CC := Grid (fun k => match k with 1 => n | _ => 1 end)%nat (fun _ _ => (1 : CC)%K) (fun _ _ => (1 : CC)%K).
Definition ones : field3 CC := fun _ _ _ _ => (1 : CC)%K.
Definition along_y (l : list R) : array CC * array CC := (fun i j _ => rl (nth j l 0), fun _ _ _ => (0 : CC)%K).
Definition wave4 : list R := [1; 0; -1; 0].
Definition wave6 : list R := [2; 1; -1; -2; -1; 1].
Lemma rl_add a b : (rl a + rl b)%K = rl (a + b).
Proof. apply c_eq; cbn; ring. Qed.
Lemma rl_sub a b : (rl a - rl b)%K = rl (a - b).
Proof. apply c_eq; cbn; ring. Qed.
Lemma rl_0 : (0 : CC)%K = rl 0.
Proof. reflexivity. Qed.
Lemma rl_1 : (1 : CC)%K = rl 1.
Proof. reflexivity. Qed.
Lemma ki_nz : (ki : CC) <> (0 : CC)%K.
Proof. exact (ki_neq0 CC). Qed.
Section Strip.
Variables (n : nat) (l : list R) (w b : R).
Hypothesis Hn : (0 < n)%nat. Hypothesis Hw : w <> 0. Hypothesis Hb : b <> 0.
Let h (j : nat) : R := nth j l 0.
Let v := along_y l.
Lemma NB : rl b <> (0 : CC)%K. Proof. apply rl_neq0. exact Hb. Qed.
Lemma NW : rl w <> (0 : CC)%K. Proof. apply rl_neq0. exact Hw. Qed.
Ltac nzs := repeat split; first [exact c1_nz | exact NW | exact NB | exact ki_nz].
Lemma strip_de0 (f : array CC) j k : de (strip n) f 0 0%nat j k = (0 : CC)%K.
Proof. unfold de, roll_forward. cbn [strip dim dxe pick]. change (Nat.modulo (0 + 1) 1) with 0%nat. field. exact c1_nz. Qed.
Lemma strip_dh0 (f : array CC) j k : dh (strip n) f 0 0%nat j k = (0 : CC)%K.
Proof. unfold dh, roll_back. cbn [strip dim dxh pick]. change (Nat.modulo (0 + 1 - 1) 1) with 0%nat. field. exact c1_nz. Qed.
Lemma strip_dv j k : op_dv (strip n) ones (fst v) (snd v) 0%nat j k = (0 : CC)%K.
Proof.
  unfold op_dv. rewrite strip_de0. unfold de, roll_forward, v. cbn [along_y fst snd]. unfold ones. field. split; exact c1_nz.
Qed.
Lemma strip_h2 j k : v2h (strip n) ones (rl b) v 2%nat 0%nat j k = (0 : CC)%K.
Proof. unfold v2h. rewrite strip_dv. field. nzs. Qed.
Lemma strip_e1 j k : v2e (strip n) (rl w) ones ones (rl b) v 1%nat 0%nat j k = (rl (- (b / w) * h j) : CC).
Proof.
  unfold v2e, wg_curl_h, wg_curl. rewrite strip_dh0. change (v2h (strip n) ones (rl b) v 0%nat 0%nat j k) with (rl (h j)). unfold ones.
  replace (rl (- (b / w) * h j)) with (- (rl b / rl w) * rl (h j))%K.
  - field. nzs.
  - rewrite rl_mul. f_equal. apply c_eq; cbn; unfold cdiv, cinv, cmul, cscale, cconj; cbn; field; auto.
Qed.
Lemma strip_e0 j k : v2e (strip n) (rl w) ones ones (rl b) v 0%nat 0%nat j k = (0 : CC)%K.
Proof.
  unfold v2e, wg_curl_h, wg_curl, dh, roll_back. cbn [pick strip dim dxh]. rewrite !strip_h2. change (v2h (strip n) ones (rl b) v 1%nat 0%nat j k) with (0 : CC)%K. unfold ones.
  field. nzs.
Qed.
Lemma strip_flux : re (plane_flux (strip n) (v2e (strip n) (rl w) ones ones (rl b) v) (v2h (strip n) ones (rl b) v))
  = re (fsum n (fun j => rl (b / w * (h j * h j)) : CC)).
Proof.
  f_equal. unfold plane_flux. cbn [dim strip fsum]. etransitivity; [apply (Ring_theory.Radd_0_l (F_R (k_field CC)))|].
  apply fsum_ext. intros j Hj. rewrite strip_e0, strip_e1. change (v2h (strip n) ones (rl b) v 0%nat 0%nat j 0%nat) with (rl (h j)). change (v2h (strip n) ones (rl b) v 1%nat 0%nat j 0%nat) with (0 : CC)%K.
  unfold strip. cbn [dxe dxh]. replace (kconj (rl (h j))) with (rl (h j)) by (apply c_eq; cbn; ring).
  transitivity (- (rl (- (b / w) * h j) * rl (h j)))%K; [rewrite (@kconj_0 CC); ring|]. apply c_eq; cbn; ring.
Qed.
Lemma strip_power : mode_power (strip n) (v2e (strip n) (rl w) ones ones (rl b) v) (v2h (strip n) ones (rl b) v)
  = 1 / 2 * re (fsum n (fun j => rl (b / w * (h j * h (Nat.modulo (j + n - 1) n))) : CC)).
Proof.
  rewrite mode_power_sum. f_equal. f_equal. unfold sum_plane. cbn [dim strip fsum]. etransitivity; [apply (Ring_theory.Radd_0_l (F_R (k_field CC)))|].
  apply fsum_ext. intros j Hj. rewrite strip_e0, strip_e1. unfold roll_back. cbn [pick strip dim dxe dxh].
  change (v2h (strip n) ones (rl b) v 0%nat 0%nat (Nat.modulo (j + n - 1) n) 0%nat) with (rl (h (Nat.modulo (j + n - 1) n))).
  change (re (1 : CC)%K) with 1. rewrite <- rl_1.
  generalize (Nat.modulo (j + n - 1) n). intros j'. replace (kconj (rl (h j'))) with (rl (h j')) by (apply c_eq; cbn; ring).
  transitivity (- (rl (- (b / w) * h j) * rl (h j')))%K; [ring|]. apply c_eq; cbn; ring.
Qed.
Lemma strip_mode e : (forall j, (j < n)%nat -> w * w * h j + (h (Nat.modulo (j + 1) n) - 2 * h j + h (Nat.modulo (j + n - 1) n)) = e * h j) ->
  forall i j, (i < 1)%nat -> (j < n)%nat ->
  fst (wg_operator (strip n) (rl w) ones ones v) i j 0%nat = (rl e * fst v i j 0%nat)%K /\
  snd (wg_operator (strip n) (rl w) ones ones v) i j 0%nat = (rl e * snd v i j 0%nat)%K.
Proof.
  intros He i j Hi Hj. assert (i = 0)%nat by lia. subst.
  assert (N1 : (1 : CC)%K <> (0 : CC)%K) by exact c1_nz.
  assert (CZ : forall j k, op_cz (strip n) ones (fst v) (snd v) 0%nat j k = rl (- (h j - h (Nat.modulo (j + n - 1) n)))).
  { intros j' k. unfold op_cz. rewrite strip_dh0. unfold dh, roll_back. cbn [pick strip dim dxh]. unfold v. cbn [along_y fst snd]. unfold ones.
    change (nth j' l 0) with (h j'). change (nth (Nat.modulo (j' + n - 1) n) l 0) with (h (Nat.modulo (j' + n - 1) n)).
    transitivity (- (rl (h j') - rl (h (Nat.modulo (j' + n - 1) n))))%K; [field; exact N1|]. apply c_eq; cbn; ring. }
  unfold wg_operator. cbn [fst snd]. split.
  - rewrite strip_dh0. unfold de, roll_forward. cbn [pick strip dim dxe]. rewrite !CZ. unfold v. cbn [along_y fst snd]. unfold ones.
    assert (B : Nat.modulo (Nat.modulo (j + 1) n + n - 1) n = j).
    { destruct (Nat.eq_dec (j + 1) n) as [E|E].
      - rewrite E, Nat.mod_same by lia. replace (0 + n - 1)%nat with j by lia. apply Nat.mod_small. lia.
      - rewrite (Nat.mod_small (j + 1)) by lia. replace (j + 1 + n - 1)%nat with (j + 1 * n)%nat by lia. rewrite Nat.mod_add by lia. apply Nat.mod_small. lia. }
    rewrite B. change (nth j l 0) with (h j). rewrite <- (rl_mul e), <- (He j Hj).
    generalize (h (Nat.modulo (j + 1) n)), (h (Nat.modulo (j + n - 1) n)), (h j). intros p m c.
    transitivity (rl w * rl w * rl c - (rl (- (p - c)) - rl (- (c - m))))%K; [field; exact N1|]. apply c_eq; cbn; ring.
  - unfold dh, roll_back. cbn [pick strip dim dxh]. rewrite !strip_dv, strip_de0. unfold v. cbn [along_y fst snd]. unfold ones. field. exact N1.
Qed.
End Strip.
Lemma re_fsum n (f : nat -> R) : re (fsum n (fun j => rl (f j) : CC)) = fold_right Rplus 0 (map f (seq 0 n)).
Proof.
  transitivity (re (rl (fold_right Rplus 0 (map f (seq 0 n))))); [f_equal|reflexivity].
  induction n; [reflexivity|]. rewrite seq_S, map_app, fold_right_app. cbn [fsum]. rewrite IHn, rl_add. f_equal. cbn [map fold_right plus].
  generalize (map f (seq 0 n)). intros l. induction l; cbn [fold_right]; lra.
Qed.
Lemma wave4_mode i j : (i < 1)%nat -> (j < 4)%nat ->
  fst (wg_operator (strip 4) (rl (3 / 2)) ones ones (along_y wave4)) i j 0%nat = (rl (1 / 2) * rl (1 / 2) * fst (along_y wave4) i j 0%nat)%K /\
  snd (wg_operator (strip 4) (rl (3 / 2)) ones ones (along_y wave4)) i j 0%nat = (rl (1 / 2) * rl (1 / 2) * snd (along_y wave4) i j 0%nat)%K.
Proof.
  rewrite <- rl_mul. revert i j. apply strip_mode; [lia|]. intros k Hk. destruct k as [|[|[|[|]]]]; try lia; cbn [Nat.modulo Nat.divmod Nat.add Nat.sub snd fst nth wave4]; lra.
Qed.
Lemma wave6_mode i j : (i < 1)%nat -> (j < 6)%nat ->
  fst (wg_operator (strip 6) (rl (5 / 3)) ones ones (along_y wave6)) i j 0%nat = (rl (4 / 3) * rl (4 / 3) * fst (along_y wave6) i j 0%nat)%K /\
  snd (wg_operator (strip 6) (rl (5 / 3)) ones ones (along_y wave6)) i j 0%nat = (rl (4 / 3) * rl (4 / 3) * snd (along_y wave6) i j 0%nat)%K.
Proof.
  rewrite <- rl_mul. revert i j. apply strip_mode; [lia|]. intros k Hk. destruct k as [|[|[|[|[|[|]]]]]]; try lia; cbn [Nat.modulo Nat.divmod Nat.add Nat.sub snd fst nth wave6]; lra.
Qed.
Lemma wave4_flux : re (plane_flux (strip 4) (v2e (strip 4) (rl (3 / 2)) ones ones (rl (1 / 2)) (along_y wave4)) (v2h (strip 4) ones (rl (1 / 2)) (along_y wave4))) = 2 / 3.
Proof. rewrite strip_flux by lra. rewrite re_fsum. cbn. field. Qed.
Lemma wave4_power : mode_power (strip 4) (v2e (strip 4) (rl (3 / 2)) ones ones (rl (1 / 2)) (along_y wave4)) (v2h (strip 4) ones (rl (1 / 2)) (along_y wave4)) = 0.
Proof. rewrite strip_power by lra. rewrite re_fsum. cbn. field. Qed.
Lemma wave6_flux : re (plane_flux (strip 6) (v2e (strip 6) (rl (5 / 3)) ones ones (rl (4 / 3)) (along_y wave6)) (v2h (strip 6) ones (rl (4 / 3)) (along_y wave6))) = 48 / 5.
Proof. rewrite strip_flux by lra. rewrite re_fsum. cbn. field. Qed.
Lemma wave6_power : mode_power (strip 6) (v2e (strip 6) (rl (5 / 3)) ones ones (rl (4 / 3)) (along_y wave6)) (v2h (strip 6) ones (rl (4 / 3)) (along_y wave6)) = 12 / 5.
Proof. rewrite strip_power by lra. rewrite re_fsum. cbn. field. Qed.
Lemma wave4_refused : normalized_fields (strip 4) (rl (3 / 2)) ones ones (rl (1 / 2)) (along_y wave4) = Err (UserError 1).
Proof.
  unfold normalized_fields, norm_factor. rewrite wave4_power. destruct (Rlt_dec 0 0); [lra|]. reflexivity.
Qed.
Lemma wave6_twice : exists e h, normalized_fields (strip 6) (rl (5 / 3)) ones ones (rl (4 / 3)) (along_y wave6) = Ok (e, h) /\ 1 / 2 * re (plane_flux (strip 6) e h) = 2.
Proof.
  unfold normalized_fields. destruct (norm_factor _ _ _) as [nf|er] eqn:N; cbn [bind].
  - do 2 eexists. split; [reflexivity|]. destruct (norm_factor_abs _ _ _ N) as [_ HN]. rewrite plane_flux_scale, re_rl, wave6_flux. rewrite wave6_power in HN. lra.
  - exfalso. unfold norm_factor in N. rewrite wave6_power in N. destruct (Rlt_dec 0 (12 / 5)); [discriminate|lra].
Qed.
