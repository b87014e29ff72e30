(** Plane waves, the dispersion relation and real frequencies. *)
From Coq Require Import Reals Lra ZArith.
From Verif Require Import Base CField CField_Proofs GMath_Model GMath_Proofs CplxField Maxwell_Model Maxwell_Spec Maxwell_Proofs Maxwell_Proofs2 Maxwell_Proofs3 Maxwell_Proofs4
  Fs_Model Fs_Proofs2 Fs_Proofs8 Phc_Spec Phc_Proofs3 Wg_Model2 Ov_Model Skew_Model Skew_Spec Skew_Proofs Skew_Proofs2 Skew_Proofs3.
Set Implicit Arguments.
Local Open Scope R_scope.
Add Field CCf : (k_field CC).

Lemma rsum_const n c : rsum n (fun _ => c) = INR n * c.
Proof.
  unfold rsum. generalize 0%nat as s. induction n as [|n IH]; intros s; [simpl; ring|]. rewrite S_INR. cbn [seq map fold_right]. rewrite IH. ring.
Qed.
Lemma turn_value x : turn x = (cos x, sin x).
Proof. unfold turn, cexp. cbn [fst snd]. rewrite exp_0. f_equal; ring. Qed.
Lemma turn_conj x : cconj (turn x) = turn (- x).
Proof. rewrite !turn_value. unfold cconj. cbn [fst snd]. rewrite cos_neg, sin_neg. reflexivity. Qed.

Section W.
Variables (dim : nat -> nat) (h k : nat -> R) (so : nat -> nat -> Z).
Hypothesis Hh : forall a, (a < 3)%nat -> 0 < h a.
Hypothesis Hgood : good_shift dim so.
Local Notation dx := (fun a (_ : nat) => h a).
Local Notation g := (real_grid dim dx dx).
Local Notation n := (cellsn g).
Local Notation N := (vlen g).
Local Notation ph := (bloch_phases dim dx dx so k).
Local Notation U := (ue ph).
Local Notation W := (we ph).
Lemma phases_same : uh ph = U /\ wh ph = W.
Proof. split; reflexivity. Qed.
Lemma inverse_U : inverse_factors U W.
Proof. intros a. simpl. rewrite turn_turn. replace (- phase dim dx so k a + phase dim dx so k a) with 0 by ring. apply turn_0. Qed.
Lemma conj_U a : (a < 3)%nat -> kconj (U a) = W a.
Proof. intros _. simpl. rewrite turn_conj. f_equal. ring. Qed.
Definition hc (a : nat) : CC := (h a, 0).
Lemma uniform_g a i : (a < 3)%nat -> (i < Maxwell_Model.dim g a)%nat -> dxe g a i = hc a /\ dxh g a i = hc a.
Proof. intros _ _. split; reflexivity. Qed.
Lemma hc_real a : (a < 3)%nat -> kconj (hc a) = hc a.
Proof. intros _. unfold hc. simpl. unfold cconj. simpl. f_equal. ring. Qed.
Lemma hc_nz a : (a < 3)%nat -> hc a <> k0.
Proof. intros Ha E. injection E as E. pose proof (Hh Ha). lra. Qed.
Lemma phase_at a : (a < 3)%nat -> phase dim dx so k a = INR (dim a) * h a * k a - (IZR (so a 0%nat) * h 0%nat * k 0%nat + IZR (so a 1%nat) * h 1%nat * k 1%nat + IZR (so a 2%nat) * h 2%nat * k 2%nat).
Proof.
  intros Ha. unfold phase. unfold rsum at 1. rewrite rsum_const. cbn [seq map fold_right]. ax3 a; cbn [Nat.eqb]; ring.
Qed.
Lemma wave_ext : extensional (wave k h).
Proof. intros p q H. unfold wave. rewrite !H by lia. reflexivity. Qed.
Lemma wave_periodic : skew_periodic (K:=CC) (Maxwell_Model.dim g) U so (wave k h).
Proof.
  intros a p Ha. cbn [ue bloch_phases real_grid Maxwell_Model.dim]. change (kmul (turn (- phase dim dx so k a)) (wave k h (fun b => (p b + so a b)%Z))) with
    (turn (- phase dim dx so k a) * wave k h (fun b => (p b + so a b)%Z))%K. unfold wave. rewrite turn_turn. f_equal. rewrite phase_at by auto.
  rewrite !plus_IZR. unfold step. ax3 a; cbn [Nat.eqb]; rewrite plus_IZR, <- INR_IZR_INZ; ring.
Qed.
Lemma wave_step a d p : (a < 3)%nat -> wave k h (step a d p) = (turn (- (k a * (h a * IZR d))) * wave k h p)%K.
Proof.
  intros Ha. unfold wave. rewrite turn_turn. f_equal. unfold step. ax3 a; cbn [Nat.eqb]; rewrite plus_IZR; ring.
Qed.
Local Notation rot a d := (rotation_matrix g a d U W (so a)).
Lemma rot_wave a d t : (a < 3)%nat -> (d = 1 \/ d = -1)%Z -> (t < n)%nat ->
  at_ (mv n (rot a d) (restrict g (wave k h))) t = (turn (- (k a * (h a * IZR d))) * wave k h (cell g t))%K.
Proof.
  intros Ha Hd Ht. rewrite (@skew_rot_at CC g U W so (wave k h) inverse_U wave_ext Hgood wave_periodic d a t Ha Hd Ht). now apply wave_step.
Qed.
Local Notation Df := (Dfw g U W so).
Local Notation Db := (Dbk g U W so).
Lemma forward_wave a t : (a < 3)%nat -> (t < n)%nat -> at_ (mv n (Df a) (restrict g (wave k h))) t = (forward_factor k h a * wave k h (cell g t))%K.
Proof.
  intros Ha Ht. rewrite (@Dfw_at CC g U W so hc uniform_g a _ t Ha Ht). rewrite rot_wave by (auto; lia).
  unfold restrict. rewrite vbuild_at by auto. unfold forward_factor. fold (hc a). rewrite Rmult_1_r.
  rewrite !(Fdiv_def (k_field CC)). change (turn (- (k a * h a))) with (turn (- (k a * h a)) : CC). ring.
Qed.
Lemma back_wave a t : (a < 3)%nat -> (t < n)%nat -> at_ (mv n (Db a) (restrict g (wave k h))) t = (back_factor k h a * wave k h (cell g t))%K.
Proof.
  intros Ha Ht. rewrite (@Dbk_at CC g U W so hc uniform_g a _ t Ha Ht). rewrite rot_wave by (auto; lia).
  unfold restrict. rewrite vbuild_at by auto. unfold back_factor. fold (hc a).
  replace (- (k a * (h a * IZR (-1)))) with (k a * h a) by ring.
  rewrite !(Fdiv_def (k_field CC)). ring.
Qed.
Lemma part_wave (A : nat -> CC) c t : (c < 3)%nat -> (t < n)%nat -> at_ (part g (vec g (wave_field k h A)) c) t = (A c * at_ (restrict g (wave k h)) t)%K.
Proof.
  intros Hc Ht. rewrite part_at, vec_at by auto. unfold restrict. rewrite vbuild_at by auto. unfold wave_field. f_equal.
Qed.
Lemma mv_scaled (M : mat CC) (x : CC) (v w : list CC) t : (t < n)%nat -> (forall i, (i < n)%nat -> at_ v i = (x * at_ w i)%K) -> at_ (mv n M v) t = (x * at_ (mv n M w) t)%K.
Proof.
  intros Ht H. rewrite !mv_at by auto. rewrite <- fsum_scale. apply fsum_ext. intros i Hi. rewrite H by auto. ring.
Qed.
Definition crossk (x A : nat -> CC) (c : nat) : CC :=
  match c with
  | 0%nat => (x 1%nat * A 2%nat - x 2%nat * A 1%nat)%K
  | 1%nat => (x 2%nat * A 0%nat - x 0%nat * A 2%nat)%K
  | _ => (x 0%nat * A 1%nat - x 1%nat * A 0%nat)%K
  end.
Lemma cross_wave (D : nat -> mat CC) (f : nat -> CC) (A : nat -> CC) :
  (forall a t, (a < 3)%nat -> (t < n)%nat -> at_ (mv n (D a) (restrict g (wave k h))) t = (f a * wave k h (cell g t))%K) ->
  mv N (cross g (pick D)) (vec g (wave_field k h A)) = vec g (wave_field k h (crossk f A)).
Proof.
  intros HD. apply (@vlen_ext CC g); [apply (@mv_length CC)|apply vec_length|]. intros c t Hc Ht.
  rewrite cross_at, vec_at by auto. unfold dcol.
  assert (E : forall a b, (a < 3)%nat -> (b < 3)%nat -> at_ (mv n (D a) (part g (vec g (wave_field k h A)) b)) t = (A b * (f a * wave k h (cell g t)))%K).
  { intros a b Ha Hb. rewrite (@mv_scaled (D a) (A b) _ (restrict g (wave k h)) t Ht); [now rewrite HD|]. intros i Hi. now apply part_wave. }
  assert (Ew : forall B c', wave_field k h B c' (coord g 0 t) (coord g 1 t) (coord g 2 t) = (B c' * wave k h (cell g t))%K).
  { intros B c'. unfold wave_field. f_equal. }
  rewrite Ew. ax3 c; cbn [pick crossk]; rewrite !E by lia; ring.
Qed.
Lemma factor_product a : (a < 3)%nat -> (back_factor k h a * forward_factor k h a)%K = (- Rsqr (2 / h a * sin (k a * h a / 2)), 0) :> C.
Proof.
  intros Ha. pose proof (Hh Ha) as Hp.
  assert (E1 : forward_factor k h a = ((cos (k a * h a) - 1) / h a, - sin (k a * h a) / h a)).
  { unfold forward_factor. rewrite turn_value, cos_neg, sin_neg. apply c_eq; simpl; field; lra. }
  assert (E2 : back_factor k h a = ((1 - cos (k a * h a)) / h a, - sin (k a * h a) / h a)).
  { unfold back_factor. rewrite turn_value. apply c_eq; simpl; field; lra. }
  rewrite E1, E2. set (th := k a * h a). assert (Es : sin (th / 2) * sin (th / 2) = (1 - cos th) / 2).
  { replace (cos th) with (cos (2 * (th / 2))) by (f_equal; field). rewrite cos_2a_sin. field. }
  assert (Ec : sin th * sin th = 1 - cos th * cos th) by (pose proof (sin2_cos2 th) as H; unfold Rsqr in H; lra).
  apply c_eq; simpl.
  - unfold Rsqr. replace (2 / h a * sin (th / 2) * (2 / h a * sin (th / 2))) with (4 / (h a * h a) * (sin (th / 2) * sin (th / 2))) by (field; lra).
    rewrite Es. replace (- sin th / h a * (- sin th / h a)) with (sin th * sin th / (h a * h a)) by (field; lra). rewrite Ec. field; lra.
  - field; lra.
Qed.
Lemma double_curl (A : nat -> CC) c : (c < 3)%nat -> transverse k h A ->
  crossk (back_factor k h) (crossk (forward_factor k h) A) c = ((rl (grid_wavenumber2 k h)) * A c)%K.
Proof.
  intros Hc HT. unfold transverse in HT.
  assert (E : rl (grid_wavenumber2 k h) = (- (back_factor k h 0 * forward_factor k h 0 + back_factor k h 1 * forward_factor k h 1 + back_factor k h 2 * forward_factor k h 2))%K).
  { rewrite !factor_product by lia. unfold grid_wavenumber2. apply c_eq; simpl; ring. }
  rewrite E. clear E.
  assert (T : (back_factor k h 0 * A 0%nat + back_factor k h 1 * A 1%nat + back_factor k h 2 * A 2%nat)%K = k0) by exact HT.
  match goal with |- ?X = ?Y => transitivity (forward_factor k h c * (back_factor k h 0 * A 0%nat + back_factor k h 1 * A 1%nat + back_factor k h 2 * A 2%nat) + Y)%K; [|rewrite T; ring] end.
  ax3 c; cbn [crossk]; ring.
Qed.

Lemma operator_ok omega eps mu pec pmc :
  wave_operator dim dx dx k so omega eps mu pec pmc = Ok (operator g omega eps mu pec pmc (cross g (pick Df)) (cross g (pick Db))).
Proof.
  pose proof (@good_diagonal CC g so Hgood) as Hd.
  unfold wave_operator, e_full_shift, curl_e_shift, curl_h_shift.
  rewrite (@forward_ok CC g U W so Hd). destruct phases_same as [-> ->]. rewrite (@back_ok CC g U W so Hd). reflexivity.
Qed.
Lemma dispersion_lemma omega e0 A : transverse k h A ->
  exists M, wave_operator dim dx dx k so omega (fun _ => e0) None None None = Ok M /\
  mv N M (vec g (wave_field k h A)) = vscale ((rl (grid_wavenumber2 k h)) - omega * omega * e0)%K (vec g (wave_field k h A)).
Proof.
  intros HT. eexists. split; [apply operator_ok|].
  apply vec_ext; [unfold vscale; rewrite map_length, (@mv_length CC), vec_length; reflexivity|]. rewrite (@mv_length CC). intros i Hi.
  rewrite (@operator_plain CC g U W so) by auto.
  rewrite (@cross_wave Df (forward_factor k h) A forward_wave), (@cross_wave Db (back_factor k h) _ back_wave).
  destruct (block_ex n Hi) as (c & t & Hc & Ht & ->).
  transitivity (((rl (grid_wavenumber2 k h)) - omega * omega * e0) * at_ (vec g (wave_field k h A)) (c * n + t))%K.
  - rewrite !vec_at by auto. unfold wave_field. rewrite double_curl by auto.
    match goal with |- context [wave k h ?q] => set (F := wave k h q) end. set (X := rl (grid_wavenumber2 k h)).
    change (X * A c * F - omega * omega * (e0 * (A c * F)) = (X - omega * omega * e0) * (A c * F))%K. ring.
  - unfold vscale, at_. symmetry. set (X := ((rl (grid_wavenumber2 k h)) - omega * omega * e0)%K).
    replace (0%K : CC) with (X * 0)%K at 1 by ring. apply (map_nth (fun x => (X * x)%K)).
Qed.
Lemma wave_nz p : wave k h p <> k0.
Proof.
  unfold wave. rewrite turn_value. intros E. injection E as E1 E2. set (x := - _) in *. pose proof (sin2_cos2 x) as H. unfold Rsqr in H. rewrite E1, E2 in H. lra.
Qed.
Lemma real_frequency_lemma omega eps M E : (forall i, (i < N)%nat -> positive (eps i)) ->
  wave_operator dim dx dx k so omega eps None None None = Ok M -> length E = N -> E <> zeros CC N -> mv N M E = zeros CC N ->
  nonneg (kmul omega omega).
Proof.
  intros He HM HE Hz H. rewrite operator_ok in HM. injection HM as <-.
  pose proof (@curl_pairing CC g U W so Hgood inverse_U hc uniform_g conj_U hc_real hc_nz E) as P.
  assert (Q : forall i, (i < N)%nat -> at_ (mv N (cross g (pick Db)) (mv N (cross g (pick Df)) E)) i = (omega * omega * (eps i * at_ E i))%K).
  { intros i Hi. apply (f_equal (fun l => at_ l i)) in H. rewrite (@operator_plain CC g U W so) in H by auto.
    assert (Z0 : at_ (zeros CC N) i = (0 : CC)%K) by (unfold at_, zeros; apply nth_repeat). rewrite Z0 in H.
    set (X := at_ (mv N (cross g (pick Db)) _) i) in *. set (Y := (omega * omega * (eps i * at_ E i))%K) in *.
    transitivity (X - Y + Y)%K; [ring|rewrite H; ring]. }
  assert (P' : (omega * omega * fsum N (fun i => kconj (at_ E i) * at_ E i * eps i))%K = fsum N (fun j => kconj (at_ (mv N (cross g (pick Df)) E) j) * at_ (mv N (cross g (pick Df)) E) j)%K).
  { rewrite <- P. rewrite <- fsum_scale. apply fsum_ext. intros i Hi. rewrite Q by auto. ring. }
  assert (Hp : positive_cells g).
  { intros a i Ha Hi. split; split; simpl; try reflexivity; now apply Hh. }
  apply (@quotient_nonneg _ _ _ P').
  - destruct (@nonzero_entry g E HE Hz) as (j & Hj & Ej). apply (@pos_sum N _ j Hj).
    + intros i Hi. apply nonneg_mul; [apply nonneg_norm|apply pos_nonneg; auto].
    + apply pos_mul; [now apply pos_norm|auto].
  - apply nonneg_sum. intros i Hi. apply nonneg_norm.
Qed.
End W.
