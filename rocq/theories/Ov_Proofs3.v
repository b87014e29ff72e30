(** Overlaps: locality, build_overlap *)
From Coq Require Import Reals ZArith Lra.
From Verif Require Import Base CField CField_Proofs GMath_Model CplxField Maxwell_Model Maxwell_Spec Maxwell_Proofs Maxwell_Proofs2 Maxwell_Proofs3 Maxwell_Proofs4 Wg_Model Wg_Model2 Wg_Spec Fs_Model
  Ov_Model Ov_Spec Ov_Proofs Ov_Proofs2 GMath_Proofs Wg_Proofs8 Fs_Proofs3 Fs_Proofs.
Set Implicit Arguments.
Local Open Scope R_scope.
Add Field CCo3 : (k_field CC).

Section Local.
Variable g : grid CC.
Lemma overlap_local_lemma axis back st len (omega k : CC) mu E H C F F' : (axis < 3)%nat -> omega <> (0 : CC)%K -> nz_mu g mu -> len axis = 1%nat -> (st axis < dim g axis)%nat ->
  compute_overlap_e g axis back st len omega k mu E H = Ok C -> agree_near g axis (st axis) F F' -> grid_dot g C F = grid_dot g C F'.
Proof.
  intros Hx Ho Hm Hl Hs HC HF. pose proof (@compute_overlap_lemma g axis back st len omega k mu E H Hx Ho Hm) as L. cbv zeta in L. rewrite HC in L. destruct L as [_ L].
  rewrite !L. f_equal. now apply pairing_local.
Qed.
Definition delta (c0 x0 y0 z0 : nat) : field3 CC := fun c x y z => if (Nat.eqb c c0 && Nat.eqb x x0 && Nat.eqb y y0 && Nat.eqb z z0)%bool then (1 : CC)%K else (0 : CC)%K.
Lemma dot_delta (C : field3 CC) c x y z : (c < 3)%nat -> in_grid g x y z -> grid_dot g C (delta c x y z) = C c x y z.
Proof.
  intros Hc (Hx & Hy & Hz). unfold grid_dot, grid_sum.
  assert (Z : forall c' x' y' z', (c' <> c \/ x' <> x \/ y' <> y \/ z' <> z) -> (C c' x' y' z' * delta c x y z c' x' y' z')%K = (0 : CC)%K).
  { intros c' x' y' z' H. unfold delta. replace (_ && _)%bool with false; [ring|]. symmetry.
    destruct (Nat.eqb_spec c' c), (Nat.eqb_spec x' x), (Nat.eqb_spec y' y), (Nat.eqb_spec z' z); auto. exfalso. tauto. }
  rewrite (@fsum_single CC 3 c) by (auto; intros; repeat (apply fsum_zero; intros); apply Z; tauto).
  rewrite (@fsum_single CC _ x) by (auto; intros; repeat (apply fsum_zero; intros); apply Z; tauto).
  rewrite (@fsum_single CC _ y) by (auto; intros; repeat (apply fsum_zero; intros); apply Z; tauto).
  rewrite (@fsum_single CC _ z) by (auto; intros; repeat (apply fsum_zero; intros); apply Z; tauto).
  unfold delta. rewrite !Nat.eqb_refl. cbn [andb]. ring.
Qed.
Lemma grid_dot_zero (C : field3 CC) : grid_dot g C (fun _ _ _ _ => (0 : CC)%K) = (0 : CC)%K.
Proof.
  rewrite <- (@dot_cells CC g). apply fsum_zero. intros i Hi. destruct (block_ex _ Hi) as (c & t & Hc & Ht & ->). 
  assert (Z : at_ (vec g (fun _ _ _ _ => (0 : CC)%K)) (c * cellsn g + t) = (0 : CC)%K) by (now rewrite vec_at by auto). rewrite Z. ring.
Qed.
Lemma overlap_support_lemma axis back st len (omega k : CC) mu E H C c x y z : (axis < 3)%nat -> omega <> (0 : CC)%K -> nz_mu g mu -> len axis = 1%nat -> (st axis < dim g axis)%nat ->
  compute_overlap_e g axis back st len omega k mu E H = Ok C -> (c < 3)%nat -> in_grid g x y z ->
  (forall i, (i < 3)%nat -> pick axis x y z <> Nat.modulo (st axis + i) (dim g axis)) -> C c x y z = (0 : CC)%K.
Proof.
  intros Hx Ho Hm Hl Hs HC Hc Hg Hp. rewrite <- (@dot_delta C c x y z Hc Hg).
  rewrite (@overlap_local_lemma axis back st len omega k mu E H C (delta c x y z) (fun _ _ _ _ => (0 : CC)%K) Hx Ho Hm Hl Hs HC); [apply grid_dot_zero|].
  intros c' x' y' z' Hc' H0 H1 H2 (i & Hi & Hpi). unfold delta.
  destruct (Nat.eqb_spec x' x) as [->|], (Nat.eqb_spec y' y) as [->|], (Nat.eqb_spec z' z) as [->|]; rewrite ?andb_false_r; auto.
  exfalso. now apply (Hp i Hi).
Qed.
(** ** the pairing is linear in the mode and in the field *)
Lemma roll_fwd_scale (f : array CC) (a : CC) k x y z : roll_forward g (fun x y z => a * f x y z)%K k x y z = (a * roll_forward g f k x y z)%K.
Proof. destruct k as [|[|k]]; reflexivity. Qed.
Lemma roll_bwd_scale (f : array CC) (a : CC) k x y z : roll_back g (fun x y z => a * f x y z)%K k x y z = (a * roll_back g f k x y z)%K.
Proof. destruct k as [|[|k]]; reflexivity. Qed.
Lemma mean_next_ext (f f' : array CC) k x y z : (forall x y z, f x y z = f' x y z) -> mean_next g f k x y z = mean_next g f' k x y z.
Proof. intros H. unfold mean_next, roll_forward. destruct k as [|[|k]]; now rewrite !H. Qed.
Lemma mean_prev_ext (f f' : array CC) k x y z : (forall x y z, f x y z = f' x y z) -> mean_prev g f k x y z = mean_prev g f' k x y z.
Proof. intros H. unfold mean_prev, roll_back. destruct k as [|[|k]]; now rewrite !H. Qed.
Lemma mean_next_scale (f : array CC) (a : CC) k x y z : mean_next g (fun x y z => a * f x y z)%K k x y z = (a * mean_next g f k x y z)%K.
Proof. unfold mean_next. rewrite roll_fwd_scale, !(Fdiv_def (k_field CC)). ring. Qed.
Lemma mean_prev_scale (f : array CC) (a : CC) k x y z : mean_prev g (fun x y z => a * f x y z)%K k x y z = (a * mean_prev g f k x y z)%K.
Proof. unfold mean_prev. rewrite roll_bwd_scale, !(Fdiv_def (k_field CC)). ring. Qed.
Lemma flux_h_scale axis E H H' (a : CC) x y z : (forall c x y z, H' c x y z = (a * H c x y z)%K) -> flux_h g axis E H' x y z = (a * flux_h g axis E H x y z)%K.
Proof.
  intros Hh. unfold flux_h. set (u := ((axis + 1) mod 3)%nat). set (v := ((axis + 2) mod 3)%nat).
  rewrite (@mean_prev_ext (fun x y z => tall_h g H' v x y z * mean_next g (tall_e g E u) axis x y z)%K (fun x y z => a * (tall_h g H v x y z * mean_next g (tall_e g E u) axis x y z))%K) by (intros; unfold tall_h; rewrite Hh; ring).
  rewrite (@mean_prev_ext (fun x y z => tall_h g H' u x y z * mean_next g (tall_e g E v) axis x y z)%K (fun x y z => a * (tall_h g H u x y z * mean_next g (tall_e g E v) axis x y z))%K) by (intros; unfold tall_h; rewrite Hh; ring).
  rewrite !mean_prev_scale. ring.
Qed.
Lemma flux_e_scale axis E E' H (a : CC) x y z : (forall c x y z, E' c x y z = (a * E c x y z)%K) -> flux_e g axis E' H x y z = (a * flux_e g axis E H x y z)%K.
Proof.
  intros He. unfold flux_e. set (u := ((axis + 1) mod 3)%nat). set (v := ((axis + 2) mod 3)%nat).
  rewrite (@mean_next_ext (fun x y z => tall_e g E' u x y z * mean_prev g (tall_h g H v) u x y z)%K (fun x y z => a * (tall_e g E u x y z * mean_prev g (tall_h g H v) u x y z))%K) by (intros; unfold tall_e; rewrite He; ring).
  rewrite (@mean_next_ext (fun x y z => tall_e g E' v x y z * mean_prev g (tall_h g H u) v x y z)%K (fun x y z => a * (tall_e g E v x y z * mean_prev g (tall_h g H u) v x y z))%K) by (intros; unfold tall_e; rewrite He; ring).
  rewrite !mean_next_scale. ring.
Qed.
Lemma pairing_mode_scale axis st len omega mu E H E' H' F (a : CC) : (forall c x y z, E' c x y z = (a * E c x y z)%K) -> (forall c x y z, H' c x y z = (a * H c x y z)%K) ->
  pairing g axis st len omega mu E' H' F = (a * pairing g axis st len omega mu E H F)%K.
Proof.
  intros HE HH. unfold pairing, grid_sum. rewrite <- (@fsum_scale CC). apply fsum_ext. intros x _. rewrite <- (@fsum_scale CC). apply fsum_ext. intros y _.
  rewrite <- (@fsum_scale CC). apply fsum_ext. intros z _. destruct (in_window st len x y z); [|ring].
  rewrite (@flux_h_scale axis F H H' a) by auto. rewrite (@flux_e_scale axis E E' _ a) by auto. ring.
Qed.
Lemma pairing_field_scale axis st len omega mu E H F F' (a : CC) : (axis < 3)%nat -> omega <> (0 : CC)%K -> nz_mu g mu -> (forall c x y z, (c < 3)%nat -> in_grid g x y z -> F' c x y z = (a * F c x y z)%K) ->
  pairing g axis st len omega mu E H F' = (a * pairing g axis st len omega mu E H F)%K.
Proof.
  intros Hx Ho Hm HF. rewrite <- !(@row_dot CC g axis st len omega mu E H) by (auto using nz_vec). rewrite <- (@fsum_scale CC). apply fsum_ext. intros i Hi.
  destruct (block_ex _ Hi) as (c & t & Hc & Ht & ->). rewrite !(@vec_at CC g) by auto. rewrite HF by (auto; repeat split; apply (coord_lt g); auto). ring.
Qed.
Lemma carried_scale axis back s k d (F F' : field3 CC) (a : CC) c x y z : (forall c x y z, F' c x y z = (a * F c x y z)%K) -> carried axis back s k d F' c x y z = (a * carried axis back s k d F c x y z)%K.
Proof. intros H. unfold carried. rewrite H. ring. Qed.

(** ** the largest entry *)
Lemma argmax_from_spec l : forall done best b i, length done = i -> (best < i)%nat -> nth best done 0 = b -> (forall j, nth j done 0 <= b \/ (i <= j)%nat) ->
  let m := argmax_from best b i l in (m < i + length l)%nat /\ forall j, (j < i + length l)%nat -> nth j (done ++ l) 0 <= nth m (done ++ l) 0.
Proof.
  induction l as [|x l IH]; intros done best b i Hd Hb Hn Hm; cbn [argmax_from length].
  - split; [lia|]. intros j Hj. rewrite app_nil_r, Hn. destruct (Hm j); [auto|lia].
  - assert (E : done ++ x :: l = (done ++ [x]) ++ l) by (rewrite <- app_assoc; reflexivity).
    assert (N : forall j, (j < i)%nat -> nth j (done ++ [x]) 0 = nth j done 0) by (intros j Hj; apply app_nth1; lia).
    assert (NX : nth i (done ++ [x]) 0 = x) by (rewrite app_nth2 by lia; rewrite Hd, Nat.sub_diag; reflexivity).
    replace (i + S (length l))%nat with (S i + length l)%nat by lia. rewrite E.
    destruct (Rlt_dec b x) as [L|L].
    + apply IH; [rewrite app_length; cbn; lia|lia|auto|]. intros j. destruct (Nat.lt_trichotomy j i) as [Q|[->|Q]]; [left|left|right; lia].
      * rewrite N by auto. destruct (Hm j); [lra|lia].
      * lra.
    + apply IH; [rewrite app_length; cbn; lia|lia|rewrite N; auto|]. intros j. destruct (Nat.lt_trichotomy j i) as [Q|[->|Q]]; [left|left|right; lia].
      * rewrite N by auto. destruct (Hm j); [lra|lia].
      * lra.
Qed.
Lemma argmax_spec l : l <> [] -> (argmax l < length l)%nat /\ forall j, (j < length l)%nat -> nth j l 0 <= nth (argmax l) l 0.
Proof.
  destruct l as [|x l]; [congruence|]. intros _. unfold argmax.
  pose proof (@argmax_from_spec l [x] 0%nat x 1%nat eq_refl (Nat.lt_0_1) eq_refl) as H. cbv zeta in H. cbn [length app Nat.add] in *. apply H.
  intros [|j]; [left; cbn; lra|right; lia].
Qed.
Lemma flattenC_length {A} (f : nat -> nat -> nat -> A) : length (flattenC g f) = (dim g 0 * (dim g 1 * dim g 2))%nat.
Proof.
  unfold flattenC. apply flat_map_length_uniform. intros x. apply flat_map_length_uniform. intros y. now rewrite map_length, seq_length.
Qed.
Lemma flattenC_nth {A} (f : nat -> nat -> nat -> A) d x y z : in_grid g x y z ->
  nth (x * (dim g 1 * dim g 2) + (y * dim g 2 + z)) (flattenC g f) d = f x y z.
Proof.
  intros (Hx & Hy & Hz). unfold flattenC.
  rewrite (flat_map_nth_uniform _ (m := (dim g 1 * dim g 2)%nat)); [|intros; rewrite (flat_map_length_uniform _ (m := dim g 2)); [reflexivity|intros; now rewrite map_length, seq_length]|auto|nia].
  rewrite (flat_map_nth_uniform _ (m := dim g 2)); [|intros; now rewrite map_length, seq_length|auto|auto].
  rewrite (@map_nth_uniform A) by auto. reflexivity.
Qed.
(** the phase has modulus one, unless the field is zero everywhere *)
Lemma cabs_nn (z : CC) : 0 <= cabs z.
Proof. apply sqrt_pos. Qed.
Lemma field_phase_cases (E : field3 CC) : (0 < dim g 0)%nat -> (0 < dim g 1)%nat -> (0 < dim g 2)%nat ->
  cabs (field_phase g E) = 1 \/ (field_phase g E = (0 : CC)%K /\ forall c x y z, (c < 3)%nat -> in_grid g x y z -> E c x y z = (0 : CC)%K).
Proof.
  intros D0 D1 D2. unfold field_phase. set (E2 := fun x y z => sqrt _). set (mi := argmax (flattenC g E2)).
  set (mf := map _ [0; 1; 2]%nat). set (mc := argmax (map cabs mf)). set (m := nth mc mf (0 : CC)%K).
  destruct (czero m) eqn:Z.
  - right. apply czero_spec in Z. change (m = (0 : CC)%K) in Z. split.
    { rewrite Z. apply c_eq; cbn; unfold cdiv, cinv, cmul, cscale, cconj; cbn; ring. }
    intros c x y z Hc Hg.
    assert (L0 : forall i, (i < 3)%nat -> nth mi (flattenC g (E i)) (0 : CC)%K = (0 : CC)%K).
    { intros i Hi. assert (P : nth i (map cabs mf) 0 <= nth mc (map cabs mf) 0).
      { apply argmax_spec; [discriminate|]. rewrite !map_length. cbn. exact Hi. }
      assert (Q : forall j, nth j (map cabs mf) 0 = cabs (nth j mf (0 : CC)%K)).
      { intros j. transitivity (nth j (map cabs mf) (cabs c0)); [now rewrite cabs_0|]. exact (map_nth cabs mf c0 j). }
      rewrite !Q in P. fold m in P. rewrite Z in P. change (cabs (0 : CC)%K) with (cabs c0) in P. rewrite cabs_0 in P.
      assert (I : nth i mf (0 : CC)%K = nth mi (flattenC g (E i)) (0 : CC)%K) by (unfold mf; clear - Hi; idx i Hi; reflexivity).
      rewrite <- I. set (w := nth i mf _) in *. destruct (czero w) eqn:Zw; [now apply czero_spec in Zw|].
      exfalso. assert (Nw : w <> (0 : CC)%K) by (intros E0; assert (czero w = true) by (now apply czero_spec); congruence). pose proof (cabs_pos Nw). lra. }
    assert (NE : flattenC g E2 <> []).
    { intros E0. apply (f_equal (@length R)) in E0. rewrite flattenC_length in E0. cbn in E0. nia. }
    destruct (@argmax_spec _ NE) as [Lm Mx]. fold mi in Lm, Mx. rewrite flattenC_length in *.
    assert (Ex : exists x1 y1 z1, in_grid g x1 y1 z1 /\ mi = (x1 * (dim g 1 * dim g 2) + (y1 * dim g 2 + z1))%nat).
    { exists (mi / (dim g 1 * dim g 2))%nat, (mi mod (dim g 1 * dim g 2) / dim g 2)%nat, (mi mod (dim g 1 * dim g 2) mod dim g 2)%nat.
      assert (dim g 1 * dim g 2 <> 0)%nat by nia. split; [repeat split|].
      - apply Nat.div_lt_upper_bound; auto. lia.
      - apply Nat.div_lt_upper_bound; [lia|]. rewrite (Nat.mul_comm (dim g 2)). apply Nat.mod_upper_bound. auto.
      - apply Nat.mod_upper_bound. lia.
      - pose proof (Nat.div_mod mi (dim g 1 * dim g 2) ltac:(auto)) as Q1. pose proof (Nat.div_mod (mi mod (dim g 1 * dim g 2)) (dim g 2) ltac:(lia)) as Q2. nia. }
    destruct Ex as (x1 & y1 & z1 & G1 & Emi). 
    assert (LE : E2 x y z <= E2 x1 y1 z1).
    { rewrite <- (@flattenC_nth R E2 0 x y z Hg), <- (@flattenC_nth R E2 0 x1 y1 z1 G1), <- Emi. apply Mx. destruct Hg as (? & ? & ?). assert (y * dim g 2 + z < dim g 1 * dim g 2)%nat by nia. nia. }
    assert (Z1 : forall i, (i < 3)%nat -> E i x1 y1 z1 = (0 : CC)%K) by (intros i Hi; rewrite <- (@flattenC_nth CC (E i) (0 : CC)%K x1 y1 z1 G1), <- Emi; now apply L0).
    assert (E21 : E2 x1 y1 z1 = 0).
    { unfold E2. rewrite !Z1 by lia. change (cabs (0 : CC)%K) with (cabs c0). rewrite cabs_0. replace (0 ^ 2 + 0 ^ 2 + 0 ^ 2) with 0 by ring. apply sqrt_0. }
    rewrite E21 in LE.
    destruct (czero (E c x y z)) eqn:Zc; [now apply czero_spec in Zc|]. exfalso.
    assert (N : E c x y z <> (0 : CC)%K) by (intros E0; assert (czero (E c x y z) = true) by (now apply czero_spec); congruence).
    pose proof (cabs_pos N) as P. pose proof (cabs_nn (E 0%nat x y z)) as N0. pose proof (cabs_nn (E 1%nat x y z)) as N1. pose proof (cabs_nn (E 2%nat x y z)) as N2.
    assert (0 < E2 x y z); [|lra]. unfold E2. apply sqrt_lt_R0.
    pose proof (pow2_ge_0 (cabs (E 0%nat x y z))). pose proof (pow2_ge_0 (cabs (E 1%nat x y z))). pose proof (pow2_ge_0 (cabs (E 2%nat x y z))).
    assert (0 < cabs (E c x y z) ^ 2) by (apply pow_lt; auto). clear - Hc H H0 H1 H2. idx c Hc; lra.
  - left. assert (N : m <> (0 : CC)%K) by (intros E0; assert (czero m = true) by (now apply czero_spec); congruence).
    pose proof (cabs_pos N). rewrite cabs_div by auto. field. lra.
Qed.
End Local.
