(** Overlaps: the row vector as a sum over the window *)
From Coq Require Import ZArith.
From Verif Require Import Base CField CField_Proofs Maxwell_Model Maxwell_Spec Maxwell_Proofs Maxwell_Proofs2 Maxwell_Proofs3 Maxwell_Proofs4 Wg_Model Ov_Model Ov_Spec Fs_Proofs.
Set Implicit Arguments.
Ltac ax3 r := match goal with H : (r < 3)%nat |- _ => destruct r as [|[|[|r]]]; [clear H|clear H|clear H|exfalso; lia] end.

Section Row.
Variable K : cfield.
Add Field Kf : (k_field K).
Local Open Scope K_scope.
Variable g : grid K.
Local Notation n := (cellsn g).
Local Notation N := (vlen g).
Local Notation co := (coord g).
Lemma mv_madd_at m A B (v : list K) i : (i < m)%nat -> at_ (mv m (madd A B) v) i = at_ (mv m A v) i + at_ (mv m B v) i.
Proof. intros Hi. rewrite !mv_at, <- fsum_add by auto. apply fsum_ext. intros. unfold madd. ring. Qed.
Lemma mv_meye_at m (v : list K) i : (i < m)%nat -> at_ (mv m meye v) i = at_ v i.
Proof. intros Hi. unfold meye. rewrite mv_mdiag_at by auto. ring. Qed.
Lemma flat_build f : flattenF g f = vbuild n (fun t => f (co 0 t) (co 1 t) (co 2 t)).
Proof.
  apply vec_ext; [now rewrite flattenF_length, vbuild_length|]. intros t Ht. rewrite flattenF_length in Ht. now rewrite flattenF_at, vbuild_at.
Qed.
Lemma mv_flat A f f' : (forall t, (t < n)%nat -> at_ (mv n A (flattenF g f)) t = f' (co 0 t) (co 1 t) (co 2 t)) -> mv n A (flattenF g f) = flattenF g f'.
Proof.
  intros H. apply vec_ext; [now rewrite mv_length, flattenF_length|]. intros t Ht. rewrite mv_length in Ht. now rewrite H, flattenF_at.
Qed.
Lemma half_div (x : K) : 1 / two K * x = x / (1 + 1).
Proof. unfold two. rewrite !(Fdiv_def (k_field K)). ring. Qed.
Lemma avgf_flat a f : (a < 3)%nat -> mv n (avgf g a) (flattenF g f) = flattenF g (mean_next g f a).
Proof.
  intros Ha. apply mv_flat. intros t Ht. unfold avgf. rewrite mv_mscale_at, mv_madd_at, mv_meye_at, shift_op_at, !flattenF_at by auto using fwd_lt.
  rewrite half_div. unfold mean_next. do 2 f_equal. rewrite !(coord_fwd g Ha) by (auto; lia). ax3 a; reflexivity.
Qed.
Lemma avgb_flat a f : (a < 3)%nat -> mv n (avgb g a) (flattenF g f) = flattenF g (mean_prev g f a).
Proof.
  intros Ha. apply mv_flat. intros t Ht. unfold avgb. rewrite mv_mscale_at, mv_madd_at, mv_meye_at by auto.
  rewrite half_div. unfold mean_prev. rewrite flattenF_at by auto. do 2 f_equal.
  unfold rotation_matrix.
  rewrite (@mv_pick_at K n (fun t => ravel_wrap g (shifted_index g a (-1) no_shift t)) (fun t => bloch_data g (fun _ => 1) (fun _ => 1) (shifted_index g a (-1) no_shift t)))
    by (auto; now apply bwd_lt).
  rewrite bloch_data_bwd by auto. fold (bwd g a t). change (fun _ : nat => (1:K)) with (@one K). rewrite bd_one.
  rewrite flattenF_at by auto using bwd_lt. rewrite !(coord_bwd g Ha) by (auto; lia). ax3 a; cbn [Nat.eqb roll_back]; ring.
Qed.
Lemma diag_flat (d : nat -> K) (D : array K) f : (forall t, (t < n)%nat -> d t = D (co 0 t) (co 1 t) (co 2 t)) ->
  mv n (mdiag d) (flattenF g f) = flattenF g (fun x y z => D x y z * f x y z).
Proof. intros H. apply mv_flat. intros t Ht. rewrite mv_mdiag_at, flattenF_at, H by auto. reflexivity. Qed.
Lemma flat_ext (f f' : array K) : (forall x y z, (x < dim g 0)%nat -> (y < dim g 1)%nat -> (z < dim g 2)%nat -> f x y z = f' x y z) -> flattenF g f = flattenF g f'.
Proof.
  intros H. apply vec_ext; [now rewrite !flattenF_length|]. intros t Ht. rewrite flattenF_length in Ht. rewrite !flattenF_at by auto.
  apply H; apply (coord_lt g); auto.
Qed.
Lemma part_flat (f : field3 K) c : (c < 3)%nat -> part g (vec g f) c = flattenF g (f c).
Proof. apply part_vec. Qed.
Lemma pick_coord_K a t : (a < 3)%nat -> pick a (co 0 t) (co 1 t) (co 2 t) = co a t.
Proof. intros Ha. ax3 a; reflexivity. Qed.
(** the block avgf f @ diag(e_c da_c) @ avgb c @ dbg_o *)
Lemma e_block E H f c o : (f < 3)%nat -> (c < 3)%nat -> (o < 3)%nat ->
  mv n (mmul n (mmul n (mmul n (avgf g f) (diag_e g (vec g E) c)) (avgb g c)) (dbg g o)) (flattenF g (H o))
  = flattenF g (mean_next g (fun x y z => tall_e g E c x y z * mean_prev g (tall_h g H o) c x y z) f).
Proof.
  intros Hf Hc Ho. rewrite !mv_mmul. unfold dbg. rewrite (@diag_flat _ (fun x y z => dxh g o (pick o x y z))) by (intros; now rewrite pick_coord_K).
  fold (tall_h g H o). rewrite avgb_flat by auto.
  unfold diag_e. rewrite (@diag_flat _ (tall_e g E c)).
  - now rewrite avgf_flat.
  - intros t Ht. rewrite part_flat, flattenF_at by auto. unfold tall_e. rewrite pick_coord_K by auto. ring.
Qed.
Lemma h_block E H b c f o : (b < 3)%nat -> (f < 3)%nat -> (c < 3)%nat -> (o < 3)%nat ->
  mv n (mmul n (mmul n (mmul n (avgb g b) (diag_h g (vec g H) c)) (avgf g f)) (dag g o)) (flattenF g (E o))
  = flattenF g (mean_prev g (fun x y z => tall_h g H c x y z * mean_next g (tall_e g E o) f x y z) b).
Proof.
  intros Hb Hf Hc Ho. rewrite !mv_mmul. unfold dag. rewrite (@diag_flat _ (fun x y z => dxe g o (pick o x y z))) by (intros; now rewrite pick_coord_K).
  fold (tall_e g E o). rewrite avgf_flat by auto.
  unfold diag_h. rewrite (@diag_flat _ (tall_h g H c)).
  - now rewrite avgb_flat.
  - intros t Ht. rewrite part_flat, flattenF_at by auto. unfold tall_h. rewrite pick_coord_K by auto. ring.
Qed.
Lemma e_cross_at E H r t : (r < 3)%nat -> (t < n)%nat ->
  at_ (mv N (poynting_e_cross g (vec g E)) (vec g H)) (r * n + t) = flux_e g r E H (co 0 t) (co 1 t) (co 2 t).
Proof.
  intros Hr Ht. unfold poynting_e_cross. rewrite bmat_mv_at by auto. rewrite !part_flat by lia. unfold flux_e.
  ax3 r; cbn [Nat.modulo Nat.divmod fst snd Nat.add Nat.sub]; rewrite mv_zero_at, mv_mneg_at by auto; rewrite !e_block, !flattenF_at by (auto; lia); cbn; ring.
Qed.
Lemma h_cross_at E H r t : (r < 3)%nat -> (t < n)%nat ->
  at_ (mv N (poynting_h_cross g (vec g H)) (vec g E)) (r * n + t) = - flux_h g r E H (co 0 t) (co 1 t) (co 2 t).
Proof.
  intros Hr Ht. unfold poynting_h_cross. rewrite bmat_mv_at by auto. rewrite !part_flat by lia. unfold flux_h.
  ax3 r; cbn [Nat.modulo Nat.divmod fst snd Nat.add Nat.sub]; rewrite mv_zero_at, mv_mneg_at by auto; rewrite !h_block, !flattenF_at by (auto; lia); cbn; ring.
Qed.
(** sums over cells *)
Lemma fsum_mul a b (f : nat -> K) : fsum (a * b) f = fsum b (fun j => fsum a (fun i => f (i + a * j)%nat)).
Proof.
  induction b as [|b IH]; [now rewrite Nat.mul_0_r|]. rewrite Nat.mul_succ_r, fsum_app, IH. cbn [fsum]. f_equal. apply fsum_ext. intros i Hi. f_equal. lia.
Qed.
Lemma grid_sum_cells (f : array K) : fsum n (fun t => f (co 0 t) (co 1 t) (co 2 t)) = grid_sum g f.
Proof.
  unfold cellsn. rewrite <- Nat.mul_assoc, fsum_mul.
  transitivity (fsum (dim g 1 * dim g 2) (fun j => fsum (dim g 0) (fun i => f i (Nat.modulo j (dim g 1)) (Nat.div j (dim g 1))))).
  - apply fsum_ext. intros j Hj. apply fsum_ext. intros i Hi. unfold coord.
    assert (E1 : Nat.modulo (i + dim g 0 * j) (dim g 0) = i) by (rewrite (Nat.mul_comm (dim g 0) j), Nat.mod_add, Nat.mod_small; lia).
    assert (E2 : Nat.div (i + dim g 0 * j) (dim g 0) = j) by (rewrite (Nat.mul_comm (dim g 0) j), Nat.div_add, Nat.div_small; lia).
    now rewrite E1, E2.
  - rewrite fsum_mul. unfold grid_sum.
    transitivity (fsum (dim g 2) (fun z => fsum (dim g 0) (fun x => fsum (dim g 1) (fun y => f x y z)))).
    + apply fsum_ext. intros z Hz.
      transitivity (fsum (dim g 1) (fun y => fsum (dim g 0) (fun x => f x y z))).
      * apply fsum_ext. intros y Hy. apply fsum_ext. intros x Hx.
        assert (E1 : Nat.modulo (y + dim g 1 * z) (dim g 1) = y) by (rewrite (Nat.mul_comm (dim g 1) z), Nat.mod_add, Nat.mod_small; lia).
        assert (E2 : Nat.div (y + dim g 1 * z) (dim g 1) = z) by (rewrite (Nat.mul_comm (dim g 1) z), Nat.div_add, Nat.div_small; lia).
        now rewrite E1, E2.
      * apply fsum_swap.
    + rewrite fsum_swap. apply fsum_ext. intros x Hx. apply fsum_swap.
Qed.
Lemma inside_window st len x y z : inside st len x y z = in_window st len x y z.
Proof. unfold inside, in_window. cbn [seq forallb pick]. rewrite andb_true_r, !andb_assoc. reflexivity. Qed.
Lemma sum_pick (F : nat -> K) axis : (axis < 3)%nat ->
  (if Nat.eqb 0 axis then F 0%nat else 0) + (if Nat.eqb 1 axis then F 1%nat else 0) + (if Nat.eqb 2 axis then F 2%nat else 0) = F axis.
Proof. intros Hx. ax3 axis; cbn [Nat.eqb]; ring. Qed.
(** the row vector applied to a field *)
Lemma row_dot axis st len omega mu Em Hm E : (axis < 3)%nat -> omega <> 0 -> nonzero_opt N (option_map (fun m => at_ (vec g m)) mu) ->
  fsum N (fun j => at_ (overlap_row g axis st len omega mu Em Hm) j * at_ (vec g E) j) = pairing g axis st len omega mu Em Hm E.
Proof.
  intros Hx Ho Hm0. unfold overlap_row. set (dn := fun i : nat => if Nat.eqb (i / n) axis then (1 : K) else 0).
  set (dom := fun (_ x y z : nat) => if inside st len x y z then (1 : K) else 0).
  set (th := e2h _ _ _ _ _). set (M := madd _ _).
  transitivity (fsum N (fun i => dn i * at_ (vec g dom) i * at_ (mv N M (vec g E)) i)).
  { transitivity (fsum N (fun j => fsum N (fun i => dn i * at_ (vec g dom) i * M i j * at_ (vec g E) j))).
    - apply fsum_ext. intros j Hj. rewrite vbuild_at by auto. now rewrite <- fsum_scale_r.
    - rewrite fsum_swap. apply fsum_ext. intros i Hi. rewrite mv_at, <- fsum_scale by auto. apply fsum_ext. intros j Hj. ring. }
  assert (MV : forall t, (t < n)%nat -> at_ (mv N M (vec g E)) (axis * n + t) = flux_h g axis E Hm (co 0 t) (co 1 t) (co 2 t) + flux_e g axis Em (fe2h g omega mu E) (co 0 t) (co 1 t) (co 2 t)).
  { intros t Ht. pose proof (blk_lt g Hx Ht) as Hi. unfold M. rewrite mv_madd_at, mv_mneg_at, h_cross_at, mv_mmul by auto.
    unfold th. change (Phases (fun _ => 1) (fun _ => 1) (fun _ => 1) (fun _ => 1)) with (no_bloch K).
    rewrite fe2h_lemma by (auto; destruct mu; auto). rewrite e_cross_at by auto. ring. }
  transitivity (fsum n (fun t => at_ (vec g dom) (axis * n + t) * at_ (mv N M (vec g E)) (axis * n + t))).
  { unfold vlen at 1. rewrite fsum_3.
    assert (D : forall c t, (t < n)%nat -> dn (c * n + t)%nat = if Nat.eqb c axis then 1 else 0) by (intros c t Ht; unfold dn; now rewrite block_div).
    assert (Q : forall c, fsum n (fun t => dn (c * n + t)%nat * at_ (vec g dom) (c * n + t) * at_ (mv N M (vec g E)) (c * n + t))
       = if Nat.eqb c axis then fsum n (fun t => at_ (vec g dom) (c * n + t) * at_ (mv N M (vec g E)) (c * n + t)) else 0).
    { intros c. destruct (Nat.eqb c axis) eqn:Ec.
      - apply fsum_ext. intros t Ht. rewrite D, Ec by auto. ring.
      - apply fsum_zero. intros t Ht. rewrite D, Ec by auto. ring. }
    rewrite !Q. exact (sum_pick (fun c => fsum n (fun t => at_ (vec g dom) (c * n + t) * at_ (mv N M (vec g E)) (c * n + t))) Hx). }
  unfold pairing. rewrite <- grid_sum_cells. apply fsum_ext. intros t Ht. rewrite MV, vec_at by auto. unfold dom. rewrite inside_window.
  destruct (in_window _ _ _ _ _); ring.
Qed.
(** the dot product of vectors is the sum over the grid *)
Lemma dot_cells (C F : field3 K) : fsum N (fun i => at_ (vec g C) i * at_ (vec g F) i) = grid_dot g C F.
Proof.
  unfold vlen at 1. rewrite fsum_3. unfold grid_dot. cbn [fsum].
  assert (Q : forall c, (c < 3)%nat -> fsum n (fun t => at_ (vec g C) (c * n + t) * at_ (vec g F) (c * n + t)) = grid_sum g (fun x y z => C c x y z * F c x y z)).
  { intros c Hc. rewrite <- (grid_sum_cells (fun x y z => C c x y z * F c x y z)). apply fsum_ext. intros t Ht. now rewrite !vec_at by auto. }
  rewrite !Q by lia. ring.
Qed.
End Row.
