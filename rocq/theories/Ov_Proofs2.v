(** Overlaps: compute_overlap_e *)
From Coq Require Import Reals ZArith Lra.
From Verif Require Import Base CField CField_Proofs GMath_Model CplxField Maxwell_Model Maxwell_Spec Maxwell_Proofs Maxwell_Proofs2 Maxwell_Proofs3 Maxwell_Proofs4 Wg_Model Wg_Model2 Wg_Spec Fs_Model
  Ov_Model Ov_Spec Ov_Proofs GMath_Proofs Wg_Proofs8 Fs_Proofs3 Fs_Proofs.
Set Implicit Arguments.
Local Open Scope R_scope.
Add Field CCo : (k_field CC).

Lemma foldr_shift l (a : R) : fold_right Rplus a l = fold_right Rplus 0 l + a.
Proof. induction l as [|x l IH]; cbn; [ring|]. rewrite IH. ring. Qed.
Lemma cumsum_span (d : nat -> CC) l : cumsum d l = re (d 0%nat) + span d l.
Proof.
  unfold cumsum. induction l as [|l IH]; [cbn; ring|].
  rewrite seq_S, map_app, fold_right_app. cbn [fold_right map Nat.add]. rewrite foldr_shift. rewrite IH. cbn [span]. ring.
Qed.
Lemma continue_carried axis back s k (d : nat -> CC) (F : field3 CC) c x y z : (axis < 3)%nat ->
  continue_field axis back s k (cumsum d) F c x y z = carried axis back s k d F c x y z.
Proof.
  intros Hx. unfold continue_field, carried. f_equal.
  - f_equal. rewrite !cumsum_span. unfold away. replace (re (d 0%nat) + span d (pick axis x y z) - (re (d 0%nat) + span d s)) with (span d (pick axis x y z) - span d s) by ring.
    unfold polarity. destruct back; [|ring]. ring.
  - unfold at_plane. idx axis Hx; reflexivity.
Qed.
Section Comp.
Variable g : grid CC.
Lemma vec_ext3 (F F' : field3 CC) : (forall c x y z, F c x y z = F' c x y z) -> vec g F = vec g F'.
Proof. intros H. apply vec_same. intros. apply H. Qed.
Lemma vec_unvec_or (v : list CC) : length v = vlen g -> vec g (unvec_or g v) = v.
Proof.
  intros Hl. apply (@vlen_ext CC g); auto; [apply vec_length|]. intros c t Hc Ht. rewrite vec_at by auto. unfold unvec_or. f_equal. f_equal.
  exact (idx_coord g Ht).
Qed.
Lemma nz_vec mu : nz_mu g mu -> nonzero_opt (vlen g) (option_map (fun m => at_ (vec g m)) mu).
Proof.
  destruct mu as [m|]; cbn; auto. intros H i Hi. destruct (block_ex _ Hi) as (c & t & Hc & Ht & ->). rewrite vec_at by auto.
  apply H; auto. repeat split; apply (coord_lt g); auto.
Qed.
Lemma compute_overlap_lemma axis back st len (omega k : CC) mu E H : (axis < 3)%nat -> omega <> (0 : CC)%K -> nz_mu g mu ->
  let s := st axis in
  let p := pairing g axis st len omega mu (carried axis back s k (dxe g axis) E) (carried axis back s k (dxh g axis) H) in
  match compute_overlap_e g axis back st len omega k mu E H with
  | Ok C => p (carried axis back s k (dxe g axis) E) <> (0 : CC)%K /\
      forall F, grid_dot g C F = (p F / rl (cabs (p (carried axis back s k (dxe g axis) E))))%K
  | Err e => e = ZeroDivisionError /\ p (carried axis back s k (dxe g axis) E) = (0 : CC)%K
  end.
Proof.
  intros Hx Ho Hm s p. unfold compute_overlap_e. fold s.
  set (Ec := continue_field axis back s k (cumsum (dxe g axis)) E). set (Hc := continue_field axis back s k (cumsum (dxh g axis)) H).
  set (Em := carried axis back s k (dxe g axis) E). 
  assert (RD : forall F, fsum (vlen g) (fun j => at_ (overlap_row g axis st len omega mu Ec Hc) j * at_ (vec g F) j)%K = p F).
  { intros F. unfold p. rewrite <- (@row_dot CC g axis st len omega mu) by (auto using nz_vec).
    apply fsum_ext. intros j Hj. f_equal. f_equal. unfold overlap_row.
    rewrite (@vec_ext3 Ec Em) by (intros; now apply continue_carried). rewrite (@vec_ext3 Hc (carried axis back s k (dxh g axis) H)) by (intros; now apply continue_carried). reflexivity. }
  assert (EV : vec g Ec = vec g Em) by (apply vec_ext3; intros; now apply continue_carried).
  unfold vdot. rewrite EV, RD. set (o := overlap_row _ _ _ _ _ _ _ _) in *.
  assert (Lo : length o = vlen g) by (unfold o, overlap_row; apply vbuild_length).
  destruct (Req_EM_T (cabs (p Em)) 0) as [Z|Z].
  - split; auto. destruct (czero (p Em)) eqn:C; [now apply czero_spec in C|]. exfalso.
    assert (N : p Em <> (0 : CC)%K) by (intros E0; assert (czero (p Em) = true) by (now apply czero_spec); congruence). pose proof (cabs_pos N). lra.
  - assert (NE : p Em <> (0 : CC)%K) by (intros E0; apply Z; rewrite E0; exact cabs_0).
    split; auto. intros F. rewrite <- (@dot_cells CC g). rewrite vec_unvec_or by (now rewrite map_length).
    rewrite (Fdiv_def (k_field CC)). transitivity (fsum (vlen g) (fun j => at_ o j * at_ (vec g F) j)%K * kinv (rl (cabs (p Em))))%K; [|now rewrite RD]. rewrite <- (@fsum_scale_r CC). apply fsum_ext. intros j Hj.
    assert (A : at_ (map (fun v : CC => (v / rl (cabs (p Em)))%K) o) j = (at_ o j / rl (cabs (p Em)))%K).
    { unfold at_. rewrite (nth_indep _ (0 : CC)%K ((0 : CC) / rl (cabs (p Em)))%K) by (rewrite map_length; lia). apply map_nth with (f := fun v : CC => (v / rl (cabs (p Em)))%K). }
    rewrite A, (Fdiv_def (k_field CC)). ring.
Qed.
(** linear in the field *)
Lemma grid_dot_scale (C F : field3 CC) (a : CC) : grid_dot g C (fun c x y z => a * F c x y z)%K = (a * grid_dot g C F)%K.
Proof.
  rewrite <- !dot_cells, <- fsum_scale. apply fsum_ext. intros i Hi. destruct (block_ex _ Hi) as (c & t & Hc & Ht & ->). rewrite !vec_at by auto. ring.
Qed.
Lemma grid_dot_ext (C C' F F' : field3 CC) : (forall c x y z, (c < 3)%nat -> in_grid g x y z -> C c x y z = C' c x y z) -> (forall c x y z, (c < 3)%nat -> in_grid g x y z -> F c x y z = F' c x y z) ->
  grid_dot g C F = grid_dot g C' F'.
Proof. intros H1 H2. rewrite <- !dot_cells. now rewrite (@vec_same g _ _ H1), (@vec_same g _ _ H2). Qed.
Lemma mode_overlap_lemma axis back st len (omega k : CC) mu E H C (a : CC) : (axis < 3)%nat -> omega <> (0 : CC)%K -> nz_mu g mu ->
  compute_overlap_e g axis back st len omega k mu E H = Ok C ->
  cabs (grid_dot g C (fun c x y z => a * carried axis back (st axis) k (dxe g axis) E c x y z)%K) = cabs a.
Proof.
  intros Hx Ho Hm HC. pose proof (@compute_overlap_lemma axis back st len omega k mu E H Hx Ho Hm) as L. cbv zeta in L. rewrite HC in L. destruct L as [N L].
  rewrite grid_dot_scale, L. set (p := pairing _ _ _ _ _ _ _ _ _) in *. pose proof (cabs_pos N) as P.
  change (cabs (cmul a (p / rl (cabs p))%K) = cabs a). rewrite cabs_mul, cabs_div by auto. field. lra.
Qed.
(** ** locality *)
Lemma other_axes axis : (axis < 3)%nat -> (((axis + 1) mod 3 < 3)%nat /\ ((axis + 1) mod 3)%nat <> axis) /\ (((axis + 2) mod 3 < 3)%nat /\ ((axis + 2) mod 3)%nat <> axis).
Proof. intros Hx. idx axis Hx; cbn; lia. Qed.
Section Local.
Variables (axis s : nat) (F F' : field3 CC).
Hypothesis Hx : (axis < 3)%nat.
Hypothesis HF : agree_near g axis s F F'.
Lemma roll_fwd_pick (a x y z : nat) : (a < 3)%nat -> exists x' y' z', (forall f : array CC, roll_forward g f a x y z = f x' y' z') /\ (in_grid g x y z -> in_grid g x' y' z') /\
  forall b, (b < 3)%nat -> pick b x' y' z' = if Nat.eqb b a then Nat.modulo (pick b x y z + 1) (dim g b) else pick b x y z.
Proof.
  intros Ha. idx a Ha; cbn [roll_forward]; (do 3 eexists); (split; [reflexivity|]); (split;
    [intros (? & ? & ?); repeat split; auto; apply Nat.mod_upper_bound; lia|]); intros b Hb; idx b Hb; reflexivity.
Qed.
Lemma roll_bwd_pick (a x y z : nat) : (a < 3)%nat -> exists x' y' z', (forall f : array CC, roll_back g f a x y z = f x' y' z') /\ (in_grid g x y z -> in_grid g x' y' z') /\
  forall b, (b < 3)%nat -> pick b x' y' z' = if Nat.eqb b a then Nat.modulo (pick b x y z + dim g b - 1) (dim g b) else pick b x y z.
Proof.
  intros Ha. idx a Ha; cbn [roll_back]; (do 3 eexists); (split; [reflexivity|]); (split;
    [intros (? & ? & ?); repeat split; auto; apply Nat.mod_upper_bound; lia|]); intros b Hb; idx b Hb; reflexivity.
Qed.
(** agreement of arrays in a plane *)
Definition at_l (l : nat) (f f' : array CC) : Prop := forall x y z, in_grid g x y z -> pick axis x y z = Nat.modulo l (dim g axis) -> f x y z = f' x y z.
Lemma at_near i c : (i < 3)%nat -> (c < 3)%nat -> at_l (s + i) (F c) (F' c).
Proof. intros Hi Hc x y z (H0 & H1 & H2) Hp. apply HF; auto. now exists i. Qed.
Lemma fwd_other a l f f' : (a < 3)%nat -> a <> axis -> at_l l f f' -> at_l l (fun x y z => roll_forward g f a x y z) (fun x y z => roll_forward g f' a x y z).
Proof.
  intros Ha Hn H x y z Hg Hp. destruct (@roll_fwd_pick a x y z Ha) as (x' & y' & z' & R & G & Q). rewrite !R. apply H; auto.
  rewrite Q by auto. destruct (Nat.eqb_spec axis a); [congruence|auto].
Qed.
Lemma bwd_other a l f f' : (a < 3)%nat -> a <> axis -> at_l l f f' -> at_l l (fun x y z => roll_back g f a x y z) (fun x y z => roll_back g f' a x y z).
Proof.
  intros Ha Hn H x y z Hg Hp. destruct (@roll_bwd_pick a x y z Ha) as (x' & y' & z' & R & G & Q). rewrite !R. apply H; auto.
  rewrite Q by auto. destruct (Nat.eqb_spec axis a); [congruence|auto].
Qed.
Lemma fwd_axis l f f' : at_l (S l) f f' -> at_l l (fun x y z => roll_forward g f axis x y z) (fun x y z => roll_forward g f' axis x y z).
Proof.
  intros H x y z Hg Hp. destruct (@roll_fwd_pick axis x y z Hx) as (x' & y' & z' & R & G & Q). rewrite !R. apply H; auto.
  rewrite Q, Nat.eqb_refl, Hp by auto. assert (pick axis x y z < dim g axis)%nat by (destruct Hg as (? & ? & ?); now apply pick_lt).
  rewrite Nat.add_mod_idemp_l by lia. f_equal. lia.
Qed.
Lemma de_at a l f f' : (a < 3)%nat -> at_l l f f' -> at_l (S l) f f' -> at_l l (de g f a) (de g f' a).
Proof.
  intros Ha H0 H1 x y z Hg Hp. unfold de. f_equal. rewrite (H0 x y z Hg Hp). f_equal.
  destruct (Nat.eq_dec a axis) as [->|Hn]; [exact (fwd_axis H1 Hg Hp)|exact (fwd_other Ha Hn H0 Hg Hp)].
Qed.
Lemma curl_at l c : (forall c, (c < 3)%nat -> at_l l (F c) (F' c)) -> (forall c, (c < 3)%nat -> at_l (S l) (F c) (F' c)) -> at_l l (fcurl_e g F c) (fcurl_e g F' c).
Proof.
  intros H0 H1 x y z Hg Hp. unfold fcurl_e, fcurl.
  assert (D : forall a c, (a < 3)%nat -> (c < 3)%nat -> de g (F c) a x y z = de g (F' c) a x y z) by (intros a c' Ha Hc; apply (de_at Ha (H0 c' Hc) (H1 c' Hc)); auto).
  destruct c as [|[|c]]; now rewrite !D by lia.
Qed.
Lemma mag_at omega mu l c : (forall c, (c < 3)%nat -> at_l l (F c) (F' c)) -> (forall c, (c < 3)%nat -> at_l (S l) (F c) (F' c)) -> at_l l (fe2h g omega mu F c) (fe2h g omega mu F' c).
Proof. intros H0 H1 x y z Hg Hp. unfold fe2h. now rewrite (@curl_at l c H0 H1 x y z Hg Hp). Qed.
Lemma flux_h_at H l : (forall c, (c < 3)%nat -> at_l l (F c) (F' c)) -> (forall c, (c < 3)%nat -> at_l (S l) (F c) (F' c)) -> at_l l (flux_h g axis F H) (flux_h g axis F' H).
Proof.
  intros H0 H1 x y z Hg Hp. unfold flux_h. set (u := ((axis + 1) mod 3)%nat). set (v := ((axis + 2) mod 3)%nat).
  assert (Hu : (u < 3)%nat /\ u <> axis) by (exact (proj1 (other_axes Hx))). assert (Hv : (v < 3)%nat /\ v <> axis) by (exact (proj2 (other_axes Hx))).
  assert (T : forall c l, at_l l (F c) (F' c) -> at_l l (tall_e g F c) (tall_e g F' c)) by (intros c l' A x0 y0 z0 G P; unfold tall_e; now rewrite (A x0 y0 z0 G P)).
  assert (M : forall c, (c < 3)%nat -> at_l l (mean_next g (tall_e g F c) axis) (mean_next g (tall_e g F' c) axis)).
  { intros c Hc x0 y0 z0 G P. unfold mean_next. rewrite (T c l (H0 c Hc) x0 y0 z0 G P). do 2 f_equal. exact (fwd_axis (T c (S l) (H1 c Hc)) G P). }
  assert (B : forall w c h, (c < 3)%nat -> (w < 3)%nat -> w <> axis -> at_l l (mean_prev g (fun x y z => h x y z * mean_next g (tall_e g F c) axis x y z)%K w) (mean_prev g (fun x y z => h x y z * mean_next g (tall_e g F' c) axis x y z)%K w)).
  { intros w c h Hc Hw Hn. assert (A : at_l l (fun x y z => h x y z * mean_next g (tall_e g F c) axis x y z)%K (fun x y z => h x y z * mean_next g (tall_e g F' c) axis x y z)%K)
      by (intros x0 y0 z0 G P; now rewrite (M c Hc x0 y0 z0 G P)).
    intros x0 y0 z0 G P. unfold mean_prev. rewrite (A x0 y0 z0 G P). do 2 f_equal. exact (bwd_other Hw Hn A G P). }
  f_equal; [apply (B u u); tauto|apply (B v v); tauto].
Qed.
End Local.
Lemma flux_e_at axis s E H H' l : (axis < 3)%nat -> (forall c, (c < 3)%nat -> at_l axis l (H c) (H' c)) -> (forall c, (c < 3)%nat -> at_l axis (S l) (H c) (H' c)) -> s = l ->
  at_l axis l (flux_e g axis E H) (flux_e g axis E H').
Proof.
  intros Hx H0 H1 _ x y z Hg Hp. unfold flux_e. set (u := ((axis + 1) mod 3)%nat). set (v := ((axis + 2) mod 3)%nat).
  assert (Hu : (u < 3)%nat /\ u <> axis) by (exact (proj1 (other_axes Hx))). assert (Hv : (v < 3)%nat /\ v <> axis) by (exact (proj2 (other_axes Hx))).
  assert (T : forall c l, at_l axis l (H c) (H' c) -> at_l axis l (tall_h g H c) (tall_h g H' c)) by (intros c l' A x0 y0 z0 G P; unfold tall_h; now rewrite (A x0 y0 z0 G P)).
  assert (M : forall w c l, (w < 3)%nat -> w <> axis -> at_l axis l (H c) (H' c) -> at_l axis l (mean_prev g (tall_h g H c) w) (mean_prev g (tall_h g H' c) w)).
  { intros w c l' Hw Hn A x0 y0 z0 G P. unfold mean_prev. rewrite (T c l' A x0 y0 z0 G P). do 2 f_equal. exact (@bwd_other axis Hx w l' _ _ Hw Hn (T c l' A) x0 y0 z0 G P). }
  assert (B : forall w c h, (c < 3)%nat -> (w < 3)%nat -> w <> axis -> at_l axis l (mean_next g (fun x y z => h x y z * mean_prev g (tall_h g H c) w x y z)%K axis) (mean_next g (fun x y z => h x y z * mean_prev g (tall_h g H' c) w x y z)%K axis)).
  { intros w c h Hc Hw Hn. assert (A : forall l, at_l axis l (H c) (H' c) -> at_l axis l (fun x y z => h x y z * mean_prev g (tall_h g H c) w x y z)%K (fun x y z => h x y z * mean_prev g (tall_h g H' c) w x y z)%K)
      by (intros l' Q x0 y0 z0 G P; now rewrite (M w c l' Hw Hn Q x0 y0 z0 G P)).
    intros x0 y0 z0 G P. unfold mean_next. rewrite (A l (H0 c Hc) x0 y0 z0 G P). do 2 f_equal. exact (@fwd_axis axis Hx l _ _ (A (S l) (H1 c Hc)) x0 y0 z0 G P). }
  f_equal; [apply (B u v); tauto|apply (B v u); tauto].
Qed.
Lemma grid_sum_ext (f f' : array CC) : (forall x y z, in_grid g x y z -> f x y z = f' x y z) -> grid_sum g f = grid_sum g f'.
Proof. intros H. unfold grid_sum. apply fsum_ext. intros x Hx. apply fsum_ext. intros y Hy. apply fsum_ext. intros z Hz. now apply H. Qed.
Lemma window_plane (axis : nat) st len x y z : (axis < 3)%nat -> in_window st len x y z = true -> len axis = 1%nat -> pick axis x y z = st axis.
Proof.
  intros Hx H Hl. unfold in_window in H. rewrite !andb_true_iff, !Nat.leb_le, !Nat.ltb_lt in H. idx axis Hx; cbn [pick]; rewrite Hl in H; lia.
Qed.
Lemma pairing_local axis st len omega mu Em Hm F F' : (axis < 3)%nat -> len axis = 1%nat -> (st axis < dim g axis)%nat -> agree_near g axis (st axis) F F' ->
  pairing g axis st len omega mu Em Hm F = pairing g axis st len omega mu Em Hm F'.
Proof.
  intros Hx Hl Hs HF. unfold pairing. apply grid_sum_ext. intros x y z Hg. destruct (in_window st len x y z) eqn:W; auto.
  pose proof (@window_plane axis st len x y z Hx W Hl) as Hp.
  assert (Hp' : pick axis x y z = Nat.modulo (st axis) (dim g axis)) by (rewrite Nat.mod_small; auto).
  assert (A : forall i c, (i < 3)%nat -> (c < 3)%nat -> at_l axis (st axis + i) (F c) (F' c)) by (intros; eapply at_near; eauto).
  assert (A0 : forall c, (c < 3)%nat -> at_l axis (st axis) (F c) (F' c)) by (intros c Hc; rewrite <- (Nat.add_0_r (st axis)); apply A; auto; lia).
  assert (A1 : forall c, (c < 3)%nat -> at_l axis (S (st axis)) (F c) (F' c)) by (intros c Hc; replace (S (st axis)) with (st axis + 1)%nat by lia; apply A; auto; lia).
  assert (A2 : forall c, (c < 3)%nat -> at_l axis (S (S (st axis))) (F c) (F' c)) by (intros c Hc; replace (S (S (st axis))) with (st axis + 2)%nat by lia; apply A; auto; lia).
  f_equal.
  - exact (@flux_h_at axis F F' Hx Hm (st axis) A0 A1 x y z Hg Hp').
  - refine (@flux_e_at axis (st axis) Em _ _ (st axis) Hx _ _ eq_refl x y z Hg Hp'); intros c Hc; apply mag_at; auto.
Qed.
End Comp.
