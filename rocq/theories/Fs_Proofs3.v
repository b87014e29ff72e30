(** The wave operator couples neighbouring planes only; the current of a field that is cut off. *)
From Coq Require Import Reals ZArith Lra Lia.
From Verif Require Import Base CField CField_Proofs GMath_Model GMath_Proofs CplxField Maxwell_Model Maxwell_Spec Maxwell_Proofs Maxwell_Proofs2 Maxwell_Proofs3 Wg_Model Wg_Model2 Wg_Spec Fs_Model Fs_Spec Fs_Proofs.
Set Implicit Arguments.

Section Local.
Variable K : cfield.
Local Open Scope K_scope.
Add Field KfL : (k_field K).
Variable g : grid K.
Local Notation n := (cellsn g).
Local Notation N := (vlen g).
Lemma curl_e_local u w v v' c t : (c < 3)%nat -> (t < n)%nat ->
  (forall c, (c < 3)%nat -> at_ v (c * n + t) = at_ v' (c * n + t) :> K) ->
  (forall c a, (c < 3)%nat -> (a < 3)%nat -> a <> c -> at_ v (c * n + fwd g a t) = at_ v' (c * n + fwd g a t)) ->
  at_ (mv N (curl_e g u w) v) (c * n + t) = at_ (mv N (curl_e g u w) v') (c * n + t).
Proof.
  intros Hc Ht H0 H1. unfold curl_e. rewrite !cross_at by auto. unfold dcol.
  destruct c as [|[|[|c]]]; [| | |lia]; rewrite !deriv_forward_at by (auto; lia); rewrite !part_at by (auto using fwd_lt); rewrite !H0, !H1 by lia; reflexivity.
Qed.
Lemma curl_h_local u w v v' c t : (c < 3)%nat -> (t < n)%nat ->
  (forall c, (c < 3)%nat -> at_ v (c * n + t) = at_ v' (c * n + t) :> K) ->
  (forall c a, (c < 3)%nat -> (a < 3)%nat -> a <> c -> at_ v (c * n + bwd g a t) = at_ v' (c * n + bwd g a t)) ->
  at_ (mv N (curl_h g u w) v) (c * n + t) = at_ (mv N (curl_h g u w) v') (c * n + t).
Proof.
  intros Hc Ht H0 H1. unfold curl_h. rewrite !cross_at by auto. unfold dcol.
  destruct c as [|[|[|c]]]; [| | |lia]; rewrite !deriv_back_at by (auto; lia); rewrite !part_at by (auto using bwd_lt); rewrite !H0, !H1 by lia; reflexivity.
Qed.
Lemma e_full_local ph omega eps v v' axis c t : (axis < 3)%nat -> (c < 3)%nat -> (t < n)%nat ->
  (1 <= coord g axis t)%nat -> (coord g axis t + 1 < dim g axis)%nat ->
  (forall c t', (c < 3)%nat -> (t' < n)%nat -> (coord g axis t <= coord g axis t' + 1)%nat -> (coord g axis t' <= coord g axis t + 1)%nat ->
     at_ v (c * n + t') = at_ v' (c * n + t') :> K) ->
  at_ (mv N (e_full g ph omega eps None None None) v) (c * n + t) = at_ (mv N (e_full g ph omega eps None None None) v') (c * n + t).
Proof.
  intros Hx Hc Ht H1 H2 H.
  assert (Hi : forall c t, (c < 3)%nat -> (t < n)%nat -> (c * n + t < N)%nat) by (intros; unfold vlen; nia).
  rewrite !mv_e_full by auto. cbn [maskv]. f_equal. f_equal.
  2:{ f_equal. f_equal. apply H; auto; lia. }
  assert (CE : forall c t', (c < 3)%nat -> (t' < n)%nat -> (coord g axis t <= coord g axis t' + 1)%nat -> (coord g axis t' <= coord g axis t)%nat ->
     at_ (pmul g (maskv K None) (pmul g (@invv K None) (mv N (curl_e g (ue ph) (we ph)) (pmul g (maskv K None) v)))) (c * n + t')
     = at_ (pmul g (maskv K None) (pmul g (@invv K None) (mv N (curl_e g (ue ph) (we ph)) (pmul g (maskv K None) v')))) (c * n + t')).
  { intros b t' Hb Ht' G1 G2. rewrite !(@pmul_at K g) by auto. f_equal. f_equal.
    apply curl_e_local; auto.
    - intros b' Hb'. rewrite !(@pmul_at K g) by auto. f_equal. apply H; auto; lia.
    - intros b' a Hb' Ha _. rewrite !(@pmul_at K g) by auto using fwd_lt. f_equal. apply H; auto using fwd_lt; rewrite coord_fwd by auto; destruct (axis =? a)%nat; try lia;
        rewrite Nat.mod_small; lia. }
  apply curl_h_local; auto.
  - intros b Hb. apply CE; auto; lia.
  - intros b a Hb Ha _. apply CE; auto using bwd_lt; rewrite coord_bwd by auto; destruct (axis =? a)%nat; try lia.
    + replace (coord g axis t + dim g axis - 1)%nat with (coord g axis t - 1 + 1 * dim g axis)%nat by lia. rewrite Nat.mod_add, Nat.mod_small by lia. lia.
    + replace (coord g axis t + dim g axis - 1)%nat with (coord g axis t - 1 + 1 * dim g axis)%nat by lia. rewrite Nat.mod_add, Nat.mod_small by lia. lia.
Qed.
Lemma e_full_zero ph omega eps v i : (i < N)%nat -> (forall j, (j < N)%nat -> at_ v j = 0 :> K) -> at_ (mv N (e_full g ph omega eps None None None) v) i = 0.
Proof. intros Hi H. rewrite mv_at by auto. apply fsum_zero. intros j Hj. rewrite H by auto. ring. Qed.
End Local.

Local Open Scope R_scope.
Lemma coord_axis (g : grid CC) axis t x y z : (axis < 3)%nat -> coord g 0 t = x -> coord g 1 t = y -> coord g 2 t = z -> coord g axis t = pick axis x y z.
Proof. intros Hx H0 H1 H2. idx axis Hx; assumption. Qed.
Lemma pick_lt (g : grid CC) axis x y z : (axis < 3)%nat -> (x < dim g 0)%nat -> (y < dim g 1)%nat -> (z < dim g 2)%nat -> (pick axis x y z < dim g axis)%nat.
Proof. intros Hx H0 H1 H2. idx axis Hx; assumption. Qed.
Lemma pick_coord (g : grid CC) axis t : (axis < 3)%nat -> pick axis (coord g 0 t) (coord g 1 t) (coord g 2 t) = coord g axis t.
Proof. intros Hx. idx axis Hx; reflexivity. Qed.
Lemma selects_whole m i : (i < m)%nat -> selects m (0, Z.of_nat m)%Z i = true.
Proof. intros H. unfold selects, bound. cbn [fst snd]. apply andb_true_intro. rewrite Z.leb_le, Z.ltb_lt. destruct (Z.ltb_spec 0 0), (Z.ltb_spec (Z.of_nat m) 0); lia. Qed.
Section Cut.
Variables (g : grid CC) (eps : field3 CC) (omega : R) (axis : nat) (sl : slices) (back : bool) (k : vec3) (E : field3 CC) (s : nat).
Hypothesis Hx : (axis < 3)%nat.
Hypothesis Ho : omega <> 0.
Hypothesis Hwhole : forall a, (a < 3)%nat -> a <> axis -> sl a = (0, Z.of_nat (dim g a))%Z.
Hypothesis Hcut : cut_index back (sl axis) = Z.of_nat s.
Hypothesis Hs1 : (1 <= s)%nat. Hypothesis Hs2 : (s < dim g axis)%nat.
Local Notation n := (cellsn g).
Local Notation A := (e_full g (bloch_phases g k) (rl omega) (at_ (vec g eps)) None None None).

Lemma cell_of x y z : in_grid g x y z -> let t := (x + dim g 0 * (y + dim g 1 * z))%nat in
  (t < n)%nat /\ coord g 0 t = x /\ coord g 1 t = y /\ coord g 2 t = z.
Proof.
  intros (Hx' & Hy & Hz) t. assert (t < n)%nat by exact (@idx_lt CC g x y z Hx' Hy Hz). split; auto.
  exact (@coord_idx CC g x y z Hx' Hy).
Qed.
Lemma coord_pick x y z : in_grid g x y z -> coord g axis (x + dim g 0 * (y + dim g 1 * z)) = pick axis x y z.
Proof. intros H. destruct (cell_of H) as (_ & H0 & H1 & H2). now apply coord_axis. Qed.
Lemma cut_is_lit c x y z : in_grid g x y z -> cut_field g axis back (Z.of_nat s) E c x y z = lit_part axis back s E c x y z.
Proof.
  intros H. assert (Hp : (pick axis x y z < dim g axis)%nat) by (destruct H as (? & ? & ?); now apply pick_lt).
  unfold cut_field, lit_part, lit, selects, bound. destruct back; cbn [fst snd].
  - destruct (Z.ltb_spec 0 0); try lia. destruct (Z.ltb_spec (Z.of_nat s) 0); try lia.
    destruct (Nat.ltb_spec (pick axis x y z) s); destruct (Z.leb_spec (Z.min 0 (Z.of_nat (dim g axis))) (Z.of_nat (pick axis x y z))); try lia;
    destruct (Z.ltb_spec (Z.of_nat (pick axis x y z)) (Z.min (Z.of_nat s) (Z.of_nat (dim g axis)))); try lia; reflexivity.
  - destruct (Z.ltb_spec (Z.of_nat s) 0); try lia. destruct (Z.ltb_spec (Z.of_nat (dim g axis)) 0); try lia.
    destruct (Nat.leb_spec s (pick axis x y z)); destruct (Z.leb_spec (Z.min (Z.of_nat s) (Z.of_nat (dim g axis))) (Z.of_nat (pick axis x y z))); try lia;
    destruct (Z.ltb_spec (Z.of_nat (pick axis x y z)) (Z.min (Z.of_nat (dim g axis)) (Z.of_nat (dim g axis)))); try lia; reflexivity.
Qed.
Lemma vec_same (F F' : field3 CC) : (forall c x y z, (c < 3)%nat -> in_grid g x y z -> F c x y z = F' c x y z) -> vec g F = vec g F'.
Proof.
  intros H. apply (@vlen_ext CC g); try apply vec_length. intros c t Hc Ht. rewrite !vec_at by auto. apply H; auto.
  repeat split; apply coord_lt; auto; lia.
Qed.
Lemma in_J_slices x y z : in_grid g x y z ->
  in_slices g (set_slice sl axis (Z.of_nat s - 1, Z.of_nat s + 1)%Z) x y z = (Nat.eqb (pick axis x y z) s || Nat.eqb (pick axis x y z + 1) s)%bool.
Proof.
  intros H.
  assert (S1 : forall m i, (i < m)%nat -> (s < m)%nat -> selects m (Z.of_nat s - 1, Z.of_nat s + 1)%Z i = (Nat.eqb i s || Nat.eqb (i + 1) s)%bool).
  { intros m i Hi Hm. unfold selects, bound. cbn [fst snd]. destruct (Z.ltb_spec (Z.of_nat s - 1) 0); try lia. destruct (Z.ltb_spec (Z.of_nat s + 1) 0); try lia.
    destruct (Nat.eqb_spec i s), (Nat.eqb_spec (i + 1) s), (Z.leb_spec (Z.min (Z.of_nat s - 1) (Z.of_nat m)) (Z.of_nat i)), (Z.ltb_spec (Z.of_nat i) (Z.min (Z.of_nat s + 1) (Z.of_nat m))); try lia; reflexivity. }
  unfold in_slices, set_slice. destruct H as (H0 & H1 & H2).
  assert (W : forall a, (a < 3)%nat -> a <> axis -> sl a = (0, Z.of_nat (dim g a))%Z) by exact Hwhole. clear Hwhole Hcut Ho.
  revert Hx Hs2 W. clear Hs1. generalize axis as a. intros a Ha Hs2 W.
  destruct a as [|[|[|a]]]; [| | |lia]; cbn [Nat.eqb pick]; rewrite ?W by lia; rewrite ?(selects_whole H0), ?(selects_whole H1), ?(selects_whole H2); rewrite S1 by auto; rewrite ?andb_true_r; reflexivity.
Qed.
Lemma unvec_scale (c : CC) v i : at_ (map (fun x => c * x)%K v) i = (c * at_ v i)%K.
Proof. exact (@vscale_at CC c v i). Qed.
Definition applied (F : field3 CC) : field3 CC := unvec_or g (mv (vlen g) A (vec g F)).
Lemma current_one_sided c x y z : (c < 3)%nat -> in_grid g x y z -> (1 <= pick axis x y z)%nat -> (pick axis x y z + 1 < dim g axis)%nat ->
  let l := pick axis x y z in
  applied (lit_part axis back s E) c x y z =
  (- ki * rl omega * fst (cut_current g eps omega axis sl back k E) c x y z
   + (if (lit back s l && negb (Nat.eqb l s) && negb (Nat.eqb (l + 1) s))%bool then applied E c x y z else 0))%K.
Proof.
  intros Hc Hg Hl1 Hl2 l. unfold cut_current. rewrite Hcut. cbn [fst]. rewrite in_J_slices by auto. fold l.
  destruct (cell_of Hg) as (Ht & _). pose proof (coord_pick Hg) as Hcp. unfold applied, unvec_or.
  set (t := (x + dim g 0 * (y + dim g 1 * z))%nat) in *. fold l in Hcp.
  assert (EL : vec g (cut_field g axis back (Z.of_nat s) E) = vec g (lit_part axis back s E)) by (apply vec_same; intros; now apply cut_is_lit).
  rewrite EL. clear EL.
  assert (Hki : (- ki * rl omega)%K <> (0 : CC)%K). { intros Z. apply (f_equal snd) in Z. cbn in Z. lra. }
  assert (Z0 : forall a : CC, (- ki * rl omega * (1 / (- ki * rl omega) * a))%K = a).
  { intros a. generalize dependent (- ki * rl omega)%K. intros b Hb. pose proof (k_field CC) as FT. 
    change (cmul b (cmul (cmul c1 (cinv b)) a) = a). transitivity (cmul (cmul b (cinv b)) a); [cring|]. rewrite cinv_r by exact Hb. cring. }
  assert (R1 : forall a : CC, a = (a + 0)%K) by (intros a; apply c_eq; cbn; ring).
  assert (R2 : forall b a : CC, a = (b * 0 + a)%K) by (intros b a; apply c_eq; cbn; ring).
  destruct (Nat.eqb_spec l s) as [e1|e1]; [|destruct (Nat.eqb_spec (l + 1) s) as [e2|e2]].
  - cbn [orb negb andb]. rewrite Bool.andb_false_r. cbn [andb]. rewrite unvec_scale, Z0. apply R1.
  - cbn [orb negb andb]. rewrite Bool.andb_false_r. rewrite unvec_scale, Z0. apply R1.
  - cbn [orb negb andb]. rewrite !Bool.andb_true_r.
    transitivity (if lit back s l then at_ (mv (vlen g) A (vec g E)) (c * n + t) else 0%K); [|apply R2].
    destruct (lit back s l) eqn:EL.
    + apply (@e_full_local CC g _ _ _ _ _ axis); auto; try lia. intros b t' Hb Ht' G1 G2. rewrite !vec_at by auto. unfold lit_part.
      assert (P : pick axis (coord g 0 t') (coord g 1 t') (coord g 2 t') = coord g axis t') by now apply pick_coord.
      rewrite P. assert (Q : lit back s (coord g axis t') = true); [|now rewrite Q].
      unfold lit in *. destruct back; [apply Nat.ltb_lt in EL; apply Nat.ltb_lt|apply Nat.leb_le in EL; apply Nat.leb_le]; lia.
    + rewrite (@e_full_local CC g _ _ _ _ (vec g (fun _ _ _ _ => 0%K)) axis); auto; try lia.
      * apply (@e_full_zero CC g); [unfold vlen; nia|]. intros j Hj. destruct (@block_ex n j Hj) as (b & t' & Hb & Ht' & ->). now rewrite vec_at.
      * intros b t' Hb Ht' G1 G2. rewrite !vec_at by auto. unfold lit_part.
        assert (P : pick axis (coord g 0 t') (coord g 1 t') (coord g 2 t') = coord g axis t') by now apply pick_coord.
        rewrite P. assert (Q : lit back s (coord g axis t') = false); [|now rewrite Q].
        unfold lit in *. destruct back; [apply Nat.ltb_ge in EL; apply Nat.ltb_ge|apply Nat.leb_gt in EL; apply Nat.leb_gt]; lia.
Qed.
End Cut.
