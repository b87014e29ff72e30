(** Bloch shifts as shifts of quasi-periodic functions; the Poynting matrices. *)
From Verif Require Import Base CField CField_Proofs Maxwell_Model Maxwell_Spec Maxwell_Proofs Maxwell_Proofs2 Maxwell_Proofs3.
From Coq Require Import ZArith.
Set Implicit Arguments.

Section M.
Variable K : cfield.
Local Open Scope K_scope.
Add Field Kfield : (k_field K).
Variable g : grid K.
Local Notation n := (cellsn g).
Local Notation N := (vlen g).
Local Notation coord := (coord g).

Section Bloch.
Variables (u w : nat -> K) (axis : nat) (so : nat -> Z) (F : lattice K).
Hypothesis Huw : inverse_factors u w.
Hypothesis Hext : extensional F.
Hypothesis HF : quasi_periodic g u axis so F.
Hypothesis Hax : (axis < 3)%nat.
Hypothesis Hso : so axis = 0%Z.
Hypothesis Hsm : forall b, (b < 3)%nat -> (- Z.of_nat (dim g b) <= so b <= Z.of_nat (dim g b))%Z.
Hypothesis Hpos : forall b, (b < 3)%nat -> (0 < dim g b)%nat.
Definition fac (b : nat) (q : Z) : K := (if Z.leb (Z.of_nat (dim g b)) q then u b else 1) * (if Z.ltb q 0 then w b else 1).
Definition upd (q : nat -> Z) (b : nat) (x : Z) : nat -> Z := fun a => if Nat.eqb a b then x else q a.
Lemma reduce_axis b q : (b < 3)%nat -> b <> axis -> (- Z.of_nat (dim g b) <= q b < 2 * Z.of_nat (dim g b))%Z ->
  F q = fac b (q b) * F (upd q b (q b mod Z.of_nat (dim g b))).
Proof.
  intros Hb Hba Hq. destruct HF as [_ H2]. specialize (Hpos Hb). unfold fac.
  destruct (Z.leb_spec (Z.of_nat (dim g b)) (q b)) as [H|H]; destruct (Z.ltb_spec (q b) 0) as [H'|H']; try lia.
  - replace (q b mod Z.of_nat (dim g b))%Z with (q b - Z.of_nat (dim g b))%Z by (apply (Z.mod_unique _ _ 1); lia).
    transitivity (F (step b (Z.of_nat (dim g b)) (upd q b (q b - Z.of_nat (dim g b))))).
    + apply Hext. intros a Ha. unfold step, upd. destruct (Nat.eqb_spec a b) as [->|]; [lia|reflexivity].
    + rewrite H2 by auto. ring.
  - replace (q b mod Z.of_nat (dim g b))%Z with (q b + Z.of_nat (dim g b))%Z by (apply (Z.mod_unique _ _ (-1)); lia).
    assert (E : F (upd q b (q b + Z.of_nat (dim g b))) = u b * F q).
    { rewrite <- H2 by auto. apply Hext. intros a Ha. unfold step, upd. destruct (Nat.eqb_spec a b) as [->|]; reflexivity. }
    rewrite E. transitivity (u b * w b * F q); [rewrite Huw|]; ring.
  - rewrite Z.mod_small by lia. transitivity (1 * 1 * F q); [ring|]. f_equal. apply Hext. intros a Ha. unfold upd.
    destruct (Nat.eqb_spec a b) as [->|]; reflexivity.
Qed.
Lemma reduce_shifted d t : (d = 1 \/ d = -1)%Z -> (t < n)%nat ->
  F (step axis d (cell g t)) =
  fac axis (shifted_index g axis d so t axis) * F (upd (shifted_index g axis d so t) axis (shifted_index g axis d so t axis mod Z.of_nat (dim g axis))).
Proof.
  intros Hd Ht. pose proof (coord_lt g Hax Ht) as Hc. specialize (Hpos Hax). destruct HF as [H1 _].
  assert (Esi : forall a, shifted_index g axis d so t a =
     let x := (Z.of_nat (coord axis t) + d)%Z in
     if Nat.eqb a axis then x else if Z.leb (Z.of_nat (dim g axis)) x then (Z.of_nat (coord a t) + so a)%Z
       else if Z.ltb x 0 then (Z.of_nat (coord a t) - so a)%Z else Z.of_nat (coord a t)).
  { intros a. unfold shifted_index. rewrite Nat.eqb_refl. cbn zeta. rewrite Hso.
    destruct (Nat.eqb_spec a axis) as [->|Hne].
    - rewrite ?Hso, ?Nat.eqb_refl. repeat match goal with |- context [if ?c then _ else _] => destruct c end; lia.
    - destruct (Z.leb_spec (Z.of_nat (dim g axis)) (Z.of_nat (coord axis t) + d)%Z) as [Hl|Hl];
      repeat match goal with |- context [Z.ltb ?x 0] => destruct (Z.ltb_spec x 0) end; try lia; reflexivity. }
  rewrite !(Esi axis). cbn zeta. rewrite Nat.eqb_refl. set (x := (Z.of_nat (coord axis t) + d)%Z) in *. unfold fac.
  destruct (Z.leb_spec (Z.of_nat (dim g axis)) x) as [H|H]; destruct (Z.ltb_spec x 0) as [H'|H']; try lia.
  - replace (x mod Z.of_nat (dim g axis))%Z with (x - Z.of_nat (dim g axis))%Z by (apply (Z.mod_unique _ _ 1); lia).
    transitivity (F (step axis (Z.of_nat (dim g axis)) (step axis (d - Z.of_nat (dim g axis)) (cell g t)))).
    + apply Hext. intros a Ha. unfold step. destruct (Nat.eqb_spec a axis); lia.
    + rewrite H1. transitivity (u axis * F (fun b => (step axis (d - Z.of_nat (dim g axis)) (cell g t) b + so b)%Z)); [reflexivity|].
      transitivity (u axis * 1 * F (fun b => (step axis (d - Z.of_nat (dim g axis)) (cell g t) b + so b)%Z)); [ring|]. f_equal. apply Hext.
      intros a Ha. rewrite Esi || idtac. unfold upd, step, cell. rewrite Esi. cbn zeta. fold x.
      destruct (Nat.eqb_spec a axis) as [->|]; [rewrite Hso; lia|].
      destruct (Z.leb_spec (Z.of_nat (dim g axis)) x); lia.
  - replace (x mod Z.of_nat (dim g axis))%Z with (x + Z.of_nat (dim g axis))%Z by (apply (Z.mod_unique _ _ (-1)); lia).
    match goal with |- _ = _ * F ?q =>
      assert (E : F q = u axis * F (step axis d (cell g t))) end.
    { transitivity (F (step axis (Z.of_nat (dim g axis)) (fun b => (step axis d (cell g t) b - so b)%Z))).
      - apply Hext. intros a Ha. unfold upd, step, cell. rewrite Esi. cbn zeta. fold x.
        destruct (Nat.eqb_spec a axis) as [->|]; [rewrite Hso; lia|].
        destruct (Z.leb_spec (Z.of_nat (dim g axis)) x); [lia|]. destruct (Z.ltb_spec x 0); lia.
      - rewrite H1. f_equal. apply Hext. intros a Ha. lia. }
    rewrite E. transitivity (u axis * w axis * F (step axis d (cell g t))); [rewrite Huw|]; ring.
  - rewrite Z.mod_small by lia. match goal with |- ?X = 1 * 1 * ?Y => transitivity Y; [|ring] end. apply Hext.
    intros a Ha. unfold upd, step, cell. rewrite Esi. cbn zeta. fold x.
    destruct (Nat.eqb_spec a axis) as [->|]; [reflexivity|].
    destruct (Z.leb_spec (Z.of_nat (dim g axis)) x); [lia|]. destruct (Z.ltb_spec x 0); lia.
Qed.
Lemma rotation_acts_lemma d : (d = 1 \/ d = -1)%Z ->
  mv n (rotation_matrix g axis d u w so) (restrict g F) = restrict g (fun p => F (step axis d p)).
Proof.
  intros Hd. apply vec_ext; [unfold restrict; now rewrite mv_length, vbuild_length|]. intros t Ht. rewrite mv_length in Ht.
  destruct (cells_pos g Ht) as (Hx & Hy & Hz).
  unfold rotation_matrix.
  rewrite (@mv_pick_at K n (fun t => ravel_wrap g (shifted_index g axis d so t)) (fun t => bloch_data g u w (shifted_index g axis d so t)))
    by (auto; now apply ravel_wrap_lt).
  unfold restrict. rewrite !vbuild_at by (auto; now apply ravel_wrap_lt). rewrite (reduce_shifted Hd Ht).
  set (p := shifted_index g axis d so t).
  assert (Hr : forall b, (b < 3)%nat -> (- Z.of_nat (dim g b) <= p b < 2 * Z.of_nat (dim g b))%Z).
  { intros b Hb. pose proof (coord_lt g Hb Ht) as Hcb. specialize (Hsm Hb). specialize (Hpos Hb).
    unfold p, shifted_index.
    repeat match goal with |- context [Nat.eqb ?x ?y] => destruct (Nat.eqb_spec x y) end; subst; rewrite ?Hso in *;
    repeat match goal with |- context [if ?c then _ else _] => destruct c end; lia. }
  assert (Hend : forall q, (forall a, (a < 3)%nat -> q a = (p a mod Z.of_nat (dim g a))%Z) -> F (cell g (ravel_wrap g p)) = F q).
  { intros q Hq. apply Hext. intros a Ha. rewrite Hq by auto. unfold cell. rewrite coord_ravel by auto. specialize (Hpos Ha).
    pose proof (Z.mod_pos_bound (p a) (Z.of_nat (dim g a)) ltac:(lia)). lia. }
  change (bloch_data g u w p) with (fac 0 (p 0%nat) * fac 1 (p 1%nat) * fac 2 (p 2%nat)).
  assert (Haxis : axis = 0%nat \/ axis = 1%nat \/ axis = 2%nat) by lia.
  clearbody p.
  destruct Haxis as [E|[E|E]].
  - rewrite (@reduce_axis 1 (upd p axis _)) by (rewrite ?E; try lia; unfold upd; simpl; apply Hr; lia).
    rewrite (@reduce_axis 2 (upd (upd p axis _) 1 _)) by (rewrite ?E; try lia; unfold upd; simpl; apply Hr; lia).
    match goal with |- _ = _ * (_ * (_ * F ?q)) => rewrite (Hend q); [generalize (F q); intros y; rewrite E; unfold upd; simpl; ring|] end.
    intros a Ha. rewrite E. ax3 a; reflexivity.
  - rewrite (@reduce_axis 0 (upd p axis _)) by (rewrite ?E; try lia; unfold upd; simpl; apply Hr; lia).
    rewrite (@reduce_axis 2 (upd (upd p axis _) 0 _)) by (rewrite ?E; try lia; unfold upd; simpl; apply Hr; lia).
    match goal with |- _ = _ * (_ * (_ * F ?q)) => rewrite (Hend q); [generalize (F q); intros y; rewrite E; unfold upd; simpl; ring|] end.
    intros a Ha. rewrite E. ax3 a; reflexivity.
  - rewrite (@reduce_axis 0 (upd p axis _)) by (rewrite ?E; try lia; unfold upd; simpl; apply Hr; lia).
    rewrite (@reduce_axis 1 (upd (upd p axis _) 0 _)) by (rewrite ?E; try lia; unfold upd; simpl; apply Hr; lia).
    match goal with |- _ = _ * (_ * (_ * F ?q)) => rewrite (Hend q); [generalize (F q); intros y; rewrite E; unfold upd; simpl; ring|] end.
    intros a Ha. rewrite E. ax3 a; reflexivity.
Qed.
End Bloch.

(** *** derivatives of quasi-periodic functions *)
Section Deriv.
Variables (u w : nat -> K) (F : lattice K).
Hypothesis Huw : inverse_factors u w.
Hypothesis Hext : extensional F.
Hypothesis HF : forall a p, (a < 3)%nat -> F (step a (Z.of_nat (dim g a)) p) = u a * F p.
Lemma qp_all a : (a < 3)%nat -> quasi_periodic g u a no_shift F.
Proof.
  intros Ha. split.
  - intros p. rewrite HF by auto. f_equal. apply Hext. intros b Hb. unfold no_shift. lia.
  - intros b p Hb _. now apply HF.
Qed.
Lemma rot_at d a t : (a < 3)%nat -> (d = 1 \/ d = -1)%Z -> (t < n)%nat ->
  at_ (mv n (rotation_matrix g a d u w no_shift) (restrict g F)) t = F (step a d (cell g t)).
Proof.
  intros Ha Hd Ht. destruct (cells_pos g Ht) as (? & ? & ?).
  assert (Hpos : forall b, (b < 3)%nat -> (0 < dim g b)%nat) by (intros b Hb; ax3 b; auto).
  rewrite (@rotation_acts_lemma u w a no_shift F Huw Hext (qp_all Ha) Ha eq_refl); auto.
  - unfold restrict. now rewrite vbuild_at.
  - intros b Hb. unfold no_shift. lia.
Qed.
Lemma deriv_forward_lattice a : (a < 3)%nat ->
  mv n (deriv_forward g u w a) (restrict g F) = vbuild n (fun t => (F (step a 1 (cell g t)) - F (cell g t)) / dxe g a (coord a t)).
Proof.
  intros Ha. apply vec_ext; [now rewrite mv_length, vbuild_length|]. intros t Ht. rewrite mv_length in Ht. rewrite vbuild_at by auto.
  unfold deriv_forward. rewrite mv_mmul, mv_mdiag_at, mv_msub_at, rot_at by auto. unfold meye. rewrite mv_mdiag_at by auto.
  unfold restrict. rewrite vbuild_at by auto. rewrite !(Fdiv_def (k_field K)). ring.
Qed.
Lemma deriv_back_lattice a : (a < 3)%nat ->
  mv n (deriv_back g u w a) (restrict g F) = vbuild n (fun t => (F (cell g t) - F (step a (-1) (cell g t))) / dxh g a (coord a t)).
Proof.
  intros Ha. apply vec_ext; [now rewrite mv_length, vbuild_length|]. intros t Ht. rewrite mv_length in Ht. rewrite vbuild_at by auto.
  unfold deriv_back. rewrite mv_mmul, mv_mdiag_at, mv_msub_at, rot_at by auto. unfold meye. rewrite mv_mdiag_at by auto.
  unfold restrict. rewrite vbuild_at by auto. rewrite !(Fdiv_def (k_field K)). ring.
Qed.
End Deriv.

(** *** Poynting vectors *)
Local Notation area_at := (face_area g).
Local Notation cross_at_ := cross_product.
Lemma mv_area_at v r t : (r < 3)%nat -> (t < n)%nat -> at_ (mv N (area g) v) (r * n + t) = area_at r t * at_ v (r * n + t).
Proof.
  intros Hr Ht. unfold area. rewrite bmat_mv_at by auto.
  ax3 r; cbn [Nat.eqb]; rewrite ?mv_zero_at by auto; rewrite mv_mmul, mv_mdiag_at, mv_mdiag_at, part_at by auto; unfold face_area; ring.
Qed.
Lemma shift_op_at v r t : (r < 3)%nat -> (t < n)%nat -> at_ (mv n (shift_op g r) v) t = at_ v (fwd g r t).
Proof.
  intros Hr Ht. unfold shift_op, rotation_matrix.
  rewrite (@mv_pick_at K n (fun t => ravel_wrap g (shifted_index g r 1 no_shift t)) (fun t => bloch_data g (fun _ => 1) (fun _ => 1) (shifted_index g r 1 no_shift t)))
    by (auto; now apply fwd_lt).
  rewrite bloch_data_fwd by auto. fold (fwd g r t). change (fun _ : nat => (1:K)) with (@one K). rewrite fd_one. ring.
Qed.
Lemma poynting_e_at e h r t : (r < 3)%nat -> (t < n)%nat ->
  at_ (mv N (poynting_chew_e_cross g e) h) (r * n + t) =
  area_at r t * cross_at_ (fun c => at_ e (c * n + fwd g r t)) (fun c => at_ h (c * n + t)) r.
Proof.
  intros Hr Ht. unfold poynting_chew_e_cross. rewrite mv_mmul, mv_area_at by auto. f_equal. rewrite bmat_mv_at by auto.
  ax3 r; rewrite mv_zero_at, mv_mneg_at by auto; rewrite !mv_mdiag_at, !shift_op_at, !part_at by (auto using fwd_lt; lia); unfold cross_product; ring.
Qed.
Lemma poynting_h_at e h r t : (r < 3)%nat -> (t < n)%nat ->
  at_ (mv N (poynting_chew_h_cross g h) e) (r * n + t) =
  area_at r t * (- cross_at_ (fun c => at_ e (c * n + fwd g r t)) (fun c => at_ h (c * n + t)) r).
Proof.
  intros Hr Ht. unfold poynting_chew_h_cross. rewrite mv_mmul, mv_area_at by auto. f_equal. rewrite bmat_mv_at by auto.
  ax3 r; rewrite mv_zero_at, mv_mneg_at by auto; rewrite !mv_mmul, !mv_mdiag_at, !shift_op_at, !part_at by (auto using fwd_lt; lia); unfold cross_product; ring.
Qed.
Lemma mv_conj (A : mat K) v i : (i < N)%nat -> at_ (mv N (fun i j => kconj (A i j)) v) i = kconj (at_ (mv N A (vconj v)) i).
Proof.
  intros Hi. rewrite !mv_at, kconj_fsum by auto. apply fsum_ext. intros j Hj. rewrite kconj_mul. f_equal.
  unfold vconj. now rewrite at_conj, kconj_conj.
Qed.
Lemma vneg_at (v : list K) i : at_ (vneg v) i = - at_ v i.
Proof. unfold vneg, at_. revert i. induction v as [|x v IH]; intros [|i]; simpl; auto; ring. Qed.
Lemma poynting_agree_lemma e h : length e = N -> length h = N -> real_cells g ->
  mv N (poynting_chew_e_cross g e) (vconj h) = vneg (mv N (fun i j => kconj (poynting_chew_h_cross g h i j)) e).
Proof.
  intros He Hh Hr. apply (@vlen_ext K g); [apply mv_length|unfold vneg; now rewrite map_length, mv_length|].
  intros r t Hr' Ht. rewrite poynting_e_at by auto. rewrite vneg_at.
  rewrite mv_conj by (now apply blk_lt). rewrite poynting_h_at by auto.
  assert (Ha : kconj (area_at r t) = area_at r t).
  { assert (Hc : forall a, (a < 3)%nat -> kconj (dxe g a (coord a t)) = dxe g a (coord a t)) by (intros a Ha; apply (Hr a _ Ha), coord_lt; auto).
    ax3 r; unfold face_area; rewrite kconj_mul, !Hc by lia; reflexivity. }
  rewrite kconj_mul, Ha, kconj_opp.
  transitivity (area_at r t * kconj (cross_at_ (fun c => at_ (vconj e) (c * n + fwd g r t)) (fun c => at_ h (c * n + t)) r)); [|ring].
  f_equal. unfold vconj. ax3 r; unfold cross_product; rewrite kconj_sub, !kconj_mul, !at_conj, !kconj_conj; reflexivity.
Qed.
(** summation by parts in one cell *)
Lemma poynting_theorem_lemma e h t : nonzero_cells g ->
  (forall a i, (a < 3)%nat -> (i < dim g a)%nat -> dxh g a i = dxe g a i) -> (t < n)%nat ->
  let S := mv N (poynting_chew_e_cross g e) h in
  (at_ S (0 * n + t) - at_ S (0 * n + bwd g 0 t)) + (at_ S (1 * n + t) - at_ S (1 * n + bwd g 1 t)) + (at_ S (2 * n + t) - at_ S (2 * n + bwd g 2 t))
  = dxe g 0 (coord 0 t) * dxe g 1 (coord 1 t) * dxe g 2 (coord 2 t) *
    fsum 3 (fun c => at_ (mv N (curl_e g (@one K) (@one K)) e) (c * n + t) * at_ h (c * n + t)
                   - at_ e (c * n + t) * at_ (mv N (curl_h g (@one K) (@one K)) h) (c * n + t)).
Proof.
  intros Hnz Hdx Ht S. unfold S. rewrite !poynting_e_at by (auto using bwd_lt).
  cbn [fsum]. unfold curl_e, curl_h. rewrite !cross_at by (auto; lia). unfold dcol.
  rewrite !deriv_forward_at, !deriv_back_at by (auto; lia). rewrite !fd_one, !bd_one.
  rewrite !part_at by (auto using fwd_lt, bwd_lt).
  assert (Hc : forall a, (a < 3)%nat -> dxe g a (coord a t) <> 0 /\ dxh g a (coord a t) = dxe g a (coord a t))
    by (intros a Ha; split; [apply (Hnz a _ Ha)|apply (Hdx a _ Ha)]; apply coord_lt; auto).
  destruct (Hc 0%nat ltac:(lia)) as [e0 h0], (Hc 1%nat ltac:(lia)) as [e1 h1], (Hc 2%nat ltac:(lia)) as [e2 h2].
  rewrite h0, h1, h2. rewrite !fwd_bwd by (auto; lia). unfold face_area. rewrite !coord_bwd_other by (auto; lia). unfold cross_product. cbn beta iota.
  clear S. clear h0 h1 h2 Hc.
  generalize dependent (dxe g 0 (coord 0 t)). generalize dependent (dxe g 1 (coord 1 t)). generalize dependent (dxe g 2 (coord 2 t)). intros.
  field. auto.
Qed.
Lemma fsum_perm_bwd (f : nat -> K) a : (a < 3)%nat -> fsum n (fun t => f (bwd g a t)) = fsum n f.
Proof.
  intros Ha.
  assert (H1 : forall t, (t < n)%nat -> f (bwd g a t) = fsum n (fun j => if Nat.eqb (bwd g a t) j then f j else 0)).
  { intros t Ht. rewrite (@fsum_single K n (bwd g a t)); [now rewrite Nat.eqb_refl|now apply bwd_lt|].
    intros j _ Hj. destruct (Nat.eqb_spec (bwd g a t) j); [congruence|reflexivity]. }
  rewrite (@fsum_ext K n _ _ H1), fsum_swap. apply fsum_ext. intros j Hj.
  rewrite (@fsum_single K n (fwd g a j)).
  - now rewrite bwd_fwd, Nat.eqb_refl.
  - now apply fwd_lt.
  - intros t Ht Hne. destruct (Nat.eqb_spec (bwd g a t) j) as [<-|]; [|reflexivity]. exfalso. apply Hne. symmetry. now apply fwd_bwd.
Qed.
Lemma power_balance_lemma e h : nonzero_cells g ->
  (forall a i, (a < 3)%nat -> (i < dim g a)%nat -> dxh g a i = dxe g a i) ->
  fsum n (fun t => dxe g 0 (coord 0 t) * dxe g 1 (coord 1 t) * dxe g 2 (coord 2 t) *
    fsum 3 (fun c => at_ (mv N (curl_e g (@one K) (@one K)) e) (c * n + t) * at_ h (c * n + t)
                   - at_ e (c * n + t) * at_ (mv N (curl_h g (@one K) (@one K)) h) (c * n + t))) = 0.
Proof.
  intros Hnz Hdx. set (S := mv N (poynting_chew_e_cross g e) h).
  transitivity (fsum n (fun t => (at_ S (0 * n + t) - at_ S (0 * n + bwd g 0 t)) + (at_ S (1 * n + t) - at_ S (1 * n + bwd g 1 t)) + (at_ S (2 * n + t) - at_ S (2 * n + bwd g 2 t)))).
  - apply fsum_ext. intros t Ht. symmetry. now apply poynting_theorem_lemma.
  - rewrite !fsum_add, !fsum_sub.
    rewrite (@fsum_perm_bwd (fun i => at_ S (0 * n + i)) 0), (@fsum_perm_bwd (fun i => at_ S (1 * n + i)) 1), (@fsum_perm_bwd (fun i => at_ S (2 * n + i)) 2) by lia. ring.
Qed.
(** rot(-1) inverts rot(+1) *)
Lemma fwd_bloch (u w : nat -> K) a t : inverse_factors u w -> (a < 3)%nat -> (t < n)%nat -> fd g u a t * bd g w a (fwd g a t) = 1.
Proof.
  intros Huw Ha Ht. rewrite fd_bd by auto. unfold fd. destruct (Nat.eqb _ _); [apply Huw|ring].
Qed.
Lemma next_fwd a t : (a < 3)%nat -> (t < n)%nat -> next_cell g a t = fwd g a t.
Proof.
  intros Ha Ht. rewrite <- (idx_coord g (fwd_lt g a Ht)). unfold next_cell, moved, idx. rewrite !(coord_fwd g Ha) by (auto; lia). reflexivity.
Qed.
Lemma prev_bwd a t : (a < 3)%nat -> (t < n)%nat -> prev_cell g a t = bwd g a t.
Proof.
  intros Ha Ht. rewrite <- (idx_coord g (bwd_lt g a Ht)). unfold prev_cell, moved, idx. rewrite !(coord_bwd g Ha) by (auto; lia).
  pose proof (coord_lt g Ha Ht).
  assert (E : forall b, (b < 3)%nat -> (if Nat.eqb b a then (coord b t + (dim g a - 1)) mod dim g b else coord b t)%nat
     = (if Nat.eqb b a then (coord b t + dim g b - 1) mod dim g b else coord b t)%nat).
  { intros b Hb. destruct (Nat.eqb_spec b a) as [->|]; [|reflexivity]. f_equal. lia. }
  rewrite !E by lia. reflexivity.
Qed.
Lemma poynting_value_lemma e h r t : (r < 3)%nat -> (t < n)%nat ->
  comp g (mv N (poynting_chew_e_cross g e) h) r t = face_area g r t * cross_product (fun c => comp g e c (next_cell g r t)) (fun c => comp g h c t) r.
Proof. intros Hr Ht. rewrite next_fwd by auto. now apply poynting_e_at. Qed.
Lemma poynting_local_lemma e h t : nonzero_cells g ->
  (forall a i, (a < 3)%nat -> (i < dim g a)%nat -> dxh g a i = dxe g a i) -> (t < n)%nat ->
  let S := mv N (poynting_chew_e_cross g e) h in
  fsum 3 (fun a => comp g S a t - comp g S a (prev_cell g a t)) = volume g t * power_density g e h t.
Proof.
  intros Hnz Hdx Ht S. cbn [fsum]. rewrite !prev_bwd by (auto; lia). unfold volume, power_density, comp, S.
  rewrite <- (@poynting_theorem_lemma e h t) by auto. ring.
Qed.
Lemma power_balance_lemma' e h : nonzero_cells g ->
  (forall a i, (a < 3)%nat -> (i < dim g a)%nat -> dxh g a i = dxe g a i) ->
  fsum n (fun t => volume g t * power_density g e h t) = 0.
Proof. exact (@power_balance_lemma e h). Qed.
Lemma div_lemma D v : commuting g D -> divergence g D (mv N (cross g D) v) = zeros K n.
Proof.
  intros HD. apply vec_ext; [unfold divergence; rewrite vbuild_length; symmetry; apply repeat_length|].
  intros t Ht. unfold divergence in *. rewrite vbuild_length in Ht. rewrite vbuild_at, zeros_at by auto. cbn [fsum].
  etransitivity; [|exact (@div_cross K g D v t HD Ht)]. ring.
Qed.
Lemma div_curl_e_lemma u w v : divergence g (deriv_forward g u w) (mv N (curl_e g u w) v) = zeros K n.
Proof. apply div_lemma. intros a b x t. apply deriv_forward_comm. Qed.
Lemma div_curl_h_lemma u w v : divergence g (deriv_back g u w) (mv N (curl_h g u w) v) = zeros K n.
Proof. apply div_lemma. intros a b x t. apply deriv_back_comm. Qed.
Lemma curl_grad_e_lemma u w v : mv N (curl_e g u w) (gradient g (deriv_forward g u w) v) = zeros K N.
Proof. apply cross_grad. intros a b x t. apply deriv_forward_comm. Qed.
Lemma curl_grad_h_lemma u w v : mv N (curl_h g u w) (gradient g (deriv_back g u w) v) = zeros K N.
Proof. apply cross_grad. intros a b x t. apply deriv_back_comm. Qed.
End M.
