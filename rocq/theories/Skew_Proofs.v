(** Rotations with sideways shifts act as translations of skew-periodic functions. *)
From Verif Require Import Base CField CField_Proofs Maxwell_Model Maxwell_Spec Maxwell_Proofs Maxwell_Proofs2 Maxwell_Proofs3 Skew_Model Skew_Spec.
From Coq Require Import ZArith.
Set Implicit Arguments.

Section M.
Variable K : cfield.
Local Open Scope K_scope.
Add Field Kfield : (k_field K).
Variable g : grid K.
Local Notation n := (cellsn g).
Local Notation N := (vlen g).
Local Notation coord := (coord g).

Section Rotation.
Variables (u w : nat -> K) (axis : nat) (so : nat -> Z) (F : lattice K).
Hypothesis Huw : inverse_factors u w.
Hypothesis Hext : extensional F.
Hypothesis H1 : forall p, F (step axis (Z.of_nat (dim g axis)) p) = u axis * F (fun b => (p b + so b)%Z).
Hypothesis H2 : forall b p, (b < 3)%nat -> b <> axis -> so b <> 0%Z -> F (step b (Z.of_nat (dim g b)) p) = u b * F p.
Hypothesis Hax : (axis < 3)%nat.
Hypothesis Hso : so axis = 0%Z.
Hypothesis Hsm : forall b, (b < 3)%nat -> (- Z.of_nat (dim g b) <= so b <= Z.of_nat (dim g b))%Z.
Hypothesis Hpos : forall b, (b < 3)%nat -> (0 < dim g b)%nat.
Definition fac (b : nat) (q : Z) : K := (if Z.leb (Z.of_nat (dim g b)) q then u b else 1) * (if Z.ltb q 0 then w b else 1).
Definition upd (q : nat -> Z) (b : nat) (x : Z) : nat -> Z := fun a => if Nat.eqb a b then x else q a.
Lemma reduce_axis b q : (b < 3)%nat -> b <> axis -> (- Z.of_nat (dim g b) <= q b < 2 * Z.of_nat (dim g b))%Z -> (so b = 0 -> 0 <= q b < Z.of_nat (dim g b))%Z ->
  F q = fac b (q b) * F (upd q b (q b mod Z.of_nat (dim g b))).
Proof.
  intros Hb Hba Hq Hq0. specialize (Hpos Hb). unfold fac.
  destruct (Z.leb_spec (Z.of_nat (dim g b)) (q b)) as [H|H]; destruct (Z.ltb_spec (q b) 0) as [H'|H']; try lia.
  - replace (q b mod Z.of_nat (dim g b))%Z with (q b - Z.of_nat (dim g b))%Z by (apply (Z.mod_unique _ _ 1); lia).
    transitivity (F (step b (Z.of_nat (dim g b)) (upd q b (q b - Z.of_nat (dim g b))))).
    + apply Hext. intros a Ha. unfold step, upd. destruct (Nat.eqb_spec a b) as [->|]; [lia|reflexivity].
    + rewrite H2 by (auto; lia). ring.
  - replace (q b mod Z.of_nat (dim g b))%Z with (q b + Z.of_nat (dim g b))%Z by (apply (Z.mod_unique _ _ (-1)); lia).
    assert (E : F (upd q b (q b + Z.of_nat (dim g b))) = u b * F q).
    { rewrite <- H2 by (auto; lia). apply Hext. intros a Ha. unfold step, upd. destruct (Nat.eqb_spec a b) as [->|]; reflexivity. }
    rewrite E. transitivity (u b * w b * F q); [rewrite Huw|]; ring.
  - rewrite Z.mod_small by lia. transitivity (1 * 1 * F q); [ring|]. f_equal. apply Hext. intros a Ha. unfold upd.
    destruct (Nat.eqb_spec a b) as [->|]; reflexivity.
Qed.
Lemma reduce_shifted d t : (d = 1 \/ d = -1)%Z -> (t < n)%nat ->
  F (step axis d (cell g t)) =
  fac axis (shifted_index g axis d so t axis) * F (upd (shifted_index g axis d so t) axis (shifted_index g axis d so t axis mod Z.of_nat (dim g axis))).
Proof.
  intros Hd Ht. pose proof (coord_lt g Hax Ht) as Hc. specialize (Hpos Hax).
  assert (Esi : forall a, shifted_index g axis d so t a =
     let x := (Z.of_nat (coord axis t) + d)%Z in
     if Nat.eqb a axis then x else if Z.leb (Z.of_nat (dim g axis)) x then (Z.of_nat (coord a t) + so a)%Z
       else if Z.ltb x 0 then (Z.of_nat (coord a t) - so a)%Z else Z.of_nat (coord a t)).
  { intros a. unfold shifted_index. rewrite Nat.eqb_refl. cbn zeta. rewrite Hso.
    destruct (Nat.eqb_spec a axis) as [->|Hne].
    - rewrite ?Hso, ?Nat.eqb_refl. repeat match goal with |- context [if ?c then _ else _] => destruct c end; lia.
    - destruct (Z.leb_spec (Z.of_nat (dim g axis)) (Z.of_nat (coord axis t) + d)%Z) as [Hl|Hl];
      repeat match goal with |- context [Z.ltb ?x 0] => destruct (Z.ltb_spec x 0) end; try lia; reflexivity. }
  rewrite !(Esi axis). cbn zeta. rewrite Nat.eqb_refl. set (x := (Z.of_nat (coord axis t) + d)%Z) in *. unfold fac.
  destruct (Z.leb_spec (Z.of_nat (dim g axis)) x) as [H|H]; destruct (Z.ltb_spec x 0) as [H'|H']; try lia.
  - replace (x mod Z.of_nat (dim g axis))%Z with (x - Z.of_nat (dim g axis))%Z by (apply (Z.mod_unique _ _ 1); lia).
    transitivity (F (step axis (Z.of_nat (dim g axis)) (step axis (d - Z.of_nat (dim g axis)) (cell g t)))).
    + apply Hext. intros a Ha. unfold step. destruct (Nat.eqb_spec a axis); lia.
    + rewrite H1. transitivity (u axis * F (fun b => (step axis (d - Z.of_nat (dim g axis)) (cell g t) b + so b)%Z)); [reflexivity|].
      transitivity (u axis * 1 * F (fun b => (step axis (d - Z.of_nat (dim g axis)) (cell g t) b + so b)%Z)); [ring|]. f_equal. apply Hext.
      intros a Ha. rewrite Esi || idtac. unfold upd, step, cell. rewrite Esi. cbn zeta. fold x.
      destruct (Nat.eqb_spec a axis) as [->|]; [rewrite Hso; lia|].
      destruct (Z.leb_spec (Z.of_nat (dim g axis)) x); lia.
  - replace (x mod Z.of_nat (dim g axis))%Z with (x + Z.of_nat (dim g axis))%Z by (apply (Z.mod_unique _ _ (-1)); lia).
    match goal with |- _ = _ * F ?q =>
      assert (E : F q = u axis * F (step axis d (cell g t))) end.
    { transitivity (F (step axis (Z.of_nat (dim g axis)) (fun b => (step axis d (cell g t) b - so b)%Z))).
      - apply Hext. intros a Ha. unfold upd, step, cell. rewrite Esi. cbn zeta. fold x.
        destruct (Nat.eqb_spec a axis) as [->|]; [rewrite Hso; lia|].
        destruct (Z.leb_spec (Z.of_nat (dim g axis)) x); [lia|]. destruct (Z.ltb_spec x 0); lia.
      - rewrite H1. f_equal. apply Hext. intros a Ha. lia. }
    rewrite E. transitivity (u axis * w axis * F (step axis d (cell g t))); [rewrite Huw|]; ring.
  - rewrite Z.mod_small by lia. match goal with |- ?X = 1 * 1 * ?Y => transitivity Y; [|ring] end. apply Hext.
    intros a Ha. unfold upd, step, cell. rewrite Esi. cbn zeta. fold x.
    destruct (Nat.eqb_spec a axis) as [->|]; [reflexivity|].
    destruct (Z.leb_spec (Z.of_nat (dim g axis)) x); [lia|]. destruct (Z.ltb_spec x 0); lia.
Qed.
Lemma rotation_acts_skew d : (d = 1 \/ d = -1)%Z ->
  mv n (rotation_matrix g axis d u w so) (restrict g F) = restrict g (fun p => F (step axis d p)).
Proof.
  intros Hd. apply vec_ext; [unfold restrict; now rewrite mv_length, vbuild_length|]. intros t Ht. rewrite mv_length in Ht.
  destruct (cells_pos g Ht) as (Hx & Hy & Hz).
  unfold rotation_matrix.
  rewrite (@mv_pick_at K n (fun t => ravel_wrap g (shifted_index g axis d so t)) (fun t => bloch_data g u w (shifted_index g axis d so t)))
    by (auto; now apply ravel_wrap_lt).
  unfold restrict. rewrite !vbuild_at by (auto; now apply ravel_wrap_lt). rewrite (reduce_shifted Hd Ht).
  set (p := shifted_index g axis d so t).
  assert (Hr : forall b, (b < 3)%nat -> (- Z.of_nat (dim g b) <= p b < 2 * Z.of_nat (dim g b))%Z).
  { intros b Hb. pose proof (coord_lt g Hb Ht) as Hcb. specialize (Hsm Hb). specialize (Hpos Hb).
    unfold p, shifted_index.
    repeat match goal with |- context [Nat.eqb ?x ?y] => destruct (Nat.eqb_spec x y) end; subst; rewrite ?Hso in *;
    repeat match goal with |- context [if ?c then _ else _] => destruct c end; lia. }
  assert (Hr0 : forall b, (b < 3)%nat -> b <> axis -> so b = 0%Z -> (0 <= p b < Z.of_nat (dim g b))%Z).
  { intros b Hb Hne H0. pose proof (coord_lt g Hb Ht) as Hcb. unfold p, shifted_index.
    repeat match goal with |- context [Nat.eqb ?x ?y] => destruct (Nat.eqb_spec x y) end; subst; rewrite ?H0 in *; try congruence;
    repeat match goal with |- context [if ?c then _ else _] => destruct c end; lia. }
  assert (Hend : forall q, (forall a, (a < 3)%nat -> q a = (p a mod Z.of_nat (dim g a))%Z) -> F (cell g (ravel_wrap g p)) = F q).
  { intros q Hq. apply Hext. intros a Ha. rewrite Hq by auto. unfold cell. rewrite coord_ravel by auto. specialize (Hpos Ha).
    pose proof (Z.mod_pos_bound (p a) (Z.of_nat (dim g a)) ltac:(lia)). lia. }
  change (bloch_data g u w p) with (fac 0 (p 0%nat) * fac 1 (p 1%nat) * fac 2 (p 2%nat)).
  assert (Haxis : axis = 0%nat \/ axis = 1%nat \/ axis = 2%nat) by lia.
  clearbody p.
  destruct Haxis as [E|[E|E]].
  - rewrite (@reduce_axis 1 (upd p axis _)) by (rewrite ?E; try lia; unfold upd; simpl; first [apply Hr; lia|intros; apply Hr0; lia]).
    rewrite (@reduce_axis 2 (upd (upd p axis _) 1 _)) by (rewrite ?E; try lia; unfold upd; simpl; first [apply Hr; lia|intros; apply Hr0; lia]).
    match goal with |- _ = _ * (_ * (_ * F ?q)) => rewrite (Hend q); [generalize (F q); intros y; rewrite E; unfold upd; simpl; ring|] end.
    intros a Ha. rewrite E. ax3 a; reflexivity.
  - rewrite (@reduce_axis 0 (upd p axis _)) by (rewrite ?E; try lia; unfold upd; simpl; first [apply Hr; lia|intros; apply Hr0; lia]).
    rewrite (@reduce_axis 2 (upd (upd p axis _) 0 _)) by (rewrite ?E; try lia; unfold upd; simpl; first [apply Hr; lia|intros; apply Hr0; lia]).
    match goal with |- _ = _ * (_ * (_ * F ?q)) => rewrite (Hend q); [generalize (F q); intros y; rewrite E; unfold upd; simpl; ring|] end.
    intros a Ha. rewrite E. ax3 a; reflexivity.
  - rewrite (@reduce_axis 0 (upd p axis _)) by (rewrite ?E; try lia; unfold upd; simpl; first [apply Hr; lia|intros; apply Hr0; lia]).
    rewrite (@reduce_axis 1 (upd (upd p axis _) 0 _)) by (rewrite ?E; try lia; unfold upd; simpl; first [apply Hr; lia|intros; apply Hr0; lia]).
    match goal with |- _ = _ * (_ * (_ * F ?q)) => rewrite (Hend q); [generalize (F q); intros y; rewrite E; unfold upd; simpl; ring|] end.
    intros a Ha. rewrite E. ax3 a; reflexivity.
Qed.
End Rotation.
Section Skewed.
Variables (u w : nat -> K) (so : nat -> nat -> Z) (F : lattice K).
Hypothesis Huw : inverse_factors u w.
Hypothesis Hext : extensional F.
Hypothesis Hgood : good_shift (dim g) so.
Hypothesis HF : skew_periodic (dim g) u so F.
Lemma pos_of_cell t : (t < n)%nat -> forall b, (b < 3)%nat -> (0 < dim g b)%nat.
Proof. intros Ht b Hb. destruct (cells_pos g Ht) as (? & ? & ?). ax3 b; auto. Qed.
Lemma skew_rot_at d a t : (a < 3)%nat -> (d = 1 \/ d = -1)%Z -> (t < n)%nat ->
  at_ (mv n (rotation_matrix g a d u w (so a)) (restrict g F)) t = F (step a d (cell g t)).
Proof.
  intros Ha Hd Ht. pose proof (pos_of_cell Ht) as Hpos.
  rewrite (@rotation_acts_skew u w a (so a) F Huw Hext); auto.
  - unfold restrict. now rewrite vbuild_at.
  - intros b p Hb Hne H0. rewrite HF by auto. f_equal. apply Hext. intros c Hc.
    destruct (Hgood Ha Hb) as (_ & _ & H). rewrite (H H0 c Hc). lia.
  - now destruct (Hgood Ha Ha).
  - intros b Hb. now destruct (Hgood Ha Hb) as (_ & H & _).
Qed.
Lemma skew_forward_at a t (D : mat K) : (a < 3)%nat -> (t < n)%nat -> forward_axis g u w so a = Ok D ->
  at_ (mv n D (restrict g F)) t = (F (step a 1 (cell g t)) - F (cell g t)) / dxe g a (coord a t).
Proof.
  intros Ha Ht H. unfold forward_axis, rotation_bloch_shift in H. destruct (Z.eqb (so a a) 0); [|discriminate]. injection H as <-.
  rewrite mv_mmul, mv_mdiag_at, mv_msub_at, skew_rot_at by auto. unfold meye. rewrite mv_mdiag_at by auto.
  unfold restrict. rewrite vbuild_at by auto. rewrite !(Fdiv_def (k_field K)). ring.
Qed.
Lemma skew_back_at a t (D : mat K) : (a < 3)%nat -> (t < n)%nat -> back_axis g u w so a = Ok D ->
  at_ (mv n D (restrict g F)) t = (F (cell g t) - F (step a (-1) (cell g t))) / dxh g a (coord a t).
Proof.
  intros Ha Ht H. unfold back_axis, rotation_bloch_shift in H. destruct (Z.eqb (so a a) 0); [|discriminate]. injection H as <-.
  rewrite mv_mmul, mv_mdiag_at, mv_msub_at, skew_rot_at by auto. unfold meye. rewrite mv_mdiag_at by auto.
  unfold restrict. rewrite vbuild_at by auto. rewrite !(Fdiv_def (k_field K)). ring.
Qed.
End Skewed.
End M.
