(** Interpolation along one axis; the fields after the single points have been widened. *)
From Verif Require Import QTac Grid_Model Imp_Model Imp_Spec.
Set Implicit Arguments.
Open Scope Q_scope.

Lemma ascending_increasing l : ascending l = true <-> increasing l.
Proof.
  induction l as [|a [|b t] IH].
  - split; [intros _ i j H; cbn in H; lia|reflexivity].
  - split; [intros _ i j H; cbn in H; lia|reflexivity].
  - change (ascending (a :: b :: t)) with (qlt a b && ascending (b :: t)). rewrite andb_true_iff, qlt_true, IH. split.
    + intros [H1 H2] [|i] [|j] H; cbn [length] in H; try lia.
      * unfold qn. cbn [nth]. destruct j; [exact H1|]. assert (X := H2 0%nat (S j)). unfold qn in X. cbn [nth] in X. cbn [nth]. cbn [length] in X. specialize (X ltac:(lia)). Lqa.lra.
      * exact (H2 i j ltac:(cbn [length]; lia)).
    + intros H. split.
      * exact (H 0%nat 1%nat ltac:(cbn [length]; lia)).
      * exact (increasing_tail H).
Qed.

(** entries below x come first *)
Lemma below_spec x : forall g k, increasing g -> (k < length g)%nat -> ((k < length (filter (fun b => qlt b x) g))%nat <-> qn g k < x).
Proof.
  induction g as [|a g IH]; intros k Inc Hk; [cbn in Hk; lia|].
  cbn [filter]. destruct (qlt a x) eqn:E.
  - apply qlt_true in E. destruct k as [|k].
    + unfold qn. cbn [nth length]. split; [auto|lia].
    + unfold qn. cbn [nth length] in *. rewrite <- (IH k (increasing_tail Inc) ltac:(lia)). lia.
  - apply qlt_false in E.
    assert (Z : filter (fun b => qlt b x) g = []).
    { assert (Hg : forall b, In b g -> x <= b).
      { intros b Hb. destruct (In_nth g b 0 Hb) as [n [Hn Eb]]. assert (X := @increasing_head a g n Inc Hn). unfold qn in X. rewrite Eb in X. Lqa.lra. }
      clear -Hg. induction g as [|b g IH]; [reflexivity|]. cbn [filter]. assert (X := Hg b (or_introl eq_refl)). apply qlt_false in X. rewrite X. apply IH. intros c Hc. apply Hg. now right. }
    rewrite Z. cbn [length]. split; [lia|]. intros H.
    destruct k as [|k]; unfold qn in H; cbn [nth] in H; [Lqa.lra|].
    assert (X := @increasing_head a g k Inc ltac:(cbn in Hk; lia)). unfold qn in X. Lqa.lra.
Qed.
Lemma find_index_range g x : (2 <= length g)%nat -> (S (find_index g x) < length g)%nat.
Proof. unfold find_index. lia. Qed.
Lemma find_index_between g x : increasing g -> (2 <= length g)%nat -> qn g 0 <= x -> x <= qlast g ->
  qn g (find_index g x) <= x /\ x <= qn g (S (find_index g x)).
Proof.
  intros Inc L H0 H1. unfold find_index. set (n := length (filter (fun b => qlt b x) g)).
  assert (B : forall k, (k < length g)%nat -> ((k < n)%nat <-> qn g k < x)) by (intros k Hk; apply below_spec; assumption). clearbody n.
  assert (Nn : (n < length g)%nat).
  { destruct (Nat.lt_ge_cases n (length g)) as [|Hge]; [assumption|]. assert (X := proj1 (B (length g - 1)%nat ltac:(lia)) ltac:(lia)). unfold qlast in H1. Lqa.lra. }
  split.
  - destruct n as [|m]; [cbn [Nat.pred]; rewrite Nat.min_0_l; exact H0|].
    assert (X := proj1 (B m ltac:(lia)) ltac:(lia)). replace (Nat.min (Nat.pred (S m)) (length g - 2)) with m by (cbn; lia). Lqa.lra.
  - destruct (Qlt_le_dec (qn g (S (Nat.min (Nat.pred n) (length g - 2)))) x) as [H|H]; [|exact H].
    apply (B (S (Nat.min (Nat.pred n) (length g - 2))) ltac:(lia)) in H. lia.
Qed.

(** the index in the file of an index in the widened array *)
Definition orig (sg : bool) (i : nat) : nat := if sg then (i / 3)%nat else i.
Definition wide (l : list Q) (w : Q) : list Q :=
  if Nat.eqb (length l) 1 then [qn l 0 - w / 2; qn l 0; qn l 0 + w / 2] else l.
Definition single (l : list Q) : bool := Nat.eqb (length l) 1.

Lemma halve w : w / 2 == w * (1 # 2).
Proof. field. Qed.
Lemma wide_increasing l w : increasing l -> 0 < w -> increasing (wide l w).
Proof.
  intros Inc W. assert (H2 := halve w). unfold wide. destruct (Nat.eqb (length l) 1); [|exact Inc].
  apply ascending_increasing. cbn [ascending]. rewrite !andb_true_iff, !qlt_true.
  split; [Lqa.lra|split; [Lqa.lra|reflexivity]].
Qed.
Lemma wide_length l w : length l <> 0%nat -> (2 <= length (wide l w))%nat.
Proof. intros H. unfold wide. destruct (Nat.eqb_spec (length l) 1); cbn [length]; lia. Qed.
Lemma oob_iff l w x : out_of_bounds (wide l w) x = true <-> outside l w x.
Proof.
  unfold out_of_bounds, outside, wide. rewrite orb_true_iff, !qlt_true. destruct (Nat.eqb (length l) 1); [|reflexivity].
  unfold qlast, qn. cbn [length nth Nat.sub]. reflexivity.
Qed.

(** one axis of the sum *)
Definition mix (t : Q) (h : nat -> Q) (i j : nat) : Q := (1 - t) * h i + t * h j.
Lemma mix_cell l w x i j lo hi : increasing l -> 0 < w -> cell l w i j lo hi -> lo <= x <= hi ->
  exists s, x == lo + s * (hi - lo) /\ 0 <= s <= 1 /\ lo < hi /\ out_of_bounds (wide l w) x = false /\
    forall h, mix (norm_distance (wide l w) x) (fun k => h (orig (single l) k)) (find_index (wide l w) x) (S (find_index (wide l w) x)) == mix s h i j.
Proof.
  intros Inc W Hc Hx. assert (H2 := halve w). exists ((x - lo) / (hi - lo)).
  destruct Hc as [(Ej & Hl & El & Eh)|(L1 & Ei & Ej & El & Eh)].
  - assert (Lt : lo < hi) by (subst; apply Inc; lia).
    assert (Ns : Nat.eqb (length l) 1 = false) by (apply Nat.eqb_neq; lia).
    unfold wide, single. rewrite Ns. cbn [orig].
    assert (L0 : qn l 0 <= lo) by (subst lo; apply (increasing_le Inc); lia).
    assert (L9 : hi <= qlast l) by (subst hi; unfold qlast; apply (increasing_le Inc); lia).
    assert (X0 : qn l 0 <= x) by Lqa.lra. assert (X9 : x <= qlast l) by Lqa.lra.
    split; [field; Lqa.lra|]. split; [|split; [exact Lt|split]].
    + split; [apply Qle_shift_div_l; Lqa.lra|apply Qle_shift_div_r; Lqa.lra].
    + unfold out_of_bounds. apply orb_false_iff. split; apply qlt_false; Lqa.lra.
    + intros h. destruct (@find_index_between l x Inc ltac:(lia) X0 X9) as [B1 B2].
      assert (R := @find_index_range l x ltac:(lia)).
      unfold norm_distance, orig, mix. set (k := find_index l x) in *.
      assert (Hk : k = i \/ (S k = i /\ x == lo) \/ (k = S i /\ x == hi)).
      { destruct (Nat.lt_trichotomy k i) as [H|[H|H]]; [|auto|].
        - assert (Y := @increasing_le l (S k) i Inc ltac:(lia)). right; left. subst lo.
          assert (E : x == qn l i) by Lqa.lra. split; [|exact E].
          destruct (Nat.eq_dec (S k) i) as [|N]; [assumption|]. exfalso. assert (Z := Inc (S k) i ltac:(lia)). Lqa.lra.
        - assert (Y := @increasing_le l (S i) k Inc ltac:(lia)). right; right. subst hi j.
          assert (E : x == qn l (S i)) by Lqa.lra. split; [|exact E].
          destruct (Nat.eq_dec k (S i)) as [|N]; [assumption|]. exfalso. assert (Z := Inc (S i) k ltac:(lia)). Lqa.lra. }
      assert (G : qn l k < qn l (S k)) by (apply Inc; lia).
      destruct Hk as [Hk|[[Hk Ex]|[Hk Ex]]].
      * subst j. rewrite Hk in *. rewrite <- El, <- Eh. reflexivity.
      * assert (Exx : x == qn l (S k)) by (rewrite Hk, <- El; exact Ex). rewrite <- Hk.
        assert (T1 : (x - qn l k) / (qn l (S k) - qn l k) == 1) by (rewrite Exx; field; Lqa.lra).
        assert (T0 : (x - lo) / (hi - lo) == 0) by (rewrite Ex; field; Lqa.lra). rewrite T1, T0. ring.
      * assert (Exx : x == qn l k) by (rewrite Hk; subst j; rewrite <- Eh; exact Ex). rewrite Hk in *. subst j.
        assert (T0 : (x - qn l (S i)) / (qn l (S (S i)) - qn l (S i)) == 0) by (rewrite Exx; field; Lqa.lra).
        assert (T1 : (x - lo) / (hi - lo) == 1) by (rewrite Ex; field; Lqa.lra). rewrite T1, T0. ring.
  - assert (Lt : lo < hi) by (subst; Lqa.lra).
    assert (Ns : Nat.eqb (length l) 1 = true) by (apply Nat.eqb_eq; lia).
    split; [field; Lqa.lra|]. split; [|split; [exact Lt|split]].
    + split; [apply Qle_shift_div_l; Lqa.lra|apply Qle_shift_div_r; Lqa.lra].
    + destruct (out_of_bounds (wide l w) x) eqn:Eo; [|reflexivity]. apply oob_iff in Eo. unfold outside in Eo. rewrite Ns in Eo. subst lo hi. destruct Eo; Lqa.lra.
    + intros h. subst i j. unfold mix.
      assert (R := @find_index_range (wide l w) x (@wide_length l w ltac:(lia))). unfold wide in R at 2. rewrite Ns in R. cbn [length] in R.
      unfold single, orig. rewrite Ns. rewrite !Nat.div_small by lia. ring.
Qed.
(** a position that is covered is in a cell *)
Lemma cell_exists l w x : increasing l -> l <> [] -> ~ outside l w x ->
  exists i j lo hi, cell l w i j lo hi /\ lo <= x <= hi /\ (i < length l)%nat /\ (j < length l)%nat.
Proof.
  intros Inc Ne Ho. unfold outside in Ho. destruct (Nat.eqb_spec (length l) 1) as [L|L].
  - exists 0%nat, 0%nat, (qn l 0 - w / 2), (qn l 0 + w / 2). split; [right; auto|]. split; [|lia].
    split; apply Qnot_lt_le; intros H; apply Ho; auto.
  - assert (L2 : (2 <= length l)%nat) by (destruct l as [|? [|? ?]]; [congruence| |]; cbn in *; lia).
    assert (X0 : qn l 0 <= x) by (apply Qnot_lt_le; intros H; apply Ho; auto).
    assert (X9 : x <= qlast l) by (apply Qnot_lt_le; intros H; apply Ho; auto).
    assert (R := @find_index_range l x L2). destruct (@find_index_between l x Inc L2 X0 X9).
    exists (find_index l x), (S (find_index l x)), (qn l (find_index l x)), (qn l (S (find_index l x))).
    split; [left; auto|]. split; [auto|]. lia.
Qed.

(** the sum over the eight corners is a nested one *)
Definition tri (tx ty tz : Q) (h : nat -> nat -> nat -> Q) (i i' j j' k k' : nat) : Q :=
  mix tx (fun a => mix ty (fun b => mix tz (fun c => h a b c) k k') j j') i i'.
Lemma evaluate_tri gx gy gz v x y z :
  let i := find_index gx x in let j := find_index gy y in let k := find_index gz z in
  fst (evaluate_linear gx gy gz v x y z) == tri (norm_distance gx x) (norm_distance gy y) (norm_distance gz z) (fun a b c => fst (el v [a; b; c])) i (S i) j (S j) k (S k) /\
  snd (evaluate_linear gx gy gz v x y z) == tri (norm_distance gx x) (norm_distance gy y) (norm_distance gz z) (fun a b c => snd (el v [a; b; c])) i (S i) j (S j) k (S k).
Proof.
  cbn zeta. unfold evaluate_linear. cbn [fold_left corners side_weight b2n]. cbn zeta. rewrite !Nat.add_0_r, !Nat.add_1_r.
  unfold tri, mix, cplus, cscale, cz. cbn [fst snd]. split; ring.
Qed.
Lemma mix_ext t h h' i j : (forall k, h k == h' k) -> mix t h i j == mix t h' i j.
Proof. intros H. unfold mix. rewrite !H. reflexivity. Qed.

(** the widened field *)
Definition field_of (sx sy sz : bool) (v v' : nd) : Prop :=
  forall a b c, el v' [a; b; c] = el v [orig sx a; orig sy b; orig sz c].

Lemma interpolate_cells lx ly lz wx wy wz v v' x y z ix jx lox hix iy jy loy hiy iz jz loz hiz :
  increasing lx -> increasing ly -> increasing lz -> 0 < wx -> 0 < wy -> 0 < wz ->
  cell lx wx ix jx lox hix -> lox <= x <= hix -> cell ly wy iy jy loy hiy -> loy <= y <= hiy -> cell lz wz iz jz loz hiz -> loz <= z <= hiz ->
  field_of (single lx) (single ly) (single lz) v v' ->
  exists sx sy sz, x == lox + sx * (hix - lox) /\ y == loy + sy * (hiy - loy) /\ z == loz + sz * (hiz - loz) /\
    0 <= sx <= 1 /\ 0 <= sy <= 1 /\ 0 <= sz <= 1 /\
    fst (interpolate (wide lx wx) (wide ly wy) (wide lz wz) v' x y z) == tri sx sy sz (fun a b c => fst (el v [a; b; c])) ix jx iy jy iz jz /\
    snd (interpolate (wide lx wx) (wide ly wy) (wide lz wz) v' x y z) == tri sx sy sz (fun a b c => snd (el v [a; b; c])) ix jx iy jy iz jz.
Proof.
  intros Ix Iy Iz Wx Wy Wz Cx Bx Cy By Cz Bz F.
  destruct (mix_cell Ix Wx Cx Bx) as (sx & Ex & Sx & _ & Ox & Mx).
  destruct (mix_cell Iy Wy Cy By) as (sy & Ey & Sy & _ & Oy & My).
  destruct (mix_cell Iz Wz Cz Bz) as (sz & Ez & Sz & _ & Oz & Mz).
  exists sx, sy, sz. repeat (split; [assumption|]).
  unfold interpolate. rewrite Ox, Oy, Oz. cbn [orb].
  destruct (evaluate_tri (wide lx wx) (wide ly wy) (wide lz wz) v' x y z) as [E1 E2].
  split; [rewrite E1|rewrite E2]; unfold tri.
  - etransitivity; [|apply (Mx (fun a => mix sy (fun b => mix sz (fun c => fst (el v [a; b; c])) iz jz) iy jy))].
    apply mix_ext. intros a. etransitivity; [|apply (My (fun b => mix sz (fun c => fst (el v [orig (single lx) a; b; c])) iz jz))].
    apply mix_ext. intros b. etransitivity; [|apply (Mz (fun c => fst (el v [orig (single lx) a; orig (single ly) b; c])))].
    apply mix_ext. intros c. rewrite F. reflexivity.
  - etransitivity; [|apply (Mx (fun a => mix sy (fun b => mix sz (fun c => snd (el v [a; b; c])) iz jz) iy jy))].
    apply mix_ext. intros a. etransitivity; [|apply (My (fun b => mix sz (fun c => snd (el v [orig (single lx) a; b; c])) iz jz))].
    apply mix_ext. intros b. etransitivity; [|apply (Mz (fun c => snd (el v [orig (single lx) a; orig (single ly) b; c])))].
    apply mix_ext. intros c. rewrite F. reflexivity.
Qed.
(** a function affine in each argument is determined by the corners *)
Lemma tri_affine (f : Q -> Q -> Q -> Q) h sx sy sz lox hix loy hiy loz hiz ix jx iy jy iz jz x y z : multi_affine f ->
  x == lox + sx * (hix - lox) -> y == loy + sy * (hiy - loy) -> z == loz + sz * (hiz - loz) ->
  (forall (bx by' bz : bool), h (if bx then jx else ix) (if by' then jy else iy) (if bz then jz else iz) ==
     f (if bx then hix else lox) (if by' then hiy else loy) (if bz then hiz else loz)) ->
  tri sx sy sz h ix jx iy jy iz jz == f x y z.
Proof.
  intros (c0 & c1 & c2 & c3 & c4 & c5 & c6 & c7 & Hf) Ex Ey Ez H.
  rewrite (Hf x y z), Ex, Ey, Ez. unfold tri, mix.
  assert (A := fun a b c => Qeq_trans _ _ _ (H a b c) (Hf _ _ _)).
  rewrite (A false false false), (A false false true), (A false true false), (A false true true), (A true false false), (A true false true), (A true true false), (A true true true).
  ring.
Qed.
Lemma mix_bounds t h i j lo hi : 0 <= t <= 1 -> lo <= h i <= hi -> lo <= h j <= hi -> lo <= mix t h i j <= hi.
Proof.
  intros [T0 T1] [A B] [D E]. unfold mix.
  assert (P1 : 0 <= (1 - t) * (h i - lo)) by (apply Qmult_le_0_compat; Lqa.lra).
  assert (P2 : 0 <= t * (h j - lo)) by (apply Qmult_le_0_compat; Lqa.lra).
  assert (P3 : 0 <= (1 - t) * (hi - h i)) by (apply Qmult_le_0_compat; Lqa.lra).
  assert (P4 : 0 <= t * (hi - h j)) by (apply Qmult_le_0_compat; Lqa.lra).
  split; Lqa.lra.
Qed.
