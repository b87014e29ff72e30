(** Lemmas about 1D rastering. *)
From Verif Require Import QTac Raster_Model Raster_Spec.
Set Implicit Arguments.
Open Scope Q_scope.

Lemma frac_one w : 0 < w -> 1 == w / w.
Proof. intros H. field. lra. Qed.
Lemma frac_zero w : 0 < w -> 0 == 0 / w.
Proof. intros H. field. lra. Qed.
Lemma div_ext a b w : a == b -> a / w == b / w.
Proof. intros ->. reflexivity. Qed.

Lemma raster_1D_pf a b g : increasing g -> (2 <= length g)%nat ->
  exists l, raster_1D [a; b] g = Ok l /\ length l = (length g - 1)%nat /\
  forall j, (j < length g - 1)%nat -> qn l j == covered (qmin a b) (qmax a b) g j.
Proof.
  intros Hg Hd. cbn [raster_1D].
  assert (Nat.ltb (length g) 2 = false) as -> by (apply Nat.ltb_ge; lia). cbv zeta.
  assert (Hab : exists p0 p1, (if qlt b a then (b, a) else (a, b)) = (p0, p1) /\ p0 <= p1 /\ p0 == qmin a b /\ p1 == qmax a b).
  { unfold qmin, qmax. destruct (qlt b a) eqn:E1, (Qle_bool a b) eqn:E2; qhyps; eexists _, _; (split; [reflexivity|]); repeat split; lra. }
  destruct Hab as (p0 & p1 & -> & Hp & Hp0 & Hp1). set (dim := length g) in *.
  assert (Hcov : forall j, covered (qmin a b) (qmax a b) g j == covered p0 p1 g j).
  { intros j. unfold covered. apply div_ext. unfold overlap.
    set (m := qmin a b) in *. set (M := qmax a b) in *. clearbody m M. qlra. }
  assert (Hcell : forall j, (j < dim - 1)%nat -> qn g j < qn g (j + 1)) by (intros j Hj; apply Hg; unfold dim in *; lia).
  destruct (Qle_bool p1 (qn g 0) || Qle_bool (qn g (dim - 1)) p0) eqn:Eout.
  - eexists. split; [reflexivity|]. split; [apply repeat_length|]. intros j Hj. rewrite Hcov.
    unfold qn at 1. rewrite nth_repeat. unfold covered.
    rewrite (@frac_zero (qn g (j + 1) - qn g j)) by (specialize (Hcell j Hj); lra). apply div_ext.
    assert (qn g 0 <= qn g j) by (apply (increasing_le Hg); unfold dim in *; lia).
    assert (qn g (j + 1) <= qn g (dim - 1)) by (apply (increasing_le Hg); unfold dim in *; lia).
    specialize (Hcell j Hj). unfold overlap. apply orb_true_iff in Eout as [Eo|Eo]; qhyps; qlra.
  - apply orb_false_iff in Eout as [E1 E2]. qhyps.
    assert (D0 : forall k, (k < dim)%nat -> (k < digitize p0 g)%nat <-> qn g k <= p0) by (intros; now apply digitize_spec).
    assert (D1 : forall k, (k < dim)%nat -> (k < digitize p1 g)%nat <-> qn g k <= p1) by (intros; now apply digitize_spec).
    assert (L0 : (digitize p0 g <= dim)%nat) by apply digitize_le.
    assert (L1 : (digitize p1 g <= dim)%nat) by apply digitize_le.
    set (d0 := digitize p0 g) in *. set (d1 := digitize p1 g) in *. clearbody d0 d1.
    assert (Hd0 : (d0 <= dim - 1)%nat).
    { destruct (le_lt_dec d0 (dim - 1)); [assumption|]. assert (qn g (dim - 1) <= p0) by (apply D0; lia). lra. }
    assert (Hd1 : (1 <= d1)%nat) by (apply D1; [lia|lra]).
    assert (H01 : (d0 <= d1)%nat).
    { destruct (le_lt_dec d0 d1); [assumption|]. assert (qn g d1 <= p0) by (apply D0; lia).
      assert (d1 < d1)%nat by (apply D1; [lia|lra]). lia. }
    unfold clip_pred. set (i0 := Nat.min (Nat.pred d0) (dim - 2)). set (i1 := Nat.min (Nat.pred d1) (dim - 2)).
    assert (Hi0 : i0 = Nat.pred d0) by (unfold i0; lia).
    assert (Hi1 : (i1 <= dim - 2)%nat) by (unfold i1; lia).
    assert (Hi01 : (i0 <= i1)%nat) by (unfold i0, i1; lia).
    (* cells before i0 end before p0, cells after i1 start after p1, i0 and i1 contain the ends *)
    assert (F1 : forall j, (j < i0)%nat -> qn g (j + 1) <= p0) by (intros j Hj; apply D0; lia).
    assert (F2 : forall j, (i1 < j)%nat -> (j < dim - 1)%nat -> p1 < qn g j).
    { intros j Hj Hj'. apply Qnot_le_lt. intros H. apply D1 in H; [|lia]. unfold i1 in Hj. lia. }
    assert (F3 : p0 < qn g (i0 + 1)).
    { apply Qnot_le_lt. intros H. apply D0 in H; [|lia]. lia. }
    assert (F4 : qn g 0 <= p0 -> qn g i0 <= p0).
    { intros H. apply D0; [lia|]. apply D0 in H; lia. }
    assert (F5 : qn g i1 <= p1) by (apply D1; unfold i1; lia).
    assert (F6 : p1 <= qn g (dim - 1) -> p1 <= qn g (i1 + 1)).
    { intros H. destruct (Nat.eq_dec i1 (dim - 2)) as [->|Hn].
      - replace (dim - 2 + 1)%nat with (dim - 1)%nat by lia. assumption.
      - apply Qlt_le_weak. apply F2; lia. }
    assert (F7 : p0 < qn g 0 -> i0 = 0%nat).
    { intros H. assert (~ (0 < d0)%nat). { intros H1. apply D0 in H1; [lra|lia]. } lia. }
    assert (F8 : qn g (dim - 1) < p1 -> i1 = (dim - 2)%nat).
    { intros H. assert (dim - 1 < d1)%nat by (apply D1; [lia|lra]). unfold i1. lia. }
    clearbody i0 i1.
    set (area := map _ (seq 0 (dim - 1))).
    assert (La : length area = (dim - 1)%nat) by (unfold area; now rewrite map_length, seq_length).
    assert (Na : forall j, (j < dim - 1)%nat -> nth j area 0 = if Nat.leb (i0 + 1) j && Nat.ltb j i1 then 1 else 0).
    { intros j Hj. unfold area. rewrite (nth_indep _ 0 ((fun j => if Nat.leb (i0 + 1) j && Nat.ltb j i1 then 1 else 0) 0%nat))
        by (now rewrite map_length, seq_length). rewrite (map_nth (fun j => if Nat.leb (i0 + 1) j && Nat.ltb j i1 then 1 else 0)).
      now rewrite seq_nth by assumption. }
    clearbody area.
    set (sf := if qlt p0 (qn g 0) then 1 else _). set (ef := if qlt (qn g (dim - 1)) p1 then 1 else _).
    assert (Hsf : sf * (qn g (i0 + 1) - qn g i0) == qn g (i0 + 1) - qmax p0 (qn g i0)).
    { specialize (Hcell i0 ltac:(lia)). unfold sf. destruct (qlt p0 (qn g 0)) eqn:E; qhyps.
      - rewrite (F7 E) in *. qlra.
      - specialize (F4 E). setoid_replace (qmax p0 (qn g i0)) with p0 by qlra. field. lra. }
    assert (Hef : ef * (qn g (i1 + 1) - qn g i1) == qmin p1 (qn g (i1 + 1)) - qn g i1).
    { specialize (Hcell i1 ltac:(lia)). unfold ef. destruct (qlt (qn g (dim - 1)) p1) eqn:E; qhyps.
      - rewrite (F8 E) in *. replace (dim - 2 + 1)%nat with (dim - 1)%nat in * by lia. qlra.
      - specialize (F6 E). setoid_replace (qmin p1 (qn g (i1 + 1))) with p1 by qlra. field. lra. }
    clearbody sf ef.
    assert (Hdiv : forall x w o, 0 < w -> x * w == o -> x == o / w).
    { intros x w o Hw <-. field. lra. }
    destruct (Nat.eqb_spec i0 i1) as [He|He].
    + eexists. split; [reflexivity|]. split; [now rewrite lset_length|]. intros j Hj. rewrite Hcov. unfold qn at 1.
      rewrite lset_nth by lia. specialize (Hcell j Hj). apply Hdiv; [lra|]. unfold overlap.
      destruct (Nat.eqb_spec j i0) as [->|Hji].
      * rewrite <- He in *.
        assert (T : (sf + ef - 1) * (qn g (i0 + 1) - qn g i0) == sf * (qn g (i0 + 1) - qn g i0) + ef * (qn g (i0 + 1) - qn g i0) - (qn g (i0 + 1) - qn g i0)) by ring.
        rewrite T, Hsf, Hef. qlra.
      * rewrite Na by assumption. assert (Nat.leb (i0 + 1) j && Nat.ltb j i1 = false) as ->.
        { apply andb_false_iff. destruct (le_lt_dec j i0); [left; apply Nat.leb_gt; lia|right; apply Nat.ltb_ge; lia]. }
        destruct (le_lt_dec j i0) as [Hl|Hl].
        { specialize (F1 j ltac:(lia)). qlra. }
        { specialize (F2 j ltac:(lia) Hj). qlra. }
    + eexists. split; [reflexivity|]. split; [now rewrite !lset_length|]. intros j Hj. rewrite Hcov. unfold qn at 1.
      rewrite lset_nth by (rewrite lset_length; lia). rewrite lset_nth by lia. specialize (Hcell j Hj). apply Hdiv; [lra|]. unfold overlap.
      assert (i0 < i1)%nat as Hlt by lia. assert (G : qn g (i0 + 1) <= qn g i1) by (apply (increasing_le Hg); unfold dim in *; lia).
      destruct (Nat.eqb_spec j i1) as [->|Hji1]; [|destruct (Nat.eqb_spec j i0) as [->|Hji0]].
      * rewrite Hef. qlra.
      * rewrite Hsf. qlra.
      * rewrite Na by assumption. destruct (le_lt_dec j i0) as [Hl|Hl].
        { assert (Nat.leb (i0 + 1) j && Nat.ltb j i1 = false) as -> by (apply andb_false_iff; left; apply Nat.leb_gt; lia).
          specialize (F1 j ltac:(lia)). qlra. }
        destruct (le_lt_dec i1 j) as [Hl1|Hl1].
        { assert (Nat.leb (i0 + 1) j && Nat.ltb j i1 = false) as -> by (apply andb_false_iff; right; apply Nat.ltb_ge; lia).
          specialize (F2 j ltac:(lia) Hj). qlra. }
        assert (Nat.leb (i0 + 1) j && Nat.ltb j i1 = true) as -> by (apply andb_true_iff; split; [apply Nat.leb_le|apply Nat.ltb_lt]; lia).
        assert (qn g (i0 + 1) <= qn g j) by (apply (increasing_le Hg); unfold dim in *; lia).
        assert (qn g (j + 1) <= qn g i1) by (apply (increasing_le Hg); unfold dim in *; lia). qlra.
Qed.
Lemma raster_1D_errors_pf poly g : raster_1D poly g = Err ValueError <-> (length poly <> 2%nat \/ (length g < 2)%nat).
Proof.
  unfold raster_1D. destruct poly as [|a [|b [|c poly]]]; simpl length.
  - split; auto.
  - split; auto.
  - destruct (Nat.ltb_spec (length g) 2) as [Hl|Hl]; [split; auto|]. cbv zeta. destruct (if qlt b a then (b, a) else (a, b)).
    destruct (Qle_bool _ _ || Qle_bool _ _); split; try discriminate; lia.
  - split; auto.
Qed.

(** *** rendering matrix *)
Lemma filter_flat {A B} (f : A -> list B) p l : filter p (flat_map f l) = flat_map (fun x => filter p (f x)) l.
Proof. induction l as [|x l IH]; simpl; [reflexivity|]. now rewrite filter_app, IH. Qed.
Lemma entry_app m1 m2 r c : entry (m1 ++ m2) r c == entry m1 r c + entry m2 r c.
Proof. unfold entry. rewrite filter_app, map_app. apply qsum_app. Qed.
Lemma entry_nil r c : entry [] r c == 0.
Proof. reflexivity. Qed.
Lemma entry_one r c r' c' w : entry [(r', c', w)] r c == if Nat.eqb r' r && Nat.eqb c' c then w else 0.
Proof. unfold entry. cbn [filter fst snd]. destruct (Nat.eqb r' r && Nat.eqb c' c); simpl; lra. Qed.
Lemma entry_other_col m r c : (forall t, In t m -> snd (fst t) <> c) -> entry m r c == 0.
Proof.
  intros H. unfold entry. replace (filter _ m) with (@nil triple); [reflexivity|]. symmetry.
  induction m as [|t m IH]; simpl; [reflexivity|].
  assert (Nat.eqb (snd (fst t)) c = false) as -> by (apply Nat.eqb_neq, H; now left).
  rewrite andb_false_r. apply IH. intros; apply H; now right.
Qed.
Lemma render_inner_col g i : forall n j last t, In t (fst (render_inner g i n j last)) -> snd (fst t) = i.
Proof.
  induction n as [|n IH]; intros j last t H; cbn [render_inner] in H; [destruct H|].
  specialize (IH (S j) (qn g j)). destruct (render_inner g i n (S j) (qn g j)) as [ts l]. cbn [fst] in *.
  apply in_app_iff in H as [H|H]; [|now apply IH]. destruct (Nat.leb 1 j); [|destruct H]. destruct H as [<-|[]]. reflexivity.
Qed.
Lemma render_cell_col s g i t : In t (render_cell s g i) -> snd (fst t) = i.
Proof.
  unfold render_cell. cbv zeta. destruct (Nat.ltb _ 1); [intros []|].
  pose proof (render_inner_col g i (digitize (qn s (i + 1)) g - digitize (qn s i) g) (digitize (qn s i) g) (qn s i)) as Hc.
  destruct (render_inner _ _ _ _ _) as [ts last]. cbn [fst] in Hc. intros H. apply in_app_iff in H as [H|H]; [now apply Hc|].
  destruct (negb _ && _); [|destruct H]. destruct H as [<-|[]]. reflexivity.
Qed.
Lemma render_inner_entry g i : forall n j last r,
  entry (fst (render_inner g i n j last)) r i ==
  (if Nat.leb j (r + 1) && Nat.ltb (r + 1) (j + n)
   then (qn g (r + 1) - (if Nat.eqb j (r + 1) then last else qn g r)) / (qn g (r + 1) - qn g r) else 0).
Proof.
  induction n as [|n IH]; intros j last r; cbn [render_inner].
  - cbn [fst]. rewrite entry_nil.
    assert (Nat.leb j (r + 1) && Nat.ltb (r + 1) (j + 0) = false) as ->; [|reflexivity].
    apply andb_false_iff. destruct (le_lt_dec j (r + 1)); [right; apply Nat.ltb_ge; lia|left; apply Nat.leb_gt; lia].
  - specialize (IH (S j) (qn g j) r). destruct (render_inner g i n (S j) (qn g j)) as [ts l]. cbn [fst] in *.
    rewrite entry_app, IH. clear IH.
    destruct (lt_eq_lt_dec j (r + 1)) as [[Hlt|Heq]|Hgt].
    + assert (entry (if Nat.leb 1 j then [(Nat.pred j, i, (qn g j - last) / (qn g j - qn g (Nat.pred j)))] else []) r i == 0) as ->.
      { destruct (Nat.leb_spec 1 j); [|reflexivity]. rewrite entry_one.
        assert (Nat.eqb (Nat.pred j) r = false) as -> by (apply Nat.eqb_neq; lia). reflexivity. }
      assert (Nat.eqb j (r + 1) = false) as -> by (apply Nat.eqb_neq; lia).
      assert (Nat.leb j (r + 1) = true) as -> by (apply Nat.leb_le; lia).
      assert (Nat.leb (S j) (r + 1) = true) as -> by (apply Nat.leb_le; lia).
      replace (S j + n)%nat with (j + S n)%nat by lia. cbn [andb].
      destruct (Nat.ltb_spec (r + 1) (j + S n)) as [H|H]; [|ring].
      destruct (Nat.eqb_spec (S j) (r + 1)) as [Hs|Hs]; [|ring]. assert (j = r) as -> by lia. ring.
    + subst j. assert (Nat.leb 1 (r + 1) = true) as -> by (apply Nat.leb_le; lia). rewrite entry_one.
      replace (Nat.pred (r + 1)) with r by lia. rewrite !Nat.eqb_refl. cbn [andb].
      assert (Nat.leb (S (r + 1)) (r + 1) = false) as -> by (apply Nat.leb_gt; lia).
      assert (Nat.leb (r + 1) (r + 1) = true) as -> by (apply Nat.leb_le; lia).
      assert (Nat.ltb (r + 1) (r + 1 + S n) = true) as -> by (apply Nat.ltb_lt; lia). cbn [andb]. ring.
    + assert (entry (if Nat.leb 1 j then [(Nat.pred j, i, (qn g j - last) / (qn g j - qn g (Nat.pred j)))] else []) r i == 0) as ->.
      { destruct (Nat.leb_spec 1 j); [|reflexivity]. rewrite entry_one.
        assert (Nat.eqb (Nat.pred j) r = false) as -> by (apply Nat.eqb_neq; lia). reflexivity. }
      assert (Nat.leb j (r + 1) = false) as -> by (apply Nat.leb_gt; lia).
      assert (Nat.leb (S j) (r + 1) = false) as -> by (apply Nat.leb_gt; lia). cbn [andb]. ring.
Qed.
Lemma render_inner_last g i : forall n j last,
  snd (render_inner g i n j last) = match n with O => last | S n' => qn g (j + n') end.
Proof.
  induction n as [|n IH]; intros j last; cbn [render_inner]; [reflexivity|].
  specialize (IH (S j) (qn g j)). destruct (render_inner g i n (S j) (qn g j)) as [ts l]. cbn [snd] in *. rewrite IH.
  destruct n; f_equal; lia.
Qed.

Lemma render_cell_entry s g i r : increasing g -> qn s i <= qn s (i + 1) -> (r < length g - 1)%nat ->
  entry (render_cell s g i) r i == overlap (qn s i) (qn s (i + 1)) (qn g r) (qn g (r + 1)) / (qn g (r + 1) - qn g r).
Proof.
  intros Hg Hs Hr. set (a := qn s i) in *. set (b := qn s (i + 1)) in *.
  assert (D0 : forall k, (k < length g)%nat -> (k < digitize a g)%nat <-> qn g k <= a) by (intros; now apply digitize_spec).
  assert (D1 : forall k, (k < length g)%nat -> (k < digitize b g)%nat <-> qn g k <= b) by (intros; now apply digitize_spec).
  assert (L0 : (digitize a g <= length g)%nat) by apply digitize_le.
  assert (L1 : (digitize b g <= length g)%nat) by apply digitize_le.
  unfold render_cell. fold a b. cbv zeta.
  set (d0 := digitize a g) in *. set (d1 := digitize b g) in *. clearbody d0 d1.
  assert (H01 : (d0 <= d1)%nat).
  { destruct (le_lt_dec d0 d1); [assumption|]. assert (qn g d1 <= a) by (apply D0; lia).
    assert (d1 < d1)%nat by (apply D1; [lia|lra]). lia. }
  assert (Hw : qn g r < qn g (r + 1)) by (apply Hg; lia).
  assert (Hdiv : forall x o, x * (qn g (r + 1) - qn g r) == o -> x == o / (qn g (r + 1) - qn g r)).
  { intros x o <-. field. lra. }
  destruct (Nat.ltb_spec d1 1) as [H1|H1].
  { rewrite entry_nil. apply Hdiv. assert (b < qn g 0).
    { apply Qnot_le_lt. intros H. apply D1 in H; lia. }
    assert (qn g 0 <= qn g r) by (apply (increasing_le Hg); lia). unfold overlap. qlra. }
  pose proof (render_inner_entry g i (d1 - d0) d0 a r) as He. pose proof (render_inner_last g i (d1 - d0) d0 a) as Hl.
  destruct (render_inner g i (d1 - d0) d0 a) as [ts last]. cbn [fst snd] in *. rewrite entry_app, He. clear He.
  replace (d0 + (d1 - d0))%nat with d1 by lia.
  (* position facts *)
  assert (A1 : (d0 <= r)%nat -> a < qn g r) by (intros H; apply Qnot_le_lt; intros H2; apply D0 in H2; lia).
  assert (A2 : (r + 1 < d0)%nat -> qn g (r + 1) <= a) by (intros H; apply D0; lia).
  assert (A3 : (r < d0)%nat -> qn g r <= a) by (intros H; apply D0; lia).
  assert (A4 : (d0 <= r + 1)%nat -> a < qn g (r + 1)) by (intros H; apply Qnot_le_lt; intros H2; apply D0 in H2; lia).
  assert (B1 : (d1 <= r)%nat -> b < qn g r) by (intros H; apply Qnot_le_lt; intros H2; apply D1 in H2; lia).
  assert (B2 : (r + 1 < d1)%nat -> qn g (r + 1) <= b) by (intros H; apply D1; lia).
  assert (B3 : (r < d1)%nat -> qn g r <= b) by (intros H; apply D1; lia).
  assert (B4 : (d1 <= r + 1)%nat -> b < qn g (r + 1)) by (intros H; apply Qnot_le_lt; intros H2; apply D1 in H2; lia).
  (* the tail triple *)
  set (tail := if negb (Qeq_bool last b) && Nat.ltb d1 (length g) then _ else []).
  assert (Ht : entry tail r i == if Nat.eqb d1 (r + 1) then (b - last) / (qn g (r + 1) - qn g r) else 0).
  { unfold tail. destruct (Nat.eqb_spec d1 (r + 1)) as [Hd|Hd].
    - assert (Nat.ltb d1 (length g) = true) as -> by (apply Nat.ltb_lt; lia). rewrite andb_true_r.
      destruct (Qeq_bool last b) eqn:Eq; cbn [negb].
      + qhyps. rewrite entry_nil. setoid_replace (b - last) with 0 by lra. field. lra.
      + rewrite entry_one. replace (Nat.pred d1) with r by lia. rewrite !Nat.eqb_refl. cbn [andb]. now rewrite Hd.
    - destruct (negb (Qeq_bool last b) && Nat.ltb d1 (length g)); [|reflexivity]. rewrite entry_one.
      assert (Nat.eqb (Nat.pred d1) r = false) as -> by (apply Nat.eqb_neq; lia). reflexivity. }
  rewrite Ht. clear tail Ht.
  assert (Hlast : last = if Nat.eqb d0 d1 then a else qn g (Nat.pred d1)).
  { rewrite Hl. destruct (Nat.eqb_spec d0 d1) as [->|Hne]; [now rewrite Nat.sub_diag|].
    destruct (d1 - d0)%nat as [|m] eqn:Em; [lia|]. f_equal. lia. }
  clear Hl. subst last. apply Hdiv. unfold overlap.
  assert (Hmul : forall x, x / (qn g (r + 1) - qn g r) * (qn g (r + 1) - qn g r) == x) by (intros; field; lra).
  destruct (lt_eq_lt_dec d1 (r + 1)) as [[Hd1|Hd1]|Hd1].
  - assert (Nat.eqb d1 (r + 1) = false) as -> by (apply Nat.eqb_neq; lia).
    assert (Nat.ltb (r + 1) d1 = false) as -> by (apply Nat.ltb_ge; lia). rewrite andb_false_r.
    specialize (B1 ltac:(lia)). clear - B1 Hw Hs. qlra.
  - assert (Nat.eqb d1 (r + 1) = true) as -> by (apply Nat.eqb_eq; lia).
    assert (Nat.ltb (r + 1) d1 = false) as -> by (apply Nat.ltb_ge; lia). rewrite andb_false_r.
    setoid_replace (0 + (b - (if Nat.eqb d0 d1 then a else qn g (Nat.pred d1))) / (qn g (r + 1) - qn g r))
      with ((b - (if Nat.eqb d0 d1 then a else qn g (Nat.pred d1))) / (qn g (r + 1) - qn g r)) by ring.
    rewrite Hmul. specialize (B3 ltac:(lia)). specialize (B4 ltac:(lia)).
    destruct (Nat.eqb_spec d0 d1) as [H|H].
    + specialize (A3 ltac:(lia)). clear - A3 B3 B4 Hw Hs. qlra.
    + specialize (A1 ltac:(lia)). replace (Nat.pred d1) with r by lia. clear - A1 B3 B4 Hw Hs. qlra.
  - assert (Nat.eqb d1 (r + 1) = false) as -> by (apply Nat.eqb_neq; lia).
    assert (Nat.ltb (r + 1) d1 = true) as -> by (apply Nat.ltb_lt; lia). rewrite andb_true_r.
    specialize (B2 ltac:(lia)). destruct (Nat.leb_spec d0 (r + 1)) as [H|H].
    + setoid_replace ((qn g (r + 1) - (if Nat.eqb d0 (r + 1) then a else qn g r)) / (qn g (r + 1) - qn g r) + 0)
        with ((qn g (r + 1) - (if Nat.eqb d0 (r + 1) then a else qn g r)) / (qn g (r + 1) - qn g r)) by ring.
      rewrite Hmul. specialize (A4 ltac:(lia)). destruct (Nat.eqb_spec d0 (r + 1)) as [H2|H2].
      * specialize (A3 ltac:(lia)). clear - A3 A4 B2 Hw Hs. qlra.
      * specialize (A1 ltac:(lia)). clear - A1 A4 B2 Hw Hs. qlra.
    + specialize (A2 ltac:(lia)). clear - A2 B2 Hw Hs. qlra.
Qed.
Lemma entry_flat_map (f : nat -> list triple) r c : (forall i t, In t (f i) -> snd (fst t) = i) ->
  forall l, NoDup l -> entry (flat_map f l) r c == if existsb (Nat.eqb c) l then entry (f c) r c else 0.
Proof.
  intros Hf. induction l as [|i l IH]; intros Hnd; [reflexivity|]. inversion Hnd as [|? ? Hni Hnd']; subst.
  cbn [flat_map existsb]. rewrite entry_app, (IH Hnd'). destruct (Nat.eqb_spec c i) as [->|Hne]; cbn [orb].
  - assert (existsb (Nat.eqb i) l = false) as ->; [|ring]. apply not_true_is_false. intros H. apply existsb_exists in H as (x & Hx & E).
    apply Nat.eqb_eq in E as ->. contradiction.
  - rewrite (@entry_other_col (f i)); [ring|]. intros t Ht. rewrite (Hf _ _ Ht). congruence.
Qed.
Lemma rendering_entry_pf s g r c : increasing g -> nondecreasing s ->
  (r < length g - 1)%nat -> (c < length s - 1)%nat ->
  entry (rendering_matrix_1d s g) r c == overlap (qn s c) (qn s (c + 1)) (qn g r) (qn g (r + 1)) / (qn g (r + 1) - qn g r).
Proof.
  intros Hg Hs Hr Hc. unfold rendering_matrix_1d. rewrite entry_flat_map; [|apply render_cell_col|apply seq_NoDup].
  assert (existsb (Nat.eqb c) (seq 0 (length s - 1)) = true) as ->.
  { apply existsb_exists. exists c. split; [apply in_seq; lia|apply Nat.eqb_refl]. }
  apply render_cell_entry; [assumption| |assumption]. apply Hs. lia.
Qed.

Lemma overlap_add a b c l r : a <= b -> b <= c -> l <= r -> overlap a b l r + overlap b c l r == overlap a c l r.
Proof. intros H1 H2 H3. unfold overlap. qlra. Qed.
Lemma overlap_sum s l r : nondecreasing s -> l <= r -> forall n, (n < length s)%nat ->
  sumn n (fun c => overlap (qn s c) (qn s (c + 1)) l r) == overlap (qn s 0) (qn s n) l r.
Proof.
  intros Hs Hlr. induction n as [|n IH]; intros Hn; simpl.
  - unfold overlap. qlra.
  - rewrite IH by lia. replace (S n) with (n + 1)%nat by lia. apply overlap_add; [apply Hs; lia|apply Hs; lia|assumption].
Qed.
Lemma mat_row_entries : forall m r v n, (forall t, In t m -> (snd (fst t) < n)%nat) ->
  mat_row m r v == sumn n (fun c => entry m r c * qn v c).
Proof.
  induction m as [|[[r' c'] w] m IH]; intros r v n Hc.
  - symmetry. apply sumn_zero. intros i _. rewrite entry_nil. ring.
  - unfold mat_row. cbn [map qsum fst snd]. fold (mat_row m r v). rewrite (IH r v n) by (intros; apply Hc; now right).
    rewrite (@sumn_ext n (fun c => entry ((r', c', w) :: m) r c * qn v c)
      (fun c => (if Nat.eqb r' r && Nat.eqb c' c then w else 0) * qn v c + entry m r c * qn v c)).
    + rewrite sumn_plus. apply Qplus_inj_r. assert (c' < n)%nat as Hc' by (apply (Hc (r', c', w)); now left).
      rewrite (@sumn_single n c'); [|assumption|].
      * rewrite Nat.eqb_refl, andb_true_r. destruct (Nat.eqb r' r); ring.
      * intros i Hi Hne. assert (Nat.eqb c' i = false) as -> by (apply Nat.eqb_neq; congruence). rewrite andb_false_r. ring.
    + intros c _. change ((r', c', w) :: m) with ([(r', c', w)] ++ m). rewrite entry_app, entry_one. ring.
Qed.
Lemma render_inner_row g i : forall n j last t, In t (fst (render_inner g i n j last)) -> (fst (fst t) + 1 < j + n)%nat.
Proof.
  induction n as [|n IH]; intros j last t H; cbn [render_inner] in H; [destruct H|].
  specialize (IH (S j) (qn g j)). destruct (render_inner g i n (S j) (qn g j)) as [ts l]. cbn [fst] in *.
  apply in_app_iff in H as [H|H]; [|specialize (IH t H); lia]. destruct (Nat.leb_spec 1 j); [|destruct H]. destruct H as [<-|[]]. cbn. lia.
Qed.
Lemma rendering_indices_pf s g t : nondecreasing s -> increasing g -> In t (rendering_matrix_1d s g) ->
  (fst (fst t) < length g - 1)%nat /\ (snd (fst t) < length s - 1)%nat.
Proof.
  intros Hs Hg H. unfold rendering_matrix_1d in H. apply in_flat_map in H as (i & Hi & H). apply in_seq in Hi.
  rewrite (render_cell_col _ _ _ _ H). split; [|lia]. unfold render_cell in H. cbv zeta in H.
  assert (L1 : (digitize (qn s (i + 1)) g <= length g)%nat) by apply digitize_le.
  set (d1 := digitize (qn s (i + 1)) g) in *. set (d0 := digitize (qn s i) g) in *.
  destruct (Nat.ltb_spec d1 1) as [H1|H1]; [destruct H|].
  pose proof (render_inner_row g i (d1 - d0) d0 (qn s i)) as Hr. destruct (render_inner _ _ _ _ _) as [ts last]. cbn [fst] in Hr.
  apply in_app_iff in H as [H|H].
  - specialize (Hr t H). destruct (le_lt_dec d0 d1); [lia|]. exfalso.
    assert (L0 : (d0 <= length g)%nat) by apply digitize_le.
    assert (qn g d1 <= qn s i) by (apply digitize_spec; [assumption|lia|assumption]).
    assert (qn s i <= qn s (i + 1)) by (apply Hs; lia).
    assert (d1 < d1)%nat by (apply (@digitize_spec (qn s (i + 1)) g d1 Hg); [lia|lra]). lia.
  - destruct (Nat.ltb_spec d1 (length g)) as [H2|H2]; rewrite ?andb_true_r, ?andb_false_r in H; [|destruct H].
    destruct (negb _); [|destruct H]. destruct H as [<-|[]]. cbn. lia.
Qed.
Lemma render_apply_pf s g v r : increasing g -> nondecreasing s -> (r < length g - 1)%nat ->
  mat_row (rendering_matrix_1d s g) r v ==
  sumn (length s - 1) (fun c => overlap (qn s c) (qn s (c + 1)) (qn g r) (qn g (r + 1)) / (qn g (r + 1) - qn g r) * qn v c).
Proof.
  intros Hg Hs Hr. rewrite (@mat_row_entries _ r v (length s - 1)) by (intros t Ht; eapply rendering_indices_pf; eassumption).
  apply sumn_ext. intros c Hc. now rewrite rendering_entry_pf.
Qed.
Lemma render_row_sum_pf s g r : increasing g -> nondecreasing s -> (1 <= length s)%nat -> (r < length g - 1)%nat ->
  sumn (length s - 1) (entry (rendering_matrix_1d s g) r) == covered (qn s 0) (qn s (length s - 1)) g r.
Proof.
  intros Hg Hs Hl Hr. assert (Hw : qn g r < qn g (r + 1)) by (apply Hg; lia).
  rewrite (@sumn_ext _ _ (fun c => / (qn g (r + 1) - qn g r) * overlap (qn s c) (qn s (c + 1)) (qn g r) (qn g (r + 1)))).
  - rewrite sumn_scale, overlap_sum; [unfold covered; field; lra|assumption|lra|lia].
  - intros c Hc. rewrite rendering_entry_pf by assumption. field. lra.
Qed.
Lemma covered_full a b g r : qn g r < qn g (r + 1) -> a <= qn g r -> qn g (r + 1) <= b -> covered a b g r == 1.
Proof.
  intros Hw Ha Hb. unfold covered. setoid_replace (overlap a b (qn g r) (qn g (r + 1))) with (qn g (r + 1) - qn g r) by (unfold overlap; qlra).
  field. lra.
Qed.
Lemma covered_none a b g r : qn g r < qn g (r + 1) -> (b <= qn g r \/ qn g (r + 1) <= a) -> covered a b g r == 0.
Proof.
  intros Hw H. unfold covered. setoid_replace (overlap a b (qn g r) (qn g (r + 1))) with 0.
  - field. lra.
  - unfold overlap. destruct H; qlra.
Qed.
Lemma covered_range a b g r : qn g r < qn g (r + 1) -> 0 <= covered a b g r <= 1.
Proof.
  intros Hw. unfold covered. set (w := qn g (r + 1) - qn g r). assert (0 < w) by (unfold w; lra).
  assert (H1 : 0 <= overlap a b (qn g r) (qn g (r + 1))) by (unfold overlap; qlra).
  assert (H2 : overlap a b (qn g r) (qn g (r + 1)) <= w) by (unfold overlap, w; qlra).
  split.
  - apply Qle_shift_div_l; [assumption|lra].
  - apply Qle_shift_div_r; [assumption|lra].
Qed.
Lemma render_rows_pf s g r : increasing g -> nondecreasing s -> (1 <= length s)%nat -> (r < length g - 1)%nat ->
  (qn s 0 <= qn g r -> qn g (r + 1) <= qn s (length s - 1) -> sumn (length s - 1) (entry (rendering_matrix_1d s g) r) == 1) /\
  (qn s (length s - 1) <= qn g r \/ qn g (r + 1) <= qn s 0 -> sumn (length s - 1) (entry (rendering_matrix_1d s g) r) == 0).
Proof.
  intros Hg Hs Hl Hr. assert (Hw : qn g r < qn g (r + 1)) by (apply Hg; lia). rewrite (render_row_sum_pf Hg Hs Hl Hr). split.
  - intros. now apply covered_full.
  - intros. now apply covered_none.
Qed.
Lemma render_constant_pf s g r k v : increasing g -> nondecreasing s -> (1 <= length s)%nat -> (r < length g - 1)%nat ->
  (forall c, (c < length s - 1)%nat -> qn v c == k) ->
  mat_row (rendering_matrix_1d s g) r v == k * covered (qn s 0) (qn s (length s - 1)) g r.
Proof.
  intros Hg Hs Hl Hr Hv. rewrite (@mat_row_entries _ r v (length s - 1)) by (intros t Ht; eapply rendering_indices_pf; eassumption).
  rewrite (@sumn_ext _ _ (fun c => k * entry (rendering_matrix_1d s g) r c)).
  - rewrite sumn_scale. now rewrite render_row_sum_pf.
  - intros c Hc. rewrite (Hv c Hc). ring.
Qed.
(** entries are nonnegative: values of the shape bound the rendered values *)
Lemma render_bounds_pf s g r lo hi v : increasing g -> nondecreasing s -> (1 <= length s)%nat -> (r < length g - 1)%nat ->
  qn s 0 <= qn g r -> qn g (r + 1) <= qn s (length s - 1) ->
  (forall c, (c < length s - 1)%nat -> lo <= qn v c <= hi) ->
  lo <= mat_row (rendering_matrix_1d s g) r v <= hi.
Proof.
  intros Hg Hs Hl Hr Ha Hb Hv. destruct (render_rows_pf Hg Hs Hl Hr) as [H1 _]. specialize (H1 Ha Hb).
  rewrite (@mat_row_entries _ r v (length s - 1)) by (intros t Ht; eapply rendering_indices_pf; eassumption).
  assert (Hpos : forall c, (c < length s - 1)%nat -> 0 <= entry (rendering_matrix_1d s g) r c).
  { intros c Hc. rewrite rendering_entry_pf by assumption. apply Qle_shift_div_l.
    - assert (qn g r < qn g (r + 1)) by (apply Hg; lia). lra.
    - unfold overlap. qlra. }
  split.
  - setoid_replace lo with (lo * sumn (length s - 1) (entry (rendering_matrix_1d s g) r)) by (rewrite H1; ring).
    rewrite <- sumn_scale. apply sumn_le. intros c Hc. specialize (Hpos c Hc). specialize (Hv c Hc). nra.
  - setoid_replace hi with (hi * sumn (length s - 1) (entry (rendering_matrix_1d s g) r)) by (rewrite H1; ring).
    rewrite <- sumn_scale. apply sumn_le. intros c Hc. specialize (Hpos c Hc). specialize (Hv c Hc). nra.
Qed.
