(** Lemmas about rendering, fifth part: layers in z, and the average over z. *)
From Coq Require Import Reals Lia List QArith Qreals Sorted.
From Coquelicot Require Import Coquelicot.
From Verif Require Import QTac Grid_Model Raster_Model Raster_Spec Raster2_Model Raster2_Spec Raster2_Proofs3 Raster2_Proofs5 Raster2_Proofs6 Raster2_Proofs7 Layer_Model Layer_Spec Layer_Proofs Layer_Proofs2 Layer_Proofs3 Layer_Proofs4.
From Coq Require Import Lra.
Open Scope R_scope.

(** *** the layer boundaries *)
Lemma uinsert_strict x l : StronglySorted Qlt l -> StronglySorted Qlt (uinsert x l).
Proof.
  induction l as [|y l IH]; simpl; intros H; [repeat constructor|].
  inversion H as [|? ? Hs Hf]; subst. rewrite Forall_forall in Hf. destruct (qlt x y) eqn:E1; qhyps.
  - constructor; [assumption|]. apply Forall_forall. intros z [<-|Hz]; [assumption|]. specialize (Hf z Hz). Lqa.lra.
  - destruct (Qeq_bool x y) eqn:E2; [assumption|]. constructor; [now apply IH|]. apply Forall_forall. intros z Hz.
    apply uinsert_in in Hz as [->|Hz]; [|auto]. apply Qeq_bool_neq in E2. destruct (Qlt_le_dec y x) as [|K]; [assumption|]. exfalso. apply E2. Lqa.lra.
Qed.
Lemma unique_strict l : StronglySorted Qlt (unique l).
Proof. induction l; simpl; [constructor|]. now apply uinsert_strict. Qed.
Lemma strict_increasing l : StronglySorted Qlt l -> increasing l.
Proof.
  intros H. induction H as [|x l H IH F]; intros i j [Hij Hj]; [cbn in Hj; lia|]. cbn [length] in Hj. rewrite Forall_forall in F.
  destruct j as [|j]; [lia|]. destruct i as [|i].
  - change (qn (x :: l) 0) with x. change (qn (x :: l) (S j)) with (qn l j). apply F. apply nth_In. lia.
  - apply (IH i j). lia.
Qed.
Lemma z_increasing bs : increasing (layer_z bs).
Proof. apply strict_increasing, unique_strict. Qed.
Lemma z_has bs b : In b bs -> (exists m, (m < length (layer_z bs))%nat /\ qn (layer_z bs) m == b_lo b)%Q /\ (exists m, (m < length (layer_z bs))%nat /\ qn (layer_z bs) m == b_hi b)%Q.
Proof.
  intros H. split.
  - destruct (unique_has (map b_lo bs ++ map b_hi bs) (b_lo b)) as (y & Hy & E); [apply in_or_app; left; now apply in_map|].
    apply (In_nth _ _ 0%Q) in Hy as (m & Hm & <-). exists m. auto.
  - destruct (unique_has (map b_lo bs ++ map b_hi bs) (b_hi b)) as (y & Hy & E); [apply in_or_app; right; now apply in_map|].
    apply (In_nth _ _ 0%Q) in Hy as (m & Hm & <-). exists m. auto.
Qed.
Lemma filter_count (l : list Q) x : increasing l -> forall k, (k < length l)%nat -> (length (filter (fun y => qlt y x) l) <= k)%nat <-> (x <= qn l k)%Q.
Proof.
  induction l as [|y l IH]; intros I k Hk; [cbn in Hk; lia|].
  assert (I' : increasing l) by (intros i j Hij; apply (I (S i) (S j)); cbn [length]; lia).
  cbn [filter]. destruct (qlt y x) eqn:E; qhyps.
  - cbn [length]. destruct k as [|k]; [|cbn in Hk; change (qn (y :: l) (S k)) with (qn l k); rewrite <- (IH I' k) by lia; lia].
    change (qn (y :: l) 0) with y. split; [lia|]. intros K. exfalso. Lqa.lra.
  - assert (filter (fun y => qlt y x) l = []) as ->.
    { destruct (filter (fun y => qlt y x) l) as [|z f] eqn:F; [reflexivity|]. assert (Hz : In z (filter (fun y => qlt y x) l)) by (rewrite F; now left).
      apply filter_In in Hz as [Hz L]. qhyps. apply (In_nth _ _ 0%Q) in Hz as (m & Hm & <-).
      assert (y < qn l m)%Q by (apply (I 0%nat (S m)); cbn [length]; lia). unfold qn in *. exfalso. Lqa.lra. }
    cbn [length]. split; [|lia]. intros _. destruct k as [|k]; [exact E|]. assert (y < qn l k)%Q by (apply (I 0%nat (S k)); cbn in *; lia).
    change (qn (y :: l) (S k)) with (qn l k). Lqa.lra.
Qed.
(** the layers are what lies at the height of their lower boundary *)
Lemma layer_polygons_nth bs q : (q < length (layer_z bs) - 1)%nat ->
  nth q (layer_polygons bs) [] = map (fun b => (b_poly b, b_eps b)) (filter (fun b => Qle_bool (b_lo b) (qn (layer_z bs) q) && qlt (qn (layer_z bs) q) (b_hi b)) bs).
Proof.
  intros Hq. unfold layer_polygons. cbv zeta.
  match goal with |- nth q (map ?F _) _ = _ => set (f := F) end.
  rewrite (nth_indep _ _ (f 0%nat)) by (now rewrite map_length, seq_length). rewrite map_nth, seq_nth by assumption. unfold f. cbn [Nat.add]. f_equal.
  apply filter_ext. intros b. unfold searchsorted. pose proof (filter_count _ (b_lo b) (z_increasing bs) q ltac:(lia)) as A. pose proof (filter_count _ (b_hi b) (z_increasing bs) q ltac:(lia)) as B.
  f_equal.
  - destruct (Nat.leb _ _) eqn:E, (Qle_bool (b_lo b) (qn (layer_z bs) q)) eqn:F; try reflexivity; qhyps.
    + apply Nat.leb_le in E. apply A in E. exfalso. Lqa.lra.
    + apply A in F. apply Nat.leb_gt in E. lia.
  - destruct (Nat.ltb _ _) eqn:E, (qlt (qn (layer_z bs) q) (b_hi b)) eqn:F; try reflexivity; qhyps.
    + apply Nat.ltb_lt in E. apply B in F. lia.
    + apply Nat.ltb_ge in E. apply B in E. exfalso. Lqa.lra.
Qed.
Lemma layer_polygons_length bs : length (layer_polygons bs) = (length (layer_z bs) - 1)%nat.
Proof. unfold layer_polygons. cbv zeta. now rewrite map_length, seq_length. Qed.

(** *** windows *)
Definition win (z : list Q) (q : nat) (t : R) : R := ind (Rle_dec (Q2R (qn z q)) t) * ind (Rlt_dec t (Q2R (qn z (q + 1)))).
Lemma win_in z q t : Q2R (qn z q) <= t < Q2R (qn z (q + 1)) -> win z q t = 1.
Proof. intros H. unfold win, ind. destruct Rle_dec, Rlt_dec; lra. Qed.
Lemma win_out z q t : t < Q2R (qn z q) \/ Q2R (qn z (q + 1)) <= t -> win z q t = 0.
Proof. intros H. unfold win, ind. destruct Rle_dec, Rlt_dec; lra. Qed.
Lemma locate z t : increasing z -> (1 <= length z)%nat ->
  t < Q2R (qn z 0) \/ Q2R (qn z (length z - 1)) <= t \/ exists q, (q < length z - 1)%nat /\ Q2R (qn z q) <= t < Q2R (qn z (q + 1)).
Proof.
  intros _ L. assert (H : forall m, t < Q2R (qn z 0) \/ Q2R (qn z m) <= t \/ exists q, (q < m)%nat /\ Q2R (qn z q) <= t < Q2R (qn z (q + 1))); [|apply H].
  induction m as [|m [IH|[IH|(q & Hq & IH)]]].
  - destruct (Rlt_dec t (Q2R (qn z 0))); [left|right; left]; lra.
  - now left.
  - destruct (Rlt_dec t (Q2R (qn z (m + 1)))).
    + right. right. exists m. split; [lia|lra].
    + right. left. rewrite <- Nat.add_1_r. lra.
  - right. right. exists q. split; [lia|assumption].
Qed.
Lemma Q2R_inc z i j : increasing z -> (i <= j < length z)%nat -> Q2R (qn z i) <= Q2R (qn z j).
Proof. intros I H. apply Q2R_le, (increasing_le I). lia. Qed.
Lemma win_sum z t (F : nat -> R) : increasing z ->
  (exists q, (q < length z - 1)%nat /\ Q2R (qn z q) <= t < Q2R (qn z (q + 1)) /\ Rsum (map (fun q => win z q t * F q) (seq 0 (length z - 1))) = F q) \/
  (((length z = 0)%nat \/ t < Q2R (qn z 0) \/ Q2R (qn z (length z - 1)) <= t) /\ Rsum (map (fun q => win z q t * F q) (seq 0 (length z - 1))) = 0).
Proof.
  intros I. destruct (Nat.eq_dec (length z) 0) as [E|E]; [right; rewrite E; split; [tauto|reflexivity]|].
  destruct (locate z t I ltac:(lia)) as [H|[H|(q & Hq & H)]].
  - right. split; [tauto|]. apply Rsum_zero. intros q Hq. apply in_seq in Hq. rewrite win_out; [ring|]. left. pose proof (Q2R_inc z 0 q I ltac:(lia)). lra.
  - right. split; [tauto|]. apply Rsum_zero. intros q Hq. apply in_seq in Hq. rewrite win_out; [ring|]. right. pose proof (Q2R_inc z (q + 1) (length z - 1) I ltac:(lia)). lra.
  - left. exists q. split; [assumption|]. split; [assumption|]. rewrite (Rsum_single _ _ q).
    + rewrite win_in by assumption. ring.
    + apply seq_NoDup.
    + apply in_seq. lia.
    + intros q' Hq' N. apply in_seq in Hq'. rewrite win_out; [ring|]. destruct (Nat.lt_ge_cases q' q) as [L|L].
      * right. pose proof (Q2R_inc z (q' + 1) q I ltac:(lia)). lra.
      * left. pose proof (Q2R_inc z (q + 1) q' I ltac:(lia)). lra.
Qed.

(** *** average over z *)
Lemma window_overlap (s t l r : Q) : (s <= t)%Q -> (l < r)%Q ->
  is_RInt (fun y => ind (Rle_dec (Q2R s) y) * ind (Rlt_dec y (Q2R t))) (Q2R l) (Q2R r) (Q2R (overlap s t l r)).
Proof.
  intros Hst Hlr. apply Q2R_le in Hst. apply Q2R_lt in Hlr.
  apply (int_ext (fun y => ind (Rle_dec (Q2R s) y) * ind (Rlt_dec y (Q2R t)) * 1)); [lra|intros; ring|].
  replace (Q2R (overlap s t l r)) with (J (Q2R l) (Q2R r) (fun _ => 1) (Q2R t) - J (Q2R l) (Q2R r) (fun _ => 1) (Q2R s)).
  - apply window_integral; [assumption|intros; apply continuous_const|assumption].
  - unfold J. rewrite !(is_RInt_unique _ _ _ _ (int_const 1 _ _ _ eq_refl)). unfold overlap, clampR. rewrite Q2R_qmax, Q2R_minus, Q2R_qmin, Q2R_qmax, Q2R_0.
    unfold Rmin, Rmax. repeat destruct Rle_dec; lra.
Qed.
Lemma windows_integral (z : list Q) (D : nat -> R) (l r : Q) (bg : R) : increasing z -> (l < r)%Q -> forall qs, (forall q, In q qs -> (q < length z - 1)%nat) ->
  is_RInt (fun t => bg + Rsum (map (fun q => win z q t * D q) qs)) (Q2R l) (Q2R r)
    ((Q2R r - Q2R l) * bg + Rsum (map (fun q => D q * Q2R (overlap (qn z q) (qn z (q + 1)) l r)) qs)).
Proof.
  intros I L qs H. pose proof (Q2R_lt _ _ L) as L'. apply int_plus; [now apply int_const|].
  induction qs as [|q qs IH]; cbn [map].
  - cbn. apply int_const. ring.
  - change (Rsum (?a :: ?b)) with (a + Rsum b). apply (int_ext (fun t => D q * win z q t + Rsum (map (fun q => win z q t * D q) qs))); [lra|intros t _; change (Rsum (?a :: ?b)) with (a + Rsum b); ring|].
    apply int_plus; [|apply IH; intros; apply H; now right]. apply int_scal. apply window_overlap; [|assumption].
    specialize (H q (or_introl eq_refl)). apply (increasing_le I). lia.
Qed.
