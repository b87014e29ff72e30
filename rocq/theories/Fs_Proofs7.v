(** The wave operator in terms of the cells; sources that emit to one side. *)
From Coq Require Import Reals ZArith Lra Lia List.
From Verif Require Import Base CField CField_Proofs GMath_Model GMath_Proofs CplxField Maxwell_Model Maxwell_Spec Maxwell_Proofs Maxwell_Proofs2 Maxwell_Proofs3 Maxwell_Proofs4 Wg_Model Wg_Model2 Wg_Spec Fs_Model Fs_Spec Fs_Proofs Fs_Proofs2 Fs_Proofs3 Fs_Proofs4 Fs_Proofs5 Fs_Proofs6.
Import ListNotations.
Set Implicit Arguments.
Local Open Scope R_scope.

Lemma curl_e_cells (g : grid CC) k w (E : field3 CC) c x y z : (c < 3)%nat -> in_grid g x y z ->
  at_ (mv (vlen g) (curl_e g (ue (bloch_phases g k)) w) (vec g E)) (c * cellsn g + (x + dim g 0 * (y + dim g 1 * z))) = curl_with (slope g k) E c x y z.
Proof.
  intros Hc Hg. destruct (@cell_of g x y z Hg) as (Ht & _). unfold curl_e. rewrite cross_at by auto. unfold curl_with.
  idx c Hc; cbn [Nat.modulo Nat.divmod Nat.add Nat.sub fst snd]; rewrite !slope_at by (auto; lia); reflexivity.
Qed.
Lemma slope_back_at (g : grid CC) k u (E : field3 CC) v c a x y z : (c < 3)%nat -> (a < 3)%nat -> in_grid g x y z ->
  (forall c t, (c < 3)%nat -> (t < cellsn g)%nat -> at_ v (c * cellsn g + t) = E c (coord g 0 t) (coord g 1 t) (coord g 2 t)) ->
  dcol g (deriv_back g u (wh (bloch_phases g k))) v a c (x + dim g 0 * (y + dim g 1 * z)) = slope_back g k (E c) a x y z.
Proof.
  intros Hc Ha Hg Hv. destruct (@cell_of g x y z Hg) as (Ht & H0 & H1 & H2). set (t := (x + dim g 0 * (y + dim g 1 * z))%nat) in *.
  unfold dcol. rewrite deriv_back_at by auto. rewrite !part_at by auto using bwd_lt. rewrite !Hv by auto using bwd_lt. rewrite H0, H1, H2.
  unfold slope_back, behind, bd. rewrite !coord_bwd by (auto; lia). rewrite H0, H1, H2. rewrite (@coord_axis g a t x y z Ha H0 H1 H2). cbn [bloch_phases wh].
  idx a Ha; reflexivity.
Qed.
Lemma wave_operator_lemma g eps omega k F c x y z : (c < 3)%nat -> in_grid g x y z -> applied g eps omega k F c x y z = wave_operator g eps omega k F c x y z.
Proof.
  intros Hc Hg. destruct (@cell_of g x y z Hg) as (Ht & H0 & H1 & H2). unfold applied, unvec_or, wave_operator. set (t := (x + dim g 0 * (y + dim g 1 * z))%nat) in *.
  assert (Hi : forall c t, (c < 3)%nat -> (t < cellsn g)%nat -> (c * cellsn g + t < vlen g)%nat) by (intros; unfold vlen; nia).
  rewrite mv_e_full by auto. cbn [maskv]. rewrite !vec_at by auto. rewrite H0, H1, H2.
  unfold curl_h. rewrite cross_at by auto.
  set (W := pmul g (maskv CC None) (pmul g (@invv CC None) (mv (vlen g) (curl_e g (ue (bloch_phases g k)) (we (bloch_phases g k))) (pmul g (maskv CC None) (vec g F))))).
  assert (HW : forall c t, (c < 3)%nat -> (t < cellsn g)%nat -> at_ W (c * cellsn g + t) = curl_with (slope g k) F c (coord g 0 t) (coord g 1 t) (coord g 2 t)).
  { intros b t' Hb Ht'. unfold W. rewrite !(@pmul_at CC g) by auto. cbn [maskv invv].
    assert (V : pmul g (maskv CC None) (vec g F) = vec g F).
    { apply (@vlen_ext CC g); [apply pmul_length|apply vec_length|]. intros b' t'' Hb' Ht''. rewrite pmul_at by auto. cbn [maskv]. generalize (at_ (vec g F) (b' * cellsn g + t'')). intros u. apply c_eq; cbn; ring. }
    rewrite V.
    assert (Hg' : in_grid g (coord g 0 t') (coord g 1 t') (coord g 2 t')) by (repeat split; apply coord_lt; auto; lia).
    rewrite <- (@curl_e_cells g k (we (bloch_phases g k)) F b _ _ _ Hb Hg'). 
    assert (Et : (coord g 0 t' + dim g 0 * (coord g 1 t' + dim g 1 * coord g 2 t'))%nat = t').
    { destruct (@cell_of g _ _ _ Hg') as (Ht2 & G0 & G1 & G2). apply (@cell_ext CC g); auto. intros a Ha. idx a Ha; auto. }
    rewrite Et. match goal with |- (_ * (_ * ?u))%K = _ => generalize u end. intros u. apply c_eq; cbn; ring. }
  clearbody W. rewrite rl_mult. unfold curl_with at 1.
  idx c Hc; cbn [Nat.modulo Nat.divmod Nat.add Nat.sub fst snd]; unfold t; rewrite !(@slope_back_at g k _ (curl_with (slope g k) F) W) by (auto; lia);
    generalize (slope_back g k); intros d;
    repeat match goal with |- context [d ?a ?b ?c ?e ?f] => let i := fresh "q" in set (i := d a b c e f); clearbody i end;
    generalize (rl omega), (eps 0%nat x y z), (F 0%nat x y z), (eps 1%nat x y z), (F 1%nat x y z), (eps 2%nat x y z), (F 2%nat x y z); intros; apply c_eq; cbn; ring.
Qed.
Lemma one_sided_lemma (g : grid CC) eps omega axis sl back k E s : (axis < 3)%nat -> omega <> 0 -> whole_section g axis sl -> cut_index back (sl axis) = Z.of_nat s ->
  (1 <= s < dim g axis)%nat ->
  forall c x y z, (c < 3)%nat -> in_grid g x y z -> let l := pick axis x y z in (1 <= l)%nat -> (l + 1 < dim g axis)%nat ->
  (lit back s l = true -> wave_operator g eps omega k E c x y z = (0 : CC)%K) ->
  wave_operator g eps omega k (lit_part axis back s E) c x y z = (- ki * rl omega * fst (cut_current g eps omega axis sl back k E) c x y z)%K.
Proof.
  intros Hx Ho Hw Hc Hs c x y z Hcc Hg l Hl1 Hl2 H. rewrite <- wave_operator_lemma by auto.
  rewrite (@current_one_sided g eps omega axis sl back k E s) by (auto; lia). fold l.
  match goal with |- (?a + (if ?b then _ else _))%K = _ => assert (Z0 : (if b then applied g eps omega k E c x y z else 0%K) = (0 : CC)%K) end.
  - destruct (lit back s l) eqn:El; cbn [andb]; [|reflexivity]. destruct (negb _ && negb _)%bool; [|reflexivity]. rewrite wave_operator_lemma by auto. now apply H.
  - rewrite Z0. match goal with |- (?a + _)%K = _ => generalize a end. intros a. apply c_eq; cbn; ring.
Qed.
