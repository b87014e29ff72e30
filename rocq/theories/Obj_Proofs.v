(** Analysis: powers, kinks, sums, products, soft maxima along curves. *)
From Verif Require Import Base Obj_Model Obj_Spec.
From Coq Require Import Reals ZArith Lra Psatz.
Set Implicit Arguments.
Local Open Scope R_scope.

(** ** Locality *)
Lemma near_and t0 P Q : near t0 P -> near t0 Q -> near t0 (fun t => P t /\ Q t).
Proof.
  intros (d1 & H1 & HP) (d2 & H2 & HQ). exists (Rmin d1 d2). split; [now apply Rmin_glb_lt|].
  intros t Ht. split; [apply HP|apply HQ]; (eapply Rlt_le_trans; [exact Ht|]); [apply Rmin_l|apply Rmin_r].
Qed.
Lemma near_impl t0 (P Q : R -> Prop) : (forall t, P t -> Q t) -> near t0 P -> near t0 Q.
Proof. intros H (d & Hd & HP). exists d. split; auto. Qed.
Lemma near_all t0 (P : R -> Prop) : (forall t, P t) -> near t0 P.
Proof. intros H. exists 1. split; [lra|auto]. Qed.
Lemma near_at t0 P : near t0 P -> P t0.
Proof. intros (d & Hd & HP). apply HP. rewrite Rminus_eq_0, Rabs_R0. exact Hd. Qed.
Lemma near_list {A} t0 (P : A -> R -> Prop) l : (forall x, In x l -> near t0 (P x)) -> near t0 (fun t => forall x, In x l -> P x t).
Proof.
  induction l as [|x l IH]; intros H.
  - apply near_all. intros t y [].
  - assert (H1 := H x (or_introl eq_refl)). assert (H2 := IH (fun y Hy => H y (or_intror Hy))).
    eapply near_impl; [|exact (near_and H1 H2)]. intros t (Ha & Hb) y [<-|Hy]; auto.
Qed.

Lemma derive_ext_near f g t0 l : near t0 (fun t => f t = g t) -> derivable_pt_lim f t0 l -> derivable_pt_lim g t0 l.
Proof.
  intros (d & Hd & He) Hf eps Heps. destruct (Hf eps Heps) as (del & Hdel).
  assert (Hm : 0 < Rmin d del) by (apply Rmin_glb_lt; [lra|apply cond_pos]).
  exists (mkposreal _ Hm). intros h Hh Hlt. cbn in Hlt.
  rewrite <- (He (t0 + h)), <- (He t0).
  - apply Hdel; auto. eapply Rlt_le_trans; [exact Hlt|apply Rmin_r].
  - rewrite Rminus_eq_0, Rabs_R0. lra.
  - replace (t0 + h - t0) with h by ring. eapply Rlt_le_trans; [exact Hlt|apply Rmin_l].
Qed.
Lemma derive_ext f g t0 l : (forall t, f t = g t) -> derivable_pt_lim f t0 l -> derivable_pt_lim g t0 l.
Proof. intros H. apply derive_ext_near. now apply near_all. Qed.
Lemma derive_eq f t0 l l' : l = l' -> derivable_pt_lim f t0 l -> derivable_pt_lim f t0 l'.
Proof. now intros ->. Qed.

(** A curve with a derivative stays near its value. *)
Lemma near_curve u t0 d (P : R -> Prop) : derivable_pt_lim u t0 d -> near (u t0) P -> near t0 (fun t => P (u t)).
Proof.
  intros Hu (del & Hdel & HP).
  assert (Hc : continuity_pt u t0) by (apply derivable_continuous_pt; exists d; exact Hu).
  destruct (Hc del Hdel) as (a & Ha & H). exists a. split; [exact Ha|]. intros t Ht. apply HP.
  destruct (Req_dec t t0) as [->|Hn]; [rewrite Rminus_eq_0, Rabs_R0; exact Hdel|].
  apply H. split; [|exact Ht]. split; [exact I|]. intros E. now apply Hn.
Qed.
Lemma near_lt x a : a < x -> near x (fun y => a < y).
Proof. intros H. exists (x - a). split; [lra|]. intros y Hy. apply Rabs_def2 in Hy. lra. Qed.
Lemma near_gt x a : x < a -> near x (fun y => y < a).
Proof. intros H. exists (a - x). split; [lra|]. intros y Hy. apply Rabs_def2 in Hy. lra. Qed.

(** ** Powers *)
Lemma Int_part_IZR z : Int_part (IZR z) = z.
Proof.
  unfold Int_part. enough (up (IZR z) = z + 1)%Z by lia.
  symmetry. apply tech_up; rewrite plus_IZR; lra.
Qed.
Lemma powf_pos x p : 0 < x -> powf x p = Ok (Rpower x p).
Proof. unfold powf. destruct (Rlt_dec 0 x); [reflexivity|contradiction]. Qed.
Lemma powf_int x z : x <> 0 -> powf x (IZR z) = Ok (powerRZ x z).
Proof.
  intros Hx. unfold powf. destruct (Rlt_dec 0 x) as [H|H].
  - now rewrite powerRZ_Rpower.
  - rewrite Int_part_IZR. destruct (Req_EM_T (IZR z) (IZR z)); [|congruence].
    destruct (Req_EM_T x 0); [contradiction|reflexivity].
Qed.
Lemma powf_nat x n : powf x (INR n) = Ok (x ^ n).
Proof.
  destruct (Req_dec x 0) as [->|Hx].
  - unfold powf. destruct (Rlt_dec 0 0); [lra|]. rewrite INR_IZR_INZ, Int_part_IZR.
    destruct (Req_EM_T _ _); [|congruence]. destruct (Req_EM_T 0 0); [|congruence].
    destruct (Z.ltb_spec (Z.of_nat n) 0); [lia|]. now rewrite <- pow_powerRZ.
  - rewrite INR_IZR_INZ, powf_int by assumption. now rewrite <- pow_powerRZ.
Qed.
Lemma powf_0_pos q : 0 < q -> powf 0 q = Ok 0.
Proof.
  intros Hq. unfold powf. destruct (Rlt_dec 0 0); [lra|].
  destruct (Req_EM_T q _) as [E|E].
  - destruct (Req_EM_T 0 0); [|congruence]. assert (0 < Int_part q)%Z by (apply lt_IZR; lra).
    destruct (Z.ltb_spec (Int_part q) 0); [lia|].
    destruct (Int_part q) as [|m|m]; try lia. cbn [powerRZ].
    rewrite pow_i; [reflexivity|]. lia.
  - destruct (Req_EM_T 0 0); [|congruence]. destruct (Rlt_dec 0 q); [reflexivity|contradiction].
Qed.
Lemma powf_0_0 : powf 0 0 = Ok 1.
Proof. exact (powf_nat 0 0). Qed.

Lemma powerRZ_derive x z : x <> 0 -> derivable_pt_lim (fun y => powerRZ y z) x (IZR z * powerRZ x (z - 1)).
Proof.
  intros Hx. destruct z as [|m|m].
  - cbn [powerRZ]. eapply derive_eq; [|apply (derivable_pt_lim_const 1)]. ring.
  - cbn [powerRZ]. eapply derive_eq; [|apply derivable_pt_lim_pow].
    rewrite INR_IZR_INZ, positive_nat_Z. f_equal.
    rewrite pow_powerRZ. f_equal. lia.
  - cbn [powerRZ].
    assert (Hn : x ^ Pos.to_nat m <> 0) by now apply pow_nonzero.
    eapply derive_ext; [intros t; apply Rmult_1_l|].
    eapply derive_eq; [|apply (@derivable_pt_lim_div (fun _ => 1) (fun y => y ^ Pos.to_nat m) x 0 _
      (derivable_pt_lim_const 1 x) (derivable_pt_lim_pow x (Pos.to_nat m)) Hn)].
    replace (Z.neg m - 1)%Z with (Z.neg (m + 1)) by lia. cbn [powerRZ].
    rewrite Pos2Nat.inj_add. change (Pos.to_nat 1) with 1%nat. rewrite pow_add, pow_1.
    rewrite INR_IZR_INZ, positive_nat_Z.
    assert (Hp : exists n, Pos.to_nat m = S n) by (exists (pred (Pos.to_nat m)); lia).
    change (IZR (Z.neg m)) with (- IZR (Z.pos m)). destruct Hp as (n & E). rewrite E in *. cbn [pred pow] in *. unfold Rsqr.
    assert (x ^ n <> 0) by (apply pow_nonzero; assumption). field. split; assumption.
Qed.

Lemma powf_derive x q : smooth_pow x q ->
  exists s, powf x (q - 1) = Ok s /\
    near x (fun y => exists r, powf y q = Ok r) /\
    derivable_pt_lim (fun y => real (powf y q)) x (q * s).
Proof.
  intros [Hx|[(z & ->) Hx]].
  - exists (Rpower x (q - 1)). split; [now apply powf_pos|]. split.
    + eapply near_impl; [|exact (near_lt Hx)]. intros y Hy. cbn beta in Hy. eexists. now apply powf_pos.
    + eapply derive_ext_near; [|exact (derivable_pt_lim_power x q Hx)].
      eapply near_impl; [|exact (near_lt Hx)]. intros y Hy. cbn beta in Hy. now rewrite powf_pos.
  - destruct (Req_dec x 0) as [->|Hn].
    + destruct Hx as [Hx|Hx]; [congruence|]. apply le_IZR in Hx.
      destruct (Z_of_nat_complete (z - 1)) as (n & Hz); [lia|].
      assert (E : IZR z = INR (S n)) by (rewrite INR_IZR_INZ; f_equal; lia).
      exists (0 ^ n). split; [rewrite E, S_INR; replace (INR n + 1 - 1) with (INR n) by ring; apply powf_nat|]. split.
      * apply near_all. intros y. exists (y ^ S n). rewrite E. apply powf_nat.
      * eapply derive_ext with (fun y => y ^ S n); [intros y; now rewrite E, powf_nat|].
        rewrite E. exact (derivable_pt_lim_pow 0 (S n)).
    + exists (powerRZ x (z - 1)). split; [rewrite <- minus_IZR; now apply powf_int|].
      assert (Hnz : near x (fun y => y <> 0)).
      { destruct (Rdichotomy _ _ Hn) as [H|H].
        - eapply near_impl; [|exact (near_gt H)]. intros y Hy. cbn beta in Hy. lra.
        - eapply near_impl; [|exact (near_lt H)]. intros y Hy. cbn beta in Hy. lra. }
      split.
      * eapply near_impl; [|exact Hnz]. intros y Hy. cbn beta in Hy. eexists. now apply powf_int.
      * eapply derive_ext_near; [|exact (powerRZ_derive z Hn)].
        eapply near_impl; [|exact Hnz]. intros y Hy. cbn beta in Hy. now rewrite powf_int.
Qed.

(** ** Kinks *)
Lemma sign_pos x : 0 < x -> sign x = 1.
Proof. unfold sign. intros H. destruct (Rlt_dec 0 x); [reflexivity|contradiction]. Qed.
Lemma above_1 x a : a < x -> above x a = 1.
Proof. unfold above. intros H. destruct (Rlt_dec a x); [reflexivity|contradiction]. Qed.
Lemma above_0 x a : ~ a < x -> above x a = 0.
Proof. unfold above. intros H. destruct (Rlt_dec a x); [contradiction|reflexivity]. Qed.

(** [h ^ q] is small compared to [h]. *)
Lemma power_small q eps : 1 < q -> 0 < eps -> exists del, 0 < del /\ forall h, 0 < h < del -> Rpower h q < eps * h.
Proof.
  intros Hq He. exists (Rpower eps (/ (q - 1))). split; [apply exp_pos|]. intros h (Hh & Hlt).
  replace q with ((q - 1) + 1) by ring. rewrite Rpower_plus, Rpower_1 by assumption.
  apply Rmult_lt_compat_r; [assumption|].
  replace eps with (Rpower (Rpower eps (/ (q - 1))) (q - 1)).
  - unfold Rpower at 1 2. apply exp_increasing. apply Rmult_lt_compat_l; [lra|]. now apply ln_increasing.
  - rewrite Rpower_mult. rewrite Rinv_l by lra. now apply Rpower_1.
Qed.

Lemma plus_derive x alpha q : off_kink x alpha q ->
  exists s, plus_slope x alpha q = Ok s /\
    near x (fun y => exists r, plus_term y alpha q = Ok r) /\
    derivable_pt_lim (fun y => real (plus_term y alpha q)) x s.
Proof.
  intros H. unfold plus_slope. cbv zeta.
  destruct (Req_dec x alpha) as [->|Hn].
  - destruct H as [H|Hq]; [congruence|].
    rewrite Rminus_eq_0, Rabs_R0, powf_0_pos by lra. cbn [bind]. eexists. split; [reflexivity|].
    rewrite above_0 by lra.
    assert (Hval : forall y, plus_term y alpha q = Ok (above y alpha * real (powf (Rabs (y - alpha)) q))).
    { intros y. unfold plus_term. destruct (Req_dec y alpha) as [->|Hy].
      - rewrite Rminus_eq_0, Rabs_R0, powf_0_pos by lra. reflexivity.
      - rewrite powf_pos; [reflexivity|]. apply Rabs_pos_lt. lra. }
    split; [apply near_all; intros y; eexists; apply Hval|].
    intros eps He. destruct (power_small Hq He) as (del & Hd & Hs).
    exists (mkposreal _ Hd). intros h Hh Hlt. cbn in Hlt. rewrite !Hval. cbn [real].
    rewrite (@above_0 alpha alpha) by lra. rewrite Rmult_0_l.
    replace (alpha + h - alpha) with h by ring.
    destruct (Rlt_dec 0 h) as [Hp|Hp].
    + rewrite above_1 by lra. rewrite Rabs_right in Hlt by lra. rewrite (Rabs_right h) by lra.
      rewrite powf_pos by assumption. cbn [real].
      assert (Hr := Hs h (conj Hp Hlt)). assert (Hpos : 0 < Rpower h q) by apply exp_pos.
      replace ((1 * Rpower h q - 0) / h - 0 * q * 0 * sign 0) with (Rpower h q / h) by (field; lra).
      rewrite Rabs_right by (apply Rle_ge, Rlt_le, Rdiv_lt_0_compat; assumption).
      apply Rmult_lt_reg_r with h; [assumption|]. unfold Rdiv. rewrite Rmult_assoc, Rinv_l by lra. lra.
    + rewrite above_0 by lra.
      replace ((0 * real (powf (Rabs h) q) - 0) / h - 0 * q * 0 * sign 0) with 0 by (field; lra).
      now rewrite Rabs_R0.
  - clear H. assert (Ha : 0 < Rabs (x - alpha)) by (apply Rabs_pos_lt; lra).
    rewrite powf_pos by assumption. cbn [bind]. eexists. split; [reflexivity|].
    destruct (Rlt_dec alpha x) as [Hlt|Hge].
    + rewrite above_1, sign_pos, Rabs_right by lra. split.
      * eapply near_impl; [|exact (near_lt Hlt)]. intros y Hy. cbn beta in Hy. unfold plus_term.
        rewrite powf_pos by (apply Rabs_pos_lt; lra). eexists. reflexivity.
      * eapply derive_ext_near with (fun y => Rpower (y - alpha) q).
        -- eapply near_impl; [|exact (near_lt Hlt)]. intros y Hy. cbn beta in Hy. unfold plus_term.
           rewrite powf_pos by (apply Rabs_pos_lt; lra). cbn [bind real]. rewrite above_1, Rabs_right by lra. ring.
        -- eapply derive_eq; [|apply (@derivable_pt_lim_comp (fun y => y - alpha) (fun z => Rpower z q) x 1 (q * Rpower (x - alpha) (q - 1)))].
           ++ ring.
           ++ eapply derive_eq; [|apply (@derivable_pt_lim_minus (fun y => y) (fun _ => alpha) x 1 0 (derivable_pt_lim_id x) (derivable_pt_lim_const alpha x))]. ring.
           ++ apply derivable_pt_lim_power. lra.
    + rewrite above_0 by assumption. assert (Hlt : x < alpha) by lra. split.
      * eapply near_impl; [|exact (near_gt Hlt)]. intros y Hy. cbn beta in Hy. unfold plus_term.
        rewrite powf_pos by (apply Rabs_pos_lt; lra). eexists. reflexivity.
      * eapply derive_ext_near with (fun _ => 0).
        -- eapply near_impl; [|exact (near_gt Hlt)]. intros y Hy. cbn beta in Hy. unfold plus_term.
           rewrite powf_pos by (apply Rabs_pos_lt; lra). cbn [bind real]. rewrite above_0 by lra. ring.
        -- eapply derive_eq; [|apply derivable_pt_lim_const]. ring.
Qed.

(** the other side by reflection *)
Lemma min_term_plus x beta q : min_term x beta q = plus_term (- x) (- beta) q.
Proof.
  unfold min_term, plus_term. replace (- x - - beta) with (beta - x) by ring.
  replace (above (- x) (- beta)) with (above beta x); [reflexivity|].
  unfold above. destruct (Rlt_dec x beta), (Rlt_dec (- beta) (- x)); try reflexivity; lra.
Qed.
Lemma min_slope_plus x beta q : min_slope x beta q = bind (plus_slope (- x) (- beta) q) (fun s => Ok (- s)).
Proof.
  unfold min_slope, plus_slope. cbv zeta. replace (- x - - beta) with (beta - x) by ring.
  replace (above (- x) (- beta)) with (above beta x)
    by (unfold above; destruct (Rlt_dec x beta), (Rlt_dec (- beta) (- x)); try reflexivity; lra).
  destruct (powf _ _); cbn [bind]; [|reflexivity]. f_equal. ring.
Qed.
Lemma near_neg x (P : R -> Prop) : near (- x) P -> near x (fun y => P (- y)).
Proof.
  intros (d & Hd & H). exists d. split; [exact Hd|]. intros y Hy. apply H.
  replace (- y - - x) with (- (y - x)) by ring. now rewrite Rabs_Ropp.
Qed.
Lemma derive_neg_arg f x s : derivable_pt_lim f (- x) s -> derivable_pt_lim (fun y => f (- y)) x (- s).
Proof.
  intros H. eapply derive_eq; [|apply (@derivable_pt_lim_comp (fun y => - y) f x (-1) s)]; [ring| |exact H].
  apply (derivable_pt_lim_opp (fun y => y) x 1). apply derivable_pt_lim_id.
Qed.
Lemma min_derive x beta q : off_kink x beta q ->
  exists s, min_slope x beta q = Ok s /\
    near x (fun y => exists r, min_term y beta q = Ok r) /\
    derivable_pt_lim (fun y => real (min_term y beta q)) x s.
Proof.
  intros H. assert (H' : off_kink (- x) (- beta) q) by (destruct H as [H|H]; [left; lra|now right]).
  destruct (plus_derive H') as (s & Hs & Hn & Hd). rewrite min_slope_plus, Hs. cbn [bind].
  exists (- s). split; [reflexivity|]. split.
  - apply near_neg in Hn. eapply near_impl; [|exact Hn]. intros y Hy. cbn beta in Hy. now rewrite min_term_plus.
  - eapply derive_ext; [|exact (derive_neg_arg Hd)]. intros y. cbn beta. now rewrite min_term_plus.
Qed.

Lemma abs_derive x : x <> 0 -> derivable_pt_lim Rabs x (x / Rabs x).
Proof.
  intros Hn. destruct (Rdichotomy _ _ Hn) as [H|H].
  - eapply derive_ext_near with (fun y => - y).
    + eapply near_impl; [|exact (near_gt H)]. intros y Hy. cbn beta in Hy. now rewrite Rabs_left.
    + rewrite Rabs_left by assumption. eapply derive_eq; [|apply (derivable_pt_lim_opp (fun y => y) x 1), derivable_pt_lim_id].
      field. lra.
  - eapply derive_ext_near with (fun y => y).
    + eapply near_impl; [|exact (near_lt H)]. intros y Hy. cbn beta in Hy. now rewrite Rabs_right by lra.
    + rewrite Rabs_right by lra. eapply derive_eq; [|apply derivable_pt_lim_id]. field. lra.
Qed.
