(** Concrete objectives on a grid of two cells. *)
From Coq Require Import Reals Lra Psatz Ring Field.
From Verif Require Obj_Model.
From Verif Require Import Obj_Spec Obj_Proofs.
From Verif Require Import Base CField CField_Proofs LinAlg Maxwell_Model Maxwell_Spec SimCache_Model.
From Verif Require Import Shape_Model GMath_Model GMath_Spec GMath_Proofs GMath_Proofs2 GMath_Proofs3 GMath_Proofs4 GMath_Proofs5 CplxField.
From Verif Require Import Adj_Model.
From Verif Require Import Adj_Proofs6 Adj_Spec Adj_Proofs Adj_Proofs2 Adj_Proofs3 Adj_Proofs4 Adj_Proofs7 EmObj_Model EmObj_Spec EmObj_Proofs EmObj_Proofs2 EmObj_Proofs3 EmObj_Proofs4.
Set Implicit Arguments.
Local Open Scope R_scope.
Local Notation at_ := (at_ (K:=CC)).

Definition direct (q : list R) : list R := q.
Definition unit_jac (_ : list R) : list (list R) := [[1; 0]; [0; 1]].
Lemma direct_ok : param_ok direct unit_jac 2 [1; 1].
Proof.
  split; [intros q Hq; exact Hq|]. split; [reflexivity|]. intros i Hi. split; [destruct i as [|[|i]]; [reflexivity..|lia]|].
  intros P t0 d (H1 & H2 & H3 & H4). destruct d as [|d0 [|d1 [|]]]; try discriminate. unfold direct.
  destruct i as [|[|i]]; [..|lia].
  - eapply derive_eq; [|exact (H4 0%nat ltac:(cbn; lia))]. unfold dotr. cbn. ring.
  - eapply derive_eq; [|exact (H4 1%nat ltac:(cbn; lia))]. unfold dotr. cbn. ring.
Qed.
Lemma conj_sqrt2 : is_sqrt (conj_grid cells2) one_p.
Proof. intros i Hi. change (i < 6)%nat in Hi. destruct i as [|[|[|[|[|[|i]]]]]]; [..|lia]; vm_compute; apply c_eq; cbn; change R1 with 1; change R0 with 0; field. Qed.
Lemma volume2 k : (k < 6)%nat -> snd (cell_volume cells2 k) = 0.
Proof. intros Hk. destruct k as [|[|[|[|[|[|k]]]]]]; [..|lia]; vm_compute; ring. Qed.
Lemma outside2 c : outside_layers cells2 c sel2 2.
Proof. intros k Hk. left. now apply volume2. Qed.
Lemma eps_11 : get_epsilon cells2 bg2 sel2 2 (direct [1; 1]) = Ok [c1; c1; c1; c1; c1; c1].
Proof. rewrite get_epsilon_ok by reflexivity. unfold direct. now rewrite eps2. Qed.
Lemma fields2 x y : (2 - x) * (2 - y) - 4 <> 0 -> run_fields cells2 flat_phases one_p solver2 1 src2 bg2 sel2 2 [x; y] = Ok (E2 x y).
Proof. intros H. rewrite run_fields_eq by reflexivity. rewrite eps2. now apply run2. Qed.
Definition probe2 : list C := [c0; c0; c1; c0; c0; c0].
Lemma probe_field x y : cdot probe2 (E2 x y) = ((2 - y) / ((2 - x) * (2 - y) - 4), 2 / ((2 - x) * (2 - y) - 4)).
Proof. unfold E2. cbn. apply c_eq; cbn; ring. Qed.
Lemma amplitude2 t : Rabs t < 1 -> amplitude probe2 (E2 (1 + t) 1) = sqrt 5 / (3 + t).
Proof.
  intros Ht. apply Rabs_def2 in Ht. unfold amplitude. rewrite probe_field. unfold cabs. cbn [fst snd].
  replace ((2 - 1) / ((2 - (1 + t)) * (2 - 1) - 4) * ((2 - 1) / ((2 - (1 + t)) * (2 - 1) - 4)) + 2 / ((2 - (1 + t)) * (2 - 1) - 4) * (2 / ((2 - (1 + t)) * (2 - 1) - 4)))
    with (5 / ((3 + t) * (3 + t))) by (field; lra).
  rewrite sqrt_div by nra. f_equal. apply sqrt_square. lra.
Qed.
Lemma probe_nz : cdot probe2 (E2 1 1) <> c0.
Proof. rewrite probe_field. intros H. apply (f_equal fst) in H. cbn in H. lra. Qed.
Definition ms2 : list (list C * (R * R)) := [(probe2, (2, 2))].
Lemma sqrt5 : 2 < sqrt 5 < 3.
Proof.
  pose proof (sqrt_def 5 ltac:(lra)) as H. pose proof (sqrt_pos 5) as H0. split; nra.
Qed.
Lemma amp11 : amplitude probe2 (E2 1 1) < 2.
Proof. replace (E2 1 1) with (E2 (1 + 0) 1) by (now rewrite Rplus_0_r). rewrite amplitude2 by (rewrite Rabs_R0; lra). pose proof sqrt5. lra. Qed.
Lemma ms2_ok r : forall m, In m ms2 -> length (fst m) = vlen cells2 /\ outside_layers cells2 (fst m) sel2 2 /\ cdot (fst m) (E2 1 1) <> c0 /\ fst (snd m) <= snd (snd m) /\
     ((1 <= r)%nat \/ amplitude (fst m) (E2 1 1) <> fst (snd m) /\ amplitude (fst m) (E2 1 1) <> snd (snd m)).
Proof.
  intros m [<-|[]]. cbn [fst snd]. split; [reflexivity|]. split; [apply outside2|]. split; [exact probe_nz|]. split; [lra|]. right. pose proof amp11. split; lra.
Qed.
Lemma no_res11 : no_resonance cells2 flat_phases 1 [c1; c1; c1; c1; c1; c1].
Proof. apply (@no_res_xy 1 1). lra. Qed.
Lemma basic_refuted_pf : exists g ph p pc inner omega src bg S n r ms structure jac q eps E gr,
  sim_ok g p inner omega /\ is_sqrt (conj_grid g) pc /\ length src = vlen g /\ param_ok structure jac n q /\
  get_epsilon g bg S n (structure q) = Ok eps /\ no_resonance g ph omega eps /\ run_fields g ph p inner omega src bg S n (structure q) = Ok E /\
  (forall m, In m ms -> length (fst m) = vlen g /\ outside_layers g (fst m) S n /\ cdot (fst m) E <> c0 /\ fst (snd m) <= snd (snd m) /\
     amplitude (fst m) E <> fst (snd m) /\ amplitude (fst m) E <> snd (snd m)) /\
  snd (em_gradient g ph p pc inner omega src bg S n (basic_obj g r ms) (new_sim 1) (structure q) (length q) (jac q)) = Ok gr /\
  ~ is_gradient (fun w => real (snd (em_value g ph p inner omega src bg S n (basic_obj g r ms) (new_sim 1) (structure w)))) q gr.
Proof.
  destruct (@basic_gradient_pf cells2 flat_phases one_p one_p solver2 1 src2 bg2 sel2 2 sim_ok2 conj_sqrt2 eq_refl 1 (le_n 1) 0 ms2 direct unit_jac [1; 1] _ _
     direct_ok eps_11 no_res11 (@fields2 1 1 ltac:(lra)) ltac:(discriminate) (ms2_ok 0)) as (gr & H1 & H2).
  exists cells2, flat_phases, one_p, one_p, solver2, 1, src2, bg2, sel2, 2%nat, 0%nat, ms2, direct, unit_jac, [1; 1], [c1; c1; c1; c1; c1; c1], (E2 1 1), gr.
  split; [exact sim_ok2|]. split; [exact conj_sqrt2|]. split; [reflexivity|]. split; [exact direct_ok|]. split; [exact eps_11|]. split; [exact no_res11|].
  split; [exact (@fields2 1 1 ltac:(lra))|]. split.
  { intros m Hm. destruct (@ms2_ok 0%nat m Hm) as (A1 & A2 & A3 & A4 & [A5|A5]); [lia|tauto]. }
  split; [exact (H1 [])|]. intros [_ Hbad]. specialize (H2 []). destruct H2 as [_ HG]. cbn [do_calls fold_left] in HG.
  set (P := fun t : R => [1 + t; 1]).
  assert (HP : Obj_Spec.moves P 0 [1; 1] [1; 0]).
  { split; [unfold P; now rewrite Rplus_0_r|]. split; [reflexivity|]. split; [reflexivity|]. intros j Hj. destruct j as [|[|j]]; [..|cbn in Hj; lia]; unfold P; cbn [nth].
    - eapply derive_eq; [|apply (derivable_pt_lim_plus (fun _ => 1) (fun t => t) 0 0 1); [apply derivable_pt_lim_const|apply derivable_pt_lim_id]]. ring.
    - apply derivable_pt_lim_const. }
  specialize (HG P 0 [1; 0] HP). specialize (Hbad P 0 [1; 0] HP). cbv beta in HG, Hbad.
  set (V := fun t => real (snd (em_value cells2 flat_phases one_p solver2 1 src2 bg2 sel2 2 (basic_obj cells2 0 ms2) (new_sim 1) (direct (P t))))) in *.
  assert (HG' : derivable_pt_lim V 0 (- dotr gr [1; 0])).
  { eapply derive_eq; [|apply (@derive_ext_near (fun t => - 1 * ((-1) ^ 1 * V t))); [|apply derive_scale; exact HG]].
    - ring.
    - apply (@near_open _ 0 1); [lra|]. intros t _. ring. }
  pose proof (uniqueness_limite _ _ _ _ Hbad HG') as U1.
  assert (HV : near 0 (fun t => 2 - sqrt 5 / (3 + t) = V t)).
  { apply (@near_open _ 0 1); [lra|]. intros t Ht. rewrite Rminus_0_r in Ht. unfold V.
    assert (Hd : (2 - (1 + t)) * (2 - 1) - 4 <> 0) by (apply Rabs_def2 in Ht; lra).
    destruct (@basic_value_pf cells2 flat_phases one_p one_p solver2 1 src2 bg2 sel2 2 1 (le_n 1) 0 ms2 [] (direct (P t)) (E2 (1 + t) 1)) as (v & Hv & Hv2 & _).
    - apply fields2, Hd.
    - reflexivity.
    - intros m [<-|[]]. cbn [fst snd]. split; [reflexivity|lra].
    - cbn [do_calls fold_left] in Hv. rewrite Hv. cbn [real]. rewrite Hv2. unfold ms2. cbn [map fst snd]. unfold Obj_Model.rsum. cbn [fold_right pow].
      rewrite amplitude2 by exact Ht. apply Rabs_def2 in Ht. assert (Hs : sqrt 5 / (3 + t) < 2).
      { apply Rmult_lt_reg_r with (3 + t); [lra|]. unfold Rdiv. rewrite Rmult_assoc, Rinv_l, Rmult_1_r by lra. pose proof sqrt5. nra. }
      unfold excess, Rmax. repeat (destruct (Rle_dec _ _)); lra. }
  assert (HD : derivable_pt_lim V 0 (sqrt 5 / 9)).
  { eapply derive_ext_near; [exact HV|].
    eapply derive_eq; [|apply (derivable_pt_lim_minus (fun _ => 2) (fun t => sqrt 5 / (3 + t)) 0 0 (- (sqrt 5 / 9))); [apply derivable_pt_lim_const|]]; [ring|].
    eapply derive_eq; [|apply (derivable_pt_lim_div (fun _ => sqrt 5) (fun t => 3 + t) 0 0 1); [apply derivable_pt_lim_const| |lra]].
    - unfold Rsqr. field.
    - eapply derive_eq; [|apply (derivable_pt_lim_plus (fun _ => 3) (fun t => t) 0 0 1); [apply derivable_pt_lim_const|apply derivable_pt_lim_id]]. ring. }
  pose proof (uniqueness_limite _ _ _ _ Hbad HD) as U2. pose proof sqrt5. lra.
Qed.
