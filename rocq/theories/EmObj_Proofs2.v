(** The gradient of an objective is exact when objective and design stay outside the layers. *)
From Coq Require Import Reals Lra Psatz Ring Field.
From Verif Require Obj_Model.
From Verif Require Import Obj_Spec Obj_Proofs.
From Verif Require Import Base CField CField_Proofs LinAlg Maxwell_Model Maxwell_Spec SimCache_Model.
From Verif Require Import Shape_Model GMath_Model GMath_Spec GMath_Proofs GMath_Proofs2 GMath_Proofs3 GMath_Proofs4 GMath_Proofs5 CplxField.
From Verif Require Adj_Model.
From Verif Require Import Adj_Spec Adj_Proofs Adj_Proofs2 Adj_Proofs3 Adj_Proofs4 EmObj_Model EmObj_Spec EmObj_Proofs.
Set Implicit Arguments.
Local Open Scope R_scope.
Local Notation at_ := (at_ (K:=CC)).
Local Notation fsum := (fsum (K:=CC)).

Lemma nth_map_seq (F : nat -> R) m i : (i < m)%nat -> nth i (map F (seq 0 m)) 0 = F i.
Proof. intros H. rewrite (nth_indep _ 0 (F m)) by (now rewrite map_length, seq_length). rewrite (map_nth F), seq_nth by exact H. reflexivity. Qed.
Lemma rs_swap n m (f : nat -> nat -> R) : rs n (fun i => rs m (fun j => f i j)) = rs m (fun j => rs n (fun i => f i j)).
Proof.
  induction n as [|n IH]; cbn [rs].
  - induction m as [|m IH]; cbn [rs]; [reflexivity|]. rewrite <- IH. ring.
  - rewrite IH. now rewrite rs_plus.
Qed.
Lemma sum_dot (a b d : list R) : length a = length d -> length b = length d ->
  dotr (map (fun xy => fst xy + snd xy) (combine a b)) d = dotr a d + dotr b d.
Proof.
  intros Ha Hb. rewrite !(@dotr_rs (length d)) by (rewrite ?map_length, ?combine_length; lia). rewrite <- rs_plus. apply rs_ext. intros i Hi.
  rewrite (combine_nth_map _ _ _ 0 0) by congruence. rewrite Ha. cbn [fst snd]. rewrite (@nth_map_seq (fun k => nth k a 0 + nth k b 0)) by exact Hi. ring.
Qed.
Lemma pull_back_dot n m (jac : list (list R)) v dq : length jac = n -> length v = n -> length dq = m ->
  (forall i, (i < n)%nat -> length (nth i jac []) = m) ->
  dotr (pull_back m jac v) dq = dotr v (map (fun row => dotr row dq) jac).
Proof.
  intros Hj Hv Hq Hr. assert (Hl : length (pull_back m jac v) = m) by (unfold pull_back; now rewrite map_length, seq_length).
  rewrite (@dotr_rs m _ _ Hl Hq), (@dotr_rs n _ (map (fun row => dotr row dq) jac) Hv ltac:(now rewrite map_length)).
  rewrite (@rs_ext n _ (fun i => rs m (fun j => nth i v 0 * nth j (nth i jac []) 0 * nth j dq 0))).
  - rewrite rs_swap. apply rs_ext. intros j Hj'. unfold pull_back. rewrite nth_map_seq by exact Hj'.
    rewrite (combine_nth_map _ _ _ [] 0) by congruence. rewrite Hj. cbn [fst snd]. rewrite (@rsum_seq n (fun k => nth j (nth k jac []) 0 * nth k v 0)).
    rewrite Rmult_comm, <- rs_scale. apply rs_ext. intros i Hi. ring.
  - intros i Hi. rewrite (nth_indep (map (fun row => dotr row dq) jac) 0 (dotr [] dq)) by (rewrite map_length; lia). rewrite (map_nth (fun row => dotr row dq)).
    rewrite (@dotr_rs m _ dq (Hr i Hi) Hq). rewrite <- rs_scale. apply rs_ext. intros j _. ring.
Qed.
(** a curve of parameters is a curve of structures *)
Lemma structure_moves structure jac n q P t0 dq : param_ok structure jac n q -> moves P t0 q dq ->
  moves (fun t => structure (P t)) t0 (structure q) (map (fun row => dotr row dq) (jac q)).
Proof.
  intros (H1 & H2 & H3) HP. pose proof HP as (P1 & P2 & P3 & P4). pose proof (H1 q eq_refl) as Hq.
  split; [now rewrite P1|]. split; [rewrite map_length; lia|]. split; [intros t; rewrite Hq; apply H1, P3|].
  intros j Hj. rewrite Hq in Hj. destruct (H3 j Hj) as [_ H]. specialize (H P t0 dq HP). cbv beta in H.
  eapply derive_eq; [|exact H]. rewrite (nth_indep _ 0 (dotr [] dq)) by (rewrite map_length; lia). now rewrite (map_nth (fun row => dotr row dq)).
Qed.

Section Em.
Variable g : grid CC.
Variable ph : phases CC.
Variables p pc : nat -> C.
Variable inner : mat CC -> list C -> list C.
Variable omega : R.
Variable src bg : list C.
Variable S : nat -> nat -> C.
Variable n : nat.
Local Notation N := (vlen g).
Local Notation run := (Adj_Model.run g ph p inner omega).
Local Notation run_fields := (run_fields g ph p inner omega src bg S n).
Local Notation run_adj := (run_adjoint_sim g ph pc inner omega bg S n).
Local Notation eps_of := (eps_of g bg S n).
Hypothesis OK : sim_ok g p inner omega.
Hypothesis Hpc : is_sqrt (conj_grid g) pc.
Hypothesis Hsrc : length src = N.

Lemma current_support gv : length gv = N -> forall k, (k < N)%nat -> at_ gv k = c0 -> at_ (Adj_Model.adjoint_current omega gv) k = c0.
Proof.
  intros Hg k Hk H0. pose proof (@adjoint_current_eq g p inner omega OK gv k (eq_ind_r (fun m => (k < m)%nat) Hk Hg)) as E. rewrite H0 in E.
  pose proof (@iw_nz g p inner omega OK) as Hn. apply (@kmul_cancel CC (iw omega) _ _ Hn). etransitivity; [exact E|]. apply c_eq; cbn; ring.
Qed.
Lemma fields_exist z : length z = n -> no_resonance g ph omega (eps_of z) -> exists E, run_fields z = Ok E /\ length E = N.
Proof.
  intros Hz Hr. rewrite run_fields_eq by exact Hz. destruct (@run_forward g ph p inner omega OK (eps_of z) src Hr Hsrc) as (x & Hx & Hl & _). eauto.
Qed.
Lemma gradient_lemma o structure jac q E px : param_ok structure jac n q -> no_resonance g ph omega (eps_of (structure q)) ->
  run_fields (structure q) = Ok E -> differentiates N o E (structure q) px -> outside_layers g px S n ->
  exists gr, pure_gradient g ph p pc inner omega src bg S n o (structure q) (length q) (jac q) = Ok gr /\
    is_gradient (fun w => real (bind (run_fields (structure w)) (fun E => o_f o E (structure w)))) q gr.
Proof.
  intros Hpar Hr HE (Hdx & Hlx & Hlz & Hd) Hout. pose proof Hpar as (Hs1 & Hs2 & Hs3).
  set (z := structure q) in *. assert (Hz : length z = n) by (apply Hs1; reflexivity).
  set (J := Adj_Model.adjoint_current omega px). assert (HJ : length J = N) by (unfold J, Adj_Model.adjoint_current; now rewrite map_length).
  destruct (@adjoint_sim_spec g ph p pc inner omega bg S n OK Hpc z J Hz Hr HJ) as (d & y & Hd1 & Hd2 & Hy1 & Hy2 & Hdy).
  { intros k Hk. destruct (Hout k Hk) as [H|[H _]]; [left; exact H|right]. now apply current_support. }
  destruct (@fields_exist z Hz Hr) as (E0 & HE0 & HlE). rewrite HE in HE0. injection HE0 as <-.
  set (tot := map (fun xy => fst xy + snd xy) (combine (df_dz g omega S n d E) (o_dz o E z))).
  exists (pull_back (length q) (jac q) tot). split.
  { unfold pure_gradient. rewrite HE. cbn [bind]. rewrite Hdx. cbn [bind]. fold J. rewrite Hd1. reflexivity. }
  assert (Heq : df_dz g omega S n d E = df_dz g omega S n y E).
  { unfold df_dz. apply map_ext_in. intros i Hi. apply in_seq in Hi. f_equal. f_equal. apply (@fsum_ext CC). intros k Hk.
    destruct (Hout k Hk) as [H|[_ H]].
    - now rewrite (Hdy k Hk H).
    - rewrite H by lia. change (creal 0) with c0. cr. }
  assert (Htl : length tot = n) by (unfold tot; rewrite map_length, combine_length, df_dz_length; lia).
  split; [unfold pull_back; now rewrite map_length, seq_length|]. intros P t0 dq HP.
  pose proof (structure_moves Hpar HP) as HM. set (dz := map (fun row => dotr row dq) (jac q)) in *.
  assert (Hdz : length dz = n) by (unfold dz; rewrite map_length; exact Hs2).
  pose proof HM as (M1 & M2 & M3 & M4). cbv beta in M1. fold z in HM, M1, M3.
  pose proof (@eps_moves g src Hsrc bg S n (fun t => structure (P t)) t0 z dz Hz HM) as Hmv.
  destruct (@node_gradient g ph p inner omega src OK Hsrc true (fun t => eps_of (structure (P t))) (eps_rate g S n dz) t0 Hmv) as (E' & HlE' & Hnear & Hder & Hgr).
  { rewrite M1. exact Hr. }
  { discriminate. }
  destruct (Hgr px Hlx) as (ge & _ & _ & _ & Hpair & Htot). specialize (Htot (at_ (eps_rate g S n dz)) ltac:(discriminate)). cbv beta in Htot. rewrite M1 in Htot. fold J in Htot. rewrite Hy1 in Htot. cbn [vector] in Htot.
  assert (HF0 : fld g ph p inner omega src (fun t => eps_of (structure (P t))) t0 = E).
  { unfold fld. rewrite M1. rewrite <- run_fields_eq by exact Hz. now rewrite HE. }
  rewrite HF0 in Htot.
  set (fl := fld g ph p inner omega src (fun t => eps_of (structure (P t)))) in *.
  apply (@derive_ext_near (fun t => (fun E z => real (o_f o E z)) (fl t) (structure (P t)))).
  - eapply near_impl; [|exact Hnear]. cbv beta. intros t (Hrt & _). rewrite run_fields_eq by (rewrite M3; exact Hz). rewrite Hrt. reflexivity.
  - eapply derive_eq; [|apply (Hd fl E' (fun t => structure (P t)) dz t0)].
    + rewrite (@pull_back_dot n (length q)); [|exact Hs2|exact Htl|apply HP|].
      2: { intros i Hi. destruct (Hs3 i Hi) as [Hl _]. exact Hl. }
      unfold tot. fold dz. rewrite sum_dot by (rewrite ?df_dz_length, ?Hlz, ?Hdz, ?Hz; reflexivity). rewrite Heq.
      rewrite (@df_dz_dot g omega S n y E dz Hdz Hy2 HlE). rewrite <- Htot.
      rewrite (@cdot_fsum N px E' Hlx HlE'). rewrite Hpair. reflexivity.
    + eapply near_impl; [|exact Hnear]. cbv beta. tauto.
    + exact HF0.
    + exact HlE'.
    + exact Hder.
    + exact HM.
Qed.
End Em.
