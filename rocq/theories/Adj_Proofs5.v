(** The three graphs: permittivity, simulation, measurement. *)
From Coq Require Import Reals Lra Psatz Ring Field.
From Verif Require Obj_Model.
From Verif Require Import Obj_Spec Obj_Proofs.
From Verif Require Import Base CField CField_Proofs LinAlg Maxwell_Model Maxwell_Spec Maxwell_Proofs Maxwell_Proofs2 Maxwell_Proofs3 Maxwell_Proofs4 SimCache_Model SimCache_Spec SimCache_Proofs.
From Verif Require Import Shape_Model GMath_Model GMath_Spec GMath_Proofs GMath_Proofs2 GMath_Proofs3 GMath_Proofs4 GMath_Proofs5 CplxField Adj_Model Adj_Spec Adj_Proofs Adj_Proofs2 Adj_Proofs3 Adj_Proofs4.
Set Implicit Arguments.
Local Open Scope R_scope.
Local Notation at_ := (at_ (K:=CC)).
Local Notation fsum := (fsum (K:=CC)).

Section Graphs.
Variable g : grid CC.
Variable ph : phases CC.
Variable p : nat -> C.
Variable inner : mat CC -> list C -> list C.
Variable omega : R.
Variable src : list C.
Variable cplx : bool.
Variable bg : list C.
Variable S : nat -> nat -> C.
Variable n : nat.
Local Notation N := (vlen g).
Local Notation run := (run g ph p inner omega).
Local Notation eps_of := (eps_of g bg S n).
Hypothesis OK : sim_ok g p inner omega.
Hypothesis Hsrc : length src = N.
Hypothesis HS : cplx = false -> forall k i, (k < N)%nat -> (i < n)%nat -> snd (S k i) = 0.
Local Notation sane := (sane g ph p inner omega src).

Lemma value_eq {A} (m : list C -> A) s z : sane s -> length z = n ->
  snd (match eps_eval g cplx bg S n z with
       | Err e => (s, Err e)
       | Ok eps => let (s1, r) := sim_eval g ph p inner omega src s eps in (s1, bind r (fun E => Ok (m E)))
       end) = bind (run false src (eps_of z)) (fun E => Ok (m E)).
Proof.
  intros Hs Hz. rewrite eps_eval_ok by auto. unfold sim_eval. cbn [dat].
  destruct (sim_fields_sane (eps_of z) Hs) as [_ H]. destruct (sim_fields g ph p inner omega src s (eps_of z)) as [s1 r]. cbn [snd] in *. now rewrite H.
Qed.
Lemma overlap_graph c s z gv : sane s -> length c = N -> length z = n -> no_resonance g ph omega (eps_of z) ->
  real (snd (abs_overlap_value g ph p inner omega src cplx bg S n c s z)) <> 0 ->
  exists gr, snd (abs_overlap_gradient g ph p inner omega src cplx bg S n c s z gv) = Ok gr /\
    forall s', sane s' -> is_gradient (fun w => gv * real (snd (abs_overlap_value g ph p inner omega src cplx bg S n c s' w))) z gr.
Proof.
  intros Hs Hc Hz Hr Hnz. unfold abs_overlap_value in Hnz. rewrite value_eq in Hnz by auto.
  destruct (@run_forward g ph p inner omega OK (eps_of z) src Hr Hsrc) as (E0 & HE0 & HlE0 & _).
  rewrite HE0 in Hnz. cbn [bind real] in Hnz.
  assert (Ho : overlap_eval g c E0 <> c0).
  { intros E. apply Hnz. unfold abs_eval. rewrite E. unfold cabs, cn2, c0, creal. cbn [fst snd]. replace (0 * 0 + 0 * 0) with 0 by ring. apply sqrt_0. }
  destruct (@abs_overlap_derive g c gv (fun _ => E0) (repeat c0 N) 0 Hc Ho) as (go & Hgo & _).
  { intros k Hk. unfold CField.at_. change (k0 (c:=CC)) with c0. rewrite nth_repeat. apply cd_const. }
  destruct (@chain g ph p inner omega src OK Hsrc cplx bg S n HS (fun E => gv * abs_eval (overlap_eval g c E)) (overlap_grad c go) z Hz) as (E1 & ge & HE1 & Hge & HG).
  - unfold overlap_grad. now rewrite map_length.
  - exact Hr.
  - intros E E' t0 Hn HlE' HEt Hd. rewrite HE0 in HEt. cbn [vector] in HEt.
    destruct (@abs_overlap_derive g c gv E E' t0 Hc) as (go' & Hgo' & Hder); [now rewrite HEt|exact Hd|]. rewrite HEt, Hgo in Hgo'. injection Hgo' as <-. exact Hder.
  - exists (eps_grad g S n ge). split.
    + unfold abs_overlap_gradient. rewrite eps_eval_ok by auto. unfold sim_eval. cbn [dat].
      destruct (sim_fields_sane (eps_of z) Hs) as [Hs1 H]. destruct (sim_fields g ph p inner omega src s (eps_of z)) as [s1 r]. cbn [fst snd] in *. subst r. rewrite HE0, Hgo.
      destruct (sim_grad_sane {| cpx := cplx; dat := eps_of z |} (overlap_grad c go) Hs1) as [_ H2]. destruct (sim_grad g ph p inner omega src s1 _ _) as [s2 r2]. cbn [snd] in *. subst r2. rewrite Hge. reflexivity.
    + intros s' Hs'. apply HG. intros w E Hw HE. unfold abs_overlap_value. rewrite value_eq by auto. rewrite HE. reflexivity.
Qed.

(** ** power *)
Section Power.
Variable gd : grid CC.
Hypothesis Hgd : vlen gd = N.
Hypothesis Hreal : real_cells gd.
Variable plane : nat -> bool.
Variable pol : R.
Lemma power_graph s z gv : sane s -> length z = n -> no_resonance g ph omega (eps_of z) ->
  exists gr, snd (power_gradient g ph p inner omega src cplx bg S n gd plane pol s z gv) = Ok gr /\
    forall s', sane s' -> is_gradient (fun w => gv * real (snd (power_value g ph p inner omega src cplx bg S n gd plane pol s' w))) z (map (Rmult 2) gr).
Proof.
  intros Hs Hz Hr.
  destruct (@run_forward g ph p inner omega OK (eps_of z) src Hr Hsrc) as (E0 & HE0 & HlE0 & _).
  destruct (@chain g ph p inner omega src OK Hsrc cplx bg S n HS (fun E => / 2 * (gv * power_eval omega gd plane pol E)) (power_grad omega gd plane pol E0 gv) z Hz) as (E1 & ge & HE1 & Hge & HG).
  - rewrite <- Hgd. apply (@vbuild_length CC).
  - exact Hr.
  - intros E E' t0 Hn HlE' HEt Hd. rewrite HE0 in HEt. cbn [vector] in HEt. rewrite <- HEt.
    eapply derive_eq; [|apply derive_scale; apply (@power_derive gd omega (ok_omega OK) Hreal plane pol E E' t0); [now rewrite Hgd|intros k Hk; apply Hd; now rewrite <- Hgd]].
    rewrite Hgd. field.
  - exists (eps_grad g S n ge). split.
    + unfold power_gradient. rewrite eps_eval_ok by auto. unfold sim_eval. cbn [dat].
      destruct (sim_fields_sane (eps_of z) Hs) as [Hs1 H]. destruct (sim_fields g ph p inner omega src s (eps_of z)) as [s1 r]. cbn [fst snd] in *. subst r. rewrite HE0.
      destruct (sim_grad_sane {| cpx := cplx; dat := eps_of z |} (power_grad omega gd plane pol E0 gv) Hs1) as [_ H2]. destruct (sim_grad g ph p inner omega src s1 _ _) as [s2 r2]. cbn [snd] in *. subst r2. rewrite Hge. reflexivity.
    + intros s' Hs'.
      destruct (HG (fun w => / 2 * (gv * real (snd (power_value g ph p inner omega src cplx bg S n gd plane pol s' w))))) as [Hl Hd].
      { intros w E Hw HE. unfold power_value. rewrite value_eq by auto. rewrite HE. reflexivity. }
      split; [now rewrite map_length|]. intros P t0 d HP. specialize (Hd P t0 d HP).
      apply (@derive_ext (fun t => 2 * (/ 2 * (gv * real (snd (power_value g ph p inner omega src cplx bg S n gd plane pol s' (P t))))))); [intros t; field|].
      eapply derive_eq; [|apply derive_scale; exact Hd].
      destruct HP as (_ & Hld & _). rewrite eps_grad_length in Hl.
      rewrite (@dotr_rs n) by (rewrite ?eps_grad_length; lia). rewrite (@dotr_rs n) by (rewrite ?map_length, ?eps_grad_length; lia).
      rewrite <- rs_scale. apply rs_ext. intros i Hi. rewrite (nth_indep (map _ _) 0 (2 * 0)) by (now rewrite map_length, eps_grad_length).
      rewrite map_nth. ring.
Qed.
End Power.

(** ** difference from a reference permittivity *)
Lemma cabs_pow2 x : cabs x ^ 2 = cn2 x.
Proof. rewrite <- (cabs_sqr x). ring. Qed.
Lemma diff_graph ref z gv : length ref = N -> length z = n ->
  exists gr, diff_gradient g cplx bg S n ref z gv = Ok gr /\
    is_gradient (fun w => gv * real (diff_value g cplx bg S n ref w)) z gr.
Proof.
  intros Hlr Hz. exists (eps_grad g S n (diff_grad ref (eps_of z) gv)). split.
  - unfold diff_gradient. now rewrite eps_eval_ok by auto.
  - split; [rewrite eps_grad_length; auto|]. intros P t0 d HP. pose proof HP as (H1 & H2 & H3 & H4).
    pose proof (@eps_moves g ref Hlr bg S n P t0 z d Hz HP) as (M1 & M2 & M3). rewrite <- (@eps_pull g S n d) by lia.
    set (u := fun t => eps_of (P t)) in *.
    apply (@derive_ext (fun t => gv * Obj_Model.rsum (map (fun k => cn2 (csub (at_ (u t) k) (at_ ref k))) (seq 0 N)))).
    + intros t. unfold diff_value. rewrite eps_eval_ok by (rewrite H3; auto). cbn [bind real dat]. f_equal. unfold diff_eval.
      rewrite (combine_nth_map _ _ _ c0 c0) by (now rewrite (M1 t), Hlr). unfold eps_of, Adj_Proofs3.eps_of. rewrite (@vbuild_length CC). f_equal. apply map_ext. intros k. now rewrite cabs_pow2.
    + eapply derive_eq; [|apply derive_scale; apply (@derive_rsum nat (fun k t => cn2 (csub (at_ (u t) k) (at_ ref k))) (fun k => 2 * fst (cmul (cconj (csub (at_ (u t0) k) (at_ ref k))) (at_ (eps_rate g S n d) k))))].
      * rewrite rsum_seq, fst_fsum, <- rs_scale. apply rs_ext. intros k Hk.
        assert (E : at_ (diff_grad ref (eps_of z) gv) k = cmul (creal gv) (cmul (creal 2) (cconj (csub (at_ (u t0) k) (at_ ref k))))).
        { unfold u. rewrite H1. unfold diff_grad. rewrite (combine_nth_map _ _ _ c0 c0) by (rewrite Hlr; apply (@vbuild_length CC)).
          unfold eps_of, Adj_Proofs3.eps_of. rewrite (@vbuild_length CC). unfold CField.at_ at 1. now rewrite (@map_nth_uniform C) by auto. }
        rewrite E. generalize (at_ (eps_rate g S n d) k), (csub (at_ (u t0) k) (at_ ref k)). intros [a b] [a' b']. cbv [cmul cconj creal fst snd]. ring.
      * intros k Hk. apply in_seq in Hk. eapply derive_eq; [|apply cd_n2]; [reflexivity|].
        eapply cd_eq; [|apply (cd_sub (M3 k (proj2 Hk)) (cd_const (at_ ref k) t0))]. cbv [csub c0 creal fst snd]. apply c_eq; cbn; apply Rminus_0_r.
Qed.
End Graphs.
