(** Adjoint gradients of the objectives of simulations. *)
From Coq Require Import Reals Lra Psatz Ring Field.
From Verif Require Obj_Model.
From Verif Require Import Obj_Spec Obj_Proofs.
From Verif Require Import Base CField CField_Proofs LinAlg Maxwell_Model Maxwell_Spec Maxwell_Proofs Maxwell_Proofs2 Maxwell_Proofs3 SimCache_Model SimCache_Spec SimCache_Proofs.
From Verif Require Import Shape_Model GMath_Model GMath_Spec GMath_Proofs GMath_Proofs2 GMath_Proofs3 GMath_Proofs4 GMath_Proofs5 CplxField.
From Verif Require Adj_Model.
From Verif Require Import Adj_Spec Adj_Proofs Adj_Proofs2 Adj_Proofs3 Adj_Proofs4 EmObj_Model EmObj_Spec.
Set Implicit Arguments.
Local Open Scope R_scope.
Local Notation at_ := (at_ (K:=CC)).
Local Notation fsum := (fsum (K:=CC)).

Lemma samer_spec : forall a b, samer a b = true -> a = b.
Proof.
  induction a as [|x a IH]; intros [|y b] H; cbn in H; try discriminate; [reflexivity|].
  destruct (Req_EM_T x y) as [->|]; [|discriminate]. cbn in H. now rewrite (IH b H).
Qed.
Lemma samer_pair (k k' : list R * list C) : samer (fst k) (fst k') && Adj_Model.same (snd k) (snd k') = true -> k = k'.
Proof. intros H. apply andb_prop in H as [H1 H2]. apply samer_spec in H1. apply same_spec in H2. destruct k, k'. cbn in *. congruence. Qed.

Section Em.
Variable g : grid CC.
Variable ph : phases CC.
Variables p pc : nat -> C.
Variable inner : mat CC -> list C -> list C.
Variable omega : R.
Variable src bg : list C.
Variable S : nat -> nat -> C.
Variable n : nat.
Local Notation N := (vlen g).
Local Notation wave := (Adj_Model.wave g ph omega).
Local Notation run := (Adj_Model.run g ph p inner omega).
Local Notation run_fields := (run_fields g ph p inner omega src bg S n).
Local Notation run_adj := (run_adjoint_sim g ph pc inner omega bg S n).
Local Notation sim_fields := (sim_fields g ph p inner omega src bg S n).
Local Notation sim_adjoint := (sim_adjoint g ph pc inner omega bg S n).
Local Notation eps_of := (eps_of g bg S n).

(** ** Caches *)
Definition sane (s : sim) : Prop :=
  faithful run_fields (s_cache s) /\ s_cache s <> [] /\
  faithful (fun k : list R * list C => run_adj (fst k) (snd k)) (s_adj s) /\ s_adj s <> [].
Lemma sim_fields_sane s z : sane s -> sane (fst (sim_fields s z)) /\ snd (sim_fields s z) = run_fields z.
Proof.
  intros (F1 & N1 & F2 & N2). unfold EmObj_Model.sim_fields. pose proof (@simulate_spec _ _ samer run_fields samer_spec (s_cache s) z F1 N1) as H.
  destruct (simulate samer run_fields (s_cache s) z) as [[c r] b]. destruct H as (-> & Hf & Hl). cbn [fst snd s_cache s_adj]. split; [|reflexivity].
  split; [exact Hf|]. split; [exact (len_ne N1 Hl)|]. now split.
Qed.
Lemma sim_adjoint_sane s z J : sane s -> sane (fst (sim_adjoint s z J)) /\ snd (sim_adjoint s z J) = run_adj z J.
Proof.
  intros (F1 & N1 & F2 & N2). unfold EmObj_Model.sim_adjoint.
  pose proof (@simulate_spec _ _ (fun k k' : list R * list C => samer (fst k) (fst k') && Adj_Model.same (snd k) (snd k')) (fun k => run_adj (fst k) (snd k)) samer_pair (s_adj s) (z, J) F2 N2) as H.
  destruct (simulate _ _ (s_adj s) (z, J)) as [[c r] b]. destruct H as (-> & Hf & Hl). cbn [fst snd s_cache s_adj]. split; [|reflexivity].
  split; [exact F1|]. split; [exact N1|]. split; [exact Hf|exact (len_ne N2 Hl)].
Qed.
Lemma reachable_sane k l : (1 <= k)%nat -> sane (do_calls g ph p pc inner omega src bg S n (new_sim k) l).
Proof.
  intros Hk. assert (H : sane (new_sim k)) by (repeat split; try (apply faithful_empty); now apply empty_ne).
  revert H. generalize (new_sim k). induction l as [|c l IH]; intros s Hs; [exact Hs|]. cbn [do_calls fold_left]. apply IH. destruct c; cbn [do_call].
  - now apply sim_fields_sane.
  - now apply sim_adjoint_sane.
Qed.
Lemma value_pure o s z : sane s -> snd (em_value g ph p inner omega src bg S n o s z) = bind (run_fields z) (fun E => o_f o E z).
Proof.
  intros Hs. unfold em_value. destruct (@sim_fields_sane s z Hs) as [_ E]. destruct (sim_fields s z) as [s1 r]. cbn [snd] in *. now rewrite E.
Qed.
Definition pure_gradient (o : objective) (z : list R) (m : nat) (jac : list (list R)) : res (list R) :=
  bind (run_fields z) (fun E => bind (o_dx o E z) (fun px => bind (run_adj z (Adj_Model.adjoint_current omega px)) (fun d =>
    Ok (pull_back m jac (map (fun xy => fst xy + snd xy) (combine (df_dz g omega S n d E) (o_dz o E z))))))).
Lemma gradient_pure o s z m jac : sane s -> snd (em_gradient g ph p pc inner omega src bg S n o s z m jac) = pure_gradient o z m jac.
Proof.
  intros Hs. unfold em_gradient, pure_gradient. destruct (@sim_fields_sane s z Hs) as [H1 E]. destruct (sim_fields s z) as [s1 r]. cbn [fst snd] in *. rewrite E.
  destruct (run_fields z) as [F|e]; [|reflexivity]. cbn [bind]. destruct (o_dx o F z) as [px|e]; [|reflexivity]. cbn [bind].
  destruct (@sim_adjoint_sane s1 z (Adj_Model.adjoint_current omega px) H1) as [_ E2]. destruct (sim_adjoint s1 z (Adj_Model.adjoint_current omega px)) as [s2 r2]. cbn [snd] in *. now rewrite E2.
Qed.
Lemma get_epsilon_ok z : length z = n -> get_epsilon g bg S n z = Ok (eps_of z).
Proof. intros H. unfold get_epsilon. now rewrite H, Nat.eqb_refl. Qed.
Lemma run_fields_eq z : length z = n -> run_fields z = run false src (eps_of z).
Proof. intros H. unfold EmObj_Model.run_fields. now rewrite get_epsilon_ok. Qed.

(** ** The adjoint simulation *)
Hypothesis OK : sim_ok g p inner omega.
Hypothesis Hpc : is_sqrt (conj_grid g) pc.
Lemma conj_cells : nonzero_cells (conj_grid g).
Proof.
  intros a i Ha Hi. destruct (ok_cells OK Ha Hi) as [H1 H2]. cbn. split.
  - exact (@kconj_neq0 CC _ H1).
  - exact (@kconj_neq0 CC _ H2).
Qed.
Definition vol (k : nat) : C := at_ (vec g (p_squared g)) k.
Lemma vol_nz k : (k < N)%nat -> vol k <> c0.
Proof. intros Hk. exact (@p_squared_neq0 CC g (ok_cells OK) k Hk). Qed.
Definition cwave (eps : list C) : mat CC :=
  e_full (conj_grid g) (conj_phases (opposite ph)) (kconj (c:=CC) (creal omega)) (conj_fun (K:=CC) (at_ eps)) None None None.
Lemma herm_nonsingular eps : no_resonance g ph omega eps -> nonsingular (K:=CC) N (mherm (K:=CC) (wave eps)).
Proof.
  intros Hr. apply (@solvable_herm CC N _ (inner (wave eps))). intros b Hb. exact (ok_inner OK b Hr Hb).
Qed.
Lemma cwave_nonsingular eps : no_resonance g ph omega eps -> nonsingular (K:=CC) N (cwave eps).
Proof.
  intros Hr. pose proof (herm_nonsingular Hr) as Hh.
  eapply (@nonsingular_ext CC N (fun i j => kmul (c:=CC) (kmul (c:=CC) (kdiv (c:=CC) (k1 (c:=CC)) (kconj (c:=CC) (vol i))) (mherm (K:=CC) (wave eps) i j)) (kconj (c:=CC) (vol j)))).
  - intros i j Hi Hj. pose proof (@adjoint_entry CC g (ok_cells OK) ph (creal omega) (at_ eps) None None None i j I Hi Hj) as E. fold (vol i) (vol j) in E.
    change (conj_opt (K:=CC) None) with (@None (nat -> C)) in E. fold (cwave eps) in E.
    assert (Hz : kconj (c:=CC) (vol i) <> c0) by (apply (@kconj_neq0 CC), vol_nz, Hi).
    apply (@kmul_cancel CC (kconj (c:=CC) (vol i)) _ _ Hz). etransitivity; [|symmetry; exact E].
    pose proof (@kinv_l CC (kconj (c:=CC) (vol i)) Hz) as Hi1.
    transitivity (kmul (c:=CC) (kmul (c:=CC) (kmul (c:=CC) (kdiv (c:=CC) (k1 (c:=CC)) (kconj (c:=CC) (vol i))) (kconj (c:=CC) (vol i))) (mherm (K:=CC) (wave eps) i j)) (kconj (c:=CC) (vol j))).
    + generalize (kdiv (c:=CC) (k1 (c:=CC)) (kconj (c:=CC) (vol i))), (mherm (K:=CC) (wave eps) i j). intros x y. cr.
    + rewrite Hi1. unfold Adj_Model.wave. generalize (mherm (K:=CC) (e_full g ph (creal omega) (at_ eps) None None None) i j). intros y. cr.
  - apply (@nonsingular_scaled CC N (mherm (K:=CC) (wave eps)) (fun i => kdiv (c:=CC) (k1 (c:=CC)) (kconj (c:=CC) (vol i))) (fun j => kconj (c:=CC) (vol j))); [| |exact Hh].
    + intros i Hi E. pose proof (@kinv_l CC (kconj (c:=CC) (vol i)) (@kconj_neq0 CC _ (vol_nz Hi))) as Hi1. rewrite E in Hi1. apply (k1_neq_0 CC). rewrite <- Hi1. cr.
    + intros i Hi. apply (@kconj_neq0 CC), vol_nz, Hi.
Qed.
Lemma cprecond_nonsingular eps : no_resonance g ph omega eps -> nonsingular (K:=CC) N (preconditioned (conj_grid g) pc (cwave eps)).
Proof.
  intros H. eapply (@nonsingular_ext CC N (fun i j => kmul (c:=CC) (kmul (c:=CC) (pc i) (cwave eps i j)) (kdiv (c:=CC) (k1 (c:=CC)) (pc j)))).
  - intros i j Hi Hj. symmetry. exact (@precond_entry CC (conj_grid g) pc (cwave eps) i j Hi Hj).
  - apply (@nonsingular_scaled CC N (cwave eps) pc (fun j => kdiv (c:=CC) (k1 (c:=CC)) (pc j))); [| |exact (cwave_nonsingular H)].
    + intros i Hi. exact (@p_neq0 CC (conj_grid g) conj_cells pc Hpc i Hi).
    + intros i Hi E. pose proof (@p_neq0 CC (conj_grid g) conj_cells pc Hpc i Hi) as Hp. pose proof (@kinv_l CC (pc i) Hp) as Hinv. rewrite E in Hinv.
      apply (k1_neq_0 CC). rewrite <- Hinv. cr.
Qed.
(** outside the layers the adjoint simulation is the adjoint solve *)
Lemma adjoint_sim_spec z J : length z = n -> no_resonance g ph omega (eps_of z) -> length J = N ->
  (forall k, (k < N)%nat -> snd (vol k) = 0 \/ at_ J k = c0) ->
  exists d y, run_adj z J = Ok d /\ length d = N /\ run true J (eps_of z) = Ok y /\ length y = N /\
    forall k, (k < N)%nat -> snd (vol k) = 0 -> at_ d k = at_ y k.
Proof.
  intros Hz Hr HJ Hsup. destruct (@run_adjoint g ph p inner omega OK (eps_of z) J Hr HJ) as (y & Hy & Hly & Hm).
  unfold run_adjoint_sim. rewrite get_epsilon_ok by exact Hz. cbn [bind]. fold (cwave (eps_of z)).
  destruct (solve (conj_grid g) inner pc (cwave (eps_of z)) (kconj (c:=CC) (creal omega)) (adjoint_source g J) false false false) as [v|e] eqn:Ev; [|discriminate].
  destruct (@solve_forward_lemma CC (conj_grid g) conj_cells pc Hpc inner (cwave (eps_of z)) (kconj (c:=CC) (creal omega)) (adjoint_source g J) v) as [Hlv Hv]; [apply (@vbuild_length CC)| |exact Ev|].
  { intros b Hb. exact (ok_inner OK b (cprecond_nonsingular Hr) Hb). }
  assert (Hre : forall k, snd (vol k) = 0 <-> kconj (c:=CC) (vol k) = vol k).
  { intros k. destruct (vol k) as [a b]. cbn. split; intros H.
    - subst b. apply c_eq; cbn; ring.
    - injection H as H. lra. }
  destruct (@adjoint_simulation_pml_lemma CC g (ok_cells OK) ph (creal omega) (at_ (eps_of z)) None None None J v I HJ) as (x & Hlx & Hx & Hxd).
  { intros i Hi. destruct (Hsup i Hi) as [H|H]; [left; now apply Hre|right; exact H]. }
  { exact Hv. }
  assert (x = y) as <-.
  { apply (@nonsingular_inj CC N _ x y (herm_nonsingular Hr) Hlx Hly). etransitivity; [exact Hx|]. symmetry. etransitivity; [exact Hm|].
    assert (Hk : kconj (c:=CC) (creal omega) = creal omega) by (apply c_eq; cbn; ring). now rewrite Hk. }
  exists (adjoint_result g v), x. cbn [bind]. split; [reflexivity|]. split; [apply (@vbuild_length CC)|]. split; [exact Hy|]. split; [exact Hlx|].
  intros k Hk Hs. symmetry. apply Hxd; [exact Hk|]. now apply Hre.
Qed.

(** ** The gradient *)
Hypothesis Hsrc : length src = N.
Lemma df_dz_length d E : length (df_dz g omega S n d E) = n.
Proof. unfold df_dz. now rewrite map_length, seq_length. Qed.
Lemma df_dz_dot d E (dz : list R) : length dz = n -> length d = N -> length E = N ->
  dotr (df_dz g omega S n d E) dz = 2 * fst (fsum N (fun k => cmul (at_ (total_of omega d E) k) (at_ (eps_rate g S n dz) k))).
Proof.
  intros Hd Hld HlE. rewrite (@eps_pull g S n dz (total_of omega d E) Hd).
  rewrite !(@dotr_rs n) by (auto using eps_grad_length, df_dz_length). rewrite <- rs_scale. apply rs_ext. intros i Hi.
  rewrite eps_grad_at by exact Hi. unfold df_dz.
  set (F := fun i => 2 * fst (fsum N (fun k => cmul (cconj (at_ d k)) (cmul (cmul (creal (omega * omega)) (at_ E k)) (S k i))))).
  rewrite (nth_indep _ 0 (F n)) by (now rewrite map_length, seq_length). rewrite (map_nth F), seq_nth by exact Hi. unfold F. cbn [Nat.add].
  replace (fsum N (fun k => cmul (at_ (total_of omega d E) k) (S k i))) with (fsum N (fun k => cmul (cconj (at_ d k)) (cmul (cmul (creal (omega * omega)) (at_ E k)) (S k i)))); [ring|].
  apply (@fsum_ext CC). intros k Hk. rewrite (@total_at g) by auto. cr.
Qed.
End Em.
