(** Caches, the simulation node, and the graphs built on it. *)
From Coq Require Import Reals Lra Psatz Ring Field.
From Verif Require Obj_Model.
From Verif Require Import Obj_Spec Obj_Proofs.
From Verif Require Import Base CField CField_Proofs LinAlg Maxwell_Model Maxwell_Spec Maxwell_Proofs Maxwell_Proofs2 Maxwell_Proofs3 Maxwell_Proofs4 SimCache_Model SimCache_Spec SimCache_Proofs.
From Verif Require Import Shape_Model GMath_Model GMath_Spec GMath_Proofs GMath_Proofs2 GMath_Proofs3 GMath_Proofs4 GMath_Proofs5 CplxField Adj_Model Adj_Spec Adj_Proofs Adj_Proofs2.
Set Implicit Arguments.
Local Open Scope R_scope.
Local Notation at_ := (at_ (K:=CC)).
Local Notation fsum := (fsum (K:=CC)).

(** ** Sums *)
Lemma fst_fsum n (f : nat -> C) : fst (fsum n f) = rs n (fun k => fst (f k)).
Proof. induction n as [|n IH]; cbn [CField.fsum rs]; [reflexivity|]. rewrite <- IH. reflexivity. Qed.
Lemma rsum_app (a b : list R) : Obj_Model.rsum (a ++ b) = Obj_Model.rsum a + Obj_Model.rsum b.
Proof. unfold Obj_Model.rsum. induction a as [|x a IH]; cbn; [ring|]. rewrite IH. ring. Qed.
Lemma rsum_seq n (f : nat -> R) : Obj_Model.rsum (map f (seq 0 n)) = rs n f.
Proof. induction n as [|n IH]; [reflexivity|]. rewrite seq_S, map_app, rsum_app, IH. cbn. ring. Qed.
Lemma rs_ext n f h : (forall i, (i < n)%nat -> f i = h i) -> rs n f = rs n h.
Proof. induction n as [|n IH]; intros H; cbn; [reflexivity|]. rewrite IH, (H n) by auto with arith. reflexivity. Qed.
Lemma cdot_fsum : forall n (a b : list C), length a = n -> length b = n -> cdot a b = fsum n (fun k => cmul (at_ a k) (at_ b k)).
Proof.
  assert (P : forall n (f : nat -> C), fsum (S n) f = cadd (f 0%nat) (fsum n (fun i => f (S i)))).
  { induction n as [|n IH]; intros f; [cbn; cr|]. change (fsum (S (S n)) f) with (cadd (fsum (S n) f) (f (S n))). rewrite IH.
    change (fsum (S n) (fun i => f (S i))) with (cadd (fsum n (fun i => f (S i))) (f (S n))). cr. }
  intros n a. revert n. induction a as [|x a IH]; intros [|n] [|y b] Ha Hb; try discriminate; [reflexivity|].
  rewrite P. cbn [cdot]. rewrite (IH n b) by (cbn in *; lia). reflexivity.
Qed.
Lemma dotr_rs n (a b : list R) : length a = n -> length b = n -> dotr a b = rs n (fun k => nth k a 0 * nth k b 0).
Proof.
  intros Ha Hb. unfold dotr. rewrite (combine_nth_map _ _ _ 0 0) by congruence. rewrite Ha. apply (@rsum_seq n (fun k => nth k a 0 * nth k b 0)).
Qed.

(** ** Caches *)
Lemma ceq_spec x y : ceq x y = true -> x = y.
Proof. unfold ceq. destruct (Req_EM_T (fst x) (fst y)); [|discriminate]. destruct (Req_EM_T (snd x) (snd y)); [|discriminate]. intros _. now apply c_eq. Qed.
Lemma ceq_refl x : ceq x x = true.
Proof. unfold ceq. destruct (Req_EM_T (fst x) (fst x)); [|congruence]. destruct (Req_EM_T (snd x) (snd x)); [reflexivity|congruence]. Qed.
Lemma same_spec : forall a b, same a b = true -> a = b.
Proof.
  induction a as [|x a IH]; intros [|y b] H; cbn in H; try discriminate; [reflexivity|].
  apply andb_prop in H as [H1 H2]. now rewrite (ceq_spec _ _ H1), (IH b H2).
Qed.
Lemma same_refl : forall a, same a a = true.
Proof. induction a as [|x a IH]; cbn; [reflexivity|]. now rewrite ceq_refl. Qed.
Lemma same_pair (k k' : list C * list C) : same (fst k) (fst k') && same (snd k) (snd k') = true -> k = k'.
Proof. intros H. apply andb_prop in H as [H1 H2]. apply same_spec in H1, H2. destruct k, k'. cbn in *. congruence. Qed.

Section Sim.
Variable g : grid CC.
Variable ph : phases CC.
Variable p : nat -> C.
Variable inner : mat CC -> list C -> list C.
Variable omega : R.
Variable src : list C.
Local Notation N := (vlen g).
Local Notation run := (run g ph p inner omega).
Local Notation sim_eval := (sim_eval g ph p inner omega src).
Local Notation sim_grad := (sim_grad g ph p inner omega src).

(** what a simulation without caches returns *)
Definition pure_grad (eps : arr) (gv : list C) : res (list C) :=
  bind (run false src (dat eps)) (fun E => bind (run true (adjoint_current omega gv) (dat eps)) (fun d =>
  let total := map (fun de => cmul (cconj (fst de)) (cmul (creal (omega * omega)) (snd de))) (combine d E) in
  Ok (if cpx eps then total else map (fun z => creal (fst z)) total))).
Definition sane (s : fsim) : Prop :=
  faithful (run false src) (fs_cache s) /\ fs_cache s <> [] /\
  faithful (fun k => run true (snd k) (fst k)) (fs_adj s) /\ fs_adj s <> [].
Lemma len_ne {A} (a b : list A) : a <> [] -> length b = length a -> b <> [].
Proof. intros H E ->. apply H. now destruct a. Qed.
Lemma sim_fields_sane s eps : sane s -> sane (fst (sim_fields g ph p inner omega src s eps)) /\ snd (sim_fields g ph p inner omega src s eps) = run false src eps.
Proof.
  intros (F1 & N1 & F2 & N2). unfold sim_fields. pose proof (@simulate_spec _ _ same (run false src) same_spec (fs_cache s) eps F1 N1) as H.
  destruct (simulate same (run false src) (fs_cache s) eps) as [[c r] b]. destruct H as (-> & Hf & Hl). cbn [fst snd fs_cache fs_adj]. split; [|reflexivity].
  split; [exact Hf|]. split; [exact (len_ne N1 Hl)|]. now split.
Qed.
Lemma sim_adjoint_sane s eps J : sane s -> sane (fst (sim_adjoint g ph p inner omega s eps J)) /\ snd (sim_adjoint g ph p inner omega s eps J) = run true J eps.
Proof.
  intros (F1 & N1 & F2 & N2). unfold sim_adjoint.
  pose proof (@simulate_spec _ _ (fun k k' : list C * list C => same (fst k) (fst k') && same (snd k) (snd k')) (fun k => run true (snd k) (fst k)) same_pair (fs_adj s) (eps, J) F2 N2) as H.
  destruct (simulate _ _ (fs_adj s) (eps, J)) as [[c r] b]. destruct H as (-> & Hf & Hl). cbn [fst snd fs_cache fs_adj]. split; [|reflexivity].
  split; [exact F1|]. split; [exact N1|]. split; [exact Hf|exact (len_ne N2 Hl)].
Qed.
Lemma sim_grad_sane s eps gv : sane s -> sane (fst (sim_grad s eps gv)) /\ snd (sim_grad s eps gv) = pure_grad eps gv.
Proof.
  intros Hs. unfold Adj_Model.sim_grad, pure_grad. destruct (@sim_fields_sane s (dat eps) Hs) as [H1 E1].
  destruct (sim_fields g ph p inner omega src s (dat eps)) as [s1 r1]. cbn [fst snd] in H1, E1. subst r1.
  destruct (run false src (dat eps)) as [E|e]; [|split; [exact H1|reflexivity]]. cbn [bind].
  destruct (@sim_adjoint_sane s1 (dat eps) (adjoint_current omega gv) H1) as [H2 E2].
  destruct (sim_adjoint g ph p inner omega s1 (dat eps) (adjoint_current omega gv)) as [s2 r2]. cbn [fst snd] in H2, E2. subst r2.
  destruct (run true (adjoint_current omega gv) (dat eps)) as [d|e]; (split; [exact H2|reflexivity]).
Qed.
Lemma new_sane n : (1 <= n)%nat -> sane (new_sim n).
Proof. intros H. repeat split; try (apply faithful_empty); now apply empty_ne. Qed.
Lemma calls_sane l : forall s, sane s -> sane (do_calls g ph p inner omega src s l).
Proof.
  induction l as [|c l IH]; intros s Hs; [exact Hs|]. cbn [do_calls fold_left]. apply IH. destruct c; cbn [do_call].
  - now apply sim_fields_sane.
  - now apply sim_grad_sane.
Qed.
Lemma reachable_sane n l : (1 <= n)%nat -> sane (do_calls g ph p inner omega src (new_sim n) l).
Proof. intros H. apply calls_sane, (new_sane H). Qed.

(** ** The node *)
Hypothesis OK : sim_ok g p inner omega.
Hypothesis Hsrc : length src = N.
Definition total_of (d E : list C) : list C := map (fun de => cmul (cconj (fst de)) (cmul (creal (omega * omega)) (snd de))) (combine d E).
Lemma total_length d E : length d = N -> length E = N -> length (total_of d E) = N.
Proof. intros H1 H2. unfold total_of. rewrite map_length, combine_length. lia. Qed.
Lemma total_at d E k : length d = N -> length E = N -> (k < N)%nat -> at_ (total_of d E) k = cmul (cconj (at_ d k)) (cmul (creal (omega * omega)) (at_ E k)).
Proof.
  intros H1 H2 Hk. unfold total_of. rewrite (combine_nth_map _ _ _ c0 c0) by congruence. rewrite H1. unfold CField.at_.
  change (k0 (c:=CC)) with c0. rewrite (nth_indep _ c0 (cmul (cconj (nth N d c0)) (cmul (creal (omega * omega)) (nth N E c0)))) by (now rewrite map_length, seq_length).
  rewrite (map_nth (fun k => cmul (cconj (nth k d c0)) (cmul (creal (omega * omega)) (nth k E c0)))). now rewrite seq_nth.
Qed.
Lemma node_gradient cplx u d t0 : cmoves N u t0 d -> no_resonance g ph omega (u t0) -> (cplx = false -> real_entries d) ->
  exists E', length E' = N /\
    near t0 (fun t => run false src (u t) = Ok (fld g ph p inner omega src u t) /\ length (fld g ph p inner omega src u t) = N) /\
    (forall k, (k < N)%nat -> cderive (fun t => at_ (fld g ph p inner omega src u t) k) t0 (at_ E' k)) /\
    forall gv, length gv = N -> exists grad, pure_grad (mkarr cplx (u t0)) gv = Ok grad /\ length grad = N /\
      (cplx = false -> real_entries grad) /\
      fst (fsum N (fun k => cmul (at_ gv k) (at_ E' k))) = fst (fsum N (fun k => cmul (at_ grad k) (at_ d k))) /\
      forall S : nat -> C, (cplx = false -> forall k, (k < N)%nat -> snd (S k) = 0) ->
        fst (fsum N (fun k => cmul (at_ grad k) (S k))) = fst (fsum N (fun k => cmul (at_ (total_of (vector (run true (adjoint_current omega gv) (u t0))) (fld g ph p inner omega src u t0)) k) (S k))).
Proof.
  intros Hu Hr Hreal. exists (fld' g ph p inner omega src u d t0). split; [apply fld'_length|]. split; [|split].
  - eapply near_impl; [|exact (@fld_near g ph p inner omega OK src Hsrc u d t0 Hu Hr)]. cbv beta. tauto.
  - intros k Hk. exact (@fld_derive g ph p inner omega OK src Hsrc u d t0 Hu Hr k Hk).
  - intros gv Hg. pose proof (near_at (@fld_near g ph p inner omega OK src Hsrc u d t0 Hu Hr)) as (HE & HlE & _).
    destruct (@run_adjoint g ph p inner omega OK (u t0) (adjoint_current omega gv) Hr) as (y & Hy & Hly & _); [unfold adjoint_current; now rewrite map_length|].
    destruct (@fld_pairing g ph p inner omega OK src Hsrc u d t0 Hr gv y Hg Hy) as [_ HP].
    set (E := fld g ph p inner omega src u t0) in *.
    assert (HT : length (total_of y E) = N) by now apply total_length.
    assert (Hmap : forall f k, (k < N)%nat -> at_ (map f (total_of y E)) k = f (at_ (total_of y E) k)).
    { intros f k Hk. unfold CField.at_. change (k0 (c:=CC)) with c0. rewrite (nth_indep _ c0 (f c0)) by (rewrite map_length; lia). apply map_nth. }
    assert (HS : forall S : nat -> C, (cplx = false -> forall k, (k < N)%nat -> snd (S k) = 0) ->
        fst (fsum N (fun k => cmul (at_ (if cplx then total_of y E else map (fun z => creal (fst z)) (total_of y E)) k) (S k))) = fst (fsum N (fun k => cmul (at_ (total_of y E) k) (S k)))).
    { intros S HS. destruct cplx; [reflexivity|]. rewrite !fst_fsum. apply rs_ext. intros k Hk. rewrite Hmap by auto. specialize (HS eq_refl k Hk).
      unfold cmul, creal. cbn [fst snd]. rewrite HS. ring. }
    exists (if cplx then total_of y E else map (fun z => creal (fst z)) (total_of y E)). split; [|split; [|split; [|split]]].
    + unfold pure_grad. cbn [dat cpx]. rewrite HE. cbn [bind]. rewrite Hy. reflexivity.
    + destruct cplx; [exact HT|now rewrite map_length].
    + intros ->. apply Forall_forall. intros z Hz. apply in_map_iff in Hz as (z' & <- & _). reflexivity.
    + rewrite HS.
      * rewrite HP. f_equal. apply (@fsum_ext CC). intros k Hk. now rewrite total_at.
      * intros Ec k Hk. pose proof (Hreal Ec) as Hf. assert (Hld : length d = N) by apply Hu. unfold real_entries in Hf. rewrite Forall_forall in Hf. apply Hf. apply nth_In. eapply Nat.lt_le_trans; [exact Hk|]. apply Nat.eq_le_incl. symmetry. exact Hld.
    + intros S HS'. rewrite Hy. cbn [vector]. now apply HS.
Qed.

(** ** From the design variables to the fields *)
Variable cplx : bool.
Variable bg : list C.
Variable S : nat -> nat -> C.
Variable n : nat.
Hypothesis HS : cplx = false -> forall k i, (k < N)%nat -> (i < n)%nat -> snd (S k i) = 0.
Definition eps_of (z : list R) : list C :=
  vbuild (K:=CC) N (fun k => cadd (at_ bg k) (fsum n (fun i => cmul (S k i) (creal (nth i z 0))))).
Lemma eps_eval_ok z : length z = n -> eps_eval g cplx bg S n z = Ok (mkarr cplx (eps_of z)).
Proof. intros H. unfold eps_eval. now rewrite H, Nat.eqb_refl. Qed.
Lemma eps_grad_length gv : length (eps_grad g S n gv) = n.
Proof. unfold eps_grad. now rewrite map_length, seq_length. Qed.
Lemma eps_grad_at gv i : (i < n)%nat -> nth i (eps_grad g S n gv) 0 = fst (fsum N (fun k => cmul (at_ gv k) (S k i))).
Proof.
  intros Hi. unfold eps_grad. rewrite (nth_indep _ 0 (fst (fsum N (fun k => cmul (at_ gv k) (S k n))))) by (now rewrite map_length, seq_length).
  rewrite (map_nth (fun i => fst (fsum N (fun k => cmul (at_ gv k) (S k i))))). now rewrite seq_nth.
Qed.
Section Curve.
Variable P : R -> list R.
Variable t0 : R.
Variable z d : list R.
Hypothesis Hz : length z = n.
Hypothesis HP : Obj_Spec.moves P t0 z d.
Definition eps_rate : list C := vbuild (K:=CC) N (fun k => fsum n (fun i => cmul (S k i) (creal (nth i d 0)))).
Lemma eps_moves : cmoves N (fun t => eps_of (P t)) t0 eps_rate.
Proof.
  destruct HP as (H1 & H2 & H3 & H4). split; [intros t; apply (@vbuild_length CC)|]. split; [apply (@vbuild_length CC)|].
  intros k Hk. apply (@cd_ext (fun t => cadd (at_ bg k) (fsum n (fun i => cmul (S k i) (creal (nth i (P t) 0)))))).
  - intros t. symmetry. unfold eps_of. exact (@vbuild_at CC _ _ _ Hk).
  - assert (Hs : cderive (fun t => fsum n (fun i => cmul (S k i) (creal (nth i (P t) 0)))) t0 (fsum n (fun i => cmul (S k i) (creal (nth i d 0))))).
    { apply (@cd_fsum n (fun i t => cmul (S k i) (creal (nth i (P t) 0))) (fun i => cmul (S k i) (creal (nth i d 0)))).
      intros i Hi. apply cd_scale, cd_real, H4. lia. }
    eapply cd_eq; [|exact (cd_add (cd_const (at_ bg k) t0) Hs)].
    unfold eps_rate. etransitivity; [|symmetry; exact (@vbuild_at CC _ _ _ Hk)]. cr.
Qed.
Lemma eps_rate_real : cplx = false -> real_entries eps_rate.
Proof.
  intros E. apply Forall_forall. intros w Hw. unfold eps_rate, vbuild in Hw. apply in_map_iff in Hw as (k & <- & Hk). apply in_seq in Hk.
  assert (H : forall m, (m <= n)%nat -> snd (fsum m (fun i => cmul (S k i) (creal (nth i d 0)))) = 0).
  { induction m as [|m IH]; intros Hm; [reflexivity|]. cbn [CField.fsum]. change (snd (cadd (fsum m (fun i => cmul (S k i) (creal (nth i d 0)))) (cmul (S k m) (creal (nth m d 0)))) = 0).
    specialize (IH ltac:(lia)). revert IH. generalize (fsum m (fun i => cmul (S k i) (creal (nth i d 0)))). intros X IH.
    unfold cadd, cmul, creal. cbn [fst snd]. rewrite IH. rewrite (HS E) by lia. ring. }
  apply H. lia.
Qed.
Lemma eps_pull (gr : list C) : length d = n ->
  fst (fsum N (fun k => cmul (at_ gr k) (at_ eps_rate k))) = dotr (eps_grad g S n gr) d.
Proof.
  intros Hd. rewrite (@dotr_rs n) by (auto using eps_grad_length).
  rewrite (@rs_ext n _ (fun i => fst (fsum N (fun k => cmul (cmul (at_ gr k) (S k i)) (creal (nth i d 0)))))).
  - rewrite <- fst_fsum. f_equal. pose proof (@fsum_swap CC n N (fun i k => cmul (cmul (at_ gr k) (S k i)) (creal (nth i d 0)))) as Hs. rewrite Hs.
    apply (@fsum_ext CC). intros k Hk. unfold eps_rate. rewrite (@vbuild_at CC) by auto.
    etransitivity; [symmetry; exact (@fsum_scale CC n (at_ gr k) (fun i => cmul (S k i) (creal (nth i d 0))))|]. apply (@fsum_ext CC). intros i Hi. change (@kmul CC) with cmul. cr.
  - intros i Hi. rewrite eps_grad_at by auto. replace (fsum N (fun k => cmul (cmul (at_ gr k) (S k i)) (creal (nth i d 0)))) with (cmul (fsum N (fun k => cmul (at_ gr k) (S k i))) (creal (nth i d 0))).
    + generalize (fsum N (fun k => cmul (at_ gr k) (S k i))). intros X. unfold cmul, creal. cbn [fst snd]. ring.
    + symmetry. exact (@fsum_scale_r CC N (creal (nth i d 0)) (fun k => cmul (at_ gr k) (S k i))).
Qed.
End Curve.

(** a function of the fields with gradient [gv]: its gradient with respect to the design variables *)
Lemma chain (f : list C -> R) (gv : list C) z : length z = n -> length gv = N -> no_resonance g ph omega (eps_of z) ->
  (forall (E : R -> list C) E' t0, near t0 (fun t => length (E t) = N) -> length E' = N -> E t0 = vector (run false src (eps_of z)) ->
     (forall k, (k < N)%nat -> cderive (fun t => at_ (E t) k) t0 (at_ E' k)) ->
     derivable_pt_lim (fun t => f (E t)) t0 (fst (fsum N (fun k => cmul (at_ gv k) (at_ E' k))))) ->
  exists E ge, run false src (eps_of z) = Ok E /\ pure_grad (mkarr cplx (eps_of z)) gv = Ok ge /\
    forall F, (forall w E, length w = n -> run false src (eps_of w) = Ok E -> F w = f E) -> is_gradient F z (eps_grad g S n ge).
Proof.
  intros Hz Hg Hr Hf.
  assert (Hge : exists ge, pure_grad (mkarr cplx (eps_of z)) gv = Ok ge /\ run false src (eps_of z) = Ok (vector (run false src (eps_of z)))).
  { destruct (@node_gradient cplx (fun _ => eps_of z) (repeat c0 N) 0) as (E' & _ & Hn & _ & Hgr).
    - split; [intros; apply (@vbuild_length CC)|]. split; [apply repeat_length|]. intros k Hk. change (creal 0) with c0. rewrite nth_repeat. apply cd_const.
    - exact Hr.
    - intros _. apply Forall_forall. intros w Hw. apply repeat_spec in Hw as ->. reflexivity.
    - destruct (Hgr gv Hg) as (ge & Hge & _). exists ge. split; [exact Hge|]. exact (proj1 (near_at Hn)). }
  destruct Hge as (ge & Hge & Hrun). exists (vector (run false src (eps_of z))), ge. split; [exact Hrun|]. split; [exact Hge|].
  intros F HF. split; [rewrite eps_grad_length; auto|]. intros P t0 d HP. pose proof HP as (H1 & H2 & H3 & H4).
  assert (Hm := @eps_moves P t0 z d Hz HP).
  destruct (@node_gradient cplx (fun t => eps_of (P t)) (eps_rate d) t0 Hm) as (E' & HlE & Hn & Hd & Hgr).
  - rewrite H1. exact Hr.
  - eapply eps_rate_real; eassumption.
  - destruct (Hgr gv Hg) as (ge' & Hge' & Hl' & _ & Hpair & _). cbv beta in Hge'. rewrite H1, Hge in Hge'. injection Hge' as <-.
    apply (@derive_ext_near (fun t => f (fld g ph p inner omega src (fun t => eps_of (P t)) t))).
    + eapply near_impl; [|exact Hn]. cbv beta. intros t (Hrt & _). symmetry. apply HF; [rewrite H3; exact Hz|exact Hrt].
    + eapply derive_eq; [|apply (Hf _ E' t0)].
      * rewrite Hpair. apply eps_pull. lia.
      * eapply near_impl; [|exact Hn]. cbv beta. tauto.
      * exact HlE.
      * unfold fld. now rewrite H1.
      * exact Hd.
Qed.
End Sim.
