(** The simulated fields and their adjoint gradient. *)
From Coq Require Import Reals Lra Psatz Ring Field.
From Verif Require Obj_Model.
From Verif Require Import Obj_Spec Obj_Proofs.
From Verif Require Import Base CField CField_Proofs LinAlg Maxwell_Model Maxwell_Spec Maxwell_Proofs Maxwell_Proofs2 SimCache_Model SimCache_Spec SimCache_Proofs.
From Verif Require Import Shape_Model GMath_Model GMath_Spec GMath_Proofs GMath_Proofs2 GMath_Proofs3 GMath_Proofs4 GMath_Proofs5 CplxField Adj_Model Adj_Spec Adj_Proofs.
Set Implicit Arguments.
Local Open Scope R_scope.
Local Notation at_ := (at_ (K:=CC)).
Local Notation fsum := (fsum (K:=CC)).

Section Fields.
Variable g : grid CC.
Variable ph : phases CC.
Variable p : nat -> C.
Variable inner : mat CC -> list C -> list C.
Variable omega : R.
Hypothesis OK : sim_ok g p inner omega.
Local Notation N := (vlen g).
Local Notation wave := (wave g ph omega).
Local Notation run := (run g ph p inner omega).

Definition curls : mat CC := fun i j => fsum N (fun k => cmul (cmul (curl_h g (uh ph) (wh ph) i k) (cmul c1 c1)) (curl_e g (ue ph) (we ph) k j)).
Definition qq : C := cmul (creal omega) (creal omega).
Lemma wave_shifted eps i j : (i < N)%nat -> (j < N)%nat -> wave eps i j = shifted curls qq (at_ eps) i j.
Proof.
  intros Hi Hj. unfold Adj_Model.wave. rewrite e_full_entry by auto. unfold maskv, invv, shifted, qq.
  change (cmul (cmul c1 (csub (curls i j) (cmul (cmul (creal omega) (creal omega)) (mdiag (K:=CC) (at_ eps) i j)))) c1 = csub (curls i j) (cmul (cmul (creal omega) (creal omega)) (mdiag (K:=CC) (at_ eps) i j))).
  cr.
Qed.
Lemma shifted_nonsingular eps : no_resonance g ph omega eps -> nonsingular (K:=CC) N (shifted curls qq (at_ eps)).
Proof. apply (@nonsingular_ext CC). intros. now apply wave_shifted. Qed.
Lemma nonsingular_shifted eps : nonsingular (K:=CC) N (shifted curls qq (at_ eps)) -> no_resonance g ph omega eps.
Proof. apply (@nonsingular_ext CC). intros. symmetry. now apply wave_shifted. Qed.

Lemma precond_nonsingular eps : no_resonance g ph omega eps -> nonsingular (K:=CC) N (preconditioned g p (wave eps)).
Proof.
  intros H. eapply (@nonsingular_ext CC N (fun i j => kmul (c:=CC) (kmul (c:=CC) (p i) (wave eps i j)) (kdiv (c:=CC) (k1 (c:=CC)) (p j)))).
  - intros i j Hi Hj. symmetry. now apply precond_entry.
  - apply (@nonsingular_scaled CC N (wave eps) p (fun j => kdiv (c:=CC) (k1 (c:=CC)) (p j))); [| |exact H].
    + intros i Hi. exact (@p_neq0 CC g (ok_cells OK) p (ok_sqrt OK) i Hi).
    + intros i Hi E. pose proof (@p_neq0 CC g (ok_cells OK) p (ok_sqrt OK) i Hi) as Hp. pose proof (@kinv_l CC (p i) Hp) as Hinv. rewrite E in Hinv.
      apply (k1_neq_0 CC). rewrite <- Hinv. cr.
Qed.
Lemma run_forward eps J : no_resonance g ph omega eps -> length J = N ->
  exists x, run false J eps = Ok x /\ length x = N /\ mv (K:=CC) N (wave eps) x = vscale (K:=CC) (kmul (c:=CC) (kopp (c:=CC) (ki (c:=CC))) (creal omega)) J.
Proof.
  intros Hr HJ. unfold Adj_Model.run, solve. eexists. split; [reflexivity|].
  apply (@solve_forward_lemma CC g (ok_cells OK) p (ok_sqrt OK) inner (wave eps) (creal omega) J); auto.
  intros b Hb. exact (ok_inner OK b (precond_nonsingular Hr) Hb).
Qed.
Lemma run_adjoint eps J : no_resonance g ph omega eps -> length J = N ->
  exists x, run true J eps = Ok x /\ length x = N /\ mv (K:=CC) N (mherm (K:=CC) (wave eps)) x = vscale (K:=CC) (kmul (c:=CC) (kopp (c:=CC) (ki (c:=CC))) (creal omega)) J.
Proof.
  intros Hr HJ. unfold Adj_Model.run, solve. eexists. split; [reflexivity|].
  apply (@solve_adjoint_lemma CC g (ok_cells OK) p (ok_sqrt OK) inner (wave eps) (creal omega) J); auto.
  assert (Hh : nonsingular (K:=CC) N (mherm (K:=CC) (preconditioned g p (wave eps)))).
  { apply (@solvable_herm CC N _ (inner (preconditioned g p (wave eps)))). intros b Hb. exact (ok_inner OK b (precond_nonsingular Hr) Hb). }
  intros b Hb. exact (ok_inner OK b Hh Hb).
Qed.
Lemma vscale_c a (J : list C) i : at_ (vscale (K:=CC) a J) i = cmul a (at_ J i).
Proof.
  unfold CField.at_, vscale. change (k0 (c:=CC)) with c0. destruct (Nat.lt_ge_cases i (length J)) as [H|H].
  - rewrite (nth_indep _ c0 (kmul (c:=CC) a c0)) by (now rewrite map_length). apply (map_nth (fun x => kmul (c:=CC) a x)).
  - rewrite !nth_overflow by (try rewrite map_length; auto). cr.
Qed.
Definition iw : C := cmul (copp imag_unit) (creal omega).
Lemma iw_nz : iw <> c0.
Proof.
  apply cmul_nz.
  - intros E. injection E. lra.
  - intros E. injection E. exact (ok_omega OK).
Qed.
Lemma adjoint_current_eq gv i : (i < length gv)%nat -> cmul iw (at_ (adjoint_current omega gv) i) = cconj (at_ gv i).
Proof.
  intros Hi. unfold adjoint_current. fold iw. unfold CField.at_. change (k0 (c:=CC)) with c0.
  rewrite (nth_indep _ c0 (cdiv (cconj c0) iw)) by (now rewrite map_length). rewrite (map_nth (fun x => cdiv (cconj x) iw)).
  unfold cdiv. transitivity (cmul (cmul iw (cinv iw)) (cconj (nth i gv c0))); [cr|]. rewrite (cinv_r iw_nz). cr.
Qed.

(** ** Gradient of the fields along a curve of permittivities *)
Variable src : list C.
Hypothesis Hsrc : length src = N.
Variable u : R -> list C.
Variable d : list C.
Variable t0 : R.
Hypothesis Hu : cmoves N u t0 d.
Hypothesis Hres : no_resonance g ph omega (u t0).
Definition bvec (i : nat) : C := cmul iw (at_ src i).
Definition fld (t : R) : list C := vector (run false src (u t)).

Lemma fld_near : near t0 (fun t => run false src (u t) = Ok (fld t) /\ length (fld t) = N /\ forall i, (i < N)%nat -> fsum N (fun j => cmul (shifted curls qq (at_ (u t)) i j) (at_ (fld t) j)) = bvec i).
Proof.
  eapply near_impl; [|apply (@near_nonsingular N curls qq inner (ok_inner OK) (at_ (u t0)) (shifted_nonsingular Hres) (fun t => at_ (u t)) (at_ d) t0)]; [| |apply Hu].
  - cbv beta. intros t Ht. apply nonsingular_shifted in Ht. destruct (@run_forward (u t) src Ht Hsrc) as (x & Hx & Hl & Hm). unfold fld. rewrite Hx. cbn [vector].
    split; [reflexivity|]. split; [exact Hl|]. intros i Hi. apply (f_equal (fun v => at_ v i)) in Hm. rewrite vscale_c in Hm.
    rewrite (@mv_at CC) in Hm by auto. unfold bvec. etransitivity; [|exact Hm]. apply (@fsum_ext CC). intros j Hj. change (@kmul CC) with cmul. now rewrite wave_shifted.
  - reflexivity.
Qed.
Definition fld' : list C := vbuild (K:=CC) N (x' N curls qq inner (at_ (u t0)) (at_ d) t0 fld).
Lemma fld'_length : length fld' = N.
Proof. apply (@vbuild_length CC). Qed.
Lemma fld_derive k : (k < N)%nat -> cderive (fun t => at_ (fld t) k) t0 (at_ fld' k).
Proof.
  intros Hk. unfold fld'. rewrite (@vbuild_at CC) by auto.
  apply (@derivative N curls qq inner (ok_inner OK) (at_ (u t0)) (shifted_nonsingular Hres) (fun t => at_ (u t)) (at_ d) t0) with (b := bvec).
  - reflexivity.
  - apply Hu.
  - eapply near_impl; [|exact fld_near]. cbv beta. tauto.
  - exact Hk.
Qed.
Lemma fld_pairing gv y : length gv = N -> run true (adjoint_current omega gv) (u t0) = Ok y ->
  length y = N /\ fsum N (fun i => cmul (at_ gv i) (at_ fld' i)) = fsum N (fun k => cmul (cmul (cconj (at_ y k)) (cmul (creal (omega * omega)) (at_ (fld t0) k))) (at_ d k)).
Proof.
  intros Hg Hy. destruct (@run_adjoint (u t0) (adjoint_current omega gv) Hres) as (y' & Hy' & Hl & Hm); [unfold adjoint_current; now rewrite map_length|].
  rewrite Hy in Hy'. injection Hy' as <-. split; [exact Hl|].
  assert (Hq : creal (omega * omega) = qq) by (unfold qq; cring). rewrite Hq.
  pose proof (@adjoint_pairing N curls qq inner (ok_inner OK) (at_ (u t0)) (shifted_nonsingular Hres) (at_ d) t0 fld (at_ gv) y Hl) as P.
  rewrite <- P.
  - apply (@fsum_ext CC). intros i Hi. unfold fld'. now rewrite (@vbuild_at CC).
  - intros i Hi. rewrite <- adjoint_current_eq by lia.
    apply (f_equal (fun v => at_ v i)) in Hm. rewrite vscale_c in Hm. unfold iw. etransitivity; [|exact Hm].
    rewrite !(@mv_at CC) by auto. apply (@fsum_ext CC). intros j Hj. unfold mherm. now rewrite wave_shifted.
Qed.
End Fields.
