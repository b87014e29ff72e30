(** The derivative of an eigenfrequency. *)
From Coq Require Import Reals Lra Lia Psatz.
From Verif Require Obj_Model.
From Verif Require Import Base CField CField_Proofs GMath_Model GMath_Proofs CplxField Maxwell_Model Maxwell_Spec Maxwell_Proofs Phc_Model Phc_Spec Phc_Proofs Phc_Proofs2 Phc_Proofs3 Phc_Props Adj_Proofs Adj_Proofs3 Eig_Model Eig_Spec.
Set Implicit Arguments.
Local Open Scope R_scope.

(** ** difference quotients *)
Definition quot (f : R -> R) (l t : R) : R := if Req_EM_T t 0 then l else (f t - f 0) / t.
Lemma quot_spec f l t : f t - f 0 = t * quot f l t.
Proof. unfold quot. destruct (Req_EM_T t 0) as [->|H]; [ring|field; exact H]. Qed.
Lemma quot_0 f l : quot f l 0 = l.
Proof. unfold quot. destruct (Req_EM_T 0 0); [reflexivity|lra]. Qed.
Lemma quot_cont f l : derivable_pt_lim f 0 l -> continuity_pt (quot f l) 0.
Proof.
  intros H e He. destruct (H e He) as (d & Hd). exists d. split; [apply (cond_pos d)|]. intros x [[_ Hx] Hl]. cbn in Hl |- *. unfold R_dist in *. rewrite quot_0.
  unfold quot. destruct (Req_EM_T x 0) as [->|Hn]; [exfalso; apply Hx; reflexivity|]. rewrite Rminus_0_r in Hl. specialize (Hd x Hn Hl). rewrite Rplus_0_l in Hd. exact Hd.
Qed.
Lemma quot_deriv f q r : continuity_pt q 0 -> 0 < r -> (forall t, Rabs t < r -> f t - f 0 = t * q t) -> derivable_pt_lim f 0 (q 0).
Proof.
  intros Hc Hr Hq e He. destruct (Hc e He) as (d & Hd & Hl). assert (Hm : 0 < Rmin d r) by (apply Rmin_pos; assumption). exists (mkposreal _ Hm).
  intros h Hh Hb. cbn in Hb. rewrite Rplus_0_l, Hq by (eapply Rlt_le_trans; [exact Hb|apply Rmin_r]). replace (h * q h / h) with (q h) by (field; exact Hh).
  apply Hl. split; [split; [exact I|intros X; apply Hh; symmetry; exact X]|]. cbn. unfold R_dist. rewrite Rminus_0_r. eapply Rlt_le_trans; [exact Hb|apply Rmin_l].
Qed.
Lemma cont_rs n (f : nat -> R -> R) : (forall i, (i < n)%nat -> continuity_pt (f i) 0) -> continuity_pt (fun t => rs n (fun i => f i t)) 0.
Proof.
  induction n as [|n IH]; intros H; cbn [rs].
  - apply continuity_pt_const. intros ? ?. reflexivity.
  - apply (continuity_pt_plus (fun t => rs n (fun i => f i t)) (f n)); [apply IH; auto with arith|apply H; auto with arith].
Qed.
Lemma near_positive f : continuity_pt f 0 -> 0 < f 0 -> exists r, 0 < r /\ forall t, Rabs t < r -> 0 < f t.
Proof.
  intros H P. destruct (H (f 0) P) as (d & Hd & Hl). exists d. split; [exact Hd|]. intros t Ht. destruct (Req_EM_T t 0) as [->|Hn]; [exact P|].
  specialize (Hl t). cbn in Hl. unfold R_dist in Hl. rewrite Rminus_0_r in Hl. specialize (Hl (conj (conj I (fun E => Hn (eq_sym E))) Ht)). apply Rabs_def2 in Hl. lra.
Qed.

Section Path.
Variable g : grid CC.
Variable ph : phases CC.
Variables (eps : R -> nat -> R) (w : R -> R) (E : R -> list C) (delta : nat -> R).
Local Notation N := (vlen g).
Hypothesis Hg : positive_cells g.
Hypothesis Hu : uniform_cells g.
Hypothesis Hb : real_bloch ph.
Hypothesis He : forall i, (i < N)%nat -> 0 < eps 0 i.
Hypothesis Hd : path_direction g eps delta.
Hypothesis Hm : mode_path g ph eps w E.
Hypothesis Hw : 0 < w 0.
Local Notation at_ := (at_ (K:=CC)).

(** the real part of conj(E 0) (E t) *)
Definition pr (i : nat) (t : R) : R := fst (at_ (E 0) i) * fst (at_ (E t) i) + snd (at_ (E 0) i) * snd (at_ (E t) i).
Lemma pr_cont i : (i < N)%nat -> continuity_pt (pr i) 0.
Proof.
  intros Hi. destruct (path_E Hm Hi) as [A B]. unfold pr.
  apply (continuity_pt_plus (fun t => fst (at_ (E 0) i) * fst (at_ (E t) i)) (fun t => snd (at_ (E 0) i) * snd (at_ (E t) i))).
  - apply (continuity_pt_mult (fun _ => fst (at_ (E 0) i)) (fun t => fst (at_ (E t) i))); [apply continuity_pt_const; intros ? ?; reflexivity|exact A].
  - apply (continuity_pt_mult (fun _ => snd (at_ (E 0) i)) (fun t => snd (at_ (E t) i))); [apply continuity_pt_const; intros ? ?; reflexivity|exact B].
Qed.
Definition vol (i : nat) : R := fst (at_ (vec g (p_squared g)) i).
Lemma vol_pos i : (i < N)%nat -> positive (at_ (vec g (p_squared g)) i).
Proof. exact (@pos_p2 g Hg i). Qed.
Lemma e_product_re (e : nat -> R) t : fst (e_product g (real_eps e) (E 0) (E t)) = rs N (fun i => vol i * (e i * pr i t)).
Proof.
  unfold e_product. rewrite (@fst_fsum N). apply rs_ext. intros i Hi. destruct (vol_pos Hi) as [Im _]. unfold vol, pr, real_eps.
  change (@kmul CC) with cmul. change (@kconj CC) with cconj. unfold cmul, cconj, creal. cbn [fst snd]. rewrite Im. ring.
Qed.
Definition dsum (t : R) : R := rs N (fun i => vol i * (quot (fun t => eps t i) (delta i) t * pr i t)).
Definition psum (t : R) : R := rs N (fun i => vol i * (eps 0 i * pr i t)).
Lemma shift_real : exists r, 0 < r /\ forall t, Rabs t < r -> (w t * w t - w 0 * w 0) * psum t = - (w t * w t) * (t * dsum t).
Proof.
  destruct (path_radius Hm) as (r & Hr & Hres). exists r. split; [exact Hr|]. intros t Ht.
  assert (R0 : Rabs 0 < r) by (rewrite Rabs_R0; exact Hr).
  assert (P : forall i, (i < N)%nat -> positive (real_eps (eps 0) i)) by (intros i Hi; split; [reflexivity|exact (He Hi)]).
  assert (S := @phc_frequency_shift g ph (real_eps (eps 0)) (real_eps (eps t)) (creal (w 0)) (creal (w t)) (E 0) (E t) Hg P Hb (Hres 0 R0) (Hres t Ht)).
  assert (Ed : e_product g (fun i => ksub (real_eps (eps t) i) (real_eps (eps 0) i)) (E 0) (E t) = e_product g (real_eps (fun i => eps t i - eps 0 i)) (E 0) (E t)).
  { unfold e_product. apply fsum_ext. intros i Hi. do 2 f_equal. unfold real_eps. change (@ksub CC) with csub. unfold csub, creal. cbn. apply c_eq; cbn; ring. }
  rewrite Ed in S. apply (f_equal fst) in S. revert S.
  change (@kmul CC) with cmul. change (@ksub CC) with csub. change (@kopp CC) with copp. unfold cmul at 1 4. cbn [fst]. rewrite !e_product_re.
  intros S. assert (D : rs N (fun i => vol i * ((eps t i - eps 0 i) * pr i t)) = t * dsum t).
  { unfold dsum. rewrite <- rs_scale. apply rs_ext. intros i Hi. rewrite (quot_spec (fun t => eps t i) (delta i) t). ring. }
  rewrite D in S. unfold csub, cadd, cmul, copp, creal in S. cbn [fst snd] in S. fold (psum t) in S. Lra.lra.
Qed.
Lemma psum_pos : 0 < psum 0.
Proof.
  destruct (path_radius Hm) as (r & Hr & Hres). assert (R0 : Rabs 0 < r) by (rewrite Rabs_R0; exact Hr). destruct (Hres 0 R0) as (L & NZ & _).
  assert (P : forall i, (i < N)%nat -> positive (real_eps (eps 0) i)) by (intros i Hi; split; [reflexivity|exact (He Hi)]).
  destruct (@e_product_pos g Hg (real_eps (eps 0)) (E 0) P L NZ) as [_ Q]. rewrite e_product_re in Q. exact Q.
Qed.
Lemma w_derivative : derivable_pt_lim w 0 (- (w 0) / 2 * (dsum 0 / psum 0)).
Proof.
  destruct shift_real as (r & Hr & Hs).
  assert (Cp : continuity_pt psum 0).
  { apply (@cont_rs N (fun i t => vol i * (eps 0 i * pr i t))). intros i Hi. apply (continuity_pt_mult (fun _ => vol i) (fun t => eps 0 i * pr i t)); [apply continuity_pt_const; intros ? ?; reflexivity|].
    apply (continuity_pt_mult (fun _ => eps 0 i) (pr i)); [apply continuity_pt_const; intros ? ?; reflexivity|apply pr_cont, Hi]. }
  assert (Cd : continuity_pt dsum 0).
  { apply (@cont_rs N (fun i t => vol i * (quot (fun t => eps t i) (delta i) t * pr i t))). intros i Hi. apply (continuity_pt_mult (fun _ => vol i) (fun t => quot (fun t => eps t i) (delta i) t * pr i t)); [apply continuity_pt_const; intros ? ?; reflexivity|].
    apply (continuity_pt_mult (quot (fun t => eps t i) (delta i)) (pr i)); [apply quot_cont, (Hd Hi)|apply pr_cont, Hi]. }
  assert (Cw := path_w Hm).
  set (den := fun t => (w t + w 0) * psum t).
  assert (Cden : continuity_pt den 0).
  { apply (continuity_pt_mult (fun t => w t + w 0) psum); [|exact Cp]. apply (continuity_pt_plus w (fun _ => w 0)); [exact Cw|apply continuity_pt_const; intros ? ?; reflexivity]. }
  assert (P := psum_pos). assert (Dp : 0 < den 0) by (unfold den; nra).
  destruct (near_positive Cden Dp) as (r2 & Hr2 & Hden).
  set (q := fun t => - (w t * w t) * dsum t / den t).
  assert (Cq : continuity_pt q 0).
  { unfold q. apply (continuity_pt_div (fun t => - (w t * w t) * dsum t) den); [|exact Cden|lra].
    apply (continuity_pt_mult (fun t => - (w t * w t)) dsum); [|exact Cd]. apply (continuity_pt_opp (fun t => w t * w t)). apply (continuity_pt_mult w w); exact Cw. }
  assert (R := @quot_deriv w q (Rmin r r2) Cq (Rmin_pos _ _ Hr Hr2)).
  replace (- (w 0) / 2 * (dsum 0 / psum 0)) with (q 0) by (unfold q, den; field; lra).
  apply R. intros t Ht. assert (T1 : Rabs t < r) by (eapply Rlt_le_trans; [exact Ht|apply Rmin_l]). assert (T2 : Rabs t < r2) by (eapply Rlt_le_trans; [exact Ht|apply Rmin_r]).
  specialize (Hs t T1). specialize (Hden t T2). unfold q. apply (Rmult_eq_reg_r (den t)); [|lra]. replace (t * (- (w t * w t) * dsum t / den t) * den t) with (t * (- (w t * w t) * dsum t)) by (field; lra).
  unfold den in *. rewrite <- Rmult_assoc. nra.
Qed.

(** ** the expression of the code *)
Lemma norm2_mul a b : fst (cmul a b) ^ 2 + snd (cmul a b) ^ 2 = (fst a ^ 2 + snd a ^ 2) * (fst b ^ 2 + snd b ^ 2).
Proof. unfold cmul. cbn [fst snd]. ring. Qed.
Definition n2 (z : C) : R := fst z ^ 2 + snd z ^ 2.
Lemma cpower_re v : cpower N v = creal (rs N (fun k => n2 (at_ v k))).
Proof.
  unfold cpower. apply c_eq.
  - rewrite (@fst_fsum N). cbn [creal fst]. apply rs_ext. intros i _. unfold n2, cmul, cconj. cbn [fst snd]. ring.
  - cbn [creal snd]. assert (Q : forall n f, snd (fsum (K:=CC) n f) = rs n (fun k => snd (f k))). { induction n as [|n IH]; intros f; cbn [fsum rs]; [reflexivity|]. rewrite <- IH. reflexivity. }
    rewrite Q. rewrite (@rs_ext N _ (fun _ => 0)); [rewrite rs_const; ring|]. intros i _. unfold cmul, cconj. cbn [fst snd]. ring.
Qed.
Lemma domega_re e v om k : (k < N)%nat -> e k <> 0 -> rs N (fun k => n2 (at_ v k)) <> 0 -> domega N (eps_array g e) v om k = - om / 2 * (n2 (at_ v k) / e k / rs N (fun k => n2 (at_ v k))).
Proof.
  intros Hk Ne Ns. unfold domega. rewrite cpower_re. set (s := rs N (fun k => n2 (at_ v k))) in *. assert (Ee : at_ (eps_array g e) k = creal (e k)).
  { unfold eps_array. rewrite vbuild_at by exact Hk. reflexivity. }
  rewrite Ee. unfold n2, cinv, cscale, cmul, cconj, creal. cbn [fst snd]. field. split; assumption.
Qed.
Lemma weighted_n2 v c : (forall i, (i < N)%nat -> at_ v i = cmul c (cmul (creal (sqrt (eps 0 i))) (at_ (E 0) i))) ->
  forall i, (i < N)%nat -> n2 (at_ v i) = n2 c * (eps 0 i * pr i 0).
Proof.
  intros H i Hi. unfold n2. rewrite (H i Hi), !norm2_mul. cbn [creal fst snd]. rewrite pow2_sqrt by (left; apply He, Hi). unfold pr. ring.
Qed.
Lemma gradient_is_derivative v : weighted_by_root g (eps 0) (E 0) v ->
  derivable_pt_lim w 0 (along N (domega N (eps_array g (eps 0)) v (w 0)) delta).
Proof.
  intros (c & Hc & Hv). assert (W := @weighted_n2 v c Hv). assert (D := w_derivative). assert (P := psum_pos).
  assert (C2 : 0 < n2 c). { unfold n2. destruct (Req_EM_T (fst c) 0) as [A|A]; [destruct (Req_EM_T (snd c) 0) as [B|B]; [exfalso; apply Hc, c_eq; assumption|]|]; nra. }
  assert (N0 : (0 < N)%nat).
  { destruct (Nat.eq_dec N 0) as [Z|Z]; [exfalso|lia]. unfold psum in P. rewrite Z in P. cbn in P. Lra.lra. }
  set (V := vol 0%nat). assert (Vp : 0 < V) by (destruct (vol_pos N0) as [_ X]; exact X).
  assert (Vi : forall i, (i < N)%nat -> vol i = V). { intros i Hi. unfold V, vol. f_equal. apply uniform_p2; assumption. }
  assert (Pe : psum 0 = V * rs N (fun i => eps 0 i * pr i 0)). { unfold psum. rewrite <- rs_scale. apply rs_ext. intros i Hi. now rewrite (Vi i Hi). }
  assert (De : dsum 0 = V * rs N (fun i => delta i * pr i 0)). { unfold dsum. rewrite <- rs_scale. apply rs_ext. intros i Hi. now rewrite (Vi i Hi), quot_0. }
  set (p := rs N (fun i => eps 0 i * pr i 0)) in *. assert (Pp : 0 < p) by (rewrite Pe in P; nra).
  assert (Sv : rs N (fun k => n2 (at_ v k)) = n2 c * p). { unfold p. rewrite <- rs_scale. apply rs_ext. exact W. }
  assert (Q : along N (domega N (eps_array g (eps 0)) v (w 0)) delta = - (w 0) / 2 * (dsum 0 / psum 0)); [|rewrite Q; exact D].
  unfold along. rewrite (@rsum_seq N (fun i => domega N (eps_array g (eps 0)) v (w 0) i * delta i)). rewrite Pe, De.
  replace (- w 0 / 2 * (V * rs N (fun i => delta i * pr i 0) / (V * p))) with (- w 0 / 2 / p * rs N (fun i => delta i * pr i 0)) by (field; lra).
  rewrite <- rs_scale. apply rs_ext. intros i Hi. rewrite domega_re; [|exact Hi|apply Rgt_not_eq, He, Hi|rewrite Sv; apply Rgt_not_eq; nra].
  rewrite Sv, (W i Hi). field. repeat split; apply Rgt_not_eq; first [exact Pp|exact C2|apply He, Hi].
Qed.
End Path.
