(** The scattering objective. *)
From Coq Require Import Reals Lra Psatz Lia Ring Field.
From Verif Require Obj_Model.
From Verif Require Import Obj_Spec Obj_Proofs.
From Verif Require Import Base CField CField_Proofs LinAlg Maxwell_Model Maxwell_Spec SimCache_Model.
From Verif Require Import Shape_Model GMath_Model GMath_Spec GMath_Proofs GMath_Proofs2 GMath_Proofs3 GMath_Proofs4 GMath_Proofs5 CplxField.
From Verif Require Adj_Model.
From Verif Require Import Adj_Spec Adj_Proofs Adj_Proofs2 Adj_Proofs3 Adj_Proofs4 Adj_Proofs5 Adj_Proofs7 EmObj_Model EmObj_Spec EmObj_Proofs EmObj_Proofs2 EmObj_Proofs3 EmObj_Proofs4.
From Verif Require Import Ff_Model Ff_Spec Ff_Proofs Ff_Proofs2 Ff_Proofs3 Ff_Proofs4 Ff_Proofs5.
Set Implicit Arguments.
Local Open Scope R_scope.
Local Notation at_ := (at_ (K:=CC)).

Lemma apply_rows_dot F x : apply_rows F x = map (fun row => cdot row x) F.
Proof.
  apply map_ext. intros row. revert x. induction row as [|a row IH]; intros [|b x]; try reflexivity. cbn [combine map fold_right cdot fst snd]. now rewrite IH.
Qed.
Lemma weigh_rows w F x : weigh w (apply_rows F x) = tot (map (fun wr => fst wr * cn2 (cdot (snd wr) x)) (combine w F)).
Proof.
  rewrite apply_rows_dot. unfold weigh. fold tot. revert F. induction w as [|a w IH]; intros [|row F]; try reflexivity. cbn [map combine fst snd]. rewrite !tot_cons. rewrite cabs_pow2. f_equal. apply IH.
Qed.
Lemma nth_seq_map {A} (f : nat -> A) N k d : (k < N)%nat -> nth k (map f (seq 0 N)) d = f k.
Proof. intros Hk. rewrite (nth_indep _ d (f 0%nat)) by (now rewrite map_length, seq_length). rewrite map_nth, seq_nth by exact Hk. reflexivity. Qed.
Lemma weigh_row_entry w F x N k : (k < N)%nat -> (forall row, In row F -> length row = N) -> nth k (weigh_row w (apply_rows F x) F N) c0 =
  fold_right cadd c0 (map (fun wr => cmul (creal (fst wr)) (cmul (cconj (cdot (snd wr) x)) (at_ (snd wr) k))) (combine w F)).
Proof.
  intros Hk HF. unfold weigh_row. rewrite (@nth_seq_map _ _ N k c0 Hk). rewrite apply_rows_dot. clear HF. revert F. induction w as [|a w IH]; intros [|row F]; try reflexivity. cbn [map combine column fold_right fst snd]. f_equal. apply IH.
Qed.
Section Grid.
Variable g : grid CC.
Local Notation N := (vlen g).
Lemma dot_weigh w F x du : length du = N -> (forall row, In row F -> length row = N) ->
  fst (cdot (weigh_row w (apply_rows F x) F N) du) = tot (map (fun wr => fst wr * fst (cmul (cconj (cdot (snd wr) x)) (cdot (snd wr) du))) (combine w F)).
Proof.
  intros Hdu HF. assert (L : length (weigh_row w (apply_rows F x) F N) = N) by (unfold weigh_row; now rewrite map_length, seq_length).
  rewrite (@cdot_fsum N _ du L Hdu). rewrite fst_fsum.
  rewrite (@rs_ext N _ (fun k => tot (map (fun wr => fst wr * fst (cmul (cconj (cdot (snd wr) x)) (cmul (at_ (snd wr) k) (at_ du k)))) (combine w F)))).
  - assert (E : forall l : list (R * list C), (forall wr, In wr l -> length (snd wr) = N) -> rs N (fun k => tot (map (fun wr => fst wr * fst (cmul (cconj (cdot (snd wr) x)) (cmul (at_ (snd wr) k) (at_ du k)))) l))
       = tot (map (fun wr => fst wr * fst (cmul (cconj (cdot (snd wr) x)) (cdot (snd wr) du))) l)).
    { induction l as [|wr l IH]; intros Hl; cbn [map].
      - unfold tot, Obj_Model.rsum. cbn. rewrite rs_const. ring.
      - rewrite tot_cons, <- IH by (intros; apply Hl; now right). rewrite (@cdot_fsum N (snd wr) du (Hl wr (or_introl eq_refl)) Hdu).
        rewrite (@rs_ext N _ (fun k => fst wr * fst (cmul (cconj (cdot (snd wr) x)) (cmul (at_ (snd wr) k) (at_ du k))) + tot (map (fun wr => fst wr * fst (cmul (cconj (cdot (snd wr) x)) (cmul (at_ (snd wr) k) (at_ du k)))) l))) by (intros; now rewrite tot_cons).
        rewrite rs_plus. f_equal. pose proof (@fsum_scale CC N (cconj (cdot (snd wr) x)) (fun k => cmul (at_ (snd wr) k) (at_ du k))) as Hs. change (@kmul CC) with cmul in Hs.
        rewrite <- Hs. rewrite fst_fsum. apply rs_scale. }
    apply E. intros [a row] Hi. apply in_combine_r in Hi. now apply HF.
  - intros k Hk. unfold CField.at_ at 1. etransitivity; [exact (f_equal (fun c => fst (cmul c (at_ du k))) (@weigh_row_entry w F x N k Hk HF))|].
    generalize (combine w F). intros l. induction l as [|wr l IH]; cbn [map fold_right].
    + unfold tot, Obj_Model.rsum. cbn. ring.
    + rewrite tot_cons, <- IH. unfold cmul, cadd, creal. cbn [fst snd]. ring.
Qed.
Lemma weigh_derive w F u du t0 : (forall row, In row F -> length row = N) -> near t0 (fun t => length (u t) = N) -> length du = N ->
  (forall k, (k < N)%nat -> cderive (fun t => at_ (u t) k) t0 (at_ du k)) ->
  derivable_pt_lim (fun t => weigh w (apply_rows F (u t))) t0 (2 * fst (cdot (weigh_row w (apply_rows F (u t0)) F N) du)).
Proof.
  intros HF Hu Hdu Hd. eapply (@derive_ext_near (fun t => tot (map (fun wr => fst wr * cn2 (project g (snd wr) (u t))) (combine w F)))).
  - destruct Hu as (e & He & Hu). exists e. split; [exact He|]. intros t Ht. rewrite weigh_rows. apply tot_ext. intros [a row] Hi. cbn [fst snd]. apply in_combine_r in Hi. now rewrite project_cdot by auto.
  - rewrite dot_weigh by assumption. rewrite <- tot_scal.
    pose proof (@sum_derive u t0 (R * list C) (fun wr x => fst wr * cn2 (project g (snd wr) x)) (fun wr => fst wr * (2 * fst (cmul (cconj (project g (snd wr) (u t0))) (project g (snd wr) du)))) (combine w F)) as K.
    eapply derive_eq; [|apply K].
    + fold tot. apply tot_ext. intros [a row] Hi. cbn [fst snd]. apply in_combine_r in Hi. assert (L0 : length (u t0) = N) by (destruct Hu as (e & He & Hu); apply Hu; unfold Rminus; rewrite Rplus_opp_r, Rabs_R0; exact He).
      rewrite !project_cdot by auto. ring.
    + intros [a row] Hi. cbn [fst snd]. pose proof (cd_n2 (@project_derive g u du t0 Hd row)) as K1. exact (derivable_pt_lim_scal _ a _ _ K1).
Qed.
End Grid.
Lemma dot_quotient a b k sp dp dd ds du : length dd = length ds ->
  fst (cdot (map (fun ab => cmul (creal a) (cmul (creal b) (cscale k (csub (cscale sp (fst ab)) (cscale dp (snd ab)))))) (combine dd ds)) du) = a * b * k * (sp * fst (cdot dd du) - dp * fst (cdot ds du)).
Proof.
  revert ds du. induction dd as [|x dd IH]; intros [|y ds] [|v du] H; try discriminate; cbn [combine map cdot]; try (unfold creal; cbn [fst]; ring).
  cbn [fst]. change (fst (cadd ?p ?q)) with (fst p + fst q). rewrite IH by (cbn in H; lia). unfold cmul, cscale, csub, cadd, copp, creal. cbn [fst snd]. ring.
Qed.
Section Scatter.
Variable g : grid CC.
Local Notation N := (vlen g).
Variable s : scatter.
Variable F : list (list C).
Hypothesis Hbg : sc_background s = None.
Hypothesis HF : sc_matrix s = Some F.
Hypothesis Hrows : forall row, In row F -> length row = N.
Hypothesis Hpart : forall x, 0 <= weigh (sc_directed s) (apply_rows F x) <= weigh (sc_scattered s) (apply_rows F x).
Local Notation sp x := (weigh (sc_scattered s) (apply_rows F x)).
Local Notation dp x := (weigh (sc_directed s) (apply_rows F x)).
Lemma ratio_range x : sp x <> 0 -> 0 <= dp x / sp x <= 1.
Proof.
  intros H. destruct (Hpart x) as [A B]. assert (P : 0 < sp x) by lra. split; [apply Rmult_le_pos; [exact A|left; now apply Rinv_0_lt_compat]|].
  apply (Rmult_le_reg_r (sp x)); [exact P|]. unfold Rdiv. rewrite Rmult_assoc, Rinv_l by lra. lra.
Qed.
Lemma scatter_value x : sp x <> 0 -> scatter_f s x = Ok ((1 - dp x / sp x) ^ 2).
Proof.
  intros H. unfold scatter_f, far_matrix. rewrite Hbg, HF. cbn [bind]. destruct (Req_EM_T (sp x) 0); [contradiction|]. f_equal. pose proof (ratio_range x H) as K.
  destruct (lt1_case (dp x / sp x) 1) as [[-> L]|[-> L]]; [ring|]. replace (dp x / sp x) with 1 by lra. ring.
Qed.
Lemma scatter_nan x : sp x = 0 -> scatter_f s x = Err ValueError /\ scatter_dx s x = Err ValueError.
Proof. intros H. unfold scatter_f, scatter_dx, far_matrix. rewrite Hbg, HF. cbn [bind]. destruct (Req_EM_T (sp x) 0); [auto|contradiction]. Qed.
Lemma scatter_differentiates E z : length E = N -> sp E <> 0 ->
  exists px, differentiates N (scatter_obj s) E z px /\ (forall k, (forall row, In row F -> at_ row k = c0) -> at_ px k = c0).
Proof.
  intros HE Hs. set (d := dp E / sp E). set (ds := weigh_row (sc_scattered s) (apply_rows F E) F N). set (dd := weigh_row (sc_directed s) (apply_rows F E) F N).
  assert (Lds : length ds = N) by (unfold ds, weigh_row; now rewrite map_length, seq_length). assert (Ldd : length dd = N) by (unfold dd, weigh_row; now rewrite map_length, seq_length).
  set (px := map (fun ab => cmul (creal (2 * (lt1 d 1 * (1 - d)) ^ 1)) (cmul (creal (lt1 d 1 * -1)) (cscale (/ (sp E ^ 2)) (csub (cscale (sp E) (fst ab)) (cscale (dp E) (snd ab)))))) (combine dd ds)).
  assert (Lpx : length px = N) by (unfold px; rewrite map_length, combine_length, Lds, Ldd; lia).
  exists px. split; [split|].
  - cbn [scatter_obj o_dx]. unfold scatter_dx, far_matrix. rewrite Hbg, HF. cbn [bind]. destruct (Req_EM_T (sp E) 0); [contradiction|]. now rewrite HE.
  - split; [exact Lpx|]. split; [cbn; now rewrite map_length|]. intros u du P dP t0 Hu Hu0 Hdu Hd HP. cbn [scatter_obj o_f o_dz]. rewrite zeros_dot by apply HP. rewrite Rplus_0_r.
    pose proof (@weigh_derive g (sc_scattered s) F u du t0 Hrows Hu Hdu Hd) as Ds. pose proof (@weigh_derive g (sc_directed s) F u du t0 Hrows Hu Hdu Hd) as Dd. rewrite Hu0 in Ds, Dd. fold ds in Ds. fold dd in Dd.
    assert (Nz : near t0 (fun t => sp (u t) <> 0)).
    { destruct (@near_nz (fun t => creal (sp (u t))) t0 _ ltac:(cbv beta; rewrite Hu0; intros K; apply Hs; apply (f_equal fst) in K; exact K) (cd_real Ds)) as (e & He & K). exists e. split; [exact He|]. intros t Ht Z. apply (K t Ht). now rewrite Z. }
    eapply (@derive_ext_near (fun t => (1 - dp (u t) / sp (u t)) ^ 2)).
    { destruct Nz as (e & He & Nz). exists e. split; [exact He|]. intros t Ht. rewrite (scatter_value (u t) (Nz t Ht)). reflexivity. }
    assert (Hs' : sp (u t0) <> 0) by now rewrite Hu0.
    pose proof (derivable_pt_lim_div (fun t => dp (u t)) (fun t => sp (u t)) t0 _ _ Dd Ds Hs') as Q.
    pose proof (derivable_pt_lim_minus (fun _ => 1) _ t0 _ _ (derivable_pt_lim_const 1 t0) Q) as M.
    eapply derive_eq; [|apply (derivable_pt_lim_comp _ (fun y => y ^ 2) _ _ _ M (derivable_pt_lim_pow _ 2))].
    unfold px. rewrite dot_quotient by (now rewrite Ldd, Lds). unfold minus_fct, div_fct, fct_cte. cbn [INR pow Init.Nat.pred]. rewrite Hu0. unfold Rsqr. fold d. pose proof (ratio_range E Hs) as K. fold d in K.
    destruct (lt1_case d 1) as [[-> L]|[-> L]]; [field; exact Hs|]. replace d with 1 by lra. field. exact Hs.
  - intros k Hk. assert (Z : forall w, nth k (weigh_row w (apply_rows F E) F N) c0 = c0).
    { intros w. destruct (Nat.lt_ge_cases k N) as [H|H]; [|apply nth_overflow; unfold weigh_row; now rewrite map_length, seq_length].
      rewrite weigh_row_entry by assumption. assert (K : forall wr, In wr (combine w F) -> at_ (snd wr) k = c0) by (intros [a row] Hi; apply in_combine_r in Hi; now apply Hk).
      revert K. generalize (combine w F). induction l as [|wr l IH]; intros K; [reflexivity|]. cbn [map fold_right]. rewrite IH by (intros; apply K; now right).
      etransitivity; [exact (f_equal (fun v => cadd (cmul (creal (fst wr)) (cmul (cconj (cdot (snd wr) E)) v)) c0) (K wr (or_introl eq_refl)))|]. apply c_eq; cbn; ring. }
    destruct (Nat.lt_ge_cases k N) as [H|H]; [|unfold CField.at_; apply nth_overflow; eapply Nat.le_trans; [apply Nat.eq_le_incl; exact Lpx|exact H]].
    unfold px, CField.at_. set (f := fun ab : C * C => _). rewrite (nth_indep _ _ (f (c0, c0))) by (fold f; rewrite map_length, combine_length, Lds, Ldd; lia).
    rewrite map_nth, combine_nth by (now rewrite Ldd, Lds). unfold dd, ds. rewrite !Z. unfold f. cbn [fst snd]. apply c_eq; cbn; ring.
Qed.
End Scatter.
Lemma scatter_new_spec n cond bgd : exists pts ts s, make_sphere_point n = Ok (pts, ts) /\ scatter_new n cond bgd = Ok s /\ sc_matrix s = ff_matrix cond /\ sc_background s = bgd /\
  length (sc_scattered s) = (length pts + length pts + length pts)%nat /\ length (sc_directed s) = (length pts + length pts + length pts)%nat /\
  forall y, length y = (length pts + length pts + length pts)%nat ->
    weigh (sc_scattered s) y = power pts y ts /\
    weigh (sc_directed s) y = power pts y (filter (inside pts (fst (th_bounds cond)) (snd (th_bounds cond)) (fst (ph_bounds cond)) (snd (ph_bounds cond))) ts).
Proof.
  destruct (sphere_mesh n) as (pts & ts & E & M & _). pose proof (mesh_triangulation M) as T. exists pts, ts.
  assert (Cn : forall t, In t ts -> exists a b c, has_corners pts t a b c) by (intros t Ht; destruct (@t_corners _ _ _ T t Ht) as (a & b & c & Hc & _); eauto).
  unfold scatter_new. rewrite E. cbn [bind]. rewrite !(@selection_ok pts ts _ _ _ _ Cn). cbn [bind]. rewrite !(@vector_eq _ _ _ _ T). cbn [bind]. eexists. split; [reflexivity|]. split; [reflexivity|]. cbn [sc_matrix sc_background sc_scattered sc_directed].
  split; [reflexivity|]. split; [reflexivity|]. split; [rewrite !app_length, !map_length, seq_length; lia|]. split; [rewrite !app_length, !map_length, seq_length; lia|].
  intros y Hy. split.
  - destruct (@weigh_power _ _ _ (tri_sel pts 0 PI (- PI) PI) _ y T Hy (@vector_eq _ _ _ _ T)) as [_ ->]. rewrite power_filter. now rewrite (mesh_full M).
  - destruct (@weigh_power _ _ _ (tri_sel pts (fst (th_bounds cond)) (snd (th_bounds cond)) (fst (ph_bounds cond)) (snd (ph_bounds cond))) _ y T Hy (@vector_eq _ _ _ _ T)) as [_ ->]. now rewrite power_filter.
Qed.
