(** Values and derivatives of the overlap objectives. *)
From Coq Require Import Reals Lra Psatz Ring Field.
From Verif Require Obj_Model.
From Verif Require Import Obj_Spec Obj_Proofs.
From Verif Require Import Base CField CField_Proofs LinAlg Maxwell_Model Maxwell_Spec SimCache_Model.
From Verif Require Import Shape_Model GMath_Model GMath_Spec GMath_Proofs GMath_Proofs2 GMath_Proofs3 GMath_Proofs4 GMath_Proofs5 CplxField.
From Verif Require Adj_Model.
From Verif Require Import Adj_Spec Adj_Proofs Adj_Proofs2 Adj_Proofs3 Adj_Proofs4 EmObj_Model EmObj_Spec EmObj_Proofs EmObj_Proofs2.
Set Implicit Arguments.
Local Open Scope R_scope.
Local Notation at_ := (at_ (K:=CC)).
Local Notation fsum := (fsum (K:=CC)).

(** ** The penalty of a range *)
Lemma lt1_case a b : lt1 a b = 1 /\ a < b \/ lt1 a b = 0 /\ b <= a.
Proof. unfold lt1. destruct (Rlt_dec a b); [left|right]; split; auto; lra. Qed.
Definition viol (a b x : R) : R := lt1 x a * (a - x) + lt1 b x * (x - b).
Lemma viol_excess a b x : a <= b -> viol a b x = excess a b x.
Proof.
  intros H. unfold viol, excess. destruct (lt1_case x a) as [[-> H1]|[-> H1]], (lt1_case b x) as [[-> H2]|[-> H2]]; unfold Rmax; repeat (destruct (Rle_dec _ _)); lra.
Qed.
Definition slope (a b x : R) : R := lt1 b x - lt1 x a.
Lemma near_open (P : R -> Prop) x r : 0 < r -> (forall y, Rabs (y - x) < r -> P y) -> near x P.
Proof. intros H1 H2. now exists r. Qed.
Lemma flat_derive (f : R -> R) x r : 0 < r -> (forall y, Rabs (y - x) < r -> Rabs (f y - f x) <= (y - x) * (y - x)) -> derivable_pt_lim f x 0.
Proof.
  intros Hr H eps He. assert (Hd : 0 < Rmin eps r) by (apply Rmin_pos; lra). exists (mkposreal _ Hd). intros h Hh Hlt. cbn in Hlt.
  assert (Rabs h < eps /\ Rabs h < r) as [H1 H2] by (unfold Rmin in Hlt; destruct (Rle_dec eps r); lra).
  specialize (H (x + h)). replace (x + h - x) with h in H by ring. specialize (H H2).
  rewrite Rminus_0_r. unfold Rdiv. rewrite Rabs_mult, Rabs_inv. assert (Ha : 0 < Rabs h) by now apply Rabs_pos_lt.
  apply Rle_lt_trans with (h * h * / Rabs h).
  - apply Rmult_le_compat_r; [left; now apply Rinv_0_lt_compat|exact H].
  - replace (h * h) with (Rabs h * Rabs h) by (rewrite <- Rabs_mult; apply Rabs_right; nra). rewrite Rmult_assoc, Rinv_r, Rmult_1_r by lra. exact H1.
Qed.
Lemma excess_close a b x0 x : a <= x0 <= b -> 0 <= excess a b x <= Rabs (x - x0).
Proof. intros H. unfold excess, Rmax, Rabs. repeat (destruct (Rle_dec _ _)); destruct (Rcase_abs _); lra. Qed.
Lemma viol_derive a b x q : a <= b -> ((1 <= q)%nat \/ (x <> a /\ x <> b)) ->
  derivable_pt_lim (fun y => viol a b y ^ (S q)) x (INR (S q) * viol a b x ^ q * slope a b x).
Proof.
  intros Hab Hk. destruct (Rlt_dec x a) as [H1|H1]; [|destruct (Rlt_dec b x) as [H2|H2]].
  - (* below *)
    apply (@derive_ext_near (fun y => (a - y) ^ S q)).
    + apply (@near_open _ x (a - x)); [lra|]. intros y Hy. f_equal. unfold viol. apply Rabs_def2 in Hy.
      destruct (lt1_case y a) as [[-> ?]|[-> ?]], (lt1_case b y) as [[-> ?]|[-> ?]]; lra.
    + assert (E : viol a b x = a - x /\ slope a b x = - (1)).
      { unfold viol, slope. destruct (lt1_case x a) as [[-> ?]|[-> ?]], (lt1_case b x) as [[-> ?]|[-> ?]]; lra. }
      destruct E as [-> ->]. eapply derive_eq; [|apply (derivable_pt_lim_comp (fun y => a - y) (fun y => y ^ S q) x)].
      * reflexivity.
      * eapply derive_eq; [|exact (derivable_pt_lim_minus (fun _ => a) (fun y => y) x 0 1 (derivable_pt_lim_const a x) (derivable_pt_lim_id x))]. ring.
      * exact (derivable_pt_lim_pow (a - x) (S q)).
  - apply (@derive_ext_near (fun y => (y - b) ^ S q)).
    + apply (@near_open _ x (x - b)); [lra|]. intros y Hy. f_equal. unfold viol. apply Rabs_def2 in Hy.
      destruct (lt1_case y a) as [[-> ?]|[-> ?]], (lt1_case b y) as [[-> ?]|[-> ?]]; lra.
    + assert (E : viol a b x = x - b /\ slope a b x = 1).
      { unfold viol, slope. destruct (lt1_case x a) as [[-> ?]|[-> ?]], (lt1_case b x) as [[-> ?]|[-> ?]]; lra. }
      destruct E as [-> ->]. eapply derive_eq; [|apply (derivable_pt_lim_comp (fun y => y - b) (fun y => y ^ S q) x)].
      * reflexivity.
      * eapply derive_eq; [|exact (derivable_pt_lim_minus (fun y => y) (fun _ => b) x 1 0 (derivable_pt_lim_id x) (derivable_pt_lim_const b x))]. ring.
      * exact (derivable_pt_lim_pow (x - b) (S q)).
  - assert (Hx : a <= x <= b) by lra.
    assert (E : viol a b x = 0 /\ slope a b x = 0).
    { unfold viol, slope. destruct (lt1_case x a) as [[-> ?]|[-> ?]], (lt1_case b x) as [[-> ?]|[-> ?]]; lra. }
    destruct E as [E1 E2]. rewrite E2, Rmult_0_r. destruct Hk as [Hq|[Ha Hb]].
    + apply (@flat_derive _ x 1); [lra|]. intros y Hy. rewrite E1. rewrite pow_i by lia. rewrite Rminus_0_r. rewrite viol_excess by exact Hab.
      destruct (@excess_close a b x y Hx) as [G1 G2]. destruct q as [|q]; [lia|].
      assert (G3 : 0 <= excess a b y ^ q <= 1).
      { assert (G4 : excess a b y <= 1) by lra. clear - G1 G4. induction q as [|q IH]; cbn; [lra|]. nra. }
      rewrite Rabs_right by (apply Rle_ge; apply pow_le; exact G1). cbn [pow].
      pose proof (Rsqr_abs (y - x)) as G5. unfold Rsqr in G5. rewrite G5.
      assert (0 <= Rabs (y - x)) by apply Rabs_pos. nra.
    + apply (@derive_ext_near (fun _ => 0)); [|apply derivable_pt_lim_const].
      apply (@near_open _ x (Rmin (x - a) (b - x))); [apply Rmin_pos; lra|]. intros y Hy. apply Rabs_def2 in Hy.
      assert (a < y < b) by (unfold Rmin in Hy; destruct (Rle_dec (x - a) (b - x)); lra).
      unfold viol. destruct (lt1_case y a) as [[-> ?]|[-> ?]], (lt1_case b y) as [[-> ?]|[-> ?]]; try lra.
      replace (0 * (a - y) + 0 * (y - b)) with 0 by ring. symmetry. apply pow_i. lia.
Qed.

Lemma fst_mac (a b c x : C) : fst (cmul (cadd (cmul a b) x) c) = fst (cmul a (cmul b c)) + fst (cmul x c).
Proof. unfold cmul, cadd. cbn [fst snd]. ring. Qed.
Section Modes.
Variable g : grid CC.
Local Notation N := (vlen g).
Lemma project_cdot c x : length c = N -> length x = N -> project g c x = cdot c x.
Proof. intros H1 H2. symmetry. exact (@cdot_fsum N c x H1 H2). Qed.
Section Curve.
Variable u : R -> list C.
Variable du : list C.
Variable t0 : R.
Hypothesis Hdu : forall k, (k < N)%nat -> cderive (fun t => at_ (u t) k) t0 (at_ du k).
Lemma project_derive c : cderive (fun t => project g c (u t)) t0 (project g c du).
Proof. unfold project. apply (@cd_fsum N (fun k t => cmul (at_ c k) (at_ (u t) k)) (fun k => cmul (at_ c k) (at_ du k))). intros k Hk. apply cd_scale, Hdu, Hk. Qed.
Lemma error_derive c T : cderive (fun t => csub (project g c (u t)) T) t0 (project g c du).
Proof. eapply cd_eq; [|exact (cd_sub (project_derive c) (cd_const T t0))]. cr. Qed.
(** the sum of scaled modes *)
Lemma sum_rows_dot {A} (cs : list C) (ms : list (list C * A)) : length cs = length ms -> length du = N ->
  (forall m, In m ms -> length (fst m) = N) ->
  fst (cdot (sum_rows g cs ms) du) = Obj_Model.rsum (map (fun cm => fst (cmul (fst cm) (project g (fst (snd cm)) du))) (combine cs ms)).
Proof.
  intros Hl Hd Hm. rewrite (@cdot_fsum N (sum_rows g cs ms) du (@vbuild_length CC N _) Hd).
  assert (E : forall l : list (C * (list C * A)), fst (fsum N (fun k => cmul (fold_right cadd c0 (map (fun cm => cmul (fst cm) (at_ (fst (snd cm)) k)) l)) (at_ du k)))
     = Obj_Model.rsum (map (fun cm => fst (cmul (fst cm) (project g (fst (snd cm)) du))) l)).
  { induction l as [|cm l IH]; cbn [map fold_right].
    - unfold Obj_Model.rsum. cbn. rewrite (@fsum_zero CC); [reflexivity|]. intros k Hk. cr.
    - change (Obj_Model.rsum (?a :: ?b)) with (a + Obj_Model.rsum b). rewrite <- IH. clear IH.
      unfold project. pose proof (@fsum_scale CC N (fst cm) (fun k => cmul (at_ (fst (snd cm)) k) (at_ du k))) as Hs. change (@kmul CC) with cmul in Hs. rewrite <- Hs.
      rewrite !fst_fsum. rewrite <- rs_plus. apply rs_ext. intros k Hk.
      generalize (fold_right cadd c0 (map (fun cm => cmul (fst cm) (at_ (fst (snd cm)) k)) l)). intros X.
      apply fst_mac. }
  rewrite <- E. f_equal. apply (@fsum_ext CC). intros k Hk. unfold sum_rows. now rewrite (@vbuild_at CC).
Qed.
Lemma sum_derive {A} (h : A -> list C -> R) (r : A -> R) (l : list A) : (forall m, In m l -> derivable_pt_lim (fun t => h m (u t)) t0 (r m)) ->
  derivable_pt_lim (fun t => Obj_Model.rsum (map (fun m => h m (u t)) l)) t0 (Obj_Model.rsum (map r l)).
Proof.
  induction l as [|m l IH]; intros H; cbn [map].
  - unfold Obj_Model.rsum. cbn. apply derivable_pt_lim_const.
  - change (Obj_Model.rsum (?a :: ?b)) with (a + Obj_Model.rsum b).
    apply (derivable_pt_lim_plus (fun t => h m (u t)) (fun t => Obj_Model.rsum (map (fun m => h m (u t)) l))); [apply H; now left|apply IH; intros; apply H; now right].
Qed.
End Curve.
Lemma zeros_dot (z d : list R) : length d = length z -> dotr (map (fun _ => 0) z) d = 0.
Proof.
  intros H. rewrite (@dotr_rs (length z)) by (try rewrite map_length; first [reflexivity|assumption]). transitivity (rs (length z) (fun _ => 0)).
  - apply rs_ext. intros i Hi. replace (nth i (map (fun _ : R => 0) z) 0) with 0; [ring|].
    clear. revert i. induction z as [|a z IH]; intros [|i]; cbn; auto.
  - rewrite rs_const. ring.
Qed.
Lemma partials_zero_z f E z px : length px = N ->
  (forall (u : R -> list C) du t0, u t0 = E -> length du = N -> (forall k, (k < N)%nat -> cderive (fun t => at_ (u t) k) t0 (at_ du k)) ->
     derivable_pt_lim (fun t => f (u t)) t0 (2 * fst (cdot px du))) ->
  correct_partials N (fun E _ => f E) E z px (map (fun _ => 0) z).
Proof.
  intros Hl H. split; [exact Hl|]. split; [now rewrite map_length|]. intros u du P dP t0 _ Hu Hdu Hd HP.
  rewrite zeros_dot by apply HP. rewrite Rplus_0_r. now apply H.
Qed.

(** ** Overlap *)
Lemma overlap_differentiates c T E z : length c = N -> csub (project g c E) T <> c0 ->
  exists px, differentiates N (overlap_obj g (c, T)) E z px /\ (forall k, at_ c k = c0 -> at_ px k = c0).
Proof.
  intros Hc Hn. set (e := csub (project g c E) T) in *. set (a := cmul (creal (1 / 2)) (cscale (/ cabs e) (cconj e))).
  exists (map (cmul a) c). split; [split|].
  - cbn [overlap_obj o_dx]. fold e. destruct (czero e) eqn:Ez; [apply czero_spec in Ez; contradiction|reflexivity].
  - cbn [overlap_obj o_f o_dz real]. apply (@partials_zero_z (fun E => cabs (csub (project g c E) T))); [now rewrite map_length|].
    intros u du t0 Hu Hdu Hd. pose proof (@error_derive u du t0 Hd c T) as He.
    eapply derive_eq; [|apply (@cd_abs (fun t => csub (project g c (u t)) T) t0 (project g c du)); [rewrite Hu; exact Hn|exact He]].
    rewrite Hu. fold e. rewrite (@cdot_fsum N) by (rewrite ?map_length; auto).
    replace (fsum N (fun k => cmul (at_ (map (cmul a) c) k) (at_ du k))) with (cmul a (project g c du)).
    + pose proof (cabs_nz Hn) as Ha. unfold a. destruct (project g c du) as [x y]. destruct e as [e1 e2]. unfold cmul, cscale, cconj, creal in *. cbn [fst snd] in *. field. exact Ha.
    + unfold project. etransitivity; [symmetry; exact (@fsum_scale CC N a (fun k => cmul (at_ c k) (at_ du k)))|].
      apply (@fsum_ext CC). intros k Hk. rewrite at_map_c by (rewrite Hc; exact Hk). change (@kmul CC) with cmul. cr.
  - intros k H0. destruct (Nat.lt_ge_cases k (length c)) as [Hk|Hk].
    + rewrite at_map_c by exact Hk. rewrite H0. unfold a. apply c_eq; cbn; ring.
    + unfold CField.at_. rewrite nth_overflow by (now rewrite map_length). reflexivity.
Qed.
Lemma sum_rows_support {A} (cs : list C) (ms : list (list C * A)) k : (forall m, In m ms -> at_ (fst m) k = c0) -> at_ (sum_rows g cs ms) k = c0.
Proof.
  intros H. destruct (Nat.lt_ge_cases k N) as [Hk|Hk].
  - unfold sum_rows. etransitivity; [exact (@vbuild_at CC N _ k Hk)|].
    assert (E : forall l : list (C * (list C * A)), (forall cm, In cm l -> at_ (fst (snd cm)) k = c0) -> fold_right cadd c0 (map (fun cm => cmul (fst cm) (at_ (fst (snd cm)) k)) l) = c0).
    { induction l as [|cm l IH]; intros Hl; cbn [fold_right map]; [reflexivity|]. rewrite IH by (intros; apply Hl; now right). etransitivity; [exact (f_equal (fun w => cadd (cmul (fst cm) w) c0) (Hl cm (or_introl eq_refl)))|]. apply c_eq; cbn; ring. }
    apply E. intros [c m] Hi. apply in_combine_r in Hi. now apply H.
  - unfold CField.at_. apply nth_overflow. unfold sum_rows. rewrite (@vbuild_length CC). exact Hk.
Qed.
Lemma mapM_ok {A B} (f : A -> res B) (h : A -> B) l : (forall x, In x l -> f x = Ok (h x)) -> mapM f l = Ok (map h l).
Proof. induction l as [|x l IH]; intros H; cbn; [reflexivity|]. rewrite H by now left. cbn. rewrite IH by (intros; apply H; now right). reflexivity. Qed.
Lemma combine_map_self {A B} (h : A -> B) l : combine (map h l) l = map (fun x => (h x, x)) l.
Proof. induction l as [|x l IH]; cbn; [reflexivity|]. now rewrite IH. Qed.

(** ** PhaseOverlapObjective *)
Lemma phase_differentiates ms E z : (forall m, In m ms -> length (fst m) = N /\ csub (project g (fst m) E) (snd m) <> c0) ->
  exists px, differentiates N (phase_obj g ms) E z px /\ (forall k, (forall m, In m ms -> at_ (fst m) k = c0) -> at_ px k = c0).
Proof.
  intros Hms. set (e := fun m : list C * C => csub (project g (fst m) E) (snd m)).
  set (a := fun m => cmul (creal (2 * cabs (e m) ^ 1)) (cmul (creal (1 / 2)) (cscale (/ cabs (e m)) (cconj (e m))))).
  exists (sum_rows g (map a ms) ms). split; [split|].
  - cbn [phase_obj o_dx]. rewrite (@mapM_ok _ _ (phase_coef g E) a ms); [reflexivity|]. intros m Hm. unfold phase_coef. fold (e m).
    destruct (Hms m Hm) as [_ Hn]. fold (e m) in Hn. destruct (czero (e m)) eqn:Ez; [apply czero_spec in Ez; contradiction|reflexivity].
  - cbn [phase_obj o_f o_dz real]. apply (@partials_zero_z (phase_f g ms)); [apply (@vbuild_length CC)|].
    intros u du t0 Hu Hdu Hd. unfold phase_f.
    rewrite (@sum_rows_dot du _ (map a ms) ms) by (rewrite ?map_length; auto; intros m Hm; apply Hms, Hm).
    rewrite combine_map_self, map_map. cbn [fst snd].
    eapply derive_eq; [|apply (@sum_derive u t0 _ (fun m x => cabs (csub (project g (fst m) x) (snd m)) ^ 2) (fun m => 2 * fst (cmul (cconj (e m)) (project g (fst m) du)))); intros m Hm].
    + clear - Hms. induction ms as [|m l IH]; cbn [map].
      * unfold Obj_Model.rsum. cbn. ring.
      * change (Obj_Model.rsum (?a :: ?b)) with (a + Obj_Model.rsum b). rewrite IH by (intros; apply Hms; now right). rewrite Rmult_plus_distr_l. f_equal.
        destruct (Hms m ltac:(now left)) as [_ Hn]. fold (e m) in Hn. pose proof (cabs_nz Hn) as Ha. unfold a.
        destruct (project g (fst m) du) as [x y]. destruct (e m) as [e1 e2]. unfold cmul, cscale, cconj, creal in *. cbn [fst snd pow] in *. field. exact Ha.
    + destruct (Hms m Hm) as [_ Hn]. pose proof (@error_derive u du t0 Hd (fst m) (snd m)) as He.
      pose proof (@cd_abs (fun t => csub (project g (fst m) (u t)) (snd m)) t0 (project g (fst m) du) ltac:(cbv beta; rewrite Hu; exact Hn) He) as H1.
      eapply derive_eq; [|apply (derivable_pt_lim_comp _ (fun y => y ^ 2) _ _ _ H1 (derivable_pt_lim_pow _ 2))].
      rewrite Hu. fold (e m). fold (e m) in Hn. pose proof (cabs_nz Hn) as Ha. cbn [INR pow Init.Nat.pred]. field. exact Ha.
  - intros k H. now apply sum_rows_support.
Qed.

(** ** BasicOverlapObjective *)
Definition signed (q : nat) (ms : list (list C * (R * R))) : objective :=
  Objective (fun x _ => Ok ((-1) ^ (S q) * basic_f g q ms x)) (o_dx (basic_obj g q ms)) (o_dz (basic_obj g q ms)).
Definition off_kinks (q : nat) (a b x : R) : Prop := (1 <= q)%nat \/ (x <> a /\ x <> b).
Lemma basic_f_viol q ms x : basic_f g q ms x = Obj_Model.rsum (map (fun m => viol (fst (snd m)) (snd (snd m)) (cabs (project g (fst m) x)) ^ S q) ms).
Proof. unfold basic_f. f_equal. apply map_ext. intros [c [a b]]. reflexivity. Qed.
Lemma basic_differentiates q ms E z :
  (forall m, In m ms -> length (fst m) = N /\ project g (fst m) E <> c0 /\ fst (snd m) <= snd (snd m) /\ off_kinks q (fst (snd m)) (snd (snd m)) (cabs (project g (fst m) E))) ->
  exists px, differentiates N (signed q ms) E z px /\ (forall k, (forall m, In m ms -> at_ (fst m) k = c0) -> at_ px k = c0).
Proof.
  intros Hms. set (e := fun m : list C * (R * R) => project g (fst m) E).
  set (a := fun m : list C * (R * R) => cmul (creal (INR (S q) * (- viol (fst (snd m)) (snd (snd m)) (cabs (e m))) ^ q))
     (cmul (creal (- slope (fst (snd m)) (snd (snd m)) (cabs (e m)) * (1 / 2))) (cscale (/ cabs (e m)) (cconj (e m))))).
  exists (sum_rows g (map a ms) ms). split; [split|].
  - cbn [signed basic_obj o_dx]. rewrite (@mapM_ok _ _ (basic_coef g q E) a ms); [reflexivity|]. intros m Hm.
    destruct (Hms m Hm) as (_ & Hn & _). destruct m as [c [lo hi]]. cbn [fst snd] in *. unfold basic_coef.
    destruct (czero (project g c E)) eqn:Ez; [apply czero_spec in Ez; contradiction|]. unfold a, e, viol, slope. cbn [fst snd]. do 2 f_equal; [|do 2 f_equal; ring].
    do 2 f_equal. f_equal. ring.
  - cbn [signed basic_obj o_f o_dz real]. apply (@partials_zero_z (fun E => (-1) ^ S q * basic_f g q ms E)); [apply (@vbuild_length CC)|].
    intros u du t0 Hu Hdu Hd.
    rewrite (@sum_rows_dot du _ (map a ms) ms) by (rewrite ?map_length; auto; intros m Hm; apply Hms, Hm).
    rewrite combine_map_self, map_map. cbn [fst snd].
    set (r := fun m : list C * (R * R) => INR (S q) * viol (fst (snd m)) (snd (snd m)) (cabs (e m)) ^ q * slope (fst (snd m)) (snd (snd m)) (cabs (e m)) * (fst (cmul (cconj (e m)) (project g (fst m) du)) / cabs (e m))).
    apply (@derive_ext_near (fun t => (-1) ^ S q * Obj_Model.rsum (map (fun m => viol (fst (snd m)) (snd (snd m)) (cabs (project g (fst m) (u t))) ^ S q) ms))).
    { apply (@near_open _ t0 1); [lra|]. intros y _. now rewrite basic_f_viol. }
    eapply derive_eq; [|apply (derivable_pt_lim_scal (fun t => Obj_Model.rsum (map (fun m => viol (fst (snd m)) (snd (snd m)) (cabs (project g (fst m) (u t))) ^ S q) ms)) ((-1) ^ S q)); 
      apply (@sum_derive u t0 _ (fun m x => viol (fst (snd m)) (snd (snd m)) (cabs (project g (fst m) x)) ^ S q) r); intros m Hm].
    + clear - Hms. induction ms as [|m l IH]; cbn [map].
      * unfold Obj_Model.rsum. cbn. ring.
      * change (Obj_Model.rsum (?a :: ?b)) with (a + Obj_Model.rsum b). rewrite !Rmult_plus_distr_l. rewrite IH by (intros; apply Hms; now right). f_equal.
        destruct (Hms m ltac:(now left)) as (_ & Hn & _). fold (e m) in Hn. pose proof (cabs_nz Hn) as Ha. unfold a, r.
        replace (- viol (fst (snd m)) (snd (snd m)) (cabs (e m))) with ((-1) * viol (fst (snd m)) (snd (snd m)) (cabs (e m))) by ring. rewrite Rpow_mult_distr.
        generalize (viol (fst (snd m)) (snd (snd m)) (cabs (e m)) ^ q) (slope (fst (snd m)) (snd (snd m)) (cabs (e m))). intros V W. change ((-1) ^ S q) with ((-1) * (-1) ^ q). generalize ((-1) ^ q) (INR (S q)). intros Z K.
        destruct (project g (fst m) du) as [x y]. destruct (e m) as [e1 e2]. unfold cmul, cscale, cconj, creal in *. cbn [fst snd pow] in *. field. exact Ha.
    + destruct (Hms m Hm) as (_ & Hn & Hab & Hk). pose proof (@project_derive u du t0 Hd (fst m)) as He.
      pose proof (@cd_abs (fun t => project g (fst m) (u t)) t0 (project g (fst m) du) ltac:(cbv beta; rewrite Hu; exact Hn) He) as H1.
      pose proof (@viol_derive _ _ _ q Hab Hk) as H2. cbv beta in H1. rewrite Hu in H1. rewrite <- Hu in H2 at 1.
      eapply derive_eq; [|exact (derivable_pt_lim_comp (fun t => cabs (project g (fst m) (u t))) (fun y => viol (fst (snd m)) (snd (snd m)) y ^ S q) t0 _ _ H1 H2)].
      unfold r. fold (e m). reflexivity.
  - intros k H. now apply sum_rows_support.
Qed.
(** the value *)
Lemma basic_value q ms x : (forall m, In m ms -> length (fst m) = N /\ fst (snd m) <= snd (snd m)) -> length x = N ->
  basic_f g q ms x = Obj_Model.rsum (map (fun m => excess (fst (snd m)) (snd (snd m)) (amplitude (fst m) x) ^ S q) ms).
Proof.
  intros H Hx. rewrite basic_f_viol. f_equal. apply map_ext_in. intros m Hm. destruct (H m Hm) as [H1 H2].
  unfold amplitude. now rewrite viol_excess, project_cdot by auto.
Qed.
Lemma phase_value ms x : (forall m, In m ms -> length (fst m) = N) -> length x = N ->
  phase_f g ms x = Obj_Model.rsum (map (fun m => cabs (csub (cdot (fst m) x) (snd m)) ^ 2) ms).
Proof. intros H Hx. unfold phase_f. f_equal. apply map_ext_in. intros m Hm. now rewrite project_cdot by auto. Qed.
End Modes.
Lemma excess_nonneg a b x : 0 <= excess a b x.
Proof. apply Rmax_l. Qed.
Lemma excess_zero a b x : excess a b x = 0 <-> a <= x <= b.
Proof. unfold excess, Rmax. repeat destruct (Rle_dec _ _); lra. Qed.
Lemma rsum_zero_iff {A} (h : A -> R) l : (forall m, In m l -> 0 <= h m) -> 0 <= Obj_Model.rsum (map h l) /\ (Obj_Model.rsum (map h l) = 0 <-> forall m, In m l -> h m = 0).
Proof.
  induction l as [|m l IH]; intros H; cbn [map].
  - unfold Obj_Model.rsum. cbn. split; [lra|]. split; [intros _ ? []|auto].
  - change (Obj_Model.rsum (?a :: ?b)) with (a + Obj_Model.rsum b). destruct IH as [I1 I2]; [intros; apply H; now right|]. assert (0 <= h m) by (apply H; now left).
    split; [lra|]. split.
    + intros Hs. assert (Hl : Obj_Model.rsum (map h l) = 0) by lra. intros m' [<-|Hi]; [lra|]. now apply I2.
    + intros Ha. rewrite (Ha m) by now left. rewrite (proj2 I2) by (intros; apply Ha; now right). ring.
Qed.
