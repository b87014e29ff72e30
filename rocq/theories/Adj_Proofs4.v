(** The measurements: overlap, permittivity difference, power through a plane. *)
From Coq Require Import Reals Lra Psatz Ring Field.
From Verif Require Obj_Model.
From Verif Require Import Obj_Spec Obj_Proofs.
From Verif Require Import Base CField CField_Proofs LinAlg Maxwell_Model Maxwell_Spec Maxwell_Proofs Maxwell_Proofs2 Maxwell_Proofs3 Maxwell_Proofs4 SimCache_Model SimCache_Spec SimCache_Proofs.
From Verif Require Import Shape_Model GMath_Model GMath_Spec GMath_Proofs GMath_Proofs2 GMath_Proofs3 GMath_Proofs4 GMath_Proofs5 CplxField Adj_Model Adj_Spec Adj_Proofs Adj_Proofs2 Adj_Proofs3.
Set Implicit Arguments.
Local Open Scope R_scope.
Local Notation at_ := (at_ (K:=CC)).
Local Notation fsum := (fsum (K:=CC)).

Lemma at_map_c (f : C -> C) l k : (k < length l)%nat -> at_ (map f l) k = f (at_ l k).
Proof. intros H. unfold CField.at_. change (k0 (c:=CC)) with c0. rewrite (nth_indep _ c0 (f c0)) by (now rewrite map_length). apply map_nth. Qed.
Lemma derive_fst u t0 d : cderive u t0 d -> derivable_pt_lim (fun t => fst (u t)) t0 (fst d).
Proof. intros [H _]. exact H. Qed.
Lemma derive_scale a f t0 d : derivable_pt_lim f t0 d -> derivable_pt_lim (fun t => a * f t) t0 (a * d).
Proof. exact (derivable_pt_lim_scal f a t0 d). Qed.
Lemma cabs_nz x : x <> c0 -> cabs x <> 0.
Proof.
  intros H E. apply H. pose proof (cabs_sqr x) as Hs. rewrite E in Hs. apply c_eq; unfold cn2 in Hs; cbn; nra.
Qed.

(** ** overlap *)
Section Overlap.
Variable g : grid CC.
Local Notation N := (vlen g).
Lemma abs_overlap_derive c gv (E : R -> list C) (E' : list C) t0 : length c = N -> overlap_eval g c (E t0) <> c0 ->
  (forall k, (k < N)%nat -> cderive (fun t => at_ (E t) k) t0 (at_ E' k)) ->
  exists go, abs_grad (overlap_eval g c (E t0)) gv = Ok go /\
  derivable_pt_lim (fun t => gv * abs_eval (overlap_eval g c (E t))) t0 (fst (fsum N (fun k => cmul (at_ (overlap_grad c go) k) (at_ E' k)))).
Proof.
  intros Hc Hnz Hd. set (x := overlap_eval g c (E t0)) in *. exists (cmul (creal gv) (cscale (/ cabs x) (cconj x))). split.
  - unfold abs_grad. destruct (czero x) eqn:Ez; [|reflexivity]. apply czero_spec in Ez. contradiction.
  - assert (Ho : cderive (fun t => overlap_eval g c (E t)) t0 (fsum N (fun k => cmul (at_ c k) (at_ E' k)))).
    { unfold overlap_eval. apply (@cd_fsum N (fun k t => cmul (at_ c k) (at_ (E t) k)) (fun k => cmul (at_ c k) (at_ E' k))). intros k Hk. apply cd_scale, Hd, Hk. }
    eapply derive_eq; [|apply derive_scale; exact (@cd_abs (fun t => overlap_eval g c (E t)) t0 _ Hnz Ho)]. fold x.
    transitivity (fst (cmul (cmul (creal gv) (cscale (/ cabs x) (cconj x))) (fsum N (fun k => cmul (at_ c k) (at_ E' k))))).
    + generalize (fsum N (fun k => cmul (at_ c k) (at_ E' k))). intros [a b]. pose proof (cabs_nz Hnz). unfold cmul, cscale, cconj, creal. cbn [fst snd]. fold x. field. exact H.
    + f_equal. etransitivity; [symmetry; exact (@fsum_scale CC N (cmul (creal gv) (cscale (/ cabs x) (cconj x))) (fun k => cmul (at_ c k) (at_ E' k)))|].
      apply (@fsum_ext CC). intros k Hk. unfold overlap_grad. rewrite at_map_c by lia. cr.
Qed.
End Overlap.

(** ** power through a plane *)
Section Power.
Variable gd : grid CC.
Variable omega : R.
Hypothesis Hom : omega <> 0.
Hypothesis Hreal : real_cells gd.
Variable plane : nat -> bool.
Variable pol : R.
Local Notation N := (vlen gd).
Local Notation e2h := (e2h gd flat_phases (creal omega) None None).
Local Notation hfield := (hfield omega gd).
Local Notation ex := (poynting_chew_e_cross gd).
Local Notation hx := (poynting_chew_h_cross gd).
Variable E : R -> list C.
Variable E' : list C.
Variable t0 : R.
Hypothesis HlE : length E' = N.
Hypothesis HE : forall k, (k < N)%nat -> cderive (fun t => at_ (E t) k) t0 (at_ E' k).
Lemma h_derive k : (k < N)%nat -> cderive (fun t => at_ (hfield (E t)) k) t0 (at_ (hfield E') k).
Proof.
  intros Hk. unfold Adj_Model.hfield. apply (@cd_ext (fun t => fsum N (fun j => cmul (e2h k j) (at_ (E t) j)))).
  - intros t. symmetry. exact (@mv_at CC N e2h (E t) k Hk).
  - eapply cd_eq; [|apply (@cd_fsum N (fun j t => cmul (e2h k j) (at_ (E t) j)) (fun j => cmul (e2h k j) (at_ E' j))); intros j Hj; apply cd_scale, HE, Hj].
    symmetry. exact (@mv_at CC N e2h E' k Hk).
Qed.
Lemma conj_at (v : list C) k : at_ (map cconj v) k = cconj (at_ v k).
Proof.
  unfold CField.at_. change (k0 (c:=CC)) with c0. replace c0 with (cconj c0) at 1; [apply map_nth|cring].
Qed.
Lemma cd_sub u v t0' d e : cderive u t0' d -> cderive v t0' e -> cderive (fun t => csub (u t) (v t)) t0' (csub d e).
Proof. intros [H1 H2] [H3 H4]. split; cbn; [now apply (derivable_pt_lim_minus (fun t => fst (u t)) (fun t => fst (v t)))|now apply (derivable_pt_lim_minus (fun t => snd (u t)) (fun t => snd (v t)))]. Qed.
Lemma flux_derive i : (i < N)%nat ->
  cderive (fun t => at_ (mv (K:=CC) N (ex (E t)) (map cconj (hfield (E t)))) i) t0
          (cadd (at_ (mv (K:=CC) N (ex E') (map cconj (hfield (E t0)))) i) (at_ (mv (K:=CC) N (ex (E t0)) (map cconj (hfield E'))) i)).
Proof.
  intros Hi. destruct (@block_ex (cellsn gd) i Hi) as (r & t & Hr & Ht & ->).
  assert (P : forall e h, at_ (mv (K:=CC) N (ex e) h) (r * cellsn gd + t) =
     cmul (face_area gd r t) (cross_product (K:=CC) (fun c => at_ e (c * cellsn gd + fwd gd r t)%nat) (fun c => at_ h (c * cellsn gd + t)%nat) r)).
  { intros e h. exact (@poynting_e_at CC gd e h r t Hr Ht). }
  apply (@cd_ext (fun s => cmul (face_area gd r t) (cross_product (K:=CC) (fun c => at_ (E s) (c * cellsn gd + fwd gd r t)%nat) (fun c => at_ (map cconj (hfield (E s))) (c * cellsn gd + t)%nat) r))).
  - intros s. symmetry. apply P.
  - rewrite !P.
    assert (De : forall c, (c < 3)%nat -> cderive (fun s => at_ (E s) (c * cellsn gd + fwd gd r t)) t0 (at_ E' (c * cellsn gd + fwd gd r t))).
    { intros c Hc. apply HE. pose proof (fwd_lt gd r Ht). unfold vlen. nia. }
    assert (Dh : forall c, (c < 3)%nat -> cderive (fun s => at_ (map cconj (hfield (E s))) (c * cellsn gd + t)) t0 (at_ (map cconj (hfield E')) (c * cellsn gd + t))).
    { intros c Hc. rewrite conj_at. apply (@cd_ext (fun s => cconj (at_ (hfield (E s)) (c * cellsn gd + t)))); [intros s; symmetry; apply conj_at|].
      apply cd_conj, h_derive. unfold vlen. nia. }
    assert (Dm : forall a b, (a < 3)%nat -> (b < 3)%nat ->
       cderive (fun s => cmul (at_ (E s) (a * cellsn gd + fwd gd r t)) (at_ (map cconj (hfield (E s))) (b * cellsn gd + t))) t0
         (cadd (cmul (at_ E' (a * cellsn gd + fwd gd r t)) (at_ (map cconj (hfield (E t0))) (b * cellsn gd + t)))
               (cmul (at_ (E t0) (a * cellsn gd + fwd gd r t)) (at_ (map cconj (hfield E')) (b * cellsn gd + t))))).
    { intros a b Ha Hb. exact (cd_mul (De a Ha) (Dh b Hb)). }
    ax3 r; unfold cross_product.
    + eapply cd_eq; [|exact (cd_scale (face_area gd 0 t) (cd_sub (Dm 1%nat 2%nat ltac:(lia) ltac:(lia)) (Dm 2%nat 1%nat ltac:(lia) ltac:(lia))))]. cr.
    + eapply cd_eq; [|exact (cd_scale (face_area gd 1 t) (cd_sub (Dm 2%nat 0%nat ltac:(lia) ltac:(lia)) (Dm 0%nat 2%nat ltac:(lia) ltac:(lia))))]. cr.
    + eapply cd_eq; [|exact (cd_scale (face_area gd 2 t) (cd_sub (Dm 0%nat 1%nat ltac:(lia) ltac:(lia)) (Dm 1%nat 0%nat ltac:(lia) ltac:(lia))))]. cr.
Qed.
(** row [i] of the matrix of power_grad *)
Definition pmat (i j : nat) : C := cmul (creal (- (1 / 4)))
  (cadd (mmul (K:=CC) N (fun i j => cmul (cdiv c1 (cmul imag_unit (creal omega))) (cconj (ex (E t0) i j))) (curl_e gd (fun _ => c1) (fun _ => c1)) i j) (cconj (hx (hfield (E t0)) i j))).
Lemma iomega_nz : cmul imag_unit (creal omega) <> c0.
Proof. intros H. apply (f_equal snd) in H. cbn in H. apply Hom. lra. Qed.
Lemma curl_h_at i : (i < N)%nat -> at_ (mv (K:=CC) N (curl_e gd (fun _ => c1) (fun _ => c1)) E') i = cmul (copp (cmul imag_unit (creal omega))) (at_ (hfield E') i).
Proof.
  intros Hi. unfold Adj_Model.hfield.
  etransitivity; [exact (@mv_at CC N _ E' i Hi)|].
  rewrite (@mv_at CC N e2h E' i Hi).
  etransitivity; [|exact (@fsum_scale CC N (copp (cmul imag_unit (creal omega))) (fun j => cmul (e2h i j) (at_ E' j)))].
  apply (@fsum_ext CC). intros j Hj. unfold Maxwell_Model.e2h. cbn [ue we flat_phases].
  set (a := curl_e gd (fun _ => c1) (fun _ => c1) i j). change (cmul a (at_ E' j) = cmul (copp (cmul imag_unit (creal omega))) (cmul (cdiv a (cmul (copp imag_unit) (creal omega))) (at_ E' j))).
  pose proof iomega_nz as Hn. unfold cdiv.
  replace (cmul (copp imag_unit) (creal omega)) with (copp (cmul imag_unit (creal omega))) by cring.
  assert (Hn' : copp (cmul imag_unit (creal omega)) <> c0).
  { intros H. apply Hn. apply (f_equal copp) in H. replace (copp c0) with c0 in H by cring. rewrite <- H. cring. }
  pose proof (cinv_r Hn') as Hi'. set (w := copp (cmul imag_unit (creal omega))) in *.
  transitivity (cmul (cmul w (cinv w)) (cmul a (at_ E' j))); [rewrite Hi'|]; ring.
Qed.
Lemma pmat_row i : (i < N)%nat ->
  fsum N (fun j => cmul (pmat i j) (at_ E' j)) =
  cmul (creal (1 / 4)) (cadd (at_ (mv (K:=CC) N (ex E') (map cconj (hfield (E t0)))) i) (cconj (at_ (mv (K:=CC) N (ex (E t0)) (map cconj (hfield E'))) i))).
Proof.
  intros Hi.
  assert (A1 : at_ (mv (K:=CC) N (ex E') (map cconj (hfield (E t0)))) i = copp (at_ (mv (K:=CC) N (fun i j => cconj (hx (hfield (E t0)) i j)) E') i)).
  { pose proof (@poynting_agree_lemma CC gd E' (hfield (E t0)) HlE ltac:(apply (@mv_length CC)) Hreal) as A.
    etransitivity; [exact (f_equal (fun v => at_ v i) A)|]. exact (@vneg_at CC _ i). }
  assert (A2 : cconj (at_ (mv (K:=CC) N (ex (E t0)) (map cconj (hfield E'))) i) = at_ (mv (K:=CC) N (fun i j => cconj (ex (E t0) i j)) (hfield E')) i).
  { symmetry. exact (@mv_conj CC gd (ex (E t0)) (hfield E') i Hi). }
  rewrite A1, A2. set (k := cdiv c1 (cmul imag_unit (creal omega))).
  assert (A3 : at_ (mv (K:=CC) N (mmul (K:=CC) N (fun i j => cmul k (cconj (ex (E t0) i j))) (curl_e gd (fun _ => c1) (fun _ => c1))) E') i =
     copp (at_ (mv (K:=CC) N (fun i j => cconj (ex (E t0) i j)) (hfield E')) i)).
  { etransitivity; [exact (f_equal (fun v => at_ v i) (@mv_mmul CC N _ _ E'))|].
    etransitivity; [exact (@mv_at CC N _ _ i Hi)|].
    etransitivity; [|symmetry; exact (f_equal copp (@mv_at CC N (fun i j => cconj (ex (E t0) i j)) (hfield E') i Hi))].
    transitivity (cmul (copp c1) (fsum N (fun j => cmul (cconj (ex (E t0) i j)) (at_ (hfield E') j)))); [|cr].
    etransitivity; [|exact (@fsum_scale CC N (copp c1) (fun j => cmul (cconj (ex (E t0) i j)) (at_ (hfield E') j)))].
    apply (@fsum_ext CC). intros j Hj. rewrite curl_h_at by auto. unfold k, cdiv. pose proof (cinv_r iomega_nz) as Hi'. set (w := cmul imag_unit (creal omega)) in *.
    change (cmul (cmul (cmul c1 (cinv w)) (cconj (ex (E t0) i j))) (cmul (copp w) (at_ (hfield E') j)) = cmul (copp c1) (cmul (cconj (ex (E t0) i j)) (at_ (hfield E') j))).
    transitivity (cmul (cmul w (cinv w)) (copp (cmul (cconj (ex (E t0) i j)) (at_ (hfield E') j)))); [ring|]. rewrite Hi'. ring. }
  set (m1 := mmul (K:=CC) N (fun i j => cmul k (cconj (ex (E t0) i j))) (curl_e gd (fun _ => c1) (fun _ => c1))) in *.
  set (m2 := fun i j => cconj (hx (hfield (E t0)) i j)) in *.
  transitivity (cmul (creal (- (1 / 4))) (cadd (at_ (mv (K:=CC) N m1 E') i) (at_ (mv (K:=CC) N m2 E') i))).
  - etransitivity; [|symmetry; refine (f_equal2 (fun x y => cmul (creal (- (1 / 4))) (cadd x y)) (@mv_at CC N m1 E' i Hi) (@mv_at CC N m2 E' i Hi))].
    etransitivity; [|exact (f_equal (cmul (creal (- (1 / 4)))) (@fsum_add CC N (fun j => cmul (m1 i j) (at_ E' j)) (fun j => cmul (m2 i j) (at_ E' j))))].
    etransitivity; [|exact (@fsum_scale CC N (creal (- (1 / 4))) (fun j => cadd (cmul (m1 i j) (at_ E' j)) (cmul (m2 i j) (at_ E' j))))].
    apply (@fsum_ext CC). intros j Hj. unfold pmat. fold k m1. change (cconj (hx (hfield (E t0)) i j)) with (m2 i j). cr.
  - rewrite A3. generalize (at_ (mv (K:=CC) N (fun i j => cconj (ex (E t0) i j)) (hfield E')) i), (at_ (mv (K:=CC) N m2 E') i). intros x y. cring.
Qed.
Lemma power_derive gv : derivable_pt_lim (fun t => gv * power_eval omega gd plane pol (E t)) t0
  (2 * fst (fsum N (fun k => cmul (at_ (power_grad omega gd plane pol (E t0) gv) k) (at_ E' k)))).
Proof.
  set (S := fun i => cadd (at_ (mv (K:=CC) N (ex E') (map cconj (hfield (E t0)))) i) (at_ (mv (K:=CC) N (ex (E t0)) (map cconj (hfield E'))) i)).
  eapply derive_eq; [|apply derive_scale; apply derive_scale; apply (@derive_rsum nat (fun i t => 1 / 2 * fst (at_ (mv (K:=CC) N (ex (E t)) (map cconj (hfield (E t)))) i) * fst (filter_at plane i)) (fun i => 1 / 2 * fst (S i) * fst (filter_at plane i)))].
  - rewrite rsum_seq.
    replace (fsum N (fun k => cmul (at_ (power_grad omega gd plane pol (E t0) gv) k) (at_ E' k)))
      with (fsum N (fun i => cmul (cmul (creal (gv * pol)) (filter_at plane i)) (fsum N (fun j => cmul (pmat i j) (at_ E' j))))).
    + rewrite fst_fsum, <- rs_scale, <- rs_scale, <- rs_scale. apply rs_ext. intros i Hi. rewrite pmat_row by auto. unfold S.
      generalize (at_ (mv (K:=CC) N (ex E') (map cconj (hfield (E t0)))) i), (at_ (mv (K:=CC) N (ex (E t0)) (map cconj (hfield E'))) i). intros [a b] [a' b'].
      unfold filter_at. destruct (plane i); cbv [cmul cadd cconj creal c0 c1 fst snd]; field.
    + transitivity (fsum N (fun i => fsum N (fun j => cmul (cmul (cmul (creal (gv * pol)) (filter_at plane i)) (pmat i j)) (at_ E' j)))).
      * apply (@fsum_ext CC). intros i Hi. etransitivity; [symmetry; exact (@fsum_scale CC N _ (fun j => cmul (pmat i j) (at_ E' j)))|].
        apply (@fsum_ext CC). intros j Hj. cr.
      * etransitivity; [exact (@fsum_swap CC N N (fun i j => cmul (cmul (cmul (creal (gv * pol)) (filter_at plane i)) (pmat i j)) (at_ E' j)))|].
        apply (@fsum_ext CC). intros j Hj.
        etransitivity; [exact (@fsum_scale_r CC N (at_ E' j) (fun i => cmul (cmul (creal (gv * pol)) (filter_at plane i)) (pmat i j)))|].
        apply (f_equal2 cmul); [|reflexivity]. symmetry. unfold power_grad. exact (@vbuild_at CC N _ j Hj).
  - intros i Hi. apply in_seq in Hi. apply (@derive_ext (fun t => (1 / 2 * fst (filter_at plane i)) * fst (at_ (mv (K:=CC) N (ex (E t)) (map cconj (hfield (E t)))) i))); [intros t; ring|].
    eapply derive_eq; [|apply derive_scale; exact (derive_fst (@flux_derive i (proj2 Hi)))]. fold (S i). ring.
Qed.
Lemma power_grad_length gv : length (power_grad omega gd plane pol (E t0) gv) = N.
Proof. apply (@vbuild_length CC). Qed.
End Power.
