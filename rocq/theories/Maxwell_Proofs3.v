(** Conjugation, adjoint simulation, functional operators, first- and second-order forms. *)
From Verif Require Import Base CField CField_Proofs Maxwell_Model Maxwell_Spec Maxwell_Proofs Maxwell_Proofs2.
From Coq Require Import ZArith.
Set Implicit Arguments.

Section M.
Variable K : cfield.
Local Open Scope K_scope.
Add Field Kfield : (k_field K).
Variable g : grid K.
Local Notation n := (cellsn g).
Local Notation N := (vlen g).
Local Notation coord := (coord g).
Local Notation s := (at_ (vec g (p_squared g))).

(** *** conjugated operators *)
Section Conj.
Hypothesis Hnz : nonzero_cells g.
Lemma conj_if (b : bool) (x y : K) : kconj (if b then x else y) = if b then kconj x else kconj y.
Proof. now destruct b. Qed.
Lemma conj_deriv_forward u w a t j : (a < 3)%nat -> (t < n)%nat ->
  deriv_forward (conj_grid g) (conj_fun u) (conj_fun w) a t j = kconj (deriv_forward g u w a t j).
Proof.
  intros Ha Ht. rewrite (deriv_forward_entry (conj_grid g)), (deriv_forward_entry g) by auto.
  destruct (Hnz (a:=a) (i:=coord a t) Ha (coord_lt g Ha Ht)) as [He _].
  rewrite kconj_mul, kconj_div, kconj_1, kconj_sub, !conj_if, kconj_0, kconj_1 by auto.
  unfold Maxwell_Proofs.fd. rewrite conj_if, kconj_1. reflexivity.
Qed.
Lemma conj_deriv_back u w a t j : (a < 3)%nat -> (t < n)%nat ->
  deriv_back (conj_grid g) (conj_fun u) (conj_fun w) a t j = kconj (deriv_back g u w a t j).
Proof.
  intros Ha Ht. rewrite (deriv_back_entry (conj_grid g)), (deriv_back_entry g) by auto.
  destruct (Hnz (a:=a) (i:=coord a t) Ha (coord_lt g Ha Ht)) as [_ He].
  rewrite kconj_mul, kconj_div, kconj_opp, kconj_1, kconj_sub, !conj_if, kconj_0, kconj_1 by auto.
  unfold Maxwell_Proofs.bd. rewrite conj_if, kconj_1. reflexivity.
Qed.
Lemma conj_cross D D' i k : (forall a t j, (a < 3)%nat -> (t < n)%nat -> D' a t j = kconj (D a t j)) ->
  (i < N)%nat -> (k < N)%nat -> cross (conj_grid g) D' i k = kconj (cross g D i k).
Proof.
  intros HD Hi Hk. destruct (@block_ex n i Hi) as (r & t & Hr & Ht & ->). destruct (@block_ex n k Hk) as (c & j & Hc & Hj & ->).
  unfold cross. change (cellsn (conj_grid g)) with n. rewrite !bmat_at by auto.
  ax3 r; ax3 c; unfold mneg; rewrite ?kconj_0, ?kconj_opp, ?HD by (auto; lia); reflexivity.
Qed.
Lemma conj_maskv m i : kconj (maskv K m i) = maskv K m i.
Proof. destruct m as [b|]; simpl; [destruct (b i)|]; auto using kconj_0, kconj_1. Qed.
Lemma conj_e_full ph omega eps mu pec pmc i j : nonzero_opt N mu -> (i < N)%nat -> (j < N)%nat ->
  e_full (conj_grid g) (conj_phases ph) (kconj omega) (conj_fun eps) (conj_opt mu) pec pmc i j
  = kconj (e_full g ph omega eps mu pec pmc i j).
Proof.
  intros Hmu Hi Hj. rewrite (e_full_entry (conj_grid g)), (e_full_entry g) by auto.
  rewrite !kconj_mul, kconj_sub, !kconj_mul, kconj_fsum, !conj_maskv.
  change (vlen (conj_grid g)) with N.
  apply f_equal2; [|reflexivity]. apply f_equal2; [reflexivity|]. apply f_equal2.
  - apply fsum_ext. intros k Hk. rewrite !kconj_mul, conj_maskv.
    unfold conj_phases; cbn [ue we uh wh]. unfold curl_h, curl_e.
    rewrite (@conj_cross (deriv_back g (uh ph) (wh ph)) _ i k) by (auto using conj_deriv_back).
    rewrite (@conj_cross (deriv_forward g (ue ph) (we ph)) _ k j) by (auto using conj_deriv_forward).
    apply f_equal2; [|reflexivity]. apply f_equal2; [reflexivity|]. apply f_equal2; [reflexivity|].
    destruct mu as [m|]; simpl; [|now rewrite kconj_1]. rewrite kconj_div, kconj_1 by (apply Hmu; auto). reflexivity.
  - apply f_equal2; [reflexivity|]. unfold mdiag. rewrite conj_if, kconj_0. reflexivity.
Qed.
Lemma conj_conj_fun (f : nat -> K) i : conj_fun (conj_fun f) i = f i.
Proof. apply kconj_conj. Qed.
Lemma at_conj (l : list K) i : at_ (map kconj l) i = kconj (at_ l i).
Proof. unfold at_. rewrite <- (map_nth kconj), kconj_0. reflexivity. Qed.
Lemma p_squared_conj i : (i < N)%nat -> at_ (adjoint_scale g) i = s i.
Proof.
  intros Hi. unfold adjoint_scale. rewrite at_conj.
  destruct (@block_ex n i Hi) as (r & t & Hr & Ht & ->). rewrite (vec_at (conj_grid g)), (vec_at g) by auto.
  change (Maxwell_Model.coord (conj_grid g)) with coord. ax3 r; simpl; rewrite !kconj_mul, !kconj_conj; reflexivity.
Qed.
Lemma adjoint_entry ph omega eps mu pec pmc i j : nonzero_opt N mu -> (i < N)%nat -> (j < N)%nat ->
  kconj (s i) * e_full (conj_grid g) (conj_phases (opposite ph)) (kconj omega) (conj_fun eps) (conj_opt mu) pec pmc i j
  = kconj (s j) * mherm (e_full g ph omega eps mu pec pmc) i j.
Proof.
  intros Hmu Hi Hj. rewrite conj_e_full by auto. unfold mherm. rewrite <- !kconj_mul. f_equal.
  symmetry. now apply e_full_transpose_lemma.
Qed.
Lemma adjoint_simulation_general ph omega eps mu pec pmc J v : nonzero_opt N mu -> length J = N ->
  mv N (e_full (conj_grid g) (conj_phases (opposite ph)) (kconj omega) (conj_fun eps) (conj_opt mu) pec pmc) v
    = vscale (- ki * kconj omega) (adjoint_source g J) ->
  mv N (mherm (e_full g ph omega eps mu pec pmc)) (vbuild N (fun i => kconj (s i) / s i * at_ (adjoint_result g v) i))
    = vscale (- ki * kconj omega) (vbuild N (fun i => kconj (s i) / s i * at_ J i)).
Proof.
  intros Hmu HJ H. apply vec_ext; [unfold vscale; now rewrite mv_length, map_length, vbuild_length|].
  intros i Hi. rewrite mv_length in Hi. apply (f_equal (fun v => at_ v i)) in H. cbn beta in H.
  assert (Hsc : forall c w, at_ (vscale c w) i = c * at_ w i :> K).
  { intros c w. unfold vscale, at_. assert (E : (0:K) = c * 0) by ring. rewrite E at 1. now rewrite (map_nth (fun x => c * x)). }
  rewrite Hsc in *. rewrite mv_at in H |- * by auto. unfold adjoint_source in H. rewrite vbuild_at in H |- * by auto.
  rewrite p_squared_conj in H by auto.
  pose proof (p_squared_neq0 Hnz Hi) as Hs.
  transitivity (kconj (s i) * fsum N (fun j => e_full (conj_grid g) (conj_phases (opposite ph)) (kconj omega) (conj_fun eps) (conj_opt mu) pec pmc i j * at_ v j)).
  - rewrite <- fsum_scale. apply fsum_ext. intros j Hj. unfold adjoint_result. rewrite !vbuild_at by auto.
    rewrite p_squared_conj by auto. pose proof (p_squared_neq0 Hnz Hj) as Hsj.
    pose proof (@adjoint_entry ph omega eps mu pec pmc i j Hmu Hi Hj) as E.
    match goal with |- ?X * (?c / ?d * (?y * ?d)) = _ => transitivity (c * X * y); [field; auto|] end.
    rewrite <- E. ring.
  - rewrite H. field. auto.
Qed.
Lemma real_s i : real_cells g -> (i < N)%nat -> kconj (s i) = s i.
Proof.
  intros Hr Hi. destruct (@block_ex n i Hi) as (r & t & Hr' & Ht & ->). rewrite vec_at by auto.
  assert (Hc : forall a, (a < 3)%nat -> kconj (dxe g a (coord a t)) = dxe g a (coord a t) /\ kconj (dxh g a (coord a t)) = dxh g a (coord a t))
    by (intros a Ha; apply (Hr a _ Ha), coord_lt; auto).
  destruct (Hc 0%nat ltac:(lia)) as [e0 h0], (Hc 1%nat ltac:(lia)) as [e1 h1], (Hc 2%nat ltac:(lia)) as [e2 h2].
  ax3 r; unfold p_squared; rewrite !kconj_mul, ?e0, ?e1, ?e2, ?h0, ?h1, ?h2; reflexivity.
Qed.
Lemma adjoint_simulation_real_lemma ph omega eps mu pec pmc J v : nonzero_opt N mu -> real_cells g -> length J = N ->
  mv N (e_full (conj_grid g) (conj_phases (opposite ph)) (kconj omega) (conj_fun eps) (conj_opt mu) pec pmc) v
    = vscale (- ki * kconj omega) (adjoint_source g J) ->
  mv N (mherm (e_full g ph omega eps mu pec pmc)) (adjoint_result g v) = vscale (- ki * kconj omega) J.
Proof.
  intros Hmu Hr HJ H. pose proof (@adjoint_simulation_general ph omega eps mu pec pmc J v Hmu HJ H) as E.
  assert (Ex : forall w : list K, length w = N -> vbuild N (fun i => kconj (s i) / s i * at_ w i) = w).
  { intros w Hw. transitivity (vbuild N (at_ w)); [|now apply vbuild_id]. apply vbuild_ext. intros i Hi.
    rewrite (real_s Hr Hi). field. now apply p_squared_neq0. }
  rewrite !Ex in E by (auto; unfold adjoint_result; apply vbuild_length). exact E.
Qed.
Lemma adjoint_simulation_pml_lemma ph omega eps mu pec pmc J v : nonzero_opt N mu -> length J = N ->
  (forall i, (i < N)%nat -> kconj (s i) = s i \/ at_ J i = 0) ->
  mv N (e_full (conj_grid g) (conj_phases (opposite ph)) (kconj omega) (conj_fun eps) (conj_opt mu) pec pmc) v
    = vscale (- ki * kconj omega) (adjoint_source g J) ->
  exists x, length x = N /\ mv N (mherm (e_full g ph omega eps mu pec pmc)) x = vscale (- ki * kconj omega) J /\
    forall i, (i < N)%nat -> kconj (s i) = s i -> at_ x i = at_ (adjoint_result g v) i.
Proof.
  intros Hmu HJ Hsup H. pose proof (@adjoint_simulation_general ph omega eps mu pec pmc J v Hmu HJ H) as E.
  eexists. split; [|split; [rewrite E; f_equal|]].
  - apply vbuild_length.
  - transitivity (vbuild N (at_ J)); [|now apply vbuild_id]. apply vbuild_ext. intros i Hi.
    pose proof (p_squared_neq0 Hnz Hi) as Hs.
    destruct (Hsup i Hi) as [Hr|H0]; [rewrite Hr|rewrite H0]; field; auto.
  - intros i Hi Hr. rewrite vbuild_at by auto. rewrite Hr. field. now apply p_squared_neq0.
Qed.
(** *** lossless problems are Hermitian *)
Lemma precond_hermitian_lemma p ph omega eps mu pec pmc :
  is_sqrt g p -> real_cells g -> nonzero_opt N mu -> real_opt N mu -> (forall i, (i < N)%nat -> kconj (p i) = p i) ->
  kconj omega = omega -> (forall i, (i < N)%nat -> kconj (eps i) = eps i) ->
  (forall a, kconj (ue ph a) = wh ph a) ->
  hermitian N (preconditioned g p (e_full g ph omega eps mu pec pmc)).
Proof.
  intros Hp Hr Hmu Hrmu Hrp Ho He Hph i j Hi Hj.
  assert (Hcf : forall a t k, (a < 3)%nat -> (t < n)%nat -> (k < n)%nat -> kconj (deriv_forward g (ue ph) (we ph) a t k) = deriv_forward g (wh ph) (uh ph) a t k).
  { intros a t k Ha Ht Hk. rewrite !deriv_forward_entry by auto.
    destruct (Hr a (coord a t) Ha (coord_lt g Ha Ht)) as [E _]. destruct (Hnz (a:=a) (i:=coord a t) Ha (coord_lt g Ha Ht)) as [E' _].
    rewrite kconj_mul, kconj_div, kconj_1, kconj_sub, !conj_if, kconj_0, kconj_1, E by auto.
    unfold Maxwell_Proofs.fd. rewrite conj_if, kconj_1, Hph. reflexivity. }
  assert (Hcb : forall a t k, (a < 3)%nat -> (t < n)%nat -> (k < n)%nat -> kconj (deriv_back g (uh ph) (wh ph) a t k) = deriv_back g (we ph) (ue ph) a t k).
  { intros a t k Ha Ht Hk. rewrite !deriv_back_entry by auto.
    destruct (Hr a (coord a t) Ha (coord_lt g Ha Ht)) as [_ E]. destruct (Hnz (a:=a) (i:=coord a t) Ha (coord_lt g Ha Ht)) as [_ E'].
    rewrite kconj_mul, kconj_div, kconj_opp, kconj_1, kconj_sub, !conj_if, kconj_0, kconj_1, E by auto.
    unfold Maxwell_Proofs.bd. rewrite conj_if, kconj_1, <- Hph, kconj_conj. reflexivity. }
  assert (Hx : forall D D' i k, (forall a t j, (a < 3)%nat -> (t < n)%nat -> (j < n)%nat -> kconj (D a t j) = D' a t j) ->
     (i < N)%nat -> (k < N)%nat -> kconj (cross g D i k) = cross g D' i k).
  { clear. intros D D' i k HD Hi Hk. destruct (@block_ex n i Hi) as (r & t & Hr & Ht & ->). destruct (@block_ex n k Hk) as (c & j & Hc & Hj & ->).
    unfold cross. rewrite !bmat_at by auto.
    ax3 r; ax3 c; unfold mneg; rewrite ?kconj_0, ?kconj_opp, ?HD by (auto; lia); reflexivity. }
  rewrite (precond_transpose_lemma Hnz Hp) by auto. rewrite !precond_entry by auto.
  pose proof (p_neq0 Hnz Hp Hi) as Hpi.
  rewrite !kconj_mul, kconj_div, kconj_1, !Hrp by auto. apply f_equal2; [|reflexivity]. apply f_equal2; [reflexivity|].
  rewrite !e_full_entry by auto. rewrite !kconj_mul, kconj_sub, !kconj_mul, kconj_fsum, !conj_maskv, Ho.
  unfold opposite; cbn [ue we uh wh].
  apply f_equal2; [|reflexivity]. apply f_equal2; [reflexivity|]. apply f_equal2.
  - apply fsum_ext. intros k Hk. rewrite !kconj_mul, conj_maskv. unfold curl_h, curl_e.
    rewrite (Hx _ _ j k Hcb), (Hx _ _ k i Hcf) by auto. apply f_equal2; [|reflexivity]. apply f_equal2; [reflexivity|]. apply f_equal2; [reflexivity|].
    destruct mu as [m|]; simpl; [|now rewrite kconj_1]. rewrite kconj_div, kconj_1, Hrmu by (auto; apply Hmu; auto). reflexivity.
  - apply f_equal2; [reflexivity|]. unfold mdiag. rewrite conj_if, kconj_0. destruct (Nat.eqb j i); [now rewrite He|reflexivity].
Qed.
End Conj.

(** *** action of the operators on vectors *)
Lemma vscale_at c (w : list K) i : at_ (vscale c w) i = c * at_ w i :> K.
Proof. unfold vscale, at_. assert (E : (0:K) = c * 0) by ring. rewrite E at 1. now rewrite (map_nth (fun x => c * x)). Qed.
Lemma mv_mask_at m v i : (i < N)%nat -> at_ (mv N (mask m) v) i = maskv K m i * at_ v i.
Proof. intros Hi. rewrite mask_diag. now apply mv_mdiag_at. Qed.
Definition pmul (d : nat -> K) (v : list K) : list K := vbuild N (fun i => d i * at_ v i).
Lemma pmul_at d v i : (i < N)%nat -> at_ (pmul d v) i = d i * at_ v i.
Proof. apply vbuild_at. Qed.
Lemma pmul_length d v : length (pmul d v) = N.
Proof. apply vbuild_length. Qed.
Lemma mv_diag d v : mv N (mdiag d) v = pmul d v.
Proof. apply mv_mdiag. Qed.
Lemma mv_e_full ph omega eps mu pec pmc v i : (i < N)%nat ->
  at_ (mv N (e_full g ph omega eps mu pec pmc) v) i =
  maskv K pec i * (at_ (mv N (curl_h g (uh ph) (wh ph)) (pmul (maskv K pmc) (pmul (invv mu) (mv N (curl_e g (ue ph) (we ph)) (pmul (maskv K pec) v))))) i
                 - omega * omega * eps i * (maskv K pec i * at_ v i)).
Proof.
  intros Hi. unfold e_full. rewrite !mask_diag.
  assert (Em : match mu with None => meye | Some m => mdiag (fun i => 1 / m i) end = mdiag (invv mu)) by (destruct mu; reflexivity).
  rewrite Em, !mv_mmul, mv_mdiag_at, mv_msub_at by auto. rewrite !mv_mmul, mv_mscale_at, !mv_diag by auto.
  rewrite !(pmul_at _ _ Hi). ring.
Qed.
Lemma mv_h_full ph omega eps mu pec pmc v i : (i < N)%nat ->
  at_ (mv N (h_full g ph omega eps mu pec pmc) v) i =
  maskv K pmc i * (at_ (mv N (curl_e g (ue ph) (we ph)) (pmul (maskv K pec) (pmul (fun i => 1 / eps i) (mv N (curl_h g (uh ph) (wh ph)) (pmul (maskv K pmc) v))))) i
                 - omega * omega * muv mu i * (maskv K pmc i * at_ v i)).
Proof.
  intros Hi. unfold h_full. rewrite !mask_diag.
  assert (Em : match mu with None => meye | Some m => mdiag m end = mdiag (muv mu)) by (destruct mu; reflexivity).
  rewrite Em, !mv_mmul, mv_mdiag_at, mv_msub_at by auto. rewrite !mv_mmul, mv_mscale_at, !mv_diag by auto.
  rewrite !(pmul_at _ _ Hi). ring.
Qed.
Lemma pmul_vec d (f : field3 K) : pmul (at_ (vec g d)) (vec g f) = vec g (fun c x y z => d c x y z * f c x y z).
Proof.
  apply (@vlen_ext K g); [apply vbuild_length|apply vec_length|]. intros c t Hc Ht.
  rewrite pmul_at by (now apply blk_lt). now rewrite !vec_at.
Qed.
Lemma pmul_one d v : (forall i, (i < N)%nat -> d i = 1) -> length v = N -> pmul d v = v.
Proof.
  intros Hd Hv. transitivity (vbuild N (at_ v)); [|now apply vbuild_id]. apply vbuild_ext. intros i Hi. rewrite Hd by auto. ring.
Qed.
Lemma fe_full_none_lemma omega eps e :
  mv N (e_full g (no_bloch K) omega (at_ (vec g eps)) None None None) (vec g e) = vec g (fe_full g omega eps None e).
Proof.
  apply (@vlen_ext K g); [apply mv_length|apply vec_length|]. intros c t Hc Ht. pose proof (blk_lt g Hc Ht) as Hi.
  rewrite mv_e_full by auto. unfold no_bloch; cbn [ue we uh wh maskv invv].
  change (pmul (maskv K None)) with (pmul (fun _ => 1)). change (pmul (invv None)) with (pmul (fun _ => (1:K))).
  rewrite !(@pmul_one (fun _ => 1)) by (auto using mv_length, vec_length, pmul_length).
  rewrite curl_e_functional_lemma, curl_h_functional_lemma. rewrite !vec_at by auto. unfold fe_full. ring.
Qed.
Lemma fe_full_some_lemma omega eps m e : (forall i, (i < N)%nat -> at_ (vec g m) i <> 0) ->
  mv N (e_full g (no_bloch K) omega (at_ (vec g eps)) (Some (fun i => 1 / at_ (vec g m) i)) None None) (vec g e) = vec g (fe_full g omega eps (Some m) e).
Proof.
  intros Hm.
  apply (@vlen_ext K g); [apply mv_length|apply vec_length|]. intros c t Hc Ht. pose proof (blk_lt g Hc Ht) as Hi.
  rewrite mv_e_full by auto. unfold no_bloch; cbn [ue we uh wh maskv].
  change (pmul (maskv K None)) with (pmul (fun _ => 1)).
  rewrite !(@pmul_one (fun _ => 1)) by (auto using mv_length, vec_length, pmul_length).
  rewrite curl_e_functional_lemma.
  assert (E : pmul (invv (Some (fun i => 1 / at_ (vec g m) i))) (vec g (fcurl_e g e)) = pmul (at_ (vec g m)) (vec g (fcurl_e g e))).
  { apply vbuild_ext. intros k Hk. f_equal. simpl. apply Hm in Hk; pose proof (k1_neq_0 K). field. auto. }
  rewrite E, pmul_vec, curl_h_functional_lemma. rewrite !vec_at by auto. unfold fe_full. ring.
Qed.
(** e2h and the (E, H) form of functional.py *)
Lemma fe2h_lemma omega mu e : omega <> 0 -> (match mu with None => True | Some m => forall i, (i < N)%nat -> at_ (vec g m) i <> 0 end) ->
  mv N (e2h g (no_bloch K) omega (option_map (fun m => at_ (vec g m)) mu) None) (vec g e) = vec g (fe2h g omega mu e).
Proof.
  intros Ho Hm. apply (@vlen_ext K g); [apply mv_length|apply vec_length|]. intros c t Hc Ht. pose proof (blk_lt g Hc Ht) as Hi.
  rewrite vec_at by auto. pose proof (ki_neq0 K) as Hk. pose proof (@kopp_neq0 K _ Hk) as Hk2.
  assert (Ec : at_ (mv N (fun i j => curl_e g (ue (no_bloch K)) (we (no_bloch K)) i j / (- ki * omega)) (vec g e)) (c * n + t)
     = fcurl_e g e c (coord 0 t) (coord 1 t) (coord 2 t) / (- ki * omega)).
  { rewrite <- (vec_at g (fcurl_e g e)), <- curl_e_functional_lemma by auto. rewrite !mv_at by auto.
    rewrite (Fdiv_def (k_field K)), <- fsum_scale_r. apply fsum_ext. intros. rewrite (Fdiv_def (k_field K)). cbn [ue we no_bloch]. ring. }
  assert (Hio : - ki * omega <> (0:K)) by (apply kmul_neq0; auto using kopp_neq0).
  unfold e2h, fe2h. destruct mu as [m|]; cbn [option_map].
  - rewrite mv_mmul, mv_mdiag_at, Ec by auto. specialize (Hm _ Hi). rewrite vec_at in * by auto. field. auto.
  - rewrite Ec. field. auto.
Qed.
(** *** first-order form: 2 x 2 blocks *)
Lemma mv2_top (B : nat -> nat -> mat K) (x y : list K) i : length x = N -> length y = N -> (i < N)%nat ->
  at_ (mv (2 * N) (bmat N B) (x ++ y)) i = at_ (mv N (B 0%nat 0%nat) x) i + at_ (mv N (B 0%nat 1%nat) y) i.
Proof.
  intros Hx Hy Hi. rewrite !mv_at by lia. replace (2 * N)%nat with (N + N)%nat by lia. rewrite fsum_app.
  apply f_equal2; apply fsum_ext; intros j Hj; unfold bmat.
  - rewrite !Nat.div_small, !Nat.mod_small by auto. f_equal. unfold at_. now rewrite app_nth1 by lia.
  - rewrite (Nat.div_small i), (Nat.mod_small i) by auto.
    replace (N + j)%nat with (1 * N + j)%nat by lia. rewrite block_div, block_mod by auto. f_equal.
    unfold at_. rewrite app_nth2 by lia. f_equal. lia.
Qed.
Lemma mv2_bottom (B : nat -> nat -> mat K) (x y : list K) i : length x = N -> length y = N -> (i < N)%nat ->
  at_ (mv (2 * N) (bmat N B) (x ++ y)) (N + i) = at_ (mv N (B 1%nat 0%nat) x) i + at_ (mv N (B 1%nat 1%nat) y) i.
Proof.
  intros Hx Hy Hi. rewrite !mv_at by lia. replace (2 * N)%nat with (N + N)%nat by lia. rewrite fsum_app.
  replace (N + i)%nat with (1 * N + i)%nat by lia.
  apply f_equal2; apply fsum_ext; intros j Hj; unfold bmat; rewrite (block_div _ Hi), (block_mod _ Hi).
  - rewrite !Nat.div_small, !Nat.mod_small by auto. f_equal. unfold at_. now rewrite app_nth1 by lia.
  - replace (N + j)%nat with (1 * N + j)%nat by lia. rewrite block_div, block_mod by auto. f_equal.
    unfold at_. rewrite app_nth2 by lia. f_equal. lia.
Qed.
Lemma eh_rows ph omega eps m pec pmc A E H J M : length E = N -> length H = N -> length J = N -> length M = N ->
  eh_full g ph omega eps (Some m) pec pmc = Ok A -> mv (2 * N) A (E ++ H) = J ++ M ->
  (forall i, (i < N)%nat -> at_ J i = - (maskv K pec i * (ki * omega * eps i * (maskv K pec i * at_ E i)))
      + maskv K pec i * at_ (mv N (curl_h g (uh ph) (wh ph)) (pmul (maskv K pmc) H)) i) /\
  (forall i, (i < N)%nat -> at_ M i = maskv K pmc i * at_ (mv N (curl_e g (ue ph) (we ph)) (pmul (maskv K pec) E)) i
      + maskv K pmc i * (ki * omega * m i * (maskv K pmc i * at_ H i))).
Proof.
  intros HE HH HJ HM HA Hm. unfold eh_full in HA. injection HA as <-. rewrite !mask_diag in Hm. split; intros i Hi.
  - apply (f_equal (fun v => at_ v i)) in Hm. rewrite mv2_top in Hm by auto.
    assert (Ej : at_ (J ++ M) i = at_ J i) by (unfold at_; now rewrite app_nth1 by lia). rewrite Ej in Hm. rewrite <- Hm.
    rewrite mv_mneg_at by auto. rewrite !mv_mmul. rewrite mv_mdiag_at by auto. rewrite mv_mscale_at by auto. rewrite !mv_mdiag_at by auto. rewrite mv_diag. ring.
  - apply (f_equal (fun v => at_ v (N + i)%nat)) in Hm. rewrite mv2_bottom in Hm by auto.
    assert (Ej : at_ (J ++ M) (N + i) = at_ M i) by (unfold at_; rewrite app_nth2 by lia; f_equal; lia). rewrite Ej in Hm. rewrite <- Hm.
    rewrite !mv_mmul. rewrite !mv_mdiag_at by auto. rewrite mv_mscale_at by auto. rewrite !mv_mdiag_at by auto. rewrite mv_diag. ring.
Qed.
Lemma mv_lin (A : mat K) a v b w i : (i < N)%nat ->
  at_ (mv N A (vbuild N (fun k => a * at_ v k + b * at_ w k))) i = a * at_ (mv N A v) i + b * at_ (mv N A w) i.
Proof.
  intros Hi. rewrite !mv_at by auto. rewrite <- !fsum_scale, <- fsum_add. apply fsum_ext. intros j Hj. rewrite vbuild_at by auto. ring.
Qed.
Lemma maskv_sq m i : maskv K m i * maskv K m i = maskv K m i.
Proof. destruct m as [b|]; simpl; [destruct (b i)|]; ring. Qed.
Lemma vsub_at (v w : list K) i : length v = length w -> at_ (vsub v w) i = at_ v i - at_ w i.
Proof.
  intros Hl. unfold vsub, at_. revert w i Hl. induction v as [|x v IH]; intros [|y w] [|i] Hl; simpl in *; try discriminate; try ring; auto.
Qed.
Lemma vsub_length (v w : list K) : length v = length w -> length (vsub v w) = length v.
Proof. intros. unfold vsub. rewrite map_length, combine_length. lia. Qed.
Lemma eh_to_e_lemma ph omega eps m pec pmc A E H J M : omega <> 0 -> (forall i, (i < N)%nat -> m i <> 0) ->
  length E = N -> length H = N -> length J = N -> length M = N ->
  eh_full g ph omega eps (Some m) pec pmc = Ok A -> mv (2 * N) A (E ++ H) = J ++ M ->
  mv N (e_full g ph omega eps (Some m) pec pmc) E
    = vscale (- ki * omega) (vsub J (mv N (mask pec) (mv N (m2j g ph omega (Some m)) M))).
Proof.
  intros Ho Hm0 HE HH HJ HM HA Hm. destruct (eh_rows E H J M HE HH HJ HM HA Hm) as [RJ RM].
  pose proof (ki_neq0 K) as Hk. assert (Hio : ki * omega <> (0:K)) by auto using kmul_neq0.
  apply vec_ext; [unfold vscale; rewrite mv_length, map_length, vsub_length; rewrite ?mv_length; auto|]. intros i Hi. rewrite mv_length in Hi.
  rewrite vscale_at, vsub_at by (now rewrite mv_length). rewrite mv_mask_at by auto. rewrite RJ by auto. rewrite mv_e_full by auto.
  (* pmul (maskv pmc) H in terms of M and the curl *)
  set (C := mv N (curl_e g (ue ph) (we ph)) (pmul (maskv K pec) E)) in *.
  set (X := pmul (maskv K pmc) (pmul (invv (Some m)) C)).
  assert (EH : pmul (maskv K pmc) H = vbuild N (fun k => (1 / (ki * omega)) * at_ (pmul (invv (Some m)) M) k + (- (1 / (ki * omega))) * at_ X k)).
  { apply vbuild_ext. intros k Hk'. unfold X. rewrite !pmul_at by auto. rewrite RM by auto. simpl invv. specialize (Hm0 k Hk').
    transitivity (maskv K pmc k * maskv K pmc k * at_ H k); [now rewrite maskv_sq|]. field. auto. }
  rewrite EH, mv_lin by auto.
  assert (EM : at_ (mv N (m2j g ph omega (Some m)) M) i = 1 / (ki * omega) * at_ (mv N (curl_h g (uh ph) (wh ph)) (pmul (invv (Some m)) M)) i).
  { unfold m2j. rewrite mv_mmul, mv_diag. change (pmul (fun i => 1 / m i) M) with (pmul (invv (Some m)) M).
    rewrite !mv_at, <- fsum_scale by auto. apply fsum_ext. intros j Hj. rewrite !(Fdiv_def (k_field K)). ring. }
  rewrite EM. fold X.
  set (P := at_ (mv N (curl_h g (uh ph) (wh ph)) X) i). set (Q := at_ (mv N (curl_h g (uh ph) (wh ph)) (pmul (invv (Some m)) M)) i).
  set (pe := maskv K pec i). assert (Esq : ki * ki = - (1) :> K) by apply ki_sq.
  transitivity (pe * P - pe * pe * (omega * omega * eps i * at_ E i)); [ring|].
  transitivity (pe * P + pe * pe * ((ki * ki) * (omega * omega * eps i * at_ E i))); [rewrite Esq; ring|].
  field. auto.
Qed.
Lemma eh_to_h_lemma ph omega eps m pec pmc A E H J M : omega <> 0 -> (forall i, (i < N)%nat -> eps i <> 0) ->
  length E = N -> length H = N -> length J = N -> length M = N ->
  eh_full g ph omega eps (Some m) pec pmc = Ok A -> mv (2 * N) A (E ++ H) = J ++ M ->
  mv N (h_full g ph omega eps (Some m) pec pmc) H
    = vbuild N (fun i => ki * omega * at_ M i + at_ (mv N (mask pmc) (mv N (curl_e g (ue ph) (we ph)) (mv N (mdiag (fun k => 1 / eps k)) J))) i).
Proof.
  intros Ho He0 HE HH HJ HM HA Hm. destruct (eh_rows E H J M HE HH HJ HM HA Hm) as [RJ RM].
  pose proof (ki_neq0 K) as Hk. assert (Hio : ki * omega <> (0:K)) by auto using kmul_neq0.
  apply vec_ext; [rewrite mv_length, vbuild_length; auto|]. intros i Hi. rewrite mv_length in Hi.
  rewrite vbuild_at by auto. rewrite mv_mask_at by auto. rewrite RM by auto. rewrite mv_h_full by auto. rewrite mv_diag.
  set (C := mv N (curl_h g (uh ph) (wh ph)) (pmul (maskv K pmc) H)) in *.
  set (X := pmul (maskv K pec) (pmul (fun k => 1 / eps k) C)).
  assert (EE : pmul (maskv K pec) E = vbuild N (fun k => (- (1 / (ki * omega))) * at_ (pmul (fun k => 1 / eps k) J) k + (1 / (ki * omega)) * at_ X k)).
  { apply vbuild_ext. intros k Hk'. unfold X. rewrite !pmul_at by auto. rewrite RJ by auto. specialize (He0 k Hk').
    transitivity (maskv K pec k * maskv K pec k * at_ E k); [now rewrite maskv_sq|]. field. auto. }
  rewrite EE, mv_lin by auto. simpl muv.
  set (P := at_ (mv N (curl_e g (ue ph) (we ph)) X) i). set (Q := at_ (mv N (curl_e g (ue ph) (we ph)) (pmul (fun k => 1 / eps k) J)) i).
  set (pm := maskv K pmc i). assert (Esq : ki * ki = - (1) :> K) by apply ki_sq.
  transitivity (pm * P - pm * pm * (omega * omega * m i * at_ H i)); [ring|].
  transitivity (pm * P + pm * pm * ((ki * ki) * (omega * omega * m i * at_ H i))); [rewrite Esq; ring|].
  field. auto.
Qed.
Lemma e2h_no_magnetic_current_lemma ph omega eps m pec pmc A E : omega <> 0 -> (forall i, (i < N)%nat -> m i <> 0) ->
  length E = N -> mv N (mask pec) E = E -> eh_full g ph omega eps (Some m) pec pmc = Ok A ->
  let H := mv N (e2h g ph omega (Some m) pmc) E in
  exists J, length J = N /\ mv (2 * N) A (E ++ H) = J ++ zeros K N /\
            mv N (e_full g ph omega eps (Some m) pec pmc) E = vscale (- ki * omega) J.
Proof.
  intros Ho Hm0 HE Hpe HA H. pose proof (ki_neq0 K) as Hk. pose proof (@kopp_neq0 K _ Hk) as Hk2. assert (Hio : - ki * omega <> (0:K)) by auto using kmul_neq0, kopp_neq0.
  assert (HH : length H = N) by apply mv_length.
  set (JM := mv (2 * N) A (E ++ H)). assert (HJM : length JM = (2 * N)%nat) by apply mv_length.
  set (J := firstn N JM). set (M := skipn N JM).
  assert (HJ : length J = N) by (unfold J; rewrite firstn_length; lia). assert (HM : length M = N) by (unfold M; rewrite skipn_length; lia).
  assert (Hm : mv (2 * N) A (E ++ H) = J ++ M) by (symmetry; apply firstn_skipn).
  destruct (eh_rows E H J M HE HH HJ HM HA Hm) as [RJ RM].
  assert (EpE : pmul (maskv K pec) E = E) by (rewrite <- mv_diag, <- mask_diag; exact Hpe).
  assert (EM : M = zeros K N).
  { apply vec_ext; [rewrite HM; symmetry; apply repeat_length|]. intros i Hi. rewrite HM in Hi. rewrite zeros_at, RM, EpE by auto.
    set (C := mv N (curl_e g (ue ph) (we ph)) E).
    assert (EHi : at_ H i = maskv K pmc i * (1 / m i * (at_ C i / (- ki * omega)))).
    { unfold H, e2h.
      assert (E1 : at_ (mv N (fun i j => curl_e g (ue ph) (we ph) i j / (- ki * omega)) E) i = at_ C i / (- ki * omega)).
      { unfold C. rewrite !mv_at by auto. rewrite (Fdiv_def (k_field K)), <- fsum_scale_r. apply fsum_ext. intros. rewrite (Fdiv_def (k_field K)). ring. }
      destruct pmc as [b|].
      - rewrite mv_mmul, mv_mask_at, mv_mmul, mv_mdiag_at, E1 by auto. reflexivity.
      - rewrite mv_mmul, mv_mdiag_at, E1 by auto. simpl maskv. ring. }
    rewrite EHi. specialize (Hm0 i Hi). set (pm := maskv K pmc i).
    transitivity (pm * at_ C i - (pm * pm) * pm * at_ C i); [field; auto|].
    unfold pm. rewrite !maskv_sq. ring. }
  exists J. split; [exact HJ|]. split; [rewrite <- EM; exact Hm|].
  rewrite (@eh_to_e_lemma ph omega eps m pec pmc A E H J M) by auto. rewrite EM. f_equal.
  apply vec_ext; [rewrite vsub_length; [auto|now rewrite mv_length]|]. intros i Hi. rewrite vsub_length in Hi by (now rewrite mv_length). rewrite HJ in Hi.
  rewrite vsub_at by (now rewrite mv_length). rewrite mv_mask_at by auto.
  assert (E0 : at_ (mv N (m2j g ph omega (Some m)) (zeros K N)) i = 0).
  { rewrite mv_at by auto. apply fsum_zero. intros. rewrite zeros_at. ring. }
  rewrite E0. ring.
Qed.
(** h2e recovers E when there is no electric current *)
Lemma h2e_lemma ph omega eps m pmc A E H M : omega <> 0 -> (forall i, (i < N)%nat -> eps i <> 0) ->
  length E = N -> length H = N -> length M = N -> mv N (mask pmc) H = H ->
  eh_full g ph omega eps (Some m) None pmc = Ok A -> mv (2 * N) A (E ++ H) = zeros K N ++ M ->
  mv N (h2e g ph omega eps) H = E.
Proof.
  intros Ho He HE HH HM HP HA Hm.
  destruct (@eh_rows ph omega eps m None pmc A E H (zeros K N) M) as [H1 _]; auto; [apply repeat_length|].
  apply vec_ext; [now rewrite mv_length|]. intros i Hi. rewrite mv_length in Hi. unfold h2e. rewrite mv_mmul, mv_mdiag_at by auto.
  specialize (H1 _ Hi). rewrite mask_diag, mv_diag in HP. rewrite HP in H1.
  rewrite zeros_at in H1. cbn [maskv] in H1. specialize (He _ Hi). pose proof (ki_neq0 K) as Hk.
  assert (Ec : at_ (mv N (curl_h g (uh ph) (wh ph)) H) i = ki * omega * eps i * at_ E i).
  { transitivity (0 + ki * omega * eps i * at_ E i); [|ring]. rewrite H1. ring. }
  rewrite Ec. field. auto.
Qed.
Lemma feh_full_lemma omega eps m e h A : eh_full g (no_bloch K) omega (at_ (vec g eps)) (Some (at_ (vec g m))) None None = Ok A ->
  mv (2 * N) A (vec g e ++ vec g h) = vec g (fst (feh_full g omega eps (Some m) e h)) ++ vec g (snd (feh_full g omega eps (Some m) e h)).
Proof.
  intros HA. set (R := mv (2 * N) A (vec g e ++ vec g h)).
  assert (HR : length R = (2 * N)%nat) by apply mv_length.
  assert (HJ : length (firstn N R) = N) by (rewrite firstn_length, HR; lia).
  assert (HM : length (skipn N R) = N) by (rewrite skipn_length, HR; lia).
  destruct (@eh_rows (no_bloch K) omega (at_ (vec g eps)) (at_ (vec g m)) None None A (vec g e) (vec g h) (firstn N R) (skipn N R)) as [H1 H2];
    auto using vec_length; [symmetry; apply firstn_skipn|].
  rewrite <- (firstn_skipn N R).
  assert (P1 : forall v, length v = N -> pmul (maskv K None) v = v).
  { intros v Hv. apply pmul_one; auto. }
  unfold no_bloch in H1, H2. cbn [uh wh ue we] in H1, H2. rewrite (P1 (vec g h)) in H1 by apply vec_length. rewrite (P1 (vec g e)) in H2 by apply vec_length.
  rewrite curl_h_functional_lemma in H1. rewrite curl_e_functional_lemma in H2.
  f_equal; (apply (@vlen_ext K g); [assumption|apply vec_length|]); intros c t Hc Ht; pose proof (blk_lt g Hc Ht) as Hi.
  - rewrite H1 by auto. rewrite !vec_at by auto. cbn [maskv feh_full fst]. ring.
  - rewrite H2 by auto. rewrite !vec_at by auto. cbn [maskv feh_full snd]. ring.
Qed.
End M.
