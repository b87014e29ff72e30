(** Complex numbers, their derivatives, and the entrywise nodes of goos/math.py. *)
From Coq Require Import Reals ZArith Relations Lra Psatz Ring.
From Verif Require Obj_Model.
From Verif Require Import Obj_Spec Obj_Proofs.
From Verif Require Import Base GraphExec_Spec Shape_Model GMath_Model GMath_Spec.
Set Implicit Arguments.
Local Open Scope R_scope.

Definition c0 : C := creal 0.
Definition c1 : C := creal 1.
Definition copp (x : C) : C := (- fst x, - snd x).
Definition csub (x y : C) : C := cadd x (copp y).
Lemma c_eq (x y : C) : fst x = fst y -> snd x = snd y -> x = y.
Proof. destruct x, y. cbn. now intros -> ->. Qed.
Ltac cring := apply c_eq; unfold csub, copp, cadd, cmul, cconj, cscale, c0, c1, creal; cbn [fst snd]; ring.
Lemma C_ring : ring_theory c0 c1 cadd cmul csub copp eq.
Proof. constructor; intros; try reflexivity; cring. Qed.
Add Ring C_ring : C_ring.

Lemma czero_spec x : czero x = true <-> x = c0.
Proof.
  destruct x as (a, b). unfold czero, c0, creal. cbn. destruct (Req_EM_T a 0), (Req_EM_T b 0); split; intros H; try discriminate; try congruence.
Qed.
Lemma czero_false x : x <> c0 -> czero x = false.
Proof. intros H. destruct (czero x) eqn:E; [|reflexivity]. apply czero_spec in E. contradiction. Qed.
Definition cn2 (x : C) : R := fst x * fst x + snd x * snd x.
Lemma cn2_pos x : x <> c0 -> 0 < cn2 x.
Proof.
  intros H. unfold cn2. destruct x as (a, b). cbn. destruct (Req_dec a 0) as [->|Ha].
  - assert (b <> 0) by (intros ->; now apply H). nra.
  - nra.
Qed.
Lemma cinv_r x : x <> c0 -> cmul x (cinv x) = c1.
Proof. intros H. pose proof (cn2_pos H) as Hp. unfold cn2 in Hp. apply c_eq; unfold cinv, cscale, cconj, cmul, c1, creal; cbn; field; lra. Qed.
Lemma cmul_nz x y : x <> c0 -> y <> c0 -> cmul x y <> c0.
Proof.
  intros Hx Hy E. apply Hy. assert (H : cmul (cinv x) (cmul x y) = y) by (replace (cmul (cinv x) (cmul x y)) with (cmul (cmul x (cinv x)) y) by ring; rewrite cinv_r by assumption; ring).
  rewrite <- H, E. ring.
Qed.
Lemma c1_nz : c1 <> c0.
Proof. intros E. injection E. lra. Qed.
Lemma cpow_nz x n : x <> c0 -> cpow x n <> c0.
Proof. intros H. induction n; cbn; [exact c1_nz|now apply cmul_nz]. Qed.
Lemma cinv_mul x y : x <> c0 -> y <> c0 -> cinv (cmul x y) = cmul (cinv x) (cinv y).
Proof.
  intros Hx Hy. pose proof (cinv_r (cmul_nz Hx Hy)) as E. pose proof (cinv_r Hx) as Ex. pose proof (cinv_r Hy) as Ey.
  transitivity (cmul (cmul (cmul x (cinv x)) (cmul y (cinv y))) (cinv (cmul x y))).
  - rewrite Ex, Ey. ring.
  - transitivity (cmul (cmul (cinv x) (cinv y)) (cmul (cmul x y) (cinv (cmul x y)))); [ring|]. rewrite E. ring.
Qed.
Lemma cscale_mul r x : cscale r x = cmul (creal r) x.
Proof. cring. Qed.

(** ** Derivatives *)
Lemma cd_const c t0 : cderive (fun _ => c) t0 c0.
Proof. split; apply derivable_pt_lim_const. Qed.
Lemma cd_eq u t0 d d' : d = d' -> cderive u t0 d -> cderive u t0 d'.
Proof. now intros ->. Qed.
Lemma cd_near u v t0 d : near t0 (fun t => u t = v t) -> cderive u t0 d -> cderive v t0 d.
Proof.
  intros H (H1 & H2). split; (eapply derive_ext_near; [|eassumption]); (eapply near_impl; [|exact H]); cbn; intros t E; now rewrite E.
Qed.
Lemma cd_ext u v t0 d : (forall t, u t = v t) -> cderive u t0 d -> cderive v t0 d.
Proof. intros H. apply cd_near. now apply near_all. Qed.
Lemma cd_add u v t0 d e : cderive u t0 d -> cderive v t0 e -> cderive (fun t => cadd (u t) (v t)) t0 (cadd d e).
Proof.
  intros (H1 & H2) (H3 & H4). split; cbn.
  - exact (derivable_pt_lim_plus _ _ _ _ _ H1 H3).
  - exact (derivable_pt_lim_plus _ _ _ _ _ H2 H4).
Qed.
Lemma cd_mul u v t0 d e : cderive u t0 d -> cderive v t0 e -> cderive (fun t => cmul (u t) (v t)) t0 (cadd (cmul d (v t0)) (cmul (u t0) e)).
Proof.
  intros (H1 & H2) (H3 & H4). split; cbn.
  - eapply derive_eq; [|exact (derivable_pt_lim_minus _ _ _ _ _ (derivable_pt_lim_mult _ _ _ _ _ H1 H3) (derivable_pt_lim_mult _ _ _ _ _ H2 H4))]. cbv beta. ring.
  - eapply derive_eq; [|exact (derivable_pt_lim_plus _ _ _ _ _ (derivable_pt_lim_mult _ _ _ _ _ H1 H4) (derivable_pt_lim_mult _ _ _ _ _ H2 H3))]. cbv beta. ring.
Qed.
Lemma cd_conj u t0 d : cderive u t0 d -> cderive (fun t => cconj (u t)) t0 (cconj d).
Proof. intros (H1 & H2). split; cbn; [exact H1|exact (derivable_pt_lim_opp _ _ _ H2)]. Qed.
Lemma cd_unique u t0 d e : cderive u t0 d -> cderive u t0 e -> d = e.
Proof. intros (H1 & H2) (H3 & H4). apply c_eq; eapply uniqueness_limite; eassumption. Qed.
Lemma cd_cpow u t0 d n : cderive u t0 d -> cderive (fun t => cpow (u t) n) t0 (cmul (cscale (INR n) (cpow (u t0) (n - 1))) d).
Proof.
  intros H. induction n as [|n IH].
  - cbn [cpow]. eapply cd_eq; [|apply cd_const]. cbn [INR]. rewrite cscale_mul. change (creal 0) with c0. ring.
  - cbn [cpow]. eapply cd_eq; [|apply (cd_mul H IH)]. replace (S n - 1)%nat with n by lia.
    rewrite S_INR, !cscale_mul. destruct n as [|n].
    + cbn [INR cpow]. replace (0 + 1) with 1 by ring. change (creal 1) with c1. change (creal 0) with c0. ring.
    + replace (S n - 1)%nat with n by lia. cbn [cpow]. replace (creal (INR (S n) + 1)) with (cadd (creal (INR (S n))) c1) by cring. ring.
Qed.
Lemma cd_n2 u t0 d : cderive u t0 d -> derivable_pt_lim (fun t => cn2 (u t)) t0 (2 * fst (cmul (cconj (u t0)) d)).
Proof.
  intros (H1 & H2). unfold cn2. eapply derive_eq; [|exact (derivable_pt_lim_plus _ _ _ _ _ (derivable_pt_lim_mult _ _ _ _ _ H1 H1) (derivable_pt_lim_mult _ _ _ _ _ H2 H2))].
  cbn. ring.
Qed.
Lemma cd_real f t0 d : derivable_pt_lim f t0 d -> cderive (fun t => creal (f t)) t0 (creal d).
Proof. intros H. split; cbn; [exact H|apply derivable_pt_lim_const]. Qed.
Lemma cd_inv u t0 d : u t0 <> c0 -> cderive u t0 d -> cderive (fun t => cinv (u t)) t0 (copp (cmul d (cmul (cinv (u t0)) (cinv (u t0))))).
Proof.
  intros Hn H. pose proof (cn2_pos Hn) as Hp. pose proof (cd_n2 H) as H2.
  assert (Hi : derivable_pt_lim (fun t => / cn2 (u t)) t0 (- (2 * fst (cmul (cconj (u t0)) d)) / (cn2 (u t0) * cn2 (u t0)))).
  { eapply derive_ext; [intros t; apply Rmult_1_l|].
    eapply derive_eq; [|apply (@derivable_pt_lim_div (fun _ => 1) (fun t => cn2 (u t)) t0 0 _ (derivable_pt_lim_const 1 t0) H2)]; [|lra].
    cbv beta. unfold Rsqr. field. lra. }
  eapply cd_ext; [|eapply cd_eq; [|exact (cd_mul (cd_real Hi) (cd_conj H))]].
  - intros t. unfold cinv. fold (cn2 (u t)). symmetry. apply cscale_mul.
  - unfold cn2 in *. apply c_eq; unfold copp, cadd, cmul, cinv, cconj, cscale, creal; cbn; field; lra.
Qed.

(** A curve with a derivative stays near its value. *)
Lemma near_nz u t0 d : u t0 <> c0 -> cderive u t0 d -> near t0 (fun t => u t <> c0).
Proof.
  intros Hn H. pose proof (cn2_pos Hn) as Hp. pose proof (near_curve (cd_n2 H) (near_lt Hp)) as Hc.
  eapply near_impl; [|exact Hc]. cbv beta. intros t Ht E. rewrite E in Ht. unfold cn2, c0, creal in Ht. cbn in Ht. lra.
Qed.

(** ** Integer powers *)
Lemma cpowf_int c z x : c = true -> (z >= 0)%Z \/ x <> c0 ->
  cpowf c x (IZR z) = Ok (match z with Z.neg m => cinv (cpow x (Pos.to_nat m)) | z => cpow x (Z.to_nat z) end).
Proof.
  intros -> H. unfold cpowf. rewrite Int_part_IZR. destruct (Req_EM_T _ _) as [_|n]; [|congruence]. destruct z; try reflexivity.
  rewrite czero_false; [reflexivity|]. destruct H as [H|H]; [lia|exact H].
Qed.
Definition cval (r : res C) : C := match r with Ok x => x | Err _ => c0 end.
Lemma cd_powf u t0 d z : u t0 <> c0 \/ 1 <= IZR z -> cderive u t0 d ->
  near t0 (fun t => exists y, cpowf true (u t) (IZR z) = Ok y) /\
  exists s, cpowf true (u t0) (IZR z - 1) = Ok s /\ cderive (fun t => cval (cpowf true (u t) (IZR z))) t0 (cmul (cscale (IZR z) s) d).
Proof.
  intros Hs H. rewrite <- minus_IZR. destruct z as [|m|m].
  - destruct Hs as [Hs|Hs]; [|lra]. split; [apply near_all; intros t; eexists; apply cpowf_int; [reflexivity|left; lia]|].
    change (0 - 1)%Z with (Z.neg 1). rewrite cpowf_int by auto. eexists. split; [reflexivity|].
    eapply cd_ext; [intros t; rewrite cpowf_int by (auto; left; lia); reflexivity|].
    cbn [cval Z.to_nat cpow]. eapply cd_eq; [|apply cd_const]. rewrite cscale_mul. change (creal 0) with c0. ring.
  - split; [apply near_all; intros t; eexists; apply cpowf_int; [reflexivity|left; lia]|].
    rewrite cpowf_int; [|reflexivity|left; lia]. eexists. split; [reflexivity|].
    eapply cd_ext; [intros t; rewrite cpowf_int by (auto; left; lia); reflexivity|].
    cbn [cval]. eapply cd_eq; [|exact (cd_cpow (Z.to_nat (Z.pos m)) H)].
    rewrite INR_IZR_INZ, Z2Nat.id by lia. f_equal. f_equal.
    assert (E : (Z.to_nat (Z.pos m) - 1)%nat = Z.to_nat (Z.pos m - 1)) by lia. rewrite E.
    destruct (Z.pos m - 1)%Z eqn:E'; try reflexivity. lia.
  - assert (Hn : u t0 <> c0).
    { destruct Hs as [Hs|Hs]; [exact Hs|]. exfalso. apply (le_IZR 1) in Hs. lia. }
    split; [eapply near_impl; [|exact (near_nz Hn H)]; cbv beta; intros t Ht; eexists; apply cpowf_int; auto|].
    replace (Z.neg m - 1)%Z with (Z.neg (Pos.succ m)) by lia. rewrite cpowf_int by auto. eexists. split; [reflexivity|].
    eapply cd_near; [eapply near_impl; [|exact (near_nz Hn H)]; cbv beta; intros t Ht; rewrite cpowf_int by auto; reflexivity|].
    cbn [cval]. set (k := Pos.to_nat m).
    assert (Hk : exists j, k = S j) by (exists (pred k); subst k; lia). destruct Hk as (j & Hk).
    eapply cd_eq; [|exact (@cd_inv (fun t => cpow (u t) k) t0 _ (cpow_nz k Hn) (cd_cpow k H))].
    rewrite Pos2Nat.inj_succ. fold k. rewrite Hk. cbn [cpow]. replace (S j - 1)%nat with j by lia. cbv beta.
    assert (Hj := cpow_nz j Hn). rewrite !cinv_mul by (try apply cmul_nz; assumption).
    assert (E : IZR (Z.neg m) = - INR (S j)).
    { rewrite <- Hk. subst k. rewrite INR_IZR_INZ, positive_nat_Z. reflexivity. }
    rewrite E, !cscale_mul. replace (creal (- INR (S j))) with (copp (creal (INR (S j)))) by cring.
    set (x := u t0) in *. set (q := cpow x j) in *.
    symmetry. transitivity (cmul (copp (cmul (creal (INR (S j))) (cmul d (cmul (cmul (cinv x) (cinv x)) (cinv q))))) c1); [ring|].
    rewrite <- (cinv_r Hj). fold q. ring.
Qed.
