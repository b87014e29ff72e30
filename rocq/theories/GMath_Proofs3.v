(** Powers, absolute values, sigmoids, conjugates, casts, slices, scalar products and norms. *)
From Coq Require Import Reals ZArith Relations Lra Psatz Ring.
From Verif Require Obj_Model.
From Verif Require Import Obj_Spec Obj_Proofs.
From Verif Require Import Base GraphExec_Spec Shape_Model GMath_Model GMath_Spec GMath_Proofs GMath_Proofs2.
Set Implicit Arguments.
Local Open Scope R_scope.

Lemma input0 a : input [a] 0 = Ok a.
Proof. reflexivity. Qed.
Lemma mapM_total' {A} (f : A -> res C) l : (forall x, In x l -> exists y, f x = Ok y) -> mapM f l = Ok (map (fun x => cval (f x)) l).
Proof.
  induction l as [|x l IH]; cbn; intros H; [reflexivity|]. destruct (H x) as (y & E); [auto|]. rewrite E. cbn.
  rewrite IH by auto. reflexivity.
Qed.
Lemma inplace_eq f g (s : list C) : length g = length s -> inplace f g s = Ok (map (fun xy => f (fst xy) (snd xy)) (combine g s)).
Proof. intros H. unfold inplace. apply Nat.eqb_eq in H. now rewrite H. Qed.
Lemma bcast_eq f g (s : list C) : length g = length s -> bcast f g s = Ok (map (fun xy => f (fst xy) (snd xy)) (combine g s)).
Proof. intros H. unfold bcast. apply Nat.eqb_eq in H. now rewrite H. Qed.
Lemma combine_swap_map {A} (f : C -> C -> C) (h : A -> C) l : forall g, length g = length l ->
  map (fun xy => f (fst xy) (snd xy)) (combine g (map h l)) = map (fun xg => f (snd xg) (h (fst xg))) (combine l g).
Proof. induction l as [|x l IH]; intros [|y g] H; cbn in *; try lia; [reflexivity|]. now rewrite IH by lia. Qed.
Lemma combine_map_l {A} (f : C -> C -> C) (h : A -> C) l : forall g, length g = length l ->
  map (fun xy => f (fst xy) (snd xy)) (combine (map h l) g) = map (fun xg => f (h (fst xg)) (snd xg)) (combine l g).
Proof. induction l as [|x l IH]; intros [|y g] H; cbn in *; try lia; [reflexivity|]. now rewrite IH by lia. Qed.
Lemma combine_snd {A} (h : C -> C) (l : list A) : forall g, length g = length l -> map h g = map (fun xg => h (snd xg)) (combine l g).
Proof. induction l as [|x l IH]; intros [|y g] H; cbn in *; try lia; [reflexivity|]. now rewrite (IH g) by lia. Qed.

Lemma snd_real_derive z t0 d : cderive z t0 d -> snd d = 0 -> near t0 (fun t => snd (z t) = 0) -> derivable_pt_lim (fun t => fst (z t)) t0 (fst d).
Proof. intros (H & _) _ _. exact H. Qed.

(** ** KPow *)
Lemma pow_ok p fx a v us ds t0 : suits (KPow p) fx [a] v -> keval (KPow p) [a] = Ok v -> curves t0 fx [a] us ds -> local_ok (KPow p) fx [a] v us ds t0.
Proof.
  intros (a' & Ea & Hs) Hv Hc. injection Ea as <-.
  set (slope := fun x => bind (cpowf (cpx a) x (p - 1)) (fun y => Ok (cscale p y))).
  assert (Hent : forall x, In x (dat a) -> (exists s, cpowf (cpx a) x (p - 1) = Ok s) /\
    entry_ok (fun x => cpowf (cpx a) x p) (fun x g => cmul g (cval (slope x))) (cpx a) (cpx a) x).
  { intros x Hx. specialize (Hs x Hx). destruct (cpx a) eqn:Ec.
    - destruct Hs as ((m & ->) & Hs). change (creal 0) with c0 in Hs. split.
      + assert (Hs' : (fun _ : R => x) 0 <> c0 \/ 1 <= IZR m) by exact Hs.
        destruct (@cd_powf (fun _ => x) 0 c0 m Hs' (cd_const x 0)) as (_ & s & E & _). eauto.
      + intros z t1 d <- Hz _. destruct (cd_powf m Hs Hz) as (Hn & s & E & Hd). split; [exact Hn|].
        exists (cmul (cscale (IZR m) s) d). split; [exact Hd|]. split; [discriminate|]. intros g _. split; [discriminate|].
        unfold slope. rewrite E. cbn [bind cval]. do 2 f_equal. ring.
    - destruct (powf_derive Hs) as (s & E & Hn & Hd).
      assert (E' : cpowf false x (p - 1) = Ok (creal s)) by (unfold cpowf; rewrite E; reflexivity).
      split; [eauto|]. intros z t1 d <- Hz Hr. destruct (Hr eq_refl) as (Hr1 & Hr2).
      pose proof (near_curve (proj1 Hz) Hn) as Hn'. cbv beta in Hn'.
      assert (Hn2 : near t1 (fun t => exists r, Obj_Model.powf (fst (z t)) p = Ok r /\ cpowf false (z t) p = Ok (creal r))).
      { eapply near_impl; [|exact Hn']. cbv beta. intros t (r & Er). exists r. split; [exact Er|]. unfold cpowf. rewrite Er. reflexivity. }
      split; [eapply near_impl; [|exact Hn2]; cbv beta; intros t (r & _ & Er); eauto|].
      exists (creal (p * s * fst d)).
      assert (Hcomp : derivable_pt_lim (fun t => real (Obj_Model.powf (fst (z t)) p)) t1 (p * s * fst d)).
      { exact (derivable_pt_lim_comp (fun t => fst (z t)) (fun y => real (Obj_Model.powf y p)) t1 _ _ (proj1 Hz) Hd). }
      split; [|split].
      + eapply cd_near; [|exact (cd_real Hcomp)]. eapply near_impl; [|exact Hn2]. cbv beta. intros t (r & E1 & E2). rewrite E1, E2. reflexivity.
      + intros _. split; [|reflexivity]. eapply near_impl; [|exact Hn2]. cbv beta. intros t (r & E1 & E2). rewrite E2. reflexivity.
      + intros g Hg. specialize (Hg eq_refl). unfold slope. rewrite E'. cbn [bind cval]. split.
        * intros _. unfold cmul, cscale, creal. cbn. rewrite Hg. ring.
        * unfold fac, cmul, cscale, creal. cbn. rewrite Hg, Hr2. ring. }
  apply (@entrywise_ok (KPow p) (fun x => cpowf (cpx a) x p) (fun x g => cmul g (cval (slope x))) (cpx a) (cpx a) a); auto.
  - intros a' E. cbn [keval]. rewrite input0. cbn [bind]. rewrite E. reflexivity.
  - intros g Hg. cbn [kgrad]. rewrite input0. cbn [bind]. fold slope.
    rewrite (mapM_total' slope).
    + cbn [bind]. rewrite inplace_eq by (rewrite map_length; exact Hg). cbn [bind]. do 2 f_equal. now apply (combine_swap_map cmul (fun x => cval (slope x))).
    + intros x Hx. destruct (Hent x Hx) as ((s & E) & _). unfold slope. rewrite E. cbn. eauto.
  - intros x Hx. apply Hent, Hx.
Qed.

(** ** KAbs *)
Lemma cabs_pos x : x <> c0 -> 0 < cabs x.
Proof. intros H. unfold cabs. apply sqrt_lt_R0. exact (cn2_pos H). Qed.
Lemma cd_abs z t0 d : z t0 <> c0 -> cderive z t0 d -> derivable_pt_lim (fun t => cabs (z t)) t0 (fst (cmul (cconj (z t0)) d) / cabs (z t0)).
Proof.
  intros Hn H. pose proof (cn2_pos Hn) as Hp. pose proof (cabs_pos Hn) as Ha.
  eapply derive_eq; [|exact (derivable_pt_lim_comp (fun t => cn2 (z t)) sqrt t0 _ _ (cd_n2 H) (derivable_pt_lim_sqrt _ Hp))].
  change (sqrt (cn2 (z t0))) with (cabs (z t0)). field. lra.
Qed.
Lemma abs_ok fx a v us ds t0 : suits KAbs fx [a] v -> keval KAbs [a] = Ok v -> curves t0 fx [a] us ds -> local_ok KAbs fx [a] v us ds t0.
Proof.
  intros (a' & Ea & Hs) Hv Hc. injection Ea as <-. change (creal 0) with c0 in Hs.
  apply (@entrywise_ok KAbs (fun x => Ok (creal (cabs x))) (fun x g => cmul (cval (abs_slope (cpx a) x)) g) (cpx a) false a); auto.
  - intros a' E. cbn [keval]. rewrite input0. cbn [bind]. rewrite mapM_total' by eauto. reflexivity.
  - intros g Hg. cbn [kgrad]. rewrite input0. cbn [bind].
    rewrite (mapM_total' (abs_slope (cpx a))).
    + cbn [bind]. rewrite bcast_eq by (rewrite map_length; symmetry; exact Hg). cbn [bind]. do 2 f_equal. now apply (combine_map_l cmul (fun x => cval (abs_slope (cpx a) x))).
    + intros x Hx. unfold abs_slope. rewrite czero_false by (now apply Hs). eauto.
  - intros x Hx z t1 d <- Hz Hr. specialize (Hs _ Hx). split; [apply near_all; eauto|].
    exists (creal (fst (cmul (cconj (z t1)) d) / cabs (z t1))). split; [exact (cd_real (cd_abs Hs Hz))|].
    split; [intros _; split; [apply near_all; reflexivity|reflexivity]|].
    intros g Hg. specialize (Hg eq_refl). unfold abs_slope. rewrite czero_false by assumption. cbn [cval].
    pose proof (cabs_pos Hs) as Hp. split.
    + intros Ec. destruct (Hr Ec) as (Hr1 & Hr2). apply near_at in Hr1. unfold cmul, cscale, cconj. cbn. rewrite Hg, Hr1. ring.
    + unfold fac, cmul, cscale, cconj, creal. cbn. rewrite Hg. destruct (cpx a); field; lra.
Qed.

(** ** KSig *)
Lemma sigmoid_derive x : derivable_pt_lim sigmoid x (sigmoid x * (1 - sigmoid x)).
Proof.
  unfold sigmoid. assert (Hp : 0 < exp (- x)) by apply exp_pos.
  assert (H1 : derivable_pt_lim (fun y => 1 + exp (- y)) x (0 + - exp (- x))).
  { apply (derivable_pt_lim_plus (fun _ => 1) (fun y => exp (- y))); [apply derivable_pt_lim_const|].
    eapply derive_eq; [|exact (derivable_pt_lim_comp (fun y => - y) exp x _ _ (derivable_pt_lim_opp _ _ _ (derivable_pt_lim_id x)) (derivable_pt_lim_exp (- x)))]. ring. }
  eapply derive_eq; [|apply (@derivable_pt_lim_div (fun _ => 1) (fun y => 1 + exp (- y)) x 0 _ (derivable_pt_lim_const 1 x) H1)].
  - cbv beta. unfold Rsqr. field. lra.
  - lra.
Qed.
Lemma sig_ok fx a v us ds t0 : suits KSig fx [a] v -> keval KSig [a] = Ok v -> curves t0 fx [a] us ds -> local_ok KSig fx [a] v us ds t0.
Proof.
  intros _ Hv Hc.
  assert (Ec : cpx a = false). { cbn in Hv. destruct (cpx a); [discriminate|reflexivity]. }
  apply (@entrywise_ok KSig (fun x => Ok (creal (sigmoid (fst x)))) (fun x g => cmul g (creal (sigmoid (fst x) * (1 - sigmoid (fst x))))) false false a); auto.
  - intros a' E. cbn [keval]. rewrite input0. cbn [bind]. rewrite E. rewrite mapM_total' by eauto. reflexivity.
  - intros g Hg. cbn [kgrad]. rewrite input0. cbn [bind]. rewrite Ec.
    rewrite inplace_eq by (rewrite map_length; exact Hg). cbn [bind]. do 2 f_equal.
    apply (combine_swap_map cmul (fun x => creal (sigmoid (fst x) * (1 - sigmoid (fst x))))). exact Hg.
  - intros x Hx z t1 d <- Hz Hr. destruct (Hr eq_refl) as (Hr1 & Hr2). split; [apply near_all; eauto|].
    exists (creal (sigmoid (fst (z t1)) * (1 - sigmoid (fst (z t1))) * fst d)).
    split; [exact (cd_real (derivable_pt_lim_comp (fun t => fst (z t)) sigmoid t1 _ _ (proj1 Hz) (sigmoid_derive _)))|].
    split; [intros _; split; [apply near_all; reflexivity|reflexivity]|].
    intros g Hg. specialize (Hg eq_refl). split.
    + intros _. unfold cmul, creal. cbn. rewrite Hg. ring.
    + unfold fac, cmul, creal. cbn. rewrite Hg, Hr2. ring.
Qed.

(** ** KConj, KCast *)
Lemma conj_ok fx a v us ds t0 : keval KConj [a] = Ok v -> curves t0 fx [a] us ds -> local_ok KConj fx [a] v us ds t0.
Proof.
  intros Hv Hc.
  apply (@entrywise_ok KConj (fun x => Ok (cconj x)) (fun x g => cconj g) (cpx a) (cpx a) a); auto.
  - intros a' E. cbn [keval]. rewrite input0. cbn [bind]. rewrite mapM_total' by eauto. rewrite E. reflexivity.
  - intros g Hg. cbn [kgrad]. do 2 f_equal. now apply (combine_snd cconj).
  - intros x Hx z t1 d <- Hz Hr. split; [apply near_all; eauto|].
    exists (cconj d). split; [exact (cd_conj Hz)|]. split.
    + intros E. destruct (Hr E) as (Hr1 & Hr2). split; [|unfold cconj; cbn; rewrite Hr2; ring].
      eapply near_impl; [|exact Hr1]. cbv beta. intros t Ht. cbn. rewrite Ht. ring.
    + intros g Hg. split; [intros E; unfold cconj; cbn; rewrite (Hg E); ring|]. unfold cmul, cconj. cbn. ring.
Qed.
Lemma cast_ok fx a v us ds t0 : keval KCast [a] = Ok v -> curves t0 fx [a] us ds -> local_ok KCast fx [a] v us ds t0.
Proof.
  intros Hv Hc.
  apply (@entrywise_ok KCast (fun x => Ok x) (fun x g => g) (cpx a) (cpx a) a); auto.
  - intros a' E. cbn [keval]. rewrite input0. rewrite mapM_total' by eauto. cbn [bind cval]. rewrite map_id, <- E. now destruct a'.
  - intros g Hg. cbn [kgrad]. do 2 f_equal. rewrite <- (map_id g) at 1. now apply (combine_snd (fun x => x)).
  - intros x Hx z t1 d <- Hz Hr. split; [apply near_all; eauto|].
    exists d. split; [exact Hz|]. split; [exact Hr|]. auto.
Qed.
