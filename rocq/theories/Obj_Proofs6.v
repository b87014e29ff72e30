(** Objectives built with the operators are well formed, so the gradient theorem applies. *)
From Verif Require Import Base GraphExec_Model GraphExec_Spec GraphExec_Proofs GraphExec_Proofs2
  Obj_Model Obj_Spec Obj_Proofs Obj_Proofs2 Obj_Proofs3 Obj_Proofs4 Obj_Proofs5.
From Coq Require Import Reals ZArith Lra Psatz.
Set Implicit Arguments.
Local Open Scope R_scope.

Section Wf.
Variable N : nat.
Definition sc (e : expr) : Prop := wf N e /\ is_variable e = false.
Definition wfop (o : operand) : Prop := match o with PObj e => sc e | _ => True end.

Lemma sc_const c : sc (const c).
Proof. split; [|reflexivity]. constructor; [reflexivity|intros e []]. Qed.
Lemma sc_sum l : (forall e, In e l -> sc e) -> sc (Node KSum l).
Proof. intros H. split; [|reflexivity]. constructor; [intros e He; now apply H|intros e He; now apply H]. Qed.
Lemma sc_prod l : (forall e, In e l -> sc e) -> sc (Node KProd l).
Proof. intros H. split; [|reflexivity]. constructor; [intros e He; now apply H|intros e He; now apply H]. Qed.
Lemma sum_sc l : sc (Node KSum l) -> forall e, In e l -> sc e.
Proof. intros (H & _) e He. inversion H as [k l' Hs Hc]; subst. split; [now apply Hc|now apply Hs]. Qed.
Lemma prod_sc l : sc (Node KProd l) -> forall e, In e l -> sc e.
Proof. intros (H & _) e He. inversion H as [k l' Hs Hc]; subst. split; [now apply Hc|now apply Hs]. Qed.
Lemma sc_pow c e : sc e -> sc (Node (KPow c) [e]).
Proof. intros (H1 & H2). split; [|reflexivity]. constructor; [exists e; auto|intros x [<-|[]]; assumption]. Qed.
Ltac members := let y := fresh in let Hy := fresh in intros y Hy;
  repeat (apply in_app_or in Hy as [Hy|Hy]); cbn [In] in Hy; repeat destruct Hy as [Hy|Hy]; subst; auto using sc_const; try contradiction.

Lemma sum_add_sc l x e : sc (Node KSum l) -> wfop x -> sum_add l x = Ok e -> sc e.
Proof.
  intros Hl Hx H. assert (Hm := sum_sc Hl). destruct x as [r|r|[k l']|]; cbn [sum_add] in H; [inversion H; subst; apply sc_sum; members..| |discriminate].
  destruct k; inversion H; subst; apply sc_sum; members. exact (sum_sc Hx _ H1).
Qed.
Lemma prod_mul_sc l x e : sc (Node KProd l) -> wfop x -> prod_mul l x = Ok e -> sc e.
Proof.
  intros Hl Hx H. assert (Hm := prod_sc Hl). destruct x as [r|r|[k l']|]; cbn [prod_mul] in H; [inversion H; subst; apply sc_prod; members..| |discriminate].
  destruct k; inversion H; subst; apply sc_prod; members. exact (prod_sc Hx _ H1).
Qed.
Lemma generic_add_sc a x e : sc a -> wfop x -> generic_add a x = Ok e -> sc e.
Proof.
  intros Ha Hx H. destruct x as [r|r|[k l']|]; cbn [generic_add] in H; [inversion H; subst; apply sc_sum; members..| |discriminate].
  destruct k; try (inversion H; subst; apply sc_sum; members). now apply (@sum_add_sc l' (PObj a) e).
Qed.
Lemma generic_mul_sc a x e : sc a -> wfop x -> generic_mul a x = Ok e -> sc e.
Proof.
  intros Ha Hx H. destruct x as [r|r|[k l']|]; cbn [generic_mul] in H;
    [inversion H; subst; apply sc_prod; members|inversion H; subst; apply sc_sum; members| |discriminate].
  destruct k; try (inversion H; subst; apply sc_prod; members). now apply (@prod_mul_sc l' (PObj a) e).
Qed.
Lemma obj_add_sc a x e : sc a -> wfop x -> obj_add a x = Ok e -> sc e.
Proof.
  intros Ha Hx H. destruct a as [k l]. destruct k; cbn [obj_add] in H; try (now apply (@generic_add_sc _ x e Ha Hx)).
  - unfold const_add in H. destruct x as [r|r|[k' l']|]; try (inversion H; subst; apply sc_const).
    destruct k'; try (inversion H; subst; apply sc_const); exact (@generic_add_sc (const c) _ e (sc_const c) Hx H).
  - now apply (@sum_add_sc l x e).
Qed.
Lemma obj_mul_sc a x e : sc a -> wfop x -> obj_mul a x = Ok e -> sc e.
Proof.
  intros Ha Hx H. destruct a as [k l]. destruct k; cbn [obj_mul] in H; try (now apply (@generic_mul_sc _ x e Ha Hx)).
  - unfold const_mul in H. destruct x as [r|r|[k' l']|]; try (inversion H; subst; apply sc_const).
    destruct k'; try (inversion H; subst; apply sc_const); exact (@generic_mul_sc (const c) _ e (sc_const c) Hx H).
  - now apply (@prod_mul_sc l x e).
Qed.
Lemma py_add_sc a b o : wfop a -> wfop b -> py_add a b = Ok o -> wfop o.
Proof.
  intros Ha Hb H. destruct a as [x|x|e|], b as [y|y|e'|]; cbn [py_add] in H; try discriminate; try (inversion H; subst; exact I);
    apply obj_inv in H as (e0 & H & ->); try (eapply (@obj_add_sc e'); [exact Hb| |exact H]; exact I); eapply (@obj_add_sc e); eauto.
Qed.
Lemma py_mul_sc a b o : wfop a -> wfop b -> py_mul a b = Ok o -> wfop o.
Proof.
  intros Ha Hb H. destruct a as [x|x|e|], b as [y|y|e'|]; cbn [py_mul] in H; try discriminate; try (inversion H; subst; exact I);
    apply obj_inv in H as (e0 & H & ->); try (eapply (@obj_mul_sc e'); [exact Hb| |exact H]; exact I); eapply (@obj_mul_sc e); eauto.
Qed.
Lemma py_neg_sc a o : wfop a -> py_neg a = Ok o -> wfop o.
Proof.
  intros Ha H. destruct a as [x|x|e|]; cbn [py_neg] in H; try discriminate; try (inversion H; subst; exact I).
  apply obj_inv in H as (e0 & H & ->). unfold obj_neg in H. destruct e as [k l].
  destruct k; try (exact (@obj_mul_sc _ (PNum (-1)) e0 Ha I H)). inversion H; subst. apply sc_const.
Qed.
Lemma py_sub_sc a b o : wfop a -> wfop b -> py_sub a b = Ok o -> wfop o.
Proof.
  intros Ha Hb H. destruct a as [x|x|e|]; cbn [py_sub] in H; try discriminate.
  - destruct b as [y|y|e'|]; try discriminate; [inversion H; subst; exact I|].
    destruct (py_neg (PObj e')) as [nb|] eqn:En; [|discriminate]. apply py_neg_sc in En; [|exact Hb].
    exact (@py_add_sc nb (PNum x) o En I H).
  - destruct (py_neg b) as [nb|] eqn:En; [|discriminate]. apply py_neg_sc in En; [|exact Hb]. exact (@py_add_sc (PObj e) nb o Ha En H).
Qed.
Lemma py_pow_sc a b o : wfop a -> wfop b -> py_pow a b = Ok o -> wfop o.
Proof.
  intros Ha Hb H. destruct a as [x|x|e|]; cbn [py_pow] in H; try discriminate.
  - destruct b as [y|y|e'|]; try discriminate. destruct (powf x y); [|discriminate]. inversion H; subst. exact I.
  - apply obj_inv in H as (e0 & H & ->). destruct e as [k l]. cbn [wfop].
    destruct k as [| c0 | | | | | | | | | | | | | | ]; cbn [obj_pow] in H; destruct b as [y|y|[k' l']|]; try discriminate;
      try (inversion H; subst; now apply sc_pow);
      try (destruct k'; try discriminate; inversion H; subst; now apply sc_pow);
      destruct (powf c0 y); try discriminate; inversion H; subst; apply sc_const.
Qed.
Lemma build_sc f : forall o, leaves sc f -> build f = Ok o -> wfop o.
Proof.
  induction f as [r|e|a IHa b IHb|a IHa b IHb|a IHa b IHb|a IHa|a IHa b IHb|a IHa r0|a IHa r0]; intros o Hl H; cbn [leaves build] in *;
    try (inversion H; subst; assumption || exact I);
    (destruct (build a) as [x|]; [|discriminate]); try (destruct (build b) as [y|]; [|discriminate]); cbn [bind] in H.
  - exact (@py_add_sc x y o (IHa _ (proj1 Hl) eq_refl) (IHb _ (proj2 Hl) eq_refl) H).
  - exact (@py_sub_sc x y o (IHa _ (proj1 Hl) eq_refl) (IHb _ (proj2 Hl) eq_refl) H).
  - exact (@py_mul_sc x y o (IHa _ (proj1 Hl) eq_refl) (IHb _ (proj2 Hl) eq_refl) H).
  - exact (@py_neg_sc x o (IHa _ Hl eq_refl) H).
  - exact (@py_pow_sc x y o (IHa _ (proj1 Hl) eq_refl) (IHb _ (proj2 Hl) eq_refl) H).
  - exact (@py_add_sc x (PArr r0) o (IHa _ Hl eq_refl) I H).
  - exact (@py_mul_sc x (PArr r0) o (IHa _ Hl eq_refl) I H).
Qed.
Lemma leaves_impl (P Q : expr -> Prop) f : (forall e, P e -> Q e) -> leaves P f -> leaves Q f.
Proof. intros H. induction f; cbn [leaves]; intuition. Qed.
End Wf.

(** the gradient of a built objective is the derivative of the formula. *)
Lemma formula_gradient kinds inputs ord fuel structure jac E out U N p f :
  (forall h b, Permutation (ord h b) b) -> unfolds kinds inputs E -> universe inputs [out] U -> (1 + length U <= fuel)%nat ->
  heavy_independent inputs (is_heavy kinds) ->
  (forall n m, reachable inputs [out] n -> reachable inputs [out] m -> kinds n = KVar -> kinds m = KVar -> n = m) ->
  leaves (fun e => wf N e /\ is_variable e = false) f -> no_array_product f -> build f = Ok (PObj (E out)) ->
  param_ok structure jac N p -> smooth structure p (E out) -> olds_ok p (E out) ->
  exists a, gradient kinds inputs ord fuel structure jac out p = Ok a /\
    forall P t0 d, moves P t0 p d ->
      near t0 (fun t => exists r, meaning structure (P t) f = Ok r /\
         objective_function kinds inputs ord fuel structure out (P t) = Ok (VS r)) /\
      derivable_pt_lim (fun t => real (meaning structure (P t) f)) t0 (along a d).
Proof.
  intros Hord HE HU Hf Hh Hone Hl Hna Hb Hpar Hsm Hol.
  assert (Hsc : wf N (E out) /\ is_variable (E out) = false) by exact (@build_sc N f _ Hl Hb).
  destruct (@gradient_correct kinds inputs ord Hord fuel structure jac E HE out U HU Hf N (proj1 Hsc) Hh Hone p Hpar Hsm Hol (proj2 Hsc)) as (a & Ha & _ & Hd).
  exists a. split; [exact Ha|]. intros P t0 d Hm. destruct (Hd P t0 d Hm) as (H1 & H2).
  assert (Hl' : leaves (wf N) f) by (eapply leaves_impl; [|exact Hl]; tauto).
  destruct (@expr_derive structure jac p d N Hpar P t0 Hm (E out) (proj1 Hsc) Hsm Hol (proj2 Hsc)) as (Hn & _).
  assert (H3 : near t0 (fun t => exists r, meaning structure (P t) f = Ok r /\
         objective_function kinds inputs ord fuel structure out (P t) = Ok (VS r))).
  { eapply near_impl; [|exact (near_and H1 Hn)]. intros t (Ht & r & Hr). exists r. split.
    - destruct (@build_ok structure (P t) N f _ Hl' Hna Hb) as (Hm' & _). apply Hm'. cbn [result]. now rewrite Hr.
    - rewrite Ht. unfold rval. now rewrite Hr. }
  split; [exact H3|]. eapply derive_ext_near; [|exact H2]. eapply near_impl; [|exact H3]. intros t (r & Hr1 & Hr2). cbn beta. now rewrite Hr1, Hr2.
Qed.
