(** Operators build what they say; smooth maximum. *)
From Verif Require Import Base GraphExec_Model GraphExec_Spec GraphExec_Proofs GraphExec_Proofs2
  Obj_Model Obj_Spec Obj_Proofs Obj_Proofs2 Obj_Proofs3 Obj_Proofs4.
From Coq Require Import Reals ZArith Lra Psatz.
Set Implicit Arguments.
Local Open Scope R_scope.

Section Ops.
Variable structure : list R -> list R.
Variable p : list R.
Notation value := (value structure).
Notation result := (result structure p).
Notation meaning := (meaning structure p).
Definition lv (e : expr) : res R := bind (value p e) scalar.
Notation oks l xs := (Forall2 (fun e x => lv e = Ok x) l xs).
(** constants have no inputs. *)
Definition okop (o : operand) : Prop := match o with PObj (Node (KConst _) l) => l = [] | _ => True end.

Lemma scalars_mapM l : forall xs, (exists ivs, mapM (value p) l = Ok ivs /\ scalars ivs = Ok xs) <-> oks l xs.
Proof.
  induction l as [|e l IH]; intros xs; cbn [mapM].
  - split.
    + intros (ivs & H1 & H2). inversion H1; subst. inversion H2. constructor.
    + intros H. inversion H. exists []. now split.
  - split.
    + intros (ivs & H1 & H2). destruct (value p e) as [v|] eqn:Ev; [|discriminate]. cbn [bind] in H1.
      destruct (mapM (value p) l) as [vs|]; [|discriminate]. inversion H1; subst. cbn in H2.
      destruct (scalar v) as [x|] eqn:Es; [|discriminate]. cbn [bind] in H2.
      destruct (mapM scalar vs) as [ys|] eqn:Em; [|discriminate]. inversion H2; subst. constructor.
      * unfold lv. now rewrite Ev.
      * apply IH. now exists vs.
    + intros H. inversion H as [|? x ? ys Hx Hys]; subst. apply IH in Hys as (vs & H1 & H2). unfold lv in Hx.
      destruct (value p e) as [v|]; [|discriminate]. cbn [bind] in *. rewrite H1. cbn [bind]. exists (v :: vs). split; [reflexivity|].
      cbn. rewrite Hx. cbn [bind]. unfold scalars in H2. now rewrite H2.
Qed.
Lemma res_arith k l r : arith_kind k -> (lv (Node k l) = Ok r <-> exists xs, oks l xs /\ eval_scalar k xs = Ok r).
Proof.
  intros Hk. unfold lv. rewrite value_node by (intros ->; exact Hk). split.
  - intros H. destruct (mapM (value p) l) as [ivs|] eqn:Em; [|discriminate]. cbn [bind] in H.
    rewrite keval_arith in H by assumption. destruct (scalars ivs) as [xs|] eqn:Es; [|discriminate]. cbn [bind] in H.
    destruct (eval_scalar k xs) as [y|] eqn:Ee; [|discriminate]. cbn in H. inversion H; subst.
    exists xs. split; [|assumption]. apply scalars_mapM. now exists ivs.
  - intros (xs & H1 & H2). apply scalars_mapM in H1 as (ivs & H1 & H3). rewrite H1. cbn [bind].
    rewrite keval_arith by assumption. rewrite H3. cbn [bind]. rewrite H2. reflexivity.
Qed.
Lemma res_sum l r : lv (Node KSum l) = Ok r <-> exists xs, oks l xs /\ r = rsum xs.
Proof. rewrite res_arith by exact I. cbn [eval_scalar]. split; intros (xs & H1 & H2); exists xs; split; auto; congruence. Qed.
Lemma res_prod l r : lv (Node KProd l) = Ok r <-> exists xs, oks l xs /\ r = rprod xs.
Proof. rewrite res_arith by exact I. cbn [eval_scalar]. split; intros (xs & H1 & H2); exists xs; split; auto; congruence. Qed.
Lemma res_const c r : lv (const c) = Ok r <-> r = c.
Proof. unfold lv. cbn. split; congruence. Qed.
Lemma res_pow c e r : lv (Node (KPow c) [e]) = Ok r <-> exists x, lv e = Ok x /\ powf x c = Ok r.
Proof.
  rewrite res_arith by exact I. split.
  - intros (xs & H1 & H2). inversion H1 as [|? x ? ? Hx Hn]; subst. inversion Hn; subst. now exists x.
  - intros (x & H1 & H2). exists [x]. split; [now repeat constructor|exact H2].
Qed.
Lemma rsum_app a b : rsum (a ++ b) = rsum a + rsum b.
Proof. induction a as [|x a IH]; cbn [app]; [change (rsum []) with 0; ring|]. rewrite !rsum_cons, IH. ring. Qed.
Lemma rprod_app a b : rprod (a ++ b) = rprod a * rprod b.
Proof. induction a as [|x a IH]; [cbn [app]; change (rprod []) with 1; ring|]. change (rprod ((x :: a) ++ b)) with (x * rprod (a ++ b)). rewrite IH. change (rprod (x :: a)) with (x * rprod a). ring. Qed.

(** the two-argument form *)
Definition adds (o a b : res R) : Prop := forall r, o = Ok r <-> exists x y, a = Ok x /\ b = Ok y /\ r = x + y.
Definition muls (o a b : res R) : Prop := forall r, o = Ok r <-> exists x y, a = Ok x /\ b = Ok y /\ r = x * y.
Lemma adds_comm o a b : adds o a b -> adds o b a.
Proof. intros H r. rewrite (H r). split; intros (x & y & H1 & H2 & ->); exists y, x; repeat split; auto; ring. Qed.
Lemma muls_comm o a b : muls o a b -> muls o b a.
Proof. intros H r. rewrite (H r). split; intros (x & y & H1 & H2 & ->); exists y, x; repeat split; auto; ring. Qed.
Lemma sum_two e o : adds (lv (Node KSum [e; o])) (lv e) (lv o).
Proof.
  intros r. rewrite res_sum. split.
  - intros (xs & H1 & ->). inversion H1 as [|? x ? ? Hx Hn]; subst. inversion Hn as [|? y ? ? Hy Hz]; subst. inversion Hz; subst.
    exists x, y. cbn. repeat split; auto. ring.
  - intros (x & y & H1 & H2 & ->). exists [x; y]. split; [now repeat constructor|cbn; ring].
Qed.
Lemma prod_two e o : muls (lv (Node KProd [e; o])) (lv e) (lv o).
Proof.
  intros r. rewrite res_prod. split.
  - intros (xs & H1 & ->). inversion H1 as [|? x ? ? Hx Hn]; subst. inversion Hn as [|? y ? ? Hy Hz]; subst. inversion Hz; subst.
    exists x, y. cbn. repeat split; auto. ring.
  - intros (x & y & H1 & H2 & ->). exists [x; y]. split; [now repeat constructor|cbn; ring].
Qed.
Lemma sum_cat l l' : adds (lv (Node KSum (l ++ l'))) (lv (Node KSum l)) (lv (Node KSum l')).
Proof.
  intros r. rewrite res_sum. split.
  - intros (xs & H1 & ->). apply Forall2_app_inv_l in H1 as (a & b & Ha & Hb & ->). exists (rsum a), (rsum b).
    repeat split; [apply res_sum; eauto|apply res_sum; eauto|apply rsum_app].
  - intros (x & y & H1 & H2 & ->). apply res_sum in H1 as (a & Ha & ->). apply res_sum in H2 as (b & Hb & ->).
    exists (a ++ b). split; [now apply Forall2_app|symmetry; apply rsum_app].
Qed.
Lemma prod_cat l l' : muls (lv (Node KProd (l ++ l'))) (lv (Node KProd l)) (lv (Node KProd l')).
Proof.
  intros r. rewrite res_prod. split.
  - intros (xs & H1 & ->). apply Forall2_app_inv_l in H1 as (a & b & Ha & Hb & ->). exists (rprod a), (rprod b).
    repeat split; [apply res_prod; eauto|apply res_prod; eauto|apply rprod_app].
  - intros (x & y & H1 & H2 & ->). apply res_prod in H1 as (a & Ha & ->). apply res_prod in H2 as (b & Hb & ->).
    exists (a ++ b). split; [now apply Forall2_app|symmetry; apply rprod_app].
Qed.
Lemma sum_one e r : lv (Node KSum [e]) = Ok r <-> lv e = Ok r.
Proof.
  rewrite res_sum. split.
  - intros (xs & H1 & ->). inversion H1 as [|? x ? ? Hx Hn]; subst. inversion Hn; subst. cbn. now rewrite Rplus_0_r.
  - intros H. exists [r]. split; [now repeat constructor|cbn; ring].
Qed.
Lemma prod_one e r : lv (Node KProd [e]) = Ok r <-> lv e = Ok r.
Proof.
  rewrite res_prod. split.
  - intros (xs & H1 & ->). inversion H1 as [|? x ? ? Hx Hn]; subst. inversion Hn; subst. cbn. now rewrite Rmult_1_r.
  - intros H. exists [r]. split; [now repeat constructor|cbn; ring].
Qed.
Lemma sum_snoc l e : adds (lv (Node KSum (l ++ [e]))) (lv (Node KSum l)) (lv e).
Proof. intros r. rewrite (sum_cat l [e] r). split; intros (x & y & H1 & H2 & ->); exists x, y; repeat split; auto; now apply sum_one. Qed.
Lemma prod_snoc l e : muls (lv (Node KProd (l ++ [e]))) (lv (Node KProd l)) (lv e).
Proof. intros r. rewrite (prod_cat l [e] r). split; intros (x & y & H1 & H2 & ->); exists x, y; repeat split; auto; now apply prod_one. Qed.
Lemma lv_const c l : l = [] -> lv (Node (KConst c) l) = Ok c.
Proof. intros ->. reflexivity. Qed.
Lemma adds_const c d o : o = Ok (c + d) -> adds o (Ok c) (Ok d).
Proof. intros -> r. split; [intros H; inversion H; eauto|]. intros (x & y & H1 & H2 & ->). inversion H1; inversion H2. reflexivity. Qed.
Lemma muls_const c d o : o = Ok (c * d) -> muls o (Ok c) (Ok d).
Proof. intros -> r. split; [intros H; inversion H; eauto|]. intros (x & y & H1 & H2 & ->). inversion H1; inversion H2. reflexivity. Qed.

Ltac done := split; [|exact I].
Lemma sum_add_ok l x e : sum_add l x = Ok e -> adds (lv e) (lv (Node KSum l)) (result x) /\ okop (PObj e).
Proof.
  destruct x as [r|r|[k l']|]; cbn [sum_add]; intros H.
  - inversion H; subst. done. apply (sum_snoc l (const r)).
  - inversion H; subst. done. apply (sum_snoc l (const r)).
  - destruct k; inversion H; subst; done; try apply (sum_snoc l). apply sum_cat.
  - discriminate.
Qed.
Lemma prod_mul_ok l x e : prod_mul l x = Ok e -> muls (lv e) (lv (Node KProd l)) (result x) /\ okop (PObj e).
Proof.
  destruct x as [r|r|[k l']|]; cbn [prod_mul]; intros H.
  - inversion H; subst. done. apply (prod_snoc l (const r)).
  - inversion H; subst. done. apply (prod_snoc l (const r)).
  - destruct k; inversion H; subst; done; try apply (prod_snoc l). apply prod_cat.
  - discriminate.
Qed.
Lemma generic_add_ok a x e : generic_add a x = Ok e -> adds (lv e) (lv a) (result x) /\ okop (PObj e).
Proof.
  destruct x as [r|r|[k l']|]; cbn [generic_add]; intros H.
  - inversion H; subst. done. apply (sum_two a (const r)).
  - inversion H; subst. done. apply (sum_two a (const r)).
  - destruct k; try (inversion H; subst; done; apply sum_two).
    apply sum_add_ok in H as (H1 & H2). split; [|assumption]. apply adds_comm. exact H1.
  - discriminate.
Qed.
Definition not_arr (x : operand) : Prop := match x with PArr _ => False | _ => True end.
Lemma generic_mul_ok a x e : not_arr x -> generic_mul a x = Ok e -> muls (lv e) (lv a) (result x) /\ okop (PObj e).
Proof.
  destruct x as [r|r|[k l']|]; cbn [generic_mul not_arr]; intros Ha H; try contradiction.
  - inversion H; subst. done. apply (prod_two a (const r)).
  - destruct k; try (inversion H; subst; done; apply prod_two).
    apply prod_mul_ok in H as (H1 & H2). split; [|assumption]. apply muls_comm. exact H1.
  - discriminate.
Qed.
Lemma const_add_ok c x e : okop x -> const_add c x = Ok e -> adds (lv e) (Ok c) (result x) /\ okop (PObj e).
Proof.
  intros Hx H. destruct x as [r|r|[k l']|]; cbn [const_add] in H.
  - inversion H; subst. split; [now apply adds_const|reflexivity].
  - inversion H; subst. split; [now apply adds_const|reflexivity].
  - destruct k; try (apply generic_add_ok in H; exact H).
    cbn [okop] in Hx. subst l'. inversion H; subst. split; [now apply adds_const|reflexivity].
  - discriminate.
Qed.
Lemma const_mul_ok c x e : okop x -> const_mul c x = Ok e -> muls (lv e) (Ok c) (result x) /\ okop (PObj e).
Proof.
  intros Hx H. destruct x as [r|r|[k l']|]; cbn [const_mul] in H.
  - inversion H; subst. split; [now apply muls_const|reflexivity].
  - inversion H; subst. split; [now apply muls_const|reflexivity].
  - destruct k; try (apply (@generic_mul_ok (const c)) in H; [exact H|exact I]).
    cbn [okop] in Hx. subst l'. inversion H; subst. split; [now apply muls_const|reflexivity].
  - discriminate.
Qed.
Lemma obj_add_ok a x e : okop (PObj a) -> okop x -> obj_add a x = Ok e -> adds (lv e) (lv a) (result x) /\ okop (PObj e).
Proof.
  intros Ha Hx H. destruct a as [k l]. destruct k; cbn [obj_add] in H; try (now apply generic_add_ok in H).
  - cbn [okop] in Ha. subst l. now apply const_add_ok in H.
  - now apply sum_add_ok in H.
Qed.
Lemma obj_mul_ok a x e : not_arr x -> okop (PObj a) -> okop x -> obj_mul a x = Ok e -> muls (lv e) (lv a) (result x) /\ okop (PObj e).
Proof.
  intros Hn Ha Hx H. destruct a as [k l]. destruct k; cbn [obj_mul] in H; try (now apply generic_mul_ok in H).
  - cbn [okop] in Ha. subst l. now apply const_mul_ok in H.
  - now apply prod_mul_ok in H.
Qed.

(** Python's operators *)
Lemma obj_inv r o : obj r = Ok o -> exists e, r = Ok e /\ o = PObj e.
Proof. destruct r; [|discriminate]. intros H. inversion H. eauto. Qed.
Lemma py_add_ok a b o : okop a -> okop b -> py_add a b = Ok o -> adds (result o) (result a) (result b) /\ okop o.
Proof.
  intros Ha Hb H. destruct a as [x|x|e|]; cbn [py_add] in H.
  - destruct b as [y|y|e|]; try discriminate.
    + inversion H; subst. split; [now apply adds_const|exact I].
    + apply obj_inv in H as (e' & H & ->). apply obj_add_ok in H as (H1 & H2); auto. split; [|assumption]. apply adds_comm. exact H1.
  - discriminate.
  - apply obj_inv in H as (e' & H & ->). now apply obj_add_ok in H.
  - discriminate.
Qed.
Lemma py_mul_ok a b o : not_arr b -> okop a -> okop b -> py_mul a b = Ok o -> muls (result o) (result a) (result b) /\ okop o.
Proof.
  intros Hn Ha Hb H. destruct a as [x|x|e|]; cbn [py_mul] in H.
  - destruct b as [y|y|e|]; try discriminate.
    + inversion H; subst. split; [now apply muls_const|exact I].
    + apply obj_inv in H as (e' & H & ->). apply obj_mul_ok in H as (H1 & H2); auto. split; [|assumption]. apply muls_comm. exact H1.
  - discriminate.
  - apply obj_inv in H as (e' & H & ->). now apply obj_mul_ok in H.
  - discriminate.
Qed.
Lemma py_neg_ok a o : okop a -> py_neg a = Ok o -> (forall r, result o = Ok r <-> exists x, result a = Ok x /\ r = - x) /\ okop o.
Proof.
  intros Ha H. destruct a as [x|x|e|]; cbn [py_neg] in H.
  - inversion H; subst. split; [|exact I]. intros r. cbn. split; [intros Hr; inversion Hr; eauto|]. intros (y & Hy & ->). congruence.
  - inversion H; subst. split; [|exact I]. intros r. cbn. split; [intros Hr; inversion Hr; eauto|]. intros (y & Hy & ->). congruence.
  - apply obj_inv in H as (e' & H & ->). unfold obj_neg in H. destruct e as [k l].
    assert (Hgen : obj_mul (Node k l) (PNum (-1)) = Ok e' ->
      (forall r, result (PObj e') = Ok r <-> exists x, result (PObj (Node k l)) = Ok x /\ r = - x) /\ okop (PObj e')).
    { intros Hm. apply obj_mul_ok in Hm as (H1 & H2); [|exact I|assumption|exact I]. split; [|assumption].
      intros r. etransitivity; [exact (H1 r)|]. split.
      - intros (x & y & Hx & Hy & ->). inversion Hy; subst. exists x. split; [exact Hx|ring].
      - intros (x & Hx & ->). exists x, (-1). repeat split; [exact Hx|ring]. }
    destruct k; try (now apply Hgen).
    cbn [okop] in Ha. subst l. inversion H; subst. split; [|reflexivity].
    intros r. cbn. split; [intros Hr; inversion Hr; eauto|]. intros (y & Hy & ->). congruence.
  - discriminate.
Qed.
Definition subs (o a b : res R) : Prop := forall r, o = Ok r <-> exists x y, a = Ok x /\ b = Ok y /\ r = x - y.
Lemma py_sub_ok a b o : okop a -> okop b -> py_sub a b = Ok o -> subs (result o) (result a) (result b) /\ okop o.
Proof.
  intros Ha Hb H. destruct a as [x|x|e|]; cbn [py_sub] in H.
  - destruct b as [y|y|e|]; try discriminate.
    + inversion H; subst. split; [|exact I]. intros r. cbn. split; [intros Hr; inversion Hr; eauto|]. intros (u & v & H1 & H2 & ->). congruence.
    + destruct (py_neg (PObj e)) as [nb|] eqn:En; [|discriminate]. cbn [bind] in H. apply py_neg_ok in En as (N1 & N2); [|assumption].
      apply py_add_ok in H as (H1 & H2); [|assumption|exact I]. split; [|assumption]. intros r. rewrite (H1 r). split.
      * intros (u & v & Hu & Hv & ->). apply N1 in Hu as (w & Hw & ->). exists v, w. repeat split; auto. ring.
      * intros (u & v & Hu & Hv & ->). exists (- v), u. repeat split; [apply N1; eauto|assumption|ring].
  - discriminate.
  - destruct (py_neg b) as [nb|] eqn:En; [|discriminate]. cbn [bind] in H. apply py_neg_ok in En as (N1 & N2); [|assumption].
    apply py_add_ok in H as (H1 & H2); [|assumption|assumption]. split; [|assumption]. intros r. rewrite (H1 r). split.
    + intros (u & v & Hu & Hv & ->). apply N1 in Hv as (w & Hw & ->). exists u, w. repeat split; auto.
    + intros (u & v & Hu & Hv & ->). exists u, (- v). repeat split; [assumption|apply N1; eauto].
  - discriminate.
Qed.
Definition pows (o a b : res R) : Prop := forall r, o = Ok r <-> exists x y, a = Ok x /\ b = Ok y /\ powf x y = Ok r.
Lemma py_pow_ok a b o : okop a -> okop b -> py_pow a b = Ok o -> pows (result o) (result a) (result b) /\ okop o.
Proof.
  intros Ha Hb H. destruct a as [x|x|e|]; cbn [py_pow] in H; try discriminate.
  - destruct b as [y|y|e|]; try discriminate. destruct (powf x y) as [z|] eqn:Ep; [|discriminate]. inversion H; subst.
    split; [|exact I]. intros r. cbn. split.
    + intros Hr. inversion Hr; subst. now exists x, y.
    + intros (u & v & H1 & H2 & H3). inversion H1; inversion H2; subst. congruence.
  - apply obj_inv in H as (e' & H & ->). destruct e as [k l].
    assert (Hconst : forall c r, powf c r = powf c r -> k = KConst c -> (b = PNum r \/ b = PArr r) -> bind (powf c r) (fun y => Ok (const y)) = Ok e' ->
      pows (result (PObj e')) (result (PObj (Node k l))) (result b) /\ okop (PObj e')).
    { intros c r0 _ -> Hbb He. cbn [okop] in Ha. subst l. destruct (powf c r0) as [z|] eqn:Ep; [|discriminate]. inversion He; subst.
      split; [|reflexivity]. intros r. assert (Hrb : result b = Ok r0) by (destruct Hbb as [-> | ->]; reflexivity). rewrite Hrb. cbn. split.
      - intros Hr. inversion Hr; subst. now exists c, r0.
      - intros (u & v & H1 & H2 & H3). inversion H1; inversion H2; subst. congruence. }
    assert (Hpow : forall c, result b = Ok c -> e' = Node (KPow c) [Node k l] ->
      pows (result (PObj e')) (result (PObj (Node k l))) (result b) /\ okop (PObj e')).
    { intros c Hc ->. split; [|exact I]. intros r. etransitivity; [exact (res_pow c (Node k l) r)|]. rewrite Hc. split.
      - intros (x & H1 & H2). now exists x, c.
      - intros (x & y & H1 & H2 & H3). inversion H2; subst. now exists x. }
    destruct k as [| c0 | | | | | | | | | | | | | | ]; cbn [obj_pow] in H; destruct b as [y|y|[k' l']|]; try discriminate;
      try (inversion H; subst; now apply (Hpow y));
      try (destruct k'; try discriminate; inversion H; subst; cbn [okop] in Hb; subst l'; eapply Hpow; reflexivity).
    + apply (Hconst c0 y); auto.
    + apply (Hconst c0 y); auto.
Qed.

Lemma build_ok N f : forall o, leaves (wf N) f -> no_array_product f -> build f = Ok o ->
  (forall r, result o = Ok r <-> meaning f = Ok r) /\ okop o.
Proof.
  assert (Hbin : forall (a b : res R) (h : R -> R -> res R) r, bind a (fun x => bind b (fun y => h x y)) = Ok r <-> exists x y, a = Ok x /\ b = Ok y /\ h x y = Ok r).
  { intros a b h r. destruct a as [x|], b as [y|]; cbn [bind]; split; try discriminate; try (intros (u & v & H1 & H2 & H3); congruence). eauto. }
  induction f as [r|e|a IHa b IHb|a IHa b IHb|a IHa b IHb|a IHa|a IHa b IHb|a IHa r0|a IHa r0]; intros o Hl Hn H; cbn [leaves no_array_product build meaning] in *.
  - inversion H; subst. split; [tauto|exact I].
  - inversion H; subst. split; [intros r; reflexivity|]. destruct e as [k l]. destruct k; try exact I. inversion Hl; subst. assumption.
  - destruct (build a) as [x|]; [|discriminate]. destruct (build b) as [y|]; [|discriminate]. cbn [bind] in H.
    destruct (IHa x) as (A1 & A2), (IHb y) as (B1 & B2); try tauto. apply py_add_ok in H as (H1 & H2); auto. split; [|assumption].
    intros r. rewrite Hbin, (H1 r). split.
    + intros (u & v & Hu & Hv & ->). apply A1 in Hu. apply B1 in Hv. eauto 6.
    + intros (u & v & Hu & Hv & Hr). inversion Hr; subst. apply A1 in Hu. apply B1 in Hv. eauto 6.
  - destruct (build a) as [x|]; [|discriminate]. destruct (build b) as [y|]; [|discriminate]. cbn [bind] in H.
    destruct (IHa x) as (A1 & A2), (IHb y) as (B1 & B2); try tauto. apply py_sub_ok in H as (H1 & H2); auto. split; [|assumption].
    intros r. rewrite Hbin, (H1 r). split.
    + intros (u & v & Hu & Hv & ->). apply A1 in Hu. apply B1 in Hv. eauto 6.
    + intros (u & v & Hu & Hv & Hr). inversion Hr; subst. apply A1 in Hu. apply B1 in Hv. eauto 6.
  - destruct (build a) as [x|]; [|discriminate]. destruct (build b) as [y|] eqn:Eb; [|discriminate]. cbn [bind] in H.
    destruct (IHa x) as (A1 & A2), (IHb y) as (B1 & B2); try tauto.
    apply py_mul_ok in H as (H1 & H2); auto.
    + split; [|assumption]. intros r. rewrite Hbin, (H1 r). split.
      * intros (u & v & Hu & Hv & ->). apply A1 in Hu. apply B1 in Hv. eauto 6.
      * intros (u & v & Hu & Hv & Hr). inversion Hr; subst. apply A1 in Hu. apply B1 in Hv. eauto 6.
    + destruct y; try exact I. exfalso. clear - Eb H.
      (* no formula builds an array *)
      assert (Ho : forall r0 r, obj r0 <> Ok (PArr r)) by (intros [?|?] ?; cbn; congruence).
      assert (Hadd : forall a b r, py_add a b <> Ok (PArr r)) by (intros [?|?|?|] [?|?|?|] ?; cbn [py_add]; try congruence; apply Ho).
      assert (Hmul : forall a b r, py_mul a b <> Ok (PArr r)) by (intros [?|?|?|] [?|?|?|] ?; cbn [py_mul]; try congruence; apply Ho).
      assert (Hneg : forall a r, py_neg a <> Ok (PArr r)) by (intros [?|?|?|] ?; cbn [py_neg]; try congruence; apply Ho).
      assert (Hsub : forall a b r, py_sub a b <> Ok (PArr r)).
      { intros [?|?|?|] b0 ?; cbn [py_sub]; destruct b0; try congruence; try (destruct (py_neg _); cbn [bind]; [apply Hadd|congruence]). }
      assert (Hpow : forall a b r, py_pow a b <> Ok (PArr r)).
      { intros [u|?|?|] [v|?|?|] ?; cbn [py_pow]; try congruence; try apply Ho. destruct (powf u v); cbn; congruence. }
      destruct b; cbn [build] in Eb; try discriminate;
        repeat match type of Eb with context [build ?z] => destruct (build z); cbn [bind] in Eb; try discriminate end;
        first [now apply Hadd in Eb | now apply Hsub in Eb | now apply Hmul in Eb | now apply Hneg in Eb | now apply Hpow in Eb].
  - destruct (build a) as [x|]; [|discriminate]. cbn [bind] in H. destruct (IHa x) as (A1 & A2); try tauto.
    apply py_neg_ok in H as (H1 & H2); auto. split; [|assumption]. intros r. rewrite (H1 r). split.
    + intros (u & Hu & ->). apply A1 in Hu. now rewrite Hu.
    + destruct (meaning a) as [u|] eqn:Em; [|discriminate]. cbn [bind]. intros Hr. inversion Hr; subst. exists u. split; [now apply A1|reflexivity].
  - destruct (build a) as [x|]; [|discriminate]. destruct (build b) as [y|]; [|discriminate]. cbn [bind] in H.
    destruct (IHa x) as (A1 & A2), (IHb y) as (B1 & B2); try tauto. apply py_pow_ok in H as (H1 & H2); auto. split; [|assumption].
    intros r. rewrite Hbin, (H1 r). split.
    + intros (u & v & Hu & Hv & Hr). apply A1 in Hu. apply B1 in Hv. eauto 6.
    + intros (u & v & Hu & Hv & Hr). apply A1 in Hu. apply B1 in Hv. eauto 6.
  - destruct (build a) as [x|]; [|discriminate]. cbn [bind] in H. destruct (IHa x) as (A1 & A2); try tauto.
    apply py_add_ok in H as (H1 & H2); auto; [|exact I]. split; [|assumption]. intros r. rewrite (H1 r). split.
    + intros (u & v & Hu & Hv & ->). inversion Hv; subst. apply A1 in Hu. now rewrite Hu.
    + destruct (meaning a) as [u|] eqn:Em; [|discriminate]. cbn [bind]. intros Hr. inversion Hr; subst. exists u, r0.
      repeat split. now apply A1.
  - contradiction.
Qed.

Lemma weighted_sum_ok ws es e xs : length ws = length es -> (forall x, In x es -> okop (PObj x)) ->
  weighted_sum ws es = Ok e -> oks es xs -> lv e = Ok (dotr ws xs).
Proof.
  intros Hl Hok H Hxs. unfold weighted_sum in H. destruct (Nat.ltb_spec (length ws) (length es)); [lia|].
  destruct (mapM _ (combine ws es)) as [l|] eqn:Em; [|discriminate]. inversion H; subst e. apply res_sum.
  clear H H0. exists (map (fun wx => fst wx * snd wx) (combine ws xs)). split; [|reflexivity].
  revert es l xs Hl Hok Em Hxs. induction ws as [|w ws IH]; intros [|x es] l xs Hl Hok Em Hxs; try discriminate Hl.
  - inversion Em. constructor.
  - inversion Hxs as [|? y ? ys Hy Hys]; subst. cbn [combine mapM fst snd] in Em.
    destruct (obj_mul x (PNum w)) as [o|] eqn:Eo; [|discriminate]. cbn [bind] in Em.
    destruct (mapM _ (combine ws es)) as [l'|] eqn:Em'; [|discriminate]. cbn [bind] in Em. inversion Em; subst l.
    cbn [combine map]. constructor.
    + apply obj_mul_ok in Eo as (H1 & _); [|exact I|apply Hok; now left|exact I]. apply H1. exists y, w. cbn. repeat split; [assumption|ring].
    + apply IH with es; auto. intros z Hz. apply Hok. now right.
Qed.

(** an array on the right of [*] is added. *)
Lemma array_product e x a : (match e with Node KProd _ => False | Node (KConst _) _ => False | _ => True end) -> lv e = Ok x ->
  exists o, build (FMulArr (FObj e) a) = Ok o /\ result o = Ok (x + a) /\ meaning (FMulArr (FObj e) a) = Ok (x * a).
Proof.
  intros Hk Hx. destruct e as [k l]. exists (PObj (Node KSum [Node k l; const a])). split.
  - cbn [build bind py_mul]. destruct k; try contradiction; reflexivity.
  - split; [|cbn [meaning]; unfold lv in Hx; rewrite Hx; reflexivity]. apply (sum_two (Node k l) (const a)). exists x, a. auto.
Qed.
End Ops.

(** ** Smooth maximum *)
Lemma rmax_ge x l : (forall y, In y (x :: l) -> y <= rmax x l) /\ In (rmax x l) (x :: l).
Proof.
  unfold rmax. revert x. induction l as [|z l IH]; intros x; cbn [fold_left].
  - split; [intros y [->|[]]; apply Rle_refl|now left].
  - destruct (IH (Rmax x z)) as (H1 & H2). split.
    + intros y [->|[->|Hy]].
      * eapply Rle_trans; [apply (Rmax_l y z)|apply H1; now left].
      * eapply Rle_trans; [apply (Rmax_r x y)|apply H1; now left].
      * apply H1. now right.
    + destruct H2 as [H2|H2]; [|right; now right]. rewrite <- H2. destruct (Rmax_case x z (fun m => m = x \/ m = z)); auto; [left|right; left]; auto.
Qed.
Lemma rsum_exp_ge l y : In y l -> exp y <= rsum (map exp l).
Proof.
  induction l as [|x l IH]; [intros []|]. intros [->|H]; cbn [map]; rewrite rsum_cons.
  - assert (Hp : 0 <= rsum (map exp l)); [|lra]. clear. induction l as [|x l IH]; cbn [map]; [apply Rle_refl|]. rewrite rsum_cons. assert (Hx := exp_pos x). lra.
  - apply IH in H. assert (Hx := exp_pos x). lra.
Qed.
Lemma exp_mono x y : x <= y -> exp x <= exp y.
Proof. intros [H| ->]; [left; now apply exp_increasing|apply Rle_refl]. Qed.
Lemma ln_mono x y : 0 < x -> x <= y -> ln x <= ln y.
Proof. intros Hx [H| ->]; [left; now apply ln_increasing|apply Rle_refl]. Qed.
Lemma rsum_exp_le l m : (forall y, In y l -> y <= m) -> rsum (map exp l) <= INR (length l) * exp m.
Proof.
  induction l as [|x l IH]; intros H; [cbn; lra|]. cbn [map length]. rewrite rsum_cons, S_INR.
  assert (Hx := exp_mono (H x (or_introl eq_refl))). assert (Hl := IH (fun y Hy => H y (or_intror Hy))). lra.
Qed.
Lemma lse_bounds l : l <> [] -> exists v, eval_scalar KLse l = Ok v /\ (forall y, In y l -> y <= v) /\
  exists m, In m l /\ (forall y, In y l -> y <= m) /\ v <= m + ln (INR (length l)).
Proof.
  intros Hl. exists (log_sum_exp l). split; [now apply lse_value|]. destruct l as [|x l]; [congruence|].
  destruct (rmax_ge x l) as (H1 & H2). set (L := x :: l) in *. split.
  - intros y Hy. unfold log_sum_exp. rewrite <- (ln_exp y) at 1. apply ln_mono; [apply exp_pos|now apply rsum_exp_ge].
  - exists (rmax x l). split; [assumption|]. split; [assumption|]. unfold log_sum_exp.
    assert (Hn : 0 < INR (length L)) by (apply lt_0_INR; cbn; lia).
    rewrite <- (ln_exp (rmax x l)), Rplus_comm, <- ln_mult by (auto; apply exp_pos).
    apply ln_mono; [now apply sum_exp_pos|now apply rsum_exp_le].
Qed.
Lemma rsum_div {A} (f : A -> R) c l : rsum (map (fun x => f x / c) l) = rsum (map f l) / c.
Proof. unfold Rdiv. rewrite Rmult_comm, <- rsum_scale. apply rsum_ext. intros; ring. Qed.
Lemma lse_grad l g : l <> [] -> exists ws, grad_scalar KLse l g = Ok (map (fun w => g * w) ws) /\
  length ws = length l /\ (forall w, In w ws -> 0 < w <= 1) /\ rsum ws = 1.
Proof.
  intros Hl. exists (softmax l). split; [now apply lse_weights|]. unfold softmax. split; [apply map_length|].
  assert (Hp := sum_exp_pos Hl). split.
  - intros w Hw. apply in_map_iff in Hw as (x & <- & Hx). split; [apply Rdiv_lt_0_compat; [apply exp_pos|assumption]|].
    apply Rmult_le_reg_r with (rsum (map exp l)); [assumption|]. unfold Rdiv. rewrite Rmult_assoc, Rinv_l by lra. rewrite Rmult_1_r, Rmult_1_l. now apply rsum_exp_ge.
  - rewrite rsum_div. unfold Rdiv. apply Rinv_r. lra.
Qed.
Lemma soft_bounds l lo hi : l <> [] -> (forall y, In y l -> lo <= y <= hi) -> exists v, eval_scalar KSoft l = Ok v /\ lo <= v <= hi.
Proof.
  intros Hl Hb. eexists. split; [now apply soft_value|]. assert (Hp := sum_exp_pos Hl).
  assert (Hn : lo * rsum (map exp l) <= soft_num l <= hi * rsum (map exp l)).
  { unfold soft_num. clear Hl Hp. induction l as [|x l IH]; [cbn; lra|]. cbn [map]. rewrite !rsum_cons.
    assert (Hx := Hb x (or_introl eq_refl)). assert (He := exp_pos x). assert (H := IH (fun y Hy => Hb y (or_intror Hy))). nra. }
  split.
  - apply Rmult_le_reg_r with (rsum (map exp l)); [assumption|]. unfold Rdiv. rewrite Rmult_assoc, Rinv_l by lra. lra.
  - apply Rmult_le_reg_r with (rsum (map exp l)); [assumption|]. unfold Rdiv. rewrite Rmult_assoc, Rinv_l by lra. lra.
Qed.

(** ** Two variables *)
Lemma two_variables kinds inputs ord fuel structure jac E out U p n m :
  (forall h b, Permutation (ord h b) b) -> unfolds kinds inputs E -> universe inputs [out] U -> (1 + length U <= fuel)%nat ->
  reachable inputs [out] n -> reachable inputs [out] m -> kinds n = KVar -> kinds m = KVar -> n <> m ->
  objective_function kinds inputs ord fuel structure out p = Err ValueError /\
  gradient kinds inputs ord fuel structure jac out p = Err ValueError.
Proof.
  intros Hord HE HU Hf Hn Hm Kn Km Hne. assert (Hdag := unfolds_dag HE).
  destruct (@schedule_exists val inputs (fn kinds p) (is_heavy kinds) ord Hord [out] U HU Hdag fuel Hf) as (g & sched & Hg & Hs & Hnd & Hr & _).
  assert (Hk : known_vals kinds structure g p = Err ValueError).
  { unfold known_vals. assert (Hin : forall x, reachable inputs [out] x -> kinds x = KVar -> In x (filter (is_var kinds) (keys g))).
    { intros x Hx Kx. apply filter_In. split; [now apply Hr|]. unfold is_var. now rewrite Kx. }
    assert (I1 := Hin n Hn Kn). assert (I2 := Hin m Hm Km).
    destruct (filter (is_var kinds) (keys g)) as [|v [|w vs]]; [destruct I1| |reflexivity].
    exfalso. destruct I1 as [->|[]]. destruct I2 as [->|[]]. now apply Hne. }
  unfold objective_function, gradient. rewrite Hg. cbn [bind]. rewrite Hs, Hk. now split.
Qed.
