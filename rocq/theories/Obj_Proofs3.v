(** The derivative of an expression along a curve, by the chain rule. *)
From Verif Require Import Base Obj_Model Obj_Spec Obj_Proofs Obj_Proofs2.
From Coq Require Import Reals ZArith Lra Psatz.
Set Implicit Arguments.
Local Open Scope R_scope.

Section Expr.
Variable structure : list R -> list R.
Variable jac : list R -> list (list R).
Notation value := (value structure).
Notation rval := (rval structure).

Lemma value_node q k l : k <> KVar -> value q (Node k l) = bind (mapM (value q) l) (keval q k).
Proof.
  intros Hk. cbn [Obj_Spec.value].
  assert (H : forall l, (fix go (l : list expr) : res (list val) := match l with
     | [] => Ok [] | x :: l' => bind (value q x) (fun v => bind (go l') (fun vs => Ok (v :: vs))) end) l = mapM (value q) l).
  { clear. induction l as [|x l IH]; cbn [mapM]; [reflexivity|]. now rewrite IH. }
  rewrite H. destruct k; try reflexivity. congruence.
Qed.

Lemma mapM_scalar q l : (forall e, In e l -> exists r, value q e = Ok (VS r)) ->
  mapM (value q) l = Ok (map (fun e => VS (rval q e)) l).
Proof.
  induction l as [|e l IH]; intros H; cbn [mapM map]; [reflexivity|].
  destruct (H e (or_introl eq_refl)) as (r & Hr). unfold Obj_Spec.rval. rewrite Hr. cbn [bind number].
  rewrite IH by (intros y Hy; apply H; now right). reflexivity.
Qed.
Lemma scalars_VS {A} (f : A -> R) l : scalars (map (fun e => VS (f e)) l) = Ok (map f l).
Proof. unfold scalars. induction l as [|e l IH]; cbn [map mapM]; [reflexivity|]. cbn [scalar bind]. now rewrite IH. Qed.

Lemma keval_arith q k ivs : arith_kind k -> keval q k ivs = bind (scalars ivs) (fun l => bind (eval_scalar k l) (fun r => Ok (VS r))).
Proof. intros H. destruct k; try contradiction; reflexivity. Qed.
Lemma value_arith q k l : arith_kind k -> (forall e, In e l -> exists r, value q e = Ok (VS r)) ->
  value q (Node k l) = bind (eval_scalar k (map (rval q) l)) (fun r => Ok (VS r)).
Proof.
  intros Hk H. rewrite value_node by (intros ->; contradiction). rewrite (@mapM_scalar q l H). cbn [bind].
  rewrite keval_arith by assumption. now rewrite scalars_VS.
Qed.

Lemma shape_arith_children N k l : arith_kind k -> shape_ok N k l -> forall e, In e l -> is_variable e = false.
Proof.
  intros Hk Hs. destruct k; try contradiction; cbn [shape_ok] in Hs; try exact Hs;
    destruct Hs as (e & -> & He); intros y [<-|[]]; assumption.
Qed.
Lemma shape_unary N k l : unary_kind k -> shape_ok N k l -> exists e, l = [e].
Proof. intros Hk Hs. destruct k; try contradiction; cbn [shape_ok] in Hs; destruct Hs as (e & -> & _); now exists e. Qed.

Lemma kind_cases k : k = KVar \/ (exists c, k = KConst c \/ k = KParam c) \/ (exists i n, k = KSlice i n) \/
  (exists fn gr, k = KOld fn gr) \/ arith_kind k.
Proof. destruct k; cbn [arith_kind]; eauto 8. Qed.

(** value of a slice *)
Lemma value_slice q i n v : is_variable v = true -> (i < length (structure q))%nat ->
  value q (Node (KSlice i n) [v]) = Ok (VS (nth i (structure q) 0)).
Proof.
  intros Hv Hi. rewrite value_node by discriminate. destruct v as [k l]. destruct k; try discriminate.
  cbn [mapM Obj_Spec.value bind keval]. rewrite (nth_error_nth' _ 0 Hi). reflexivity.
Qed.

Variable p d : list R.

(** the rate of change of an expression, by the forward chain rule. *)
Fixpoint slope (e : expr) : R :=
  match e with
  | Node k l =>
      match k with
      | KVar | KConst _ | KParam _ => 0
      | KSlice i _ => dotr (nth i (jac p) []) d
      | KOld _ gr => dotr (gr p) d
      | _ => dotr (match grad_scalar k (map (rval p) l) 1 with Ok ws => ws | Err _ => [] end) (map slope l)
      end
  end.
Lemma slope_arith k l ws : arith_kind k -> (forall g, grad_scalar k (map (rval p) l) g = Ok (map (fun w => g * w) ws)) ->
  slope (Node k l) = dotr ws (map slope l).
Proof.
  intros Hk H. assert (E : map (fun w => 1 * w) ws = ws) by (rewrite <- (map_id ws) at 2; apply map_ext; intros; ring).
  specialize (H 1). rewrite E in H.
  destruct k; try contradiction; cbn [slope]; now rewrite H.
Qed.

Variable N : nat.
Hypothesis Hpar : param_ok structure jac N p.
Variable P : R -> list R.
Variable t0 : R.
Hypothesis Hmv : moves P t0 p d.

Lemma expr_derive e : wf N e -> smooth structure p e -> olds_ok p e -> is_variable e = false ->
  near t0 (fun t => exists r, value (P t) e = Ok (VS r)) /\ derivable_pt_lim (fun t => rval (P t) e) t0 (slope e).
Proof.
  destruct Hpar as (HN & HJ & Hst). assert (HP0 : P t0 = p) by apply Hmv.
  induction 1 as [k l Hsh Hwf IH]. intros Hsm Hold Hv.
  inversion Hsm as [k' l' Hsa Hsc]; subst k' l'. inversion Hold as [k' l' Ho Hoc]; subst k' l'.
  destruct (kind_cases k) as [->|[(c & Hc)|[(i & n & ->)|[(fn & gr & ->)|Hk]]]].
  - discriminate.
  - assert (E : forall q, value q (Node k l) = Ok (VS c)).
    { intros q. destruct Hc as [-> | ->]; cbn [shape_ok] in Hsh; subst l; reflexivity. }
    split; [apply near_all; intros t; exists c; apply E|].
    eapply derive_ext with (fun _ => c); [intros t; unfold Obj_Spec.rval; now rewrite E|].
    eapply derive_eq; [|apply derivable_pt_lim_const]. destruct Hc as [-> | ->]; reflexivity.
  - cbn [shape_ok] in Hsh. destruct Hsh as (_ & Hi & v & -> & Hvv).
    assert (E : forall t, value (P t) (Node (KSlice i n) [v]) = Ok (VS (nth i (structure (P t)) 0))).
    { intros t. apply value_slice; [assumption|]. rewrite HN by apply Hmv. assumption. }
    split; [apply near_all; intros t; eexists; apply E|].
    eapply derive_ext; [intros t; unfold Obj_Spec.rval; rewrite E; reflexivity|]. cbn [number slope].
    exact (proj2 (Hst i Hi) P t0 d Hmv).
  - cbn [shape_ok] in Hsh. subst l. cbn [old_ok] in Ho.
    split; [apply near_all; intros t; eexists; reflexivity|]. cbn [slope].
    exact (proj2 Ho P t0 d Hmv).
  - assert (Hch := @shape_arith_children N k l Hk Hsh).
    destruct (@kind_partials k (map (rval p) l) Hk) as (ws & (Hlen & Hpd) & Hg); [|exact Hsa|].
    { intros Hu. destruct (@shape_unary N k l Hu Hsh) as (e & ->). now eexists. }
    assert (Hnear : near t0 (fun t => forall e, In e l -> exists r, value (P t) e = Ok (VS r))).
    { apply near_list. intros e He. apply (IH e He); auto. }
    destruct (Hpd (map (fun e t => rval (P t) e) l) (map slope l) t0) as (Hdef & Hd).
    + rewrite map_map. now rewrite HP0.
    + assert (HF : forall e, In e l -> derivable_pt_lim (fun t => rval (P t) e) t0 (slope e)) by (intros e He; apply (IH e He); auto).
      clear - HF. induction l as [|e l IH]; cbn [map]; constructor; [apply HF; now left|]. apply IH. intros y Hy. apply HF. now right.
    + assert (Hv' : near t0 (fun t => exists r, value (P t) (Node k l) = Ok (VS r) /\ eval_scalar k (map (rval (P t)) l) = Ok r)).
      { eapply near_impl; [|exact (near_and Hnear Hdef)]. intros t (H1 & (r & H2)). cbn beta in H1.
        rewrite map_map in H2. exists r. split; [|exact H2]. rewrite value_arith by assumption.
        change (fun e => rval (P t) e) with (rval (P t)) in H2. now rewrite H2. }
      split; [eapply near_impl; [|exact Hv']; intros t (r & H & _); now exists r|].
      rewrite (@slope_arith k l ws Hk Hg). eapply derive_ext_near; [|exact Hd].
      eapply near_impl; [|exact Hv']. intros t (r & H1 & H2). cbn beta. rewrite map_map.
      unfold Obj_Spec.rval at 2. rewrite H1. cbn [number]. change (fun e => rval (P t) e) with (rval (P t)). now rewrite H2.
Qed.
End Expr.
