(** Properties C48, C49 and C79: objective functions of invdes. *)
From Verif Require Import Base GraphExec_Model GraphExec_Spec Obj_Model Obj_Spec
  Obj_Proofs Obj_Proofs2 Obj_Proofs3 Obj_Proofs4 Obj_Proofs5 Obj_Proofs6.
From Coq Require Import Reals Lra Relations.
Set Implicit Arguments.
Local Open Scope R_scope.

(** ** C79: value and gradient of an objective.

    [kinds] and [inputs] describe the function objects (shared in any way); [E n] is the expression
    rooted at object [n]; [ord] is the unspecified order in which Python iterates over sets. *)
Theorem objective_function_value :
  forall kinds inputs ord fuel structure E out U N q v,
  (forall h b, Permutation (ord h b) b) -> unfolds kinds inputs E -> universe inputs [out] U -> (1 + length U <= fuel)%nat ->
  wf N (E out) -> heavy_independent inputs (is_heavy kinds) ->
  (forall n m, reachable inputs [out] n -> reachable inputs [out] m -> kinds n = KVar -> kinds m = KVar -> n = m) ->
  value structure q (E out) = Ok v ->
  objective_function kinds inputs ord fuel structure out q = Ok v.
Proof. intros. now apply (@objective_value kinds inputs ord H fuel structure (fun _ => []) E H0 out U H1 H2 N H3 H4 H5). Qed.

Theorem gradient_is_derivative :
  forall kinds inputs ord fuel structure jac E out U N p,
  (forall h b, Permutation (ord h b) b) -> unfolds kinds inputs E -> universe inputs [out] U -> (1 + length U <= fuel)%nat ->
  wf N (E out) -> heavy_independent inputs (is_heavy kinds) ->
  (forall n m, reachable inputs [out] n -> reachable inputs [out] m -> kinds n = KVar -> kinds m = KVar -> n = m) ->
  param_ok structure jac N p -> smooth structure p (E out) -> olds_ok p (E out) -> is_variable (E out) = false ->
  exists a, gradient kinds inputs ord fuel structure jac out p = Ok a /\
    (a = GS 0 \/ exists l, a = GV l /\ length l = length p) /\
    forall P t0 d, moves P t0 p d ->
      near t0 (fun t => objective_function kinds inputs ord fuel structure out (P t) = Ok (VS (rval structure (P t) (E out)))) /\
      derivable_pt_lim (fun t => number (objective_function kinds inputs ord fuel structure out (P t))) t0 (along a d).
Proof. intros. now apply (@gradient_correct kinds inputs ord H fuel structure jac E H0 out U H1 H2 N). Qed.

Theorem two_variables_rejected :
  forall kinds inputs ord fuel structure jac E out U p n m,
  (forall h b, Permutation (ord h b) b) -> unfolds kinds inputs E -> universe inputs [out] U -> (1 + length U <= fuel)%nat ->
  reachable inputs [out] n -> reachable inputs [out] m -> kinds n = KVar -> kinds m = KVar -> n <> m ->
  objective_function kinds inputs ord fuel structure out p = Err ValueError /\
  gradient kinds inputs ord fuel structure jac out p = Err ValueError.
Proof. exact two_variables. Qed.

(** The partial derivatives every class hands to the executor. *)
Theorem class_partials :
  forall k xs, arith_kind k -> (unary_kind k -> exists x, xs = [x]) -> smooth_at k xs ->
  exists ws, has_partials (eval_scalar k) xs ws /\ forall g, grad_scalar k xs g = Ok (map (fun w => g * w) ws).
Proof. exact kind_partials. Qed.

(** A concrete case: x0 * x1 + 3 over a vector with two entries. *)
Definition ex_kinds (n : nat) : kind :=
  match n with 0%nat => KVar | 1%nat => KSlice 0 2 | 2%nat => KSlice 1 2 | 3%nat => KProd | 4%nat => KConst 3 | 5%nat => KSum | _ => KConst 0 end.
Definition ex_inputs (n : nat) : list nat :=
  match n with 1%nat => [0%nat] | 2%nat => [0%nat] | 3%nat => [1%nat; 2%nat] | 5%nat => [3%nat; 4%nat] | _ => [] end.
Definition ex_E (n : nat) : expr :=
  match n with
  | 0%nat => Node KVar []
  | 1%nat => Node (KSlice 0 2) [Node KVar []]
  | 2%nat => Node (KSlice 1 2) [Node KVar []]
  | 3%nat => Node KProd [Node (KSlice 0 2) [Node KVar []]; Node (KSlice 1 2) [Node KVar []]]
  | 4%nat => Node (KConst 3) []
  | 5%nat => Node KSum [Node KProd [Node (KSlice 0 2) [Node KVar []]; Node (KSlice 1 2) [Node KVar []]]; Node (KConst 3) []]
  | _ => Node (KConst 0) []
  end.
Definition ex_structure (q : list R) : list R := q.
Definition ex_jac (_ : list R) : list (list R) := [[1; 0]; [0; 1]].

Lemma ex_unfolds : unfolds ex_kinds ex_inputs ex_E.
Proof. intros n. do 6 (destruct n as [|n]; [reflexivity|]). reflexivity. Qed.
Lemma ex_universe : universe ex_inputs [5%nat] [0; 1; 2; 3; 4; 5]%nat.
Proof.
  split; [intros n [<-|[]]; cbn; tauto|]. intros n Hn c Hc.
  destruct Hn as [<-|[<-|[<-|[<-|[<-|[<-|[]]]]]]]; cbn in Hc; cbn; tauto.
Qed.
Lemma ex_wf : wf 2 (ex_E 5).
Proof.
  assert (V : wf 2 (Node KVar [])) by (constructor; [reflexivity|intros e []]).
  assert (S0 : wf 2 (Node (KSlice 0 2) [Node KVar []])).
  { constructor; [cbn; split; [reflexivity|]; split; [auto|]; eauto|]. intros e [<-|[]]; exact V. }
  assert (S1 : wf 2 (Node (KSlice 1 2) [Node KVar []])).
  { constructor; [cbn; split; [reflexivity|]; split; [auto|]; eauto|]. intros e [<-|[]]; exact V. }
  constructor; [intros e [<-|[<-|[]]]; reflexivity|]. intros e [<-|[<-|[]]].
  - constructor; [intros e [<-|[<-|[]]]; reflexivity|]. intros e [<-|[<-|[]]]; assumption.
  - constructor; [reflexivity|intros e []].
Qed.
Lemma ex_param x y : param_ok ex_structure ex_jac 2 [x; y].
Proof.
  split; [intros q Hq; exact Hq|]. split; [reflexivity|]. intros i Hi.
  assert (Hd : forall P t0 (d : list R), moves P t0 [x; y] d -> exists d0 d1, d = [d0; d1]).
  { intros P t0 d (_ & Hl & _). destruct d as [|d0 [|d1 [|]]]; try discriminate. eauto. }
  split; [destruct i as [|[|i]]; [reflexivity..|]; exfalso; inversion Hi as [|? H]; inversion H as [|? H']; inversion H'|].
  intros P t0 d Hm. destruct (Hd P t0 d Hm) as (d0 & d1 & ->). destruct Hm as (_ & _ & _ & Hj). destruct i as [|[|i]].
  - eapply derive_eq; [|exact (Hj 0%nat ltac:(cbn; auto))]. unfold dotr. cbn. ring.
  - eapply derive_eq; [|exact (Hj 1%nat ltac:(cbn; auto))]. unfold dotr. cbn. ring.
  - exfalso. inversion Hi as [|? H]; inversion H as [|? H']; inversion H'.
Qed.
Lemma ex_smooth p : smooth ex_structure p (ex_E 5).
Proof.
  repeat (constructor; [exact I|]; intros e He; cbn in He; repeat destruct He as [<-|He]; try contradiction);
  repeat (constructor; [exact I|]; intros e He; cbn in He; repeat destruct He as [<-|He]; try contradiction).
Qed.
Lemma ex_olds p : olds_ok p (ex_E 5).
Proof.
  repeat (constructor; [exact I|]; intros e He; cbn in He; repeat destruct He as [<-|He]; try contradiction);
  repeat (constructor; [exact I|]; intros e He; cbn in He; repeat destruct He as [<-|He]; try contradiction).
Qed.
Lemma ex_one n m : reachable ex_inputs [5%nat] n -> reachable ex_inputs [5%nat] m -> ex_kinds n = KVar -> ex_kinds m = KVar -> n = m.
Proof.
  intros _ _ Hn Hm.
  destruct n as [|n]; [|do 5 (destruct n as [|n]; [discriminate Hn|]); discriminate Hn].
  destruct m as [|m]; [reflexivity|]. do 5 (destruct m as [|m]; [discriminate Hm|]). discriminate Hm.
Qed.
Example gradient_is_derivative_case : forall x y, exists a,
  gradient ex_kinds ex_inputs (fun _ b => b) 7 ex_structure ex_jac 5 [x; y] = Ok a /\
  objective_function ex_kinds ex_inputs (fun _ b => b) 7 ex_structure 5 [x; y] = Ok (VS (x * (y * 1) + (3 + 0))) /\
  derivable_pt_lim (fun t => number (objective_function ex_kinds ex_inputs (fun _ b => b) 7 ex_structure 5 [t; y])) x (along a [1; 0]) /\
  along a [1; 0] = y.
Proof.
  intros x y.
  destruct (@gradient_is_derivative ex_kinds ex_inputs (fun _ b => b) 7 ex_structure ex_jac ex_E 5 [0; 1; 2; 3; 4; 5]%nat 2 [x; y]
    (fun _ b => Permutation_refl b) ex_unfolds ex_universe (le_n 7) ex_wf
    ltac:(intros n c Hn; unfold is_heavy, ex_kinds in Hn; do 6 (destruct n as [|n]; [discriminate|]); discriminate)
    ex_one (ex_param x y) (ex_smooth _) (ex_olds _) eq_refl) as (a & Ha & _ & Hd).
  exists a. split; [exact Ha|].
  assert (Hm : moves (fun t => [t; y]) x [x; y] [1; 0]).
  { split; [reflexivity|]. split; [reflexivity|]. split; [reflexivity|]. intros j Hj. destruct j as [|[|j]]; cbn.
    - apply derivable_pt_lim_id.
    - apply derivable_pt_lim_const.
    - exfalso. cbn in Hj. lia. }
  destruct (Hd _ _ _ Hm) as (Hn & H1).
  assert (Hv : forall t, objective_function ex_kinds ex_inputs (fun _ b => b) 7 ex_structure 5 [t; y] = Ok (VS (t * (y * 1) + (3 + 0)))).
  { intros t. apply (@objective_function_value ex_kinds ex_inputs (fun _ b => b) 7 ex_structure ex_E 5 [0; 1; 2; 3; 4; 5]%nat 2 [t; y] _
      (fun _ b => Permutation_refl b) ex_unfolds ex_universe (le_n 7) ex_wf).
    - intros n c Hh; unfold is_heavy, ex_kinds in Hh; do 6 (destruct n as [|n]; [discriminate|]); discriminate.
    - exact ex_one.
    - reflexivity. }
  split; [apply Hv|]. split; [exact H1|].
  eapply uniqueness_limite; [exact H1|]. eapply derive_ext; [intros t; rewrite Hv; reflexivity|]. cbn [number].
  eapply derive_eq; [|exact (derivable_pt_lim_plus _ _ _ _ _ (derivable_pt_lim_mult _ _ _ _ _ (derivable_pt_lim_id x) (derivable_pt_lim_const (y * 1) x)) (derivable_pt_lim_const (3 + 0) x))].
  cbv beta. unfold fct_cte, id. ring.
Qed.

(** Without smoothness the gradient can be missing although the objective is constant: [x ** 0] at
    [x = 0] has value 1 and no gradient (nan in numpy). *)
Theorem gradient_of_power_zero_refuted :
  ~ (forall x q, (exists s, forall u, near u (fun y => exists r, powf y q = Ok r) /\ derivable_pt_lim (fun y => real (powf y q)) u s) ->
     exists gs, grad_scalar (KPow q) [x] 1 = Ok gs).
Proof.
  intros H. destruct (H 0 0) as (gs & Hg).
  - assert (Hp : forall y, powf y 0 = Ok 1) by (intros y; exact (powf_nat y 0)).
    exists 0. intros u. split.
    + apply near_all. intros y. exists 1. apply Hp.
    + eapply derive_ext; [|apply (derivable_pt_lim_const 1)]. intros t. now rewrite Hp.
  - cbn [grad_scalar first bind] in Hg. unfold powf in Hg. destruct (Rlt_dec 0 0); [lra|]. destruct (Req_EM_T (0 - 1) (IZR (Int_part (0 - 1)))) as [He|Hne].
    + destruct (Req_EM_T 0 0); [|lra]. replace (0 - 1) with (IZR (-1)) in Hg by lra. rewrite Int_part_IZR in Hg. discriminate.
    + replace (0 - 1) with (IZR (-1)) in Hne by lra. rewrite Int_part_IZR in Hne. contradiction.
Qed.

(** ** C49: operators *)
Theorem operators_mean_arithmetic :
  forall structure p N f o, leaves (wf N) f -> no_array_product f -> build f = Ok o ->
  forall r, result structure p o = Ok r <-> meaning structure p f = Ok r.
Proof. intros structure p N f o Hl Hn Hb. exact (proj1 (@build_ok structure p N f o Hl Hn Hb)). Qed.

Theorem operators_gradient :
  forall kinds inputs ord fuel structure jac E out U N p f,
  (forall h b, Permutation (ord h b) b) -> unfolds kinds inputs E -> universe inputs [out] U -> (1 + length U <= fuel)%nat ->
  heavy_independent inputs (is_heavy kinds) ->
  (forall n m, reachable inputs [out] n -> reachable inputs [out] m -> kinds n = KVar -> kinds m = KVar -> n = m) ->
  leaves (fun e => wf N e /\ is_variable e = false) f -> no_array_product f -> build f = Ok (PObj (E out)) ->
  param_ok structure jac N p -> smooth structure p (E out) -> olds_ok p (E out) ->
  exists a, gradient kinds inputs ord fuel structure jac out p = Ok a /\
    forall P t0 d, moves P t0 p d ->
      near t0 (fun t => exists r, meaning structure (P t) f = Ok r /\
         objective_function kinds inputs ord fuel structure out (P t) = Ok (VS r)) /\
      derivable_pt_lim (fun t => real (meaning structure (P t) f)) t0 (along a d).
Proof. exact formula_gradient. Qed.

Theorem weighted_sum_value :
  forall structure p N ws es e xs, length ws = length es -> (forall x, In x es -> wf N x) ->
  weighted_sum ws es = Ok e -> Forall2 (fun e x => value structure p e = Ok (VS x)) es xs ->
  value structure p e = Ok (VS (dotr ws xs)).
Proof.
  intros structure p N ws es e xs Hl Hw He Hx.
  assert (H : bind (value structure p e) scalar = Ok (dotr ws xs)).
  { apply (@weighted_sum_ok structure p ws es e xs Hl); [|exact He|].
    - intros [k l] Hi. apply Hw in Hi. destruct k; try exact I. inversion Hi; subst. assumption.
    - eapply Forall2_impl; [|exact Hx]. intros a b Hab. unfold lv. now rewrite Hab. }
  destruct (value structure p e) as [[r|l]|]; [|discriminate|discriminate]. cbn in H. congruence.
Qed.

(** x0 - 2 * x0 ** 2 *)
Example operators_case : exists o,
  build (FSub (FObj (ex_E 1)) (FMul (FNum 2) (FPow (FObj (ex_E 1)) (FNum 2)))) = Ok o /\
  meaning ex_structure [3; 5] (FSub (FObj (ex_E 1)) (FMul (FNum 2) (FPow (FObj (ex_E 1)) (FNum 2)))) = Ok (-15) /\
  result ex_structure [3; 5] o = Ok (-15).
Proof.
  eexists. split; [reflexivity|].
  assert (Hm : meaning ex_structure [3; 5] (FSub (FObj (ex_E 1)) (FMul (FNum 2) (FPow (FObj (ex_E 1)) (FNum 2)))) = Ok (-15)).
  { cbn -[powf]. replace (powf 3 2) with (@Ok R (3 ^ 2)) by (symmetry; exact (powf_nat 3 2)). cbn. f_equal. ring. }
  split; [exact Hm|].
  assert (HV : wf 2 (ex_E 1)).
  { constructor; [cbn; split; [reflexivity|]; split; [auto|]; eauto|]. intros e [<-|[]]. constructor; [reflexivity|intros e []]. }
  refine (proj2 (@operators_mean_arithmetic ex_structure [3; 5] 2 (FSub (FObj (ex_E 1)) (FMul (FNum 2) (FPow (FObj (ex_E 1)) (FNum 2)))) _ _ _ eq_refl (-15)) Hm).
  - cbn [leaves]. auto.
  - cbn [no_array_product]. auto.
Qed.

(** Multiplying by an array adds it. *)
Theorem array_product_refuted :
  ~ (forall structure p N f o r, leaves (wf N) f -> build f = Ok o -> meaning structure p f = Ok r -> result structure p o = Ok r).
Proof.
  intros H.
  assert (HV : wf 2 (ex_E 1)).
  { constructor; [cbn; split; [reflexivity|]; split; [auto|]; eauto|]. intros e [<-|[]]. constructor; [reflexivity|intros e []]. }
  destruct (@array_product ex_structure [3; 5] (ex_E 1) 3 5 I eq_refl) as (o & Hb & Hr & Hm).
  rewrite (H ex_structure [3; 5] 2%nat (FMulArr (FObj (ex_E 1)) 5) o _ HV Hb Hm) in Hr. inversion Hr. lra.
Qed.
(** always so for objectives that are neither products nor constants. *)
Theorem array_product_adds :
  forall structure p e x a, (match e with Node KProd _ => False | Node (KConst _) _ => False | _ => True end) ->
  bind (value structure p e) scalar = Ok x ->
  exists o, build (FMulArr (FObj e) a) = Ok o /\ result structure p o = Ok (x + a) /\ meaning structure p (FMulArr (FObj e) a) = Ok (x * a).
Proof. exact array_product. Qed.

(** ** C48: smooth maximum *)
Theorem log_sum_exp_bounds :
  forall l, l <> [] -> exists v, eval_scalar KLse l = Ok v /\ (forall y, In y l -> y <= v) /\
  exists m, In m l /\ (forall y, In y l -> y <= m) /\ v <= m + ln (INR (length l)).
Proof. exact lse_bounds. Qed.
Theorem log_sum_exp_weights :
  forall l g, l <> [] -> exists ws, grad_scalar KLse l g = Ok (map (fun w => g * w) ws) /\
  length ws = length l /\ (forall w, In w ws -> 0 < w <= 1) /\ rsum ws = 1.
Proof. exact lse_grad. Qed.
Theorem softmax_average_bounds :
  forall l lo hi, l <> [] -> (forall y, In y l -> lo <= y <= hi) -> exists v, eval_scalar KSoft l = Ok v /\ lo <= v <= hi.
Proof. exact soft_bounds. Qed.
Example log_sum_exp_case : exists v, eval_scalar KLse [2; 2] = Ok v /\ 2 <= v <= 2 + ln 2 /\ v = 2 + ln 2.
Proof.
  eexists. split; [reflexivity|]. unfold rmax. cbn [fold_left]. rewrite Rmax_left by lra. cbn [map].
  replace (2 - 2) with 0 by ring. rewrite exp_0. unfold rsum. cbn [fold_right]. replace (1 + (1 + 0)) with 2 by ring.
  assert (H : 0 < ln 2) by (rewrite <- ln_1; apply ln_increasing; lra). split; [lra|reflexivity].
Qed.
Example softmax_average_case : exists v, eval_scalar KSoft [1; 4] = Ok v /\ 1 <= v <= 4.
Proof. apply softmax_average_bounds; [discriminate|]. intros y [<-|[<-|[]]]; lra. Qed.

Print Assumptions objective_function_value.
Print Assumptions gradient_is_derivative.
Print Assumptions two_variables_rejected.
Print Assumptions class_partials.
Print Assumptions gradient_of_power_zero_refuted.
Print Assumptions operators_mean_arithmetic.
Print Assumptions operators_gradient.
Print Assumptions weighted_sum_value.
Print Assumptions array_product_refuted.
Print Assumptions array_product_adds.
Print Assumptions log_sum_exp_bounds.
Print Assumptions log_sum_exp_weights.
Print Assumptions softmax_average_bounds.
