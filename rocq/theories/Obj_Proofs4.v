(** The executor computes values and gradients of expressions. *)
From Verif Require Import Base GraphExec_Model GraphExec_Spec GraphExec_Proofs GraphExec_Proofs2
  Obj_Model Obj_Spec Obj_Proofs Obj_Proofs2 Obj_Proofs3.
From Coq Require Import Reals ZArith Lra Psatz Relations.
Set Implicit Arguments.
Local Open Scope R_scope.

(** ** Lists of numbers *)
Lemma map_nth_seq (l : list R) : map (fun j => nth j l 0) (seq 0 (length l)) = l.
Proof.
  induction l as [|x l IH]; cbn [length seq map]; [reflexivity|]. f_equal.
  rewrite <- seq_shift, map_map. exact IH.
Qed.
Lemma dotr_map_plus {A} (f h : A -> R) l : forall d, dotr (map (fun x => f x + h x) l) d = dotr (map f l) d + dotr (map h l) d.
Proof. induction l as [|x l IH]; intros [|d ds]; cbn [map]; try (unfold dotr; cbn; ring). rewrite !dotr_cons, IH. ring. Qed.
Lemma dotr_zero {A} (l : list A) : forall d, dotr (map (fun _ => 0) l) d = 0.
Proof. induction l as [|x l IH]; intros [|d ds]; cbn [map]; try reflexivity. rewrite dotr_cons, IH. ring. Qed.
Lemma dotr_rows m (d : list R) ls : Forall (fun r => length r = m) ls ->
  dotr (map (fun j => rsum (map (fun r => nth j r 0) ls)) (seq 0 m)) d = rsum (map (fun r => dotr r d) ls).
Proof.
  induction 1 as [|r ls Hr _ IH]; cbn [map].
  - apply dotr_zero.
  - rewrite rsum_cons, <- IH.
    replace (dotr r d) with (dotr (map (fun j => nth j r 0) (seq 0 m)) d) by (now rewrite <- Hr, map_nth_seq).
    exact (dotr_map_plus (fun j => nth j r 0) (fun j => rsum (map (fun r => nth j r 0) ls)) (seq 0 m) d).
Qed.
Lemma dotr_vec_mat m (d : list R) l : forall J, Forall (fun r => length r = m) J ->
  dotr (map (fun j => rsum (map (fun xr => fst xr * nth j (snd xr) 0) (combine l J))) (seq 0 m)) d
  = dotr l (map (fun row => dotr row d) J).
Proof.
  induction l as [|x l IH]; intros J HJ; cbn [combine map].
  - rewrite dotr_nil_l. apply dotr_zero.
  - destruct HJ as [|r J Hr HJ]; cbn [combine map]; [unfold dotr at 2; cbn; apply dotr_zero|].
    rewrite dotr_cons, <- (IH J HJ). 
    replace (x * dotr r d) with (dotr (map (fun j => x * nth j r 0) (seq 0 m)) d)
      by (rewrite <- (map_map (fun j => nth j r 0) (fun y => x * y)), <- Hr, map_nth_seq; apply dotr_scale).
    exact (dotr_map_plus (fun j => x * nth j r 0) (fun j => rsum (map (fun xr => fst xr * nth j (snd xr) 0) (combine l J))) (seq 0 m) d).
Qed.
Lemma one_hot_length n i r : length (one_hot n i r) = n.
Proof. unfold one_hot. now rewrite map_length, seq_length. Qed.
Lemma dotr_one_hot_from i r (tv : list R) : forall a, dotr (map (fun j => if Nat.eqb j i then r else 0) (seq a (length tv))) tv
  = if Nat.leb a i then r * nth (i - a) tv 0 else 0.
Proof.
  induction tv as [|x tv IH]; intros a; cbn [length seq map].
  - unfold dotr. cbn. destruct (Nat.leb a i); [|reflexivity]. destruct (i - a)%nat; ring.
  - rewrite dotr_cons, IH. destruct (Nat.eqb_spec a i) as [->|Hn].
    + rewrite Nat.leb_refl, Nat.sub_diag. destruct (Nat.leb_spec (S i) i); [lia|]. cbn [nth]. ring.
    + destruct (Nat.leb_spec a i), (Nat.leb_spec (S a) i); try lia; [|ring].
      replace (i - a)%nat with (S (i - S a)) by lia. cbn [nth]. ring.
Qed.
Lemma dotr_one_hot n i r tv : length tv = n -> dotr (one_hot n i r) tv = r * nth i tv 0.
Proof. intros <-. unfold one_hot. rewrite dotr_one_hot_from. cbn [Nat.leb]. now rewrite Nat.sub_0_r. Qed.
Lemma map_plus_0 l : map (fun y => 0 + y) l = l.
Proof. rewrite <- (map_id l) at 2. apply map_ext. intros; ring. Qed.
Lemma dotr_vadd l : forall l' d, length l = length l' ->
  dotr (map (fun xy => fst xy + snd xy) (combine l l')) d = dotr l d + dotr l' d.
Proof.
  induction l as [|x l IH]; intros [|y l'] d H; try discriminate; cbn [combine map]; [unfold dotr; cbn; ring|].
  destruct d as [|z d]; [unfold dotr; cbn; ring|]. rewrite !dotr_cons, IH by (cbn in H; lia). cbn [fst snd]. ring.
Qed.

Lemma NoDup_suffix {A} (l l' : list A) : NoDup (l ++ l') -> NoDup l'.
Proof. induction l as [|x l IH]; cbn; [auto|]. intros H. inversion H; auto. Qed.

(** ** The store *)
Fixpoint esize (e : expr) : nat :=
  match e with Node _ l => S ((fix go l := match l with [] => 0 | x :: l' => esize x + go l' end) l)%nat end.
Lemma esize_child k l e : In e l -> (esize e < esize (Node k l))%nat.
Proof.
  intros H. cbn [esize]. apply le_n_S. induction l as [|x l IH]; [destruct H|].
  destruct H as [->|H]; [lia|]. apply IH in H. lia.
Qed.
Lemma unfolds_dag kinds inputs E : unfolds kinds inputs E -> dag inputs.
Proof.
  intros HE. assert (H : forall n c, clos_trans nat (depends inputs) n c -> (esize (E c) < esize (E n))%nat).
  { induction 1 as [n c H|n m c _ IH1 _ IH2]; [|lia]. rewrite (HE n). apply esize_child. now apply in_map. }
  intros n Hn. apply H in Hn. lia.
Qed.

Section Store.
Variable kinds : nat -> kind.
Variable inputs : nat -> list nat.
Variable ord : list nat -> list nat -> list nat.
Hypothesis Hord : forall h b, Permutation (ord h b) b.
Variable fuel : nat.
Variable structure : list R -> list R.
Variable jac : list R -> list (list R).
Variable E : nat -> expr.
Hypothesis HE : unfolds kinds inputs E.
Variable out : nat.
Variable U : list nat.
Hypothesis HU : universe inputs [out] U.
Hypothesis Hfuel : (1 + length U <= fuel)%nat.
Variable N : nat.
Hypothesis Hwf : wf N (E out).
Hypothesis Hheavy : heavy_independent inputs (is_heavy kinds).
Hypothesis Hone : forall n m, reachable inputs [out] n -> reachable inputs [out] m ->
  kinds n = KVar -> kinds m = KVar -> n = m.

Notation reach := (reachable inputs [out]).
Notation value := (value structure).
Notation rval := (rval structure).

Lemma reach_out : reach out.
Proof. exists out. split; [now left|apply rt_refl]. Qed.
Lemma reach_ind (Q : expr -> Prop) : Q (E out) -> (forall k l e, Q (Node k l) -> In e l -> Q e) -> forall n, reach n -> Q (E n).
Proof.
  intros H0 Hs n (o & [<-|[]] & Hr). apply clos_rt_rtn1 in Hr. induction Hr as [|m n Hm _ IH]; [assumption|].
  rewrite (HE m) in IH. apply (Hs _ _ (E n) IH). now apply in_map.
Qed.
Lemma reach_wf n : reach n -> wf N (E n).
Proof. apply reach_ind; [exact Hwf|]. intros k l e H Hi. inversion H; subst; auto. Qed.
Lemma var_E n : is_variable (E n) = is_var kinds n.
Proof. rewrite HE. unfold is_var. cbn. now destruct (kinds n). Qed.
Lemma is_var_KVar n : is_var kinds n = true <-> kinds n = KVar.
Proof. unfold is_var. destruct (kinds n); split; congruence. Qed.

Section At.
Variable q : list R.
Definition fn := (fun n ivs => keval q (kinds n) ivs).

Lemma known_vals_spec g : NoDup (keys g) -> (forall n, In n (keys g) <-> reach n) ->
  exists d, known_vals kinds structure g q = Ok d /\ forall n, d n = if memb n (keys g) then (if is_var kinds n then Some (VV (structure q)) else None) else None.
Proof.
  intros Hnd Hr. unfold known_vals.
  assert (Hin : forall n, In n (filter (is_var kinds) (keys g)) <-> reach n /\ kinds n = KVar).
  { intros n. rewrite filter_In, is_var_KVar, Hr. tauto. }
  assert (Hnd' : NoDup (filter (is_var kinds) (keys g))) by now apply NoDup_filter.
  destruct (filter (is_var kinds) (keys g)) as [|v [|w vs]].
  - exists dempty. split; [reflexivity|]. intros n. unfold dempty. destruct (memb n (keys g)) eqn:Em; [|reflexivity].
    destruct (is_var kinds n) eqn:Ev; [|reflexivity]. exfalso. apply (Hin n). split; [apply Hr; now apply memb_In|now apply is_var_KVar].
  - eexists. split; [reflexivity|]. intros n. unfold dset, dempty. destruct (Nat.eqb_spec n v) as [->|Hne].
    + destruct (proj1 (Hin v) (or_introl eq_refl)) as (H1 & H2). rewrite (proj2 (memb_In v (keys g))) by now apply Hr.
      now rewrite (proj2 (is_var_KVar v)).
    + destruct (memb n (keys g)) eqn:Em; [|reflexivity]. destruct (is_var kinds n) eqn:Ev; [|reflexivity].
      exfalso. assert (Hi : In n [v]) by (apply (Hin n); split; [apply Hr; now apply memb_In|now apply is_var_KVar]).
      destruct Hi as [->|[]]. congruence.
  - exfalso. destruct (proj1 (Hin v) (or_introl eq_refl)) as (H1 & H2).
    destruct (proj1 (Hin w) (or_intror (or_introl eq_refl))) as (H3 & H4).
    assert (v = w) by now apply Hone. subst w. inversion Hnd' as [|? ? Hx _]. apply Hx. now left.
Qed.

(** The recursive meaning of a node is the value of its expression. *)
Variable d : dict val.
Hypothesis Hd : forall n, reach n -> d n = if is_var kinds n then Some (VV (structure q)) else None.

Lemma den_value_aux sz : forall n v, (esize (E n) < sz)%nat -> reach n -> value q (E n) = Ok v -> Den inputs fn d n v.
Proof.
  induction sz as [|sz IH]; intros n v Hsz Hr Hv; [lia|].
  destruct (is_var kinds n) eqn:Ev.
  - assert (Hk := proj1 (is_var_KVar n) Ev). rewrite HE, Hk in Hv. cbn in Hv. inversion Hv; subst.
    apply Den_override. rewrite Hd by assumption. now rewrite Ev.
  - assert (Hk : kinds n <> KVar) by (intros H; apply is_var_KVar in H; congruence).
    rewrite HE in Hv. rewrite value_node in Hv by assumption.
    destruct (mapM (value q) (map E (inputs n))) as [ivs|] eqn:Em; [|discriminate]. cbn [bind] in Hv.
    apply Den_eval with ivs; [rewrite Hd by assumption; now rewrite Ev| |exact Hv].
    apply mapM_ok_Forall2 in Em.
    assert (Hc : forall c, In c (inputs n) -> reach c /\ (esize (E c) < sz)%nat).
    { intros c Hc. split; [now apply reachable_step with n|]. rewrite (HE n) in Hsz.
      assert (Hx := esize_child (kinds n) (map E (inputs n)) (E c) (in_map E _ _ Hc)). lia. }
    clear - IH Em Hc. revert ivs Em. induction (inputs n) as [|c cs IHc]; intros ivs Em; cbn [map] in Em; inversion Em; subst; constructor.
    + apply IH; auto; apply Hc; now left.
    + apply IHc; auto. intros c' Hc'. apply Hc. now right.
Qed.
Lemma den_value n v : reach n -> value q (E n) = Ok v -> Den inputs fn d n v.
Proof. apply (@den_value_aux (S (esize (E n)))). lia. Qed.

Lemma value_child k l e v : value q (Node k l) = Ok v -> k <> KVar -> In e l -> exists w, value q e = Ok w.
Proof.
  intros Hv Hk He. rewrite value_node in Hv by assumption. destruct (mapM (value q) l) as [ivs|] eqn:Em; [|discriminate].
  clear Hv. revert ivs Em. induction l as [|x l IH]; intros ivs Em; [destruct He|]. cbn [mapM] in Em.
  destruct (value q x) as [w|] eqn:Ex; [|discriminate]. cbn [bind] in Em.
  destruct (mapM (value q) l) as [ws|]; [|discriminate]. destruct He as [->|He]; [now exists w|]. now apply IH with ws.
Qed.
Hypothesis Hval : exists v, value q (E out) = Ok v.
Lemma reach_value n : reach n -> exists v, value q (E n) = Ok v.
Proof.
  intros Hr. assert (H : wf N (E n) /\ exists v, value q (E n) = Ok v).
  { apply (@reach_ind (fun e => wf N e /\ exists v, value q e = Ok v)); [split; [exact Hwf|exact Hval]| |exact Hr].
    intros k l e (Hw & v & Hv) He. inversion Hw as [k' l' Hs Hc]; subst. split; [now apply Hc|].
    apply (@value_child k l e v); auto. intros ->. cbn in Hs. subst l. destruct He. }
  apply H.
Qed.
End At.

(** forward pass *)
Lemma forward q : (exists v, value q (E out) = Ok v) ->
  exists g sched st vals,
    build_graph inputs fuel [out] = Ok g /\ top_sort g (is_heavy kinds) ord = Ok sched /\
    NoDup (keys g) /\ (forall n, In n (keys g) <-> reach n) /\ (forall n, In n (keys g) -> adj g n = inputs n) /\
    Permutation sched (keys g) /\ order_ok g sched /\
    known_vals kinds structure g q = Ok st /\
    eval_fun_vals g (is_heavy kinds) (fn q) sched st = Ok vals /\
    (forall n, reach n -> exists v, vals n = Some v /\ value q (E n) = Ok v).
Proof.
  intros Hv. assert (Hdag := unfolds_dag HE).
  destruct (@schedule_exists val inputs (fn q) (is_heavy kinds) ord Hord [out] U HU Hdag fuel Hfuel) as (g & sched & Hg & Hs & Hnd & Hr & Ha & HP & Ho).
  destruct (@known_vals_spec q g Hnd Hr) as (d & Hkv & Hd).
  assert (Hd' : forall n, reach n -> d n = if is_var kinds n then Some (VV (structure q)) else None).
  { intros n Hn. rewrite Hd. now rewrite (proj2 (memb_In n (keys g))) by now apply Hr. }
  assert (Hden : forall n, reach n -> exists v, Den inputs (fn q) d n v).
  { intros n Hn. destruct (@reach_value q Hv n Hn) as (v & Hvn). exists v. now apply (@den_value q d Hd'). }
  assert (Hov : forall n, is_heavy kinds n = true -> d n = None).
  { intros n Hn. rewrite Hd. destruct (memb n (keys g)); [|reflexivity]. unfold is_heavy in Hn. unfold is_var. now destruct (kinds n). }
  destruct (@forward_complete val inputs (fn q) (is_heavy kinds) ord Hord [out] U HU Hdag fuel Hfuel d Hov Hden Hheavy)
    as (g' & sched' & vals & Hg' & Hs' & _ & _ & _ & _ & _ & He & Hvals).
  rewrite Hg in Hg'. inversion Hg'; subst g'. rewrite Hs in Hs'. inversion Hs'; subst sched'.
  exists g, sched, d, vals. repeat (split; [assumption|]).
  intros n Hn. destruct (Hvals n Hn) as (v & H1 & H2). exists v. split; [assumption|].
  destruct (@reach_value q Hv n Hn) as (w & Hw). rewrite Hw. f_equal.
  apply (@Den_det val inputs (fn q) d n w); [|assumption]. now apply (@den_value q d Hd').
Qed.

Lemma objective_value q v : value q (E out) = Ok v ->
  objective_function kinds inputs ord fuel structure out q = Ok v.
Proof.
  intros Hv. destruct (@forward q (ex_intro _ v Hv)) as (g & sched & st & vals & Hg & Hs & _ & _ & _ & _ & _ & Hk & He & Hvals).
  unfold objective_function. rewrite Hg. cbn [bind]. rewrite Hs. cbn [bind]. rewrite Hk. cbn [bind].
  change (fun n ivs => keval q (kinds n) ivs) with (fn q). rewrite He. cbn [bind].
  destruct (Hvals out reach_out) as (w & H1 & H2). unfold dget. rewrite H1. congruence.
Qed.

(** ** Backward pass *)
Section Back.
Variable p d : list R.
Hypothesis Hpar : param_ok structure jac N p.
Hypothesis Hsm : smooth structure p (E out).
Hypothesis Hol : olds_ok p (E out).
Hypothesis Hnv : is_variable (E out) = false.
Hypothesis Hdlen : length d = length p.
Hypothesis Hvout : exists v, value p (E out) = Ok v.
Variable g : graph.
Variable vals : dict val.
Hypothesis Hr : forall n, In n (keys g) <-> reach n.
Hypothesis Hadj : forall n, In n (keys g) -> adj g n = inputs n.
Hypothesis Hndk : NoDup (keys g).
Hypothesis Hvals : forall n, reach n -> exists v, vals n = Some v /\ value p (E n) = Ok v.

Notation sl := (fun n => slope structure jac p d (E n)).
Definition tv : list R := map (fun row => dotr row d) (jac p).
Lemma tv_length : length tv = N.
Proof. unfold tv. rewrite map_length. apply Hpar. Qed.
Lemma tv_nth i : (i < N)%nat -> nth i tv 0 = dotr (nth i (jac p) []) d.
Proof.
  intros Hi. unfold tv. destruct Hpar as (_ & HJ & _).
  rewrite (nth_indep _ 0 (dotr [] d)) by now rewrite map_length, HJ. apply (map_nth (fun row => dotr row d)).
Qed.

Definition gval (o : option grad) : R := match o with Some (GS r) => r | _ => 0 end.
Definition galong (o : option grad) : R := match o with Some a => along a tv | None => 0 end.
Definition phi (rest : list nat) (grads : dict grad) (olds : list (list R)) : R :=
  rsum (map (fun n => gval (grads n) * sl n) rest)
  + rsum (map (fun v => galong (grads v)) (filter (is_var kinds) (keys g)))
  + rsum (map (fun o => dotr o d) olds).

Definition typed (grads : dict grad) : Prop :=
  forall n, In n (keys g) ->
    (is_var kinds n = false -> exists r, grads n = Some (GS r)) /\
    (is_var kinds n = true -> grads n = Some (GS 0) \/ exists l, grads n = Some (GV l) /\ length l = N).
Definition got (rest : list nat) (grads : dict grad) : Prop :=
  forall v m, is_var kinds v = true -> In m (keys g) -> In v (inputs m) -> ~ In m rest ->
    exists l, grads v = Some (GV l) /\ length l = N.
Definition Inv (rest : list nat) (st : dict grad * list (list R)) : Prop :=
  typed (fst st) /\ got rest (fst st) /\ Forall (fun o => length o = length p) (snd st) /\
  phi rest (fst st) (snd st) = sl out.

Lemma key_closed n c : In n (keys g) -> In c (inputs n) -> In c (keys g).
Proof. intros Hn Hc. apply Hr. apply reachable_step with n; [now apply Hr|assumption]. Qed.
Lemma inputs_vals n : In n (keys g) -> exists ivs, get_inputs g vals n = Ok ivs /\ mapM (value p) (map E (inputs n)) = Ok ivs.
Proof.
  intros Hn. unfold get_inputs. rewrite Hadj by assumption.
  assert (H : forall c, In c (inputs n) -> reach c) by (intros c Hc; apply Hr; now apply key_closed with n).
  clear - H Hvals. induction (inputs n) as [|c cs IH]; cbn [map mapM]; [now exists []|].
  destruct (@Hvals c (H c (or_introl eq_refl))) as (v & H1 & H2). destruct IH as (ivs & I1 & I2); [intros c' Hc'; apply H; now right|].
  unfold dget at 1. rewrite H1, H2. cbn [bind]. rewrite I1, I2. cbn [bind]. now exists (v :: ivs).
Qed.
Lemma reach_smooth n : reach n -> smooth structure p (E n).
Proof. apply reach_ind; [exact Hsm|]. intros k l e H Hi. inversion H; subst; auto. Qed.
Lemma reach_olds n : reach n -> olds_ok p (E n).
Proof. apply reach_ind; [exact Hol|]. intros k l e H Hi. inversion H; subst; auto. Qed.
Lemma sl_var n : is_var kinds n = true -> sl n = 0.
Proof. intros H. apply is_var_KVar in H. cbn beta. rewrite HE, H. reflexivity. Qed.

(** adding numbers to the gradients of scalar nodes *)
Lemma rsum_update (f f' : nat -> R) c x l : NoDup l -> In c l -> f' c = f c + x -> (forall n, n <> c -> f' n = f n) ->
  rsum (map f' l) = rsum (map f l) + x.
Proof.
  intros Hnd Hc Hx Hf. induction l as [|n l IH]; [destruct Hc|]. inversion Hnd; subst. cbn [map]. rewrite !rsum_cons.
  destruct Hc as [->|Hc].
  - rewrite Hx. rewrite (rsum_ext f' f l); [ring|]. intros m Hm. apply Hf. intros ->. contradiction.
  - rewrite IH by assumption. rewrite (Hf n) by (intros ->; contradiction). ring.
Qed.
Lemma rsum_same (f f' : nat -> R) l : (forall n, In n l -> f' n = f n) -> rsum (map f' l) = rsum (map f l).
Proof. intros H. now apply rsum_ext. Qed.

Lemma add_all_scalar cs : forall ws grads rest olds,
  length ws = length cs -> NoDup rest -> incl cs rest -> incl cs (keys g) -> (forall c, In c cs -> is_var kinds c = false) -> typed grads ->
  exists grads', add_all cs (map GS ws) grads = Ok grads' /\ typed grads' /\
    (forall m, ~ In m cs -> grads' m = grads m) /\
    phi rest grads' olds = phi rest grads olds + dotr ws (map sl cs).
Proof.
  induction cs as [|c cs IH]; intros [|w ws] grads rest olds Hl Hnd Hi Hik Hv Ht; try discriminate Hl.
  - exists grads. cbn [add_all map]. rewrite dotr_nil_l, Rplus_0_r. auto.
  - cbn [map add_all]. assert (Hck : In c (keys g)) by (apply Hik; now left).
    assert (Hcv : is_var kinds c = false) by (apply Hv; now left).
    destruct (proj1 (Ht c Hck) Hcv) as (r & Hc). unfold dget. rewrite Hc. cbn [bind gadd].
    set (g1 := dset grads c (GS (r + w))).
    assert (Ht1 : typed g1).
    { intros n Hn. unfold g1, dset. destruct (Nat.eqb_spec n c) as [->|Hne]; [|now apply Ht].
      split; [intros _; now eexists|congruence]. }
    destruct (IH ws g1 rest olds) as (g2 & H1 & H2 & H3 & H4); auto.
    { intros y Hy. apply Hi. now right. } { intros y Hy. apply Hik. now right. } { intros y Hy. apply Hv. now right. }
    exists g2. split; [exact H1|]. split; [exact H2|]. split.
    + intros m Hm. rewrite H3 by (intros H; apply Hm; now right). unfold g1. apply dset_other. intros ->. apply Hm. now left.
    + rewrite H4, dotr_cons. unfold phi.
      rewrite (@rsum_update (fun n => gval (grads n) * sl n) (fun n => gval (g1 n) * sl n) c (w * sl c) rest); auto.
      * rewrite (@rsum_same (fun v => galong (grads v)) (fun v => galong (g1 v))); [ring|].
        intros n Hn. apply filter_In in Hn as (_ & Hn). unfold g1. rewrite dset_other; [reflexivity|]. intros ->. congruence.
      * apply Hi. now left.
      * unfold g1. rewrite dset_same, Hc. cbn [gval]. ring.
      * intros n Hn. unfold g1. now rewrite dset_other.
Qed.

(** a slice adds to the gradient of the variable *)
Lemma add_slice v i r grads rest olds : In v (keys g) -> is_var kinds v = true -> (i < N)%nat -> typed grads ->
  exists grads' l, add_all [v] [GV (one_hot N i r)] grads = Ok grads' /\ typed grads' /\
    (forall m, m <> v -> grads' m = grads m) /\ grads' v = Some (GV l) /\ length l = N /\
    phi rest grads' olds = phi rest grads olds + r * nth i tv 0.
Proof.
  intros Hk Hv Hi Ht. cbn [add_all]. unfold dget.
  assert (Hex : exists l, (exists a, grads v = Some a /\ gadd a (GV (one_hot N i r)) = Ok (GV l)) /\ length l = N /\
     dotr l tv = galong (grads v) + r * nth i tv 0).
  { destruct (proj2 (Ht v Hk) Hv) as [H|(l & H & Hl)]; rewrite H.
    - exists (one_hot N i r). split; [exists (GS 0); split; [reflexivity|]; cbn [gadd]; now rewrite map_plus_0|].
      split; [apply one_hot_length|]. rewrite dotr_one_hot by apply tv_length. cbn [galong along]. ring.
    - exists (map (fun xy => fst xy + snd xy) (combine l (one_hot N i r))). split.
      + exists (GV l). split; [reflexivity|]. cbn [gadd]. rewrite one_hot_length, Hl, Nat.eqb_refl. reflexivity.
      + split; [rewrite map_length, combine_length, one_hot_length, Hl; apply Nat.min_id|].
        rewrite dotr_vadd by now rewrite one_hot_length. rewrite dotr_one_hot by apply tv_length. reflexivity. }
  destruct Hex as (l & (a & Ha & Hg) & Hl & Hd). rewrite Ha. cbn [bind]. rewrite Hg. cbn [bind].
  exists (dset grads v (GV l)), l. split; [reflexivity|]. split; [|split; [|split; [|split]]]; auto.
  - intros n Hn. unfold dset. destruct (Nat.eqb_spec n v) as [->|Hne]; [|now apply Ht]. split; [congruence|]. intros _. right. now exists l.
  - intros m Hm. now apply dset_other.
  - apply dset_same.
  - unfold phi.
    rewrite (@rsum_same (fun n => gval (grads n) * sl n) (fun n => gval (dset grads v (GV l) n) * sl n)).
    + rewrite (@rsum_update (fun v => galong (grads v)) (fun n => galong (dset grads v (GV l) n)) v (r * nth i tv 0)); [ring| | | |].
      * now apply NoDup_filter.
      * now apply filter_In.
      * rewrite dset_same. cbn [galong along]. exact Hd.
      * intros n Hn. now rewrite dset_other.
    + intros n _. unfold dset. destruct (Nat.eqb_spec n v) as [->|]; [|reflexivity]. rewrite (@sl_var v Hv). ring.
Qed.

Lemma phi_cons n rest grads olds : phi (n :: rest) grads olds = gval (grads n) * sl n + phi rest grads olds.
Proof. unfold phi. cbn [map]. rewrite rsum_cons. ring. Qed.
Lemma got_same n rest grads : (forall v, In v (inputs n) -> is_var kinds v = false) -> got (n :: rest) grads -> got rest grads.
Proof.
  intros Hn Hg v m Hv Hm Hi Hnr. apply (Hg v m); auto. intros [->|H]; [|contradiction]. apply Hn in Hi. congruence.
Qed.

(** one node *)
Lemma step_old n fn gr rest grads olds : kinds n = KOld fn gr -> In n (keys g) -> Inv (n :: rest) (grads, olds) ->
  exists r, grads n = Some (GS r) /\ Inv rest (grads, olds ++ [map (fun x => r * x) (gr p)]).
Proof.
  intros Hk Hn (Ht & Hg & Ho & Hp). cbn [fst snd] in *.
  destruct (proj1 (Ht n Hn)) as (r & Hrn); [unfold is_var; now rewrite Hk|]. exists r. split; [assumption|].
  assert (Hin : inputs n = []).
  { assert (Hw := @reach_wf n (proj1 (Hr n) Hn)). rewrite HE in Hw. inversion Hw as [k l Hs _]; subst. rewrite Hk in Hs. cbn in Hs. now apply map_eq_nil in Hs. }
  assert (Hgr : is_gradient fn p (gr p)).
  { assert (Hw := @reach_olds n (proj1 (Hr n) Hn)). rewrite HE in Hw. inversion Hw as [k l Hs _]; subst. rewrite Hk in Hs. exact Hs. }
  split; [exact Ht|]. split; [cbn [fst]; apply (@got_same n); [rewrite Hin; intros v []|assumption]|]. split; cbn [fst snd].
  - apply Forall_app. split; [assumption|]. constructor; [|constructor]. rewrite map_length. apply Hgr.
  - rewrite <- Hp, phi_cons, Hrn. cbn [gval]. unfold phi. rewrite map_app. cbn [map].
    assert (Hs : forall a b, rsum (a ++ [b]) = rsum a + b).
    { clear. induction a as [|x a IH]; intros b; cbn [app]; [cbn; ring|]. rewrite !rsum_cons, IH. ring. }
    rewrite Hs, dotr_scale. cbn beta. rewrite (HE n). rewrite Hk. cbn [slope]. ring.
Qed.

Lemma step n rest grads olds : In n (keys g) -> is_old kinds n = false -> NoDup (n :: rest) -> incl (inputs n) rest ->
  Inv (n :: rest) (grads, olds) ->
  exists ivs a gs grads', get_inputs g vals n = Ok ivs /\ dget grads n = Ok a /\ kgrad (kinds n) ivs a = Ok gs /\
    add_all (adj g n) gs grads = Ok grads' /\ Inv rest (grads', olds) /\ (forall m, ~ In m (inputs n) -> grads' m = grads m).
Proof.
  intros Hn Hold Hnd Hi (Ht & Hg & Ho & Hp). cbn [fst snd] in *. inversion Hnd as [|? ? Hnr Hnd']; subst.
  destruct (@inputs_vals n Hn) as (ivs & Hiv & Hvm). rewrite (@Hadj n Hn). rewrite phi_cons in Hp.
  assert (Hw := @reach_wf n (proj1 (Hr n) Hn)). rewrite HE in Hw. inversion Hw as [k l Hs Hwc]; subst k l.
  assert (Hgetn : exists a, dget grads n = Ok a /\ grads n = Some a).
  { unfold dget. destruct (is_var kinds n) eqn:Ev.
    - destruct (proj2 (Ht n Hn) Ev) as [->|(l & -> & _)]; now eexists.
    - destruct (proj1 (Ht n Hn) Ev) as (r & ->). now eexists. }
  destruct Hgetn as (a & Hga & Hna).
  destruct (kind_cases (kinds n)) as [Hk|[(c & Hc)|[(i & sh & Hk)|[(fn & gr & Hk)|Hk]]]].
  - (* Variable *)
    rewrite Hk in *. cbn [shape_ok] in Hs. apply map_eq_nil in Hs. rewrite Hs in *.
    exists ivs, a, [], grads. cbn [kgrad add_all]. repeat (split; [easy|]). split; [|auto].
    split; [exact Ht|]. split; [apply (@got_same n); [rewrite Hs; intros v []|assumption]|]. split; [assumption|]. cbn [fst snd].
    rewrite sl_var in Hp by now apply is_var_KVar. rewrite <- Hp. ring.
  - (* constants *)
    assert (Hnil : inputs n = []) by (destruct Hc as [Hc|Hc]; rewrite Hc in Hs; cbn [shape_ok] in Hs; now apply map_eq_nil in Hs).
    rewrite Hnil. exists ivs, a, [GS 0], grads. split; [assumption|]. split; [assumption|].
    split; [destruct Hc as [Hc|Hc]; rewrite Hc; reflexivity|]. cbn [add_all]. split; [reflexivity|]. split; [|auto].
    split; [exact Ht|]. split; [apply (@got_same n); [rewrite Hnil; intros v []|assumption]|]. split; [assumption|]. cbn [fst snd].
    rewrite <- Hp. cbn beta. rewrite (HE n). destruct Hc as [Hc|Hc]; rewrite Hc; cbn [slope]; ring.
  - (* slice *)
    rewrite Hk in Hs. cbn [shape_ok] in Hs. destruct Hs as (-> & HiN & v0 & Hv0 & Hvv).
    destruct (inputs n) as [|v [|v' vs]] eqn:Hin; try discriminate Hv0. cbn [map] in Hv0. inversion Hv0; subst v0. clear Hv0.
    rewrite var_E in Hvv.
    assert (Hnvar : is_var kinds n = false) by (unfold is_var; now rewrite Hk).
    destruct (proj1 (Ht n Hn) Hnvar) as (r & Hrn). rewrite Hna in Hrn. inversion Hrn; subst a.
    assert (Hvk : In v (keys g)) by (apply (@key_closed n); [assumption|rewrite Hin; now left]).
    destruct (@add_slice v i r grads rest olds Hvk Hvv HiN Ht) as (grads' & l & H1 & H2 & H3 & H4 & H5 & H6).
    exists ivs, (GS r), [GV (one_hot N i r)], grads'. split; [assumption|]. split; [assumption|]. rewrite Hk. cbn [kgrad].
    destruct (Nat.ltb_spec i N); [|lia]. split; [reflexivity|]. split; [exact H1|]. split.
    + split; [exact H2|]. split.
      * intros w m Hw' Hm Hi' Hnm. cbn [fst]. destruct (Nat.eq_dec w v) as [->|Hne]; [now exists l|].
        exfalso. apply Hne. apply Hone; try (now apply is_var_KVar); apply Hr; [now apply (@key_closed m)|assumption].
      * split; [assumption|]. cbn [fst snd]. rewrite H6, <- Hp, Hna. cbn [gval]. rewrite tv_nth by assumption.
        cbn beta. rewrite (HE n). rewrite Hk. cbn [slope]. ring.
    + intros m Hm. apply H3. intros ->. apply Hm. now left.
  - unfold is_old in Hold. rewrite Hk in Hold. discriminate.
  - (* arithmetic *)
    assert (Hnvar : is_var kinds n = false) by (unfold is_var; destruct (kinds n); try reflexivity; contradiction).
    destruct (proj1 (Ht n Hn) Hnvar) as (r & Hrn). rewrite Hna in Hrn. inversion Hrn; subst a.
    assert (Hch := @shape_arith_children N (kinds n) (map E (inputs n)) Hk Hs).
    assert (Hcv : forall c, In c (inputs n) -> is_var kinds c = false).
    { intros c Hc. rewrite <- var_E. apply Hch. now apply in_map. }
    assert (Hsmn := @reach_smooth n (proj1 (Hr n) Hn)). rewrite HE in Hsmn. inversion Hsmn as [k l Hsa Hsc]; subst k l.
    destruct (@kind_partials (kinds n) (map (rval p) (map E (inputs n))) Hk) as (ws & (Hlen & _) & Hgs); [|exact Hsa|].
    { intros Hu. destruct (@shape_unary N _ _ Hu Hs) as (e & ->). now eexists. }
    rewrite !map_length in Hlen.
    assert (Hsc' : scalars ivs = Ok (map (rval p) (map E (inputs n)))).
    { assert (Hall : forall e, In e (map E (inputs n)) -> exists x, value p e = Ok (VS x)).
      { intros e He. apply in_map_iff in He as (c & <- & Hc).
        destruct (@Hvals c (proj1 (Hr c) (@key_closed n c Hn Hc))) as (v & _ & Hv). rewrite Hv.
        assert (Hcw := @reach_wf c (proj1 (Hr c) (@key_closed n c Hn Hc))).
        assert (Hcv' := Hcv c Hc). rewrite <- var_E in Hcv'. destruct (E c) as [k l].
        destruct v as [x|lv]; [now exists x|]. exfalso. clear - Hv Hcv'.
        rewrite value_node in Hv by (intros ->; discriminate).
        destruct (mapM (value p) l) as [iv|]; [|discriminate]. cbn [bind] in Hv.
        destruct k; cbn [keval] in Hv; try discriminate;
          try (destruct (scalars iv); [|discriminate]; cbn [bind] in Hv;
               match type of Hv with bind ?x _ = _ => destruct x; discriminate end).
        destruct iv as [|[?|lv'] ?]; try discriminate. destruct (nth_error lv' i); discriminate. }
      rewrite (@mapM_scalar structure p _ Hall) in Hvm. inversion Hvm; subst ivs. apply scalars_VS. }
    assert (Hkg : kgrad (kinds n) ivs (GS r) = Ok (map GS (map (fun w => r * w) ws))).
    { transitivity (bind (scalars ivs) (fun l => bind (grad_scalar (kinds n) l r) (fun gs => Ok (map GS gs)))).
      - clear - Hk. destruct (kinds n); try contradiction; reflexivity.
      - rewrite Hsc'. cbn [bind]. rewrite Hgs. reflexivity. }
    destruct (@add_all_scalar (inputs n) (map (fun w => r * w) ws) grads rest olds) as (grads' & H1 & H2 & H3 & H4); auto.
    { now rewrite map_length. }
    { intros c Hc. now apply key_closed with n. }
    exists ivs, (GS r), (map GS (map (fun w => r * w) ws)), grads'. repeat (split; [assumption|]). split; [|assumption].
    split; [exact H2|]. split.
    + intros v m Hv Hm Hiv' Hnm. cbn [fst]. destruct (@got_same n rest grads Hcv Hg v m Hv Hm Hiv' Hnm) as (l & Hl). exists l.
      rewrite H3; [assumption|]. intros Hc. apply Hcv in Hc. congruence.
    + split; [assumption|]. cbn [fst snd]. rewrite H4, <- Hp, Hna. cbn [gval].
      rewrite dotr_scale. cbn beta. rewrite (HE n). rewrite (@slope_arith structure jac p d (kinds n) _ ws Hk Hgs), map_map. ring.
Qed.

Lemma heavy_not_old n : is_heavy kinds n = true -> is_old kinds n = false.
Proof. unfold is_heavy, is_old. now destruct (kinds n). Qed.
Lemma back_light_step n rest grads olds : In n (keys g) -> NoDup (n :: rest) -> incl (inputs n) rest ->
  Inv (n :: rest) (grads, olds) -> exists st', back_light kinds g vals p (grads, olds) n = Ok st' /\ Inv rest st'.
Proof.
  intros Hn Hnd Hi Hinv. unfold back_light. destruct (is_old kinds n) eqn:Eo.
  - unfold is_old in Eo. destruct (kinds n) eqn:Hk; try discriminate.
    destruct (@step_old n _ _ rest grads olds Hk Hn Hinv) as (r & H1 & H2). unfold dget. rewrite H1. cbn [bind np_dot]. eauto.
  - destruct (@step n rest grads olds Hn Eo Hnd Hi Hinv) as (ivs & a & gs & grads' & H1 & H2 & H3 & H4 & H5 & _).
    exists (grads', olds). split; [|assumption].
    unfold is_old in Eo. destruct (kinds n) eqn:Hk; try discriminate;
      rewrite H1; cbn [bind]; rewrite H2; cbn [bind]; rewrite H3; cbn [bind]; rewrite H4; reflexivity.
Qed.

Lemma back_block_step blk : forall rest grads0 grads olds,
  incl blk (keys g) -> (forall n, In n blk -> is_heavy kinds n = true) -> NoDup (blk ++ rest) ->
  (forall n, In n blk -> incl (inputs n) rest) -> Inv (blk ++ rest) (grads, olds) ->
  (forall n, In n blk -> grads n = grads0 n) ->
  exists args gss grads',
    mapM (fun n => bind (get_inputs g vals n) (fun ivs => bind (dget grads0 n) (fun a => Ok (n, ivs, a)))) blk = Ok args /\
    mapM (fun x => kgrad (kinds (fst (fst x))) (snd (fst x)) (snd x)) args = Ok gss /\
    add_block g blk gss grads = Ok grads' /\ Inv rest (grads', olds).
Proof.
  induction blk as [|n blk IH]; intros rest grads0 grads olds Hk Hh Hnd Hi Hinv H0.
  - exists [], [], grads. cbn. auto.
  - cbn [app] in *. assert (Hn : In n (keys g)) by (apply Hk; now left). assert (Hhn := Hh n (or_introl eq_refl)).
    destruct (@step n (blk ++ rest) grads olds Hn (heavy_not_old n Hhn) Hnd) as (ivs & a & gs & grads' & H1 & H2 & H3 & H4 & H5 & H6).
    { intros c Hc. apply in_or_app. right. now apply (Hi n (or_introl eq_refl)). } { exact Hinv. }
    inversion Hnd; subst.
    destruct (IH rest grads0 grads' olds) as (args & gss & grads2 & G1 & G2 & G3 & G4); auto.
    { intros y Hy. apply Hk. now right. } { intros y Hy. apply Hh. now right. } { intros y Hy. apply Hi. now right. }
    { intros y Hy. rewrite H6; [apply H0; now right|]. intros Hc. assert (Hx := @Hheavy n y Hhn Hc). rewrite (Hh y (or_intror Hy)) in Hx. discriminate. }
    exists ((n, ivs, a) :: args), (gs :: gss), grads2. cbn [mapM]. rewrite H1. cbn [bind].
    unfold dget at 1. rewrite <- (H0 n (or_introl eq_refl)). unfold dget in H2. rewrite H2. cbn [bind]. rewrite G1. cbn [bind mapM fst snd].
    rewrite H3. cbn [bind]. rewrite G2. cbn [bind add_block]. rewrite H4. cbn [bind]. rewrite G3. auto.
Qed.

Lemma back_loop_inv sched : forall l0 blk st,
  (forall l1 n l2, l0 ++ blk ++ sched = l1 ++ n :: l2 -> incl (inputs n) l2) ->
  incl (blk ++ sched) (keys g) -> (forall n, In n blk -> is_heavy kinds n = true) -> NoDup (blk ++ sched) ->
  Inv (blk ++ sched) st -> exists st', back_loop kinds g vals p sched blk st = Ok st' /\ Inv [] st'.
Proof.
  assert (Hblock : forall l0 blk rest st, (forall l1 n l2, l0 ++ blk ++ rest = l1 ++ n :: l2 -> incl (inputs n) l2) ->
    incl (blk ++ rest) (keys g) -> (forall n, In n blk -> is_heavy kinds n = true) -> NoDup (blk ++ rest) ->
    Inv (blk ++ rest) st -> exists st', back_block kinds g vals st blk = Ok st' /\ Inv rest st').
  { intros l0 blk rest [grads olds] Hord' Hk Hh Hnd Hinv.
    destruct (@back_block_step blk rest grads grads olds) as (args & gss & grads' & H1 & H2 & H3 & H4); auto.
    - intros y Hy. apply Hk, in_or_app. now left.
    - intros n Hn c Hc. apply in_split in Hn as (b1 & b2 & Eb).
      assert (Hin : In c (b2 ++ rest)).
      { apply (Hord' (l0 ++ b1) n (b2 ++ rest)); [|assumption]. rewrite Eb, <- !app_assoc. reflexivity. }
      apply in_app_or in Hin as [Hin|Hin]; [|assumption]. exfalso.
      assert (Hx := @Hheavy n c (Hh n ltac:(rewrite Eb; apply in_or_app; right; now left)) Hc).
      rewrite (Hh c) in Hx; [discriminate|]. rewrite Eb. apply in_or_app. right. now right.
    - unfold back_block. rewrite H1. cbn [bind]. rewrite H2. cbn [bind]. rewrite H3. cbn [bind]. eauto. }
  induction sched as [|n sched IH]; intros l0 blk st Hord' Hk Hh Hnd Hinv; cbn [back_loop].
  - destruct blk as [|b blk]; [now exists st|]. apply (Hblock l0 (b :: blk) [] st); auto.
  - destruct (is_heavy kinds n) eqn:Ehn.
    + apply (IH l0 (blk ++ [n]) st); try (rewrite <- app_assoc; assumption).
      intros y Hy. apply in_app_or in Hy as [Hy|[<-|[]]]; auto.
    + assert (Hlight : forall st, Inv (n :: sched) st -> exists st', bind (back_light kinds g vals p st n) (back_loop kinds g vals p sched []) = Ok st' /\ Inv [] st').
      { intros [gr ol] Hst. apply NoDup_suffix in Hnd.
        destruct (@back_light_step n sched gr ol) as (st1 & H1 & H2); auto.
        - apply Hk, in_or_app. right. now left.
        - apply (Hord' (l0 ++ blk)). now rewrite <- app_assoc.
        - rewrite H1. cbn [bind]. apply (IH (l0 ++ blk ++ [n]) [] st1); auto.
          + cbn [app]. intros l1 m l2 He. apply (Hord' l1 m l2). rewrite <- He, <- !app_assoc. reflexivity.
          + cbn [app]. intros y Hy. apply Hk, in_or_app. right. now right.
          + cbn [app]. now inversion Hnd. }
      destruct blk as [|b blk]; [now apply Hlight|].
      destruct (Hblock l0 (b :: blk) (n :: sched) st Hord' Hk Hh Hnd Hinv) as (st1 & H1 & H2). rewrite H1. cbn [bind]. now apply Hlight.
Qed.
End Back.

Lemma gradient_slope p d : param_ok structure jac N p -> smooth structure p (E out) -> olds_ok p (E out) ->
  is_variable (E out) = false -> length d = length p -> (exists v, value p (E out) = Ok v) ->
  exists a, gradient kinds inputs ord fuel structure jac out p = Ok a /\
    (a = GS 0 \/ exists l, a = GV l /\ length l = length p) /\ along a d = slope structure jac p d (E out).
Proof.
  intros Hpar Hsm Hol Hnv Hdl Hv.
  destruct (@forward p Hv) as (g & sched & st & vals & Hg & Hs & Hnd & Hr & Ha & HP & Ho & Hk & He & Hvals).
  assert (Hns : NoDup sched) by exact (Permutation_NoDup (Permutation_sym HP) Hnd).
  assert (Hout : In out (keys g)) by (apply Hr, reach_out).
  assert (Hov : is_var kinds out = false) by (now rewrite <- var_E).
  assert (Hinv : Inv p d g sched (zero_grads g out, [])).
  { split; [|split; [|split]]; cbn [fst snd].
    - intros n Hn. unfold zero_grads, dset. rewrite (proj2 (memb_In n (keys g)) Hn).
      destruct (Nat.eqb_spec n out) as [->|Hne]; split; intros H; try congruence; try (now eexists); now left.
    - intros v m _ Hm _ Hnm. exfalso. apply Hnm. exact (Permutation_in _ (Permutation_sym HP) Hm).
    - constructor.
    - unfold phi. cbn [map]. change (rsum []) with 0.
      rewrite (@rsum_update (fun _ => 0) (fun n => gval (zero_grads g out n) * slope structure jac p d (E n)) out (slope structure jac p d (E out)) sched).
      + assert (Hz : forall l : list nat, rsum (map (fun _ => 0) l) = 0) by (induction l as [|x l IHl]; cbn [map]; [reflexivity|]; rewrite rsum_cons, IHl; ring).
        rewrite Hz. rewrite (@rsum_same (fun _ => 0)); [rewrite Hz; ring|].
        intros n Hn. apply filter_In in Hn as (Hn & Hvn). unfold zero_grads. rewrite dset_other by congruence.
        rewrite (proj2 (memb_In n (keys g)) Hn). cbn [galong along]. ring.
      + assumption.
      + exact (Permutation_in _ (Permutation_sym HP) Hout).
      + unfold zero_grads. rewrite dset_same. cbn [gval]. ring.
      + intros n Hn. unfold zero_grads. rewrite dset_other by assumption. destruct (memb n (keys g)); cbn [gval]; ring. }
  assert (Hin : forall l1 n l2, [] ++ [] ++ sched = l1 ++ n :: l2 -> incl (inputs n) l2).
  { cbn [app]. intros l1 n l2 Hsp c Hc.
    assert (Hrev : rev sched = rev l2 ++ n :: rev l1) by (rewrite Hsp, rev_app_distr; cbn; now rewrite <- app_assoc).
    apply in_rev. exact (@reversed_order val inputs (fn p) [out] 0 g sched Ha HP Hr Ho Hnd (rev l2) n (rev l1) Hrev c Hc). }
  destruct (@back_loop_inv p d Hpar Hsm Hol Hdl g vals Hr Ha Hnd Hvals sched [] [] (zero_grads g out, [])) as ((grads & olds) & Hb & Ht & Hgot & Hlen & Hphi);
    auto; cbn [app]; auto.
  { intros y Hy. exact (Permutation_in _ HP Hy). }
  cbn [fst snd] in *. unfold gradient. rewrite Hg. cbn [bind]. rewrite Hk. cbn [bind]. rewrite Hs. cbn [bind].
  change (fun n ivs => keval p (kinds n) ivs) with (fn p). rewrite He. cbn [bind]. rewrite Hb. cbn [bind fst snd].
  unfold phi in Hphi. cbn [map] in Hphi. change (rsum []) with 0 in Hphi.
  assert (Hrows : forall ls, ls <> [] -> Forall (fun o => length o = length p) ls ->
    exists l, sum_rows ls = Ok (GV l) /\ length l = length p /\ dotr l d = rsum (map (fun o => dotr o d) ls)).
  { intros ls Hne HF. destruct ls as [|o ls]; [congruence|]. clear Hne. assert (Ho' : length o = length p) by now inversion HF.
    unfold sum_rows. assert (Hfb : forallb (fun l' => Nat.eqb (length l') (length o)) ls = true).
    { apply forallb_forall. intros x Hx. apply Nat.eqb_eq. rewrite Ho'. inversion HF as [|? ? _ HF']; subst. now apply (proj1 (Forall_forall _ _) HF'). }
    rewrite Hfb. eexists. split; [reflexivity|]. split; [now rewrite map_length, seq_length|].
    rewrite Ho'. now apply dotr_rows. }
  destruct (filter (is_var kinds) (keys g)) as [|v vs] eqn:Ef.
  - cbn [map] in Hphi. change (rsum []) with 0 in Hphi. destruct olds as [|o olds].
    + exists (GS 0). split; [reflexivity|]. split; [now left|]. cbn [map] in Hphi. change (rsum []) with 0 in Hphi. cbn [along]. lra.
    + destruct (Hrows (o :: olds)) as (l & H1 & H2 & H3); [discriminate|assumption|]. exists (GV l). split; [exact H1|].
      split; [right; now exists l|]. cbn [along]. rewrite H3. lra.
  - assert (Hvin : In v (keys g) /\ is_var kinds v = true) by (apply filter_In; rewrite Ef; now left).
    destruct Hvin as (Hvk & Hvv).
    assert (Hvs : vs = []).
    { destruct vs as [|w vs]; [reflexivity|]. exfalso.
      assert (Hwin : In w (keys g) /\ is_var kinds w = true) by (apply filter_In; rewrite Ef; right; now left).
      assert (v = w) by (apply Hone; try (now apply is_var_KVar); apply Hr; tauto). subst w.
      assert (Hnf := NoDup_filter (is_var kinds) Hnd). rewrite Ef in Hnf. inversion Hnf as [|? ? Hx _]. apply Hx. now left. }
    subst vs.
    assert (Hpm : exists m, In m (keys g) /\ In v (inputs m)).
    { apply Hr in Hvk as (o & [<-|[]] & Hrt). apply clos_rt_rtn1 in Hrt.
      inversion Hrt as [|y z Hyz Hry]; subst; [congruence|]. exists y. split; [|assumption].
      apply Hr. exists out. split; [now left|]. now apply clos_rtn1_rt. }
    destruct Hpm as (m & Hm & Hvm). destruct (Hgot v m Hvv Hm Hvm) as (l & Hgv & Hll); [intros []|].
    unfold dget. rewrite Hgv. cbn [bind vec_mat]. destruct Hpar as (_ & HJ & Hst). rewrite Hll, HJ, Nat.eqb_refl. cbn [bind].
    assert (HJrows : Forall (fun r => length r = length p) (jac p)).
    { apply Forall_forall. intros r Hrin. apply (In_nth _ _ []) in Hrin as (i & Hi & <-). apply Hst. now rewrite <- HJ. }
    set (r := map _ (seq 0 (length p))).
    assert (Hrl : length r = length p) by (unfold r; now rewrite map_length, seq_length).
    assert (Hrd : dotr r d = dotr l (tv p d)) by (apply dotr_vec_mat; assumption).
    destruct (Hrows (olds ++ [r])) as (l' & H1 & H2 & H3).
    + intros Hx. apply app_eq_nil in Hx as (_ & Hx). discriminate.
    + apply Forall_app. split; [assumption|]. constructor; [exact Hrl|constructor].
    + exists (GV l'). split; [exact H1|]. split; [right; now exists l'|]. cbn [along]. rewrite H3, map_app. cbn [map].
      assert (Hsapp : forall a b, rsum (a ++ [b]) = rsum a + b).
      { clear. induction a as [|x a IH]; intros b; cbn [app]; [cbn; ring|]. rewrite !rsum_cons, IH. ring. }
      rewrite Hsapp, Hrd. cbn [map] in Hphi. rewrite Hgv in Hphi. cbn [galong along] in Hphi. unfold rsum at 1 in Hphi. cbn [fold_right] in Hphi. lra.
Qed.

Lemma gradient_correct p : param_ok structure jac N p -> smooth structure p (E out) -> olds_ok p (E out) ->
  is_variable (E out) = false ->
  exists a, gradient kinds inputs ord fuel structure jac out p = Ok a /\
    (a = GS 0 \/ exists l, a = GV l /\ length l = length p) /\
    forall P t0 d, moves P t0 p d ->
      near t0 (fun t => objective_function kinds inputs ord fuel structure out (P t) = Ok (VS (rval (P t) (E out)))) /\
      derivable_pt_lim (fun t => number (objective_function kinds inputs ord fuel structure out (P t))) t0 (along a d).
Proof.
  intros Hpar Hsm Hol Hnv.
  assert (Hcurve : forall P t0 d, moves P t0 p d ->
     near t0 (fun t => objective_function kinds inputs ord fuel structure out (P t) = Ok (VS (rval (P t) (E out)))) /\
     derivable_pt_lim (fun t => rval (P t) (E out)) t0 (slope structure jac p d (E out))).
  { intros P t0 d Hm. destruct (@expr_derive structure jac p d N Hpar P t0 Hm (E out) Hwf Hsm Hol Hnv) as (H1 & H2).
    split; [|exact H2]. eapply near_impl; [|exact H1]. intros t (r & Hrt). apply objective_value.
    unfold Obj_Spec.rval. now rewrite Hrt. }
  assert (Hconst : moves (fun _ => p) 0 p (map (fun _ => 0) p)).
  { split; [reflexivity|]. split; [apply map_length|]. split; [reflexivity|]. intros j Hj.
    eapply derive_eq; [|apply derivable_pt_lim_const]. symmetry. clear. revert j. induction p as [|x l IH]; intros [|j]; cbn; auto. }
  assert (Hv : exists v, value p (E out) = Ok v).
  { destruct (@expr_derive structure jac p _ N Hpar (fun _ => p) 0 Hconst (E out) Hwf Hsm Hol Hnv) as (H1 & _).
    apply near_at in H1. destruct H1 as (r & Hrv). now exists (VS r). }
  destruct (@gradient_slope p (map (fun _ => 0) p) Hpar Hsm Hol Hnv (map_length _ _) Hv) as (a & Hga & Hform & _).
  exists a. split; [exact Hga|]. split; [exact Hform|]. intros P t0 d Hm. destruct (Hcurve P t0 d Hm) as (H1 & H2). split; [exact H1|].
  assert (Hdl : length d = length p) by apply Hm.
  destruct (@gradient_slope p d Hpar Hsm Hol Hnv Hdl Hv) as (a' & Hga' & _ & Hal). rewrite Hga in Hga'. inversion Hga'; subst a'.
  rewrite Hal. eapply derive_ext_near; [|exact H2]. eapply near_impl; [|exact H1]. intros t Ht. cbn beta. now rewrite Ht.
Qed.
End Store.
