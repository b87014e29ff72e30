(** Proofs about optimizing transformations. *)
From Coq Require Import ZArith QArith.
From stdpp Require Import gmap.
From Verif Require Import Base Solver_Model Solver_Spec OptRun_Model OptRun_Spec.
Set Implicit Arguments.
Local Open Scope Q_scope.

(** *** strategies *)
Section Strat.
Variables X A : Type.
Variable f : nat -> X -> A.
Lemma does_total (s : strategy X A) : exists tr v, does f s tr v.
Proof.
  induction s as [x|x q k IH|x k (tr & v & H)].
  - eexists _, _. constructor.
  - destruct (IH (f q x)) as (tr & v & H). eexists _, _. constructor. exact H.
  - eexists _, _. constructor. exact H.
Qed.
Lemma play_false s tr v : does f s tr v -> forall x, play false f s x = (last_evaluated x tr, v).
Proof.
  induction 1 as [y|y q k tr v H IH|y k tr v H IH]; intros x; simpl.
  - reflexivity.
  - apply IH.
  - now rewrite IH.
Qed.
Lemma play_true s tr v : does f s tr v -> forall x, play true f s x = (reported tr, v).
Proof.
  induction 1 as [y|y q k tr v H IH|y k tr v H IH]; intros x; simpl.
  - reflexivity.
  - apply IH.
  - now rewrite IH.
Qed.
Lemma len_last_evaluated (tr : list (act X)) : forall x, length (last_evaluated x tr) = length (reported tr).
Proof. induction tr as [|[y|y] tr IH]; intros x; simpl; auto. Qed.
End Strat.

Lemma numbered_events_from {X} i (l : list X) : numbered (fun i => Event SOptimizing (Some i) None None) i l = events_from i l.
Proof. revert i. induction l as [|x l IH]; intros i; simpl; [reflexivity|]. now rewrite IH. Qed.
Lemma events_from_split {X} (l : list X) : forall i m1 y e m2, events_from i l = m1 ++ (y, e) :: m2 ->
  exists l1 l2, l = l1 ++ y :: l2 /\ e = Event SOptimizing (Some (i + Z.of_nat (length l1))%Z) None None
    /\ m2 = events_from (i + Z.of_nat (length l1) + 1)%Z l2.
Proof.
  induction l as [|x l IH]; intros i m1 y e m2 H; simpl in H.
  - destruct m1; discriminate.
  - destruct m1 as [|a m1]; simpl in H.
    + injection H as -> <- H2. exists [], l. simpl. rewrite Z.add_0_r. subst. auto.
    + injection H as H1 H2. destruct (IH _ _ _ _ _ H2) as (l1 & l2 & -> & -> & ->). exists (x :: l1), l2. simpl length.
      rewrite Nat2Z.inj_succ. split; [reflexivity|].
      replace (i + 1 + Z.of_nat (length l1))%Z with (i + Z.succ (Z.of_nat (length l1)))%Z by lia. auto.
Qed.

(** *** options *)
Lemma keep_model d : keep_options (ModelOptions d) = Ok (KeptModel (set_options d)).
Proof.
  simpl. do 2 f_equal. unfold set_options. apply flat_map_ext. intros [k [v|]]; simpl; [|reflexivity].
  unfold qtrue. now destruct (Qeq_bool v 0).
Qed.
Lemma oget_subtract d i : oget (subtract_iter d i) KTol = oget d KTol.
Proof.
  induction d as [|[k v] d IH]; simpl; [reflexivity|]. destruct k; simpl; auto.
Qed.
Lemma split_options d i : split_tol (subtract_iter (set_options d) i) = (scipy_tol d, scipy_options d i).
Proof.
  unfold split_tol. rewrite oget_subtract. f_equal. unfold scipy_options, subtract_iter.
  induction (set_options d) as [|[k v] l IH]; [reflexivity|]. cbn [map flat_map List.filter fst snd]. rewrite <- IH. destruct k; reflexivity.
Qed.

Section Scipy.
Variables X A : Type.
Variable minimize : option Q -> odict -> X -> strategy X A.
Variables (f : nat -> X -> A) (d : list (okey * option Q)).
Notation m := (fun i x => minimize (scipy_tol d) (scipy_options d i) x).

Lemma iterate_eq mon i x tr v : does f (m i x) tr v ->
  scipy_iterate minimize (KeptModel (set_options d)) mon f i x =
    (if mon then events_from (i + 1)%Z (last_evaluated x tr) else [], Ok v).
Proof.
  intros H. unfold scipy_iterate. simpl to_native. cbv iota beta. rewrite split_options.
  rewrite (play_false H). rewrite numbered_events_from. reflexivity.
Qed.
Lemma run_first mon x tr v : does f (m 0%Z x) tr v ->
  scipy_run minimize (ModelOptions d) mon f None x =
    ((x, start_event) :: (if mon then events_from 1 (last_evaluated x tr) else []) ++ [(v, end_event)], Ok v).
Proof.
  intros H. unfold scipy_run. rewrite keep_model. unfold stages. simpl iteration_of.
  rewrite (iterate_eq mon H). reflexivity.
Qed.
Lemma run_resumed mon e x tr v : (e_stage e = SStart \/ e_stage e = SOptimizing) ->
  does f (m (iteration_of (Some e)) x) tr v ->
  scipy_run minimize (ModelOptions d) mon f (Some e) x =
    ((if mon then events_from (iteration_of (Some e) + 1)%Z (last_evaluated x tr) else []) ++ [(v, end_event)], Ok v).
Proof.
  intros He H. unfold scipy_run. rewrite keep_model. unfold stages.
  destruct He as [He|He]; rewrite He; rewrite (iterate_eq mon H); reflexivity.
Qed.
Lemma run_other mon e x : e_stage e <> SStart -> e_stage e <> SOptimizing ->
  scipy_run minimize (ModelOptions d) mon f (Some e) x = ([], Ok x).
Proof.
  intros H1 H2. unfold scipy_run. rewrite keep_model. unfold stages.
  destruct (e_stage e); try congruence; reflexivity.
Qed.
(** the common form *)
Lemma run_form mon ev x : exists l r,
  scipy_run minimize (ModelOptions d) mon f ev x = (l, Ok r) /\
  ( (ev = None /\ exists tr, does f (m 0%Z x) tr r /\
      l = (x, start_event) :: (if mon then events_from 1 (last_evaluated x tr) else []) ++ [(r, end_event)])
  \/ (exists e tr, ev = Some e /\ (e_stage e = SStart \/ e_stage e = SOptimizing) /\
      does f (m (iteration_of (Some e)) x) tr r /\
      l = (if mon then events_from (iteration_of (Some e) + 1)%Z (last_evaluated x tr) else []) ++ [(r, end_event)])
  \/ (l = [] /\ r = x) ).
Proof.
  destruct ev as [e|].
  - assert (He : (e_stage e = SStart \/ e_stage e = SOptimizing) \/ (e_stage e <> SStart /\ e_stage e <> SOptimizing)).
    { destruct (e_stage e); [left; left | left; right | right; split | right; split]; try reflexivity; discriminate. }
    destruct He as [He|[H1 H2]].
    + destruct (does_total f (m (iteration_of (Some e)) x)) as (tr & v & H). eexists _, v. split.
      * apply (run_resumed mon e He H).
      * right. left. exists e, tr. auto.
    + eexists _, x. split; [apply run_other; assumption|]. right. right. auto.
  - destruct (does_total f (m 0%Z x)) as (tr & v & H). eexists _, v. split.
    + apply (run_first mon H).
    + left. split; [reflexivity|]. exists tr. auto.
Qed.

Lemma run_end mon x : scipy_run minimize (ModelOptions d) mon f (Some end_event) x = ([], Ok x).
Proof. apply run_other; simpl; discriminate. Qed.

(** the part of the log after iterations [i+1 ...] *)
Lemma tail_split (mon : bool) i (l : list X) r m1 y e m2 :
  (if mon then events_from i l else []) ++ [(r, end_event)] = m1 ++ (y, e) :: m2 ->
  (mon = true /\ exists l1 l2, l = l1 ++ y :: l2 /\ e = Event SOptimizing (Some (i + Z.of_nat (length l1))%Z) None None
     /\ m2 = events_from (i + Z.of_nat (length l1) + 1)%Z l2 ++ [(r, end_event)])
  \/ (y = r /\ e = end_event /\ m2 = []).
Proof.
  intros H. destruct (decide (m2 = [])) as [->|Hn].
  - right. apply app_inj_tail in H as [_ H]. injection H as -> ->. auto.
  - left. destruct (exists_last Hn) as (m2' & z & ->).
    rewrite app_comm_cons, app_assoc in H. apply app_inj_tail in H as [H <-].
    destruct mon; [|destruct m1; discriminate]. split; [reflexivity|].
    destruct (@events_from_split _ _ _ _ _ _ _ H) as (l1 & l2 & E1 & E2 & E3).
    exists l1, l2. subst. auto.
Qed.

Lemma resume_pf mon ev x l1 y e l2 r : (mon = true -> restartable f m) ->
  scipy_run minimize (ModelOptions d) mon f ev x = (l1 ++ (y, e) :: l2, r) ->
  scipy_run minimize (ModelOptions d) mon f (Some e) y = (l2, r).
Proof.
  intros Hr H. destruct (run_form mon ev x) as (l & r' & E & C). rewrite E in H. injection H as H1 <-. clear E.
  assert (T : forall i tr, does f (m i x) tr r' -> forall m1,
    (if mon then events_from (i + 1)%Z (last_evaluated x tr) else []) ++ [(r', end_event)] = m1 ++ (y, e) :: l2 ->
    scipy_run minimize (ModelOptions d) mon f (Some e) y = (l2, Ok r')).
  { intros i tr Hd m1 Hm. destruct (@tail_split _ _ _ _ _ _ _ _ Hm) as [(-> & k1 & k2 & E1 & -> & ->)|(-> & -> & ->)].
    - destruct (Hr eq_refl _ _ _ _ _ _ _ Hd E1) as (tr' & Hd' & El).
      rewrite (run_resumed true (Event SOptimizing (Some (i + 1 + Z.of_nat (length k1))%Z) None None) (tr := tr') (v := r')).
      + simpl iteration_of. rewrite El. reflexivity.
      + right. reflexivity.
      + simpl iteration_of. replace (i + 1 + Z.of_nat (length k1))%Z with (i + Z.of_nat (length k1) + 1)%Z by lia. exact Hd'.
    - apply run_end. }
  destruct C as [(-> & tr & Hd & ->)|[(e0 & tr & -> & He & Hd & ->)|(-> & ->)]].
  - destruct l1 as [|a l1]; simpl in H1.
    + injection H1 as <- <- H2. subst l2. rewrite (run_resumed mon start_event (tr := tr) (v := r')); [reflexivity|left; reflexivity|exact Hd].
    + injection H1 as H1 H2. apply (T 0%Z tr Hd l1). exact H2.
  - apply (T _ tr Hd l1). exact H1.
  - destruct l1; discriminate.
Qed.

(** the iteration numbers *)
Lemma budget_pf mon M ev x : (0 <= M)%Z ->
  (forall i x tr v, does f (m i x) tr v -> (Z.of_nat (length (reported tr)) <= Z.max 0 (M - i))%Z) ->
  reached (scipy_run minimize (ModelOptions d) mon f) ev x ->
  (forall e i, ev = Some e -> e_iter e = Some i -> (1 <= i <= M)%Z).
Proof.
  intros HM Hh. induction 1 as [x|ev x l1 y e l2 r Hre IH H]; [discriminate|].
  intros e' i Ee Hi. injection Ee as <-.
  destruct (run_form mon ev x) as (l & r' & E & C). rewrite E in H. injection H as H1 <-. clear E.
  assert (T : forall i0 tr, (0 <= i0 <= M)%Z -> does f (m i0 x) tr r' -> forall m1,
    (if mon then events_from (i0 + 1)%Z (last_evaluated x tr) else []) ++ [(r', end_event)] = m1 ++ (y, e) :: l2 ->
    (1 <= i <= M)%Z).
  { intros i0 tr Hi0 Hd m1 Hm. destruct (@tail_split _ _ _ _ _ _ _ _ Hm) as [(-> & k1 & k2 & E1 & -> & ->)|(-> & -> & ->)].
    - simpl in Hi. injection Hi as <-. specialize (Hh _ _ _ _ Hd).
      rewrite <- (len_last_evaluated tr x), E1, app_length in Hh. simpl in Hh. lia.
    - discriminate. }
  destruct C as [(-> & tr & Hd & ->)|[(e0 & tr & -> & He & Hd & ->)|(-> & ->)]].
  - destruct l1 as [|a l1]; simpl in H1.
    + injection H1 as <- <- H2. discriminate.
    + injection H1 as H1 H2. apply (T 0%Z tr (conj (Z.le_refl 0) HM) Hd l1). exact H2.
  - apply (T (iteration_of (Some e0)) tr) with (m1 := l1); [|exact Hd|exact H1].
    simpl. destruct (e_iter e0) as [j|] eqn:Ej; [|lia]. specialize (IH e0 j eq_refl Ej). lia.
  - destruct l1; discriminate.
Qed.
End Scipy.

(** options that do not work *)
Lemma no_options_pf {X A} (minimize : option Q -> odict -> X -> strategy X A) mon f x :
  scipy_run minimize NoOptions mon f None x = ([(x, start_event)], Err AttributeError).
Proof. reflexivity. Qed.
Lemma dict_options_pf {X A} (minimize : option Q -> odict -> X -> strategy X A) d mon f x :
  (Forall (fun kv => ~ snd kv == 0) d -> scipy_run minimize (DictOptions d) mon f None x = ([(x, start_event)], Err AttributeError)) /\
  (Exists (fun kv => snd kv == 0) d -> scipy_run minimize (DictOptions d) mon f None x = ([], Err RuntimeError)).
Proof.
  unfold scipy_run. cbn [keep_options]. destruct (forallb _ d) eqn:E.
  - rewrite forallb_forall in E. split; [reflexivity|]. intros He. apply Exists_exists in He as (kv & Hin & Hq).
    specialize (E kv Hin). unfold qtrue in E. apply Qeq_bool_iff in Hq. rewrite Hq in E. discriminate.
  - split; [|reflexivity]. intros Hf. exfalso. rewrite Forall_forall in Hf.
    assert (forallb (fun kv : okey * Q => qtrue kv.2) d = true); [|congruence].
    apply forallb_forall. intros kv Hin. unfold qtrue. destruct (Qeq_bool (snd kv) 0) eqn:Eq; [|reflexivity].
    apply Qeq_bool_iff in Eq. exfalso. exact (Hf kv Hin Eq).
Qed.

(** *** plans *)
Section Plan.
Variables X A W : Type.
Variable jobs : nat -> job X A W.
Variable dflt : pval X.
Notation sem := (job_sem jobs dflt).

Lemma map_split {B C} (h : B -> C) (l : list B) : forall m1 z m2, map h l = m1 ++ z :: m2 ->
  exists l1 w l2, l = l1 ++ w :: l2 /\ m1 = map h l1 /\ z = h w /\ m2 = map h l2.
Proof.
  induction l as [|a l IH]; intros m1 z m2 H; simpl in H.
  - destruct m1; discriminate.
  - destruct m1 as [|b m1]; simpl in H; injection H as H1 H2.
    + exists [], a, l. subst. auto.
    + destruct (IH _ _ _ H2) as (l1 & w & l2 & -> & -> & -> & ->). exists (a :: l1), w, l2. subst. auto.
Qed.

Lemma strength_no_log t v : jobs (t_name t) = JStrength _ _ _ v -> forall e ev, fst (sem t e ev) = [].
Proof. intros H e ev. unfold job_sem. rewrite H. reflexivity. Qed.
Lemma scipy_resumable t minimize d mon f : jobs (t_name t) = JScipy minimize (ModelOptions d) mon f ->
  (mon = true -> forall ps k, restartable (f ps k) (fun i x => minimize (scipy_tol d) (scipy_options d i) x)) ->
  resumable sem t.
Proof.
  intros Hj Hr e ev l1 v1 e1 l2 v H. unfold job_sem in *. rewrite Hj in *.
  set (p := match ptz e !! t_param t with Some p => p | None => dflt end) in *.
  destruct (run_form minimize (f (prm e) (p_strength p)) d mon ev (p_vec p)) as (l & r & E & _).
  rewrite E in H. injection H as H <-.
  destruct (@map_split _ _ _ _ _ _ _ H) as (k1 & [y e'] & k2 & -> & -> & Ez & ->). simpl in Ez. injection Ez as -> ->.
  simpl ptz. simpl prm. rewrite lookup_insert. cbn [with_vec p_strength p_vec].
  assert (R := @resume_pf X A minimize (f (prm e) (p_strength p)) d mon ev (p_vec p) k1 y e' k2 (Ok r) (fun Hm => Hr Hm _ _) E).
  rewrite R. reflexivity.
Qed.
End Plan.
