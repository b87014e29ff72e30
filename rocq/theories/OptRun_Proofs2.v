(** Proofs about the penalty optimizer as a transformation. *)
From Coq Require Import ZArith QArith.
From stdpp Require Import gmap.
From Verif Require Import Base OptRun_Model OptRun_Spec OptRun_Proofs.
Set Implicit Arguments.
Local Open Scope Q_scope.

Lemma len_numbered {B} (mk : Z -> event) (l : list B) : forall i, length (numbered mk i l) = length l.
Proof. induction l as [|x l IH]; intros i; simpl; auto. Qed.
Lemma numbered_split {B} (mk : Z -> event) (l : list B) : forall i m1 y e m2, numbered mk i l = m1 ++ (y, e) :: m2 ->
  exists l1 l2, l = l1 ++ y :: l2 /\ length m1 = length l1 /\ e = mk (i + Z.of_nat (length m1))%Z
    /\ m2 = numbered mk (i + Z.of_nat (length m1) + 1)%Z l2.
Proof.
  induction l as [|x l IH]; intros i m1 y e m2 H; simpl in H.
  - destruct m1; discriminate.
  - destruct m1 as [|a m1]; simpl in H.
    + injection H as -> <- H2. exists [], l. simpl. rewrite Z.add_0_r. subst. auto.
    + injection H as H1 H2. destruct (@IH _ _ _ _ _ H2) as (l1 & l2 & -> & El & -> & ->). exists (x :: l1), l2. simpl length.
      rewrite Nat2Z.inj_succ. split; [reflexivity|]. split; [lia|].
      replace (i + 1 + Z.of_nat (length m1))%Z with (i + Z.succ (Z.of_nat (length m1)))%Z by lia. auto.
Qed.
Lemma app_split {B} (a b m1 : list B) z m2 : a ++ b = m1 ++ z :: m2 ->
  (exists a2, a = m1 ++ z :: a2 /\ m2 = a2 ++ b) \/ (exists b1, m1 = a ++ b1 /\ b = b1 ++ z :: m2).
Proof.
  revert m1. induction a as [|x a IH]; intros m1 H; simpl in H.
  - right. exists m1. auto.
  - destruct m1 as [|y m1]; simpl in H; injection H as -> H.
    + left. exists a. auto.
    + destruct (IH _ H) as [(a2 & -> & ->)|(b1 & -> & ->)]; [left; exists a2 | right; exists b1]; auto.
Qed.

Section Penalty.
Variables X A : Type.
Variable minimize : Q -> Q -> Q -> X * list Q -> strategy (X * list Q) A.
Variable pw : Q -> Q -> Q.
Variable slacks : nat.
Variable pf_obj : Q -> Q -> nat -> X * list Q -> A.
Variable d : odict.
Notation tau := (oget_or d KTau (3 # 2)).
Notation cycles := (penalty_cycles minimize pw pf_obj d).
Notation w := (weight (fun m => pw m tau)).
(** one cycle *)
Definition cyc (k : Z) := minimize (qmax (cycle_tol k) (oget_or d KFtol (1 # 1000000000))) (oget_or d KGtol (1 # 10000000)) (oget_or d KMaxiter 30).
Definition cyc_obj (mu : Q) := pf_obj mu (oget_or d KPf 2).

Lemma weight_shift mu j : w (pw mu tau) j = w mu (S j).
Proof. induction j as [|j IH]; simpl; [reflexivity|]. rewrite IH. reflexivity. Qed.

Lemma cycles_step n k mu it y tr y' : does (cyc_obj mu) (cyc k y) tr y' ->
  cycles (S n) k mu it y =
    (let r := cycles n (k + 1)%Z (pw mu tau) (it + Z.of_nat (length (reported tr)))%Z y' in
     (numbered (fun i => Event SOptimizing (Some i) (Some k) (Some mu)) (it + 1)%Z (map fst (reported tr)) ++ fst r, snd r)).
Proof.
  intros H. cbn [penalty_cycles]. cbv zeta. fold (cyc k). fold (cyc_obj mu).
  change (minimize (qmax (cycle_tol k) (oget_or d KFtol (1 # 1000000000))) (oget_or d KGtol (1 # 10000000)) (oget_or d KMaxiter 30) y) with (cyc k y).
  rewrite (play_true H). reflexivity.
Qed.

Lemma cycles_event n : forall k mu it y l1 x e l2, fst (cycles n k mu it y) = l1 ++ (x, e) :: l2 ->
  exists j, (j < n)%nat /\
    e = Event SOptimizing (Some (it + Z.of_nat (length l1) + 1)%Z) (Some (k + Z.of_nat j)%Z) (Some (w mu j)).
Proof.
  induction n as [|n IH]; intros k mu it y l1 x e l2 H.
  - destruct l1; discriminate.
  - destruct (does_total (cyc_obj mu) (cyc k y)) as (tr & y' & Hd). rewrite (cycles_step n it Hd) in H. cbv zeta in H. simpl fst in H.
    destruct (@app_split _ _ _ _ _ _ H) as [(a2 & Ha & ->)|(b1 & -> & Hb)].
    + destruct (@numbered_split _ _ _ _ _ _ _ _ Ha) as (q1 & q2 & Eq & El & -> & ->).
      exists 0%nat. split; [lia|]. simpl. f_equal; f_equal; lia.
    + destruct (IH _ _ _ _ _ _ _ _ Hb) as (j & Hj & ->). exists (S j). split; [lia|].
      rewrite app_length, len_numbered, map_length. rewrite weight_shift. f_equal; f_equal; lia.
Qed.

Lemma cycles_restart n : (forall k mu, restartable_stored (cyc_obj mu) (fun y => (fst y, repeat 0 slacks)) (cyc k)) ->
  forall k mu it y l1 x e l2, fst (cycles n k mu it y) = l1 ++ (x, e) :: l2 ->
  exists j, (j < n)%nat /\ e = Event SOptimizing (Some (it + Z.of_nat (length l1) + 1)%Z) (Some (k + Z.of_nat j)%Z) (Some (w mu j)) /\
    cycles (n - j) (k + Z.of_nat j)%Z (w mu j) (it + Z.of_nat (length l1) + 1)%Z (x, repeat 0 slacks) = (l2, snd (cycles n k mu it y)).
Proof.
  intros Hr. induction n as [|n IH]; intros k mu it y l1 x e l2 H.
  - destruct l1; discriminate.
  - destruct (does_total (cyc_obj mu) (cyc k y)) as (tr & y' & Hd). rewrite (cycles_step n it Hd) in *. cbv zeta in *. simpl fst in H.
    destruct (@app_split _ _ _ _ _ _ H) as [(a2 & Ha & ->)|(b1 & -> & Hb)].
    + destruct (@numbered_split _ _ _ _ _ _ _ _ Ha) as (q1 & q2 & Eq & El & -> & ->).
      exists 0%nat. split; [lia|]. split; [simpl; f_equal; f_equal; lia|].
      destruct (@map_split _ _ _ _ _ _ _ Eq) as (p1 & [x0 s0] & p2 & Ep & -> & Ex & ->). simpl in Ex. subst x0.
      destruct (Hr k mu _ _ _ _ _ _ Hd Ep) as (tr' & Hd' & Er). simpl fst in Hd'.
      rewrite Nat.sub_0_r. change (Z.of_nat 0) with 0%Z. rewrite Z.add_0_r. simpl weight. rewrite (cycles_step n _ Hd'). cbv zeta. simpl snd.
      assert (Ln : (it + Z.of_nat (length l1) + 1 + Z.of_nat (length (reported tr')) = it + Z.of_nat (length (reported tr)))%Z).
      { rewrite Er, Ep, app_length. simpl length. rewrite El, map_length. lia. }
      rewrite Ln, Er. f_equal. f_equal. f_equal. lia.
    + destruct (IH _ _ _ _ _ _ _ _ Hb) as (j & Hj & -> & Hc). exists (S j). split; [lia|].
      rewrite app_length, len_numbered, map_length.
      replace (it + Z.of_nat (length (reported tr) + length b1) + 1)%Z with (it + Z.of_nat (length (reported tr)) + Z.of_nat (length b1) + 1)%Z by lia.
      replace (k + Z.of_nat (S j))%Z with (k + 1 + Z.of_nat j)%Z by lia.
      rewrite <- weight_shift. split; [reflexivity|]. exact Hc.
Qed.
End Penalty.

Section PRun.
Variables X A : Type.
Variable minimize : Q -> Q -> Q -> X * list Q -> strategy (X * list Q) A.
Variable pw : Q -> Q -> Q.
Variable slacks : nat.
Variable pf_obj : Q -> Q -> nat -> X * list Q -> A.
Variables (o : oarg) (k : okept).
Hypothesis Hk : keep_options o = Ok k.
Notation d := (kept_dict k).
Notation run := (penalty_run minimize pw slacks pf_obj o).
Notation w := (weight (fun m => pw m (oget_or d KTau (3 # 2))) (oget_or d KMu0 2)).

Definition ev_cycle (ev : option event) : Z :=
  match ev with Some e => match e_cycle e with Some c => c | None => 0%Z end | None => 0%Z end.
Definition ev_mu (ev : option event) : Q :=
  match ev with Some e => match e_mu e with Some m => m | None => oget_or d KMu0 2 end | None => oget_or d KMu0 2 end.
Definition body (ev : option event) (x : X) : list (X * event) * X :=
  penalty_cycles minimize pw pf_obj d (Z.to_nat (num_cycles d - ev_cycle ev)) (ev_cycle ev) (ev_mu ev) (iteration_of ev) (x, repeat 0 slacks).

Lemma prun_first mon x : run mon None x =
  ((x, start_event) :: (if mon then fst (body None x) else []) ++ [(snd (body None x), end_event)], Ok (snd (body None x))).
Proof. unfold penalty_run. rewrite Hk. reflexivity. Qed.
Lemma prun_resumed mon e x : (e_stage e = SStart \/ e_stage e = SOptimizing) -> run mon (Some e) x =
  ((if mon then fst (body (Some e) x) else []) ++ [(snd (body (Some e) x), end_event)], Ok (snd (body (Some e) x))).
Proof.
  intros He. unfold penalty_run. rewrite Hk. unfold stages. destruct He as [He|He]; rewrite He; reflexivity.
Qed.
Lemma prun_other mon e x : e_stage e <> SStart -> e_stage e <> SOptimizing -> run mon (Some e) x = ([], Ok x).
Proof.
  intros H1 H2. unfold penalty_run. rewrite Hk. unfold stages. destruct (e_stage e); try congruence; reflexivity.
Qed.
Lemma prun_form mon ev x : exists l r, run mon ev x = (l, Ok r) /\
  ( (ev = None /\ r = snd (body None x) /\ l = (x, start_event) :: (if mon then fst (body None x) else []) ++ [(r, end_event)])
  \/ (exists e, ev = Some e /\ (e_stage e = SStart \/ e_stage e = SOptimizing) /\ r = snd (body (Some e) x) /\
      l = (if mon then fst (body (Some e) x) else []) ++ [(r, end_event)])
  \/ (l = [] /\ r = x)).
Proof.
  destruct ev as [e|].
  - assert (He : (e_stage e = SStart \/ e_stage e = SOptimizing) \/ (e_stage e <> SStart /\ e_stage e <> SOptimizing)).
    { destruct (e_stage e); [left; left | left; right | right; split | right; split]; try reflexivity; discriminate. }
    destruct He as [He|[H1 H2]].
    + eexists _, _. split; [apply (prun_resumed mon e x He)|]. right. left. exists e. auto.
    + eexists _, _. split; [apply (prun_other mon e x H1 H2)|]. right. right. auto.
  - eexists _, _. split; [apply prun_first|]. left. auto.
Qed.
Lemma ptail_split (mon : bool) (l : list (X * event)) r m1 y e m2 :
  (if mon then l else []) ++ [(r, end_event)] = m1 ++ (y, e) :: m2 ->
  (mon = true /\ exists l2, l = m1 ++ (y, e) :: l2 /\ m2 = l2 ++ [(r, end_event)]) \/ (y = r /\ e = end_event /\ m2 = []).
Proof.
  intros H. destruct (@app_split _ _ _ _ _ _ H) as [(a2 & Ha & ->)|(b1 & -> & Hb)].
  - destruct mon; [|destruct m1; discriminate]. left. split; [reflexivity|]. exists a2. auto.
  - right. destruct b1 as [|? [|? ?]]; simpl in Hb; try discriminate. injection Hb as -> -> <-. auto.
Qed.

Definition good (e : event) : Prop :=
  e = start_event \/ e = end_event \/
  exists j i, (0 <= j < num_cycles d)%Z /\ (1 <= i)%Z /\ e = Event SOptimizing (Some i) (Some j) (Some (w (Z.to_nat j))).

Lemma weight_add (g : Q -> Q) m a b : weight g (weight g m a) b = weight g m (b + a).
Proof. induction b as [|b IH]; simpl; [reflexivity|]. now rewrite IH. Qed.

Lemma body_good ev x l1 y e l2 : match ev with Some e => good e | None => True end ->
  fst (body ev x) = l1 ++ (y, e) :: l2 -> good e.
Proof.
  intros Hg H. unfold body in H. destruct (@cycles_event X A minimize pw pf_obj d _ _ _ _ _ _ _ _ _ H) as (j & Hj & ->).
  right. right.
  assert (C : (0 <= ev_cycle ev)%Z /\ ev_mu ev = w (Z.to_nat (ev_cycle ev)) /\ (0 <= iteration_of ev)%Z).
  { destruct ev as [e0|]; [|simpl; repeat split; lia].
    destruct Hg as [->|[->|(j0 & i0 & H1 & H2 & ->)]]; simpl; repeat split; try lia; reflexivity. }
  destruct C as (C1 & C2 & C3).
  exists (ev_cycle ev + Z.of_nat j)%Z, (iteration_of ev + Z.of_nat (length l1) + 1)%Z.
  split; [lia|]. split; [lia|]. f_equal. f_equal. rewrite C2, weight_add. f_equal. lia.
Qed.
Lemma reached_good mon ev x : reached (run mon) ev x -> match ev with Some e => good e | None => True end.
Proof.
  induction 1 as [x|ev x l1 y e l2 r Hre IH H]; [exact I|].
  destruct (prun_form mon ev x) as (l & r' & E & C). rewrite E in H. injection H as H1 <-. clear E.
  destruct C as [(-> & -> & ->)|[(e0 & -> & He & -> & ->)|(-> & ->)]].
  - destruct l1 as [|a l1]; simpl in H1.
    + injection H1 as <- <- _. left. reflexivity.
    + injection H1 as _ H1. destruct (@ptail_split _ _ _ _ _ _ _ H1) as [(-> & q2 & Hq & ->)|(-> & -> & ->)].
      * apply (@body_good None _ _ _ _ _ IH Hq).
      * right. left. reflexivity.
  - destruct (@ptail_split _ _ _ _ _ _ _ H1) as [(-> & q2 & Hq & ->)|(-> & -> & ->)].
    + apply (@body_good (Some e0) _ _ _ _ _ IH Hq).
    + right. left. reflexivity.
  - destruct l1; discriminate.
Qed.

Lemma presume_pf mon ev x l1 y e l2 r :
  (mon = true -> forall k' mu, restartable_stored (cyc_obj pf_obj d mu) (fun y => (fst y, repeat 0 slacks)) (cyc minimize d k')) ->
  run mon ev x = (l1 ++ (y, e) :: l2, r) -> run mon (Some e) y = (l2, r).
Proof.
  intros Hr H. destruct (prun_form mon ev x) as (l & r' & E & C). rewrite E in H. injection H as H1 <-. clear E.
  assert (T : forall m1, (if mon then fst (body ev x) else []) ++ [(snd (body ev x), end_event)] = m1 ++ (y, e) :: l2 ->
    run mon (Some e) y = (l2, Ok (snd (body ev x)))).
  { intros m1 Hm. destruct (@ptail_split _ _ _ _ _ _ _ Hm) as [(-> & q2 & Hq & ->)|(-> & -> & ->)].
    - unfold body in Hq. destruct (@cycles_restart X A minimize pw slacks pf_obj d _ (Hr eq_refl) _ _ _ _ _ _ _ _ Hq) as (j & Hj & -> & Hc).
      rewrite prun_resumed by (right; reflexivity).
      assert (Eb : body (Some (Event SOptimizing (Some (iteration_of ev + Z.of_nat (length m1) + 1)%Z) (Some (ev_cycle ev + Z.of_nat j)%Z)
          (Some (weight (fun m => pw m (oget_or d KTau (3 # 2))) (ev_mu ev) j)))) y = (q2, snd (body ev x))).
      { unfold body at 1. cbn [ev_cycle ev_mu iteration_of e_cycle e_mu e_iter].
        replace (Z.to_nat (num_cycles d - (ev_cycle ev + Z.of_nat j))) with (Z.to_nat (num_cycles d - ev_cycle ev) - j)%nat by lia.
        exact Hc. }
      rewrite Eb. reflexivity.
    - rewrite prun_other by (simpl; discriminate). reflexivity. }
  destruct C as [(-> & -> & ->)|[(e0 & -> & He & -> & ->)|(-> & ->)]].
  - destruct l1 as [|a l1]; simpl in H1.
    + injection H1 as <- <- H2. subst l2. rewrite prun_resumed by (left; reflexivity). reflexivity.
    + injection H1 as _ H2. apply (T l1 H2).
  - apply (T l1 H1).
  - destruct l1; discriminate.
Qed.
End PRun.
