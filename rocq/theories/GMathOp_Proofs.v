(** Arithmetic with goos functions. *)
From Coq Require Import Reals ZArith Relations Lra Psatz Ring.
From Verif Require Obj_Model.
From Verif Require Import Obj_Spec Obj_Proofs.
From Verif Require Import Base GraphExec_Spec Shape_Model GMath_Model GMath_Spec GMath_Proofs GMath_Proofs2 GMath_Proofs3 GMath_Proofs4 GMath_Proofs6 GMathOp_Spec.
Set Implicit Arguments.
Local Open Scope R_scope.

(** *** evaluation of lists *)
Lemma evaluate_node env k l : (forall x, k <> KVar x) -> evaluate env (Node k l) = bind (mapM (evaluate env) l) (keval k).
Proof.
  intros Hk. assert (H : forall l, (fix all (l : list expr) : res (list arr) :=
     match l with [] => Ok [] | e :: l' => bind (evaluate env e) (fun v => bind (all l') (fun vs => Ok (v :: vs))) end) l = mapM (evaluate env) l).
  { induction l0 as [|e l0 IH]; [reflexivity|]. cbn [mapM]. rewrite <- IH. reflexivity. }
  destruct k; try (cbn [evaluate]; rewrite H; reflexivity). destruct (Hk x eq_refl).
Qed.
Lemma mapM_app {A B} (f : A -> res B) l l' : mapM f (l ++ l') = bind (mapM f l) (fun a => bind (mapM f l') (fun b => Ok (a ++ b))).
Proof.
  induction l as [|x l IH]; cbn [mapM app bind].
  - destruct (mapM f l'); reflexivity.
  - destruct (f x); cbn [bind]; [|reflexivity]. rewrite IH. destruct (mapM f l); cbn [bind]; [|reflexivity]. destruct (mapM f l'); reflexivity.
Qed.

(** *** broadcasting, also of empty arrays *)
Lemma bcast_inv0 f a b r : bcast f a b = Ok r -> fits (length r) a /\ fits (length r) b /\ (length a = length r \/ length b = length r).
Proof.
  intros H. unfold bcast, fits in *. destruct (Nat.eqb_spec (length a) (length b)) as [E|E].
  - injection H as <-. rewrite map_length, combine_length. lia.
  - destruct a as [|x [|x' a]].
    + destruct b as [|y [|y' b]]; try discriminate. injection H as <-. cbn. lia.
    + injection H as <-. rewrite map_length. cbn in *. lia.
    + destruct b as [|y [|y' b]]; try discriminate. injection H as <-. cbn in *. rewrite map_length. lia.
Qed.
Lemma reduce_inv0 f l : forall a r, reduce f a l = Ok r ->
  fits (length r) a /\ Forall (fits (length r)) l /\ (length a = length r \/ Exists (fun b => length b = length r) l).
Proof.
  induction l as [|b l IH]; intros a r; cbn [reduce]; intros H.
  - injection H as <-. split; [now right|]. split; [constructor|now left].
  - destruct (bcast f a b) as [c|] eqn:Ec; [|discriminate]. cbn [bind] in H.
    destruct (bcast_inv0 f a b Ec) as (F1 & F2 & Hor). destruct (IH c r H) as (G1 & G2 & G3).
    assert (Ht : forall x, fits (length c) x -> fits (length r) x) by (unfold fits in *; intros x [Hx|Hx]; lia).
    split; [now apply Ht|]. split; [constructor; auto|]. destruct G3 as [G3|G3]; [|auto].
    destruct Hor as [Hor|Hor]; [left; lia|right; left; lia].
Qed.
Lemma np_reduce_inv0 f u l r : l <> [] -> np_reduce f u l = Ok r -> Forall (fits (length r)) l /\ Exists (fun b => length b = length r) l.
Proof.
  intros Hn H. destruct l as [|a l]; [contradiction|]. cbn in H. destruct (@reduce_inv0 f l a r H) as (F1 & F2 & F3).
  split; [now constructor|]. destruct F3; [now left|now right].
Qed.

(** *** Sum and Product alike *)
Section Joined.
Variable k : kind.
Variable f : C -> C -> C.
Variable unit : C.
Hypothesis Hk : forall ivs, keval k ivs = bind (dominant ivs) (fun _ => bind (np_reduce f unit (map dat ivs)) (fun l => Ok (mkarr (existsb cpx ivs) l))).
Hypothesis f_assoc : forall x y z, f x (f y z) = f (f x y) z.
Hypothesis f_comm : forall x y, f x y = f y x.
Hypothesis f_unit : forall x, f unit x = x.
Lemma f_unit_r x : f x unit = x.
Proof using f_comm f_unit. now rewrite f_comm. Qed.
Notation tot := (total f unit).

Lemma tot_app l l' j : tot (l ++ l') j = f (tot l j) (tot l' j).
Proof using f_assoc f_unit.
  unfold total. induction l as [|a l IH]; cbn [app map fold_right]; [now rewrite f_unit|]. rewrite IH. now rewrite f_assoc.
Qed.
(** the value of a list of terms *)
Definition joined (vs : list arr) (c : arr) : Prop :=
  vs <> [] /\ Forall (fun a => fits (size c) (dat a)) vs /\ Exists (fun a => size a = size c) vs /\ cpx c = existsb cpx vs /\
  forall j, (j < size c)%nat -> entry c j = tot (map dat vs) j.
Lemma keval_joined vs c : keval k vs = Ok c -> joined vs c.
Proof using Hk f_assoc f_comm f_unit.
  rewrite Hk. intros H. destruct vs as [|v vs']; [discriminate|]. set (vs := v :: vs') in *. destruct (dominant vs); [|discriminate]. cbn [bind] in H.
  destruct (np_reduce f unit (map dat vs)) as [r|] eqn:Er; [|discriminate]. injection H as <-.
  destruct (@np_reduce_inv0 f unit (map dat vs) r) as (H1 & H2); [discriminate|exact Er|].
  destruct (@np_reduce_ok f unit f_assoc f_unit_r (length r) (map dat vs) H1) as (r' & Er' & _ & _ & Hj). rewrite Er in Er'. injection Er' as <-.
  split; [discriminate|]. split; [exact (proj1 (Forall_map _ _ _) H1)|]. split; [exact (proj1 (Exists_map _ _ _) H2)|]. split; [reflexivity|].
  intros j Hjl. unfold entry. cbn [dat]. rewrite <- Hj by exact Hjl. symmetry. apply bget_nth. exact Hjl.
Qed.
Lemma joined_one a : joined [a] a.
Proof using f_comm f_unit.
  split; [discriminate|]. split; [constructor; [now right|constructor]|]. split; [now left|]. split; [cbn; now rewrite orb_false_r|].
  intros j Hj. cbn. rewrite f_unit_r. unfold entry. symmetry. now apply bget_nth.
Qed.
Lemma bentry_bget a j : bentry a j = bget (dat a) j.
Proof using. unfold bentry, entry. symmetry. now apply bget_where. Qed.
Lemma joined_bentry vs a m j : joined vs a -> fits m (dat a) -> (j < m)%nat -> Forall (fun x => fits m (dat x)) vs -> bentry a j = tot (map dat vs) j.
Proof using.
  intros (_ & Hf & _ & _ & He) Ha Hj _. rewrite bentry_bget. unfold fits in Ha. destruct (Nat.eq_dec (length (dat a)) 1) as [E|E].
  - destruct (one_entry _ E) as (x & Ex). rewrite Ex. cbn [bget]. assert (Hx := He 0%nat). unfold entry, size in Hx. rewrite Ex in Hx. cbn in Hx. rewrite Hx by lia.
    unfold total. f_equal. rewrite !map_map. apply map_ext_Forall. revert Hf. apply Forall_impl. intros b Hb. unfold size in Hb. rewrite E in Hb. assert (Hb1 : length (dat b) = 1%nat) by (destruct Hb; assumption).
    destruct (one_entry _ Hb1) as (y & Ey). rewrite Ey. reflexivity.
  - destruct Ha as [Ha|Ha]; [contradiction|]. assert (Hx := He j). unfold size in Hx. rewrite Ha in Hx. rewrite bget_nth by lia. now apply Hx.
Qed.
(** joining two groups of terms *)
Lemma joined_app vs vs' a b c : joined vs a -> joined vs' b -> joined (vs ++ vs') c -> entrywise f a b c /\ cpx c = cpx a || cpx b.
Proof using f_assoc f_unit.
  intros Ha Hb Hc. assert (Ha0 := Ha). assert (Hb0 := Hb).
  destruct Ha as (_ & A1 & A2 & A3 & A4), Hb as (_ & B1 & B2 & B3 & B4), Hc as (_ & C1 & C2 & C3 & C4).
  apply Forall_app in C1 as (C1 & C1').
  assert (Fa : fits (size c) (dat a)).
  { apply Exists_exists in A2 as (x & Hx & E). rewrite Forall_forall in C1. specialize (C1 x Hx). unfold fits, size in *. lia. }
  assert (Fb : fits (size c) (dat b)).
  { apply Exists_exists in B2 as (x & Hx & E). rewrite Forall_forall in C1'. specialize (C1' x Hx). unfold fits, size in *. lia. }
  split; [|rewrite C3, existsb_app; congruence].
  split; [exact Fa|]. split; [exact Fb|]. split.
  - apply Exists_app in C2 as [C2|C2]; apply Exists_exists in C2 as (x & Hx & E).
    + rewrite Forall_forall in A1. specialize (A1 x Hx). destruct A1 as [A1|A1]; unfold size, fits in *; [|left; lia]. destruct Fa; lia.
    + rewrite Forall_forall in B1. specialize (B1 x Hx). destruct B1 as [B1|B1]; unfold size, fits in *; [|right; lia]. destruct Fb; lia.
  - intros j Hj. rewrite C4 by exact Hj. rewrite map_app, tot_app. rewrite (joined_bentry Ha0 Fa Hj C1), (joined_bentry Hb0 Fb Hj C1'). reflexivity.
Qed.
Lemma entrywise_comm a b c : entrywise f a b c -> entrywise f b a c.
Proof using f_comm. intros (H1 & H2 & H3 & H4). split; [exact H2|]. split; [exact H1|]. split; [tauto|]. intros j Hj. rewrite H4 by exact Hj. apply f_comm. Qed.

(** when the terms can be joined *)
Lemma mixable_ok vs : vs <> [] -> Forall (fun a => size a <> 0%nat) vs -> mixable vs <-> exists c, keval k vs = Ok c.
Proof using Hk f_assoc f_comm f_unit.
  intros Hne Hz. rewrite Hk. destruct vs as [|a0 l]; [contradiction|]. clear Hne. set (vs := a0 :: l) in *.
  assert (Hfil : length (filter (fun i => Nat.ltb 1 (size (nth i vs a0))) (seq 0 (length vs))) = length (filter (fun a => Nat.ltb 1 (size a)) vs)).
  { rewrite <- (map_length (fun i => nth i vs a0) (filter _ _)). f_equal. generalize a0 as d. generalize vs as w. clear. intros w d.
    assert (H : forall n, map (fun i => nth i w d) (filter (fun i => Nat.ltb 1 (size (nth i w d))) n) = filter (fun a => Nat.ltb 1 (size a)) (map (fun i => nth i w d) n)).
    { induction n as [|x n IH]; cbn [map filter]; [reflexivity|]. destruct (Nat.ltb 1 (size (nth x w d))); cbn [map]; now rewrite IH. }
    rewrite H. f_equal. symmetry. etransitivity; [symmetry; apply map_id|exact (map_nth_seq (fun a => a) w d)]. }
  assert (Hdom : (exists d, dominant vs = Ok d) <-> mixable vs).
  { unfold dominant. change (match vs with [] => Err IndexError | a :: _ => _ end) with
      (if forallb (fun b => Nat.eqb (size b) (size a0)) vs then Ok 0%nat else match filter (fun i => Nat.ltb 1 (size (nth i vs a0))) (seq 0 (length vs)) with [] => Ok 0%nat | [i] => Ok i | _ => Err ValueError end).
    destruct (forallb (fun b => Nat.eqb (size b) (size a0)) vs) eqn:E.
    - split; [|eauto]. intros _. left. rewrite forallb_forall in E. intros a b Ha Hb. apply E in Ha, Hb. apply Nat.eqb_eq in Ha, Hb. congruence.
    - unfold mixable. rewrite <- Hfil. destruct (filter (fun i => Nat.ltb 1 (size (nth i vs a0))) (seq 0 (length vs))) as [|i [|i' l']].
      + split; [right; cbn; lia|eauto].
      + split; [right; cbn; lia|eauto].
      + split; [intros (d & H); discriminate|]. intros [H|H]; [|cbn in H; lia]. exfalso.
        assert (forallb (fun b => Nat.eqb (size b) (size a0)) vs = true); [|congruence]. apply forallb_forall. intros b Hb. apply Nat.eqb_eq. apply H; [exact Hb|now left]. }
  split.
  - intros Hm. destruct (proj2 Hdom Hm) as (d & ->). cbn [bind].
    assert (Hfit : exists m, Forall (fits m) (map dat vs)).
    { destruct Hm as [Hm|Hm].
      - exists (size a0). apply Forall_map, Forall_forall. intros b Hb. right. apply Hm; [exact Hb|now left].
      - destruct (filter (fun a => Nat.ltb 1 (size a)) vs) as [|b [|b' w]] eqn:Ef; [| |cbn in Hm; lia].
        + exists 1%nat. apply Forall_map, Forall_forall. intros x Hx. left. rewrite Forall_forall in Hz. specialize (Hz x Hx). destruct (Nat.ltb 1 (size x)) eqn:Ex.
          * assert (Hi : In x (filter (fun a => Nat.ltb 1 (size a)) vs)) by (apply filter_In; now split). rewrite Ef in Hi. destruct Hi.
          * apply Nat.ltb_ge in Ex. unfold size in *. lia.
        + exists (size b). apply Forall_map, Forall_forall. intros x Hx. rewrite Forall_forall in Hz. specialize (Hz x Hx). destruct (Nat.ltb 1 (size x)) eqn:Ex.
          * assert (Hi : In x (filter (fun a => Nat.ltb 1 (size a)) vs)) by (apply filter_In; now split). rewrite Ef in Hi. destruct Hi as [<-|[]]. now right.
          * left. apply Nat.ltb_ge in Ex. unfold size in *. lia. }
    destruct Hfit as (m & Hfit). destruct (@np_reduce_ok f unit f_assoc f_unit_r m (map dat vs) Hfit) as (r & -> & _). cbn [bind]. eauto.
  - intros (c & Hc). apply Hdom. destruct (dominant vs); [eauto|discriminate].
Qed.
End Joined.

Lemma keval_sum ivs : keval KSum ivs = bind (dominant ivs) (fun _ => bind (np_reduce cadd (creal 0) (map dat ivs)) (fun l => Ok (mkarr (existsb cpx ivs) l))).
Proof. reflexivity. Qed.
Lemma keval_prod ivs : keval KProd ivs = bind (dominant ivs) (fun _ => bind (np_reduce cmul (creal 1) (map dat ivs)) (fun l => Ok (mkarr (existsb cpx ivs) l))).
Proof. reflexivity. Qed.
Lemma cadd_assoc x y z : cadd x (cadd y z) = cadd (cadd x y) z. Proof. ring. Qed.
Lemma cadd_comm x y : cadd x y = cadd y x. Proof. ring. Qed.
Lemma cadd_0 x : cadd (creal 0) x = x. Proof. change (creal 0) with c0. ring. Qed.
Lemma cmul_assoc x y z : cmul x (cmul y z) = cmul (cmul x y) z. Proof. ring. Qed.
Lemma cmul_comm x y : cmul x y = cmul y x. Proof. ring. Qed.
Lemma cmul_1 x : cmul (creal 1) x = x. Proof. change (creal 1) with c1. ring. Qed.

(** *** the operators *)
Definition sum_of := joined cadd (creal 0).
Definition prod_of := joined cmul (creal 1).
Lemma evaluate_sum env l : evaluate env (Node KSum l) = bind (mapM (evaluate env) l) (keval KSum).
Proof. apply evaluate_node. discriminate. Qed.
Lemma evaluate_prod env l : evaluate env (Node KProd l) = bind (mapM (evaluate env) l) (keval KProd).
Proof. apply evaluate_node. discriminate. Qed.
Lemma value_sum env l c : evaluate env (Node KSum l) = Ok c -> exists vs, mapM (evaluate env) l = Ok vs /\ sum_of vs c.
Proof.
  rewrite evaluate_sum. destruct (mapM (evaluate env) l) as [vs|]; cbn [bind]; [|discriminate]. intros H. exists vs. split; [reflexivity|].
  exact (@keval_joined KSum cadd (creal 0) keval_sum cadd_assoc cadd_comm cadd_0 vs c H).
Qed.
Lemma value_prod env l c : evaluate env (Node KProd l) = Ok c -> exists vs, mapM (evaluate env) l = Ok vs /\ prod_of vs c.
Proof.
  rewrite evaluate_prod. destruct (mapM (evaluate env) l) as [vs|]; cbn [bind]; [|discriminate]. intros H. exists vs. split; [reflexivity|].
  exact (@keval_joined KProd cmul (creal 1) keval_prod cmul_assoc cmul_comm cmul_1 vs c H).
Qed.
Lemma mapM_one {A B} (f : A -> res B) x y : f x = Ok y -> mapM f [x] = Ok [y].
Proof. intros H. cbn. now rewrite H. Qed.
Lemma summands_value env x a : value env x = Ok a -> exists vs, mapM (evaluate env) (summands x) = Ok vs /\ sum_of vs a.
Proof.
  intros H. assert (H1 : sum_of [a] a) by exact (@joined_one cadd (creal 0) cadd_comm cadd_0 a).
  destruct x as [z c|b|[k l]|]; cbn [value] in H.
  - exists [a]. split; [|exact H1]. apply mapM_one. exact H.
  - exists [a]. split; [|exact H1]. apply mapM_one. exact H.
  - destruct k; try (exists [a]; split; [apply mapM_one; exact H|exact H1]). now apply value_sum.
  - discriminate.
Qed.
Lemma factors_value env x a : value env x = Ok a -> exists vs, mapM (evaluate env) (factors x) = Ok vs /\ prod_of vs a.
Proof.
  intros H. assert (H1 : prod_of [a] a) by exact (@joined_one cmul (creal 1) cmul_comm cmul_1 a).
  destruct x as [z c|b|[k l]|]; cbn [value] in H.
  - exists [a]. split; [|exact H1]. apply mapM_one. exact H.
  - exists [a]. split; [|exact H1]. apply mapM_one. exact H.
  - destruct k; try (exists [a]; split; [apply mapM_one; exact H|exact H1]). now apply value_prod.
  - discriminate.
Qed.
Lemma ceq_spec x y : ceq x y = true <-> x = y.
Proof.
  unfold ceq. destruct x as (a, b), y as (c, d). cbn. destruct (Req_EM_T a c) as [->|H]; [|split; [discriminate|congruence]].
  destruct (Req_EM_T b d) as [->|H]; [tauto|split; [discriminate|congruence]].
Qed.
(** the formula that an addition builds *)
Definition swapped {A} (l1 l2 l : list A) : Prop := l = l1 ++ l2 \/ l = l2 ++ l1.
Lemma node_add_terms e y r : node_add e y = Ok r ->
  (exists c, y = PNum (creal 0) c /\ (forall l, e <> Node KSum l) /\ r = e) \/ exists l, r = Node KSum l /\ swapped (summands (PObj e)) (summands y) l.
Proof.
  intros H. unfold node_add in H. destruct e as [k l].
  assert (Hsum : forall l r, sum_add l y = Ok r -> exists l', r = Node KSum l' /\ l' = l ++ summands y).
  { intros l1 r1 H1. unfold sum_add in H1. destruct y as [z c|b|[k' l']|]; [injection H1 as <-; cbn; eauto|injection H1 as <-; cbn; eauto| |discriminate].
    destruct k'; injection H1 as <-; cbn; eauto. }
  assert (Hfun : (forall l', k <> KSum \/ Node k l <> Node KSum l') -> k <> KSum -> fun_add (Node k l) y = Ok r ->
     (exists c, y = PNum (creal 0) c /\ (forall l', Node k l <> Node KSum l') /\ r = Node k l) \/ exists l', r = Node KSum l' /\ swapped (summands (PObj (Node k l))) (summands y) l').
  { intros _ Hk H1. assert (Hs : summands (PObj (Node k l)) = [Node k l]) by (destruct k; try reflexivity; congruence). unfold fun_add in H1.
    destruct y as [z c|b|[k' l']|].
    - destruct (ceq z (creal 0)) eqn:E.
      + apply ceq_spec in E. subst z. injection H1 as <-. left. exists c. split; [reflexivity|]. split; [congruence|reflexivity].
      + injection H1 as <-. right. eexists. split; [reflexivity|]. left. rewrite Hs. reflexivity.
    - injection H1 as <-. right. eexists. split; [reflexivity|]. left. rewrite Hs. reflexivity.
    - right. destruct k'; try (injection H1 as <-; eexists; split; [reflexivity|]; left; rewrite Hs; reflexivity).
      destruct k; try (injection H1 as <-; eexists; split; [reflexivity|]; right; reflexivity).
    - discriminate. }
  destruct k; try (apply Hfun; [intros; left; discriminate|discriminate|exact H]).
  right. destruct (Hsum _ _ H) as (l' & -> & ->). eexists. split; [reflexivity|]. left. reflexivity.
Qed.
Lemma node_mul_terms e y r : node_mul e y = Ok r ->
  (exists c, y = PNum (creal 1) c /\ (forall l, e <> Node KProd l) /\ r = e) \/ exists l, r = Node KProd l /\ swapped (factors (PObj e)) (factors y) l.
Proof.
  intros H. unfold node_mul in H. destruct e as [k l].
  assert (Hsum : forall l r, prod_mul l y = Ok r -> exists l', r = Node KProd l' /\ l' = l ++ factors y).
  { intros l1 r1 H1. unfold prod_mul in H1. destruct y as [z c|b|[k' l']|]; [injection H1 as <-; cbn; eauto|injection H1 as <-; cbn; eauto| |discriminate].
    destruct k'; injection H1 as <-; cbn; eauto. }
  assert (Hfun : k <> KProd -> fun_mul (Node k l) y = Ok r ->
     (exists c, y = PNum (creal 1) c /\ (forall l', Node k l <> Node KProd l') /\ r = Node k l) \/ exists l', r = Node KProd l' /\ swapped (factors (PObj (Node k l))) (factors y) l').
  { intros Hk H1. assert (Hs : factors (PObj (Node k l)) = [Node k l]) by (destruct k; try reflexivity; congruence). unfold fun_mul in H1.
    destruct y as [z c|b|[k' l']|].
    - destruct (ceq z (creal 1)) eqn:E.
      + apply ceq_spec in E. subst z. injection H1 as <-. left. exists c. split; [reflexivity|]. split; [congruence|reflexivity].
      + injection H1 as <-. right. eexists. split; [reflexivity|]. left. rewrite Hs. reflexivity.
    - injection H1 as <-. right. eexists. split; [reflexivity|]. left. rewrite Hs. reflexivity.
    - right. destruct k'; try (injection H1 as <-; eexists; split; [reflexivity|]; left; rewrite Hs; reflexivity).
      destruct k; try (injection H1 as <-; eexists; split; [reflexivity|]; right; reflexivity).
    - discriminate. }
  destruct k; try (apply Hfun; [discriminate|exact H]).
  right. destruct (Hsum _ _ H) as (l' & -> & ->). eexists. split; [reflexivity|]. left. reflexivity.
Qed.

Lemma entrywise_unit f u (a : arr) c : (forall x, f x u = x) -> entrywise f a (mkarr c [u]) a.
Proof.
  intros Hu. split; [now right|]. split; [now left|]. split; [now left|]. intros j Hj. unfold bentry at 2. cbn. rewrite Hu. unfold bentry, entry.
  destruct (Nat.eqb_spec (size a) 1) as [E|E]; [|reflexivity]. now replace j with 0%nat by lia.
Qed.
Lemma node_add_value env e y r a b c : node_add e y = Ok r -> evaluate env e = Ok a -> value env y = Ok b -> evaluate env r = Ok c ->
  entrywise cadd a b c /\ (cpx a = false -> cpx b = false -> cpx c = false).
Proof.
  intros H Ha Hb Hc. destruct (node_add_terms _ _ H) as [(z & -> & _ & ->)|(l & -> & Hl)].
  - cbn in Hb. injection Hb as <-. rewrite Ha in Hc. injection Hc as <-. split; [|auto]. apply entrywise_unit. intros x. rewrite cadd_comm. apply cadd_0.
  - destruct (value_sum _ _ Hc) as (vs & Hvs & Hj). destruct (summands_value env (PObj e) Ha) as (va & Hva & Ja). destruct (summands_value env y Hb) as (vb & Hvb & Jb).
    destruct Hl as [->| ->]; rewrite mapM_app, ?Hva, ?Hvb in Hvs; cbn [bind] in Hvs; rewrite ?Hva, ?Hvb in Hvs; cbn [bind] in Hvs; injection Hvs as <-.
    + destruct (@joined_app cadd (creal 0) cadd_assoc cadd_0 va vb a b c Ja Jb Hj) as (H1 & H2). split; [exact H1|]. intros E1 E2. now rewrite H2, E1, E2.
    + destruct (@joined_app cadd (creal 0) cadd_assoc cadd_0 vb va b a c Jb Ja Hj) as (H1 & H2). split; [now apply (entrywise_comm cadd_comm)|]. intros E1 E2. now rewrite H2, E1, E2.
Qed.
Lemma node_mul_value env e y r a b c : node_mul e y = Ok r -> evaluate env e = Ok a -> value env y = Ok b -> evaluate env r = Ok c ->
  entrywise cmul a b c /\ (cpx a = false -> cpx b = false -> cpx c = false).
Proof.
  intros H Ha Hb Hc. destruct (node_mul_terms _ _ H) as [(z & -> & _ & ->)|(l & -> & Hl)].
  - cbn in Hb. injection Hb as <-. rewrite Ha in Hc. injection Hc as <-. split; [|auto]. apply entrywise_unit. intros x. rewrite cmul_comm. apply cmul_1.
  - destruct (value_prod _ _ Hc) as (vs & Hvs & Hj). destruct (factors_value env (PObj e) Ha) as (va & Hva & Ja). destruct (factors_value env y Hb) as (vb & Hvb & Jb).
    destruct Hl as [->| ->]; rewrite mapM_app, ?Hva, ?Hvb in Hvs; cbn [bind] in Hvs; rewrite ?Hva, ?Hvb in Hvs; cbn [bind] in Hvs; injection Hvs as <-.
    + destruct (@joined_app cmul (creal 1) cmul_assoc cmul_1 va vb a b c Ja Jb Hj) as (H1 & H2). split; [exact H1|]. intros E1 E2. now rewrite H2, E1, E2.
    + destruct (@joined_app cmul (creal 1) cmul_assoc cmul_1 vb va b a c Jb Ja Hj) as (H1 & H2). split; [now apply (entrywise_comm cmul_comm)|]. intros E1 E2. now rewrite H2, E1, E2.
Qed.
Definition obj_value env (z : operand) (c : arr) : Prop := exists e, z = PObj e /\ evaluate env e = Ok c.
Lemma obj_inv r z : obj r = Ok z -> exists e, r = Ok e /\ z = PObj e.
Proof. unfold obj. destruct r as [e|]; cbn [bind]; [|discriminate]. intros H. injection H as <-. eauto. Qed.
Lemma add_value env x y z a b c : py_add x y = Ok z -> value env x = Ok a -> value env y = Ok b -> value env z = Ok c ->
  entrywise cadd a b c /\ (cpx a = false -> cpx b = false -> cpx c = false).
Proof.
  intros H Ha Hb Hc.
  assert (Hs : forall e, y = PObj e -> obj (node_add e x) = Ok z -> entrywise cadd a b c /\ (cpx a = false -> cpx b = false -> cpx c = false)).
  { intros e -> H1. apply obj_inv in H1 as (r & E & ->). destruct (@node_add_value env e x r b a c E Hb Ha Hc) as (H2 & H3). split; [now apply (entrywise_comm cadd_comm)|auto]. }
  destruct x as [w k|d|e|]; cbn [py_add] in H.
  - destruct y as [|d|e|]; try discriminate. eapply Hs; [reflexivity|exact H].
  - destruct y; discriminate.
  - apply obj_inv in H as (r & E & ->). exact (@node_add_value env e y r a b c E Ha Hb Hc).
  - discriminate.
Qed.
Lemma mul_value env x y z a b c : py_mul x y = Ok z -> value env x = Ok a -> value env y = Ok b -> value env z = Ok c ->
  entrywise cmul a b c /\ (cpx a = false -> cpx b = false -> cpx c = false).
Proof.
  intros H Ha Hb Hc.
  assert (Hs : forall e, y = PObj e -> obj (node_mul e x) = Ok z -> entrywise cmul a b c /\ (cpx a = false -> cpx b = false -> cpx c = false)).
  { intros e -> H1. apply obj_inv in H1 as (r & E & ->). destruct (@node_mul_value env e x r b a c E Hb Ha Hc) as (H2 & H3). split; [now apply (entrywise_comm cmul_comm)|auto]. }
  destruct x as [w k|d|e|]; cbn [py_mul] in H.
  - destruct y as [|d|e|]; try discriminate. eapply Hs; [reflexivity|exact H].
  - destruct y; discriminate.
  - apply obj_inv in H as (r & E & ->). exact (@node_mul_value env e y r a b c E Ha Hb Hc).
  - discriminate.
Qed.

(** *** minus *)
Definition negated (a c : arr) : Prop := size c = size a /\ forall j, (j < size a)%nat -> entry c j = cscale (-1) (entry a j).
Lemma bentry_in a j m : (size a = 1 \/ size a = m)%nat -> (j < m)%nat -> exists i, (i < size a)%nat /\ bentry a j = entry a i /\ i = (if Nat.eqb (size a) 1 then 0 else j)%nat.
Proof.
  intros Ha Hj. eexists. split; [|split; reflexivity]. destruct (Nat.eqb_spec (size a) 1); lia.
Qed.
Lemma negated_bentry a c j m : negated a c -> (size a = 1 \/ size a = m)%nat -> (j < m)%nat -> bentry c j = cscale (-1) (bentry a j).
Proof.
  intros (H1 & H2) Ha Hj. unfold bentry. rewrite H1. destruct (bentry_in a Ha Hj) as (i & Hi & _ & ->). exact (H2 _ Hi).
Qed.
Lemma neg_value env x z a c : py_neg x = Ok z -> value env x = Ok a -> value env z = Ok c -> negated a c.
Proof.
  intros H Ha Hc. destruct x as [w k|d|e|]; cbn [py_neg] in H.
  - injection H as <-. cbn in Ha, Hc. injection Ha as <-. injection Hc as <-. split; [reflexivity|]. intros [|j] Hj; [reflexivity|cbn in Hj; lia].
  - injection H as <-. cbn in Ha, Hc. injection Ha as <-. injection Hc as <-. split; [unfold size; cbn; now rewrite map_length|]. intros j Hj. unfold entry. cbn.
    rewrite (nth_indep _ (creal 0) (cscale (-1) (creal 0))) by (rewrite map_length; exact Hj). apply map_nth.
  - destruct (node_neg e) as [e'|] eqn:E; cbn [bind] in H; [|discriminate]. injection H as <-. cbn [value] in Ha, Hc.
    destruct (@node_mul_value env e (PNum (creal (-1)) false) e' a _ c E Ha eq_refl Hc) as ((H1 & H2 & H3 & H4) & _). unfold size in *. cbn [dat length] in *.
    assert (Hs : length (dat c) = length (dat a)) by lia. split; [exact Hs|]. intros j Hj. unfold size in Hj. rewrite H4 by lia. unfold bentry at 2. cbn. unfold bentry.
    destruct (Nat.eqb_spec (size a) 1) as [E1|E1]; [unfold size in E1; replace j with 0%nat by lia|]; unfold cmul, cscale, creal, entry; cbn; f_equal; ring.
  - discriminate.
Qed.
Lemma node_neg_prod e e' : node_neg e = Ok e' -> exists l, e' = Node KProd l.
Proof.
  intros H. destruct (node_mul_terms _ _ H) as [(c & E & _)|(l & -> & _)]; [|eauto]. exfalso. apply (f_equal (fun x => match x with PNum z _ => fst z | _ => 0 end)) in E. cbn in E. lra.
Qed.
Lemma neg_obj e z : py_neg (PObj e) = Ok z -> exists l, z = PObj (Node KProd l).
Proof.
  cbn. destruct (node_neg e) as [e'|] eqn:E; cbn [bind]; [|discriminate]. intros H. injection H as <-. destruct (node_neg_prod _ E) as (l & ->). eauto.
Qed.
Lemma mapM_In {A B} (f : A -> res B) l vs x : mapM f l = Ok vs -> In x l -> exists y, f x = Ok y.
Proof.
  revert vs. induction l as [|a l IH]; intros vs H Hx; [destruct Hx|]. cbn [mapM] in H. destruct Hx as [->|Hx].
  - destruct (f x); [eauto|discriminate].
  - destruct (f a); cbn [bind] in H; [|discriminate]. destruct (mapM f l) as [v|] eqn:E; [|discriminate]. eapply IH; [reflexivity|exact Hx].
Qed.
Lemma swapped_In {A} (l1 l2 l : list A) x : swapped l1 l2 l -> In x l1 \/ In x l2 -> In x l.
Proof. intros [->| ->] H; apply in_or_app; tauto. Qed.
(** whatever is added has a value if the sum has one *)
Lemma node_add_known env e y r c : node_add e y = Ok r -> evaluate env r = Ok c ->
  ((forall l, e <> Node KSum l) -> exists a, evaluate env e = Ok a) /\ ((forall l, y <> PObj (Node KSum l)) -> y <> POther -> exists b, value env y = Ok b).
Proof.
  intros H Hc. destruct (node_add_terms _ _ H) as [(z & -> & _ & ->)|(l & -> & Hl)].
  - split; [eauto|]. intros _ _. cbn. eauto.
  - destruct (value_sum _ _ Hc) as (vs & Hvs & _). split.
    + intros He. apply (mapM_In _ _ e Hvs). apply (swapped_In e Hl). left. destruct e as [k le]. destruct k; try (now left). destruct (He le eq_refl).
    + intros Hy Ho. destruct y as [z k|d|[k ly]|]; [cbn; eauto|cbn; eauto| |congruence]. apply (mapM_In _ _ (Node k ly) Hvs). apply (swapped_In _ Hl). right.
      destruct k; try (now left). destruct (Hy ly eq_refl).
Qed.
Lemma node_mul_known env e y r c : node_mul e y = Ok r -> evaluate env r = Ok c ->
  ((forall l, e <> Node KProd l) -> exists a, evaluate env e = Ok a) /\ ((forall l, y <> PObj (Node KProd l)) -> y <> POther -> exists b, value env y = Ok b).
Proof.
  intros H Hc. destruct (node_mul_terms _ _ H) as [(z & -> & _ & ->)|(l & -> & Hl)].
  - split; [eauto|]. intros _ _. cbn. eauto.
  - destruct (value_prod _ _ Hc) as (vs & Hvs & _). split.
    + intros He. apply (mapM_In _ _ e Hvs). apply (swapped_In e Hl). left. destruct e as [k le]. destruct k; try (now left). destruct (He le eq_refl).
    + intros Hy Ho. destruct y as [z k|d|[k ly]|]; [cbn; eauto|cbn; eauto| |congruence]. apply (mapM_In _ _ (Node k ly) Hvs). apply (swapped_In _ Hl). right.
      destruct k; try (now left). destruct (Hy ly eq_refl).
Qed.
Lemma entrywise_negated a b b' c : entrywise cadd a b' c -> negated b b' -> entrywise csub a b c.
Proof.
  intros (H1 & H2 & H3 & H4) Hn. assert (Hs := proj1 Hn). rewrite Hs in H2, H3. split; [exact H1|]. split; [exact H2|]. split; [exact H3|].
  intros j Hj. rewrite H4 by exact Hj. unfold csub. f_equal. exact (negated_bentry Hn H2 Hj).
Qed.
Lemma sub_value env x y z a b c : py_sub x y = Ok z -> value env x = Ok a -> value env y = Ok b -> value env z = Ok c -> entrywise csub a b c.
Proof.
  intros H Ha Hb Hc. destruct x as [w k|d|e|]; cbn [py_sub] in H.
  - destruct y as [|d|e|]; try discriminate. destruct (node_neg e) as [e'|] eqn:E; cbn [bind] in H; [|discriminate]. apply obj_inv in H as (r & Hr & ->).
    cbn [value] in Hc. destruct (node_add_known env _ _ Hr Hc) as (Hk & _). destruct (node_neg_prod _ E) as (l & El). destruct Hk as (b' & Hb'); [rewrite El; discriminate|].
    assert (Hn : negated b b'). { apply (@neg_value env (PObj e) (PObj e')); [cbn; now rewrite E|exact Hb|exact Hb']. }
    destruct (@node_add_value env e' (PNum w k) r b' a c Hr Hb' Ha Hc) as (H1 & _). apply (entrywise_negated (b' := b')); [|exact Hn]. now apply (entrywise_comm cadd_comm).
  - destruct y; discriminate.
  - destruct (py_neg y) as [y'|] eqn:E; cbn [bind] in H; [|discriminate]. apply obj_inv in H as (r & Hr & ->). cbn [value] in Hc.
    destruct (node_add_known env _ _ Hr Hc) as (_ & Hk). destruct Hk as (b' & Hb').
    { intros l ->. destruct y as [| |e2|]; try discriminate. apply neg_obj in E as (l' & E). congruence. }
    { intros ->. destruct y as [| |e2|]; try discriminate. apply neg_obj in E as (l' & E). congruence. }
    destruct (@node_add_value env e y' r a b' c Hr Ha Hb' Hc) as (H1 & _). apply (entrywise_negated (b' := b')); [exact H1|]. exact (@neg_value env y y' b b' E Hb Hb').
  - discriminate.
Qed.

(** *** division *)
Lemma Int_part_IZR z : Int_part (IZR z) = z.
Proof.
  destruct (base_Int_part (IZR z)) as (H1 & H2). apply le_IZR in H1. assert (H3 : (z - 1 < Int_part (IZR z))%Z); [|lia]. apply lt_IZR. rewrite minus_IZR. lra.
Qed.
Lemma cpowf_minus1 cx z w : cpowf cx z (-1) = Ok w -> (cx = false -> snd z = 0) -> z <> creal 0 /\ w = cinv z.
Proof.
  intros H Hr. unfold cpowf in H. change (-1) with (IZR (-1)) in H. destruct cx.
  - rewrite Int_part_IZR in H. destruct (Req_EM_T (IZR (-1)) (IZR (-1))) as [_|E]; [|congruence]. destruct (czero z) eqn:Ez; [discriminate|]. injection H as <-.
    split; [intros ->; unfold czero, creal in Ez; cbn in Ez; destruct (Req_EM_T 0 0); [discriminate|congruence]|]. f_equal. cbn. unfold cmul, creal. destruct z as (p, q). cbn. f_equal; ring.
  - destruct z as (p, q). cbn in H, Hr. specialize (Hr eq_refl). subst q. destruct (Req_EM_T p 0) as [->|Hp].
    + exfalso. unfold Obj_Model.powf in H. destruct (Rlt_dec 0 0); [lra|]. rewrite Int_part_IZR in H. destruct (Req_EM_T (IZR (-1)) (IZR (-1))); [|congruence].
      destruct (Req_EM_T 0 0); [|congruence]. discriminate.
    + rewrite powf_int in H by exact Hp. cbn [bind] in H. injection H as <-. split; [unfold creal; congruence|]. unfold cinv, cscale, cconj, creal. cbn. f_equal; field; exact Hp.
Qed.
Definition inverted (b c : arr) : Prop := size c = size b /\ forall j, (j < size b)%nat -> entry b j <> creal 0 /\ entry c j = cinv (entry b j).
Lemma mapM_nth {A B} (f : A -> res B) l vs d d' j : mapM f l = Ok vs -> (j < length l)%nat -> f (nth j l d) = Ok (nth j vs d').
Proof.
  revert vs j. induction l as [|a l IH]; intros vs j H Hj; [cbn in Hj; lia|]. cbn [mapM] in H. destruct (f a) as [y|] eqn:E; cbn [bind] in H; [|discriminate].
  destruct (mapM f l) as [ys|]; [|discriminate]. injection H as <-. destruct j as [|j]; [exact E|]. cbn [nth]. apply IH; [reflexivity|cbn in Hj; lia].
Qed.
Lemma mapM_len {A B} (f : A -> res B) l vs : mapM f l = Ok vs -> length vs = length l.
Proof.
  revert vs. induction l as [|a l IH]; intros vs H; cbn [mapM] in H; [injection H as <-; reflexivity|]. destruct (f a); cbn [bind] in H; [|discriminate].
  destruct (mapM f l); [|discriminate]. injection H as <-. cbn. f_equal. now apply IH.
Qed.
Lemma inverted_arr b l : proper b -> mapM (fun z => cpowf (cpx b) z (-1)) (dat b) = Ok l -> inverted b (mkarr (cpx b) l).
Proof.
  intros Hp H. split; [exact (mapM_len _ _ H)|]. intros j Hj. assert (E := mapM_nth _ _ (creal 0) (creal 0) H Hj).
  apply cpowf_minus1 in E; [exact E|]. intros Hc. exact (proj1 (real_nth _) (Hp Hc) j).
Qed.
Lemma recip_value env y y' b b' : py_recip y = Ok y' -> value env y = Ok b -> value env y' = Ok b' -> proper b -> inverted b b'.
Proof.
  intros H Hb Hb' Hp. destruct y as [z k|d|e|]; cbn [py_recip] in H.
  - destruct (ceq z (creal 0)) eqn:E; [discriminate|]. injection H as <-. cbn in Hb, Hb'. injection Hb as <-. injection Hb' as <-. split; [reflexivity|].
    intros [|j] Hj; [|cbn in Hj; lia]. cbn. split; [|reflexivity]. intros ->. assert (ceq (creal 0) (creal 0) = true) by now apply ceq_spec. congruence.
  - destruct (mapM (fun z => cpowf (cpx d) z (-1)) (dat d)) as [l|] eqn:E; cbn [bind] in H; [|discriminate]. injection H as <-. cbn in Hb, Hb'. injection Hb as <-. injection Hb' as <-.
    now apply inverted_arr.
  - cbn [node_pow obj bind] in H. injection H as <-. cbn [value] in Hb, Hb'. rewrite evaluate_node in Hb' by discriminate. cbn [mapM] in Hb'. rewrite Hb in Hb'. cbn [bind keval input nth_error] in Hb'.
    destruct (mapM (fun z => cpowf (cpx b) z (-1)) (dat b)) as [l|] eqn:E; cbn [bind] in Hb'; [|discriminate]. injection Hb' as <-. now apply inverted_arr.
  - discriminate.
Qed.
Lemma entrywise_inverted a b b' c : entrywise cmul a b' c -> inverted b b' -> entrywise cdiv a b c /\ forall j, (j < size b)%nat -> entry b j <> creal 0.
Proof.
  intros (H1 & H2 & H3 & H4) (Hs & Hi). rewrite Hs in H2, H3. split; [|intros j Hj; exact (proj1 (Hi j Hj))]. split; [exact H1|]. split; [exact H2|]. split; [exact H3|].
  intros j Hj. rewrite H4 by exact Hj. unfold cdiv. f_equal. unfold bentry. rewrite Hs. destruct (bentry_in b H2 Hj) as (i & Hi' & _ & ->). exact (proj2 (Hi _ Hi')).
Qed.
Lemma div_value env x y z a b c : py_div x y = Ok z -> value env x = Ok a -> value env y = Ok b -> proper b -> value env z = Ok c ->
  entrywise cdiv a b c /\ forall j, (j < size b)%nat -> entry b j <> creal 0.
Proof.
  intros H Ha Hb Hp Hc. destruct x as [w k|d|e|]; cbn [py_div] in H.
  - destruct y as [|d|e|]; try discriminate. cbn [node_pow bind] in H. apply obj_inv in H as (r & Hr & ->).
    cbn [value] in Hc. destruct (node_mul_known env _ _ Hr Hc) as (Hk & _). destruct Hk as (b' & Hb'); [discriminate|].
    destruct (@node_mul_value env _ (PNum w k) r b' a c Hr Hb' Ha Hc) as (H1 & _). apply (entrywise_inverted (b' := b')); [now apply (entrywise_comm cmul_comm)|].
    exact (@recip_value env (PObj e) (PObj (Node (KPow (-1)) [e])) b b' eq_refl Hb Hb' Hp).
  - destruct y; discriminate.
  - destruct (py_recip y) as [y'|] eqn:E; cbn [bind] in H; [|discriminate]. apply obj_inv in H as (r & Hr & ->). cbn [value] in Hc.
    destruct (node_mul_known env _ _ Hr Hc) as (_ & Hk). destruct Hk as (b' & Hb').
    { intros l ->. destruct y as [z k|d|e2|]; cbn in E; [destruct (ceq z (creal 0)); discriminate| |discriminate|discriminate]. destruct (mapM _ (dat d)); discriminate. }
    { intros ->. destruct y as [z k|d|e2|]; cbn in E; [destruct (ceq z (creal 0)); discriminate| |discriminate|discriminate]. destruct (mapM _ (dat d)); discriminate. }
    destruct (@node_mul_value env e y' r a b' c Hr Ha Hb' Hc) as (H1 & _). apply (entrywise_inverted (b' := b')); [exact H1|]. exact (@recip_value env y y' b b' E Hb Hb' Hp).
  - discriminate.
Qed.

(** *** powers *)
Lemma cpow_real r n : cpow (r, 0) n = (r ^ n, 0).
Proof. induction n as [|n IH]; cbn; [reflexivity|]. rewrite IH. unfold cmul. cbn. f_equal; ring. Qed.
Lemma pow_value env x z n a c : py_pow x (INR n) = Ok z -> value env x = Ok a -> proper a -> value env z = Ok c ->
  size c = size a /\ cpx c = cpx a /\ forall j, (j < size a)%nat -> entry c j = cpow (entry a j) n.
Proof.
  intros H Ha Hp Hc. destruct x as [w k|d|e|]; try discriminate. cbn [py_pow node_pow obj bind] in H. injection H as <-. cbn [value] in Ha, Hc.
  rewrite evaluate_node in Hc by discriminate. cbn [mapM] in Hc. rewrite Ha in Hc. cbn [bind keval input nth_error] in Hc.
  destruct (mapM (fun z => cpowf (cpx a) z (INR n)) (dat a)) as [l|] eqn:E; cbn [bind] in Hc; [|discriminate]. injection Hc as <-.
  split; [exact (mapM_len _ _ E)|]. split; [reflexivity|]. intros j Hj. assert (En := mapM_nth _ _ (creal 0) (creal 0) E Hj). unfold entry. cbn [dat].
  set (w := nth j (dat a) (creal 0)) in *. set (w' := nth j l (creal 0)) in *. unfold cpowf in En. destruct (cpx a) eqn:Ec.
  - rewrite INR_IZR_INZ in En. rewrite Int_part_IZR in En. destruct (Req_EM_T (IZR (Z.of_nat n)) (IZR (Z.of_nat n))); [|congruence]. destruct n as [|n]; [now injection En|].
    cbn [Z.of_nat] in En. injection En as <-. f_equal. rewrite SuccNat2Pos.id_succ. reflexivity.
  - rewrite powf_nat in En. cbn [bind] in En. injection En as <-. assert (Hw : snd w = 0) by exact (proj1 (real_nth _) (Hp Ec) j). destruct w as (p, q). cbn in Hw. subst q. now rewrite cpow_real.
Qed.

(** *** when a formula has a value *)
Lemma mixable_swap vs vs' : mixable (vs ++ vs') -> mixable (vs' ++ vs).
Proof.
  intros [H|H]; [left|right].
  - intros a b Ha Hb. apply H; apply in_app_or in Ha, Hb; apply in_or_app; tauto.
  - rewrite filter_app, app_length in *. lia.
Qed.
Lemma swapped_mapM {A B} (f : A -> res B) l1 l2 l v1 v2 : swapped l1 l2 l -> mapM f l1 = Ok v1 -> mapM f l2 = Ok v2 -> exists v, mapM f l = Ok v /\ swapped v1 v2 v.
Proof.
  intros [->| ->] H1 H2; rewrite mapM_app, ?H1, ?H2; cbn [bind]; rewrite ?H1, ?H2; cbn [bind]; eexists; (split; [reflexivity|]); [now left|now right].
Qed.
Lemma swapped_mixable vs vs' v : swapped vs vs' v -> mixable v <-> mixable (vs ++ vs').
Proof. intros [->| ->]; split; auto using mixable_swap. Qed.
Lemma add_evaluates env x y z vs vs' : py_add x y = Ok z -> (forall c, x <> PNum (creal 0) c /\ y <> PNum (creal 0) c) ->
  mapM (evaluate env) (summands x) = Ok vs -> mapM (evaluate env) (summands y) = Ok vs' -> vs ++ vs' <> [] -> Forall (fun a => size a <> 0%nat) (vs ++ vs') ->
  (exists c, value env z = Ok c) <-> mixable (vs ++ vs').
Proof.
  intros H H0 Hx Hy Hne Hz.
  assert (Hg : forall l, swapped (summands x) (summands y) l -> (exists c, evaluate env (Node KSum l) = Ok c) <-> mixable (vs ++ vs')).
  { intros l Hl. rewrite evaluate_sum. destruct (swapped_mapM (evaluate env) Hl Hx Hy) as (v & -> & Hv). cbn [bind]. rewrite <- (swapped_mixable Hv). symmetry.
    apply (@mixable_ok KSum cadd (creal 0) keval_sum cadd_assoc cadd_comm cadd_0).
    - intros ->. destruct Hv as [E|E]; symmetry in E; apply app_eq_nil in E as (-> & ->); contradiction.
    - destruct Hv as [->| ->]; [exact Hz|]. apply Forall_app in Hz. apply Forall_app. tauto. }
  destruct x as [w k|d|e|]; cbn [py_add] in H.
  - destruct y as [|d|e|]; try discriminate. apply obj_inv in H as (r & Hr & ->). destruct (node_add_terms _ _ Hr) as [(c & E & _)|(l & -> & Hl)]; [destruct (H0 c) as (E' & _); congruence|].
    apply Hg. destruct Hl; [now right|now left].
  - destruct y; discriminate.
  - apply obj_inv in H as (r & Hr & ->). destruct (node_add_terms _ _ Hr) as [(c & E & _)|(l & -> & Hl)]; [destruct (H0 c) as (_ & E'); congruence|]. now apply Hg.
  - destruct y as [| |e|]; try discriminate. apply obj_inv in H as (r & Hr & ->). destruct (node_add_terms _ _ Hr) as [(c & E & _)|(l & -> & Hl)]; [discriminate|].
    apply Hg. destruct Hl; [now right|now left].
Qed.
Lemma mul_evaluates env x y z vs vs' : py_mul x y = Ok z -> (forall c, x <> PNum (creal 1) c /\ y <> PNum (creal 1) c) ->
  mapM (evaluate env) (factors x) = Ok vs -> mapM (evaluate env) (factors y) = Ok vs' -> vs ++ vs' <> [] -> Forall (fun a => size a <> 0%nat) (vs ++ vs') ->
  (exists c, value env z = Ok c) <-> mixable (vs ++ vs').
Proof.
  intros H H0 Hx Hy Hne Hz.
  assert (Hg : forall l, swapped (factors x) (factors y) l -> (exists c, evaluate env (Node KProd l) = Ok c) <-> mixable (vs ++ vs')).
  { intros l Hl. rewrite evaluate_prod. destruct (swapped_mapM (evaluate env) Hl Hx Hy) as (v & -> & Hv). cbn [bind]. rewrite <- (swapped_mixable Hv). symmetry.
    apply (@mixable_ok KProd cmul (creal 1) keval_prod cmul_assoc cmul_comm cmul_1).
    - intros ->. destruct Hv as [E|E]; symmetry in E; apply app_eq_nil in E as (-> & ->); contradiction.
    - destruct Hv as [->| ->]; [exact Hz|]. apply Forall_app in Hz. apply Forall_app. tauto. }
  destruct x as [w k|d|e|]; cbn [py_mul] in H.
  - destruct y as [|d|e|]; try discriminate. apply obj_inv in H as (r & Hr & ->). destruct (node_mul_terms _ _ Hr) as [(c & E & _)|(l & -> & Hl)]; [destruct (H0 c) as (E' & _); congruence|].
    apply Hg. destruct Hl; [now right|now left].
  - destruct y; discriminate.
  - apply obj_inv in H as (r & Hr & ->). destruct (node_mul_terms _ _ Hr) as [(c & E & _)|(l & -> & Hl)]; [destruct (H0 c) as (_ & E'); congruence|]. now apply Hg.
  - destruct y as [| |e|]; try discriminate. apply obj_inv in H as (r & Hr & ->). destruct (node_mul_terms _ _ Hr) as [(c & E & _)|(l & -> & Hl)]; [discriminate|].
    apply Hg. destruct Hl; [now right|now left].
Qed.

(** *** formulas without a value *)
Definition va : expr := Node (KVar 0) [].
Definition vb : expr := Node (KVar 1) [].
Definition pair_env (n : nat) : res arr :=
  match n with 0%nat => Ok (mkarr false [creal 1; creal 2]) | 1%nat => Ok (mkarr false [creal 3; creal 4]) | _ => Err KeyError end.
(** [x + y] and [x * y] have values; [x + y + 1], [2 * (x * y)], [-(x * y)], [1 - x * y] have not *)
Lemma flattening_pf :
  exists x y s p, py_add x y = Ok s /\ py_mul x y = Ok p /\
    (exists c, value pair_env s = Ok c) /\ (exists c, value pair_env p = Ok c) /\
    (exists z, py_add s (PNum (creal 1) false) = Ok z /\ value pair_env z = Err ValueError) /\
    (exists z, py_mul (PNum (creal 2) false) p = Ok z /\ value pair_env z = Err ValueError) /\
    (exists z, py_neg p = Ok z /\ value pair_env z = Err ValueError) /\
    (exists z, py_sub (PNum (creal 1) false) p = Ok z /\ value pair_env z = Err ValueError).
Proof.
  exists (PObj va), (PObj vb). do 2 eexists. split; [reflexivity|]. split; [reflexivity|].
  split; [eexists; reflexivity|]. split; [eexists; reflexivity|].
  split; [eexists; split; reflexivity|]. split; [eexists; split; reflexivity|]. split; [eexists; split; reflexivity|].
  eexists. split; [|shelve]. cbn [py_sub va vb bind node_neg node_mul prod_mul node_add fun_add].
  assert (E : ceq (creal 1) (creal 0) = false). { destruct (ceq (creal 1) (creal 0)) eqn:E; [|reflexivity]. apply ceq_spec in E. apply (f_equal fst) in E. cbn in E. lra. }
  rewrite E. reflexivity. Unshelve. reflexivity.
Qed.
Lemma ceq_no z w : fst z <> fst w -> ceq z w = false.
Proof. intros H. destruct (ceq z w) eqn:E; [|reflexivity]. apply ceq_spec in E. congruence. Qed.
Lemma arithmetic_case : exists p z c d, py_mul (PNum (creal 2) false) (PObj va) = Ok p /\
  py_add p (PObj vb) = Ok z /\ value pair_env z = Ok (mkarr false [c; d]) /\ c = creal 5 /\ d = creal 8.
Proof.
  eexists _, _, _, _. split; [cbn; rewrite ceq_no by (cbn; lra); reflexivity|]. split; [reflexivity|]. split; [vm_compute; reflexivity|].
  split; unfold creal; f_equal; lra.
Qed.
Lemma quotient_case : exists z c d, py_div (PObj va) (PObj vb) = Ok z /\
  value pair_env z = Ok (mkarr false [c; d]) /\ c = creal (1 / 3) /\ d = creal (1 / 2).
Proof.
  assert (E : forall r, r <> 0 -> cpowf false (creal r) (-1) = Ok (creal (/ r))).
  { intros r Hr. unfold cpowf. change (-1) with (IZR (-1)). cbn [fst creal]. rewrite powf_int by exact Hr. cbn [bind powerRZ]. unfold creal. do 3 f_equal. apply pow_1. }
  eexists _, _, _. split; [reflexivity|]. split.
  - cbn [value obj bind py_recip node_pow node_mul fun_mul va]. rewrite evaluate_node by discriminate. cbn [mapM]. rewrite evaluate_node by discriminate.
    cbn [mapM vb evaluate pair_env bind keval input nth_error cpx dat]. rewrite !E by lra. cbn [bind]. vm_compute. reflexivity.
  - split; unfold creal; f_equal; lra.
Qed.
