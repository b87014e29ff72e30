(** Proofs for C51 and C52. *)
From Coq Require Import ZArith Sorted.
From Verif Require Import Base Shape_Model Shape_Spec.
Set Implicit Arguments.

(** *** slices *)
Lemma selected_index n x : (x <> 0)%Z -> (x <> -1)%Z ->
  selected n (make_slice (At x) n) =
  if Z.leb (- Z.of_nat n) x && Z.ltb x (Z.of_nat n) then [Z.to_nat (if Z.ltb x 0 then x + Z.of_nat n else x)] else [].
Proof.
  intros H0 H1. simpl. destruct (Z.eqb_spec x 0); [lia|]. unfold selected, bound.
  destruct (Z.ltb_spec x 0); destruct (Z.ltb_spec (x + 1) 0); try lia;
  destruct (Z.leb_spec (- Z.of_nat n) x); destruct (Z.ltb_spec x (Z.of_nat n)); simpl; try lia.
  - replace (Z.to_nat (x + 1 + Z.of_nat n) - Z.to_nat (x + Z.of_nat n)) with 1 by lia. reflexivity.
  - replace (Z.to_nat (x + 1 + Z.of_nat n) - Z.to_nat (x + Z.of_nat n)) with 0 by lia. reflexivity.
  - replace (Nat.min (Z.to_nat x) n) with (Z.to_nat x) by lia.
    replace (Nat.min (Z.to_nat (x + 1)) n - Z.to_nat x) with 1 by lia. reflexivity.
  - replace (Nat.min (Z.to_nat (x + 1)) n - Nat.min (Z.to_nat x) n) with 0 by lia. reflexivity.
Qed.
Lemma selected_center n : selected n (make_slice Center n) = if Nat.eqb n 0 then [] else [Nat.div n 2].
Proof.
  unfold make_slice. assert (H := Nat.div_mod n 2 ltac:(lia)). assert (H' := Nat.mod_upper_bound n 2 ltac:(lia)).
  set (m := n / 2) in *. destruct (Z.eqb_spec (Z.of_nat m) 0); destruct (Nat.eqb_spec n 0).
  - subst n. reflexivity.
  - assert (n = 1) by lia. subst n. reflexivity.
  - lia.
  - unfold selected, bound. destruct (Z.ltb_spec (Z.of_nat m) 0); [lia|]. destruct (Z.ltb_spec (Z.of_nat m + 1) 0); [lia|].
    replace (Nat.min (Z.to_nat (Z.of_nat m)) n) with m by lia.
    replace (Nat.min (Z.to_nat (Z.of_nat m + 1)) n - m) with 1 by lia. reflexivity.
Qed.

(** *** groups *)
Section group.
Variables A G : Type.
Implicit Types (f : flow A) (t : gflow G).

Section flow_induction.
  Variable P : flow A -> Prop.
  Hypothesis Hs : forall a p, P (Single a p).
  Hypothesis Ha : forall fs, Forall P fs -> P (Arr fs).
  Fixpoint flow_ind2 f : P f :=
    match f with
    | Single a p => Hs a p
    | Arr fs => Ha ((fix all l : Forall P l := match l with [] => Forall_nil P | x :: l' => Forall_cons x (flow_ind2 x) (all l') end) fs)
    end.
End flow_induction.

Definition pair_of (e : entry A) : A * Z := (e_flow e, e_prio e).
Fixpoint skel_of f : gflow G := match f with Single _ _ => GNone | Arr fs => GArr (map skel_of fs) end.
Definition ext_loop (path : list nat) := fix loop (fs : list (flow A)) (i : nat) : list (gflow G) * list (entry A) :=
        match fs with
        | [] => ([], [])
        | f :: fs' =>
            let (g, es) := ext_flow G f (path ++ [i]) in
            let (gs, es') := loop fs' (S i) in
            (g :: gs, es ++ es')
        end.
Definition entries_ok f (path : list nat) (es : list (entry A)) : Prop :=
  map pair_of es = shapes f /\
  (forall e, In e es -> exists q, e_path e = path ++ q /\ shape_at f q (e_flow e) (e_prio e)) /\
  (forall q a p, shape_at f q a p -> In (mkentry a (path ++ q) p) es) /\
  NoDup (map (@e_path A) es).
Lemma NoDup_app_disjoint {B} (a b : list B) : NoDup a -> NoDup b -> (forall x, In x a -> ~ In x b) -> NoDup (a ++ b).
Proof.
  induction 1 as [|x a Hx Ha IH]; intros Hb Hd; simpl; [exact Hb|]. constructor.
  - rewrite in_app_iff. intros [H|H]; [now apply Hx|]. apply (Hd x); [now left|exact H].
  - apply IH; auto. intros y Hy. apply Hd. now right.
Qed.
Lemma ext_flow_ok f : forall path, exists es, ext_flow G f path = (skel_of f, es) /\ entries_ok f path es.
Proof.
  induction f as [a p|fs IH] using flow_ind2; intros path.
  - exists [mkentry a path p]. split; [reflexivity|]. split; [reflexivity|]. split; [|split].
    + intros e [<-|[]]. exists []. rewrite app_nil_r. split; reflexivity.
    + intros q a' p' H. unfold shape_at in H. destruct q as [|i q]; simpl in H; [|discriminate].
      inversion H; subst. rewrite app_nil_r. now left.
    + constructor; [intros []|constructor].
  - assert (L : forall l i, Forall (fun f => forall path, exists es, ext_flow G f path = (skel_of f, es) /\ entries_ok f path es) l ->
      exists es, ext_loop path l i = (map skel_of l, es) /\
       map pair_of es = flat_map (@shapes A) l /\
       (forall e, In e es -> exists j f q, nth_error l j = Some f /\ e_path e = path ++ (i + j) :: q /\ shape_at f q (e_flow e) (e_prio e)) /\
       (forall j f q a p, nth_error l j = Some f -> shape_at f q a p -> In (mkentry a (path ++ (i + j) :: q) p) es) /\
       NoDup (map (@e_path A) es)).
    { induction l as [|f l IHl]; intros i HF.
      - exists []. repeat split; simpl; [intros e []|intros j f q a p H; destruct j; discriminate|constructor].
      - inversion HF as [|? ? Hf Hl]; subst. destruct (Hf (path ++ [i])) as (es1 & E1 & M1 & S1 & C1 & N1).
        destruct (IHl (S i) Hl) as (es2 & E2 & M2 & S2 & C2 & N2).
        exists (es1 ++ es2). cbn [ext_loop map]. rewrite E1. fold (ext_loop path). rewrite E2.
        split; [reflexivity|]. split; [simpl; rewrite map_app, M1, M2; reflexivity|]. split; [|split].
        + intros e He. apply in_app_or in He. destruct He as [He|He].
          * destruct (S1 e He) as (q & Eq & Hq). exists 0, f, q. rewrite Nat.add_0_r.
            rewrite <- app_assoc in Eq. auto.
          * destruct (S2 e He) as (j & f' & q & Hj & Eq & Hq). exists (S j), f', q.
            replace (i + S j) with (S i + j) by lia. auto.
        + intros j f' q a p Hj Hq. apply in_or_app. destruct j as [|j]; simpl in Hj.
          * inversion Hj; subst f'. left. rewrite Nat.add_0_r. specialize (C1 q a p Hq).
            rewrite <- app_assoc in C1. exact C1.
          * right. replace (i + S j) with (S i + j) by lia. now apply C2 with f'.
        + rewrite map_app. apply NoDup_app_disjoint; auto. intros x Hx Hy.
          apply in_map_iff in Hx. destruct Hx as (e1 & <- & H1). apply in_map_iff in Hy. destruct Hy as (e2 & E & H2).
          destruct (S1 e1 H1) as (q1 & Q1 & _). destruct (S2 e2 H2) as (j & f' & q2 & _ & Q2 & _).
          rewrite Q1, Q2, <- app_assoc in E. apply app_inv_head in E. simpl in E. inversion E. lia. }
    destruct (L fs 0 IH) as (es & E & M & S1 & C & N). exists es.
    cbn [ext_flow]. fold (ext_loop path). rewrite E. split; [reflexivity|]. split; [exact M|]. split; [|split; [|exact N]].
    + intros e He. destruct (S1 e He) as (j & f & q & Hj & Eq & Hq). exists (j :: q). split; [exact Eq|].
      unfold shape_at in *. simpl. now rewrite Hj.
    + intros q a p Hq. unfold shape_at in Hq. destruct q as [|j q]; simpl in Hq; [discriminate|].
      destruct (nth_error fs j) as [f|] eqn:Hj; [|discriminate]. apply (C j f q a p Hj Hq).
Qed.

(** *** the sort *)
Lemma insert_perm (e : entry A) l : Permutation (insert e l) (e :: l).
Proof.
  induction l as [|x l IH]; simpl; [constructor; constructor|].
  destruct (Z.leb (e_prio e) (e_prio x)); [apply Permutation_refl|].
  eapply perm_trans; [apply perm_skip, IH|apply perm_swap].
Qed.
Lemma sort_perm (l : list (entry A)) : Permutation (sort l) l.
Proof. induction l as [|e l IH]; simpl; [constructor|]. eapply perm_trans; [apply insert_perm|now apply perm_skip]. Qed.
Definition le_prio (a b : entry A) : Prop := (e_prio a <= e_prio b)%Z.
Lemma insert_sorted (e : entry A) l : StronglySorted le_prio l -> StronglySorted le_prio (insert e l).
Proof.
  induction 1 as [|x l Hs IH Hx]; simpl; [repeat constructor|].
  destruct (Z.leb_spec (e_prio e) (e_prio x)) as [L|L].
  - constructor; [constructor; assumption|]. constructor; [exact L|].
    eapply Forall_impl; [|exact Hx]. unfold le_prio. intros; lia.
  - constructor; [assumption|]. apply Forall_forall. intros y Hy.
    apply (Permutation_in _ (insert_perm e l)) in Hy. destruct Hy as [<-|Hy]; [unfold le_prio; lia|].
    rewrite Forall_forall in Hx. now apply Hx.
Qed.
Lemma sort_sorted (l : list (entry A)) : StronglySorted le_prio (sort l).
Proof. induction l; simpl; [constructor|now apply insert_sorted]. Qed.
Lemma insert_filter (e : entry A) l z : StronglySorted le_prio l ->
  filter (fun x => Z.eqb (e_prio x) z) (insert e l) = filter (fun x => Z.eqb (e_prio x) z) (e :: l).
Proof.
  induction 1 as [|x l Hs IH Hx]; [reflexivity|]. cbn [insert].
  destruct (Z.leb_spec (e_prio e) (e_prio x)) as [L|L]; [reflexivity|].
  cbn [filter] in *. rewrite IH. destruct (Z.eqb_spec (e_prio e) z); destruct (Z.eqb_spec (e_prio x) z); try reflexivity. lia.
Qed.
Lemma sort_stable (l : list (entry A)) z : filter (fun x => Z.eqb (e_prio x) z) (sort l) = filter (fun x => Z.eqb (e_prio x) z) l.
Proof.
  induction l as [|e l IH]; simpl; [reflexivity|]. rewrite insert_filter by apply sort_sorted. simpl. now rewrite IH.
Qed.
Lemma filter_map_comm {B C} (h : B -> C) (p : C -> bool) l : filter p (map h l) = map h (filter (fun x => p (h x)) l).
Proof. induction l as [|x l IH]; simpl; [reflexivity|]. destruct (p (h x)); simpl; now rewrite IH. Qed.
Lemma group_eval_pf (inputs : list (flow A)) out st : group_eval G inputs = (out, st) ->
  exists srt, out = map fst srt /\ Permutation srt (shapes (Arr inputs)) /\
  StronglySorted (fun x y => (snd x <= snd y)%Z) srt /\
  forall z, filter (fun x => Z.eqb (snd x) z) srt = filter (fun x => Z.eqb (snd x) z) (shapes (Arr inputs)).
Proof.
  unfold group_eval. destruct (ext_flow_ok (Arr inputs) []) as (es & E & M & _). rewrite E. intros H. inversion H; subst.
  exists (map pair_of (sort es)). rewrite <- M. split; [now rewrite map_map|]. split; [apply Permutation_map, sort_perm|]. split.
  - assert (H' := sort_sorted es). clear - H'. induction H' as [|x l Hs IH Hx]; simpl; constructor; [exact IH|].
    apply Forall_forall. intros y Hy. apply in_map_iff in Hy. destruct Hy as (e & <- & He).
    rewrite Forall_forall in Hx. now apply Hx.
  - intros z. rewrite !filter_map_comm. cbn [snd pair_of]. now rewrite sort_stable.
Qed.

(** *** writing gradients *)
Definition upd_list (path : list nat) (g : G) := fix upd (gs : list (gflow G)) (i : nat) : list (gflow G) :=
        match gs, i with
        | [], _ => []
        | t :: gs', O => write t path g :: gs'
        | t :: gs', S i' => t :: upd gs' i'
        end.
Lemma upd_nth path g gs : forall i j, nth_error (upd_list path g gs i) j =
  if Nat.eqb j i then option_map (fun t => write t path g) (nth_error gs j) else nth_error gs j.
Proof.
  induction gs as [|t gs IH]; intros i j.
  - destruct j as [|j]; destruct i as [|i]; simpl; try reflexivity; destruct (Nat.eqb j i); reflexivity.
  - destruct i as [|i]; simpl; destruct j as [|j]; simpl; try reflexivity. apply IH.
Qed.
(** a skeleton in which some gradients are filled in *)
Inductive nest : flow A -> gflow G -> Prop :=
| nest_single a p t : (forall gs, t <> GArr gs) -> nest (Single a p) t
| nest_arr fs gs : length fs = length gs -> (forall i f t, nth_error fs i = Some f -> nth_error gs i = Some t -> nest f t) -> nest (Arr fs) (GArr gs).
Lemma nest_skel f : nest f (skel_of f).
Proof.
  induction f as [a p|fs IH] using flow_ind2; simpl.
  - constructor. discriminate.
  - constructor; [now rewrite map_length|]. intros i f t Hf Ht. rewrite nth_error_map, Hf in Ht. inversion Ht; subst.
    rewrite Forall_forall in IH. apply IH. now apply nth_error_In with i.
Qed.
Lemma nest_write f : forall t q a p g, nest f t -> shape_at f q a p -> nest f (write t q g).
Proof.
  induction f as [a0 p0|fs IH] using flow_ind2; intros t q a p g Hn Hq; unfold shape_at in Hq.
  - destruct q as [|i q]; simpl in Hq; [|discriminate]. constructor. destruct t; discriminate.
  - destruct q as [|i q]; simpl in Hq; [discriminate|].
    destruct (nth_error fs i) as [f|] eqn:Hi; [|discriminate].
    inversion Hn as [|? gs Hl Hc]; subst. simpl. fold (upd_list q g).
    constructor.
    + rewrite Hl. clear. revert i. induction gs as [|t gs IH]; intros i; [reflexivity|]. destruct i; simpl; [reflexivity|now rewrite <- IH].
    + intros j f' t' Hf' Ht'. rewrite upd_nth in Ht'. destruct (Nat.eqb_spec j i) as [->|Hne].
      * destruct (nth_error gs i) as [t0|] eqn:Ht0; [|discriminate]. inversion Ht'; subst t'.
        assert (f' = f) by congruence. subst f'. rewrite Forall_forall in IH.
        eapply (IH f); [now apply nth_error_In with i|now apply (Hc i)|exact Hq].
      * now apply (Hc j).
Qed.
Lemma grad_at_write f : forall t q a p g, nest f t -> shape_at f q a p -> grad_at (write t q g) q = Some g.
Proof.
  induction f as [a0 p0|fs IH] using flow_ind2; intros t q a p g Hn Hq; unfold shape_at in Hq.
  - destruct q as [|i q]; simpl in Hq; [|discriminate]. destruct t; reflexivity.
  - destruct q as [|i q]; simpl in Hq; [discriminate|].
    destruct (nth_error fs i) as [f|] eqn:Hi; [|discriminate].
    inversion Hn as [|? gs Hl Hc]; subst. simpl. fold (upd_list q g). rewrite upd_nth, Nat.eqb_refl.
    destruct (nth_error gs i) as [t0|] eqn:Ht0.
    + simpl. rewrite Forall_forall in IH. eapply (IH f); [now apply nth_error_In with i|now apply (Hc i)|exact Hq].
    + exfalso. apply nth_error_None in Ht0. assert (i < length fs) by (apply nth_error_Some; congruence). lia.
Qed.
Lemma grad_at_write_other f : forall t q a p g q' a' p', nest f t -> shape_at f q a p -> shape_at f q' a' p' -> q <> q' ->
  grad_at (write t q g) q' = grad_at t q'.
Proof.
  induction f as [a0 p0|fs IH] using flow_ind2; intros t q a p g q' a' p' Hn Hq Hq' Hne; unfold shape_at in Hq, Hq'.
  - destruct q as [|i q]; simpl in Hq; [|discriminate]. destruct q' as [|i' q']; simpl in Hq'; [congruence|discriminate].
  - destruct q as [|i q]; simpl in Hq; [discriminate|]. destruct q' as [|i' q']; simpl in Hq'; [discriminate|].
    destruct (nth_error fs i) as [f|] eqn:Hi; [|discriminate]. destruct (nth_error fs i') as [f'|] eqn:Hi'; [|discriminate].
    inversion Hn as [|? gs Hl Hc]; subst. simpl. fold (upd_list q g). rewrite upd_nth.
    destruct (Nat.eqb_spec i' i) as [->|]; [|reflexivity]. destruct (nth_error gs i) as [t0|] eqn:Ht0; [|reflexivity].
    simpl. assert (f' = f) by congruence. subst f'. rewrite Forall_forall in IH.
    eapply (IH f); [now apply nth_error_In with i|now apply (Hc i)|exact Hq|exact Hq'|congruence].
Qed.
(** a leaf not yet filled in is not an array: after all writes every shape has a gradient *)
Lemma nest_full f : forall t, nest f t -> (forall q a p, shape_at f q a p -> grad_at t q <> None) -> same_nesting f t.
Proof.
  induction f as [a0 p0|fs IH] using flow_ind2; intros t Hn Hall.
  - specialize (Hall [] a0 p0 eq_refl). destruct t as [|g|gs]; simpl in Hall; [congruence|constructor|].
    inversion Hn as [? ? ? Hx|]; subst. congruence.
  - inversion Hn as [|? gs Hl Hc]; subst. constructor. clear Hn. revert gs Hl Hc Hall.
    induction fs as [|f fs IHfs]; intros gs Hl Hc Hall; destruct gs as [|t gs]; try discriminate; constructor.
    + inversion IH; subst. apply H1; [now apply (Hc 0)|]. intros q a p Hq. apply (Hall (0 :: q) a p). exact Hq.
    + inversion IH; subst. apply IHfs; auto.
      * intros i f' t' Hf' Ht'. now apply (Hc (S i)).
      * intros q a p Hq. unfold shape_at in Hq. destruct q as [|i q]; simpl in Hq; [discriminate|].
        apply (Hall (S i :: q) a p). exact Hq.
Qed.
Lemma group_grad_spec f : forall es gs t, nest f t ->
  (forall e, In e es -> shape_at f (e_path e) (e_flow e) (e_prio e)) -> NoDup (map (@e_path A) es) ->
  nest f (group_grad gs es t) /\
  (forall k e, nth_error es k = Some e -> match nth_error gs k with Some g => grad_at (group_grad gs es t) (e_path e) = Some g | None => True end) /\
  (forall q a p, shape_at f q a p -> ~ In q (map (@e_path A) es) -> grad_at (group_grad gs es t) q = grad_at t q).
Proof.
  induction es as [|e es IH]; intros gs t Hn Hs Hnd.
  - destruct gs; simpl; (split; [exact Hn|split; [intros k e H; destruct k; discriminate|reflexivity]]).
  - inversion Hnd as [|? ? Hni Hnd']; subst. assert (He := Hs e (or_introl eq_refl)). destruct gs as [|g gs]; cbn [group_grad].
    + split; [exact Hn|]. split; [intros k e' _; destruct k; exact I|reflexivity].
    + destruct (IH gs (write t (e_path e) g)) as (A1 & A2 & A3).
      { eapply nest_write; eauto. } { intros e' He'. apply Hs. now right. } { exact Hnd'. }
      split; [exact A1|]. split.
      * intros [|k] e' Hk; simpl in Hk |- *.
        -- inversion Hk; subst e'. rewrite (A3 _ _ _ He Hni). eapply grad_at_write; eauto.
        -- apply A2. exact Hk.
      * intros q a p Hq Hni'. simpl in Hni'. rewrite (A3 q a p Hq) by tauto.
        eapply grad_at_write_other; eauto.
Qed.
Lemma group_gradient_pf (inputs : list (flow A)) out skel es gs : group_eval G inputs = (out, (skel, es)) ->
  length gs = length out ->
  let t := group_grad gs es skel in
  same_nesting (Arr inputs) t /\
  exists paths, length paths = length out /\ NoDup paths /\
   (forall q a p, shape_at (Arr inputs) q a p -> In q paths) /\
   forall k q, nth_error paths k = Some q ->
     exists a p g, nth_error out k = Some a /\ shape_at (Arr inputs) q a p /\ nth_error gs k = Some g /\ grad_at t q = Some g.
Proof.
  unfold group_eval. destruct (ext_flow_ok (Arr inputs) []) as (es0 & E & M & S1 & C & N). rewrite E.
  intros H Hl. injection H as Ho Hs He. subst out skel es. cbv zeta. set (t := group_grad gs _ _). rewrite map_length in Hl.
  assert (P := sort_perm es0).
  assert (Hsh : forall e, In e (sort es0) -> shape_at (Arr inputs) (e_path e) (e_flow e) (e_prio e)).
  { intros e He. apply (Permutation_in _ P) in He. destruct (S1 e He) as (q & -> & Hq). exact Hq. }
  assert (Hnd : NoDup (map (@e_path A) (sort es0))).
  { eapply Permutation_NoDup; [|exact N]. apply Permutation_map, Permutation_sym, P. }
  destruct (@group_grad_spec (Arr inputs) (sort es0) gs (skel_of (Arr inputs)) (nest_skel _) Hsh Hnd) as (A1 & A2 & A3).
  assert (Hcov : forall q a p, shape_at (Arr inputs) q a p -> In q (map (@e_path A) (sort es0))).
  { intros q a p Hq. specialize (C q a p Hq). apply (Permutation_in _ (Permutation_sym P)) in C.
    apply (in_map (@e_path A)) in C. exact C. }
  assert (Hk : forall k q, nth_error (map (@e_path A) (sort es0)) k = Some q ->
     exists a p g, nth_error (map (@e_flow A) (sort es0)) k = Some a /\ shape_at (Arr inputs) q a p /\ nth_error gs k = Some g /\ grad_at t q = Some g).
  { intros k q Hk. rewrite nth_error_map in Hk. destruct (nth_error (sort es0) k) as [e|] eqn:Hk'; [|discriminate].
    inversion Hk; subst q. assert (Hlt : k < length gs) by (rewrite Hl; apply nth_error_Some; congruence).
    destruct (nth_error gs k) as [g|] eqn:Hg; [|apply nth_error_None in Hg; lia].
    exists (e_flow e), (e_prio e), g. rewrite nth_error_map, Hk'. repeat split; auto.
    - apply Hsh. now apply nth_error_In with k.
    - specialize (A2 k e Hk'). rewrite Hg in A2. exact A2. }
  split.
  - apply nest_full; [exact A1|]. intros q a p Hq. apply Hcov in Hq. apply In_nth_error in Hq. destruct Hq as [k Hq].
    destruct (Hk k q Hq) as (a' & p' & g & _ & _ & _ & Hg). fold t. rewrite Hg. discriminate.
  - exists (map (@e_path A) (sort es0)). rewrite !map_length. repeat split; auto.
Qed.
End group.
