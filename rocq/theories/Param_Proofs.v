From Coq Require Import Qround.
From Verif Require Import QTac Raster_Model Raster_Spec Raster_Proofs Grid_Model Grid_Proofs Param_Model Param_Spec.
Set Implicit Arguments.
Open Scope Q_scope.

(** *** induction over nested parametrizations *)
Section ParamInd.
Variable P : param -> Prop.
Hypothesis HD : forall v lo hi, P (Direct v lo hi).
Hypothesis HG : forall e n inv, P (Grating e n inv).
Hypothesis HC : forall ps sz es, Forall P ps -> P (Composite ps sz es).
Hypothesis HS : forall p n s, P p -> P (Slack p n s).
Fixpoint param_rect' (p : param) : P p :=
  match p with
  | Direct v lo hi => HD v lo hi
  | Grating e n inv => HG e n inv
  | Composite ps sz es => HC sz es ((fix all l : Forall P l := match l with [] => Forall_nil _ | x :: xs => Forall_cons _ (param_rect' x) (all xs) end) ps)
  | Slack p n s => HS n s (param_rect' p)
  end.
End ParamInd.

Lemma wf_all ps : fold_right (fun p P => wf p /\ P) True ps <-> Forall wf ps.
Proof. induction ps as [|p ps IH]; simpl; split; intros H; [constructor|exact I|constructor; tauto|inversion H; tauto]. Qed.
Lemma sf_all ps : fold_right (fun p P => slack_free p /\ P) True ps <-> Forall slack_free ps.
Proof. induction ps as [|p ps IH]; simpl; split; intros H; [constructor|exact I|constructor; tauto|inversion H; tauto]. Qed.

(** *** sorting *)
Lemma qinsert_length x l : length (qinsert x l) = S (length l).
Proof. induction l as [|y l IH]; simpl; [reflexivity|]. destruct (Qle_bool x y); simpl; congruence. Qed.
Lemma qsort_length l : length (qsort l) = length l.
Proof. induction l as [|x l IH]; simpl; [reflexivity|]. now rewrite qinsert_length, IH. Qed.
Lemma nondecreasing_cons x l : nondecreasing (x :: l) <-> (forall i, (i < length l)%nat -> x <= qn l i) /\ nondecreasing l.
Proof.
  split.
  - intros H. split; [intros i Hi; apply (H 0%nat (S i)); simpl; lia|intros i j Hij; apply (H (S i) (S j)); simpl; lia].
  - intros [H1 H2] i j Hij. simpl in Hij. destruct j as [|j].
    + assert (i = 0)%nat as -> by lia. apply Qle_refl.
    + destruct i as [|i]; [apply H1; lia|apply (H2 i j); lia].
Qed.
Lemma qinsert_In x l y : In y (qinsert x l) <-> y = x \/ In y l.
Proof.
  induction l as [|z l IH]; simpl; [intuition|]. destruct (Qle_bool x z); simpl; [intuition|]. rewrite IH. intuition.
Qed.
Lemma nondecreasing_In x l : nondecreasing (x :: l) <-> (forall y, In y l -> x <= y) /\ nondecreasing l.
Proof.
  rewrite nondecreasing_cons. split; intros [H1 H2]; split; try assumption.
  - intros y Hy. destruct (In_nth _ _ 0 Hy) as (i & Hi & <-). now apply H1.
  - intros i Hi. apply H1. now apply nth_In.
Qed.
Lemma qinsert_nondecreasing x l : nondecreasing l -> nondecreasing (qinsert x l).
Proof.
  induction l as [|y l IH]; intros H; simpl.
  - apply nondecreasing_In. split; [intros y []|intros i j Hij; simpl in Hij; lia].
  - apply nondecreasing_In in H as H'. destruct H' as [H1 H2]. destruct (Qle_bool x y) eqn:E; qhyps.
    + apply nondecreasing_In. split; [|assumption]. intros z [<-|Hz]; [assumption|]. specialize (H1 z Hz). lra.
    + apply nondecreasing_In. split; [|now apply IH]. intros z Hz. apply qinsert_In in Hz as [->|Hz]; [lra|now apply H1].
Qed.
Lemma qsort_nondecreasing l : nondecreasing (qsort l).
Proof. induction l as [|x l IH]; simpl; [intros i j Hij; simpl in Hij; lia|now apply qinsert_nondecreasing]. Qed.
Lemma qsort_sorted l : nondecreasing l -> qsort l = l.
Proof.
  induction l as [|x l IH]; intros H; simpl; [reflexivity|]. apply nondecreasing_In in H as [H1 H2]. rewrite IH by assumption.
  destruct l as [|y l]; [reflexivity|]. simpl. assert (Qle_bool x y = true) as ->; [|reflexivity]. apply Qle_bool_iff. apply H1. now left.
Qed.
Lemma qinsert_perm x l : Permutation (x :: l) (qinsert x l).
Proof.
  induction l as [|y l IH]; simpl; [reflexivity|]. destruct (Qle_bool x y); [reflexivity|]. rewrite perm_swap. now constructor.
Qed.
Lemma qsort_perm l : Permutation l (qsort l).
Proof. induction l as [|x l IH]; simpl; [constructor|]. rewrite IH at 1. apply qinsert_perm. Qed.

(** *** monadic maps *)
Lemma mapR_ok {A B} (f : A -> res B) (g : A -> B) l : Forall (fun x => f x = Ok (g x)) l -> mapR f l = Ok (map g l).
Proof. induction 1 as [|x l Hx _ IH]; simpl; [reflexivity|]. rewrite Hx, IH. reflexivity. Qed.
Lemma mapR_Forall2 {A B} (f : A -> res B) l ys : mapR f l = Ok ys <-> Forall2 (fun x y => f x = Ok y) l ys.
Proof.
  revert ys. induction l as [|x l IH]; intros ys; simpl; split; intros H.
  - injection H as <-. constructor.
  - inversion H. reflexivity.
  - destruct (f x) as [y|] eqn:E; [|discriminate]. destruct (mapR f l) as [zs|] eqn:E2; [|discriminate]. injection H as <-. constructor; [assumption|now apply IH].
  - inversion H as [|? y ? zs Hy Hz]; subst. rewrite Hy. cbn [bind]. apply IH in Hz. rewrite Hz. reflexivity.
Qed.
Lemma mapR_exists {A B} (f : A -> res B) l : Forall (fun x => exists y, f x = Ok y) l -> exists ys, mapR f l = Ok ys.
Proof. induction 1 as [|x l [y Hy] _ [ys IH]]; simpl; [now eexists|]. rewrite Hy, IH. now eexists. Qed.
Lemma hstack_ok {A} (l : list (list A)) : l <> [] -> hstack l = Ok (concat l).
Proof. destruct l; [congruence|reflexivity]. Qed.
Lemma Forall2_map_r {A B C} (R : A -> C -> Prop) (f : B -> C) l m : Forall2 R l (map f m) <-> Forall2 (fun a b => R a (f b)) l m.
Proof.
  revert m. induction l as [|a l IH]; intros [|b m]; simpl; split; intros H; inversion H; subst; constructor; auto; now apply IH.
Qed.

(** *** encode *)
Lemma encode_ok p : wf p -> exists v, encode p = Ok v /\ length v = psize p.
Proof.
  induction p as [v lo hi|e n inv|ps sz es IH|p n s IH] using param_rect'; intros H; simpl in H |- *.
  - now exists v.
  - now exists e.
  - destruct H as (Hne & -> & -> & Hw). apply wf_all in Hw.
    assert (exists vs, mapR encode ps = Ok vs /\ length (concat vs) = list_sum (map psize ps) /\ length vs = length ps) as (vs & E & L & L').
    { clear Hne. induction IH as [|p ps Hp _ IH2]; simpl; [now exists []|]. inversion Hw; subst.
      destruct (Hp ltac:(assumption)) as (v & -> & Lv). destruct (IH2 ltac:(assumption)) as (vs & -> & Lvs & Lp).
      exists (v :: vs). simpl. rewrite app_length. split; [reflexivity|]. split; [|simpl; congruence]. cbn. lia. }
    rewrite E. cbn [bind]. exists (concat vs). split; [|assumption]. apply hstack_ok. intros ->. destruct ps; [congruence|discriminate].
  - destruct H as [Hl Hw]. destruct (IH Hw) as (v & -> & L). cbn [bind]. eexists. split; [reflexivity|]. rewrite app_length. lia.
Qed.
Lemma to_vector_encode p : to_vector p = encode p.
Proof.
  induction p as [v lo hi|e n inv|ps sz es IH|p n s IH] using param_rect'; try reflexivity.
  simpl. assert (mapR to_vector ps = mapR encode ps) as ->; [|reflexivity].
  induction IH as [|p ps Hp _ IH2]; simpl; [reflexivity|]. now rewrite Hp, IH2.
Qed.

(** *** splitting *)
Lemma split_concat : forall vs sizes, map (@length Q) vs = sizes -> vs <> [] -> split_vector (concat vs) sizes = vs.
Proof.
  induction vs as [|v vs IH]; intros sizes <- Hne; [congruence|]. destruct vs as [|w vs].
  - simpl. now rewrite app_nil_r.
  - assert (Hc : concat (v :: w :: vs) = v ++ concat (w :: vs)) by reflexivity. rewrite Hc. clear Hc.
    set (c := concat (w :: vs)) in *. assert (Hs : forall x, split_vector x (map (@length Q) (v :: w :: vs)) =
      firstn (length v) x :: split_vector (skipn (length v) x) (map (@length Q) (w :: vs))) by reflexivity.
    rewrite Hs, firstn_app, firstn_all, Nat.sub_diag, skipn_app, skipn_all, Nat.sub_diag. cbn [firstn skipn]. rewrite app_nil_r. cbn [app]. unfold c.
    rewrite IH; [reflexivity|reflexivity|discriminate].
Qed.
Lemma split_lengths : forall sizes v, sizes <> [] -> length v = list_sum sizes ->
  map (@length Q) (split_vector v sizes) = sizes /\ concat (split_vector v sizes) = v.
Proof.
  induction sizes as [|s sizes IH]; intros v Hne Hl; [congruence|]. destruct sizes as [|s' sizes].
  - simpl in *. rewrite app_nil_r. split; [f_equal; lia|reflexivity].
  - change (split_vector v (s :: s' :: sizes)) with (firstn s v :: split_vector (skipn s v) (s' :: sizes)).
    change (list_sum (s :: s' :: sizes)) with (s + list_sum (s' :: sizes))%nat in Hl.
    destruct (IH (skipn s v)) as [H1 H2]; [discriminate|rewrite skipn_length; lia|].
    split.
    + cbn [map]. rewrite H1, firstn_length. f_equal. lia.
    + cbn [concat]. rewrite H2. apply firstn_skipn.
Qed.
Lemma zipR_same {A C} (g : A -> C -> res A) : forall l cs, Forall2 (fun x c => g x c = Ok x) l cs -> zipR g l cs = Ok l.
Proof. induction 1 as [|x c l cs Hx _ IH]; simpl; [reflexivity|]. rewrite Hx, IH. reflexivity. Qed.
Lemma zipR_Forall {A C} (g : A -> C -> res A) : forall l cs ys, Forall2 (fun xc y => g (fst xc) (snd xc) = Ok y) (combine l cs) ys ->
  length l = length cs -> zipR g l cs = Ok ys.
Proof.
  induction l as [|x l IH]; intros [|c cs] ys H L; simpl in *; try discriminate.
  - inversion H. reflexivity.
  - inversion H as [|? y ? zs Hy Hz]; subst. simpl in Hy. rewrite Hy. cbn [bind]. rewrite (IH cs zs Hz) by lia. reflexivity.
Qed.

Lemma encode_len p v : wf p -> encode p = Ok v -> length v = psize p.
Proof. intros H E. destruct (encode_ok p H) as (w & E' & L). congruence. Qed.
Lemma composite_encode ps vs : Forall wf ps -> mapR encode ps = Ok vs -> map (@length Q) vs = map psize ps.
Proof.
  intros Hw E. apply mapR_Forall2 in E. induction E as [|p v ps vs Hp _ IH]; [reflexivity|]. inversion Hw; subst. simpl.
  f_equal; [now apply encode_len|now apply IH].
Qed.
Lemma drop_take_last v n : (n <= length v)%nat -> drop_last v n ++ take_last v n = v.
Proof. intros. apply firstn_skipn. Qed.
Lemma drop_last_app v s : drop_last (v ++ s) (length s) = v.
Proof. unfold drop_last. rewrite app_length. replace (length v + length s - length s)%nat with (length v) by lia. rewrite firstn_app, firstn_all, Nat.sub_diag. cbn. apply app_nil_r. Qed.
Lemma take_last_app v s : take_last (v ++ s) (length s) = s.
Proof. unfold take_last. rewrite app_length. replace (length v + length s - length s)%nat with (length v) by lia. rewrite skipn_app, skipn_all, Nat.sub_diag. reflexivity. Qed.

(** *** decode after encode *)
Lemma decode_encode_pf p v : wf p -> encode p = Ok v -> decode p v = Ok p.
Proof.
  revert v. induction p as [w lo hi|e n inv|ps sz es IH|p n s IH] using param_rect'; intros v H E; simpl in H, E |- *.
  - injection E as <-. reflexivity.
  - injection E as <-. now rewrite qsort_sorted.
  - destruct H as (Hne & -> & -> & Hw). apply wf_all in Hw. destruct (mapR encode ps) as [vs|] eqn:Em; [|discriminate].
    cbn [bind] in E. assert (vs <> []) as Hvs. { apply mapR_Forall2 in Em. intros ->. inversion Em. congruence. }
    rewrite hstack_ok in E by assumption. injection E as <-. rewrite split_concat; [|now apply composite_encode|assumption].
    rewrite zipR_same; [reflexivity|]. apply mapR_Forall2 in Em. clear Hne Hvs.
    induction Em as [|p v ps vs Hp _ IH2]; constructor; inversion Hw; subst; inversion IH; subst; auto.
  - destruct H as [Hl Hw]. destruct (encode p) as [w|] eqn:Ep; [|discriminate]. injection E as <-. subst n.
    destruct (Nat.ltb_spec 0 (length s)) as [Hs|Hs].
    + rewrite drop_last_app, take_last_app, (IH w Hw eq_refl). reflexivity.
    + destruct s as [|x s]; [|simpl in Hs; lia]. rewrite app_nil_r, (IH w Hw eq_refl). reflexivity.
Qed.

(** *** decode of any vector of the right length *)
Lemma Forall2_combine_exists {A B C} (P : A -> B -> C -> Prop) : forall (l : list A) (m : list B),
  length l = length m -> Forall (fun ab => exists c, P (fst ab) (snd ab) c) (combine l m) ->
  exists cs, Forall2 (fun ab c => P (fst ab) (snd ab) c) (combine l m) cs.
Proof.
  intros l m _ H. induction H as [|[a b] t [c Hc] _ [cs IH]]; [exists []; constructor|]. exists (c :: cs). now constructor.
Qed.
Definition sc_list := (fix all ps qs := match ps, qs with
                        | [], [] => True
                        | p :: ps', q :: qs' => same_config p q /\ all ps' qs'
                        | _, _ => False
                        end).
Lemma sc_list_Forall2 ps qs : sc_list ps qs <-> Forall2 same_config ps qs.
Proof.
  revert qs. induction ps as [|p ps IH]; intros [|q qs]; simpl.
  - split; intros; [constructor|exact I].
  - split; intros H; [contradiction|inversion H].
  - split; intros H; [contradiction|inversion H].
  - rewrite IH. split; [intros [H1 H2]; now constructor|intros H; inversion H; now split].
Qed.
Lemma same_config_refl p : same_config p p.
Proof.
  induction p as [w lo hi|e n inv|ps sz es IH|p n s IH] using param_rect'; simpl; auto.
  split; [reflexivity|]. split; [reflexivity|]. change (sc_list ps ps). apply sc_list_Forall2. induction IH; constructor; auto.
Qed.
Lemma same_config_sym p : forall q, same_config p q -> same_config q p.
Proof.
  induction p as [w lo hi|e n inv|ps sz es IH|p n s IH] using param_rect'; intros [w' lo' hi'|e' n' inv'|qs sz' es'|q n' s'] H; simpl in *; try contradiction.
  - intuition.
  - intuition.
  - destruct H as (-> & -> & H). split; [reflexivity|]. split; [reflexivity|]. change (sc_list ps qs) in H. change (sc_list qs ps).
    apply sc_list_Forall2 in H. apply sc_list_Forall2. induction H; [constructor|]. inversion IH; subst. constructor; auto.
  - destruct H as [-> H]. auto.
Qed.
Lemma same_config_psize p : forall q, same_config p q -> psize p = psize q.
Proof.
  induction p as [w lo hi|e n inv|ps sz es IH|p n s IH] using param_rect'; intros [w' lo' hi'|e' n' inv'|qs sz' es'|q n' s'] H; simpl in *; try contradiction.
  - tauto.
  - tauto.
  - destruct H as (_ & _ & H). change (sc_list ps qs) in H. apply sc_list_Forall2 in H. f_equal. induction H; [reflexivity|]. inversion IH; subst. simpl. f_equal; auto.
  - destruct H as [-> H]. erewrite IH by eassumption. reflexivity.
Qed.
Lemma same_config_psizes ps qs : Forall2 same_config ps qs -> map psize ps = map psize qs.
Proof. induction 1; simpl; [reflexivity|]. f_equal; [now apply same_config_psize|assumption]. Qed.

Lemma decode_ok_pf p : forall v, wf p -> length v = psize p ->
  exists p', decode p v = Ok p' /\ wf p' /\ same_config p p' /\ exists v', encode p' = Ok v' /\ Permutation v v'.
Proof.
  induction p as [w lo hi|e n inv|ps sz es IH|p n s IH] using param_rect'; intros v H L; simpl in H, L |- *.
  - eexists. split; [reflexivity|]. simpl. rewrite L. split; [assumption|]. split; [auto|]. now exists v.
  - eexists. split; [reflexivity|]. simpl. rewrite qsort_length, L. split; [split; [apply qsort_nondecreasing|tauto]|].
    split; [auto|]. exists (qsort v). split; [reflexivity|apply qsort_perm].
  - destruct H as (Hne & -> & -> & Hw). apply wf_all in Hw.
    destruct (@split_lengths (map psize ps) v) as [L1 L2]; [destruct ps; [congruence|discriminate]|assumption|].
    set (vs := split_vector v (map psize ps)) in *. rewrite <- L2. clearbody vs. clear v L L2.
    assert (exists ps', zipR decode ps vs = Ok ps' /\ Forall wf ps' /\ Forall2 same_config ps ps' /\
              exists vs', mapR encode ps' = Ok vs' /\ Permutation (concat vs) (concat vs')) as (ps' & E & W & S & vs' & Ev & Pv).
    { clear Hne. revert vs L1. induction IH as [|p ps Hp _ IH2]; intros [|v vs] L1; try discriminate.
      - exists []. repeat split; try constructor. exists []. split; [reflexivity|constructor].
      - inversion Hw; subst. injection L1 as L1 L1'. destruct (Hp v ltac:(assumption) L1) as (p' & E & W & S & v' & Ev & Pv).
        destruct (IH2 ltac:(assumption) vs L1') as (ps' & E' & W' & S' & vs' & Ev' & Pv').
        exists (p' :: ps'). simpl. rewrite E, E'. split; [reflexivity|]. split; [now constructor|]. split; [now constructor|].
        exists (v' :: vs'). rewrite Ev, Ev'. split; [reflexivity|]. simpl. now apply Permutation_app. }
    rewrite E. cbn [bind]. eexists. split; [reflexivity|]. assert (ps' <> []) as Hne' by (intros ->; inversion S; congruence).
    split; [|split].
    + simpl. rewrite (same_config_psizes S). repeat split; try assumption. now apply wf_all.
    + simpl. split; [reflexivity|]. split; [reflexivity|]. change (sc_list ps ps'). now apply sc_list_Forall2.
    + exists (concat vs'). simpl. rewrite Ev. split; [|assumption]. apply hstack_ok. intros ->. apply mapR_Forall2 in Ev. inversion Ev. congruence.
  - destruct H as [Hl Hw]. destruct (Nat.ltb_spec 0 n) as [Hn|Hn].
    + destruct (IH (drop_last v n) Hw) as (p' & E & W & S & v' & Ev & Pv); [unfold drop_last; rewrite firstn_length; lia|].
      rewrite E. cbn [bind]. eexists. split; [reflexivity|]. split; [|split].
      * simpl. split; [|assumption]. unfold take_last. rewrite skipn_length. lia.
      * simpl. auto.
      * simpl. rewrite Ev. eexists. split; [reflexivity|]. rewrite <- (@drop_take_last v n) at 1 by lia. now apply Permutation_app_tail.
    + destruct (IH v Hw) as (p' & E & W & S & v' & Ev & Pv); [lia|]. rewrite E. cbn [bind]. eexists. split; [reflexivity|].
      split; [simpl; auto|]. split; [simpl; auto|]. simpl. rewrite Ev. eexists. split; [reflexivity|].
      destruct s; [|simpl in Hl; lia]. now rewrite app_nil_r.
Qed.
(** pieces go to the components they belong to *)
Lemma composite_decode_pf ps sz es vs : wf (Composite ps sz es) -> map (@length Q) vs = map psize ps ->
  decode (Composite ps sz es) (concat vs) = bind (zipR decode ps vs) (fun ps' => Ok (Composite ps' sz es)) /\
  from_vector (Composite ps sz es) (concat vs) = bind (zipR from_vector ps vs) (fun ps' => Ok (Composite ps' sz es)).
Proof.
  intros (Hne & -> & -> & Hw) L. simpl. rewrite split_concat; [now split|assumption|]. intros ->. destruct ps; [congruence|discriminate].
Qed.

(** *** clipping *)
Lemma bcast_len_same n : bcast_len n n = Ok n.
Proof. unfold bcast_len. now rewrite Nat.eqb_refl. Qed.
Lemma bcast_nth_same {A} (l : list A) d i : (i < length l)%nat -> bcast_nth l d i = nth i l d.
Proof. intros H. unfold bcast_nth. destruct (Nat.eqb_spec (length l) 1); [|reflexivity]. now replace i with 0%nat by lia. Qed.
Lemma clip_pf v lo hi : length lo = length v -> length hi = length v ->
  exists v', clip v lo hi = Ok v' /\ length v' = length v /\ forall i, (i < length v)%nat -> qn v' i = clip1 (qn v i) (on lo i) (on hi i).
Proof.
  intros L1 L2. unfold clip. rewrite L1, bcast_len_same. cbn [bind]. rewrite L2, bcast_len_same. cbn [bind]. eexists. split; [reflexivity|].
  split; [now rewrite map_length, seq_length|]. intros i Hi. rewrite map_seq_nth by assumption. rewrite !bcast_nth_same by congruence. reflexivity.
Qed.
Lemma clip1_within x lo hi : consistent lo hi -> above lo (clip1 x lo hi) /\ below (clip1 x lo hi) hi.
Proof. unfold clip1, consistent, above, below. destruct lo as [l|], hi as [h|]; intros H; split; try exact I; qlra. Qed.
Lemma clip1_id x lo hi : above lo x -> below x hi -> clip1 x lo hi = x.
Proof.
  unfold clip1, above, below. intros H1 H2. assert ((match lo with Some l => qmax l x | None => x end) = x) as ->.
  { destruct lo as [l|]; [|reflexivity]. unfold qmax. now apply Qle_bool_iff in H1 as ->. }
  destruct hi as [h|]; [|reflexivity]. unfold qmin. now apply Qle_bool_iff in H2 as ->.
Qed.
Lemma clip1_nearest x lo hi y : above lo y -> below y hi -> (x <= clip1 x lo hi /\ clip1 x lo hi <= y) \/ (y <= clip1 x lo hi /\ clip1 x lo hi <= x) \/ clip1 x lo hi == x.
Proof.
  unfold clip1, above, below. intros H1 H2. destruct lo as [l|], hi as [h|]; qcase; try (left; split; lra); try (right; left; split; lra); try (right; right; lra).
Qed.
Lemma list_ext (l m : list Q) : length l = length m -> (forall i, (i < length l)%nat -> qn l i = qn m i) -> l = m.
Proof. intros H1 H2. apply (nth_ext l m 0 0 H1). exact H2. Qed.

Lemma project_ok_pf p : wf p -> exists p', project p = Ok p' /\ wf p' /\ same_config p p'.
Proof.
  induction p as [v lo hi|e n inv|ps sz es IH|p n s IH] using param_rect'; intros H; simpl in H |- *.
  - destruct H as [L1 L2]. destruct (@clip_pf v (snd lo) (snd hi) L1 L2) as (v' & -> & L & _). cbn [bind]. eexists. split; [reflexivity|]. simpl.
    rewrite L. auto.
  - eexists. split; [reflexivity|]. simpl. auto.
  - destruct H as (Hne & -> & -> & Hw). apply wf_all in Hw.
    assert (exists ps', mapR project ps = Ok ps' /\ Forall wf ps' /\ Forall2 same_config ps ps') as (ps' & E & W & S).
    { clear Hne. induction IH as [|p ps Hp _ IH2]; [exists []; repeat constructor|]. inversion Hw; subst.
      destruct (Hp ltac:(assumption)) as (p' & E & W & S). destruct (IH2 ltac:(assumption)) as (ps' & E' & W' & S').
      exists (p' :: ps'). simpl. rewrite E, E'. repeat constructor; assumption. }
    rewrite E. cbn [bind]. eexists. split; [reflexivity|]. split.
    + simpl. rewrite (same_config_psizes S). repeat split; try (now apply wf_all). intros ->. inversion S. congruence.
    + simpl. split; [reflexivity|]. split; [reflexivity|]. change (sc_list ps ps'). now apply sc_list_Forall2.
  - destruct H as [Hl Hw]. destruct (IH Hw) as (p' & -> & W & S). cbn [bind]. eexists. split; [reflexivity|]. simpl. auto.
Qed.
Lemma from_to_vector_pf p v : wf p -> to_vector p = Ok v -> from_vector p v = project p.
Proof.
  revert v. induction p as [w lo hi|e n inv|ps sz es IH|p n s IH] using param_rect'; intros v H E; rewrite to_vector_encode in E.
  - cbn [from_vector]. now rewrite (decode_encode_pf _ H E).
  - cbn [from_vector]. now rewrite (decode_encode_pf _ H E).
  - simpl in H, E |- *. destruct H as (Hne & -> & -> & Hw). apply wf_all in Hw. destruct (mapR encode ps) as [vs|] eqn:Em; [|discriminate].
    cbn [bind] in E. assert (vs <> []) as Hvs. { apply mapR_Forall2 in Em. intros ->. inversion Em. congruence. }
    rewrite hstack_ok in E by assumption. injection E as <-. rewrite split_concat; [|now apply composite_encode|assumption].
    f_equal. apply mapR_Forall2 in Em. clear Hne Hvs.
    induction Em as [|p v ps vs Hp _ IH2]; [reflexivity|]. inversion Hw; subst; inversion IH; subst. simpl.
    match goal with Hx : forall v, wf p -> _ |- _ => rewrite (Hx v) by (try assumption; now rewrite to_vector_encode) end.
    destruct (project p); [|reflexivity]. cbn [bind]. now rewrite IH2.
  - cbn [from_vector]. now rewrite (decode_encode_pf _ H E).
Qed.
(** projecting twice changes nothing *)
Lemma bc_all ps : fold_right (fun p P => bounds_consistent p /\ P) True ps <-> Forall bounds_consistent ps.
Proof. induction ps as [|p ps IH]; simpl; split; intros H; [constructor|exact I|constructor; tauto|inversion H; tauto]. Qed.
Lemma project_idem_pf p p' : wf p -> bounds_consistent p -> project p = Ok p' -> project p' = Ok p'.
Proof.
  revert p'. induction p as [v lo hi|e n inv|ps sz es IH|p n s IH] using param_rect'; intros p' H C E; simpl in H, C, E.
  - destruct H as [L1 L2]. destruct (@clip_pf v (snd lo) (snd hi) L1 L2) as (v' & Ec & L & N). rewrite Ec in E. injection E as <-.
    simpl. destruct (@clip_pf v' (snd lo) (snd hi)) as (v'' & -> & L' & N'); [congruence..|]. cbn [bind]. do 2 f_equal.
    apply list_ext; [assumption|]. intros i Hi. rewrite L' in Hi. rewrite N' by assumption. rewrite L in Hi. rewrite (N i Hi).
    destruct (@clip1_within (qn v i) _ _ (C i)). now apply clip1_id.
  - injection E as <-. reflexivity.
  - destruct (mapR project ps) as [ps'|] eqn:Em; [|discriminate]. injection E as <-. simpl.
    destruct H as (_ & _ & _ & Hw). apply wf_all in Hw. apply bc_all in C. assert (mapR project ps' = Ok ps') as ->; [|reflexivity].
    apply mapR_Forall2. apply mapR_Forall2 in Em. induction Em; [constructor|]. inversion IH; inversion Hw; inversion C; subst. constructor; auto.
  - destruct (project p) as [q|] eqn:Ep; [|discriminate]. injection E as <-. simpl. rewrite (IH q); [reflexivity|tauto|assumption|reflexivity].
Qed.

(** *** bounds *)
Lemma app_nth_on (l m : list (option Q)) i : on (l ++ m) i = if Nat.ltb i (length l) then on l i else on m (i - length l).
Proof. unfold on. destruct (Nat.ltb_spec i (length l)); [now apply app_nth1|now apply app_nth2]. Qed.
Lemma app_qn l m i : qn (l ++ m) i = if Nat.ltb i (length l) then qn l i else qn m (i - length l).
Proof. unfold qn. destruct (Nat.ltb_spec i (length l)); [now apply app_nth1|now apply app_nth2]. Qed.
Lemma get_bounds_ok_pf p : wf p -> slack_free p ->
  exists b, get_bounds p = Ok b /\ length (fst (eff_bounds (psize p) b)) = psize p /\ length (snd (eff_bounds (psize p) b)) = psize p /\
  forall p' v', bounds_consistent p -> project p = Ok p' -> encode p' = Ok v' ->
    forall i, (i < psize p)%nat -> above (on (fst (eff_bounds (psize p) b)) i) (qn v' i) /\ below (qn v' i) (on (snd (eff_bounds (psize p) b)) i).
Proof.
  induction p as [v lo hi|e n inv|ps sz es IH|p n s IH] using param_rect'; intros H F; simpl in H, F |- *.
  - destruct H as [L1 L2]. eexists. split; [reflexivity|]. simpl. split; [assumption|]. split; [assumption|].
    intros p' v' C E1 E2 i Hi. destruct (@clip_pf v (snd lo) (snd hi) L1 L2) as (w & Ec & L & N). rewrite Ec in E1. injection E1 as <-.
    simpl in E2. injection E2 as <-. rewrite N by assumption. apply clip1_within. apply C.
  - eexists. split; [reflexivity|]. simpl. rewrite repeat_length. split; [reflexivity|]. split; [reflexivity|].
    intros p' v' _ _ _ i Hi. unfold on. rewrite nth_repeat. split; exact I.
  - destruct H as (Hne & -> & -> & Hw). apply wf_all in Hw. apply sf_all in F.
    set (eff := fun bn : option (bounds * bounds) * nat => match bn with
      | (Some (lo, hi), _) => (snd lo, snd hi) | (None, n) => (repeat None n, repeat None n) end).
    assert (exists bs, mapR get_bounds ps = Ok bs /\ length bs = length ps /\
      length (concat (map fst (map eff (combine bs (map psize ps))))) = list_sum (map psize ps) /\
      length (concat (map snd (map eff (combine bs (map psize ps))))) = list_sum (map psize ps) /\
      forall ps' vs', Forall bounds_consistent ps -> mapR project ps = Ok ps' -> mapR encode ps' = Ok vs' ->
        forall i, (i < list_sum (map psize ps))%nat ->
        above (on (concat (map fst (map eff (combine bs (map psize ps))))) i) (qn (concat vs') i) /\
        below (qn (concat vs') i) (on (concat (map snd (map eff (combine bs (map psize ps))))) i)) as (bs & E & Lb & L1 & L2 & N).
    { clear Hne. assert (Heff : forall b n, eff (b, n) = eff_bounds n b) by (intros [[? ?]|] n; reflexivity). clearbody eff.
      induction IH as [|p ps Hp _ IH2].
      - exists []. repeat split; simpl in *; lia.
      - inversion Hw; inversion F; subst. destruct (Hp ltac:(assumption) ltac:(assumption)) as (b & E & L1 & L2 & N).
        destruct (IH2 ltac:(assumption) ltac:(assumption)) as (bs & E' & Lb & L1' & L2' & N').
        exists (b :: bs). simpl. rewrite E, E'. split; [reflexivity|]. split; [congruence|].
        rewrite Heff. split; [rewrite app_length; lia|]. split; [rewrite app_length; lia|].
        intros ps' vs' C Ep Ee i Hi. inversion C; subst.
        destruct (project p) as [p'|] eqn:Epp; [|discriminate]. destruct (mapR project ps) as [ps''|] eqn:Eps; [|discriminate]. injection Ep as <-.
        simpl in Ee. destruct (encode p') as [v'|] eqn:Ev; [|discriminate]. destruct (mapR encode ps'') as [vs''|] eqn:Evs; [|discriminate]. injection Ee as <-.
        simpl concat. assert (length v' = psize p) as Lv.
        { destruct (project_ok_pf p ltac:(assumption)) as (q & Eq & Wq & Sq). rewrite Epp in Eq. injection Eq as <-.
          rewrite (encode_len _ Wq Ev). symmetry. now apply same_config_psize. }
        rewrite !app_nth_on, app_qn, L1, L2, Lv. destruct (Nat.ltb_spec i (psize p)) as [Hip|Hip].
        + apply (N p' v'); auto.
        + apply (N' ps'' vs''); auto. lia. }
    rewrite E. cbn [bind]. fold eff. rewrite !hstack_ok.
    2-3: destruct ps; [congruence|]; destruct bs; [discriminate|]; simpl; discriminate.
    cbn [bind]. eexists. split; [reflexivity|]. cbn [eff_bounds fst snd]. split; [assumption|]. split; [assumption|].
    intros p' v' C Ep Ev i Hi. apply bc_all in C. destruct (mapR project ps) as [ps'|] eqn:Eps; [|discriminate]. injection Ep as <-.
    simpl in Ev. destruct (mapR encode ps') as [vs'|] eqn:Evs; [|discriminate]. cbn [bind] in Ev. destruct vs' as [|v0 vs']; [discriminate|].
    injection Ev as <-. now apply (N ps' (v0 :: vs')).
  - contradiction.
Qed.

(** *** serialization *)
Lemma serialize_ok_pf p : wf p -> exists d, serialize p = Ok d.
Proof.
  induction p as [v lo hi|e n inv|ps sz es IH|p n s IH] using param_rect'; intros H; simpl.
  - now eexists.
  - now eexists.
  - destruct H as (_ & _ & _ & Hw). apply wf_all in Hw. destruct (@mapR_exists _ _ serialize ps) as [l ->]; [|now eexists].
    induction IH; constructor; inversion Hw; subst; auto.
  - destruct H as [_ H]. destruct (IH H) as [d ->]. now eexists.
Qed.
Definition sl_list := (fix all ps qs := match ps, qs with
                        | [], [] => True
                        | p :: ps', q :: qs' => same_layout p q /\ all ps' qs'
                        | _, _ => False
                        end).
Lemma deserialize_serialize_pf p : forall q d, wf p -> same_layout p q -> serialize p = Ok d -> deserialize q d = project p.
Proof.
  induction p as [v lo hi|e n inv|ps sz es IH|p n s IH] using param_rect'; intros [v' lo' hi'|e' n' inv'|qs sz' es'|q n' s'] d H S E; simpl in S; try contradiction.
  - destruct S as (L & <- & <-). simpl in E. injection E as <-. reflexivity.
  - subst n'. simpl in E. injection E as <-. simpl in H |- *. rewrite qsort_sorted by tauto. reflexivity.
  - destruct S as (<- & <- & S). change (sl_list ps qs) in S. simpl in E. destruct (mapR serialize ps) as [l|] eqn:El; [|discriminate]. injection E as <-.
    simpl in H |- *. destruct H as (Hne & -> & -> & Hw). apply wf_all in Hw. f_equal. apply mapR_Forall2 in El. clear Hne.
    revert qs S. induction El as [|p d ps l Hd _ IH2]; intros [|q qs] S; simpl in S; try contradiction; [reflexivity|].
    inversion IH; inversion Hw; subst. simpl. destruct S as [S1 S2].
    match goal with Hx : forall q d, wf p -> _ |- _ => rewrite (Hx q d) by assumption end. destruct (project p); [|reflexivity]. cbn [bind].
    now rewrite IH2.
  - simpl in E. destruct (serialize p) as [w|] eqn:Ew; [|discriminate]. injection E as <-. simpl in H |- *. rewrite (IH q w) by tauto. reflexivity.
Qed.

(** *** constructors *)
Lemma expand_bound_length n b : fits n b -> length (snd (expand_bound n b)) = n.
Proof. destruct b; simpl; intros; [apply repeat_length|apply repeat_length|assumption]. Qed.
Lemma direct_init_wf_pf v b : match b with Some (lo, hi) => fits (length v) lo /\ fits (length v) hi | None => True end -> wf (direct_init v b).
Proof.
  destruct b as [[lo hi]|]; cbn [direct_init wf].
  - intros [H1 H2]. split; now apply expand_bound_length.
  - intros _. split; now apply expand_bound_length.
Qed.
Lemma grating_init_pf v n inv : (Nat.even (length v) = true -> exists p, grating_init v n inv = Ok p /\ wf p) /\
  (Nat.even (length v) = false -> grating_init v n inv = Err ValueError).
Proof.
  unfold grating_init. pose proof (Nat.div_mod (length v) 2 ltac:(lia)) as Hd. pose proof (Nat.mod_upper_bound (length v) 2 ltac:(lia)) as Hb.
  split; intros H.
  - apply Nat.even_spec in H as [k Hk]. assert (length v mod 2 = 0)%nat as -> by lia. cbn [Nat.eqb]. eexists. split; [reflexivity|]. simpl.
    rewrite qsort_length. split; [apply qsort_nondecreasing|]. apply Nat.even_spec. now exists k.
  - assert (Nat.odd (length v) = true) as Ho by (rewrite <- Nat.negb_even, H; reflexivity). apply Nat.odd_spec in Ho as [k Hk].
    assert (length v mod 2 = 1)%nat as -> by lia. reflexivity.
Qed.
Lemma composite_init_pf ps : ps <> [] -> Forall wf ps -> Forall (fun p => exists z, get_structure p = Ok z) ps ->
  exists p, composite_init ps = Ok p /\ wf p /\ p = Composite ps (map psize ps) (map psize ps).
Proof.
  intros Hne Hw Hz. unfold composite_init. destruct (@mapR_exists _ _ encode ps) as [vs E].
  { eapply Forall_impl; [|exact Hw]. intros p Hp. destruct (encode_ok p Hp) as (v & E & _). now exists v. }
  rewrite E. cbn [bind]. assert (mapR to_vector ps = Ok vs) as ->.
  { rewrite <- E. clear. induction ps as [|p ps IH]; simpl; [reflexivity|]. now rewrite to_vector_encode, IH. }
  cbn [bind]. destruct (@mapR_exists _ _ get_structure ps Hz) as [zs ->]. cbn [bind]. eexists. split; [reflexivity|].
  rewrite (composite_encode Hw E). split; [|reflexivity]. simpl. repeat split; try assumption. now apply wf_all.
Qed.
Lemma slack_init_pf p n : wf p -> wf (slack_init p n) /\ psize (slack_init p n) = (psize p + n)%nat.
Proof. intros H. simpl. rewrite repeat_length. auto. Qed.
