(** Lemmas about serialization: names and versions; trees of objects. *)
From Verif Require Import Base Schema_Model Schema_Spec.
From Coq Require Import ZArith String Ascii DecimalString DecimalNat.
Open Scope nat_scope.
Set Implicit Arguments.

(** *** Names *)
Lemma to_uint_nonnil n : Nat.to_uint n <> Decimal.Nil.
Proof.
  intros H. assert (E : Nat.to_uint n = Decimal.unorm (Nat.to_uint n)).
  { rewrite <- DecimalNat.Unsigned.to_of. now rewrite DecimalNat.Unsigned.of_to. }
  rewrite H in E. discriminate E.
Qed.
Lemma dec_inj a b : dec a = dec b -> a = b.
Proof.
  unfold dec. intros H.
  assert (H' : Some (Nat.to_uint a) = Some (Nat.to_uint b)).
  { rewrite <- !NilZero.usu by apply to_uint_nonnil. now rewrite H. }
  apply DecimalNat.Unsigned.to_uint_inj. congruence.
Qed.
Lemma has_dot_app s t : has_dot (s ++ t) = (has_dot s || has_dot t)%bool.
Proof. induction s as [|c s IH]; simpl; [reflexivity|]. rewrite IH. now rewrite orb_assoc. Qed.
Lemma has_dot_uint d : has_dot (NilEmpty.string_of_uint d) = false.
Proof. induction d; simpl; auto. Qed.
Lemma has_dot_dec n : has_dot (dec n) = false.
Proof.
  unfold dec, NilZero.string_of_uint. destruct (Nat.to_uint n); try reflexivity; apply (has_dot_uint _).
Qed.
(** splitting at the last dot *)
Lemma last_dot_inj : forall s t a b, has_dot a = false -> has_dot b = false ->
  (s ++ "." ++ a = t ++ "." ++ b)%string -> s = t /\ a = b.
Proof.
  induction s as [|c s IH]; intros t a b Ha Hb H.
  - destruct t as [|c' t]; simpl in H.
    + injection H as ->. auto.
    + injection H as _ H. rewrite H in Ha.
      rewrite !has_dot_app in Ha. simpl in Ha. rewrite orb_true_r in Ha. discriminate.
  - destruct t as [|c' t]; simpl in H.
    + injection H as _ H. rewrite <- H in Hb. rewrite has_dot_app in Hb. simpl in Hb.
      rewrite orb_true_r in Hb. discriminate.
    + injection H as -> H. destruct (IH t a b Ha Hb H) as [-> ->]. auto.
Qed.
Lemma name_inj t u a b : (t ++ "." ++ dec a = u ++ "." ++ dec b)%string -> t = u /\ a = b.
Proof.
  intros H. apply last_dot_inj in H as [-> H]; try apply has_dot_dec. now apply dec_inj in H as ->.
Qed.
Lemma generated_ge : forall ts m n, In n (generate_names m ts) ->
  exists t k, n = (t ++ "." ++ dec k)%string /\ m t <= k.
Proof.
  induction ts as [|t ts IH]; intros m n; simpl; [tauto|]. intros [<-|H].
  - exists t, (m t). auto.
  - apply IH in H as (t' & k & -> & H). exists t', k. split; [reflexivity|].
    destruct (String.eqb t' t) eqn:Et; [|assumption].
    apply String.eqb_eq in Et as ->. lia.
Qed.
Lemma generate_names_NoDup_pf : forall ts m, NoDup (generate_names m ts).
Proof.
  induction ts as [|t ts IH]; intros m; simpl; [constructor|]. constructor; [|apply IH].
  intros H. apply generated_ge in H as (t' & k & E & H). apply name_inj in E as [<- <-].
  rewrite String.eqb_refl in H. lia.
Qed.
Lemma generated_has_dot ts m n : In n (generate_names m ts) -> has_dot n = true.
Proof.
  intros H. apply generated_ge in H as (t & k & -> & _). rewrite has_dot_app. simpl. apply orb_true_r.
Qed.
Lemma user_names_free_pf m ts n : has_dot n = false -> ~ In n (generate_names m ts).
Proof. intros H Hin. apply generated_has_dot in Hin. congruence. Qed.
Lemma generate_names_app : forall ts m us, exists m',
  generate_names m (ts ++ us) = generate_names m ts ++ generate_names m' us.
Proof.
  induction ts as [|t ts IH]; intros m us; simpl; [eauto|].
  destruct (IH (fst (generate_name m t)) us) as [m' E]. exists m'. simpl in E. now rewrite E.
Qed.

(** *** Versions *)
Lemma goos_sound a b c v : (0 <= a)%Z -> check_version_goos (a :: b :: c :: v) = Ok tt -> (0 <= c)%Z ->
  version_le (0, 3, 0)%Z (a, b, c).
Proof.
  unfold check_version_goos, part. simpl. intros Ha H Hc.
  destruct (Z.ltb_spec a 0); [discriminate|]. destruct (Z.ltb_spec b 3); [discriminate|].
  simpl. lia.
Qed.
Lemma goos_complete b c v : version_le (0, 3, 0)%Z (0%Z, b, c) -> check_version_goos (0%Z :: b :: c :: v) = Ok tt.
Proof.
  unfold check_version_goos, part. simpl. intros H. destruct (Z.ltb_spec b 3); [lia|reflexivity].
Qed.
Lemma goos_accepts_iff a b v : check_version_goos (a :: b :: v) = Ok tt <-> (0 <= a /\ 3 <= b)%Z.
Proof.
  unfold check_version_goos, part. simpl.
  destruct (Z.ltb_spec a 0); [split; [discriminate|lia]|]. destruct (Z.ltb_spec b 3); [split; [discriminate|lia]|].
  split; auto.
Qed.
Lemma invdes_accepts_iff a b c v :
  check_version_invdes (a :: b :: c :: v) = Ok tt <-> (0 <= a /\ 2 <= b /\ 3 <= c)%Z.
Proof.
  unfold check_version_invdes, part. simpl.
  destruct (Z.ltb_spec a 0); [split; [discriminate|lia]|]. destruct (Z.ltb_spec b 2); [split; [discriminate|lia]|].
  destruct (Z.ltb_spec c 3); [split; [discriminate|lia]|]. split; auto with zarith.
Qed.

(** *** Trees *)
Definition sum_by {A} (f : A -> nat) : list A -> nat :=
  fix go l := match l with [] => 0 | x :: l' => f x + go l' end.
Fixpoint size (o : obj) : nat := match o with Obj _ _ fs => S (sum_by size_f fs) end
with size_f (f : fval) : nat :=
  match f with
  | FPrim _ => 0
  | FRefs _ l => sum_by (fun x => size_r (snd x)) l
  | FModels _ l => sum_by (fun x => size (snd x)) l
  end
with size_r (r : ref) : nat := match r with RObj o => size o | RName _ => 0 end.

Lemma sum_by_In {A} (f : A -> nat) l x : In x l -> f x <= sum_by f l.
Proof. induction l as [|y l IH]; simpl; [tauto|]. intros [->|H]; [lia|]. apply IH in H. lia. Qed.
Lemma field_size f i : In i (field_objs f) -> size i <= size_f f.
Proof.
  destruct f as [p|k l|k l]; simpl; [tauto| |].
  - rewrite in_flat_map. intros (x & Hx & Hi).
    pose proof (sum_by_In (fun x => size_r (snd x)) l x Hx) as H.
    destruct (snd x) as [o|n] eqn:Ex; simpl in *; [|tauto]. destruct Hi as [<-|[]]. rewrite Ex in H. exact H.
  - rewrite in_map_iff. intros (x & <- & Hx). exact (sum_by_In (fun x => size (snd x)) l x Hx).
Qed.
Lemma child_size i o : In i (children o) -> size i < size o.
Proof.
  destruct o as [c n fs]. unfold children. simpl. rewrite in_flat_map. intros (f & Hf & Hi).
  apply field_size in Hi. pose proof (sum_by_In size_f fs f Hf). lia.
Qed.
Lemma obj_ind' (P : obj -> Prop) : (forall o, (forall i, In i (children o) -> P i) -> P o) -> forall o, P o.
Proof.
  intros H. assert (HP : forall k o, size o < k -> P o).
  { induction k as [|k IH]; intros o Hk; [lia|]. apply H. intros i Hi. apply IH. apply child_size in Hi. lia. }
  intros o. apply (HP (S (size o))). lia.
Qed.
Lemma inside_size m o : inside m o -> size m <= size o.
Proof. induction 1 as [|m i o Hi _ IH]; [lia|]. apply child_size in Hi. lia. Qed.
Lemma inside_trans a b c : inside a b -> inside b c -> inside a c.
Proof. intros H H'. induction H' as [|m i o Hi _ IH]; [assumption|]. econstructor; eauto. Qed.

(** structural equality *)
Lemma list_eqb_spec {A} (e : A -> A -> bool) : forall l m, (forall x y, In x l -> (e x y = true <-> x = y)) ->
  (list_eqb e l m = true <-> l = m).
Proof.
  induction l as [|x l IH]; intros [|y m] H; simpl; try (split; congruence).
  rewrite andb_true_iff, (H x y) by now left. rewrite (IH m) by (intros; apply H; now right).
  split; [intros [-> ->]; reflexivity|intros E; injection E; auto].
Qed.
Lemma obj_eqb_eq : forall a b, obj_eqb a b = true <-> a = b.
Proof.
  induction a as [a IH] using obj_ind'. intros b. destruct a as [c n fs], b as [c' n' fs'].
  cbn [obj_eqb]. rewrite !andb_true_iff, !Nat.eqb_eq.
  rewrite (list_eqb_spec fval_eqb).
  { split; [intros [[-> ->] ->]; reflexivity|intros E; injection E; auto]. }
  intros f g Hf.
  assert (IHf : forall i, In i (field_objs f) -> forall b, obj_eqb i b = true <-> i = b).
  { intros i Hi. apply IH. unfold children. simpl. rewrite in_flat_map. eauto. }
  clear IH. destruct f as [p|k l|k l], g as [q|k' l'|k' l']; cbn [fval_eqb]; try (split; congruence).
  - rewrite Nat.eqb_eq. split; congruence.
  - rewrite andb_true_iff, Nat.eqb_eq.
    rewrite list_eqb_spec. { split; [intros [-> ->]; reflexivity|intros E; injection E; auto]. }
    intros [kx x] [ky y] Hx. simpl. rewrite andb_true_iff, Nat.eqb_eq.
    destruct x as [x|x], y as [y|y]; cbn [ref_eqb]; try (split; [intros [_ E]; discriminate|intros E; discriminate]).
    + rewrite IHf. { split; [intros [-> ->]; reflexivity|intros E; injection E; auto]. }
      simpl. rewrite in_flat_map. exists (kx, RObj x). simpl. auto.
    + rewrite Nat.eqb_eq. split; [intros [-> ->]; reflexivity|intros E; injection E; auto].
  - rewrite andb_true_iff, Nat.eqb_eq.
    rewrite list_eqb_spec. { split; [intros [-> ->]; reflexivity|intros E; injection E; auto]. }
    intros [kx x] [ky y] Hx. simpl. rewrite andb_true_iff, Nat.eqb_eq.
    rewrite IHf. { split; [intros [-> ->]; reflexivity|intros E; injection E; auto]. }
    simpl. rewrite in_map_iff. exists (kx, x). auto.
Qed.
Lemma obj_mem_In o l : obj_mem o l = true <-> In o l.
Proof.
  unfold obj_mem. rewrite existsb_exists. split.
  - intros (x & Hx & E). apply obj_eqb_eq in E as ->. assumption.
  - intros H. exists o. split; [assumption|]. now apply obj_eqb_eq.
Qed.

Lemma NoDup_app_comm_pf {A} (l : list A) x : NoDup l -> ~ In x l -> NoDup (l ++ [x]).
Proof.
  intros Hn Hx. eapply Permutation_NoDup; [apply Permutation_app_comm|]. constructor; assumption.
Qed.
Section IO.
Variable isnode : nat -> bool.

Lemma extract_f_eq f : forall acc, extract_f isnode f acc = extract_all isnode (field_objs f) acc.
Proof.
  unfold extract_all. destruct f as [p|k l|k l]; cbn [extract_f field_objs]; [reflexivity| |].
  - induction l as [|x l IH]; intros acc; cbn [fold_left flat_map]; [reflexivity|].
    rewrite fold_left_app, <- IH. f_equal. destruct (snd x); reflexivity.
  - induction l as [|x l IH]; intros acc; cbn [fold_left map]; [reflexivity|]. apply IH.
Qed.
Lemma extract_eq o acc : extract isnode o acc =
  if isnode (ocls o) then if obj_mem o acc then acc else extract_all isnode (children o) (acc ++ [o])
  else extract_all isnode (children o) acc.
Proof.
  destruct o as [c n fs]. cbn [extract ocls].
  assert (H : forall fs acc, fold_left (fun acc f => extract_f isnode f acc) fs acc =
                             extract_all isnode (flat_map field_objs fs) acc).
  { clear. intros fs. induction fs as [|f fs IH]; intros acc; cbn [fold_left flat_map]; [reflexivity|].
    rewrite IH, extract_f_eq. unfold extract_all. now rewrite fold_left_app. }
  unfold children. cbn [ofields]. now rewrite !H.
Qed.

(** all node objects inside [a] are in [l] *)
Definition has_all (l : list obj) (a : obj) : Prop := forall m, inside m a -> isnode (ocls m) = true -> In m l.
Lemma has_all_incl l l' a : incl l l' -> has_all l a -> has_all l' a.
Proof. intros H Ha m Hm Hn. apply H, Ha; assumption. Qed.

Record extracted (G acc acc' : list obj) (roots : list obj) : Prop := {
  ex_incl : incl acc acc';
  ex_only : forall x, In x acc' -> In x acc \/ isnode (ocls x) = true /\ exists r, In r roots /\ inside x r;
  ex_nodup : NoDup acc -> NoDup acc';
  ex_closed : (forall a, In a acc -> In a G \/ has_all acc a) ->
              (forall a, In a acc' -> In a G \/ has_all acc' a) /\ (forall r, In r roots -> has_all acc' r)
}.
Lemma extract_all_spec : forall rs G acc,
  (forall r, In r rs -> forall acc, extracted G acc (extract isnode r acc) [r]) ->
  extracted G acc (extract_all isnode rs acc) rs.
Proof.
  unfold extract_all. induction rs as [|r rs IH]; intros G acc H; cbn [fold_left].
  - constructor; try (intros; tauto); [apply incl_refl|]. intros Hc. split; [exact Hc|intros r []].
  - pose proof (H r (or_introl eq_refl) acc) as H1.
    pose proof (IH G (extract isnode r acc) (fun r Hr => H r (or_intror Hr))) as H2. clear IH H.
    destruct H1 as [i1 o1 n1 c1], H2 as [i2 o2 n2 c2]. constructor.
    + eapply incl_tran; eassumption.
    + intros x Hx. apply o2 in Hx as [Hx|(Hx & r' & Hr & Hi)].
      * apply o1 in Hx as [Hx|(Hx & r' & [<-|[]] & Hi)]; [auto|]. right. split; [assumption|].
        exists r. split; [now left|assumption].
      * right. split; [assumption|]. exists r'. split; [now right|assumption].
    + auto.
    + intros Hc. apply c1 in Hc as [Hc Hr]. apply c2 in Hc as [Hc Hr'].
      split; [assumption|]. intros r' [<-|Hr'']; [|auto].
      eapply has_all_incl; [eassumption|]. apply Hr. now left.
Qed.
Lemma extract_spec : forall o G acc, (forall g, In g G -> size o < size g) ->
  extracted G acc (extract isnode o acc) [o].
Proof.
  induction o as [o IH] using obj_ind'. intros G acc HG. rewrite extract_eq.
  destruct (isnode (ocls o)) eqn:En.
  - destruct (obj_mem o acc) eqn:Em.
    + apply obj_mem_In in Em. constructor; try (intros; tauto); [apply incl_refl|].
      intros Hc. split; [assumption|]. intros r [<-|[]]. destruct (Hc o Em) as [Hg|Ha]; [|assumption].
      apply HG in Hg. lia.
    + assert (Hno : ~ In o acc) by (rewrite <- obj_mem_In; congruence).
      assert (H : extracted (o :: G) (acc ++ [o]) (extract_all isnode (children o) (acc ++ [o])) (children o)).
      { apply extract_all_spec. intros r Hr acc'. apply IH; [assumption|].
        pose proof (child_size _ _ Hr). intros g [<-|Hg]; [assumption|]. apply HG in Hg. lia. }
      destruct H as [i1 o1 n1 c1].
      assert (Hin : In o (extract_all isnode (children o) (acc ++ [o]))) by (apply i1, in_app_iff; right; now left).
      constructor.
      * intros x Hx. apply i1, in_app_iff. auto.
      * intros x Hx. apply o1 in Hx as [Hx|(Hx & r & Hr & Hi)].
        -- apply in_app_iff in Hx as [Hx|[<-|[]]]; [auto|]. right. split; [assumption|].
           exists o. split; [now left|constructor].
        -- right. split; [assumption|]. exists o. split; [now left|]. econstructor; eassumption.
      * intros Hn. apply n1. apply NoDup_app_comm_pf; assumption.
      * intros Hc. destruct c1 as [c1 c2].
        { intros a Ha. apply in_app_iff in Ha as [Ha|[<-|[]]]; [|left; now left].
          destruct (Hc a Ha) as [Hg|Hl]; [left; now right|]. right.
          eapply has_all_incl; [|eassumption]. apply incl_appl, incl_refl. }
        assert (Ho : has_all (extract_all isnode (children o) (acc ++ [o])) o).
        { intros m Hm Hn. inversion Hm as [o'|m' i o' Hi Hm' E1 E2]; subst; [assumption|].
          apply (c2 i Hi); assumption. }
        split; [|intros r [<-|[]]; exact Ho].
        intros a Ha. apply c1 in Ha as [[<-|Hg]|Hl]; auto.
  - assert (H : extracted G acc (extract_all isnode (children o) acc) (children o)).
    { apply extract_all_spec. intros r Hr acc'. apply IH; [assumption|].
      pose proof (child_size _ _ Hr). intros g Hg. apply HG in Hg. lia. }
    destruct H as [i1 o1 n1 c1]. constructor; [assumption| |assumption|].
    + intros x Hx. apply o1 in Hx as [Hx|(Hx & r & Hr & Hi)]; [auto|]. right. split; [assumption|].
      exists o. split; [now left|]. econstructor; eassumption.
    + intros Hc. destruct (c1 Hc) as [c2 c3]. split; [assumption|]. intros r [<-|[]] m Hm Hn.
      inversion Hm as [o'|m' i o' Hi Hm' E1 E2]; subst; [congruence|]. apply (c3 i Hi); assumption.
Qed.
Lemma extract_plan_spec p : let l := extract_all isnode (p_actions p) (extract_all isnode (p_nodes p) []) in
  NoDup l /\ forall o, In o l <-> node_of isnode p o.
Proof.
  intros l. assert (H : extracted [] [] l (p_nodes p ++ p_actions p)).
  { unfold l. replace (extract_all isnode (p_actions p) (extract_all isnode (p_nodes p) []))
      with (extract_all isnode (p_nodes p ++ p_actions p) []) by (unfold extract_all; now rewrite fold_left_app).
    apply extract_all_spec. intros r _ acc. apply extract_spec. intros g []. }
  destruct H as [i1 o1 n1 c1]. split; [apply n1; constructor|]. intros o. split.
  - intros Ho. apply o1 in Ho as [[]|Ho]. exact Ho.
  - intros (Hn & r & Hr & Hi). destruct c1 as [_ c2]; [intros a []|]. apply (c2 r Hr); assumption.
Qed.

(** *** names *)
Lemma unique_names_spec : forall l seen, unique_names seen l = true <->
  NoDup (map oname l) /\ forall o, In o l -> ~ In (oname o) seen.
Proof.
  induction l as [|o l IH]; intros seen; simpl.
  - split; [intros _; split; [constructor|tauto]|reflexivity].
  - destruct (memb (oname o) seen) eqn:Em.
    + apply memb_In in Em. split; [discriminate|]. intros [_ H]. exfalso. exact (H o (or_introl eq_refl) Em).
    + apply memb_false in Em. rewrite IH. split.
      * intros [Hn H]. split.
        -- constructor; [|assumption]. rewrite in_map_iff. intros (x & E & Hx). apply (H x Hx). left. congruence.
        -- intros x [<-|Hx]; [assumption|]. intros Hs. apply (H x Hx). now right.
      * intros [Hn H]. inversion Hn as [|? ? Hno Hn']; subst. split; [assumption|].
        intros x Hx [E|Hs].
        -- apply Hno. rewrite E. now apply in_map.
        -- apply (H x (or_intror Hx) Hs).
Qed.
Lemma NoDup_names_inj l : NoDup l -> (NoDup (map oname l) <-> forall a b, In a l -> In b l -> oname a = oname b -> a = b).
Proof.
  induction 1 as [|o l Ho Hl IH]; simpl.
  - split; [intros _ a b []|constructor].
  - split.
    + intros Hn. inversion Hn as [|? ? Hno Hn']; subst.
      pose proof (proj1 IH Hn') as IH'.
      intros a b [<-|Ha] [<-|Hb] E; [reflexivity| | |auto].
      * exfalso. apply Hno. rewrite E. now apply in_map.
      * exfalso. apply Hno. rewrite <- E. now apply in_map.
    + intros H. constructor.
      * rewrite in_map_iff. intros (x & E & Hx). apply Ho. rewrite <- (H x o); auto.
      * apply IH. intros a b Ha Hb. apply H; auto.
Qed.
Lemma unique_iff l : NoDup l ->
  (unique_names [] l = true <-> forall a b, In a l -> In b l -> oname a = oname b -> a = b).
Proof.
  intros Hn. rewrite unique_names_spec. rewrite <- NoDup_names_inj by assumption.
  split; [tauto|]. intros H. split; [assumption|]. simpl. tauto.
Qed.
End IO.
