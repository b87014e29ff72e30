(** Proofs about dictionaries, contexts and their stacks. *)
From Verif Require Import Base Reg_Model Reg_Spec.
Set Implicit Arguments.

Section D.
Variable V : Type.
Implicit Types (d e : odict V) (k : nat) (v : V).
Lemma oget_oset d k v k' : oget (oset d k v) k' = if Nat.eqb k' k then Some v else oget d k'.
Proof.
  induction d as [|[a b] d IH]; simpl; [reflexivity|]. destruct (Nat.eqb_spec k a) as [->|Hn]; simpl.
  - destruct (Nat.eqb_spec k' a); reflexivity.
  - rewrite IH. destruct (Nat.eqb_spec k' a) as [->|], (Nat.eqb_spec a k); congruence.
Qed.
Lemma oget_none d k : oget d k = None <-> ~ In k (map fst d).
Proof.
  induction d as [|[a b] d IH]; simpl; [tauto|]. destruct (Nat.eqb_spec k a) as [->|Hn].
  - split; [discriminate|]. intros H. elim H. auto.
  - rewrite IH. intuition congruence.
Qed.
Lemma oset_keys d k v : map fst (oset d k v) = if oget d k then map fst d else map fst d ++ [k].
Proof.
  induction d as [|[a b] d IH]; simpl; [reflexivity|]. destruct (Nat.eqb_spec k a) as [->|Hn]; simpl; [reflexivity|].
  rewrite IH. now destruct (oget d k).
Qed.
Lemma oset_nodup d k v : NoDup (map fst d) -> NoDup (map fst (oset d k v)).
Proof.
  intros H. rewrite oset_keys. destruct (oget d k) eqn:E; [auto|]. apply oget_none in E.
  apply NoDup_rev in H. rewrite <- (rev_involutive (map fst d ++ [k])). apply NoDup_rev. rewrite rev_app_distr. simpl.
  constructor; [now rewrite <- in_rev|auto].
Qed.
Lemma oget_oupdate e : NoDup (map fst e) -> forall d k, oget (oupdate d e) k = match oget e k with Some v => Some v | None => oget d k end.
Proof.
  unfold oupdate. induction e as [|[a b] e IH]; intros Hn d k; simpl; [reflexivity|]. inversion Hn as [|? ? Ha He]; subst.
  rewrite IH, oget_oset by auto. destruct (Nat.eqb_spec k a) as [->|]; [|reflexivity].
  assert (E : oget e a = None) by now apply oget_none. now rewrite E.
Qed.
Lemma oupdate_nodup e : forall d, NoDup (map fst d) -> NoDup (map fst (oupdate d e)).
Proof. unfold oupdate. induction e as [|[a b] e IH]; intros d H; simpl; [auto|]. apply IH, oset_nodup, H. Qed.
End D.
Lemma oget_map {V W} (f : V -> W) (d : odict V) k : oget (map (fun kv => (fst kv, f (snd kv))) d) k = option_map f (oget d k).
Proof. induction d as [|[a b] d IH]; simpl; [reflexivity|]. now destruct (Nat.eqb k a). Qed.

(** *** objects *)
Section O.
Variable X : Type.
Variable dflt : X.
Implicit Types (s : rstate X).
Lemma set_obj_length s c x : exists_in s c -> length (objs (set_obj s c x)) = length (objs s).
Proof. unfold exists_in. intros H. cbn [objs set_obj]. rewrite app_length, firstn_length.
  change (length (x :: skipn (S c) (objs s))) with (S (length (skipn (S c) (objs s)))). rewrite skipn_length. lia. Qed.
Lemma set_obj_at s c x c' : exists_in s c -> obj dflt (set_obj s c x) c' = if Nat.eqb c' c then x else obj dflt s c'.
Proof.
  unfold exists_in, obj. simpl. intros H. destruct (Nat.eqb_spec c' c) as [->|Hn].
  - rewrite app_nth2; rewrite firstn_length; [|lia]. replace (c - Nat.min c (length (objs s))) with 0 by lia. reflexivity.
  - destruct (Nat.lt_ge_cases c' c) as [Hl|Hl].
    + rewrite app_nth1 by (rewrite firstn_length; lia). rewrite <- (firstn_skipn c (objs s)) at 2. rewrite app_nth1 by (rewrite firstn_length; lia). reflexivity.
    + rewrite app_nth2 by (rewrite firstn_length; lia). rewrite firstn_length. replace (c' - Nat.min c (length (objs s))) with (S (c' - S c)) by lia.
      cbn [nth]. rewrite <- (firstn_skipn (S c) (objs s)) at 2. rewrite app_nth2 by (rewrite firstn_length; lia). rewrite firstn_length. f_equal. lia.
Qed.
Lemma new_obj_at s c' : obj dflt (new_obj dflt s) c' = obj dflt s c'.
Proof.
  unfold obj, new_obj. simpl. destruct (Nat.lt_ge_cases c' (length (objs s))).
  - now rewrite app_nth1.
  - rewrite app_nth2 by auto. rewrite (nth_overflow (objs s)) by auto. destruct (c' - length (objs s)) as [|[|k]]; reflexivity.
Qed.
Definition valid s : Prop := Forall (exists_in s) (rstack s).
Lemma top_snoc l c (o : list X) : top (RState o (l ++ [c])) = Some c.
Proof. unfold top. simpl. rewrite map_app. apply last_last. Qed.
Lemma top_in s c : top s = Some c -> In c (rstack s).
Proof.
  unfold top. intros H. destruct (rstack s) as [|a l] using rev_ind; [discriminate|]. rewrite map_app in H. cbn [map] in H. rewrite last_last in H. injection H as ->.
  apply in_or_app. simpl. auto.
Qed.
Lemma top_none s : top s = None -> rstack s = [].
Proof.
  unfold top. intros H. destruct (rstack s) as [|a l] using rev_ind; [auto|]. rewrite map_app in H. cbn [map] in H. rewrite last_last in H. discriminate.
Qed.
End O.

(** *** the first of a list *)
Lemma first_some_app {A B} (f : A -> option B) l m : first_some f (l ++ m) = match first_some f l with Some b => Some b | None => first_some f m end.
Proof. induction l as [|a l IH]; simpl; [reflexivity|]. destruct (f a); auto. Qed.
Lemma first_some_ext {A B} (f h : A -> option B) l : (forall a, In a l -> f a = h a) -> first_some f l = first_some h l.
Proof. induction l as [|a l IH]; simpl; intros H; [reflexivity|]. rewrite H by auto. destruct (h a); auto. Qed.
Lemma first_some_topmost {A} (f : nat -> option A) st x : first_some f (rev st) = Some x <->
  exists c, topmost st (fun c => f c <> None) c /\ f c = Some x.
Proof.
  induction st as [|c st IH] using rev_ind.
  - simpl. split; [discriminate|]. intros (c & (b & a & E & _) & _). destruct b; discriminate.
  - rewrite rev_app_distr. simpl. destruct (f c) as [y|] eqn:Ec.
    + split.
      * intros E. injection E as <-. exists c. split; [|auto]. exists st, []. repeat split; [congruence|constructor].
      * intros (c' & (b & a & E & Hc & Ha) & Hx). destruct a as [|z a _] using rev_ind.
        -- apply app_inj_tail in E as [_ <-]. congruence.
        -- rewrite app_comm_cons, app_assoc in E. apply app_inj_tail in E as [_ <-]. apply Forall_app in Ha as [_ Ha].
           inversion Ha as [|? ? Hz]; subst. elim Hz. congruence.
    + rewrite IH. split.
      * intros (c' & (b & a & -> & Hc & Ha) & Hx). exists c'. split; [|auto]. exists b, (a ++ [c]). rewrite <- app_assoc. repeat split; auto.
        apply Forall_app. split; [auto|]. constructor; [congruence|constructor].
      * intros (c' & (b & a & E & Hc & Ha) & Hx). destruct a as [|z a _] using rev_ind.
        -- apply app_inj_tail in E as [_ <-]. congruence.
        -- rewrite app_comm_cons, app_assoc in E. apply app_inj_tail in E as [-> <-]. apply Forall_app in Ha as [Ha _].
           exists c'. split; [|auto]. exists b, a. auto.
Qed.
Lemma first_some_nowhere {A} (f : nat -> option A) st : first_some f (rev st) = None <-> nowhere st (fun c => f c <> None).
Proof.
  unfold nowhere. induction st as [|c st IH] using rev_ind; [split; auto|].
  rewrite rev_app_distr. simpl. rewrite Forall_app. destruct (f c) as [y|] eqn:Ec.
  - split; [discriminate|]. intros [_ H]. inversion H as [|? ? Hz]; subst. elim Hz. congruence.
  - rewrite IH. split; [intros H; split; [exact H|constructor; [congruence|constructor]]|tauto].
Qed.
Lemma merged_dict {A} (h : nat -> odict A) st : (forall c, In c st -> NoDup (map fst (h c))) ->
  (forall k, oget (fold_left (fun d c => oupdate d (h c)) st []) k = first_some (fun c => oget (h c) k) (rev st)) /\
  NoDup (map fst (fold_left (fun d c => oupdate d (h c)) st [])).
Proof.
  induction st as [|c st IH] using rev_ind; intros H.
  - split; [reflexivity|constructor].
  - destruct IH as [IH1 IH2]; [intros; apply H, in_or_app; auto|]. split.
    + intros k. rewrite fold_left_app. cbn [fold_left]. rewrite oget_oupdate by (apply H, in_or_app; simpl; auto).
      rewrite rev_app_distr. cbn [rev app first_some]. now rewrite IH1.
    + rewrite fold_left_app. simpl. now apply oupdate_nodup.
Qed.

(** *** contexts of optplan *)
Definition entry (s : ostate) (c meta ty : nat) := ctx_entry (obj [] s c) meta ty.
Definition owf (x : octx) : Prop := NoDup (map fst x) /\ forall meta m, oget x meta = Some m -> NoDup (map fst m).
Lemma ctx_register_entry x meta ty model f x' : ctx_register x meta ty model f = Ok x' ->
  forall meta' ty', ctx_entry x' meta' ty' = if Nat.eqb meta' meta && Nat.eqb ty' ty then Some (model, f) else ctx_entry x meta' ty'.
Proof.
  unfold ctx_register. intros H meta' ty'.
  destruct (oget match oget x meta with Some m => m | None => [] end ty) eqn:E; [discriminate|]. injection H as <-.
  unfold ctx_entry. rewrite oget_oset. destruct (Nat.eqb_spec meta' meta) as [->|]; simpl; [|reflexivity].
  rewrite oget_oset. destruct (Nat.eqb_spec ty' ty) as [->|]; [reflexivity|]. destruct (oget x meta); [reflexivity|]. reflexivity.
Qed.
Lemma ctx_register_iff x meta ty model f : ctx_register x meta ty model f =
  match ctx_entry x meta ty with Some _ => Err ValueError | None => ctx_register x meta ty model f end.
Proof. unfold ctx_register, ctx_entry. destruct (oget x meta) as [m|]; [|reflexivity]. now destruct (oget m ty). Qed.
Lemma ctx_register_ok x meta ty model f : ctx_entry x meta ty = None -> exists x', ctx_register x meta ty model f = Ok x'.
Proof. unfold ctx_register, ctx_entry. destruct (oget x meta) as [m|]; [intros ->|intros _]; eexists; reflexivity. Qed.
Lemma ctx_register_wf x meta ty model f x' : owf x -> ctx_register x meta ty model f = Ok x' -> owf x'.
Proof.
  intros [H1 H2]. unfold ctx_register. destruct (oget match oget x meta with Some m => m | None => [] end ty) eqn:E; [discriminate|].
  intros H. injection H as <-. split; [now apply oset_nodup|]. intros meta' m. rewrite oget_oset.
  destruct (Nat.eqb meta' meta); [|apply H2]. intros Em. injection Em as <-. apply oset_nodup.
  destruct (oget x meta) eqn:E2; [eapply H2; eauto|constructor].
Qed.
(** one registration *)
Lemma oregister_cases s c meta ty model f : exists_in s c ->
  (forall e, entry s c meta ty = Some e -> oregister s c meta ty model f = (Err ValueError, s)) /\
  (entry s c meta ty = None -> exists s', oregister s c meta ty model f = (Ok tt, s') /\ rstack s' = rstack s /\ length (objs s') = length (objs s) /\
     forall c' meta' ty', entry s' c' meta' ty' = if Nat.eqb c' c && (Nat.eqb meta' meta && Nat.eqb ty' ty) then Some (model, f) else entry s c' meta' ty').
Proof.
  intros Hc. unfold oregister, entry. split.
  - intros e He. rewrite ctx_register_iff, He. reflexivity.
  - intros He. destruct (ctx_register_ok _ _ _ model f He) as (x & Hx). rewrite Hx. eexists. split; [reflexivity|].
    split; [reflexivity|]. split; [now apply set_obj_length|]. intros c' meta' ty'. rewrite set_obj_at by auto.
    destruct (Nat.eqb_spec c' c) as [->|]; [|reflexivity]. now rewrite (ctx_register_entry _ _ _ _ _ Hx).
Qed.
Lemma oregister_valid s c meta ty model f : exists_in s c -> valid s -> valid (snd (oregister s c meta ty model f)).
Proof.
  intros Hc Hv. unfold oregister. destruct (ctx_register _ _ _ _ _); [|auto]. cbn [snd].
  unfold valid in *. cbn [rstack set_obj]. eapply Forall_impl; [|exact Hv]. intros z Hz. unfold exists_in. now rewrite set_obj_length.
Qed.
Lemma removelast_incl {A} (l : list A) x : In x (removelast l) -> In x l.
Proof. intros H. destruct l as [|a l] using rev_ind; [auto|]. rewrite removelast_last in H. apply in_or_app. auto. Qed.
Lemma ostep_valid s o : o_legal s o -> valid s -> valid (snd (ostep s o)).
Proof.
  intros Hl Hv. destruct o as [|c meta ty model f|c| |meta ty model f]; simpl in *.
  - unfold valid, exists_in in *. simpl. eapply Forall_impl; [|exact Hv]. cbv beta. intros a Ha. rewrite app_length. apply Nat.lt_lt_add_r, Ha.
  - now apply oregister_valid.
  - unfold valid in *. simpl. apply Forall_app. split; [exact Hv|]. constructor; [exact Hl|constructor].
  - unfold valid in *. simpl. rewrite Forall_forall in *. intros a Ha. apply Hv. now apply removelast_incl.
  - destruct (top s) as [c|] eqn:E; [|exact Hv]. apply oregister_valid; auto. apply top_in in E. unfold valid in Hv. rewrite Forall_forall in Hv. auto.
Qed.
Lemma ostep_entry s o c meta ty e : valid s -> o_legal s o -> entry s c meta ty = Some e -> entry (snd (ostep s o)) c meta ty = Some e.
Proof.
  intros Hv Hl He.
  assert (R : forall c0 meta0 ty0 model f, exists_in s c0 -> entry (snd (oregister s c0 meta0 ty0 model f)) c meta ty = Some e).
  { intros c0 meta0 ty0 model f Hc. destruct (oregister_cases meta0 ty0 model f Hc) as [H1 H2]. destruct (entry s c0 meta0 ty0) as [e0|] eqn:E0.
    - rewrite (H1 e0 eq_refl). exact He.
    - destruct (H2 eq_refl) as (s' & -> & _ & _ & Hs). cbn [snd]. rewrite Hs.
      destruct (Nat.eqb_spec c c0) as [->|]; [|exact He]. destruct (Nat.eqb_spec meta meta0) as [->|]; [|exact He].
      destruct (Nat.eqb_spec ty ty0) as [->|]; [congruence|exact He]. }
  destruct o as [|c0 meta0 ty0 model f|c0| |meta0 ty0 model f]; simpl in *; auto.
  - unfold entry. now rewrite new_obj_at.
  - destruct (top s) as [c0|] eqn:E; [|exact He]. apply R. apply top_in in E. unfold valid in Hv. rewrite Forall_forall in Hv. auto.
Qed.
Lemma orun_entry l : forall s c meta ty e, valid s -> o_legal_run s l -> entry s c meta ty = Some e -> entry (orun s l) c meta ty = Some e.
Proof.
  induction l as [|o l IH]; intros s c meta ty e Hv Hl He; [exact He|]. destruct Hl as [Ho Hl]. unfold orun. cbn [fold_left].
  apply IH; auto using ostep_valid. now apply ostep_entry.
Qed.
Definition all_wf (s : ostate) : Prop := Forall owf (objs s).
Lemma obj_wf s c : all_wf s -> owf (obj [] s c).
Proof.
  intros H. unfold obj. destruct (Nat.lt_ge_cases c (length (objs s))) as [Hc|Hc].
  - unfold all_wf in H. rewrite Forall_forall in H. apply H, nth_In, Hc.
  - rewrite nth_overflow by auto. split; [constructor|]. intros meta m E. discriminate.
Qed.
Lemma ostep_wf s o : all_wf s -> all_wf (snd (ostep s o)).
Proof.
  intros H. assert (R : forall c0 meta0 ty0 model f, all_wf (snd (oregister s c0 meta0 ty0 model f))).
  { intros. unfold oregister. destruct (ctx_register _ _ _ _ _) as [x|] eqn:E; [|exact H]. unfold all_wf. simpl.
    apply Forall_app. split.
    - apply Forall_forall. intros y Hy. unfold all_wf in H. rewrite Forall_forall in H. apply H.
      rewrite <- (firstn_skipn c0 (objs s)). apply in_or_app. auto.
    - constructor.
      + eapply ctx_register_wf; [|exact E]. now apply obj_wf.
      + apply Forall_forall. intros y Hy. unfold all_wf in H. rewrite Forall_forall in H. apply H.
        rewrite <- (firstn_skipn (S c0) (objs s)). apply in_or_app. auto. }
  destruct o as [|c0 meta0 ty0 model f|c0| |meta0 ty0 model f]; simpl; auto.
  - unfold all_wf in *. simpl. apply Forall_app. split; [exact H|]. constructor; [|constructor]. split; [constructor|]. intros meta m E. discriminate.
  - now destruct (top s).
Qed.
Lemma orun_wf l : forall s, all_wf s -> all_wf (orun s l).
Proof. induction l as [|o l IH]; intros s H; [exact H|]. apply IH, ostep_wf, H. Qed.
Lemma orun_valid l : forall s, valid s -> o_legal_run s l -> valid (orun s l).
Proof. induction l as [|o l IH]; intros s H Hl; [exact H|]. destruct Hl. apply IH; auto using ostep_valid. Qed.
Lemma o_reachable_inv s : o_reachable s -> valid s /\ all_wf s.
Proof.
  intros (l & Hl & ->). split; [apply orun_valid; auto; constructor|apply orun_wf; constructor].
Qed.
Lemma model_dict_nodup x meta : owf x -> NoDup (map fst (ctx_model_dict x meta)).
Proof. intros [_ H]. unfold ctx_model_dict. destruct (oget x meta) as [m|] eqn:E; [|constructor]. rewrite map_map. simpl. eapply H; eauto. Qed.
Lemma model_dict_get x meta ty : oget (ctx_model_dict x meta) ty = ctx_model x meta ty.
Proof. unfold ctx_model_dict, ctx_model, ctx_entry. destruct (oget x meta); [|reflexivity]. now rewrite (oget_map fst). Qed.
Lemma stack_dict_lemma s meta : o_reachable s ->
  (forall ty, oget (stack_model_dict s meta) ty = stack_model s meta ty) /\ NoDup (map fst (stack_model_dict s meta)).
Proof.
  intros Hs. destruct (o_reachable_inv Hs) as [_ Hw].
  destruct (@merged_dict nat (fun c => ctx_model_dict (obj [] s c) meta) (rstack s)) as [H1 H2].
  - intros c _. apply model_dict_nodup, obj_wf, Hw.
  - split; [|exact H2]. intros ty. unfold stack_model_dict, stack_model. rewrite H1. apply first_some_ext. intros c _. apply model_dict_get.
Qed.

(** registrations on the top of the stack change one context only *)
Lemma orun_top l : forall s st c, Forall o_top_only l -> rstack s = st ++ [c] -> exists_in s c ->
  let s' := orun s l in rstack s' = st ++ [c] /\ (forall c' meta ty, c' <> c -> entry s' c' meta ty = entry s c' meta ty).
Proof.
  induction l as [|o l IH]; intros s st c Hl Hs Hc; [split; auto|]. inversion Hl as [|? ? Ho Hl']; subst.
  destruct o as [|c0 meta0 ty0 model f|c0| |meta0 ty0 model f]; try elim Ho. unfold orun. cbn [fold_left ostep].
  assert (Ht : top s = Some c) by (destruct s; simpl in *; subst; apply top_snoc). rewrite Ht.
  destruct (oregister_cases meta0 ty0 model f Hc) as [H1 H2]. destruct (entry s c meta0 ty0) as [e0|] eqn:E0.
  - rewrite (H1 e0 eq_refl). cbn [snd]. apply IH; auto.
  - destruct (H2 eq_refl) as (s' & -> & Hr & Hn & He). cbn [snd].
    destruct (IH s' st c Hl' ltac:(congruence) ltac:(unfold exists_in in *; lia)) as [A B]. split; [exact A|].
    intros c' meta ty Hne. rewrite B, He by auto. apply Nat.eqb_neq in Hne. now rewrite Hne.
Qed.
