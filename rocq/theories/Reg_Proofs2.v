(** Proofs about goos contexts, the schema registry and joined monitors. *)
From Verif Require Import Base Reg_Model Reg_Spec Reg_Proofs.
Set Implicit Arguments.

Definition gentry (s : gstate) (c name : nat) := oget (obj [] s c) name.
Definition gwf (s : gstate) : Prop := Forall (fun x : gctx => NoDup (map fst x)) (objs s).
(** a push that keeps objects and adds existing addresses *)
Definition good_push (push : gstate -> option nat -> res unit * gstate) : Prop :=
  forall s c, (forall c', c = Some c' -> exists_in s c') -> valid s ->
    valid (snd (push s c)) /\ (forall c' n, gentry (snd (push s c)) c' n = gentry s c' n) /\ (gwf s -> gwf (snd (push s c))).
Lemma new_valid (s : gstate) : valid s -> valid (new_obj [] s).
Proof. unfold valid, exists_in. simpl. intros H. eapply Forall_impl; [|exact H]. cbv beta. intros a Ha. rewrite app_length. apply Nat.lt_lt_add_r, Ha. Qed.
Lemma new_wf (s : gstate) : gwf s -> gwf (new_obj [] s).
Proof. unfold gwf. simpl. intros H. apply Forall_app. split; [exact H|]. constructor; [constructor|constructor]. Qed.
Lemma context_push_good : good_push context_push.
Proof.
  intros s [c|] Hc Hv; simpl.
  - split; [|split; auto]. unfold valid in *. simpl. apply Forall_app. split; [exact Hv|]. constructor; [now apply Hc|constructor].
  - split; [|split].
    + unfold valid. simpl. apply Forall_app. split; [exact (new_valid Hv)|]. constructor; [|constructor]. unfold exists_in. cbn [objs new_obj push_addr]. rewrite app_length. apply Nat.lt_add_pos_r. exact Nat.lt_0_1.
    + intros c' n. exact (f_equal (fun x => oget x n) (@new_obj_at gctx [] s c')).
    + intros H. exact (new_wf H).
Qed.
Lemma registry_push_good : good_push registry_push.
Proof. intros s c _ Hv. simpl. auto. Qed.

Lemma gregister_cases (s : gstate) c name e : exists_in s c ->
  (forall x, gentry s c name = Some x -> gregister s c name e = (Err ValueError, s)) /\
  (gentry s c name = None -> exists s', gregister s c name e = (Ok tt, s') /\ rstack s' = rstack s /\ length (objs s') = length (objs s) /\
     forall c' n, gentry s' c' n = if Nat.eqb c' c && Nat.eqb n name then Some e else gentry s c' n).
Proof.
  intros Hc. unfold gregister, gentry. split.
  - intros x ->. reflexivity.
  - intros ->. eexists. split; [reflexivity|]. split; [reflexivity|]. split; [now apply set_obj_length|]. intros c' n. rewrite set_obj_at by auto.
    destruct (Nat.eqb_spec c' c) as [->|]; [|reflexivity]. apply oget_oset.
Qed.
Lemma gregister_inv (s : gstate) c name e : exists_in s c -> valid s ->
  valid (snd (gregister s c name e)) /\ (forall c' n x, gentry s c' n = Some x -> gentry (snd (gregister s c name e)) c' n = Some x) /\
  (gwf s -> gwf (snd (gregister s c name e))).
Proof.
  intros Hc Hv. destruct (gregister_cases name e Hc) as [H1 H2]. destruct (gentry s c name) as [x0|] eqn:E0.
  - rewrite (H1 x0 eq_refl). auto.
  - destruct (H2 eq_refl) as (s' & Es & Hr & Hn & He). rewrite Es. cbn [snd]. split; [|split].
    + unfold valid, exists_in in *. now rewrite Hr, Hn.
    + intros c' n x Hx. rewrite He. destruct (Nat.eqb_spec c' c) as [->|]; [|exact Hx]. destruct (Nat.eqb_spec n name) as [->|]; [congruence|exact Hx].
    + intros Hw. unfold gregister in Es. unfold gentry in E0. rewrite E0 in Es. injection Es as <-. unfold gwf in *. cbn [objs set_obj].
      rewrite Forall_forall in *. intros y Hy. apply in_app_or in Hy as [Hy|Hy].
      * apply Hw. rewrite <- (firstn_skipn c (objs s)). apply in_or_app. auto.
      * change (skipn (S c) (objs s)) with (skipn (S c) (objs s)) in Hy. destruct Hy as [<-|Hy].
        -- apply oset_nodup, Hw. unfold obj. apply nth_In, Hc.
        -- apply Hw. rewrite <- (firstn_skipn (S c) (objs s)). apply in_or_app. auto.
Qed.
Lemma gstep_inv push (s : gstate) o : good_push push -> g_legal s o -> valid s ->
  valid (snd (gstep push s o)) /\ (forall c' n x, gentry s c' n = Some x -> gentry (snd (gstep push s o)) c' n = Some x) /\
  (gwf s -> gwf (snd (gstep push s o))).
Proof.
  intros Hp Hl Hv. destruct o as [|c name e|c| |name e]; simpl in *.
  - split; [now apply new_valid|]. split; [|now apply new_wf]. intros. unfold gentry. rewrite new_obj_at. exact H.
  - now apply gregister_inv.
  - destruct (Hp s c) as (A & B & C); auto; [intros c' ->; exact Hl|]. split; [exact A|]. split; [intros; now rewrite B|exact C].
  - destruct (rstack s) as [|a st] eqn:E; [auto|]. split; [|auto]. unfold valid in *. cbn [snd rstack pop_addr]. rewrite Forall_forall in *.
    intros x Hx. apply Hv. now apply removelast_incl.
  - destruct (top s) as [c|] eqn:E; [|auto]. apply gregister_inv; auto. apply top_in in E. unfold valid in Hv. rewrite Forall_forall in Hv. auto.
Qed.
Lemma grun_inv push l : good_push push -> forall s, g_legal_run push s l -> valid s ->
  valid (grun push s l) /\ (forall c' n x, gentry s c' n = Some x -> gentry (grun push s l) c' n = Some x) /\ (gwf s -> gwf (grun push s l)).
Proof.
  intros Hp. induction l as [|o l IH]; intros s Hl Hv; [auto|]. destruct Hl as [Ho Hl].
  destruct (gstep_inv o Hp Ho Hv) as (A & B & C). destruct (IH _ Hl A) as (A' & B' & C').
  unfold grun in *. cbn [fold_left]. split; [exact A'|]. split; auto.
Qed.
Lemma gstart_inv : valid gstart /\ gwf gstart.
Proof. split; constructor; [unfold exists_in; simpl; lia|constructor|constructor|constructor]. Qed.
Lemma g_reachable_inv push s : good_push push -> g_reachable push s -> valid s /\ gwf s.
Proof. intros Hp (l & Hl & ->). destruct gstart_inv as [A B]. destruct (@grun_inv push l Hp gstart Hl A) as (C & _ & D). auto. Qed.
Lemma gmap_lemma (s : gstate) : gwf s ->
  (forall n, oget (gmap s) n = first_some (fun c => oget (obj [] s c) n) (rev (rstack s))) /\ NoDup (map fst (gmap s)).
Proof.
  intros Hw. apply (@merged_dict _ (fun c => obj [] s c)). intros c _. unfold obj.
  destruct (Nat.lt_ge_cases c (length (objs s))) as [Hc|Hc].
  - unfold gwf in Hw. rewrite Forall_forall in Hw. apply Hw, nth_In, Hc.
  - rewrite nth_overflow by auto. constructor.
Qed.
Lemma grun_top push l : forall (s : gstate) st c, Forall g_top_only l -> rstack s = st ++ [c] -> exists_in s c ->
  let s' := grun push s l in rstack s' = st ++ [c] /\ (forall c' n, c' <> c -> gentry s' c' n = gentry s c' n).
Proof.
  induction l as [|o l IH]; intros s st c Hl Hs Hc; [split; auto|]. inversion Hl as [|? ? Ho Hl']; subst.
  destruct o as [|c0 name0 e0|c0| |name0 e0]; try elim Ho. unfold grun. cbn [fold_left gstep].
  assert (Ht : top s = Some c) by (destruct s; simpl in *; subst; apply top_snoc). rewrite Ht.
  destruct (gregister_cases name0 e0 Hc) as [H1 H2]. destruct (gentry s c name0) as [x0|] eqn:E0.
  - rewrite (H1 x0 eq_refl). cbn [snd]. apply IH; auto.
  - destruct (H2 eq_refl) as (s' & -> & Hr & Hn & He). cbn [snd].
    destruct (IH s' st c Hl' ltac:(congruence) ltac:(unfold exists_in in *; lia)) as [A B]. split; [exact A|].
    intros c' n Hne. rewrite B, He by auto. apply Nat.eqb_neq in Hne. now rewrite Hne.
Qed.
(** the schema registry never has more than its first registry *)
Lemma registry_stack l : forall s : gstate, (rstack s = [0] \/ rstack s = []) ->
  rstack (grun registry_push s l) = [0] \/ rstack (grun registry_push s l) = [].
Proof.
  induction l as [|o l IH]; intros s Hs; [exact Hs|]. unfold grun in *. cbn [fold_left]. apply IH.
  destruct o as [|c name e|c| |name e]; simpl.
  - exact Hs.
  - unfold gregister. now destruct (oget (obj [] s c) name).
  - exact Hs.
  - destruct (rstack s) as [|a st] eqn:E; [simpl; auto|]. simpl. rewrite E. destruct Hs as [Hs|Hs]; [|discriminate]. injection Hs as -> ->. auto.
  - destruct (top s) as [c|]; [|exact Hs]. unfold gregister. now destruct (oget (obj [] s c) name).
Qed.

(** *** monitors *)
Definition jeqb (a b : joiner) : bool := if joiner_dec a b then true else false.
Lemma jkey_inj a b : jkey a = jkey b -> a = b.
Proof. destruct a, b; simpl; congruence. Qed.
Lemma first_seen_in l j : In j (first_seen l) <-> In j l.
Proof.
  induction l as [|a l IH]; simpl; [tauto|]. rewrite filter_In, IH. destruct (joiner_dec j a) as [->|]; [intuition congruence|intuition congruence].
Qed.
Lemma first_seen_nodup l : NoDup (first_seen l).
Proof.
  induction l as [|a l IH]; simpl; [constructor|]. constructor; [|now apply NoDup_filter].
  rewrite filter_In. intros [_ H]. destruct (joiner_dec a a); congruence.
Qed.
Lemma first_seen_snoc l j : first_seen (l ++ [j]) = if in_dec joiner_dec j l then first_seen l else first_seen l ++ [j].
Proof.
  induction l as [|a l IH]; [reflexivity|]. cbn [app first_seen]. rewrite IH.
  destruct (in_dec joiner_dec j l) as [Hi|Hi], (in_dec joiner_dec j (a :: l)) as [Hj|Hj]; try reflexivity.
  - elim Hj. simpl. auto.
  - destruct Hj as [->|Hj]; [|contradiction]. rewrite filter_app. simpl. destruct (joiner_dec j j); [|congruence]. now rewrite app_nil_r.
  - rewrite filter_app. simpl. destruct (joiner_dec j a) as [->|]; [|reflexivity]. elim Hj. simpl. auto.
Qed.
Definition table (l : list mdesc) : odict jdesc := map (fun j => (jkey j, group l j)) (first_seen (map m_joiner l)).
Lemma oget_table (f : joiner -> jdesc) js j : oget (map (fun j => (jkey j, f j)) js) (jkey j) = if in_dec joiner_dec j js then Some (f j) else None.
Proof.
  induction js as [|a js IH]; [reflexivity|]. simpl map. cbn [oget]. rewrite IH. destruct (Nat.eqb_spec (jkey j) (jkey a)) as [E|E].
  - apply jkey_inj in E. subst a. destruct (in_dec joiner_dec j (j :: js)) as [|H]; [reflexivity|]. elim H. simpl. auto.
  - destruct (in_dec joiner_dec j js), (in_dec joiner_dec j (a :: js)) as [H|H]; try reflexivity.
    + elim H. simpl. auto.
    + destruct H as [->|H]; congruence.
Qed.
Lemma oset_table (f h : joiner -> jdesc) js j v : NoDup js -> In j js -> h j = v -> (forall j', j' <> j -> h j' = f j') ->
  oset (map (fun j => (jkey j, f j)) js) (jkey j) v = map (fun j => (jkey j, h j)) js.
Proof.
  intros Hn Hi Hv Ho. induction js as [|a js IH]; [elim Hi|]. inversion Hn as [|? ? Ha Hn']; subst. simpl.
  destruct (Nat.eqb_spec (jkey j) (jkey a)) as [E|E].
  - apply jkey_inj in E. subst a. f_equal. apply map_ext_in. intros b Hb. rewrite Ho; [reflexivity|]. intros ->. contradiction.
  - rewrite (Ho a) by congruence. f_equal. apply IH; auto. destruct Hi as [->|Hi]; [congruence|exact Hi].
Qed.
Lemma oset_fresh {V} (d : odict V) k v : oget d k = None -> oset d k v = d ++ [(k, v)].
Proof. induction d as [|[a b] d IH]; simpl; [auto|]. destruct (Nat.eqb k a); [discriminate|]. intros H. now rewrite IH. Qed.
Lemma members_snoc l m j : members (l ++ [m]) j = if joiner_dec (m_joiner m) j then members l j ++ [m] else members l j.
Proof. unfold members. rewrite filter_app. simpl. destruct (joiner_dec (m_joiner m) j); [reflexivity|apply app_nil_r]. Qed.
Lemma members_none l j : ~ In j (map m_joiner l) -> members l j = [].
Proof.
  induction l as [|a l IH]; simpl; intros H; [reflexivity|]. destruct (joiner_dec (m_joiner a) j) as [E|E]; [elim H; auto|]. apply IH. tauto.
Qed.
Lemma members_some l j : In j (map m_joiner l) -> exists m r, members l j = m :: r /\ In m l /\ m_joiner m = j.
Proof.
  intros H. destruct (members l j) as [|m r] eqn:E.
  - apply in_map_iff in H as (m & Hj & Hm). assert (Hi : In m (members l j)). { apply filter_In. split; [auto|]. destruct (joiner_dec (m_joiner m) j); congruence. }
    rewrite E in Hi. elim Hi.
  - assert (Hi : In m (members l j)) by (rewrite E; simpl; auto). apply filter_In in Hi as [Hi Hj].
    exists m, r. repeat split; auto. destruct (joiner_dec (m_joiner m) j); congruence.
Qed.
Lemma group_other l m j : m_joiner m <> j -> group (l ++ [m]) j = group l j.
Proof. intros H. unfold group. rewrite members_snoc. destruct (joiner_dec (m_joiner m) j); [contradiction|reflexivity]. Qed.
Lemma consistent_app l m : consistent (l ++ m) -> consistent l.
Proof. intros H a b Ha Hb. apply H; apply in_or_app; auto. Qed.
Lemma convert_lemma l : forall done, consistent done ->
  (consistent (done ++ l) -> convert (table done) l = Ok (table (done ++ l))) /\
  (~ consistent (done ++ l) -> exists m, In m l /\ convert (table done) l = Err (mismatch (m_joiner m))).
Proof.
  induction l as [|m l IH]; intros done Hd.
  - rewrite app_nil_r. split; [reflexivity|]. intros H. contradiction.
  - replace (done ++ m :: l) with ((done ++ [m]) ++ l) by now rewrite <- app_assoc. cbn [convert].
    assert (Eg := oget_table (group done) (first_seen (map m_joiner done)) (m_joiner m)). fold (table done) in Eg. rewrite Eg.
    destruct (in_dec joiner_dec (m_joiner m) (first_seen (map m_joiner done))) as [Hi|Hi].
    + assert (Hi' := proj1 (first_seen_in _ _) Hi). destruct (members_some _ _ Hi') as (m0 & r0 & Em & Hm0 & Hj0).
      assert (T : j_type (group done (m_joiner m)) = m_type m0 /\ j_scalar (group done (m_joiner m)) = m_scalar m0 /\ j_vector (group done (m_joiner m)) = m_vector m0).
      { unfold group. rewrite Em. simpl. auto. }
      destruct T as (T1 & T2 & T3). rewrite T1, T2, T3.
      assert (Bad : (m_type m <> m_type m0 \/ m_scalar m <> m_scalar m0 \/ m_vector m <> m_vector m0) -> ~ consistent ((done ++ [m]) ++ l)).
      { intros Hb Hc. destruct (Hc m m0) as (A & B & C); [| |congruence|intuition congruence]; apply in_or_app; left; apply in_or_app; simpl; auto. }
      destruct (Nat.eqb_spec (m_type m) (m_type m0)) as [E1|E1]; simpl negb; cbv iota.
      2:{ split; [intros Hc; elim Bad; auto|]. intros _. exists m. simpl. auto. }
      destruct (Nat.eqb_spec (m_scalar m) (m_scalar m0)) as [E2|E2]; simpl negb; cbv iota.
      2:{ split; [intros Hc; elim Bad; auto|]. intros _. exists m. simpl. auto. }
      destruct (Nat.eqb_spec (m_vector m) (m_vector m0)) as [E3|E3]; simpl negb; cbv iota.
      2:{ split; [intros Hc; elim Bad; auto|]. intros _. exists m. simpl. auto. }
      assert (Hd' : consistent (done ++ [m])).
      { assert (Q : forall a, In a (done ++ [m]) -> m_joiner a = m_joiner m -> m_type a = m_type m0 /\ m_scalar a = m_scalar m0 /\ m_vector a = m_vector m0).
        { intros a Ha Hja. apply in_app_or in Ha as [Ha|[<-|[]]]; [|auto]. apply Hd; auto. congruence. }
        intros a b Ha Hb Hab. destruct (joiner_dec (m_joiner a) (m_joiner m)) as [E|E].
        - destruct (Q a Ha E) as (? & ? & ?), (Q b Hb ltac:(congruence)) as (? & ? & ?). intuition congruence.
        - apply in_app_or in Ha as [Ha|[<-|[]]]; [|congruence]. apply in_app_or in Hb as [Hb|[<-|[]]]; [|congruence]. now apply Hd. }
      destruct (IH _ Hd') as [I1 I2].
      assert (Et : oset (table done) (jkey (m_joiner m)) (JDesc (j_id (group done (m_joiner m))) (j_names (group done (m_joiner m)) ++ [m_name m]) (m_type m0) (m_scalar m0) (m_vector m0)) = table (done ++ [m])).
      { unfold table. rewrite (map_app m_joiner). cbn [map]. rewrite first_seen_snoc.
        destruct (in_dec joiner_dec (m_joiner m) (map m_joiner done)) as [_|H]; [|contradiction].
        apply oset_table; [apply first_seen_nodup|exact Hi| |intros j' Hj'; apply group_other; congruence].
        unfold group. rewrite members_snoc. destruct (joiner_dec (m_joiner m) (m_joiner m)); [|congruence]. rewrite Em. simpl. now rewrite map_app. }
      rewrite Et. split; [exact I1|]. intros Hc. destruct (I2 Hc) as (m' & Hm' & Hx). exists m'. simpl. auto.
    + assert (Hi' : ~ In (m_joiner m) (map m_joiner done)) by now rewrite <- first_seen_in.
      assert (Hd' : consistent (done ++ [m])).
      { intros a b Ha Hb Hab. apply in_app_or in Ha as [Ha|[<-|[]]]; apply in_app_or in Hb as [Hb|[<-|[]]]; auto.
        - elim Hi'. rewrite <- Hab. now apply in_map.
        - elim Hi'. rewrite Hab. now apply in_map. }
      destruct (IH _ Hd') as [I1 I2].
      assert (Et : oset (table done) (jkey (m_joiner m)) (joined (m_joiner m) [m_name m] (m_type m) (m_scalar m) (m_vector m)) = table (done ++ [m])).
      { unfold table. rewrite (map_app m_joiner). cbn [map]. rewrite first_seen_snoc.
        destruct (in_dec joiner_dec (m_joiner m) (map m_joiner done)) as [H|_]; [contradiction|].
        rewrite oset_fresh.
        2:{ rewrite (oget_table (group done)). destruct (in_dec joiner_dec (m_joiner m) (first_seen (map m_joiner done))); [contradiction|reflexivity]. }
        rewrite map_app. f_equal.
        - apply map_ext_in. intros j Hj. rewrite group_other; [reflexivity|]. intros <-. contradiction.
        - cbn [map]. f_equal. f_equal. unfold group. rewrite members_snoc, members_none by auto. destruct (joiner_dec (m_joiner m) (m_joiner m)); [|congruence]. reflexivity. }
      rewrite Et. split; [exact I1|]. intros Hc. destruct (I2 Hc) as (m' & Hm' & Hx). exists m'. simpl. auto.
Qed.
Lemma convert_ok_lemma l : consistent l -> convert_element_list l = Ok (map (group l) (first_seen (map m_joiner l))).
Proof.
  intros H. unfold convert_element_list. destruct (convert_lemma l (done := [])) as [A _]; [intros a b Ha; elim Ha|].
  change (@nil (nat * jdesc)) with (table []). rewrite (A H). unfold table. simpl. now rewrite map_map.
Qed.
Lemma convert_err_lemma l : ~ consistent l -> exists m, In m l /\ convert_element_list l = Err (mismatch (m_joiner m)).
Proof.
  intros H. unfold convert_element_list. destruct (convert_lemma l (done := [])) as [_ A]; [intros a b Ha; elim Ha|].
  change (@nil (nat * jdesc)) with (table []). destruct (A H) as (m & Hm & ->). eauto.
Qed.
Lemma consistent_dec l : consistent l \/ ~ consistent l.
Proof.
  assert (D : {consistent l} + {~ consistent l}); [|destruct D; auto].
  set (P := fun a b : mdesc => m_joiner a = m_joiner b -> m_type a = m_type b /\ m_scalar a = m_scalar b /\ m_vector a = m_vector b).
  assert (Pd : forall a b, {P a b} + {~ P a b}).
  { intros a b. unfold P. destruct (joiner_dec (m_joiner a) (m_joiner b)); [|left; tauto].
    destruct (Nat.eq_dec (m_type a) (m_type b)), (Nat.eq_dec (m_scalar a) (m_scalar b)), (Nat.eq_dec (m_vector a) (m_vector b)); [left; tauto|right; tauto..]. }
  destruct (Forall_dec (fun a => Forall (P a) l) (fun a => Forall_dec (P a) (Pd a) l) l) as [H|H].
  - left. intros a b Ha Hb. rewrite Forall_forall in H. specialize (H a Ha). rewrite Forall_forall in H. exact (H b Hb).
  - right. intros Hc. apply H. apply Forall_forall. intros a Ha. apply Forall_forall. intros b Hb. exact (Hc a b Ha Hb).
Qed.
From Coq Require Import Permutation.
Lemma filter_split {A} (f : A -> bool) l : Permutation l (filter f l ++ filter (fun x => negb (f x)) l).
Proof. induction l as [|a l IH]; simpl; [constructor|]. destruct (f a); simpl; [now constructor|]. now apply Permutation_cons_app. Qed.
Lemma members_partition js : forall l, NoDup js -> (forall m, In m l -> In (m_joiner m) js) ->
  Permutation (concat (map (members l) js)) l.
Proof.
  induction js as [|j js IH]; intros l Hn Hl.
  - destruct l as [|m l]; [constructor|]. elim (Hl m). simpl. auto.
  - inversion Hn as [|? ? Hj Hn']; subst. simpl. set (rest := filter (fun m => negb (if joiner_dec (m_joiner m) j then true else false)) l).
    apply Permutation_sym. eapply Permutation_trans; [exact (filter_split (fun m => if joiner_dec (m_joiner m) j then true else false) l)|].
    fold (members l j). fold rest. apply Permutation_app_head. eapply Permutation_trans; [apply Permutation_sym, (IH rest Hn')|].
    2:{ assert (E : map (members l) js = map (members rest) js); [|now rewrite E]. apply map_ext_in. intros i Hi. unfold members, rest.
      clear -Hi Hj. induction l as [|m l IH]; simpl; [reflexivity|]. destruct (joiner_dec (m_joiner m) j) as [E|E]; simpl.
      - destruct (joiner_dec (m_joiner m) i); [congruence|exact IH].
      - destruct (joiner_dec (m_joiner m) i); [now rewrite IH|exact IH]. }
    intros m Hm. apply filter_In in Hm as [Hm Hx]. destruct (Hl m Hm) as [E|E]; [|exact E]. destruct (joiner_dec (m_joiner m) j); [discriminate|congruence].
Qed.
