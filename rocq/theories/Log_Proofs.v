(** Proofs for C54 and C81. *)
From Coq Require Import ZArith Sorted.
From Verif Require Import Base Log_Model Log_Spec.
Set Implicit Arguments.

Section log.
Variable V : Type.
Implicit Types (df : list (row V)).

(** *** the data frame does not depend on the order of the files *)
Lemma insert_perm r df : Permutation (insert r df) (r :: df).
Proof.
  induction df as [|x l IH]; simpl; [constructor; constructor|].
  destruct (Nat.leb (counter r) (counter x)); [apply Permutation_refl|].
  eapply perm_trans; [apply perm_skip, IH|apply perm_swap].
Qed.
Lemma data_frame_perm df : Permutation (data_frame df) df.
Proof.
  induction df as [|r l IH]; simpl; [constructor|].
  eapply perm_trans; [apply insert_perm|]. now apply perm_skip.
Qed.
Definition lec (a b : row V) : Prop := counter a <= counter b.
Lemma insert_sorted r df : StronglySorted lec df -> StronglySorted lec (insert r df).
Proof.
  induction 1 as [|x l Hs IH Hx]; simpl; [repeat constructor|].
  destruct (Nat.leb_spec (counter r) (counter x)) as [L|L].
  - constructor; [constructor; assumption|]. constructor; [exact L|].
    eapply Forall_impl; [|exact Hx]. unfold lec. intros; lia.
  - constructor; [assumption|]. apply Forall_forall. intros y Hy.
    apply (Permutation_in _ (insert_perm r l)) in Hy. destruct Hy as [<-|Hy]; [unfold lec; lia|].
    rewrite Forall_forall in Hx. now apply Hx.
Qed.
Lemma data_frame_sorted df : StronglySorted lec (data_frame df).
Proof. induction df; simpl; [constructor|now apply insert_sorted]. Qed.
Lemma sorted_unique (l l' : list (row V)) : StronglySorted lec l -> StronglySorted lec l' ->
  NoDup (map (@counter V) l) -> Permutation l l' -> l = l'.
Proof.
  revert l'. induction l as [|x l IH]; intros l' Hs Hs' Hn Hp.
  - apply Permutation_nil in Hp. now subst.
  - destruct l' as [|y l']; [apply Permutation_sym, Permutation_nil in Hp; discriminate|].
    inversion Hs as [|? ? Hl Hx]; subst. inversion Hs' as [|? ? Hl' Hy]; subst.
    inversion Hn as [|? ? Hni Hnd]; subst.
    rewrite Forall_forall in Hx, Hy.
    assert (x = y).
    { assert (Iy : In y (x :: l)) by (apply (Permutation_in _ (Permutation_sym Hp)); now left).
      assert (Ix : In x (y :: l')) by (apply (Permutation_in _ Hp); now left).
      destruct Iy as [->|Iy]; [reflexivity|]. destruct Ix as [->|Ix]; [reflexivity|].
      specialize (Hx _ Iy). specialize (Hy _ Ix). unfold lec in *. exfalso. apply Hni.
      replace (counter x) with (counter y) by lia. now apply in_map. }
    subst y. f_equal. apply IH; auto. now apply Permutation_cons_inv in Hp.
Qed.
Lemma files_order df df' : NoDup (map (@counter V) df) -> Permutation df df' -> data_frame df = data_frame df'.
Proof.
  intros Hn Hp. apply sorted_unique; try apply data_frame_sorted.
  - eapply Permutation_NoDup; [|exact Hn]. apply Permutation_map, Permutation_sym, data_frame_perm.
  - eapply perm_trans; [apply data_frame_perm|]. eapply perm_trans; [exact Hp|].
    apply Permutation_sym, data_frame_perm.
Qed.

(** *** monitor data *)
Lemma filter_filter {A} (p q : A -> bool) l : filter p (filter q l) = filter (fun x => q x && p x) l.
Proof. induction l as [|x l IH]; simpl; [reflexivity|]. destruct (q x); simpl; [destruct (p x)|]; now rewrite IH. Qed.
Lemma somes_length_logged df ev t n : length (values df ev t n) = length (logged df ev t n).
Proof.
  unfold values, logged. induction df as [|r l IH]; simpl; [reflexivity|].
  destruct (Nat.eqb (event r) ev && Nat.eqb (trans r) t) eqn:E; simpl; [|exact IH].
  destruct (mons r n) eqn:M; simpl; [|exact IH]. rewrite M. simpl. now rewrite IH.
Qed.
Lemma first_monitor_spec df ev t names :
  first_monitor (filter (fun r => Nat.eqb (trans r) t) (filter (fun r => Nat.eqb (event r) ev) df)) names =
  match chosen df ev t names with
  | Some n => Some (values df ev t n, iterations df ev t n)
  | None => None
  end.
Proof.
  induction names as [|n ns IH]; simpl; [reflexivity|].
  assert (E0 : filter (fun r => is_some (mons r n)) (filter (fun r => Nat.eqb (trans r) t) (filter (fun r => Nat.eqb (event r) ev) df))
    = logged df ev t n).
  { rewrite !filter_filter. apply filter_ext. intros r. now rewrite andb_assoc. }
  rewrite E0. unfold chosen. simpl. fold (values df ev t n). fold (iterations df ev t n).
  assert (L := somes_length_logged df ev t n).
  destruct (values df ev t n) as [|v vs] eqn:E; simpl in L.
  - rewrite <- L. simpl. exact IH.
  - rewrite <- L. simpl. rewrite E. reflexivity.
Qed.
Lemma chosen_some df ev t names n : chosen df ev t names = Some n -> In n names /\ values df ev t n <> [].
Proof.
  unfold chosen. intros H. apply find_some in H. destruct H as [Hi H]. split; [exact Hi|].
  intros E. assert (L := somes_length_logged df ev t n). rewrite E in L. rewrite <- L in H. discriminate.
Qed.
Lemma numbered_lengths df ev t names n : numbered df ev names -> In n names ->
  length (iterations df ev t n) = length (values df ev t n).
Proof.
  intros H Hn. unfold values, iterations.
  assert (forall l, (forall r, In r l -> In r df) ->
    length (somes (map (fun r => iter r) (logged l ev t n))) = length (somes (map (fun r => mons r n) (logged l ev t n)))).
  { unfold logged. induction l as [|r l IH]; intros Hl; simpl; [reflexivity|].
    specialize (IH (fun x Hx => Hl x (or_intror Hx))).
    destruct (Nat.eqb (event r) ev && Nat.eqb (trans r) t && is_some (mons r n)) eqn:E; [|exact IH].
    apply andb_prop in E as [E M]. apply andb_prop in E as [E _]. apply Nat.eqb_eq in E.
    simpl. specialize (H r n (Hl r (or_introl eq_refl)) E Hn).
    destruct (mons r n); [|discriminate]. destruct (iter r) as [z|].
    - simpl. now rewrite IH.
    - exfalso. now apply H. }
  apply H0. auto.
Qed.

(** *** joining *)
Definition nonempty_segs df ev names : list (nat * (list V * list Z)) :=
  flat_map (fun t => match chosen df ev t names with Some n => [(t, (values df ev t n, iterations df ev t n))] | None => [] end)
    (unique (map (@trans V) df)).
Lemma get_monitor_data_spec df ev names : df <> [] -> get_monitor_data df names ev = Ok (nonempty_segs df ev names).
Proof.
  intros H. unfold get_monitor_data. destruct df as [|r l]; [congruence|]. f_equal.
  unfold nonempty_segs. apply flat_map_ext. intros t. rewrite first_monitor_spec.
  destruct (chosen (r :: l) ev t names); reflexivity.
Qed.
Lemma last_of_app {A} (l : list A) x : last_of (l ++ [x]) = Ok x.
Proof. unfold last_of. now rewrite rev_app_distr. Qed.
Lemma last_of_last {A} (l : list A) d : l <> [] -> last_of l = Ok (last l d).
Proof.
  intros H. destruct (exists_last H) as (l' & x & ->). rewrite last_of_app. f_equal.
  now rewrite last_last.
Qed.
Definition seg_ok (s : nat * (list V * list Z)) : Prop := fst (snd s) <> [] /\ length (snd (snd s)) = length (fst (snd s)).
Lemma join_rest : forall md data ch it, Forall seg_ok md -> data <> [] -> it <> [] ->
  join md data ch it = Ok (data ++ concat (map (fun s => fst (snd s)) md),
    ch ++ boundaries (map (fun s => fst (snd s)) md) (length data),
    it ++ shifted (map (fun s => snd (snd s)) md) (last it 0%Z)).
Proof.
  induction md as [|[t [d i]] md IH]; intros data ch it Hs Hd Hi.
  - simpl. now rewrite !app_nil_r.
  - inversion Hs as [|? ? [Hne Hlen] Hr]; subst. simpl in Hne, Hlen. cbn [join].
    assert (L : Nat.ltb 0 (length data) = true) by (apply Nat.ltb_lt; destruct data; [congruence|simpl; lia]).
    rewrite L. rewrite (last_of_last 0%Z Hi). cbn [bind].
    assert (Hi' : i <> []) by (intros ->; destruct d; [congruence|discriminate]).
    rewrite IH; [|exact Hr| |].
    + cbn [map concat shifted boundaries fst snd]. rewrite !app_assoc_reverse. rewrite app_length.
      assert (Z1 : Nat.eqb (length d) 0 = false) by (apply Nat.eqb_neq; destruct d; [congruence|simpl; lia]).
      assert (Z2 : Nat.eqb (length data) 0 = false) by (apply Nat.eqb_neq; apply Nat.ltb_lt in L; lia).
      rewrite Z1, Z2. cbn [orb app].
      assert (E : last (it ++ map (fun k => (k + last it 0)%Z) i) 0%Z = last (map (fun k => (k + last it 0)%Z) i) (last it 0%Z)).
      { destruct (exists_last Hi') as (i' & x & ->). rewrite map_app. simpl. rewrite app_assoc, !last_last. reflexivity. }
      rewrite E. reflexivity.
    + destruct data; [congruence|discriminate].
    + destruct it; [congruence|discriminate].
Qed.
Lemma join_all md : Forall seg_ok md ->
  join md [] [] [] = Ok (concat (map (fun s => fst (snd s)) md), boundaries (map (fun s => fst (snd s)) md) 0,
    shifted (map (fun s => snd (snd s)) md) 0%Z).
Proof.
  destruct md as [|[t [d i]] md]; [reflexivity|]. intros Hs. inversion Hs as [|? ? [Hne Hlen] Hr]; subst.
  simpl in Hne, Hlen. cbn [join length Nat.ltb Nat.leb].
  assert (Hi' : i <> []) by (intros ->; destruct d; [congruence|discriminate]).
  cbn [app]. rewrite join_rest by assumption. cbn [map concat shifted boundaries fst snd app].
  rewrite Nat.add_0_l.
  replace (Nat.eqb (length d) 0 || Nat.eqb 0 0) with true by (now rewrite orb_comm).
  assert (Em : map (fun k => (k + 0)%Z) i = i).
  { erewrite map_ext; [apply map_id|]. intros; simpl. lia. }
  rewrite Em. reflexivity.
Qed.

Lemma segs_ok df ev names : numbered df ev names -> Forall seg_ok (nonempty_segs df ev names).
Proof.
  intros Hn. unfold nonempty_segs. apply Forall_forall. intros s Hs. apply in_flat_map in Hs.
  destruct Hs as (t & _ & Hs). destruct (chosen df ev t names) as [n|] eqn:E; [|destruct Hs].
  destruct Hs as [<-|[]]. apply chosen_some in E. destruct E as [E1 E2]. split; simpl; [exact E2|].
  now apply numbered_lengths with names.
Qed.
Lemma flat_segs {A} (f : nat -> option nat) (g : nat -> nat -> A) (d : A -> list V) ts :
  concat (map d (flat_map (fun t => match f t with Some n => [g t n] | None => [] end) ts))
  = flat_map (fun t => match f t with Some n => d (g t n) | None => [] end) ts.
Proof.
  induction ts as [|t ts IH]; simpl; [reflexivity|]. rewrite map_app, concat_app, IH.
  destruct (f t); simpl; rewrite ?app_nil_r; reflexivity.
Qed.
Lemma boundaries_skip {A} (f : nat -> option nat) (g : nat -> nat -> list A) ts : forall pos,
  boundaries (flat_map (fun t => match f t with Some n => [g t n] | None => [] end) ts) pos
  = boundaries (map (fun t => match f t with Some n => g t n | None => [] end) ts) pos.
Proof.
  induction ts as [|t ts IH]; intros pos; simpl; [reflexivity|].
  destruct (f t); simpl; [now rewrite IH|]. rewrite Nat.add_0_r. apply IH.
Qed.
Lemma shifted_skip (f : nat -> option nat) (g : nat -> nat -> list Z) ts : forall off,
  shifted (flat_map (fun t => match f t with Some n => [g t n] | None => [] end) ts) off
  = shifted (map (fun t => match f t with Some n => g t n | None => [] end) ts) off.
Proof.
  induction ts as [|t ts IH]; intros off; simpl; [reflexivity|].
  destruct (f t); simpl; now rewrite IH.
Qed.
Lemma map_flat_map {A B C} (h : B -> C) (f : A -> list B) l : map h (flat_map f l) = flat_map (fun x => map h (f x)) l.
Proof. induction l as [|x l IH]; simpl; [reflexivity|]. now rewrite map_app, IH. Qed.

Lemma joined_pf df ev names op : df <> [] -> numbered df ev names ->
  get_joined_scalar_monitors df names ev op =
  Ok (map op (flat_map (chosen_values df ev names) (unique (map (@trans V) df))),
      boundaries (map (chosen_values df ev names) (unique (map (@trans V) df))) 0,
      shifted (map (chosen_iterations df ev names) (unique (map (@trans V) df))) 0%Z).
Proof.
  intros Hd Hn. unfold get_joined_scalar_monitors. rewrite get_monitor_data_spec by assumption. cbn [bind].
  rewrite join_all by now apply segs_ok. cbn [bind]. unfold nonempty_segs, chosen_values, chosen_iterations.
  set (ts := unique _). f_equal. f_equal; [f_equal|].
  - f_equal. rewrite flat_segs. reflexivity.
  - rewrite map_flat_map, <- boundaries_skip. f_equal. apply flat_map_ext. intros t.
    now destruct (chosen df ev t names).
  - rewrite map_flat_map, <- shifted_skip. f_equal. apply flat_map_ext. intros t.
    now destruct (chosen df ev t names).
Qed.

(** *** lengths and order of the joined iterations *)
Lemma shifted_length segs : forall off, length (shifted segs off) = length (concat segs).
Proof. induction segs as [|s l IH]; intros off; simpl; [reflexivity|]. now rewrite !app_length, map_length, IH. Qed.
Lemma joined_lengths_pf df ev names : numbered df ev names ->
  length (shifted (map (chosen_iterations df ev names) (unique (map (@trans V) df))) 0%Z)
  = length (flat_map (chosen_values df ev names) (unique (map (@trans V) df))).
Proof.
  intros Hn. rewrite shifted_length. generalize (unique (map (@trans V) df)) as ts.
  induction ts as [|t ts IH]; simpl; [reflexivity|]. rewrite !app_length, IH. f_equal.
  unfold chosen_iterations, chosen_values. destruct (chosen df ev t names) as [n|] eqn:E; [|reflexivity].
  apply chosen_some in E. destruct E. now apply numbered_lengths with names.
Qed.
Definition growing (l : list Z) : Prop := StronglySorted Z.le l.
Lemma growing_app a b : growing a -> growing b -> (forall x y, In x a -> In y b -> (x <= y)%Z) -> growing (a ++ b).
Proof.
  induction 1 as [|x a Ha IH Hx]; intros Hb H; simpl; [exact Hb|].
  constructor; [apply IH; [exact Hb|intros; apply H; simpl; auto]|].
  apply Forall_app. split; [exact Hx|]. apply Forall_forall. intros y Hy. apply H; simpl; auto.
Qed.
Lemma growing_last l d : growing l -> forall x, In x l -> (x <= last l d)%Z.
Proof.
  induction 1 as [|y l Hl IH Hy]; intros x Hi; [destruct Hi|]. destruct l as [|z l].
  - destruct Hi as [->|[]]. simpl. lia.
  - change (last (y :: z :: l) d) with (last (z :: l) d). destruct Hi as [->|Hi]; [|now apply IH].
    apply Z.le_trans with z; [|apply IH; now left]. inversion Hy; subst. assumption.
Qed.
Lemma shifted_growing segs : forall off, Forall (fun s => growing s /\ Forall (fun z => (0 <= z)%Z) s) segs ->
  growing (shifted segs off) /\ forall z, In z (shifted segs off) -> (off <= z)%Z.
Proof.
  induction segs as [|s l IH]; intros off H; simpl; [split; [constructor|intros z []]|].
  inversion H as [|? ? [Hg Hp] Hr]; subst.
  set (s' := map (fun k => (k + off)%Z) s).
  assert (G' : growing s').
  { unfold s'. clear - Hg. induction Hg as [|x l Hl IH Hx]; simpl; constructor; [exact IH|].
    apply Forall_forall. intros y Hy. apply in_map_iff in Hy. destruct Hy as (k & <- & Hk).
    rewrite Forall_forall in Hx. specialize (Hx k Hk). lia. }
  assert (P' : forall z, In z s' -> (off <= z)%Z).
  { unfold s'. intros z Hz. apply in_map_iff in Hz. destruct Hz as (k & <- & Hk).
    rewrite Forall_forall in Hp. specialize (Hp k Hk). simpl in Hp. lia. }
  destruct (IH (last s' off) Hr) as [G2 P2].
  assert (LO : (off <= last s' off)%Z).
  { destruct s' as [|z0 s0] eqn:E; [simpl; lia|]. rewrite <- E in *.
    apply Z.le_trans with z0; [apply P'; rewrite E; now left|].
    apply growing_last; [exact G'|rewrite E; now left]. }
  split.
  - apply growing_app; [exact G'|exact G2|]. intros x y Hx Hy.
    apply Z.le_trans with (last s' off); [now apply growing_last|now apply P2].
  - intros z Hz. apply in_app_or in Hz. destruct Hz as [Hz|Hz]; [now apply P'|].
    apply Z.le_trans with (last s' off); [exact LO|now apply P2].
Qed.
Lemma logged_iterations_growing df ev t n : counting df ev ->
  growing (iterations df ev t n) /\ Forall (fun z => (0 <= z)%Z) (iterations df ev t n).
Proof.
  intros [Hp Hc]. split.
  - unfold iterations.
    assert (forall l a, df = a ++ l -> growing (somes (map (fun r => iter r) (logged l ev t n)))) as H.
    { induction l as [|r l IH]; intros a E; [constructor|].
      specialize (IH (a ++ [r])). rewrite <- app_assoc in IH. specialize (IH E).
      unfold logged in *. simpl. destruct (_ && _ && _) eqn:B; [|exact IH].
      simpl. destruct (iter r) as [z|] eqn:Ez; [|exact IH]. simpl. constructor; [exact IH|].
      apply Forall_forall. intros z' Hz'. unfold somes in Hz'. apply in_flat_map in Hz'.
      destruct Hz' as (o & Ho & Hz'). apply in_map_iff in Ho. destruct Ho as (r' & <- & Hr').
      apply filter_In in Hr'. destruct Hr' as [Hr' B'].
      apply in_split in Hr'. destruct Hr' as (b & c & ->).
      apply andb_prop in B as [B _]. apply andb_prop in B as [B1 B2].
      apply andb_prop in B' as [B' _]. apply andb_prop in B' as [B1' B2'].
      apply Nat.eqb_eq in B1, B2, B1', B2'.
      destruct (iter r') as [w|] eqn:Ew; [|destruct Hz']. destruct Hz' as [<-|[]].
      apply (Hc a r b r' c z w E); congruence. }
    apply (H df []). reflexivity.
  - apply Forall_forall. intros z Hz. unfold iterations, somes in Hz. apply in_flat_map in Hz.
    destruct Hz as (o & Ho & Hz). apply in_map_iff in Ho. destruct Ho as (r & <- & Hr).
    apply filter_In in Hr. destruct Hr as [Hr _]. destruct (iter r) as [w|] eqn:E; [|destruct Hz].
    destruct Hz as [<-|[]]. now apply (Hp r).
Qed.
Lemma joined_growing_pf df ev names : counting df ev ->
  growing (shifted (map (chosen_iterations df ev names) (unique (map (@trans V) df))) 0%Z).
Proof.
  intros Hc. apply shifted_growing. apply Forall_forall. intros s Hs. apply in_map_iff in Hs.
  destruct Hs as (t & <- & _). unfold chosen_iterations. destruct (chosen df ev t names) as [n|].
  - now apply logged_iterations_growing.
  - split; constructor.
Qed.

(** *** the transformations: each once, in order of first appearance *)
Lemma unique_In x l : In x (unique l) <-> In x l.
Proof.
  induction l as [|y l IH]; simpl; [tauto|]. rewrite filter_In, IH, negb_true_iff, Nat.eqb_neq.
  destruct (Nat.eq_dec y x); intuition congruence.
Qed.
Lemma unique_NoDup l : NoDup (unique l).
Proof.
  induction l as [|y l IH]; simpl; constructor.
  - rewrite filter_In, Nat.eqb_refl. simpl. intros [_ H]. discriminate.
  - now apply NoDup_filter.
Qed.

(** *** single values *)
Lemma assoc_segs df ev names t : In t (map (@trans V) df) ->
  assoc t (nonempty_segs df ev names) =
  match chosen df ev t names with Some n => Some (values df ev t n, iterations df ev t n) | None => None end.
Proof.
  intros Ht. apply unique_In in Ht. unfold nonempty_segs. revert Ht. generalize (unique_NoDup (map (@trans V) df)).
  generalize (unique (map (@trans V) df)) as ts. induction ts as [|u ts IH]; intros Hnd Hi; [destruct Hi|].
  inversion Hnd; subst. simpl. destruct (Nat.eq_dec u t) as [->|Hne].
  - destruct (chosen df ev t names) as [n|] eqn:E; simpl.
    + now rewrite Nat.eqb_refl.
    + assert (forall l, ~ In t l -> assoc t (flat_map (fun t => match chosen df ev t names with Some n => [(t, (values df ev t n, iterations df ev t n))] | None => [] end) l) = None) as G.
      { clear. induction l as [|v l IH]; intros Hv; simpl; [reflexivity|].
        destruct (chosen df ev v names); simpl.
        - destruct (Nat.eqb_spec v t); [subst; exfalso; apply Hv; now left|]. apply IH. intros H; apply Hv; now right.
        - apply IH. intros H; apply Hv; now right. }
      now apply G.
  - destruct Hi as [Hi|Hi]; [congruence|].
    destruct (chosen df ev u names); simpl; [|now apply IH].
    apply Nat.eqb_neq in Hne. rewrite Hne. now apply IH.
Qed.
Lemma chosen_absent df ev t names : ~ In t (map (@trans V) df) -> chosen df ev t names = None.
Proof.
  intros H. unfold chosen. assert (forall n, logged df ev t n = []) as E.
  { intros n. unfold logged. induction df as [|r l IH]; simpl; [reflexivity|].
    destruct (Nat.eqb_spec (trans r) t) as [<-|]; [exfalso; apply H; now left|].
    rewrite andb_false_r. simpl. apply IH. intros K; apply H; now right. }
  induction names as [|n ns IH]; simpl; [reflexivity|]. now rewrite E.
Qed.
Lemma assoc_absent df ev names t : ~ In t (map (@trans V) df) -> assoc t (nonempty_segs df ev names) = None.
Proof.
  intros H. rewrite <- unique_In in H. unfold nonempty_segs. revert H. generalize (unique (map (@trans V) df)) as ts.
  induction ts as [|u ts IH]; intros Hi; simpl; [reflexivity|].
  destruct (chosen df ev u names); simpl.
  - destruct (Nat.eqb_spec u t); [subst; exfalso; apply Hi; now left|]. apply IH. intros K; apply Hi; now right.
  - apply IH. intros K; apply Hi; now right.
Qed.
Lemma assoc_spec df ev names t :
  assoc t (nonempty_segs df ev names) =
  match chosen df ev t names with Some n => Some (values df ev t n, iterations df ev t n) | None => None end.
Proof.
  destruct (in_dec Nat.eq_dec t (map (@trans V) df)) as [H|H]; [now apply assoc_segs|].
  now rewrite assoc_absent, chosen_absent.
Qed.

(** the value a lookup returns, on aligned rows *)
Definition pick (d : list V) (is : list Z) (it : option Z) : res (option V) :=
  match match it with Some z => index_of z is | None => None end with
  | Some k => match nth_error d k with Some v => Ok (Some v) | None => Err IndexError end
  | None => bind (last_of d) (fun v => Ok (Some v))
  end.
Lemma find_index (rows : list (row V)) n z :
  (forall r, In r rows -> is_some (mons r n) = true /\ iter r <> None) ->
  match index_of z (somes (map (fun r => iter r) rows)) with
  | Some k => exists r, find (fun r => match iter r with Some i => Z.eqb i z | None => false end) rows = Some r /\
      nth_error (somes (map (fun r => mons r n) rows)) k = mons r n /\ mons r n <> None
  | None => find (fun r => match iter r with Some i => Z.eqb i z | None => false end) rows = None
  end.
Proof.
  induction rows as [|r rows IH]; intros H; simpl; [reflexivity|].
  destruct (H r (or_introl eq_refl)) as [Hm Hi]. specialize (IH (fun x Hx => H x (or_intror Hx))).
  destruct (mons r n) as [v|] eqn:Em; [|discriminate]. destruct (iter r) as [i|] eqn:Ei; [|congruence].
  simpl. destruct (Z.eqb i z) eqn:Ez.
  - exists r. rewrite Em. repeat split. discriminate.
  - destruct (index_of z _) as [k|]; simpl; exact IH.
Qed.
Lemma values_rev (rows : list (row V)) n : (forall r, In r rows -> is_some (mons r n) = true) ->
  match rev rows with
  | [] => somes (map (fun r => mons r n) rows) = []
  | r :: _ => exists l v, somes (map (fun r => mons r n) rows) = l ++ [v] /\ mons r n = Some v
  end.
Proof.
  induction rows as [|r rows IH] using rev_ind; intros H; [reflexivity|].
  rewrite rev_app_distr. simpl. assert (Hr : is_some (mons r n) = true) by (apply H, in_or_app; right; now left).
  destruct (mons r n) as [v|] eqn:E; [|discriminate].
  exists (somes (map (fun r => mons r n) rows)), v. split; [|reflexivity].
  rewrite map_app. unfold somes. rewrite flat_map_app. simpl. now rewrite E.
Qed.
Lemma logged_mons df ev t n r : In r (logged df ev t n) -> is_some (mons r n) = true /\ In r df /\ event r = ev.
Proof.
  unfold logged. rewrite filter_In. intros [H B]. apply andb_prop in B as [B M]. apply andb_prop in B as [B _].
  apply Nat.eqb_eq in B. auto.
Qed.
Lemma pick_spec df ev t names n it : numbered df ev names -> In n names -> values df ev t n <> [] ->
  exists r v, lookup df ev t n it = Some r /\ mons r n = Some v /\
  pick (values df ev t n) (iterations df ev t n) it = Ok (Some v).
Proof.
  intros Hn Hi Hv. unfold lookup, pick.
  assert (Hrows : forall r, In r (logged df ev t n) -> is_some (mons r n) = true /\ iter r <> None).
  { intros r Hr. apply logged_mons in Hr. destruct Hr as (A & B & C). split; [exact A|].
    apply (Hn r n); auto. now destruct (mons r n). }
  assert (Hlast : exists r v, match rev (logged df ev t n) with r :: _ => Some r | [] => None end = Some r /\ mons r n = Some v /\
    bind (last_of (values df ev t n)) (fun v => Ok (Some v)) = Ok (Some v)).
  { assert (K := values_rev _ n (fun r Hr => proj1 (Hrows r Hr))). fold (values df ev t n) in K.
    destruct (rev (logged df ev t n)) as [|r l']; [congruence|]. destruct K as (l & v & E & Ev).
    exists r, v. rewrite E, last_of_app. auto. }
  destruct it as [z|].
  - assert (K := find_index _ n z Hrows). fold (iterations df ev t n) in K. fold (values df ev t n) in K.
    destruct (index_of z (iterations df ev t n)) as [k|].
    + destruct K as (r & Ef & En & Em). rewrite Ef. destruct (mons r n) as [v|] eqn:E; [|congruence].
      exists r, v. rewrite En. auto.
    + rewrite K. exact Hlast.
  - assert (Ef : find (fun r : row V => match iter r with Some _ | _ => false end) (logged df ev t n) = None).
    { generalize (logged df ev t n) as l. induction l as [|x l IH]; simpl; [reflexivity|]. destruct (iter x); exact IH. }
    change (exists r v, match find (fun r : row V => match iter r with Some _ | _ => false end) (logged df ev t n) with
      Some r => Some r | None => match rev (logged df ev t n) with r :: _ => Some r | [] => None end end = Some r /\ mons r n = Some v /\
      bind (last_of (values df ev t n)) (fun v => Ok (Some v)) = Ok (Some v)).
    rewrite Ef. exact Hlast.
Qed.

Lemma search_events_spec df names it t evs : df <> [] ->
  (forall ev, numbered df ev names) ->
  match find (hit df names) (map (fun e => (t, e)) evs) with
  | Some (t', ev) => exists n r v, chosen df ev t' names = Some n /\ lookup df ev t' n it = Some r /\ mons r n = Some v /\
      search_events df names it t evs = Ok (Some v)
  | None => search_events df names it t evs = Ok None
  end.
Proof.
  intros Hd Hn. induction evs as [|ev evs IH]; [reflexivity|].
  cbn [map find search_events]. rewrite get_monitor_data_spec by assumption. cbn [bind]. rewrite assoc_spec.
  unfold hit at 1. cbn [fst snd]. destruct (chosen df ev t names) as [n|] eqn:E; cbn [is_some].
  - destruct (chosen_some _ _ _ _ E) as [H1 H2]. destruct (@pick_spec df ev t names n it (Hn ev) H1 H2) as (r & v & A & B & C).
    exists n, r, v. repeat split; auto.
  - exact IH.
Qed.
Lemma search_trans_spec df names it ts evs : df <> [] ->
  (forall ev, numbered df ev names) ->
  match find (hit df names) (flat_map (fun t => map (fun e => (t, e)) evs) ts) with
  | Some (t', ev) => exists n r v, chosen df ev t' names = Some n /\ lookup df ev t' n it = Some r /\ mons r n = Some v /\
      search_trans df names it ts evs = Ok (Some v)
  | None => search_trans df names it ts evs = Ok None
  end.
Proof.
  intros Hd Hn. induction ts as [|t ts IH]; [reflexivity|]. cbn [flat_map search_trans].
  assert (K := @search_events_spec df names it t evs Hd Hn).
  assert (F : forall (p : nat * nat -> bool) a b, find p (a ++ b) = match find p a with Some x => Some x | None => find p b end).
  { clear. intros p a b. induction a as [|x a IH]; simpl; [reflexivity|]. now destruct (p x). }
  rewrite F. destruct (find _ (map _ evs)) as [[t' ev]|].
  - destruct K as (n & r & v & A & B & C & D). exists n, r, v. rewrite D. auto.
  - rewrite K. cbn [bind]. exact IH.
Qed.
Lemma single_pf df names t it ev : df <> [] -> (forall e, numbered df e names) ->
  let ts := match t with Some t => [t] | None => unique (map (@trans V) df) end in
  let evs := match ev with Some e => [e] | None => unique (map (@event V) df) end in
  match find (hit df names) (candidates ts evs) with
  | Some (t', e) => exists n r v, chosen df e t' names = Some n /\ lookup df e t' n it = Some r /\ mons r n = Some v /\
      get_single_monitor_data df names t it ev = Ok (Some v)
  | None => get_single_monitor_data df names t it ev = Ok None
  end.
Proof.
  intros Hd Hn ts evs. unfold get_single_monitor_data. destruct df as [|r0 l0]; [congruence|].
  apply search_trans_spec; assumption.
Qed.
End log.
