(** Proofs about constancy flags. *)
From Coq Require Import QArith String ZArith.
From Verif Require Import Base Flow_Model Flow_Spec Flow_Proofs Flow_Proofs2.
Set Implicit Arguments.
Local Open Scope nat_scope.
Local Open Scope string_scope.
Local Open Scope list_scope.

Section flags.
Variable X : Type.
Notation t := goos_classes.

(** single flows have a class with varying fields, arrays consist of such *)
Definition good_rec (f : flow X) : Prop := exists c p fs, f = Rec c p fs /\ 1 <= c <= 6.
Definition good (f : flow X) : Prop := good_rec f \/ exists l, f = ArrF l /\ Forall good_rec l.

Lemma nonconst_lib c : 1 <= c <= 6 -> exists k ks, nonconst t c = Ok (k :: ks).
Proof.
  intros [H1 H2]. revert c H2 H1. refine (lib_cases _ _ _ _ _ _ _ _); intros H; try lia; vm_compute; eauto.
Qed.
Lemma ftrue_set_all_rec k ks b : ftrue (fset_all (FRec (map (fun k : string => (k, false)) (k :: ks))) b) = true -> b = true.
Proof. simpl. intros H. apply andb_true_iff in H. tauto. Qed.
Lemma fattr_set_all fs b k : fattr (fset_all (FRec fs) b) k = Ok true -> b = true.
Proof.
  simpl. induction fs as [|[k' v] fs IH]; simpl; [discriminate|].
  destruct (String.eqb k' k); [intros H; now inversion H|exact IH].
Qed.

Definition rel (a b : flow X * cflags) : Prop :=
  good (fst a) /\ good (fst b) /\ flags_hold (snd a) (fst a) (fst b).

Lemma inputs_equal vs ws : Forall2 rel vs ws -> forallb ftrue (map snd vs) = true -> map fst vs = map fst ws.
Proof.
  induction 1 as [|a b vs ws H _ IH]; simpl; [reflexivity|].
  intros E. apply andb_true_iff in E as [E1 E2]. rewrite IH by exact E2. f_equal. now apply H.
Qed.
(** nodes whose flags are all those of [all inputs] *)
Lemma generic_hold vs ws a b fl : Forall2 rel vs ws -> good_rec a ->
  (map fst vs = map fst ws -> a = b) ->
  bind (default_flags t a) (fun f => Ok (fset_all f (forallb ftrue (map snd vs)))) = Ok fl ->
  flags_hold fl a b.
Proof.
  intros HR (c & p & fs & -> & Hc) Hab E.
  destruct (nonconst_lib Hc) as (k & ks & Ek). cbn [default_flags] in E. rewrite Ek in E. cbn [bind] in E.
  assert (Efl : fl = fset_all (FRec (map (fun k : string => (k, false)) (k :: ks))) (forallb ftrue (map snd vs))) by congruence.
  clear E. subst fl. split.
  - intros H. apply ftrue_set_all_rec in H. apply Hab, (inputs_equal HR H).
  - intros k' H. apply fattr_set_all in H. rewrite (Hab (inputs_equal HR H)). reflexivity.
Qed.

Lemma input_rel vs ws i a b : Forall2 rel vs ws -> input (map fst vs) i = Ok a -> input (map fst ws) i = Ok b ->
  exists fl, input (map snd vs) i = Ok fl /\ good a /\ good b /\ flags_hold fl a b.
Proof.
  intros HR. revert i. induction HR as [|x y vs ws H _ IH]; intros [|i]; cbn.
  - discriminate. - discriminate.
  - intros E1 E2. inversion E1; inversion E2; subst. exists (snd x). split; [reflexivity|exact H].
  - intros E1 E2. apply (IH i); [exact E1|exact E2].
Qed.
Lemma flag_input vs ws i x y : Forall2 rel vs ws ->
  bind (input (map snd vs) i) (fun f => fattr f "array") = Ok true ->
  bind (input (map fst vs) i) (fun f => field f "array") = Ok x ->
  bind (input (map fst ws) i) (fun f => field f "array") = Ok y -> x = y.
Proof.
  intros HR Hf Hx Hy.
  destruct (input (map fst vs) i) as [a|] eqn:Ea; [|discriminate]. cbn [bind] in Hx.
  destruct (input (map fst ws) i) as [b|] eqn:Eb; [|discriminate]. cbn [bind] in Hy.
  destruct (input_rel _ HR Ea Eb) as (fl & Efl & _ & _ & _ & H).
  rewrite Efl in Hf. cbn [bind] in Hf. specialize (H _ Hf). congruence.
Qed.

(** *** shapes *)
(** what is needed of the way a shape fills its fields and flags *)
Definition shape_ok (s : shape_node X) : Prop :=
  1 <= s_cls s <= 6 /\ NoDup (map fst (s_val s)) /\
  forall k i h, In (k, FromInput i h) (s_val s) ->
    sget (s_flag s) k = Some (FlagOf i) /\ exists ks, nonconst t (s_cls s) = Ok ks /\ In k ks.
Lemma library_shape_ok s : library_shape s -> shape_ok s.
Proof.
  assert (D : forall l : list string, (fix nd (l : list string) := match l with [] => true | x :: l' => negb (existsb (String.eqb x) l') && nd l' end) l = true -> NoDup l).
  { induction l as [|x l IH]; intros E; [constructor|]. apply andb_true_iff in E as [E1 E2]. constructor; [|now apply IH].
    intros Hx. apply negb_true_iff in E1. assert (T : existsb (String.eqb x) l = true).
    { apply existsb_exists. exists x. split; [exact Hx|apply String.eqb_refl]. }
    congruence. }
  intros [(p & ->) | [(n & ->) | [(n & ->) | [(e & ->) | (e & r & h0 & ->)]]]];
    (split; [cbn; unfold cCuboid, cCylinder, cSphere, cPixel; lia|]; split; [apply D; reflexivity|]);
    intros k i h H; cbn [s_val cuboid cylinder sphere pixelated old_param In] in H;
    repeat (match type of H with _ \/ _ => destruct H as [H|H] end);
    try contradiction; try discriminate H; inversion H; subst;
    (split; [reflexivity|eexists; split; [vm_compute; reflexivity|cbn; tauto]]).
Qed.
Lemma mapM_pairs {A B} (F : A -> res B) (l : list (string * A)) r :
  mapM (fun kv => bind (F (snd kv)) (fun x => Ok (fst kv, x))) l = Ok r ->
  map fst r = map fst l /\ forall k, sget r k = match sget l k with
    | Some a => match F a with Ok b => Some b | Err _ => None end | None => None end.
Proof.
  revert r. induction l as [|[k a] l IH]; intros r; cbn [mapM fst snd].
  - intros E. inversion E. split; reflexivity.
  - destruct (F a) as [b|e] eqn:Ea; cbn [bind]; [|discriminate].
    destruct (mapM _ l) as [r'|e]; cbn [bind]; [|discriminate]. intros E. inversion E; subst. clear E.
    destruct (IH r' eq_refl) as [I1 I2]. split; [cbn; now rewrite I1|].
    intros k'. cbn [sget]. destruct (String.eqb k k'); [now rewrite Ea|apply I2].
Qed.
Lemma mapM_pairs_ok {A B} (F : A -> res B) (l : list (string * A)) r k a :
  mapM (fun kv => bind (F (snd kv)) (fun x => Ok (fst kv, x))) l = Ok r -> In (k, a) l -> exists b, F a = Ok b.
Proof.
  revert r. induction l as [|[k0 a0] l IH]; intros r; cbn [mapM fst snd]; [intros _ []|].
  destruct (F a0) as [b|e] eqn:Ea; cbn [bind]; [|discriminate].
  destruct (mapM _ l) as [r'|e]; cbn [bind]; [|discriminate]. intros _ [H|H].
  - inversion H; subst. eauto.
  - now apply (IH r').
Qed.
Lemma sget_in {V} (d : list (string * V)) k v : sget d k = Some v -> In (k, v) d.
Proof.
  induction d as [|[k' v'] d IH]; cbn [sget]; [discriminate|].
  destruct (String.eqb k' k) eqn:E; [|intros H; right; now apply IH].
  apply String.eqb_eq in E. intros H. inversion H; subst. now left.
Qed.
Lemma in_sget {V} (d : list (string * V)) k v : NoDup (map fst d) -> In (k, v) d -> sget d k = Some v.
Proof.
  induction d as [|[k' v'] d IH]; cbn; [contradiction|]. intros Nd H. inversion Nd as [|? ? N1 N2]; subst.
  destruct H as [H|H].
  - inversion H; subst. now rewrite String.eqb_refl.
  - destruct (String.eqb k' k) eqn:E; [|now apply IH]. apply String.eqb_eq in E. subst.
    exfalso. apply N1. apply in_map_iff. now exists (k, v).
Qed.
Lemma sget_flags (given : list (string * bool)) ks k :
  fattr (FRec (map (fun k => (k, match sget given k with Some b => b | None => false end)) ks)) k = Ok true ->
  sget given k = Some true.
Proof.
  cbn [fattr]. induction ks as [|k' ks IH]; cbn [map sget]; [discriminate|].
  destruct (String.eqb k' k) eqn:E; [|exact IH].
  apply String.eqb_eq in E. subst. destruct (sget given k) as [[|]|]; intros H; inversion H. reflexivity.
Qed.
Lemma list_ext {V} (d e : list (string * V)) : map fst d = map fst e -> NoDup (map fst d) ->
  (forall k, sget d k = sget e k) -> d = e.
Proof.
  revert e. induction d as [|[k v] d IH]; intros [|[k' v'] e] Hm Hn Hs; try discriminate; [reflexivity|].
  cbn in Hm. inversion Hm; subst k'. inversion Hn as [|? ? N1 N2]; subst.
  assert (E := Hs k). cbn [sget] in E. rewrite String.eqb_refl in E. inversion E; subst. f_equal.
  apply IH; [assumption|assumption|]. intros k'. specialize (Hs k'). cbn [sget] in Hs.
  destruct (String.eqb k k') eqn:Ek; [|exact Hs]. apply String.eqb_eq in Ek. subst k'.
  assert (G : forall l : list (string * V), map fst l = map fst d -> sget l k = None).
  { intros l Hl. destruct (sget l k) eqn:El; [|reflexivity]. exfalso. apply N1. rewrite <- Hl.
    apply sget_in in El. apply in_map_iff. now exists (k, v). }
  rewrite (G d eq_refl). symmetry. apply G. congruence.
Qed.
Lemma shape_hold s vs ws fs fs' fl : shape_ok s -> Forall2 rel vs ws ->
  eval_fields (map fst vs) (s_val s) = Ok fs -> eval_fields (map fst ws) (s_val s) = Ok fs' ->
  shape_flags t s (map snd vs) = Ok fl ->
  flags_hold fl (Rec (s_cls s) (s_prio s) fs) (Rec (s_cls s) (s_prio s) fs').
Proof.
  intros (Hc & Hn & Hv) HR E1 E2 E3.
  unfold shape_flags in E3.
  destruct (mapM _ (s_flag s)) as [given|] eqn:Eg; [|discriminate]. cbn [bind] in E3.
  destruct (nonconst_lib Hc) as (k0 & ks0 & Ek). remember (k0 :: ks0) as ks eqn:Eks0. clear Eks0 k0 ks0.
  rewrite Ek in E3. cbn [bind] in E3. inversion E3; subst fl. clear E3.
  destruct (mapM_pairs _ _ E1) as [F1 G1]. destruct (mapM_pairs _ _ E2) as [F2 G2].
  destruct (mapM_pairs _ _ Eg) as [_ Gg].
  (* a field with a flag that is set *)
  assert (P : forall k, sget given k = Some true -> sget fs k = sget fs' k).
  { intros k Hk. rewrite G1, G2. destruct (sget (s_val s) k) as [[i h|x]|] eqn:Es; [|reflexivity|reflexivity].
    assert (Hin := sget_in _ _ Es). destruct (Hv k i h Hin) as [Hf _].
    rewrite Gg, Hf in Hk. cbn [eval_fsrc] in Hk.
    destruct (bind (input (map snd vs) i) (fun f => fattr f "array")) as [[|]|] eqn:Eb; try discriminate.
    destruct (mapM_pairs_ok _ _ _ _ E1 Hin) as (x & Ex). destruct (mapM_pairs_ok _ _ _ _ E2 Hin) as (y & Ey).
    rewrite Ex, Ey. f_equal. cbn [eval_src] in Ex, Ey.
    destruct (input (map fst vs) i) as [a|] eqn:Ea; [|discriminate]. cbn [bind] in Ex.
    destruct (field a "array") as [x0|] eqn:Fa; [|discriminate]. cbn [bind] in Ex.
    destruct (input (map fst ws) i) as [b|] eqn:Ebb; [|discriminate]. cbn [bind] in Ey.
    destruct (field b "array") as [y0|] eqn:Fb; [|discriminate]. cbn [bind] in Ey.
    assert (x0 = y0).
    { apply (@flag_input vs ws i x0 y0 HR Eb); [rewrite Ea|rewrite Ebb]; cbn [bind]; assumption. }
    subst. congruence. }
  split.
  - intros Ht. cbn [ftrue] in Ht. rewrite forallb_forall in Ht.
    assert (fs = fs'); [|now subst].
    apply list_ext; [congruence|rewrite F1; exact Hn|]. intros k.
    rewrite G1, G2. destruct (sget (s_val s) k) as [[i h|x]|] eqn:Es; [|reflexivity|reflexivity].
    assert (Hin := sget_in _ _ Es). destruct (Hv k i h Hin) as (_ & ks' & Eks & Hks).
    rewrite Ek in Eks. inversion Eks; subst ks'.
    assert (Hg : sget given k = Some true).
    { specialize (Ht (k, match sget given k with Some b => b | None => false end)).
      cbn [snd] in Ht. rewrite in_map_iff in Ht.
      assert (Q : exists x, (x, match sget given x with Some b => b | None => false end) =
                            (k, match sget given k with Some b => b | None => false end) /\ In x ks) by (exists k; tauto).
      apply Ht in Q. destruct (sget given k) as [[|]|]; [reflexivity|discriminate|discriminate]. }
    assert (R := P k Hg). rewrite G1, G2, Es in R. exact R.
  - intros k Hk. apply sget_flags in Hk. cbn [field]. now rewrite (P k Hk).
Qed.

(** *** evaluation keeps flows good *)
Lemma flatten_good f : good f -> Forall good_rec (flatten f).
Proof.
  intros [(c & p & fs & -> & H) | (l & -> & H)].
  - cbn. repeat constructor. exists c, p, fs. tauto.
  - cbn. induction H as [|x l (c & p & fs & -> & Hx) _ IH]; cbn; [constructor|]. constructor; [|exact IH].
    exists c, p, fs. tauto.
Qed.
Lemma pinsert_forall (P : flow X -> Prop) f (l : list (flow X)) : P f -> Forall P l -> Forall P (pinsert f l).
Proof.
  intros Hf. induction 1 as [|x l Hx Hl IH]; cbn; [repeat constructor; exact Hf|].
  destruct (Z.leb _ _); repeat constructor; assumption.
Qed.
Lemma psort_forall (P : flow X -> Prop) (l : list (flow X)) : Forall P l -> Forall P (psort l).
Proof. induction 1 as [|x l Hx _ IH]; cbn; [constructor|]. now apply pinsert_forall. Qed.
Lemma group_good (ins : list (flow X)) : Forall good ins -> good (ArrF (psort (flat_map (@flatten X) ins))).
Proof.
  intros H. right. eexists. split; [reflexivity|]. apply psort_forall.
  induction H as [|x l Hx _ IH]; cbn; [constructor|]. apply Forall_app. split; [now apply flatten_good|exact IH].
Qed.
Lemma rel_good vs ws : Forall2 rel vs ws -> Forall good (map fst vs) /\ Forall good (map fst ws).
Proof. induction 1 as [|a b vs ws (H1 & H2 & _) _ [I1 I2]]; cbn; split; constructor; assumption. Qed.
Lemma input_nth {A} (l : list A) i x : input l i = Ok x -> In x l.
Proof. unfold input. destruct (nth_error l i) eqn:E; [|discriminate]. intros H. inversion H; subst. now apply nth_error_In in E. Qed.

Lemma library_two_inputs (s : shape_node X) fl0 : library_shape s -> exists e, shape_flags t s [fl0] = Err e.
Proof.
  intros [(p & ->) | [(n & ->) | [(n & ->) | [(e & ->) | (e & r & h & ->)]]]]; unfold shape_flags; cbn;
    try (destruct (fattr fl0 "array") as [b|e0]; cbn; eauto); eauto.
Qed.

(** *** one node *)
(** what calling the method of a node once more, on the flags of that node, gives *)
Definition hook_ok (o : option hook) (a b : flow X) : Prop :=
  match o with
  | None => good_rec a /\ good_rec b
  | Some h => forall fl fl', flags_hold fl a b -> h [fl] = Ok fl' -> flags_hold fl' a b
  end.
Lemma step_hold v w frozen before hooks done1 done2 n ins r1 r2 :
  agree frozen v w -> node_ok before n ins -> Forall2 rel done1 done2 ->
  (forall i q q', nth_error done1 i = Some q -> nth_error done2 i = Some q' -> hook_ok (nth i hooks None) (fst q) (fst q')) ->
  (forall i x js, nth_error before i = Some (NConst x, js) ->
     (forall q, nth_error done1 i = Some q -> fst q = Rec cNumeric 0 [("array", x)]) /\
     (forall q, nth_error done2 i = Some q -> fst q = Rec cNumeric 0 [("array", x)])) ->
  step t v frozen hooks done1 n ins = Ok r1 -> step t w frozen hooks done2 n ins = Ok r2 ->
  rel r1 r2 /\ hook_ok (node_hook t hooks n ins) (fst r1) (fst r2) /\
  (forall x, n = NConst x -> fst r1 = Rec cNumeric 0 [("array", x)] /\ fst r2 = Rec cNumeric 0 [("array", x)]).
Proof.
  intros Hag Hok HR Hhook Hconst E1 E2. unfold step in E1, E2.
  destruct (mapM (input done1) ins) as [vs|] eqn:M1; [|discriminate]. cbn [bind] in E1.
  destruct (mapM (input done2) ins) as [ws|] eqn:M2; [|discriminate]. cbn [bind] in E2.
  assert (HR' : Forall2 rel vs ws).
  { clear E1 E2 Hok. revert vs ws M1 M2. induction ins as [|i ins IH]; intros vs ws M1 M2; cbn in M1, M2.
    - inversion M1; inversion M2. constructor.
    - destruct (input done1 i) as [a|] eqn:Ea; [|discriminate]. cbn in M1.
      destruct (mapM (input done1) ins) as [vs'|]; [|discriminate]. cbn in M1. inversion M1; subst.
      destruct (input done2 i) as [b|] eqn:Eb; [|discriminate]. cbn in M2.
      destruct (mapM (input done2) ins) as [ws'|]; [|discriminate]. cbn in M2. inversion M2; subst.
      constructor; [|now apply IH]. clear - HR Ea Eb. revert i Ea Eb. induction HR as [|x y l l' H _ IHl]; intros [|i]; cbn; try discriminate.
      + intros A B. inversion A; inversion B; subst. exact H.
      + apply IHl. }
  destruct (rel_good HR') as [Gv Gw].
  destruct n as [x|x|f|s| |h|i|k].
  - (* NVar *) inversion E1; inversion E2; subst. clear E1 E2.
    assert (G : forall u, good_rec (Rec cNumeric 0 [("array", u)])).
    { intros u. exists cNumeric, 0%Z, [("array", u)]. split; [reflexivity|unfold cNumeric; lia]. }
    split; [|split; [split; apply G|discriminate]]. unfold rel. cbn [fst snd].
    split; [left; apply G|]. split; [left; apply G|]. split.
    + cbn. rewrite andb_true_r. intros H. now rewrite (Hag x H).
    + intros k. cbn [fattr sget field]. destruct (String.eqb "array" k); [|reflexivity].
      intros H. inversion H as [H']. now rewrite (Hag x H').
  - (* NConst *) cbn in E1, E2. inversion E1; inversion E2; subst. clear E1 E2.
    assert (G : good_rec (Rec cNumeric 0 [("array", x)])).
    { exists cNumeric, 0%Z, [("array", x)]. split; [reflexivity|unfold cNumeric; lia]. }
    split; [|split; [intros fl fl' _ _; split; reflexivity|intros y E; inversion E; subst; split; reflexivity]].
    unfold rel. cbn [fst snd]. split; [left; exact G|]. split; [left; exact G|]. split; reflexivity.
  - (* NFun *) cbn [eval_node] in E1, E2. cbn in Hok.
    destruct (f (map fst vs)) as [a|] eqn:Ea; [|discriminate]. cbn [bind] in E1.
    destruct (f (map fst ws)) as [b|] eqn:Eb; [|discriminate]. cbn [bind] in E2.
    destruct (eval_flags t (node_hook t hooks (NFun f) ins) (map snd vs) a) as [fl|] eqn:Ef; [|discriminate]. cbn [bind] in E1.
    destruct (eval_flags t (node_hook t hooks (NFun f) ins) (map snd ws) b) as [fl'|] eqn:Ef'; [|discriminate]. cbn [bind] in E2.
    inversion E1; inversion E2; subst. clear E1 E2.
    assert (Ga : good_rec a) by (apply (Hok _ _ Ea)). assert (Gb : good_rec b) by (apply (Hok _ _ Eb)).
    split; [|split; [split; assumption|discriminate]].
    split; [now left|]. split; [now left|]. cbn [fst snd].
    apply (@generic_hold vs ws a b fl HR' Ga); [|exact Ef]. intros E. congruence.
  - (* NShape *) cbn [eval_node] in E1, E2. cbn in Hok. assert (Hlib := Hok). apply library_shape_ok in Hok.
    destruct (eval_fields (map fst vs) (s_val s)) as [fs|] eqn:Ea; [|discriminate]. cbn [bind] in E1.
    destruct (eval_fields (map fst ws) (s_val s)) as [fs'|] eqn:Eb; [|discriminate]. cbn [bind] in E2.
    unfold eval_flags in E1, E2. cbn [node_hook target_hook] in E1, E2.
    destruct (shape_flags t s (map snd vs)) as [fl|] eqn:Ef; [|discriminate]. cbn [bind] in E1.
    destruct (shape_flags t s (map snd ws)) as [fl'|] eqn:Ef'; [|discriminate]. cbn [bind] in E2.
    inversion E1; inversion E2; subst. clear E1 E2.
    assert (G : forall fs, good_rec (Rec (s_cls s) (s_prio s) fs)).
    { intros u. exists (s_cls s), (s_prio s), u. split; [reflexivity|exact (proj1 Hok)]. }
    split; [|split; [intros f0 f1 _ Hf; exfalso; destruct (@library_two_inputs s f0 Hlib) as (e & Ee); rewrite Ee in Hf; discriminate|discriminate]].
    unfold rel. cbn [fst snd].
    split; [left; apply G|]. split; [left; apply G|]. exact (@shape_hold s vs ws fs fs' fl Hok HR' Ea Eb Ef).
  - (* NGroup *) cbn in E1, E2. inversion E1; inversion E2; subst. clear E1 E2.
    assert (Hg : forall a b fl fl', flags_hold fl a b -> Ok (FArr [fl]) = Ok fl' -> @flags_hold X fl' a b).
    { intros a b f0 f1 Hf E. inversion E; subst. split; [|intros k' H; discriminate].
      cbn [ftrue forallb]. rewrite andb_true_r. apply Hf. }
    split; [|split; [intros f0 f1; apply Hg|discriminate]]. unfold rel. cbn [fst snd].
    split; [now apply group_good|]. split; [now apply group_good|]. split.
    + cbn [ftrue]. intros H. now rewrite (inputs_equal HR' H).
    + intros k H. discriminate.
  - (* NTranslate *) cbn [eval_node] in E1, E2.
    destruct (input (map fst vs) 0) as [a|] eqn:Ea; [|discriminate]. cbn [bind] in E1.
    destruct (input (map fst ws) 0) as [b|] eqn:Eb; [|discriminate]. cbn [bind] in E2.
    destruct (input_rel _ HR' Ea Eb) as (fl & Efl & Ga & Gb & H1 & H2).
    destruct a as [c p fs|l]; [|discriminate]. destruct b as [c' p' fs'|l']; [|discriminate].
    destruct (field (Rec c p fs) "pos") as [x|] eqn:Fa; [|discriminate]. cbn [bind] in E1.
    destruct (field (Rec c' p' fs') "pos") as [y|] eqn:Fb; [|discriminate]. cbn [bind] in E2.
    unfold eval_flags in E1, E2. cbn [node_hook target_hook] in E1, E2.
    rewrite Efl in E1. cbn [bind] in E1.
    destruct (input (map snd ws) 0) as [fl'|]; [|discriminate]. cbn [bind] in E2.
    inversion E1; inversion E2; subst. clear E1 E2.
    assert (Up : forall c p fs fs', good (@Rec X c p fs) -> good_rec (Rec c p fs')).
    { intros c0 p0 f0 f1 [(c1 & p1 & f2 & E & Hc) | (l & E & _)]; [|discriminate]. inversion E; subst.
      exists c1, p1, f1. tauto. }
    split; [|split; [intros f0 f1 Hf E; change (input [f0] 0) with (Ok f0) in E; inversion E; subst; exact Hf|discriminate]]. unfold rel. cbn [fst snd].
    split; [left; exact (Up _ _ _ _ Ga)|]. split; [left; exact (Up _ _ _ _ Gb)|]. split.
    + intros H. assert (E := H1 H). inversion E; subst. rewrite Fa in Fb. inversion Fb; subst. reflexivity.
    + intros k Hk. assert (E := H2 k Hk). destruct (string_dec "pos" k) as [<- | N].
      * rewrite Fa, Fb in E. inversion E; subst. cbn [field]. now rewrite !sget_sset_same.
      * cbn [field] in E |- *. rewrite !sget_sset_other by exact N. exact E.
  - (* NIndex *) cbn [eval_node] in E1, E2.
    destruct (input (map fst vs) 0) as [a|] eqn:Ea; [|discriminate]. cbn [bind] in E1.
    destruct (input (map fst ws) 0) as [b|] eqn:Eb; [|discriminate]. cbn [bind] in E2.
    destruct a as [c p fs|l]; [discriminate|]. destruct b as [c' p' fs'|l']; [discriminate|].
    destruct (input l i) as [a|] eqn:Ia; [|discriminate]. cbn [bind] in E1.
    destruct (input l' i) as [b|] eqn:Ib; [|discriminate]. cbn [bind] in E2.
    destruct (eval_flags t (node_hook t hooks (NIndex i) ins) (map snd vs) a) as [fl|] eqn:Ef; [|discriminate]. cbn [bind] in E1.
    destruct (eval_flags t (node_hook t hooks (NIndex i) ins) (map snd ws) b) as [fl'|] eqn:Ef'; [|discriminate]. cbn [bind] in E2.
    inversion E1; inversion E2; subst. clear E1 E2.
    assert (El : forall l a j, input l j = Ok a -> good (ArrF l) -> good_rec a).
    { intros l0 a0 j Hj [(c & p & fs & E & _) | (l1 & E & Hl)]; [discriminate|]. inversion E; subst.
      rewrite Forall_forall in Hl. apply Hl. now apply input_nth in Hj. }
    assert (Ga : good_rec a).
    { apply (El _ _ _ Ia). rewrite Forall_forall in Gv. apply Gv. now apply input_nth in Ea. }
    assert (Gb : good_rec b).
    { apply (El _ _ _ Ib). rewrite Forall_forall in Gw. apply Gw. now apply input_nth in Eb. }
    split; [|split; [split; assumption|discriminate]].
    split; [now left|]. split; [now left|]. cbn [fst snd].
    apply (@generic_hold vs ws a b fl HR' Ga); [|exact Ef].
    intros E. rewrite E, Eb in Ea. inversion Ea; subst. congruence.
  - (* NCast *) cbn [node_ok] in Hok. destruct Hok as (i & -> & Hk).
    cbn [eval_node] in E1, E2.
    cbn in M1, M2. destruct (input done1 i) as [q|] eqn:D1; [|discriminate]. cbn in M1. inversion M1; subst vs. clear M1.
    destruct (input done2 i) as [q'|] eqn:D2; [|discriminate]. cbn in M2. inversion M2; subst ws. clear M2.
    cbn [map input nth_error] in E1, E2. cbn [input nth_error bind] in E1, E2.
    change (input [fst q] 0) with (Ok (fst q)) in E1. change (input [fst q'] 0) with (Ok (fst q')) in E2.
    cbn [bind] in E1, E2.
    destruct (eval_flags t (node_hook t hooks (NCast k) [i]) [snd q] (fst q)) as [fl|] eqn:Ef; [|discriminate]. cbn [bind] in E1.
    destruct (eval_flags t (node_hook t hooks (NCast k) [i]) [snd q'] (fst q')) as [fl'|] eqn:Ef'; [|discriminate]. cbn [bind] in E2.
    inversion E1; inversion E2; subst. clear E1 E2 Ef'. cbn [fst].
    assert (N1 : nth_error done1 i = Some q).
    { unfold input in D1. destruct (nth_error done1 i); [|discriminate]. now inversion D1. }
    assert (N2 : nth_error done2 i = Some q').
    { unfold input in D2. destruct (nth_error done2 i); [|discriminate]. now inversion D2. }
    inversion HR' as [|? ? ? ? (Ga & Gb & Hh) _]; subst.
    assert (Hk' : hook_ok (node_hook t hooks (NCast k) [i]) (fst q) (fst q')).
    { destruct k as [| |s| |]; cbn [node_hook target_hook].
      - exact (Hhook i q q' N1 N2).
      - intros f0 f1 _ E. inversion E; subst. destruct Hk as (x & js & Hx). destruct (Hconst i x js Hx) as [C1 C2].
        rewrite (C1 _ N1), (C2 _ N2). split; reflexivity.
      - intros f0 f1 _ E. exfalso. destruct (@library_two_inputs s f0 Hk) as (e & Ee). rewrite Ee in E. discriminate.
      - intros f0 f1 Hf E. inversion E; subst. split; [|intros k' H; discriminate].
        cbn [ftrue forallb]. rewrite andb_true_r. apply Hf.
      - intros f0 f1 Hf E. change (input [f0] 0) with (Ok f0) in E. inversion E; subst. exact Hf. }
    split; [|split; [exact Hk'|discriminate]].
    split; [exact Ga|]. split; [exact Gb|]. cbn [fst snd].
    unfold eval_flags in Ef. destruct (node_hook t hooks (NCast k) [i]) as [h|].
    + exact (Hk' _ _ Hh Ef).
    + apply (@generic_hold [q] [q'] (fst q) (fst q') fl HR' (proj1 Hk')); [|exact Ef].
      cbn. intros E. now inversion E.
Qed.

(** *** a whole graph *)
Lemma nth_error_snoc {A} (l : list A) x i y : nth_error (l ++ [x]) i = Some y ->
  nth_error l i = Some y \/ (i = List.length l /\ y = x).
Proof.
  intros H. destruct (Nat.lt_ge_cases i (List.length l)) as [L|L].
  - left. now rewrite nth_error_app1 in H.
  - right. rewrite nth_error_app2 in H by exact L.
    destruct (i - List.length l) as [|d] eqn:E; cbn in H; [|destruct d; discriminate].
    inversion H. split; [lia|reflexivity].
Qed.
Lemma run_from_hold v w frozen : agree frozen v w -> forall p before hooks done1 done2 r1 r2,
  List.length done1 = List.length before -> List.length done2 = List.length before -> List.length hooks = List.length before ->
  (forall k n ins, nth_error p k = Some (n, ins) -> node_ok (before ++ firstn k p) n ins) ->
  Forall2 rel done1 done2 ->
  (forall i q q', nth_error done1 i = Some q -> nth_error done2 i = Some q' -> hook_ok (nth i hooks None) (fst q) (fst q')) ->
  (forall i x js, nth_error before i = Some (NConst x, js) ->
     (forall q, nth_error done1 i = Some q -> fst q = Rec cNumeric 0 [("array", x)]) /\
     (forall q, nth_error done2 i = Some q -> fst q = Rec cNumeric 0 [("array", x)])) ->
  run_from t v frozen hooks done1 p = Ok r1 -> run_from t w frozen hooks done2 p = Ok r2 -> Forall2 rel r1 r2.
Proof.
  intros Hag. induction p as [|[n ins] p IH]; intros before hooks done1 done2 r1 r2 L1 L2 L3 Hok HR Hs Hc E1 E2; cbn [run_from] in E1, E2.
  - inversion E1; inversion E2; subst. exact HR.
  - destruct (step t v frozen hooks done1 n ins) as [q|] eqn:S1; [|discriminate]. cbn [bind] in E1.
    destruct (step t w frozen hooks done2 n ins) as [q'|] eqn:S2; [|discriminate]. cbn [bind] in E2.
    assert (Hn : node_ok before n ins).
    { specialize (Hok 0 n ins eq_refl). cbn in Hok. now rewrite app_nil_r in Hok. }
    destruct (@step_hold v w frozen before hooks done1 done2 n ins q q' Hag Hn HR Hs Hc S1 S2) as (R1 & R2 & R3).
    apply (IH (before ++ [(n, ins)]) (hooks ++ [node_hook t hooks n ins]) (done1 ++ [q]) (done2 ++ [q'])); try assumption.
    + rewrite !app_length. cbn. lia.
    + rewrite !app_length. cbn. lia.
    + rewrite !app_length. cbn. lia.
    + intros k m js Hk. specialize (Hok (S k) m js Hk). cbn in Hok. now rewrite <- app_assoc.
    + apply Forall2_app; [exact HR|]. constructor; [exact R1|constructor].
    + intros i r r' Hr Hr'. apply nth_error_snoc in Hr as [Hr | (Ei & ->)].
      * assert (Lt : i < List.length done1) by (apply nth_error_Some; congruence).
        rewrite nth_error_app1 in Hr' by lia. rewrite app_nth1 by lia. now apply Hs.
      * rewrite nth_error_app2 in Hr' by lia. replace (i - List.length done2) with 0 in Hr' by lia. inversion Hr'; subst r'.
        rewrite app_nth2 by lia. replace (i - List.length hooks) with 0 by lia. exact R2.
    + intros i x js Hi. apply nth_error_snoc in Hi as [Hi | (Ei & Em)].
      * destruct (Hc i x js Hi) as [A B].
        assert (Lt : i < List.length before) by (apply nth_error_Some; congruence).
        split; intros r Hr; (rewrite nth_error_app1 in Hr by lia); auto.
      * inversion Em; subst n js. destruct (R3 x eq_refl) as [A B].
        split; intros r Hr; (rewrite nth_error_app2 in Hr by lia);
          (replace (i - _) with 0 in Hr by lia); inversion Hr; subst; assumption.
Qed.
Theorem flags_sound (p : prog X) frozen v w a b : prog_ok p -> agree frozen v w ->
  run t v frozen p = Ok a -> run t w frozen p = Ok b ->
  forall k f fl f' fl', nth_error a k = Some (f, fl) -> nth_error b k = Some (f', fl') -> flags_hold fl f f'.
Proof.
  intros Hp Hag Ea Eb.
  assert (H : Forall2 rel a b).
  { apply (@run_from_hold v w frozen Hag p [] [] [] [] a b); try assumption; try reflexivity.
    - constructor.
    - intros i m js Hi. destruct i; discriminate.
    - intros i x js Hi. destruct i; discriminate. }
  clear - H. intros k f fl f' fl'. revert k. induction H as [|x y l l' Hxy _ IH]; intros [|k]; cbn; try discriminate.
  - intros A B. inversion A; inversion B; subst. apply Hxy.
  - apply IH.
Qed.

(** *** casting to the class of a shape *)
Lemma shape_hook_one (s : shape_node X) fl : library_shape s -> exists e, shape_flags t s [fl] = Err e /\ (e = AttributeError \/ e = IndexError) /\
  ((forall b, fattr fl "array" <> Ok b) -> (forall e r h, s <> old_param e r h) -> e = AttributeError).
Proof.
  assert (A : forall b, fattr fl "array" = Err b -> b = AttributeError).
  { intros b. destruct fl as [fs|l]; cbn [fattr]; [destruct (sget fs "array")|]; congruence. }
  intros [(p & ->) | [(n & ->) | [(n & ->) | [(e & ->) | (e & r & h & ->)]]]]; unfold shape_flags; cbn [s_flag cuboid cylinder sphere pixelated old_param mapM eval_fsrc fst snd].
  all: try (change (input [fl] 0) with (Ok fl); cbn [bind];
       destruct (fattr fl "array") as [b|e0] eqn:Ef; cbn [bind];
       [change (input [fl] 1) with (@Err cflags IndexError); cbn [bind]; eexists; split; [reflexivity|]; split; [now right|];
        intros H; exfalso; exact (H b eq_refl)
       |rewrite (A e0 eq_refl); eexists; split; [reflexivity|]; split; [now left|reflexivity]]).
  change (input [fl] 1) with (@Err cflags IndexError). cbn [bind]. eexists. split; [reflexivity|]. split; [now right|].
  intros _ H. exfalso. now apply (H e r h).
Qed.
(** one more node *)
Lemma run_snoc v frozen (p : prog X) done n ins : run t v frozen p = Ok done ->
  exists hooks, List.length hooks = List.length done /\ List.length done = List.length p /\
    (forall i m js, nth_error p i = Some (m, js) -> (forall k, m <> NCast k) -> nth i hooks None = target_hook t (class_of m)) /\
    run t v frozen (p ++ [(n, ins)]) = bind (step t v frozen hooks done n ins) (fun r => Ok (done ++ [r])).
Proof.
  unfold run.
  assert (G : forall p before hooks d0 d, List.length hooks = List.length d0 -> List.length d0 = List.length before ->
    (forall i m js, nth_error before i = Some (m, js) -> (forall k, m <> NCast k) -> nth i hooks None = target_hook t (class_of m)) ->
    run_from t v frozen hooks d0 p = Ok d ->
    exists hooks', List.length hooks' = List.length d /\ List.length d = List.length (before ++ p) /\
      (forall i m js, nth_error (before ++ p) i = Some (m, js) -> (forall k, m <> NCast k) -> nth i hooks' None = target_hook t (class_of m)) /\
      run_from t v frozen hooks d0 (p ++ [(n, ins)]) = bind (step t v frozen hooks' d n ins) (fun r => Ok (d ++ [r]))).
  { clear. induction p as [|[m js] p IH]; intros before hooks d0 d L1 L2 Hh; cbn [run_from app].
    - intros E. inversion E; subst. exists hooks. rewrite app_nil_r. split; [exact L1|]. split; [exact L2|]. split; [exact Hh|]. reflexivity.
    - destruct (step t v frozen hooks d0 m js) as [q|]; cbn [bind]; [|discriminate]. intros E.
      destruct (IH (before ++ [(m, js)]) (hooks ++ [node_hook t hooks m js]) (d0 ++ [q]) d) as (hooks' & A & B & C & D).
      + rewrite !app_length. cbn. lia.
      + rewrite !app_length. cbn. lia.
      + intros i m' js' Hi Hm. apply nth_error_snoc in Hi as [Hi | (Ei & Em)].
        * assert (Lt : i < List.length before) by (apply nth_error_Some; congruence).
          rewrite app_nth1 by lia. now apply (Hh i m' js').
        * inversion Em; subst m' js'. rewrite app_nth2 by lia. replace (i - List.length hooks) with 0 by lia.
          destruct m; try reflexivity. exfalso. now apply (Hm to).
      + exact E.
      + rewrite <- app_assoc in B, C. exists hooks'. split; [exact A|]. split; [exact B|]. split; [exact C|]. exact D. }
  intros E. apply (G p [] [] [] done); try reflexivity; [|exact E]. intros [|i] m js; discriminate.
Qed.
Lemma cast_step v frozen hooks (done : list (flow X * cflags)) k i f fl : nth_error done i = Some (f, fl) ->
  step t v frozen hooks done (NCast k) [i] =
  bind (eval_flags t (match target_hook t k with Some h => Some h | None => nth i hooks None end) [fl] f) (fun r => Ok (f, r)).
Proof.
  intros Hi. unfold step. cbn [mapM]. unfold input at 1. rewrite Hi. cbn [bind map fst snd eval_node].
  change (input [f] 0) with (Ok f). cbn [bind node_hook]. reflexivity.
Qed.
Theorem cast_to_shape v frozen (p : prog X) i s done f fl : library_shape s ->
  run t v frozen p = Ok done -> nth_error done i = Some (f, fl) ->
  exists e, run t v frozen (p ++ [(NCast (TShape s), [i])]) = Err e /\ (e = AttributeError \/ e = IndexError) /\
    ((forall b, fattr fl "array" <> Ok b) -> (forall e r h, s <> old_param e r h) -> e = AttributeError).
Proof.
  intros Hs Hr Hi. destruct (@run_snoc v frozen p done (NCast (TShape s)) [i] Hr) as (hooks & _ & _ & _ & E).
  destruct (shape_hook_one fl Hs) as (e & Ee & He). exists e. split; [|exact He].
  rewrite E, (@cast_step v frozen hooks done (TShape s) i f fl Hi). cbn [target_hook eval_flags]. now rewrite Ee.
Qed.
(** also to a class without the method, because the shape still provides it *)
Theorem cast_of_shape v frozen (p : prog X) i s js done f fl : library_shape s ->
  run t v frozen p = Ok done -> nth_error p i = Some (NShape s, js) -> nth_error done i = Some (f, fl) ->
  exists e, run t v frozen (p ++ [(NCast TPlain, [i])]) = Err e /\ (e = AttributeError \/ e = IndexError).
Proof.
  intros Hs Hr Hp Hi. destruct (@run_snoc v frozen p done (NCast TPlain) [i] Hr) as (hooks & _ & _ & Hh & E).
  destruct (shape_hook_one fl Hs) as (e & Ee & He & _). exists e. split; [|exact He].
  rewrite E, (@cast_step v frozen hooks done TPlain i f fl Hi). cbn [target_hook].
  rewrite (Hh i (NShape s) js Hp) by discriminate. cbn [class_of target_hook eval_flags]. now rewrite Ee.
Qed.
(** other nodes *)
Theorem rename_other v frozen (p : prog X) i n js done f fl : (forall s, n <> NShape s) -> (forall k, n <> NCast k) ->
  run t v frozen p = Ok done -> nth_error p i = Some (n, js) -> nth_error done i = Some (f, fl) ->
  (exists d, default_flags t f = Ok d) ->
  exists fl', run t v frozen (p ++ [(NCast (class_of n), [i])]) = Ok (done ++ [(f, fl')]).
Proof.
  intros Ns Nc Hr Hp Hi (d & Hd). destruct (@run_snoc v frozen p done (NCast (class_of n)) [i] Hr) as (hooks & _ & _ & Hh & E).
  rewrite E, (@cast_step v frozen hooks done (class_of n) i f fl Hi), (Hh i n js Hp Nc).
  assert (Q : exists fl', eval_flags t (target_hook t (class_of n)) [fl] f = Ok fl').
  { assert (Df : exists fl', bind (default_flags t f) (fun r => Ok (fset_all r (forallb ftrue [fl]))) = Ok fl').
    { rewrite Hd. cbn [bind]. eexists. reflexivity. }
    destruct n as [x|x|g|s| |h|j|k].
    - exact Df.
    - eexists. reflexivity.
    - exact Df.
    - exfalso. now apply (Ns s).
    - eexists. reflexivity.
    - eexists. reflexivity.
    - exact Df.
    - exfalso. now apply (Nc k). }
  destruct Q as (fl' & Q). exists fl'. destruct (target_hook t (class_of n)); rewrite Q; reflexivity.
Qed.

(** *** what the flags of shapes say *)
Theorem shape_never_constant (s : shape_node X) ins fl : library_shape s -> (forall p, s <> cuboid p) ->
  shape_flags t s ins = Ok fl -> ftrue fl = false.
Proof.
  intros [(p & ->) | [(n & ->) | [(n & ->) | [(e & ->) | (e & r & h & ->)]]]] N; [exfalso; now apply (N p)| | | |];
    clear N; unfold shape_flags;
    (match goal with |- context [mapM ?F ?l] => destruct (mapM F l) as [given|] eqn:Eg; [|discriminate] end);
    destruct (mapM_pairs _ _ Eg) as [_ G]; cbn [bind s_cls cylinder sphere pixelated old_param];
    (match goal with |- context [nonconst t ?c] => let x := eval vm_compute in (nonconst t c) in change (nonconst t c) with x end);
    cbn [bind]; intros E; injection E as <-; cbn [map ftrue forallb snd].
  - rewrite (G "num_points"). cbn. now rewrite !andb_false_r.
  - rewrite (G "num_points"). cbn. now rewrite !andb_false_r.
  - rewrite (G "extents"). cbn. now rewrite !andb_false_r.
  - rewrite (G "extents"). cbn. now rewrite !andb_false_r.
Qed.
Theorem cuboid_constant prio a b c : 
  shape_flags t (cuboid prio : shape_node X) [FRec [("array", a)]; FRec [("array", b)]; FRec [("array", c)]] =
  Ok (FRec [("pos", b); ("rot", c); ("extents", a)]).
Proof. reflexivity. Qed.
End flags.
