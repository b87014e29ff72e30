(** Proofs about the topological sort and the graph construction. *)
From Verif Require Import Base GraphExec_Model.
From Coq Require Import ZArith Relations.
Set Implicit Arguments.
Open Scope Z_scope.

Definition occ (l : list nat) (c : nat) : Z := Z.of_nat (count_occ Nat.eq_dec l c).

Lemma occ_nil c : occ [] c = 0.
Proof. reflexivity. Qed.
Lemma occ_cons x l c : occ (x :: l) c = (if Nat.eq_dec x c then 1 else 0) + occ l c.
Proof. unfold occ; cbn [count_occ]. destruct (Nat.eq_dec x c); lia. Qed.
Lemma occ_nonneg l c : 0 <= occ l c.
Proof. unfold occ; lia. Qed.
Lemma occ_pos_In l c : 0 < occ l c <-> In c l.
Proof. unfold occ. rewrite (count_occ_In Nat.eq_dec). lia. Qed.
Lemma occ_zero l c : occ l c = 0 <-> ~ In c l.
Proof. rewrite <- occ_pos_In. generalize (occ_nonneg l c). lia. Qed.

Lemma cset_eq p k v c : cset p k v c = if Nat.eq_dec k c then v else p c.
Proof.
  unfold cset. destruct (Nat.eq_dec k c) as [->|H].
  - now rewrite Nat.eqb_refl.
  - destruct (Nat.eqb_spec c k); congruence.
Qed.

(** *** relax *)
Lemma relax_spec l : forall p qu p' qu',
  (forall c, occ l c <= p c) ->
  relax l p qu = (p', qu') ->
  (forall c, p' c = p c - occ l c) /\
  exists add, qu' = qu ++ add /\ NoDup add /\
    forall c, In c add <-> (In c l /\ p c = occ l c).
Proof.
  induction l as [|x l IH]; intros p qu p' qu' Hle Hr; cbn [relax] in Hr.
  - inversion Hr; subst. split.
    + intros c; rewrite occ_nil; lia.
    + exists []. rewrite app_nil_r. split; [reflexivity|split; [constructor|]].
      intros c; simpl; tauto.
  - set (p1 := cset p x (p x - 1)) in *.
    assert (Hp1 : forall c, p1 c = p c - (if Nat.eq_dec x c then 1 else 0)).
    { intros c. unfold p1. rewrite cset_eq. destruct (Nat.eq_dec x c) as [->|]; lia. }
    assert (Hle1 : forall c, occ l c <= p1 c).
    { intros c. specialize (Hle c). rewrite occ_cons in Hle. rewrite Hp1. lia. }
    specialize (IH _ _ _ _ Hle1 Hr) as (Hp' & add & Hq & Hnd & Hadd).
    split.
    + intros c. rewrite Hp', Hp1, occ_cons. lia.
    + destruct (Z.eqb_spec (p1 x) 0) as [H0|H0].
      * exists (x :: add). rewrite Hq, <- app_assoc. split; [reflexivity|].
        assert (Hnx : ~ In x l).
        { apply occ_zero. specialize (Hle1 x). generalize (occ_nonneg l x). lia. }
        split.
        -- constructor; [|assumption]. rewrite Hadd. tauto.
        -- intros c. cbn [In]. rewrite Hadd, occ_cons.
           specialize (Hp1 c). destruct (Nat.eq_dec x c) as [->|Hne].
           ++ split; [|tauto]. intros _. split; [tauto|].
              apply occ_zero in Hnx. lia.
           ++ rewrite Hp1. split.
              ** intros [->|[HIn He]]; [tauto|]. split; [tauto|lia].
              ** intros [[->|HIn] He]; [tauto|]. right. split; [assumption|lia].
      * exists add. split; [assumption|]. split; [assumption|].
        intros c. rewrite Hadd, occ_cons. cbn [In]. specialize (Hp1 c).
        destruct (Nat.eq_dec x c) as [->|Hne].
        -- rewrite Hp1. split.
           ++ intros [HIn He]. split; [tauto|lia].
           ++ intros [_ He]. split; [|lia].
              apply occ_pos_In. generalize (occ_nonneg l c). lia.
        -- rewrite Hp1. split.
           ++ intros [HIn He]. split; [tauto|lia].
           ++ intros [[->|HIn] He]; [tauto|]. split; [assumption|lia].
Qed.

(** *** Unrelaxed parents *)
Section TS.
Variable g : graph.

Fixpoint total (ns : list nat) (D : list nat) (c : nat) : Z :=
  match ns with
  | [] => 0
  | n :: ns' => (if memb n D then 0 else occ (adj g n) c) + total ns' D c
  end.
Definition unrel (D : list nat) (c : nat) : Z := total (keys g) D c.

Lemma total_nonneg ns D c : 0 <= total ns D c.
Proof.
  induction ns as [|n ns IH]; cbn [total]; [lia|].
  generalize (occ_nonneg (adj g n) c). destruct (memb n D); lia.
Qed.

Lemma total_ge ns D c n : In n ns -> ~ In n D -> occ (adj g n) c <= total ns D c.
Proof.
  intros HIn HD. induction ns as [|m ns IH]; [destruct HIn|]. cbn [total].
  generalize (occ_nonneg (adj g m) c) (total_nonneg ns D c). intros Ho Ht.
  destruct HIn as [->|HIn].
  - apply memb_false in HD. rewrite HD. lia.
  - specialize (IH HIn). destruct (memb m D); lia.
Qed.

Lemma total_app_notin ns D n c : ~ In n ns -> total ns (D ++ [n]) c = total ns D c.
Proof.
  induction ns as [|m ns IH]; intros H; cbn [total]; [reflexivity|].
  rewrite IH by (simpl in H; tauto).
  replace (memb m (D ++ [n])) with (memb m D); [reflexivity|].
  destruct (memb m D) eqn:E; symmetry.
  - apply memb_In. apply in_or_app. left. now apply memb_In.
  - apply memb_false. apply memb_false in E. rewrite in_app_iff. simpl in *.
    intros [?|[?|[]]]; [tauto|]. subst. tauto.
Qed.

Lemma total_app ns D n c : NoDup ns -> In n ns -> ~ In n D ->
  total ns (D ++ [n]) c = total ns D c - occ (adj g n) c.
Proof.
  induction ns as [|m ns IH]; intros Hns HIn HD; [destruct HIn|].
  inversion Hns as [|? ? Hm Hns']; subst. cbn [total].
  destruct (Nat.eq_dec m n) as [->|Hne].
  - rewrite total_app_notin by assumption.
    replace (memb n (D ++ [n])) with true
      by (symmetry; apply memb_In; apply in_or_app; right; now left).
    apply memb_false in HD. rewrite HD. lia.
  - destruct HIn as [->|HIn]; [tauto|]. rewrite IH by assumption.
    replace (memb m (D ++ [n])) with (memb m D); [lia|].
    destruct (memb m D) eqn:E; symmetry.
    + apply memb_In. apply in_or_app. left. now apply memb_In.
    + apply memb_false. apply memb_false in E. rewrite in_app_iff. simpl.
      intros [?|[?|[]]]; [tauto|]. subst. tauto.
Qed.

Lemma adj_notin n : ~ In n (keys g) -> adj g n = [].
Proof.
  unfold keys. induction g as [|[k l] g' IH]; intros H; [reflexivity|].
  simpl in *. destruct (Nat.eqb_spec k n); [tauto|]. apply IH. tauto.
Qed.

Lemma adj_in_key n c : In c (adj g n) -> In n (keys g).
Proof.
  intros H. destruct (in_dec Nat.eq_dec n (keys g)) as [?|Hn]; [assumption|].
  rewrite (adj_notin _ Hn) in H. destruct H.
Qed.

Lemma total_pos ns D c : 0 < total ns D c ->
  exists n, In n ns /\ ~ In n D /\ In c (adj g n).
Proof.
  induction ns as [|m ns IH]; cbn [total]; [lia|]. intros H.
  destruct (memb m D) eqn:E.
  - destruct IH as (n & ? & ? & ?); [lia|]. exists n. simpl; tauto.
  - destruct (Z.eq_dec (occ (adj g m) c) 0) as [H0|H0].
    + destruct IH as (n & ? & ? & ?); [lia|]. exists n. simpl; tauto.
    + exists m. split; [now left|]. split; [now apply memb_false|].
      apply occ_pos_In. generalize (occ_nonneg (adj g m) c). lia.
Qed.

Lemma unrel_zero D c n : unrel D c = 0 -> In c (adj g n) -> In n D.
Proof.
  intros H HIn. destruct (in_dec Nat.eq_dec n D) as [?|Hn]; [assumption|].
  assert (Hk := adj_in_key _ _ HIn).
  assert (Hg : occ (adj g n) c <= total (keys g) D c) by now apply total_ge. unfold unrel in H.
  apply occ_pos_In in HIn. lia.
Qed.

(** *** counting *)
Lemma count_children l : forall p c,
  fold_left (fun p c => cset p c (p c + 1)) l p c = p c + occ l c.
Proof.
  induction l as [|x l IH]; intros p c; cbn [fold_left].
  - rewrite occ_nil. lia.
  - rewrite IH, occ_cons, cset_eq. destruct (Nat.eq_dec x c) as [->|]; lia.
Qed.

Lemma count_parents_fold (g' : graph) : forall p c,
  fold_left (fun p (e : nat * list nat) =>
     fold_left (fun p c => cset p c (p c + 1)) (snd e) p) g' p c
  = p c + fold_right (fun e s => occ (snd e) c + s) 0 g'.
Proof.
  induction g' as [|[k l] g' IH]; intros p c; cbn [fold_left fold_right snd].
  - lia.
  - rewrite IH, count_children. lia.
Qed.

Lemma total_nil_entries (g' : graph) c :
  (forall k l, In (k, l) g' -> adj g k = l) ->
  total (keys g') [] c = fold_right (fun e s => occ (snd e) c + s) 0 g'.
Proof.
  induction g' as [|[k l] g' IH]; intros H; cbn [keys map fst total fold_right snd].
  - reflexivity.
  - rewrite (H k l) by (now left). cbn. unfold keys in IH. rewrite IH.
    + reflexivity.
    + intros k' l' HIn. apply H. now right.
Qed.
End TS.

Lemma adj_entry g k l : NoDup (keys g) -> In (k, l) g -> adj g k = l.
Proof.
  induction g as [|[k' l'] g IH]; intros Hnd HIn; [destruct HIn|].
  cbn [keys map fst] in Hnd. inversion Hnd as [|? ? Hk Hnd']; subst.
  cbn [adj]. destruct HIn as [He|HIn].
  - inversion He; subst. now rewrite Nat.eqb_refl.
  - destruct (Nat.eqb_spec k' k) as [->|].
    + exfalso. apply Hk. change k with (fst (k, l)). now apply in_map.
    + now apply IH.
Qed.

Lemma count_parents_spec g c : NoDup (keys g) -> count_parents g c = unrel g [] c.
Proof.
  intros Hnd. unfold count_parents. rewrite count_parents_fold.
  unfold unrel. rewrite total_nil_entries; [lia|].
  intros k l. now apply adj_entry.
Qed.

(** *** Acyclicity *)
Definition edge (g : graph) (n c : nat) : Prop := In c (adj g n).
Definition acyclic (g : graph) : Prop := forall n, ~ clos_trans nat (edge g) n n.

(** a chain of predecessors inside [R] *)
Fixpoint chain (E : nat -> nat -> Prop) (l : list nat) : Prop :=
  match l with
  | x :: ((y :: _) as l') => E x y /\ chain E l'
  | _ => True
  end.

Lemma chain_reach E l : chain E l -> forall x l1 l2 y l3,
  l = l1 ++ x :: l2 ++ y :: l3 -> clos_trans nat E x y.
Proof.
  induction l as [|a l IH]; intros Hc x l1 l2 y l3 He.
  - destruct l1; discriminate.
  - destruct l1 as [|b l1]; cbn [app] in He; inversion He; subst.
    + clear He. revert x Hc IH. induction l2 as [|z l2 IH2]; intros x Hc IH; cbn [app] in *.
      * destruct Hc as [He _]. now apply t_step.
      * destruct Hc as [He Hc]. apply t_trans with z; [now apply t_step|].
        apply IH2; [assumption|].
        intros Hc' x' l1' l2' y' l3' Heq.
        apply (IH Hc x' (z :: l1') l2' y' l3'). cbn [app]. now rewrite Heq.
    + apply (IH ltac:(destruct l1; cbn [app] in Hc; destruct Hc; assumption) x l1 l2 y l3 eq_refl).
Qed.

Lemma not_NoDup_split (l : list nat) : ~ NoDup l -> exists x l1 l2 l3, l = l1 ++ x :: l2 ++ x :: l3.
Proof.
  induction l as [|a l IH]; intros H.
  - exfalso; apply H; constructor.
  - destruct (in_dec Nat.eq_dec a l) as [HIn|HIn].
    + apply in_split in HIn as (l2 & l3 & ->). exists a, [], l2, l3. reflexivity.
    + destruct IH as (x & l1 & l2 & l3 & ->).
      * intros Hn. apply H. now constructor.
      * exists x, (a :: l1), l2, l3. reflexivity.
Qed.

Lemma no_pred_closed g R :
  acyclic g -> R <> [] ->
  ~ (forall c, In c R -> exists n, In n R /\ edge g n c).
Proof.
  intros Hac HR Hpred.
  assert (Hch : forall k, exists l, length l = S k /\ incl l R /\ chain (edge g) l).
  { induction k as [|k (l & Hl & Hi & Hc)].
    - destruct R as [|r R]; [tauto|]. exists [r]. split; [reflexivity|]. split.
      + intros x [->|[]]. now left.
      + exact I.
    - destruct l as [|x l]; [discriminate|].
      destruct (Hpred x) as (n & Hn & He). { apply Hi. now left. }
      exists (n :: x :: l). split; [cbn in *; lia|]. split.
      + intros y [->|Hy]; [assumption|now apply Hi].
      + now split. }
  destruct (Hch (length R)) as (l & Hl & Hi & Hc).
  assert (Hnn : ~ NoDup l).
  { intros Hn. assert (Hlen := NoDup_incl_length Hn Hi). lia. }
  apply not_NoDup_split in Hnn as (x & l1 & l2 & l3 & He).
  apply (Hac x). eapply chain_reach; [exact Hc|exact He].
Qed.

(** *** Main invariant *)
Definition order_ok (g : graph) (out : list nat) : Prop :=
  forall l1 c l2, out = l1 ++ c :: l2 -> forall n, In c (adj g n) -> In n l1.

Section Main.
Variable g : graph.
Hypothesis Hnd : NoDup (keys g).
Hypothesis Hclosed : forall n c, In c (adj g n) -> In c (keys g).
Variable aff : nat -> bool.
Variable ord : list nat -> list nat -> list nat.
Hypothesis Hord : forall h b, Permutation (ord h b) b.

Definition Inv (p : counter) (D W : list nat) : Prop :=
  NoDup (D ++ W) /\ incl (D ++ W) (keys g) /\
  (forall c, p c = unrel g D c) /\
  (forall c, In c (keys g) -> (In c (D ++ W) <-> p c = 0)) /\
  order_ok g D.

Lemma Inv_perm p D W W' : Permutation W W' -> Inv p D W -> Inv p D W'.
Proof.
  intros HP (H1 & H2 & H3 & H4 & H5).
  assert (HP' : Permutation (D ++ W) (D ++ W')) by now apply Permutation_app_head.
  split; [exact (Permutation_NoDup HP' H1)|].
  split; [intros x Hx; apply H2; exact (Permutation_in _ (Permutation_sym HP') Hx)|].
  split; [assumption|]. split; [|assumption].
  intros c Hc. rewrite <- (H4 c Hc). split; intros H.
  - exact (Permutation_in _ (Permutation_sym HP') H).
  - exact (Permutation_in _ HP' H).
Qed.

Lemma order_ok_snoc D n : order_ok g D -> (forall m, In n (adj g m) -> In m D) ->
  order_ok g (D ++ [n]).
Proof.
  intros HD Hn l1 c l2 He m Hm.
  destruct (exists_last (l := c :: l2)) as (l' & z & Hz); [discriminate|].
  rewrite Hz, app_assoc in He. apply app_inj_tail in He as [He ->].
  destruct l2 as [|y l2].
  - destruct l' as [|? [|? ?]]; cbn [app] in Hz; try discriminate.
    inversion Hz; subst. rewrite ?app_nil_r in *. now apply Hn.
  - destruct l' as [|w l']; cbn [app] in Hz; [discriminate|].
    inversion Hz; subst. exact (HD l1 w l' eq_refl m Hm).
Qed.

Lemma Inv_relax p D W n p' W' :
  Inv p D (n :: W) -> relax (adj g n) p W = (p', W') -> Inv p' (D ++ [n]) W'.
Proof.
  intros (H1 & H2 & H3 & H4 & H5) Hr.
  assert (HnD : ~ In n D).
  { apply NoDup_remove_2 in H1. intros H; apply H1. apply in_or_app. now left. }
  assert (Hnk : In n (keys g)) by (apply H2; apply in_or_app; right; now left).
  assert (Hle : forall c, occ (adj g n) c <= p c).
  { intros c. rewrite H3. unfold unrel. now apply total_ge. }
  destruct (@relax_spec _ _ _ _ _ Hle Hr) as (Hp' & add & -> & Hnda & Hadd).
  assert (Hun : forall c, p' c = unrel g (D ++ [n]) c).
  { intros c. rewrite Hp', H3. unfold unrel. rewrite total_app by assumption. reflexivity. }
  assert (Hnew : forall c, In c add -> ~ In c (D ++ n :: W)).
  { intros c Hc. apply Hadd in Hc as [HIn He].
    rewrite (H4 c (Hclosed _ _ HIn)). apply occ_pos_In in HIn. lia. }
  unfold Inv. rewrite <- app_assoc. cbn [app].
  replace (D ++ n :: W ++ add) with ((D ++ n :: W) ++ add) by now rewrite <- app_assoc.
  split; [|split; [|split; [|split]]].
  - clear - H1 Hnda Hnew. revert H1 Hnew. generalize (D ++ n :: W) as l.
    induction l as [|x l IH]; intros H1 Hnew; cbn [app]; [assumption|].
    inversion H1; subst. constructor.
    + rewrite in_app_iff. intros [?|Hx]; [tauto|]. apply (Hnew x Hx). now left.
    + apply IH; [assumption|]. intros c Hc Hl. apply (Hnew c Hc). now right.
  - intros c. rewrite in_app_iff. intros [Hc|Hc]; [now apply H2|].
    apply Hadd in Hc as [HIn _]. exact (Hclosed _ _ HIn).
  - assumption.
  - intros c Hc. rewrite in_app_iff. rewrite (H4 c Hc), Hadd, Hp'.
    generalize (Hle c) (occ_nonneg (adj g n) c). intros Hl Ho. split.
    + intros [H0|[HIn He]]; lia.
    + intros He. destruct (in_dec Nat.eq_dec c (adj g n)) as [HIn|HIn].
      * right. split; [assumption|lia].
      * left. apply occ_zero in HIn. lia.
  - apply order_ok_snoc; [assumption|]. intros m Hm.
    apply (@unrel_zero g D n m); [|assumption].
    rewrite <- H3. apply H4; [assumption|]. apply in_or_app. right. now left.
Qed.

Lemma Inv_bound p D W : Inv p D W -> (length D + length W <= length g)%nat.
Proof.
  intros (H1 & H2 & _). assert (H := NoDup_incl_length H1 H2).
  rewrite app_length in H. unfold keys in H. rewrite map_length in H. lia.
Qed.

Lemma inner_spec fuel : forall p qu blk out,
  Inv p out (blk ++ qu) ->
  (length g - length out - length blk < fuel)%nat ->
  exists p1 blk1 out1, inner g aff fuel p qu blk out = Ok (p1, blk1, out1) /\
    Inv p1 out1 blk1 /\
    (length out + length blk + (if qu then 0 else 1) <= length out1 + length blk1)%nat.
Proof.
  induction fuel as [|fuel IH]; intros p qu blk out HI Hf; [lia|].
  destruct qu as [|n qu]; cbn [inner].
  - rewrite app_nil_r in HI. exists p, blk, out. split; [reflexivity|]. split; [assumption|lia].
  - assert (Hb := Inv_bound HI). rewrite app_length in Hb. cbn [length] in Hb.
    destruct (aff n).
    + assert (Hnb : ~ In n blk).
      { destruct HI as (H1 & _). rewrite app_assoc in H1. apply NoDup_remove_2 in H1.
        intros H. apply H1. rewrite !in_app_iff. tauto. }
      unfold set_add. apply memb_false in Hnb. rewrite Hnb.
      destruct (IH p qu (blk ++ [n]) out) as (p1 & blk1 & out1 & He & HI1 & Hlen).
      * now rewrite <- app_assoc.
      * rewrite app_length; cbn [length]; lia.
      * exists p1, blk1, out1. split; [assumption|]. split; [assumption|].
        rewrite app_length in Hlen; cbn [length] in Hlen. destruct qu; lia.
    + destruct (relax (adj g n) p qu) as [p' qu'] eqn:Hr.
      assert (HI' : Inv p' (out ++ [n]) (blk ++ qu')).
      { assert (Hr' : relax (adj g n) p (blk ++ qu) = (p', blk ++ qu')).
        { clear - Hr. revert p qu Hr. induction (adj g n) as [|x l IHl]; intros p qu Hr; cbn [relax] in *.
          - now inversion Hr.
          - destruct (cset p x (p x - 1) x =? 0).
            + rewrite <- app_assoc. now apply IHl.
            + now apply IHl. }
        apply (@Inv_relax p out (blk ++ qu) n); [|assumption].
        apply (Inv_perm (W := blk ++ n :: qu)); [|assumption].
        symmetry. apply Permutation_middle. }
      destruct (IH p' qu' blk (out ++ [n])) as (p1 & blk1 & out1 & He & HI1 & Hlen).
      * assumption.
      * rewrite app_length; cbn [length]; lia.
      * exists p1, blk1, out1. split; [assumption|]. split; [assumption|].
        rewrite app_length in Hlen; cbn [length] in Hlen. destruct qu'; lia.
Qed.

Lemma relax_all_spec ns : forall p D qu p' qu',
  Inv p D (ns ++ qu) -> relax_all g ns p qu = (p', qu') -> Inv p' (D ++ ns) qu'.
Proof.
  induction ns as [|n ns IH]; intros p D qu p' qu' HI Hr; cbn [relax_all] in Hr.
  - inversion Hr; subst. now rewrite app_nil_r.
  - destruct (relax (adj g n) p qu) as [p1 qu1] eqn:Hr1.
    replace (D ++ n :: ns) with ((D ++ [n]) ++ ns) by now rewrite <- app_assoc.
    apply (IH p1 (D ++ [n]) qu1); [|assumption].
    cbn [app] in HI.
    apply (Inv_relax (p := p) (W := ns ++ qu)); [assumption|].
    clear - Hr1. revert p qu Hr1. induction (adj g n) as [|x l IHl]; intros p qu Hr; cbn [relax] in *.
    + now inversion Hr.
    + destruct (cset p x (p x - 1) x =? 0).
      * rewrite <- app_assoc. now apply IHl.
      * now apply IHl.
Qed.

Hypothesis Hac : acyclic g.

Lemma Inv_done p D : Inv p D [] -> Permutation D (keys g).
Proof.
  intros (H1 & H2 & H3 & H4 & H5). rewrite app_nil_r in *.
  apply NoDup_Permutation; [assumption|assumption|].
  intros x. split; [apply H2|]. intros Hx.
  destruct (in_dec Nat.eq_dec x D) as [?|HxD]; [assumption|]. exfalso.
  set (R := filter (fun n => negb (memb n D)) (keys g)).
  assert (HR : forall n, In n R <-> In n (keys g) /\ ~ In n D).
  { intros n. unfold R. rewrite filter_In, negb_true_iff, memb_false. tauto. }
  apply (no_pred_closed (R := R) Hac).
  - intros He. assert (HxR : In x R) by (apply HR; tauto). rewrite He in HxR. destruct HxR.
  - intros c Hc. apply HR in Hc as [Hck HcD].
    assert (Hp : 0 < unrel g D c).
    { assert (Hne : p c <> 0) by (intros H0; apply HcD, H4; assumption).
      rewrite H3 in Hne. generalize (total_nonneg g (keys g) D c). unfold unrel in *. lia. }
    apply total_pos in Hp as (n & Hn & HnD & He). exists n. split; [apply HR; tauto|assumption].
Qed.

Lemma outer_spec fuel : forall p qu out,
  Inv p out qu -> (length g - length out < fuel)%nat ->
  exists r, outer g aff ord fuel p qu out = Ok r /\ Permutation r (keys g) /\ order_ok g r.
Proof.
  induction fuel as [|fuel IH]; intros p qu out HI Hf; [lia|].
  destruct qu as [|n qu]; cbn [outer].
  - exists out. split; [reflexivity|]. split; [exact (Inv_done HI)|apply HI].
  - destruct (@inner_spec (S (length g)) p (n :: qu) [] out) as (p1 & blk & out1 & He & HI1 & Hlen).
    + assumption.
    + cbn [length]; lia.
    + unfold bind. rewrite He.
      destruct (relax_all g (ord out1 blk) p1 []) as [p2 qu2] eqn:Hr.
      apply IH.
      * apply (@relax_all_spec (ord out1 blk) p1 out1 [] p2 qu2); [|assumption].
        rewrite app_nil_r. apply (Inv_perm (W := blk)); [symmetry; apply Hord|assumption].
      * rewrite app_length. rewrite (Permutation_length (Hord out1 blk)).
        assert (Hb := Inv_bound HI). cbn [length] in *. lia.
Qed.

Lemma Inv_init : Inv (count_parents g) [] (initial_queue g (count_parents g)).
Proof.
  unfold Inv, initial_queue. cbn [app].
  split; [now apply NoDup_filter|].
  split; [intros x; rewrite filter_In; tauto|].
  split; [intros c; now apply count_parents_spec|].
  split.
  - intros c Hc. rewrite filter_In, Z.eqb_eq. tauto.
  - intros l1 c l2 He. destruct l1; discriminate.
Qed.

Lemma top_sort_correct :
  exists r, top_sort g aff ord = Ok r /\ Permutation r (keys g) /\ order_ok g r.
Proof.
  unfold top_sort. apply outer_spec; [apply Inv_init|lia].
Qed.
End Main.
