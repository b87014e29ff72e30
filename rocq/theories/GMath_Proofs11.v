(** The values of the functions of goos. *)
From Coq Require Import Reals ZArith Lra Lia.
From Verif Require Import Base Shape_Model GMath_Model GMath_Spec GMathOp_Spec GMath_Proofs5.
Set Implicit Arguments.
Local Open Scope R_scope.

(** ** Slices *)
Definition pick (a : arr) (is_ : list nat) : arr := mkarr (cpx a) (map (entry a) is_).
Lemma slice_pick s a sl : slice_of s (size a) = Ok sl -> keval (KSlice s) [a] = Ok (pick a (selected (size a) sl)).
Proof. intros H. cbn [keval input nth_error bind]. rewrite H. reflexivity. Qed.
Lemma one_entry n i : (0 <= i < Z.of_nat n)%Z -> selected n (Range i (i + 1)) = [Z.to_nat i].
Proof.
  intros H. unfold selected, bound. destruct (Z.ltb_spec i 0); [lia|]. destruct (Z.ltb_spec (i + 1) 0); [lia|].
  replace (Nat.min (Z.to_nat i) n) with (Z.to_nat i) by lia.
  replace (Nat.min (Z.to_nat (i + 1)) n - Z.to_nat i)%nat with 1%nat by lia. reflexivity.
Qed.
Lemma slice_at a i : (0 <= i < Z.of_nat (size a))%Z ->
  keval (KSlice (SAt i)) [a] = Ok (mkarr (cpx a) [entry a (Z.to_nat i)]).
Proof. intros H. erewrite slice_pick by reflexivity. rewrite one_entry by exact H. reflexivity. Qed.
Lemma slice_from_end a i : (- Z.of_nat (size a) <= i < -1)%Z ->
  keval (KSlice (SAt i)) [a] = Ok (mkarr (cpx a) [entry a (Z.to_nat (Z.of_nat (size a) + i))]).
Proof.
  intros H. erewrite slice_pick by reflexivity. unfold selected, bound.
  destruct (Z.ltb_spec i 0); [|lia]. destruct (Z.ltb_spec (i + 1) 0); [|lia].
  replace (Z.to_nat (i + 1 + Z.of_nat (size a)) - Z.to_nat (i + Z.of_nat (size a)))%nat with 1%nat by lia.
  replace (i + Z.of_nat (size a))%Z with (Z.of_nat (size a) + i)%Z by lia. reflexivity.
Qed.
Lemma slice_last a : keval (KSlice (SAt (-1))) [a] = Ok (mkarr (cpx a) []).
Proof.
  erewrite slice_pick by reflexivity. unfold selected, bound. cbn [Z.ltb Z.compare Z.add Z.pos_sub Pos.compare].
  cbn. reflexivity.
Qed.
Lemma slice_outside a i : (Z.of_nat (size a) <= i \/ i < - Z.of_nat (size a))%Z ->
  keval (KSlice (SAt i)) [a] = Ok (mkarr (cpx a) []).
Proof.
  intros H. erewrite slice_pick by reflexivity. unfold selected, bound.
  destruct (Z.ltb_spec i 0); destruct (Z.ltb_spec (i + 1) 0);
    match goal with |- Ok (pick a (seq ?x ?y)) = _ => replace y with 0%nat by lia end; reflexivity.
Qed.
Lemma slice_middle a : size a <> 0%nat -> keval (KSlice SCenter) [a] = Ok (mkarr (cpx a) [entry a (Nat.div (size a) 2)]).
Proof.
  intros H. erewrite slice_pick by reflexivity. cbv zeta.
  assert (Hd := Nat.div_mod (size a) 2 ltac:(lia)). assert (Hm := Nat.mod_upper_bound (size a) 2 ltac:(lia)).
  rewrite one_entry by lia. rewrite Nat2Z.id. reflexivity.
Qed.
Lemma pick_seq a lo k : (lo + k <= size a)%nat -> map (entry a) (seq lo k) = firstn k (skipn lo (dat a)).
Proof.
  unfold size, entry. generalize (dat a). intros l. revert l lo. induction k as [|k IH]; intros l lo H; [reflexivity|].
  cbn [seq map]. rewrite IH by lia.
  assert (E : skipn lo l = nth lo l (creal 0) :: skipn (S lo) l).
  { clear IH. revert lo H. induction l as [|x l IHl]; intros lo H; [cbn in H; lia|]. destruct lo as [|lo]; [reflexivity|]. cbn [skipn nth]. rewrite IHl by (cbn in H; lia). reflexivity. }
  rewrite E. reflexivity.
Qed.
Lemma slice_part a lo hi : (lo <= hi <= size a)%nat ->
  keval (KSlice (SFromTo (Z.of_nat lo) (Z.of_nat hi))) [a] = Ok (mkarr (cpx a) (firstn (hi - lo) (skipn lo (dat a)))).
Proof.
  intros H. erewrite slice_pick by reflexivity. unfold selected, bound, pick.
  destruct (Z.ltb_spec (Z.of_nat lo) 0); [lia|]. destruct (Z.ltb_spec (Z.of_nat hi) 0); [lia|].
  rewrite !Nat2Z.id. replace (Nat.min lo (size a)) with lo by lia. replace (Nat.min hi (size a)) with hi by lia.
  rewrite pick_seq by lia. reflexivity.
Qed.
Lemma slice_whole a : keval (KSlice SNone) [a] = Ok a.
Proof.
  erewrite slice_pick by reflexivity. change 0%Z with (Z.of_nat 0). unfold selected, bound, pick.
  destruct (Z.ltb_spec (Z.of_nat 0) 0); [lia|]. destruct (Z.ltb_spec (Z.of_nat (size a)) 0); [lia|].
  rewrite !Nat2Z.id. rewrite Nat.min_id, Nat.sub_0_r. cbn [Nat.min]. rewrite pick_seq by lia.
  cbn [skipn]. unfold size. rewrite firstn_all. destruct a. reflexivity.
Qed.
Lemma slices_pf a :
  (forall i, (0 <= i < Z.of_nat (size a))%Z -> keval (KSlice (SAt i)) [a] = Ok (mkarr (cpx a) [entry a (Z.to_nat i)])) /\
  (forall i, (- Z.of_nat (size a) <= i < -1)%Z -> keval (KSlice (SAt i)) [a] = Ok (mkarr (cpx a) [entry a (Z.to_nat (Z.of_nat (size a) + i))])) /\
  (forall i, (Z.of_nat (size a) <= i \/ i < - Z.of_nat (size a))%Z -> keval (KSlice (SAt i)) [a] = Ok (mkarr (cpx a) [])) /\
  (size a <> 0%nat -> keval (KSlice SCenter) [a] = Ok (mkarr (cpx a) [entry a (Nat.div (size a) 2)])) /\
  (forall lo hi, (lo <= hi <= size a)%nat ->
    keval (KSlice (SFromTo (Z.of_nat lo) (Z.of_nat hi))) [a] = Ok (mkarr (cpx a) (firstn (hi - lo) (skipn lo (dat a))))) /\
  keval (KSlice SNone) [a] = Ok a /\ keval (KSlice SOther) [a] = Err ValueError.
Proof.
  split; [exact (@slice_at a)|]. split; [exact (@slice_from_end a)|]. split; [exact (@slice_outside a)|].
  split; [exact (@slice_middle a)|]. split; [exact (@slice_part a)|]. split; [exact (@slice_whole a)|reflexivity].
Qed.

(** ** Maxima *)
Lemma argmax_from_spec l : forall i best m,
  (argmax_from l i best m = best /\ (forall x, In x l -> x <= m)) \/
  (exists k, (k < length l)%nat /\ argmax_from l i best m = (i + k)%nat /\ m < nth k l 0 /\ forall x, In x l -> x <= nth k l 0).
Proof.
  induction l as [|y l IH]; intros i best m; cbn [argmax_from].
  - left. split; [reflexivity|]. intros x [].
  - destruct (Rlt_dec m y) as [Hy|Hy].
    + right. destruct (IH (S i) i y) as [(E & H)|(k & Hk & E & Hm & H)].
      * exists 0%nat. cbn. split; [lia|]. split; [rewrite E; lia|]. split; [exact Hy|]. intros x [<-|Hx]; [lra|exact (H x Hx)].
      * exists (S k). cbn. split; [lia|]. split; [rewrite E; lia|]. split; [lra|]. intros x [<-|Hx]; [lra|exact (H x Hx)].
    + destruct (IH (S i) best m) as [(E & H)|(k & Hk & E & Hm & H)].
      * left. split; [exact E|]. intros x [<-|Hx]; [lra|exact (H x Hx)].
      * right. exists (S k). cbn. split; [lia|]. split; [rewrite E; lia|]. split; [lra|]. intros x [<-|Hx]; [lra|exact (H x Hx)].
Qed.
Lemma maximum_spec l : l <> [] -> In (maximum l) l /\ forall x, In x l -> x <= maximum l.
Proof.
  destruct l as [|y l]; [congruence|]. intros _. unfold maximum, argmax.
  destruct (argmax_from_spec l 1 0 y) as [(E & H)|(k & Hk & E & Hm & H)]; rewrite E.
  - cbn [nth]. split; [left; reflexivity|]. intros x [<-|Hx]; [lra|exact (H x Hx)].
  - cbn [nth Nat.add]. split; [right; apply nth_In; exact Hk|]. intros x [<-|Hx]; [lra|exact (H x Hx)].
Qed.
Lemma max_pf ivs v : keval KMax ivs = Ok v ->
  cpx v = false /\ Forall (fun a => size a = size v) ivs /\ forall j, (j < size v)%nat ->
  snd (entry v j) = 0 /\ (exists a, In a ivs /\ fst (entry v j) = fst (entry a j)) /\
  forall a, In a ivs -> fst (entry a j) <= fst (entry v j).
Proof.
  cbn [keval]. intros H. destruct (stacked ivs) as [n|] eqn:E; cbn [bind] in H; [|discriminate]. inversion H; subst v. clear H.
  destruct ivs as [|a0 ivs]; [discriminate|]. unfold stacked in E.
  destruct (forallb _ (a0 :: ivs)) eqn:Ef; [|discriminate]. destruct (existsb cpx (a0 :: ivs)); [discriminate|]. inversion E; subst n. clear E.
  rewrite forallb_forall in Ef. set (ivs' := a0 :: ivs) in *. set (f := fun j0 => creal (maximum (column ivs' j0))).
  assert (En : size (mkarr false (map f (seq 0 (size a0)))) = size a0) by (unfold size at 1; cbn [dat]; rewrite map_length, seq_length; reflexivity).
  rewrite En. cbn [cpx]. split; [reflexivity|]. split; [apply Forall_forall; intros a Ha; apply Nat.eqb_eq; exact (Ef a Ha)|]. intros j Hj.
  assert (Ej : entry (mkarr false (map f (seq 0 (size a0)))) j = f j).
  { unfold entry. cbn [dat]. rewrite (nth_indep _ (creal 0) (f 0%nat)) by (rewrite map_length, seq_length; exact Hj). rewrite map_nth, seq_nth by exact Hj. reflexivity. }
  rewrite Ej. subst f. cbn [fst snd creal]. split; [reflexivity|].
  assert (Hne : column ivs' j <> []) by (unfold column, ivs'; cbn; discriminate).
  destruct (maximum_spec Hne) as (Hin & Hle). split.
  - unfold column in Hin. apply in_map_iff in Hin. destruct Hin as (a & Ea & Ha). exists a. split; [exact Ha|]. symmetry. exact Ea.
  - intros a Ha. apply Hle. unfold column. apply in_map_iff. exists a. split; [reflexivity|exact Ha].
Qed.
Lemma max_fails ivs : keval KMax ivs = Err ValueError <-> ivs = [] \/ exists a b, In a ivs /\ In b ivs /\ size a <> size b.
Proof.
  cbn [keval]. split.
  - destruct ivs as [|a ivs]; [left; reflexivity|]. intros H. right. unfold stacked in H.
    destruct (forallb _ _) eqn:Ef in H; [destruct (existsb _ _) in H; discriminate|].
    assert (exists b, In b (a :: ivs) /\ Nat.eqb (size b) (size a) = false) as (b & Hb & E).
    { clear H. revert Ef. generalize (a :: ivs). intros l. induction l as [|x l IH]; cbn; [discriminate|].
      destruct (Nat.eqb (size x) (size a)) eqn:Ex; cbn; [|intros _; exists x; auto].
      intros Hl. destruct (IH Hl) as (b & Hb & Eb). exists b. auto. }
    exists a, b. split; [left; reflexivity|]. split; [exact Hb|]. apply Nat.eqb_neq in E. congruence.
  - intros [->|(a & b & Ha & Hb & Hn)]; [reflexivity|]. destruct ivs as [|a0 ivs]; [destruct Ha|]. unfold stacked.
    destruct (forallb _ _) eqn:Ef; [|reflexivity]. exfalso. rewrite forallb_forall in Ef.
    pose proof (Ef a Ha) as H1. pose proof (Ef b Hb) as H2. apply Nat.eqb_eq in H1, H2. congruence.
Qed.

(** ** Norms, absolute values, dot products, the sigmoid function, conjugates *)
Lemma rsum_nonneg l : (forall x, In x l -> 0 <= x) -> 0 <= rsum l.
Proof.
  induction l as [|y l IH]; cbn; intros H; [lra|]. fold (rsum l). pose proof (H y (or_introl eq_refl)).
  assert (0 <= rsum l) by (apply IH; auto). lra.
Qed.
Lemma norm_pf p a v : (1 <= p)%nat -> keval (KNorm p) [a] = Ok v ->
  exists r, v = mkarr false [creal r] /\ 0 <= r /\ r ^ p = rsum (map (fun z => cabs z ^ p) (dat a)).
Proof.
  intros Hp. destruct p as [|p]; [lia|]. cbn [keval input nth_error bind]. intros E. inversion E; subst v. clear E.
  exists (np_norm (S p) (dat a)). split; [reflexivity|]. unfold np_norm.
  assert (Hs : 0 <= rsum (map (fun z => cabs z ^ S p) (dat a))).
  { apply rsum_nonneg. intros x Hx. apply in_map_iff in Hx. destruct Hx as (z & <- & _). apply pow_le. apply sqrt_pos. }
  destruct (Rle_lt_or_eq_dec _ _ Hs) as [Hlt|Heq].
  - split; [left; apply root_pos; exact Hlt|apply root_pow; exact Hlt].
  - rewrite <- Heq. unfold root. destruct (Rlt_dec 0 0); [lra|]. split; [lra|]. cbn [pow]. ring.
Qed.
Lemma abs_pf a v : keval KAbs [a] = Ok v -> cpx v = false /\ size v = size a /\ forall j, (j < size a)%nat ->
  snd (entry v j) = 0 /\ 0 <= fst (entry v j) /\ cmul (entry v j) (entry v j) = cmul (entry a j) (cconj (entry a j)).
Proof.
  cbn [keval input nth_error bind]. intros E. inversion E; subst v. clear E. cbn [cpx]. split; [reflexivity|].
  unfold size at 1. cbn [dat]. rewrite map_length. split; [reflexivity|]. intros j Hj.
  assert (Ej : entry (mkarr false (map (fun x => creal (cabs x)) (dat a))) j = creal (cabs (entry a j))).
  { unfold entry. cbn [dat]. rewrite (nth_indep _ (creal 0) (creal (cabs (creal 0)))) by (rewrite map_length; exact Hj).
    rewrite (map_nth (fun x => creal (cabs x))). reflexivity. }
  rewrite Ej. unfold creal, cmul, cconj, cabs. cbn [fst snd]. split; [reflexivity|]. split; [apply sqrt_pos|].
  rewrite sqrt_sqrt by nra. f_equal; ring.
Qed.
Lemma dot_pf a b v : size a = size b -> keval KDot [a; b] = Ok v ->
  v = mkarr (cpx a || cpx b) [csum (map (fun j => cmul (entry a j) (entry b j)) (seq 0 (size a)))].
Proof.
  intros Hs. cbn [keval input nth_error bind]. unfold bcast. unfold size in Hs. rewrite Hs, Nat.eqb_refl. cbn [bind].
  intros E. inversion E. do 3 f_equal. unfold entry, size. clear E H0. revert Hs. generalize (dat b) as lb, (dat a) as la. intros lb la.
  revert lb. induction la as [|x la IH]; intros [|y lb] Hs; try discriminate; [reflexivity|]. cbn [combine map length seq nth fst snd].
  f_equal. rewrite <- seq_shift, map_map. cbn [nth]. apply IH. cbn in Hs. lia.
Qed.
Lemma sigmoid_pf a v : keval KSig [a] = Ok v -> cpx a = false /\ cpx v = false /\ size v = size a /\ forall j, (j < size a)%nat ->
  snd (entry v j) = 0 /\ fst (entry v j) * (1 + exp (- fst (entry a j))) = 1.
Proof.
  cbn [keval input nth_error bind]. destruct (cpx a); [discriminate|]. intros E. inversion E; subst v. clear E. cbn [cpx].
  split; [reflexivity|]. split; [reflexivity|]. unfold size at 1. cbn [dat]. rewrite map_length. split; [reflexivity|]. intros j Hj.
  assert (Ej : entry (mkarr false (map (fun x => creal (sigmoid (fst x))) (dat a))) j = creal (sigmoid (fst (entry a j)))).
  { unfold entry. cbn [dat]. rewrite (nth_indep _ (creal 0) (creal (sigmoid (fst (creal 0))))) by (rewrite map_length; exact Hj).
    rewrite (map_nth (fun x => creal (sigmoid (fst x)))). reflexivity. }
  rewrite Ej. unfold creal, sigmoid. cbn [fst snd]. split; [reflexivity|]. pose proof (exp_pos (- fst (entry a j))). field. lra.
Qed.
Lemma conj_pf a v : keval KConj [a] = Ok v -> cpx v = cpx a /\ size v = size a /\ forall j, (j < size a)%nat ->
  fst (entry v j) = fst (entry a j) /\ snd (entry v j) = - snd (entry a j).
Proof.
  cbn [keval input nth_error bind]. intros E. inversion E; subst v. clear E. cbn [cpx]. split; [reflexivity|].
  unfold size at 1. cbn [dat]. rewrite map_length. split; [reflexivity|]. intros j Hj.
  assert (Ej : entry (mkarr (cpx a) (map cconj (dat a))) j = cconj (entry a j)).
  { unfold entry. cbn [dat]. rewrite (nth_indep _ (creal 0) (cconj (creal 0))) by (rewrite map_length; exact Hj).
    rewrite (map_nth cconj). reflexivity. }
  rewrite Ej. split; reflexivity.
Qed.
