(** Feature constraints, the discretization action, barcode gratings. *)
From Verif Require Import Base QTac Grid_Model Grid_Proofs Grating_Model Grating_Spec Grating_Proofs Grating_Proofs2.
From Coq Require Import ZArith Qround Setoid.
Set Implicit Arguments.

Lemma sumn_S0 n (g : nat -> Q) : sumn (S n) g == g 0%nat + sumn n (fun i => g (S i)).
Proof. induction n as [|n IHn]; [cbn; ring|]. change (sumn (S (S n)) g) with (sumn (S n) g + g (S n)). rewrite IHn. cbn [sumn]. ring. Qed.
Lemma dot_cons a b u v : dot (a :: u) (b :: v) == a * b + dot u v.
Proof. unfold dot. cbn [length]. rewrite sumn_S0. reflexivity. Qed.
Lemma dot_combine : forall a b, length a = length b -> qsum (map (fun p => fst p * snd p) (combine a b)) == dot a b.
Proof. induction a as [|x a IH]; intros [|y b] H; try discriminate; [reflexivity|]. cbn [combine map qsum fst snd]. rewrite dot_cons, IH by (now injection H). reflexivity. Qed.
Lemma row_dot f n v : dot (map f (seq 0 n)) v == sumn n (fun c => f c * qn v c).
Proof. unfold dot. rewrite map_length, seq_length. apply sumn_ext. intros i Hi. rewrite map_seq_nth by exact Hi. reflexivity. Qed.
Lemma sumn_at n k w : (k < n)%nat -> sumn n (fun c => if Nat.eqb c k then w else 0) == w.
Proof.
  intros H. pose proof (@sumn_single n k (fun c => if Nat.eqb c k then w else 0) H) as E. cbv beta in E. rewrite Nat.eqb_refl in E. apply E.
  intros i Hi Hne. destruct (Nat.eqb_spec i k); [congruence|reflexivity].
Qed.
Lemma sumn_pair n r a b (v : nat -> Q) : (S r < n)%nat -> sumn n (fun c => (if Nat.eqb c r then a else if Nat.eqb c (S r) then b else 0) * v c) == a * v r + b * v (S r).
Proof.
  intros H. rewrite (@sumn_ext n _ (fun c => (if Nat.eqb c r then a * v r else 0) + (if Nat.eqb c (S r) then b * v (S r) else 0))).
  - rewrite sumn_plus, !sumn_at by lia. reflexivity.
  - intros c Hc. destruct (Nat.eqb_spec c r) as [->|]; [destruct (Nat.eqb_spec r (S r)); [lia|ring]|]. destruct (Nat.eqb_spec c (S r)) as [->|]; ring.
Qed.
Lemma unit_dot n i a v : (i < n)%nat -> dot (unit_row n i a) v == a * qn v i.
Proof.
  intros H. unfold unit_row. rewrite row_dot. rewrite (@sumn_ext n _ (fun c => if Nat.eqb c i then a * qn v i else 0)) by (intros c Hc; destruct (Nat.eqb_spec c i) as [->|]; ring). now apply sumn_at.
Qed.
Definition diff_row (n r : nat) : list Q := map (fun c => if Nat.eqb c r then -1 else if Nat.eqb c (S r) then 1 else 0) (seq 0 n).
Lemma diff_row_dot n r v : (S r < n)%nat -> dot (diff_row n r) v == qn v (S r) - qn v r.
Proof. intros H. unfold diff_row. rewrite row_dot. rewrite sumn_pair by exact H. ring. Qed.
Lemma opp_dot a v : dot (map Qopp a) v == - dot a v.
Proof.
  unfold dot. rewrite map_length. transitivity (sumn (length a) (fun i => -1 * (qn a i * qn v i))); [|rewrite sumn_scale; ring]. apply sumn_ext. intros i Hi. unfold qn at 1.
  rewrite (nth_indep _ 0 (Qopp 0)) by (now rewrite map_length). rewrite map_nth. fold (qn a i). ring.
Qed.
Lemma scale_dot g a v : dot (map (Qmult g) a) v == g * dot a v.
Proof.
  unfold dot. rewrite map_length. rewrite <- sumn_scale. apply sumn_ext. intros i Hi. unfold qn at 1.
  rewrite (nth_indep _ 0 (Qmult g 0)) by (now rewrite map_length). rewrite map_nth. fold (qn a i). ring.
Qed.
Lemma qn_app1 a b i : (i < length a)%nat -> qn (a ++ b) i = qn a i.
Proof. intros H. unfold qn. now apply app_nth1. Qed.
Lemma qn_app2 a b i : (length a <= i)%nat -> qn (a ++ b) i = qn b (i - length a).
Proof. intros H. unfold qn. now apply app_nth2. Qed.

(** the constraint values *)
Definition cvals (scale mf : Q) (v : list Q) (len : Q) (i : nat) : Q :=
  if Nat.ltb (S i) (length v) then mf - (qn v (S i) - qn v i) else if Nat.eqb (S i) (length v) then scale * mf - qn v 0 else qn v (length v - 1) - (len - scale * mf).
Lemma build_spec scale mf v len : (2 <= length v)%nat -> exists c, build_constraints scale mf v len = Ok c /\ length c = S (length v) /\ forall i, (i < S (length v))%nat -> qn c i == cvals scale mf v len i.
Proof.
  intros H. unfold build_constraints. destruct (Nat.ltb_spec (length v) 2); [lia|]. eexists. split; [reflexivity|].
  assert (L : length (map (fun d => - (d - mf)) (matvec (diff_matrix (length v)) v)) = (length v - 1)%nat) by (unfold matvec, diff_matrix; now rewrite !map_length, seq_length).
  split; [rewrite app_length, L; cbn; lia|]. intros i Hi. unfold cvals. destruct (Nat.ltb_spec (S i) (length v)) as [G|G].
  - rewrite qn_app1 by lia. unfold matvec, diff_matrix. rewrite !map_map. rewrite map_seq_nth by lia. fold (diff_row (length v) i).
    rewrite dot_combine by (unfold diff_row; now rewrite map_length, seq_length). rewrite diff_row_dot by exact G. ring.
  - rewrite qn_app2 by lia. rewrite L. destruct (Nat.eqb_spec (S i) (length v)) as [E|E].
    + replace (i - (length v - 1))%nat with 0%nat by lia. change (qn [?a; ?b] 0) with a. ring.
    + replace (i - (length v - 1))%nat with 1%nat by lia. change (qn [?a; ?b] 1) with b. ring.
Qed.
Lemma Forall_qn (P : Q -> Prop) l : (forall i, (i < length l)%nat -> P (qn l i)) <-> Forall P l.
Proof.
  split.
  - induction l as [|a l IH]; intros H; constructor; [apply (H 0%nat); cbn; lia|]. apply IH. intros i Hi. apply (H (S i)). cbn. lia.
  - induction 1 as [|a l Ha F IH]; intros [|i] Hi; cbn in *; try lia; [exact Ha|]. apply IH. lia.
Qed.
Lemma cvals_separated scale mf v len : (2 <= length v)%nat -> (forall i, (i < S (length v))%nat -> cvals scale mf v len i <= 0) <-> separated mf (scale * mf) len v.
Proof.
  intros H. unfold cvals. split.
  - intros C. split; [|split].
    + intros i Hi. specialize (C i ltac:(lia)). destruct (Nat.ltb_spec (S i) (length v)); [lra|lia].
    + specialize (C (length v - 1)%nat ltac:(lia)). destruct (Nat.ltb_spec (S (length v - 1)) (length v)); [lia|]. destruct (Nat.eqb_spec (S (length v - 1)) (length v)); [lra|lia].
    + specialize (C (length v) ltac:(lia)). destruct (Nat.ltb_spec (S (length v)) (length v)); [lia|]. destruct (Nat.eqb_spec (S (length v)) (length v)); [lia|lra].
  - intros (S1 & S2 & S3) i Hi. destruct (Nat.ltb_spec (S i) (length v)) as [G|G]; [specialize (S1 i G); lra|]. destruct (Nat.eqb_spec (S i) (length v)); lra.
Qed.
Theorem constraints_meaning scale mf v len : 0 <= mf -> (2 <= length v)%nat ->
  exists c, feature_constraint scale mf v len = Ok c /\ length c = S (length v) /\ (Forall (fun a => a <= 0) c <-> separated mf (scale * mf) len v).
Proof.
  intros Hm H. unfold feature_constraint. replace (qlt mf 0) with false by (symmetry; now apply qlt_false). destruct (build_spec scale mf v len H) as (c & E & L & N).
  exists c. split; [exact E|]. split; [exact L|]. rewrite <- Forall_qn, L. rewrite <- cvals_separated by exact H. split; intros C i Hi; specialize (C i Hi); [rewrite <- N by exact Hi|rewrite N by exact Hi]; exact C.
Qed.
Theorem constraint_errors scale mf v len : (mf < 0 \/ (length v < 2)%nat) -> feature_constraint scale mf v len = Err ValueError.
Proof.
  intros H. unfold feature_constraint. destruct (qlt mf 0) eqn:E; [reflexivity|]. qhyps. destruct H as [H|H]; [lra|]. unfold build_constraints. destruct (Nat.ltb_spec (length v) 2); [reflexivity|lia].
Qed.
Lemma vsub_qn a b i : length a = length b -> (i < length a)%nat -> qn (vsub a b) i = qn a i - qn b i.
Proof.
  unfold vsub. revert b i. induction a as [|x a IH]; intros [|y b] [|i] E H; try discriminate; cbn in H; try lia; [reflexivity|]. injection E as E. apply (IH b i E). lia.
Qed.
Lemma vsub_length a b : length a = length b -> length (vsub a b) = length a.
Proof. intros H. unfold vsub. rewrite map_length, combine_length. lia. Qed.
Lemma grads_row n i v : (2 <= n)%nat -> (i < S n)%nat -> dot (nth i (build_grads n) []) v ==
  if Nat.ltb (S i) n then qn v i - qn v (S i) else if Nat.eqb (S i) n then - qn v 0 else qn v (n - 1).
Proof.
  intros H Hi. unfold build_grads. assert (L : length (map (map Qopp) (diff_matrix n)) = (n - 1)%nat) by (unfold diff_matrix; now rewrite !map_length, seq_length).
  destruct (Nat.ltb_spec (S i) n) as [G|G].
  - rewrite app_nth1 by lia. unfold diff_matrix. rewrite map_map. rewrite (nth_indep _ [] (map Qopp (diff_row n 0))) by (rewrite map_length, seq_length; lia).
    rewrite (map_nth (fun r => map Qopp (diff_row n r))), seq_nth by lia. cbn [Nat.add]. rewrite opp_dot, diff_row_dot by lia. ring.
  - rewrite app_nth2 by lia. rewrite L. destruct (Nat.eqb_spec (S i) n) as [E|E].
    + replace (i - (n - 1))%nat with 0%nat by lia. cbn [nth]. rewrite unit_dot by lia. ring.
    + replace (i - (n - 1))%nat with 1%nat by lia. cbn [nth]. rewrite unit_dot by lia. ring.
Qed.
Lemma grads_diff scale mf v v' len i : (2 <= length v)%nat -> length v' = length v -> (i < S (length v))%nat ->
  cvals scale mf v' len i - cvals scale mf v len i == dot (nth i (build_grads (length v)) []) (vsub v' v).
Proof.
  intros H L Hi. rewrite grads_row by assumption. unfold cvals. rewrite L. destruct (Nat.ltb_spec (S i) (length v)) as [G|G]; [rewrite !vsub_qn by lia; ring|].
  destruct (Nat.eqb_spec (S i) (length v)); rewrite vsub_qn by lia; ring.
Qed.
Theorem constraint_jacobian scale mf v v' len c c' : length v' = length v -> feature_constraint scale mf v len = Ok c -> feature_constraint scale mf v' len = Ok c' ->
  length (build_grads (length v)) = length c /\ forall i, (i < length c)%nat -> length (nth i (build_grads (length v)) []) = length v /\ qn c' i - qn c i == dot (nth i (build_grads (length v)) []) (vsub v' v).
Proof.
  intros L E E'. unfold feature_constraint in *. destruct (qlt mf 0); [discriminate|]. assert (H : (2 <= length v)%nat).
  { unfold build_constraints in E. destruct (Nat.ltb_spec (length v) 2); [discriminate|assumption]. }
  destruct (build_spec scale mf v len H) as (d & Ed & Ld & Nd). rewrite Ed in E. injection E as <-.
  destruct (build_spec scale mf v' len ltac:(lia)) as (d' & Ed' & Ld' & Nd'). rewrite Ed' in E'. injection E' as <-.
  assert (Lg : length (build_grads (length v)) = S (length v)) by (unfold build_grads, diff_matrix; rewrite app_length, !map_length, seq_length; cbn; lia).
  split; [lia|]. intros i Hi. rewrite Ld in Hi. split.
  - unfold build_grads. destruct (lt_dec i (length v - 1)) as [G|G].
    + rewrite app_nth1 by (unfold diff_matrix; rewrite !map_length, seq_length; lia). unfold diff_matrix. rewrite map_map.
      rewrite (nth_indep _ [] (map Qopp (diff_row (length v) 0))) by (rewrite map_length, seq_length; lia). rewrite (map_nth (fun r => map Qopp (diff_row (length v) r))). unfold diff_row. now rewrite !map_length, seq_length.
    + rewrite app_nth2 by (unfold diff_matrix; rewrite !map_length, seq_length; lia). unfold diff_matrix. rewrite !map_length, seq_length.
      assert (O : (i - (length v - 1) = 0 \/ i - (length v - 1) = 1)%nat) by lia. destruct O as [-> | ->]; cbn [nth]; unfold unit_row; now rewrite map_length, seq_length.
  - rewrite (Nd i Hi), (Nd' i) by lia. now apply grads_diff.
Qed.

(** composite gratings *)
Lemma mapM_map_ok {A B} (f : A -> res B) : forall l bs, mapM f l = Ok bs -> Forall2 (fun a b => f a = Ok b) l bs.
Proof.
  induction l as [|a l IH]; intros bs E; cbn [mapM] in E; [injection E as <-; constructor|]. destruct (f a) as [b|] eqn:Ea; [|discriminate]. cbn [bind] in E.
  destruct (mapM f l) as [bs'|] eqn:El; [|discriminate]. injection E as <-. constructor; [exact Ea|]. now apply IH.
Qed.
Theorem composite_meaning scale mf ps : 0 <= mf -> ps <> [] -> Forall (fun p => (2 <= length (fst p))%nat) ps ->
  exists c, composite_constraints scale mf ps = Ok c /\ (Forall (fun a => a <= 0) c <-> Forall (fun p => separated mf (scale * mf) (snd p) (fst p)) ps).
Proof.
  intros Hm Hne F. unfold composite_constraints. replace (qlt mf 0) with false by (symmetry; now apply qlt_false).
  assert (G : exists cs, mapM (fun p => build_constraints scale mf (fst p) (snd p)) ps = Ok cs /\ length cs = length ps /\ (Forall (fun a => a <= 0) (concat cs) <-> Forall (fun p => separated mf (scale * mf) (snd p) (fst p)) ps)).
  { clear Hne. induction F as [|p ps H F IH]; [exists []; split; [reflexivity|]; split; [reflexivity|]; split; constructor|]. destruct IH as (cs & E & Lc & I).
    destruct (@constraints_meaning scale mf (fst p) (snd p) Hm H) as (c & Ec & _ & M). unfold feature_constraint in Ec. replace (qlt mf 0) with false in Ec by (symmetry; now apply qlt_false).
    exists (c :: cs). cbn [mapM]. rewrite Ec. cbn [bind]. rewrite E. cbn [bind]. split; [reflexivity|]. split; [cbn; lia|]. cbn [concat]. rewrite Forall_app. rewrite M, I. split.
    - intros [A B]. now constructor.
    - intros A. inversion A. auto. }
  destruct G as (cs & E & Lc & I). rewrite E. cbn [bind]. destruct cs as [|c cs]; [destruct ps; [congruence|discriminate]|]. eexists. split; [reflexivity|exact I].
Qed.
Lemma dot_app a b u v : length a = length u -> dot (a ++ b) (u ++ v) == dot a u + dot b v.
Proof. revert u. induction a as [|x a IH]; intros [|y u] H; try discriminate; [cbn [app]; assert (Z : dot [] [] == 0) by reflexivity; rewrite Z; ring|]. cbn [app]. rewrite !dot_cons, IH by (now injection H). ring. Qed.
Lemma dot_zeros n v : dot (repeat 0 n) v == 0.
Proof. unfold dot. rewrite repeat_length. apply sumn_zero. intros i Hi. assert (E : qn (repeat 0 n) i = 0) by (unfold qn; clear; revert i; induction n as [|n IH]; intros [|i]; cbn; try reflexivity; apply IH). rewrite E. ring. Qed.
Lemma vsub_app a b u v : length a = length u -> vsub (a ++ b) (u ++ v) = vsub a u ++ vsub b v.
Proof. unfold vsub. intros H. revert u H. induction a as [|x a IH]; intros [|y u] H; try discriminate; [reflexivity|]. cbn. f_equal. apply IH. now injection H. Qed.
Lemma blocks_rows scale mf : forall (ps ps' : list (list Q)) (lens : list Q) cs cs' before total (pre : list Q), Forall2 (fun p p' => length p' = length p) ps ps' -> length lens = length ps ->
  mapM (fun p => build_constraints scale mf (fst p) (snd p)) (combine ps lens) = Ok cs -> mapM (fun p => build_constraints scale mf (fst p) (snd p)) (combine ps' lens) = Ok cs' ->
  length pre = before -> (before + length (concat ps) = total)%nat ->
  let G := block_diag before total (map (fun p => (length p, build_grads (length p))) ps) in
  length G = length (concat cs) /\ length (concat cs') = length (concat cs) /\
  forall i, (i < length (concat cs))%nat -> length (nth i G []) = total /\ qn (concat cs') i - qn (concat cs) i == dot (nth i G []) (pre ++ vsub (concat ps') (concat ps)).
Proof.
  intros ps ps' lens cs cs' before total pre F. revert lens cs cs' before pre. induction F as [|p p' ps ps' Hp F IH]; intros lens cs cs' before pre Ll E E' Hpre Ht G.
  { cbn in E, E'. injection E as <-. injection E' as <-. split; [reflexivity|]. split; [reflexivity|]. intros i Hi. cbn in Hi. lia. }
  destruct lens as [|len lens]; [discriminate|]. cbn [combine mapM fst snd] in E, E'.
  destruct (build_constraints scale mf p len) as [c|] eqn:Ec; [|discriminate]. destruct (build_constraints scale mf p' len) as [c'|] eqn:Ec'; [|discriminate]. cbn [bind] in E, E'.
  destruct (mapM _ (combine ps lens)) as [cs0|] eqn:Es; [|discriminate]. destruct (mapM _ (combine ps' lens)) as [cs0'|] eqn:Es'; [|discriminate]. injection E as <-. injection E' as <-.
  assert (H2 : (2 <= length p)%nat) by (unfold build_constraints in Ec; destruct (Nat.ltb_spec (length p) 2); [discriminate|assumption]).
  destruct (build_spec scale mf p len H2) as (d & Ed & Ld & Nd). rewrite Ed in Ec. injection Ec as <-.
  destruct (build_spec scale mf p' len ltac:(lia)) as (d' & Ed' & Ld' & Nd'). rewrite Ed' in Ec'. injection Ec' as <-.
  cbn [concat] in *. rewrite app_length in Ht. specialize (IH lens cs0 cs0' (before + length p)%nat (pre ++ vsub p' p) ltac:(now injection Ll) Es Es').
  assert (Lpre : length (pre ++ vsub p' p) = (before + length p)%nat) by (rewrite app_length, vsub_length by exact Hp; lia).
  specialize (IH Lpre ltac:(lia)). cbv zeta in IH. destruct IH as (I1 & I2 & I3).
  set (tl0 := block_diag (before + length p) total (map (fun p => (length p, build_grads (length p))) ps)) in *.
  assert (Lg : length (build_grads (length p)) = S (length p)) by (unfold build_grads, diff_matrix; rewrite app_length, !map_length, seq_length; cbn; lia).
  set (pad := fun row : list Q => repeat 0 before ++ row ++ repeat 0 (total - before - length p)).
  change G with (map pad (build_grads (length p)) ++ tl0). clear G.
  split; [rewrite !app_length, map_length; lia|]. split; [rewrite !app_length; lia|]. intros i Hi. rewrite app_length in Hi.
  rewrite vsub_app by exact Hp. rewrite app_assoc. destruct (lt_dec i (length d)) as [Hd|Hd].
  - rewrite app_nth1 by (rewrite map_length; lia). rewrite (nth_indep _ [] (pad [])) by (rewrite map_length; lia). rewrite (map_nth pad). rewrite !qn_app1 by lia.
    assert (Lr : length (nth i (build_grads (length p)) []) = length p).
    { unfold build_grads. destruct (lt_dec i (length p - 1)) as [Gi|Gi].
      + rewrite app_nth1 by (unfold diff_matrix; rewrite !map_length, seq_length; lia). unfold diff_matrix. rewrite map_map.
        rewrite (nth_indep _ [] (map Qopp (diff_row (length p) 0))) by (rewrite map_length, seq_length; lia). rewrite (map_nth (fun r => map Qopp (diff_row (length p) r))). unfold diff_row. now rewrite !map_length, seq_length.
      + rewrite app_nth2 by (unfold diff_matrix; rewrite !map_length, seq_length; lia). unfold diff_matrix. rewrite !map_length, seq_length.
        assert (O : (i - (length p - 1) = 0 \/ i - (length p - 1) = 1)%nat) by lia. destruct O as [-> | ->]; cbn [nth]; unfold unit_row; now rewrite map_length, seq_length. }
    split; [unfold pad; rewrite !app_length, !repeat_length, Lr; lia|]. rewrite (Nd i) by lia. rewrite (Nd' i) by lia. rewrite grads_diff by lia.
    unfold pad. rewrite <- app_assoc. rewrite dot_app by (rewrite repeat_length; lia). rewrite dot_app by (rewrite Lr, vsub_length by exact Hp; lia). rewrite !dot_zeros. ring.
  - rewrite app_nth2 by (rewrite map_length; lia). rewrite map_length, Lg. rewrite !qn_app2 by lia. replace (i - length d')%nat with (i - length d)%nat by lia. replace (i - S (length p))%nat with (i - length d)%nat by lia.
    apply I3. lia.
Qed.
Theorem composite_jacobian scale mf (ps ps' : list (list Q)) lens c c' : Forall2 (fun p p' => length p' = length p) ps ps' -> length lens = length ps ->
  composite_constraints scale mf (combine ps lens) = Ok c -> composite_constraints scale mf (combine ps' lens) = Ok c' ->
  length (composite_grads ps) = length c /\ forall i, (i < length c)%nat -> length (nth i (composite_grads ps) []) = length (concat ps) /\
    qn c' i - qn c i == dot (nth i (composite_grads ps) []) (vsub (concat ps') (concat ps)).
Proof.
  intros F Ll E E'. unfold composite_constraints in *. destruct (qlt mf 0); [discriminate|].
  destruct (mapM _ (combine ps lens)) as [cs|] eqn:Es; [|discriminate]. destruct (mapM _ (combine ps' lens)) as [cs'|] eqn:Es'; [|discriminate]. cbn [bind] in *.
  assert (T : fold_right Nat.add 0%nat (map (@length Q) ps) = length (concat ps)) by (clear; induction ps as [|p ps IH]; [reflexivity|]; cbn; rewrite app_length; lia).
  destruct (@blocks_rows scale mf ps ps' lens cs cs' 0%nat (length (concat ps)) [] F Ll Es Es' eq_refl eq_refl) as (I1 & I2 & I3). unfold composite_grads. rewrite T.
  destruct cs as [|c0 cs]; [discriminate|]. destruct cs' as [|c0' cs']; [discriminate|]. injection E as <-. injection E' as <-. split; [exact I1|exact I3].
Qed.

(** EdgeLocConstraint *)
Theorem edge_loc_meaning mf len v : v <> [] -> exists c, edge_loc_eval mf len v = Ok c /\ length c = S (length v) /\
  (Forall (fun a => a <= 0) c <-> (forall i, (S i < length v)%nat -> mf i <= qn v (S i) - qn v i) /\ 0 <= qn v 0 /\ qn v (length v - 1) <= len).
Proof.
  intros H. unfold edge_loc_eval. destruct v as [|a v0] eqn:Ev; [congruence|]. rewrite <- Ev in *. clear Ev a v0. assert (Hl : (1 <= length v)%nat) by (destruct v; [congruence|cbn; lia]). eexists. split; [reflexivity|].
  split; [rewrite app_length, map_length, seq_length; cbn; lia|]. rewrite Forall_app. rewrite <- Forall_qn. rewrite map_length, seq_length. split.
  - intros [A B]. inversion B as [|x l B1 B2]. subst. inversion B2 as [|x l B3 B4]. subst. split; [|split; lra]. intros i Hi. specialize (A i ltac:(lia)). rewrite map_seq_nth in A by lia. lra.
  - intros (A & B & C). split; [intros i Hi; rewrite map_seq_nth by exact Hi; specialize (A i ltac:(lia)); lra|]. repeat constructor; lra.
Qed.
(** all rows but the one of the first edge are right; that one has the wrong sign *)
Theorem edge_loc_jacobian mf len g v v' c c' : (2 <= length v)%nat -> length v' = length v -> edge_loc_eval mf len v = Ok c -> edge_loc_eval mf len v' = Ok c' ->
  forall i, (i < length c)%nat -> (if Nat.eqb i (length v - 1) then -(1) else 1) * (g * (qn c' i - qn c i)) == dot (nth i (edge_loc_grad g (length v)) []) (vsub v' v).
Proof.
  intros H L E E' i Hi. unfold edge_loc_eval in *. destruct v as [|a v0] eqn:Ev; [discriminate|]. rewrite <- Ev in *. clear Ev a v0. destruct v' as [|a v0] eqn:Ev; [cbn in L; lia|]. rewrite <- Ev in *. clear Ev a v0.
  injection E as <-. injection E' as <-. rewrite app_length, map_length, seq_length in Hi. cbn [length] in Hi. unfold edge_loc_grad. set (M := map (map Qopp) (diff_matrix (length v)) ++ _).
  assert (Lm : length M = S (length v)) by (unfold M, diff_matrix; rewrite app_length, !map_length, seq_length; cbn; lia).
  rewrite (nth_indep _ [] (map (Qmult g) [])) by (rewrite map_length; lia). rewrite (map_nth (map (Qmult g))), scale_dot. rewrite L.
  assert (L1 : forall u, length (map (fun i => mf i - (qn u (S i) - qn u i)) (seq 0 (length v - 1))) = (length v - 1)%nat) by (intros; now rewrite map_length, seq_length).
  destruct (lt_dec i (length v - 1)) as [G|G].
  - destruct (Nat.eqb_spec i (length v - 1)); [lia|]. rewrite !qn_app1 by (rewrite L1; lia). rewrite !map_seq_nth by exact G. unfold M. rewrite app_nth1 by (unfold diff_matrix; rewrite !map_length, seq_length; lia).
    unfold diff_matrix. rewrite map_map. rewrite (nth_indep _ [] (map Qopp (diff_row (length v) 0))) by (rewrite map_length, seq_length; lia).
    rewrite (map_nth (fun r => map Qopp (diff_row (length v) r))), seq_nth by lia. cbn [Nat.add]. rewrite opp_dot, diff_row_dot by lia. rewrite !vsub_qn by lia. ring.
  - rewrite !qn_app2 by (rewrite L1; lia). rewrite !L1. unfold M. rewrite app_nth2 by (unfold diff_matrix; rewrite !map_length, seq_length; lia). unfold diff_matrix. rewrite !map_length, seq_length.
    destruct (Nat.eqb_spec i (length v - 1)) as [Ei|Ei].
    + replace (i - (length v - 1))%nat with 0%nat by lia. change (qn [?a; ?b] 0) with a. cbn [nth]. rewrite unit_dot by lia. rewrite vsub_qn by lia. ring.
    + replace (i - (length v - 1))%nat with 1%nat by lia. change (qn [?a; ?b] 1) with b. cbn [nth]. rewrite unit_dot by lia. rewrite vsub_qn by lia. ring.
Qed.

(** *** GratingL2D *)
Lemma ceil_le q z : (Qceiling q <= z)%Z <-> q <= inject_Z z.
Proof.
  split; intros H.
  - eapply Qle_trans; [apply Qle_ceiling|]. now rewrite <- Zle_Qle.
  - rewrite <- (Qceiling_Z z). now apply Qceiling_resp_le.
Qed.
Lemma floor_ge q z : (z <= Qfloor q)%Z <-> inject_Z z <= q.
Proof.
  split; intros H.
  - eapply Qle_trans; [|apply Qfloor_le]. now rewrite <- Zle_Qle.
  - rewrite <- (Qfloor_Z z). now apply Qfloor_resp_le.
Qed.
Lemma diffs_cumsum : forall l a b, a == b -> Forall2 Qeq (cumsum_from a (diffs b l)) l.
Proof. induction l as [|c l IH]; intros a b H; [constructor|]. cbn [diffs cumsum_from]. constructor; [lra|]. apply IH. lra. Qed.
Lemma diffs_qn : forall l a i, (S i < length l)%nat -> qn (diffs a l) (S i) = qn l (S i) - qn l i.
Proof.
  induction l as [|c l IH]; intros a i H; [cbn in H; lia|]. destruct l as [|e l]; [cbn in H; lia|]. destruct i as [|i]; [reflexivity|].
  change (qn (diffs a (c :: e :: l)) (S (S i))) with (qn (diffs c (e :: l)) (S i)). rewrite (IH c i) by (cbn in *; lia). reflexivity.
Qed.
Section L.
Variables (target depths minf maxf : list Q) (pixel : Q) (start stop D : nat).
Hypothesis Hpix : 0 < pixel.
Hypothesis HD : (1 <= D)%nat.
Hypothesis Hmf : Forall (fun f => pixel <= f) minf.
Hypothesis Hstart : (start < length depths)%nat.
Hypothesis Hstop : (stop < length depths)%nat.
Hypothesis Hn : (1 <= length target)%nat.
Hypothesis Hl1 : (length depths <= length minf)%nat.
Hypothesis Hl2 : (length depths <= length maxf)%nat.
Notation m := (length depths).
Notation last := (max_k target D).
Let dmin := grid_min D (map (fun f => f / pixel) minf).
Let dmax := grid_max D (map (fun f => f / pixel) maxf).
Lemma dQ : 0 < inject_Z (Z.of_nat D).
Proof using HD. clear Hl1 Hl2 Hn Hstart Hstop. change 0 with (inject_Z 0). rewrite <- Zlt_Qlt. lia. Qed.
Lemma zn_min l : (l < length minf)%nat -> zn dmin l = Qceiling (qn minf l / pixel * inject_Z (Z.of_nat D)).
Proof.
  intros H. unfold zn, dmin, grid_min. rewrite map_map. rewrite (nth_indep _ 0%Z ((fun f => Qceiling (f / pixel * inject_Z (Z.of_nat D))) 0)) by (now rewrite map_length).
  now rewrite (map_nth (fun f => Qceiling (f / pixel * inject_Z (Z.of_nat D)))).
Qed.
Lemma zn_max l : (l < length maxf)%nat -> zn dmax l = Qfloor (qn maxf l / pixel * inject_Z (Z.of_nat D)).
Proof.
  intros H. unfold zn, dmax, grid_max. rewrite map_map. rewrite (nth_indep _ 0%Z ((fun f => Qfloor (f / pixel * inject_Z (Z.of_nat D))) 0)) by (now rewrite map_length).
  now rewrite (map_nth (fun f => Qfloor (f / pixel * inject_Z (Z.of_nat D)))).
Qed.
Lemma scale_le a b : a / pixel * inject_Z (Z.of_nat D) <= b <-> a <= b / inject_Z (Z.of_nat D) * pixel.
Proof.
  pose proof dQ. assert (P : 0 < inject_Z (Z.of_nat D) * / pixel) by (apply Qmult_lt_0_compat; [assumption|now apply Qinv_lt_0_compat]).
  assert (E1 : a / pixel * inject_Z (Z.of_nat D) == a * (inject_Z (Z.of_nat D) * / pixel)) by (field; lra).
  assert (E2 : b == b / inject_Z (Z.of_nat D) * pixel * (inject_Z (Z.of_nat D) * / pixel)) by (field; lra).
  rewrite E1. rewrite E2 at 1. split; intros H1; [|nra]. eapply Qmult_le_r; [exact P|exact H1].
Qed.
Lemma scale_ge a b : b <= a / pixel * inject_Z (Z.of_nat D) <-> b / inject_Z (Z.of_nat D) * pixel <= a.
Proof.
  pose proof dQ. assert (P : 0 < inject_Z (Z.of_nat D) * / pixel) by (apply Qmult_lt_0_compat; [assumption|now apply Qinv_lt_0_compat]).
  assert (E1 : a / pixel * inject_Z (Z.of_nat D) == a * (inject_Z (Z.of_nat D) * / pixel)) by (field; lra).
  assert (E2 : b == b / inject_Z (Z.of_nat D) * pixel * (inject_Z (Z.of_nat D) * / pixel)) by (field; lra).
  rewrite E1. rewrite E2 at 1. split; intros H1; [|nra]. eapply Qmult_le_r; [exact P|exact H1].
Qed.
Lemma size_eq k k' : (inject_Z (Z.of_nat k' - Z.of_nat k)) / inject_Z (Z.of_nat D) * pixel == size D pixel k k'.
Proof. unfold size, Z.sub. rewrite inject_Z_plus, inject_Z_opp. reflexivity. Qed.
Lemma min_iff l k k' : (l < m)%nat -> (zn dmin l <= Z.of_nat k' - Z.of_nat k)%Z <-> qn minf l <= size D pixel k k'.
Proof. intros H. rewrite zn_min by lia. rewrite ceil_le, scale_le, size_eq. reflexivity. Qed.
Lemma max_iff l k k' : (l < m)%nat -> (Z.of_nat k' - Z.of_nat k <= zn dmax l)%Z <-> size D pixel k k' <= qn maxf l.
Proof. intros H. rewrite zn_max by lia. rewrite floor_ge, scale_ge, size_eq. reflexivity. Qed.
Lemma gaps_iff : forall es k cur, (cur < m)%nat -> gaps m last dmin dmax k cur es <-> size_gaps m last D pixel minf maxf k cur es.
Proof.
  induction es as [|[k' l] es IH]; intros k cur Hc; [reflexivity|]. cbn [gaps size_gaps]. rewrite (min_iff k k' Hc), (max_iff k k' Hc). split.
  - intros (A & B & C & E & F). split; [exact A|]. split; [exact B|]. split; [exact C|]. split; [exact E|]. now apply IH.
  - intros (A & B & C & E & F). split; [exact A|]. split; [exact B|]. split; [exact C|]. split; [exact E|]. now apply IH.
Qed.
Lemma feasible_iff es : feasible m last dmin dmax start stop es <-> realizable m last D pixel minf maxf start stop es.
Proof.
  unfold feasible, realizable.
  assert (Z0 : forall k, (Z.of_nat k <= zn dmax start)%Z <-> size D pixel 0 k <= qn maxf start) by (intros k; rewrite <- (max_iff 0 k Hstart); change (Z.of_nat 0) with 0%Z; rewrite Z.sub_0_r; reflexivity).
  split; intros [A (pre & k & E & C)].
  - split; [|exists pre, k; split; [exact E|now apply (max_iff k last Hstop)]]. destruct es as [|[k0 l] es]; [exact A|]. destruct A as (A1 & A2 & A3 & A4 & A5).
    split; [exact A1|]. split; [now apply Z0|]. split; [exact A3|]. split; [exact A4|]. now apply gaps_iff.
  - split; [|exists pre, k; split; [exact E|now apply (max_iff k last Hstop)]]. destruct es as [|[k0 l] es]; [exact A|]. destruct A as (A1 & A2 & A3 & A4 & A5).
    split; [exact A1|]. split; [now apply Z0|]. split; [exact A3|]. split; [exact A4|]. now apply gaps_iff.
Qed.
Lemma Hmin : forall l, (l < m)%nat -> (Z.of_nat D <= zn dmin l)%Z.
Proof.
  intros l H. rewrite zn_min by lia. apply Z.le_trans with (Qceiling (inject_Z (Z.of_nat D))); [rewrite Qceiling_Z; lia|]. apply Qceiling_resp_le.
  pose proof (proj2 (@Forall_qn _ _) Hmf l ltac:(lia)) as Hf. cbv beta in Hf. rewrite scale_ge. pose proof dQ. setoid_replace (inject_Z (Z.of_nat D) / inject_Z (Z.of_nat D) * pixel) with pixel by (field; lra). exact Hf.
Qed.
Notation edge_positions := (positions_of D pixel).
Notation l2d_of := (l2d_of D pixel minf maxf).
Theorem l2d_optimal : exists es,
  (forall use_edges, l2d_run target depths minf maxf pixel start stop D use_edges = Ok (l2d_of use_edges es)) /\
  ((realizable m last D pixel minf maxf start stop es /\ error target depths D start es < big /\
    forall es', realizable m last D pixel minf maxf start stop es' -> error target depths D start es <= error target depths D start es') \/
   (es = [(0%nat, stop)] /\ forall es', realizable m last D pixel minf maxf start stop es' -> big <= error target depths D start es')).
Proof.
  assert (Lz1 : (m <= length dmin)%nat) by (unfold dmin, grid_min; rewrite !map_length; lia). assert (Lz2 : (m <= length dmax)%nat) by (unfold dmax, grid_max; rewrite !map_length; lia).
  assert (Ev : existsb (fun f => qlt f pixel) minf = false).
  { apply Bool.not_true_is_false. rewrite existsb_exists. intros (f & Hi & Hf). rewrite Forall_forall in Hmf. specialize (Hmf _ Hi). apply qlt_true in Hf. lra. }
  assert (R : forall es, dp_run target depths D dmin dmax start stop = Ok (in_pixels D es) -> forall use_edges, l2d_run target depths minf maxf pixel start stop D use_edges = Ok (l2d_of use_edges es)).
  { intros es E use_edges. unfold l2d_run. rewrite Ev. unfold edge_loc_dp. fold dmin dmax. rewrite E. cbn [bind]. unfold in_pixels. rewrite !map_map. cbn [fst snd]. unfold Grating_Spec.l2d_of, positions_of, stored_bounds. destruct use_edges; reflexivity. }
  destruct (@dp_optimal target depths D dmin dmax start stop HD Hmin Hstart Hstop Hn Lz1 Lz2) as [(es & E & F & Eb & O)|(E & O)].
  - exists es. split; [exact (R es E)|]. left. split; [now apply feasible_iff|]. split; [exact Eb|]. intros es' F'. apply O. now apply feasible_iff.
  - exists [(0%nat, stop)]. split; [exact (R _ E)|]. right. split; [reflexivity|]. intros es' F'. apply O. now apply feasible_iff.
Qed.
(** the widths *)
Lemma pos_size k k' : inject_Z (Z.of_nat k') / inject_Z (Z.of_nat D) * pixel - inject_Z (Z.of_nat k) / inject_Z (Z.of_nat D) * pixel == size D pixel k k'.
Proof using Hpix HD. clear Hl1 Hl2 Hn Hstart Hstop Hmf. unfold size. pose proof dQ. field. lra. Qed.
Lemma gaps_widths : forall es k cur i, size_gaps m last D pixel minf maxf k cur es -> (i < length es)%nat ->
  qn minf (nth i (cur :: map snd es) 0%nat) <= qn (edge_positions ((k, cur) :: es)) (S i) - qn (edge_positions ((k, cur) :: es)) i <= qn maxf (nth i (cur :: map snd es) 0%nat).
Proof using Hpix HD. clear Hl1 Hl2 Hn Hstart Hstop Hmf.
  induction es as [|[k' l] es IH]; intros k cur i H Hi; [cbn in Hi; lia|]. destruct H as (_ & _ & _ & Hz & H). destruct i as [|i].
  - change (qn (edge_positions ((k, cur) :: (k', l) :: es)) 1) with (inject_Z (Z.of_nat k') / inject_Z (Z.of_nat D) * pixel). change (qn (edge_positions ((k, cur) :: (k', l) :: es)) 0) with (inject_Z (Z.of_nat k) / inject_Z (Z.of_nat D) * pixel).
    cbn [nth]. rewrite pos_size. exact Hz.
  - specialize (IH k' l i H ltac:(cbn in Hi; lia)). exact IH.
Qed.
Theorem realizable_widths es : realizable m last D pixel minf maxf start stop es ->
  let w := diffs 0 (edge_positions es) in
  length w = length es /\ 0 <= qn w 0 <= qn maxf start /\
  forall i, (S i < length es)%nat -> qn minf (nth i (map snd es) 0%nat) <= qn w (S i) <= qn maxf (nth i (map snd es) 0%nat).
Proof using Hpix HD. clear Hl1 Hl2 Hn Hstart Hstop Hmf.
  intros [A _] w. assert (Ld : forall l a, length (diffs a l) = length l) by (induction l as [|c l IH]; intros a; [reflexivity|]; cbn; now rewrite IH).
  split; [unfold w; rewrite Ld; unfold positions_of; now rewrite map_length|]. destruct es as [|[k l] es]; [destruct A|]. destruct A as (A1 & A2 & A3 & A4 & A5). split.
  - change (qn w 0) with (inject_Z (Z.of_nat k) / inject_Z (Z.of_nat D) * pixel - 0).
    assert (E : inject_Z (Z.of_nat k) / inject_Z (Z.of_nat D) * pixel - 0 == size D pixel 0 k) by (unfold size; cbn [Z.of_nat]; change (inject_Z 0) with 0; pose proof dQ; field; lra).
    rewrite E. split; [|exact A2]. rewrite <- E. pose proof dQ as P. assert (0 <= inject_Z (Z.of_nat k)) by (change 0 with (inject_Z 0); rewrite <- Zle_Qle; lia).
    assert (0 <= inject_Z (Z.of_nat k) / inject_Z (Z.of_nat D)) by (apply Qle_shift_div_l; [exact P|lra]). nra.
  - intros i Hi. unfold w. rewrite diffs_qn by (unfold positions_of; rewrite map_length; exact Hi). pose proof (@gaps_widths es k l i A5 ltac:(cbn in Hi; lia)) as G. exact G.
Qed.
End L.

Theorem l2d_small_features target depths minf maxf pixel start stop D use_edges :
  (exists f, In f minf /\ f < pixel) -> l2d_run target depths minf maxf pixel start stop D use_edges = Err ValueError.
Proof.
  intros (f & Hi & Hf). unfold l2d_run. replace (existsb (fun f => qlt f pixel) minf) with true; [reflexivity|]. symmetry. apply existsb_exists. exists f. split; [exact Hi|]. now apply qlt_true.
Qed.

(** *** BarcodeGrating *)
Lemma nth_removelast : forall (u : list Q) i, (i < length (removelast u))%nat -> nth i (removelast u) 0 = qn u i.
Proof.
  induction u as [|a u IH]; intros i H; [cbn in H; lia|]. destruct u as [|b u]; [cbn in H; lia|]. destruct i as [|i]; [reflexivity|]. change (nth i (removelast (b :: u)) 0 = qn (b :: u) i). apply IH.
  change (removelast (a :: b :: u)) with (a :: removelast (b :: u)) in H. cbn [length] in H. lia.
Qed.
Theorem barcode_tiles pos ext locs heights bars : barcode pos ext locs heights = Ok bars ->
  length bars = (if Nat.eqb (length heights) 1 then length locs - 1 else Nat.min (length locs - 1) (length heights))%nat /\
  forall i, (i < length bars)%nat -> match nth i bars (0, 0, 0) with (c, w, h) =>
    c - w / 2 == pos - ext / 2 + qn locs i * ext /\ c + w / 2 == pos - ext / 2 + qn locs (S i) * ext /\ h = (if Nat.eqb (length heights) 1 then qn heights 0 else qn heights i) end.
Proof.
  intros E. unfold barcode in E. injection E as <-.
  set (edges := map (fun l => l * ext) locs). set (hs := match heights with [h] => repeat h (length edges) | _ => heights end).
  assert (Lr : length (removelast edges) = (length locs - 1)%nat).
  { unfold edges. rewrite <- (map_length (fun l => l * ext) locs) at 1. clear. generalize (map (fun l => l * ext) locs) as u. induction u as [|a u IH]; [reflexivity|]. destruct u as [|b u]; [reflexivity|]. cbn [removelast length] in *. lia. }
  assert (Lt : length (tl edges) = (length locs - 1)%nat) by (unfold edges; destruct locs; [reflexivity|]; cbn; rewrite map_length; lia).
  assert (Lh : Nat.min (length locs - 1) (length hs) = (if Nat.eqb (length heights) 1 then length locs - 1 else Nat.min (length locs - 1) (length heights))%nat).
  { unfold hs. destruct heights as [|h [|h' hh]]; [reflexivity| |reflexivity]. cbn [length Nat.eqb]. rewrite repeat_length. unfold edges. rewrite map_length. lia. }
  split; [rewrite map_length, !combine_length, Lr, Lt; lia|]. intros i Hi. rewrite map_length, !combine_length, Lr, Lt in Hi.
  set (F := fun p : Q * Q * Q => match p with (l, r, h) => (pos - ext / 2 + (l + r) / 2, r - l, h) end).
  rewrite (nth_indep _ (0, 0, 0) (F (0, 0, 0))) by (rewrite map_length, !combine_length; lia). rewrite (map_nth F).
  assert (Cn : nth i (combine (combine (removelast edges) (tl edges)) hs) (0, 0, 0) = (qn edges i, qn edges (S i), qn hs i)).
  { assert (CN : forall (A B : Type) (u : list A) (v : list B) da db j, (j < length u)%nat -> (j < length v)%nat -> nth j (combine u v) (da, db) = (nth j u da, nth j v db)).
    { intros A B. induction u as [|a u IH]; intros [|b v] da db [|j] H1 H2; cbn in *; try lia; [reflexivity|]. apply IH; lia. }
    rewrite CN by (rewrite ?combine_length; lia). rewrite CN by lia. f_equal. f_equal.
    - apply nth_removelast. lia.
    - unfold qn. destruct edges; [destruct i; reflexivity|reflexivity]. }
  rewrite Cn. cbn [F].
  assert (Eq : forall j, (j < length locs)%nat -> qn edges j = qn locs j * ext).
  { intros j Hj. unfold edges, qn. rewrite (nth_indep _ 0 ((fun l => l * ext) 0)) by (now rewrite map_length). now rewrite (map_nth (fun l => l * ext)). }
  rewrite !Eq by lia. split; [field|]. split; [field|]. unfold hs in *. destruct heights as [|h [|h' hh]]; [reflexivity| |reflexivity]. cbn [length Nat.eqb]. change (qn [h] 0) with h.
  unfold qn. rewrite (nth_indep _ 0 h) by (rewrite repeat_length; unfold edges; rewrite map_length; lia). apply nth_repeat.
Qed.
