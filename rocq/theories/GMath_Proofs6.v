(** Sums and products with broadcasting. *)
From Coq Require Import Reals ZArith Relations Lra Psatz Ring.
From Verif Require Obj_Model.
From Verif Require Import Obj_Spec Obj_Proofs.
From Verif Require Import Base GraphExec_Spec Shape_Model GMath_Model GMath_Spec GMath_Proofs GMath_Proofs2 GMath_Proofs3 GMath_Proofs4.
Set Implicit Arguments.
Local Open Scope R_scope.

Definition bget (l : list C) (j : nat) : C := match l with [x] => x | _ => nth j l c0 end.
Definition fits (m : nat) (l : list C) : Prop := length l = 1%nat \/ length l = m.
Lemma bget_nth l j : (j < length l)%nat -> bget l j = nth j l c0.
Proof. destruct l as [|x [|y l]]; cbn; intros H; try reflexivity. assert (j = 0)%nat as -> by lia. reflexivity. Qed.

Lemma bcast_ok f a b m : fits m a -> fits m b ->
  exists r, bcast f a b = Ok r /\ fits m r /\ (length a = m \/ length b = m -> length r = m) /\
    forall j, (j < m)%nat -> bget r j = f (bget a j) (bget b j).
Proof.
  intros Ha Hb. destruct (Nat.eq_dec (length a) (length b)) as [E|E].
  - rewrite bcast_eq by exact E. eexists. split; [reflexivity|].
    assert (HL : length (map (fun xy => f (fst xy) (snd xy)) (combine a b)) = length a) by (rewrite map_length, combine_length; lia).
    split; [unfold fits in *; rewrite HL; exact Ha|]. split; [rewrite HL; lia|].
    intros j Hj. destruct a as [|x [|x' a]], b as [|y [|y' b]]; cbn in E, HL; try lia; try reflexivity.
    + destruct Ha as [Ha|Ha]; cbn in Ha; lia.
    + destruct Ha as [Ha|Ha]; cbn in Ha; [lia|]. rewrite !bget_nth by (rewrite ?HL; cbn; lia).
      rewrite (combine_nth_map _ _ _ c0 c0) by (cbn; lia). rewrite (nth_map _ _ 0%nat) by (rewrite seq_length; cbn; lia). rewrite seq_nth by (cbn; lia). reflexivity.
  - unfold bcast. apply Nat.eqb_neq in E. rewrite E. apply Nat.eqb_neq in E.
    destruct a as [|x [|x' a]].
    + destruct Ha as [Ha|Ha]; cbn in Ha; [lia|]. subst m. destruct b as [|y [|y' b]].
      * cbn in E; lia.
      * exists []. cbn. split; [reflexivity|]. split; [now right|]. split; [reflexivity|]. intros j Hj. lia.
      * destruct Hb as [Hb|Hb]; cbn in Hb; lia.
    + assert (Hm : length b = m) by (destruct Hb as [Hb|Hb]; [cbn in E; lia|exact Hb]).
      exists (map (f x) b). split; [reflexivity|]. unfold fits. rewrite map_length. split; [now right|]. split; [auto|].
      intros j Hj. rewrite (bget_nth (map (f x) b)) by (rewrite map_length; lia). rewrite (bget_nth b) by lia. rewrite (nth_map _ _ c0) by lia. reflexivity.
    + assert (Hm : length (x :: x' :: a) = m) by (destruct Ha as [Ha|Ha]; [cbn in Ha; lia|exact Ha]).
      destruct Hb as [Hb|Hb]; [|lia]. destruct (one_entry b Hb) as (y & ->).
      exists (map (fun z => f z y) (x :: x' :: a)). split; [reflexivity|]. unfold fits. rewrite map_length. split; [now right|]. split; [auto|].
      intros j Hj. rewrite (bget_nth (map _ _)) by (rewrite map_length; lia). rewrite (bget_nth (x :: x' :: a)) by lia. rewrite (nth_map _ _ c0) by lia. reflexivity.
Qed.
Lemma bcast_inv f a b r : bcast f a b = Ok r -> length a <> 0%nat -> length b <> 0%nat ->
  fits (length r) a /\ fits (length r) b /\ length r <> 0%nat /\ (length a = length r \/ length b = length r).
Proof.
  intros H Ha Hb. unfold bcast, fits in *. destruct (Nat.eqb_spec (length a) (length b)) as [E|E].
  - injection H as <-. rewrite map_length, combine_length. lia.
  - destruct a as [|x [|x' a]]; [now cbn in Ha| |].
    + injection H as <-. rewrite map_length. cbn in *. lia.
    + destruct b as [|y [|y' b]]; try discriminate. injection H as <-. cbn in *. rewrite map_length. lia.
Qed.

Section Reduce.
Variable f : C -> C -> C.
Variable unit : C.
Hypothesis f_assoc : forall x y z, f x (f y z) = f (f x y) z.
Hypothesis f_unit : forall x, f unit x = x.
Hypothesis f_unit_r : forall x, f x unit = x.
Definition total (l : list (list C)) (j : nat) : C := fold_right f unit (map (fun a => bget a j) l).

Lemma reduce_ok m l : forall a, fits m a -> Forall (fits m) l ->
  exists r, reduce f a l = Ok r /\ fits m r /\ (length a = m \/ Exists (fun b => length b = m) l -> length r = m) /\
    forall j, (j < m)%nat -> bget r j = f (bget a j) (total l j).
Proof.
  induction l as [|b l IH]; intros a Ha Hl; cbn [reduce].
  - exists a. split; [reflexivity|]. split; [exact Ha|]. split; [intros [H|H]; [exact H|inversion H]|]. intros j _. unfold total. cbn. now rewrite f_unit_r.
  - inversion Hl as [|? ? Hb Hl']; subst. destruct (bcast_ok f Ha Hb) as (c & Ec & Hc & HcL & Hcj). rewrite Ec. cbn [bind].
    destruct (IH c Hc Hl') as (r & Er & Hr & HrL & Hrj). exists r. split; [exact Er|]. split; [exact Hr|]. split.
    + intros [H|H]; [apply HrL; left; auto|]. inversion H; subst; apply HrL; auto.
    + intros j Hj. rewrite Hrj, Hcj by exact Hj. unfold total. cbn. now rewrite f_assoc.
Qed.
Lemma np_reduce_ok m l : Forall (fits m) l ->
  exists r, np_reduce f unit l = Ok r /\ fits m r /\ (Exists (fun b => length b = m) l -> length r = m) /\
    forall j, (j < m)%nat -> bget r j = total l j.
Proof.
  intros Hl. destruct l as [|a l]; cbn [np_reduce].
  - exists [unit]. split; [reflexivity|]. split; [now left|]. split; [intros H; inversion H|]. reflexivity.
  - inversion Hl; subst. destruct (@reduce_ok m l a) as (r & Er & Hr & HrL & Hrj); auto. exists r. split; [exact Er|]. split; [exact Hr|]. split.
    + intros H. inversion H; subst; auto.
    + intros j Hj. rewrite Hrj by exact Hj. reflexivity.
Qed.
Lemma reduce_inv l : forall a r, reduce f a l = Ok r -> length a <> 0%nat -> Forall (fun b => length b <> 0%nat) l ->
  fits (length r) a /\ Forall (fits (length r)) l /\ (length a = length r \/ Exists (fun b => length b = length r) l).
Proof.
  induction l as [|b l IH]; intros a r; cbn [reduce]; intros H Ha Hl.
  - injection H as <-. split; [now right|]. split; [constructor|now left].
  - inversion Hl as [|? ? Hb Hl']; subst. destruct (bcast f a b) as [c|] eqn:Ec; [|discriminate]. cbn [bind] in H.
    destruct (bcast_inv f a b Ec Ha Hb) as (F1 & F2 & Hc & Hor). destruct (IH c r H Hc Hl') as (G1 & G2 & G3).
    assert (Ht : forall x, fits (length c) x -> fits (length r) x) by (unfold fits in *; intros x [Hx|Hx]; lia).
    split; [now apply Ht|]. split; [constructor; auto|]. destruct G3 as [G3|G3]; [|auto].
    destruct Hor as [Hor|Hor]; [left; lia|right; left; lia].
Qed.
Lemma np_reduce_inv l r : l <> [] -> np_reduce f unit l = Ok r -> Forall (fun b => length b <> 0%nat) l ->
  Forall (fits (length r)) l /\ Exists (fun b => length b = length r) l.
Proof.
  intros Hn H Hl. destruct l as [|a l]; [contradiction|]. cbn in H. inversion Hl; subst. destruct (@reduce_inv l a r H) as (F1 & F2 & F3); auto.
  split; [now constructor|]. destruct F3; [now left|now right].
Qed.
End Reduce.

(** ** A curve at a position, broadcast *)
Lemma bget_where l n : length l = n -> forall j, bget l j = nth (if Nat.eqb n 1 then 0 else j) l c0.
Proof. intros <- j. destruct l as [|x [|y l]]; reflexivity. Qed.
Lemma where_lt n m j : (n = 1 \/ n = m)%nat -> (j < m)%nat -> ((if Nat.eqb n 1 then 0 else j) < n)%nat.
Proof. intros H Hj. destruct (Nat.eqb_spec n 1); lia. Qed.
Lemma cd_bget u t0 a d m j : moves u t0 a d -> fits m (dat a) -> (j < m)%nat -> cderive (fun t => bget (dat (u t)) j) t0 (bget d j).
Proof.
  intros Hm Hf Hj. rewrite (bget_where d (moves_length Hm)). pose proof (where_lt Hf Hj) as Hw. fold (size a) in Hw.
  eapply cd_near; [|exact (moves_entry Hm Hw)]. eapply near_impl; [|exact (moves_near Hm)]. cbv beta. intros t (_ & E & _).
  rewrite (bget_where (dat (u t)) E). reflexivity.
Qed.
Lemma bget_real l j : real_entries l -> snd (bget l j) = 0.
Proof. intros H. rewrite (bget_where l eq_refl). exact (proj1 (real_nth l) H _). Qed.

Lemma dominant_sizes l : forall l', map size l = map size l' -> dominant l = dominant l'.
Proof.
  intros l' H. destruct l as [|a l], l' as [|a' l']; try discriminate; [reflexivity|]. unfold dominant.
  assert (Ha : size a = size a') by (cbn in H; congruence).
  assert (Hn : forall i, size (nth i (a :: l) a) = size (nth i (a' :: l') a')).
  { intros i. rewrite <- (map_nth size (a :: l) a i), <- (map_nth size (a' :: l') a' i). now rewrite H, Ha. }
  assert (HL : length (a :: l) = length (a' :: l')) by (rewrite <- (map_length size (a :: l)), H, map_length; reflexivity).
  assert (E1 : forallb (fun b => Nat.eqb (size b) (size a)) (a :: l) = forallb (fun b => Nat.eqb (size b) (size a')) (a' :: l')).
  { rewrite Ha. generalize (size a') as n. revert H. generalize (a :: l) as x, (a' :: l') as y. clear. induction x as [|b x IH]; intros [|b' y] H n; try discriminate; [reflexivity|].
    cbn in *. injection H as E1 E2. rewrite E1. now rewrite (IH y E2 n). }
  rewrite E1, HL.
  replace (filter (fun i => Nat.ltb 1 (size (nth i (a :: l) a))) (seq 0 (length (a' :: l')))) with (filter (fun i => Nat.ltb 1 (size (nth i (a' :: l') a'))) (seq 0 (length (a' :: l')))); [reflexivity|].
  apply filter_ext. intros i. now rewrite Hn.
Qed.
Lemma existsb_cpx l : existsb cpx l = existsb (fun b => b) (map cpx l).
Proof. induction l; cbn; congruence. Qed.

(** all curves at once *)
Lemma curves_near t0 fx ivs us ds : curves t0 fx ivs us ds ->
  near t0 (fun t => map cpx (map (fun u => u t) us) = map cpx ivs /\ map size (map (fun u => u t) us) = map size ivs /\ Forall proper (map (fun u => u t) us)).
Proof.
  intros Hc. induction Hc as [|f a u d fx ivs us ds Hm Hf Hc IH]; [apply near_all; cbn; auto|].
  eapply near_impl; [|exact (near_and (moves_near Hm) IH)]. cbv beta. intros t ((E1 & E2 & Hp) & (F1 & F2 & F3)). cbn. rewrite E1, E2, F1, F2. auto.
Qed.
Lemma curves_at t0 fx ivs us ds : curves t0 fx ivs us ds -> map (fun u => u t0) us = ivs.
Proof. induction 1 as [|f a u d fx ivs us ds Hm Hf Hc IH]; [reflexivity|]. cbn. now rewrite IH, (moves_at Hm). Qed.
Lemma curves_length t0 fx ivs us ds : curves t0 fx ivs us ds -> length fx = length ivs /\ length us = length ivs /\ length ds = length ivs.
Proof. induction 1; cbn; lia. Qed.
Lemma curves_proper t0 fx ivs us ds : curves t0 fx ivs us ds -> Forall proper ivs.
Proof. induction 1 as [|f a u d fx ivs us ds Hm Hf Hc IH]; constructor; auto. exact (moves_proper Hm). Qed.

(** derivatives of sums and products of many *)
Fixpoint pder (xs ds : list C) : C :=
  match xs, ds with
  | x :: xs', d :: ds' => cadd (cmul d (fold_right cmul c1 xs')) (cmul x (pder xs' ds'))
  | _, _ => c0
  end.
Definition at_j (j : nat) (l : list (list C)) : list C := map (fun a => bget a j) l.
Lemma cd_sum_all t0 fx ivs us ds m j : curves t0 fx ivs us ds -> Forall (fun a => fits m (dat a)) ivs -> (j < m)%nat ->
  cderive (fun t => fold_right cadd c0 (at_j j (map dat (map (fun u => u t) us)))) t0 (fold_right cadd c0 (at_j j ds)).
Proof.
  induction 1 as [|f a u d fx ivs us ds Hm Hf Hc IH]; intros Hfit Hj; cbn; [apply cd_const|]. inversion Hfit; subst. apply cd_add; [eapply cd_bget; eassumption|auto].
Qed.
Lemma cd_prod_all t0 fx ivs us ds m j : curves t0 fx ivs us ds -> Forall (fun a => fits m (dat a)) ivs -> (j < m)%nat ->
  cderive (fun t => fold_right cmul c1 (at_j j (map dat (map (fun u => u t) us)))) t0 (pder (at_j j (map dat ivs)) (at_j j ds)).
Proof.
  induction 1 as [|f a u d fx ivs us ds Hm Hf Hc IH]; intros Hfit Hj; cbn; [apply cd_const|]. inversion Hfit; subst.
  eapply cd_eq; [|apply cd_mul; [eapply cd_bget; eassumption|auto]]. cbv beta. rewrite (moves_at Hm), (curves_at Hc). reflexivity.
Qed.
Lemma real_sum l : real_entries l -> snd (fold_right cadd c0 l) = 0.
Proof. exact (csum_real (l := l)). Qed.
Lemma real_prod l : real_entries l -> snd (fold_right cmul c1 l) = 0.
Proof. induction 1 as [|x l Hx Hl IH]; cbn; [reflexivity|]. rewrite Hx, IH. ring. Qed.
Lemma real_pder xs : forall ds, real_entries xs -> real_entries ds -> snd (pder xs ds) = 0.
Proof.
  induction xs as [|x xs IH]; intros [|d ds] Hx Hd; cbn; try reflexivity. inversion Hx; inversion Hd; subst. rewrite (real_prod (l := xs)) by assumption. rewrite IH by assumption.
  repeat match goal with H : snd _ = 0 |- _ => rewrite H end. ring.
Qed.
Lemma real_at_j j l : Forall real_entries l -> real_entries (at_j j l).
Proof. induction 1; cbn; constructor; [now apply bget_real|assumption]. Qed.

(** The common shape of Sum and Product: the values of a reduction move. *)
Section ReduceMoves.
Variable f : C -> C -> C.
Variable unit : C.
Hypothesis f_assoc : forall x y z, f x (f y z) = f (f x y) z.
Hypothesis f_unit : forall x, f unit x = x.
Hypothesis f_unit_r : forall x, f x unit = x.
Hypothesis f_real : forall l, real_entries l -> snd (fold_right f unit l) = 0.
Variable der : nat -> C.
Variables (t0 : R) (fx : list bool) (ivs : list arr) (us : list (R -> arr)) (ds : list (list C)) (r : list C).
Hypothesis Hc : curves t0 fx ivs us ds.
Hypothesis Hne : ivs <> [].
Hypothesis Hsz : Forall (fun a => size a <> 0%nat) ivs.
Hypothesis Hr : np_reduce f unit (map dat ivs) = Ok r.
Hypothesis Hder : forall j, (j < length r)%nat ->
  cderive (fun t => fold_right f unit (at_j j (map dat (map (fun u => u t) us)))) t0 (der j) /\ (existsb cpx ivs = false -> snd (der j) = 0).

Lemma reduce_fits : Forall (fun a => fits (length r) (dat a)) ivs /\ Exists (fun a => size a = length r) ivs.
Proof using Hne Hsz Hr.
  assert (Hn : map dat ivs <> []) by (intros E; apply map_eq_nil in E; contradiction).
  destruct (@np_reduce_inv f unit (map dat ivs) r) as (H1 & H2); [exact Hn|exact Hr| |].
  - apply Forall_map. exact Hsz.
  - split; [exact (proj1 (Forall_map _ _ _) H1)|exact (proj1 (Exists_map _ _ _) H2)].
Qed.
Lemma reduce_moves : exists w, near t0 (fun t => np_reduce f unit (map dat (map (fun u => u t) us)) = Ok (dat (w t)) /\ cpx (w t) = existsb cpx (map (fun u => u t) us)) /\
  moves w t0 (mkarr (existsb cpx ivs) r) (map der (seq 0 (length r))).
Proof.
  set (m := length r). destruct reduce_fits as (Hfit & Hex). fold m in Hfit, Hex.
  set (w := fun t => mkarr (existsb cpx (map (fun u => u t) us)) (map (fun j => fold_right f unit (at_j j (map dat (map (fun u => u t) us)))) (seq 0 m))).
  assert (Hnear : near t0 (fun t => np_reduce f unit (map dat (map (fun u => u t) us)) = Ok (dat (w t)) /\ existsb cpx (map (fun u => u t) us) = existsb cpx ivs /\ Forall proper (map (fun u => u t) us))).
  { eapply near_impl; [|exact (curves_near Hc)]. cbv beta. intros t (E1 & E2 & Hp). split; [|split; [now rewrite !existsb_cpx, E1|exact Hp]].
    set (vs := map (fun u => u t) us) in *.
    assert (Hl : map (fun a => length a) (map dat vs) = map (fun a => length a) (map dat ivs)).
    { rewrite !map_map. exact E2. }
    assert (Hf2 : Forall (fits m) (map dat vs)).
    { apply Forall_map. assert (HF : Forall (fun n => n = 1 \/ n = m)%nat (map size ivs)) by (apply Forall_map; exact Hfit). rewrite <- E2 in HF. apply (proj1 (Forall_map _ _ _)) in HF. exact HF. }
    assert (Hex2 : Exists (fun b => length b = m) (map dat vs)).
    { apply Exists_map. assert (HF : Exists (fun n => n = m) (map size ivs)) by (apply Exists_map; exact Hex). rewrite <- E2 in HF. apply (proj1 (Exists_map _ _ _)) in HF. exact HF. }
    destruct (np_reduce_ok f unit f_assoc f_unit_r Hf2) as (r' & Er & _ & HrL & Hrj). rewrite Er. f_equal. specialize (HrL Hex2).
    apply (nth_ext _ _ c0 c0); [unfold w; cbn; now rewrite map_length, seq_length|]. intros j Hj. rewrite <- bget_nth by exact Hj. rewrite HrL in Hj. rewrite Hrj by exact Hj.
    unfold w. cbn [dat]. rewrite (nth_map _ _ 0%nat) by (rewrite seq_length; exact Hj). rewrite seq_nth by exact Hj. reflexivity. }
  assert (Hw0 : w t0 = mkarr (existsb cpx ivs) r).
  { destruct (near_at Hnear) as (E & E2 & _). rewrite (curves_at Hc) in *. rewrite Hr in E. injection E as E. unfold w in *. cbn [dat] in E. rewrite (curves_at Hc) in *. now rewrite <- E. }
  exists w. split; [|constructor].
  - eapply near_impl; [|exact Hnear]. cbv beta. intros t (E1 & E2 & _). split; [exact E1|reflexivity].
  - exact Hw0.
  - eapply near_impl; [|exact Hnear]. cbv beta. intros t (_ & E2 & Hp). cbn. split; [exact E2|]. split; [unfold w, size; cbn; now rewrite map_length, seq_length|].
    intros Ec. cbn in Ec. unfold w. cbn. apply Forall_forall. intros z Hz. apply in_map_iff in Hz. destruct Hz as (j & <- & _). apply f_real. apply real_at_j.
    apply Forall_map. apply Forall_forall. intros a Ha. apply (proj1 (Forall_forall _ _) Hp a Ha). destruct (cpx a) eqn:Ea; [|reflexivity].
    assert (existsb cpx (map (fun u => u t) us) = true) by (apply existsb_exists; eauto). congruence.
  - unfold size. cbn. now rewrite map_length, seq_length.
  - cbn. intros Ec. apply Forall_forall. intros z Hz. apply in_map_iff in Hz. destruct Hz as (j & <- & Hj). apply in_seq in Hj. apply Hder; [lia|exact Ec].
  - intros j Hj. unfold size in Hj. cbn in Hj. fold m in Hj. rewrite (nth_map _ _ 0%nat) by (rewrite seq_length; exact Hj). rewrite seq_nth by exact Hj.
    eapply cd_ext; [|apply (proj1 (Hder Hj))]. intros t. unfold entry, w. cbn [dat]. rewrite (nth_map _ _ 0%nat) by (rewrite seq_length; exact Hj). rewrite seq_nth by exact Hj. reflexivity.
Qed.
End ReduceMoves.

Lemma fixed_bget u t0 a d j : (forall t, u t = a) -> moves u t0 a d -> bget d j = c0.
Proof. intros Hu Hm. rewrite (bget_where d eq_refl). exact (moves_fixed Hu Hm _). Qed.
Lemma all_real t0 fx ivs us ds : curves t0 fx ivs us ds -> existsb cpx ivs = false -> Forall real_entries (map dat ivs) /\ Forall real_entries ds.
Proof.
  induction 1 as [|f a u d fx ivs us ds Hm Hf Hc IH]; cbn; intros E; [split; constructor|]. apply orb_false_iff in E. destruct E as (E1 & E2). destruct (IH E2) as (I1 & I2).
  split; constructor; auto; [exact (moves_proper Hm E1)|exact (moves_real Hm E1)].
Qed.
Lemma fst_mul_0 g d : d = c0 -> fst (cmul g d) = 0.
Proof. intros ->. unfold cmul, c0, creal. cbn. ring. Qed.

Lemma sum_rate t0 fx ivs us ds m cv g : curves t0 fx ivs us ds -> length g = m ->
  Forall2 (fun f a => f = true \/ (size a = m /\ cpx a = cv)) fx ivs ->
  total_rate (map cpx ivs) (map (fun _ => g) ivs) ds = fac cv * sumj m (fun j => fst (cmul (nth j g c0) (fold_right cadd c0 (at_j j ds)))).
Proof.
  intros Hc Hg. induction Hc as [|f a u d fx ivs us ds Hm Hf Hc IH]; intros Hs.
  - cbn [map total_rate at_j fold_right]. rewrite sumj_zero; [ring|]. intros j _. now apply fst_mul_0.
  - inversion Hs as [|? ? ? ? Hs1 Hs2]; subst. cbn [map total_rate]. rewrite IH by exact Hs2.
    assert (E : rate (cpx a) g d = fac cv * sumj (length g) (fun j => fst (cmul (nth j g c0) (bget d j)))).
    { destruct Hs1 as [E|(E1 & E2)].
      - rewrite rate_zero by exact (moves_fixed (Hf E) Hm). rewrite sumj_zero; [ring|]. intros j _. apply fst_mul_0. exact (fixed_bget j (Hf E) Hm).
      - assert (Ed : length d = length g) by (rewrite (moves_length Hm); exact E1). rewrite rate_sum by now symmetry. rewrite E2, Ed. f_equal. apply sumj_ext. intros j Hj. rewrite bget_nth by lia. reflexivity. }
    rewrite E, <- Rmult_plus_distr_l, <- sumj_plus. f_equal. apply sumj_ext. intros j Hj. unfold at_j. cbn. ring.
Qed.
Lemma const_shape t0 fx ivs us ds m cv g : curves t0 fx ivs us ds -> length g = m -> (cv = false -> real_entries g) ->
  Forall2 (fun f a => f = true \/ (size a = m /\ cpx a = cv)) fx ivs ->
  Forall2 (fun fa g' => length g' = m /\ (fst fa = false -> grad_for (snd fa) g')) (combine fx ivs) (map (fun _ => g) ivs).
Proof.
  intros Hc Hg HR. induction Hc as [|f a u d fx ivs us ds Hm Hf Hc IH]; intros Hs; cbn; constructor; inversion Hs as [|? ? ? ? Hs1 Hs2]; subst; auto.
  cbn. split; [reflexivity|]. intros E. destruct Hs1 as [E'|(E1 & E2)]; [congruence|]. split; [now symmetry|]. now rewrite E2.
Qed.

Lemma sum_ok fx ivs v us ds t0 : suits KSum fx ivs v -> ivs <> [] -> Forall (fun a => size a <> 0%nat) ivs ->
  keval KSum ivs = Ok v -> curves t0 fx ivs us ds -> local_ok KSum fx ivs v us ds t0.
Proof.
  intros Hs Hne Hsz Hv Hc. cbn [suits] in Hs. cbn [keval] in Hv. destruct (dominant ivs) as [dom|] eqn:Ed; [|discriminate]. cbn [bind] in Hv.
  destruct (np_reduce cadd (creal 0) (map dat ivs)) as [r|] eqn:Er; [|discriminate]. cbn [bind] in Hv. injection Hv as <-.
  assert (A1 : forall x y z, cadd x (cadd y z) = cadd (cadd x y) z) by (intros; ring).
  assert (A3 : forall x, cadd x (creal 0) = x) by (intros; change (creal 0) with c0; ring).
  destruct (reduce_fits cadd (creal 0) Hne Hsz Er) as (Hfit & Hex).
  assert (Hder : forall j, (j < length r)%nat ->
    cderive (fun t => fold_right cadd c0 (at_j j (map dat (map (fun u => u t) us)))) t0 (fold_right cadd c0 (at_j j ds)) /\ (existsb cpx ivs = false -> snd (fold_right cadd c0 (at_j j ds)) = 0)).
  { intros j Hj. split; [exact (cd_sum_all Hc Hfit Hj)|]. intros E. apply real_sum, real_at_j. exact (proj2 (all_real Hc E)). }
  destruct (@reduce_moves cadd (creal 0) A1 A3 real_sum (fun j => fold_right cadd c0 (at_j j ds)) t0 fx ivs us ds r Hc Hne Hsz Er Hder) as (w & Hw & Hmv).
  eexists w, _. split; [|split; [exact Hmv|]].
  - eapply near_impl; [|exact (near_and (curves_near Hc) Hw)]. cbv beta. intros t ((_ & E2 & _) & (E3 & E4)). cbn [keval]. rewrite (dominant_sizes _ _ E2), Ed. cbn [bind].
    rewrite E3. cbn [bind]. rewrite <- E4. now destruct (w t).
  - intros g (Hg & HgR). unfold size in Hg, Hs. cbn [dat cpx] in Hg, Hs, HgR.
    exists (map (fun _ => g) ivs). cbn [kgrad]. rewrite Ed. cbn [bind]. split; [reflexivity|]. split.
    + exact (@const_shape _ _ _ _ _ _ _ _ Hc Hg HgR Hs).
    + rewrite (@sum_rate _ _ _ _ _ _ _ _ Hc Hg Hs). cbn [cpx]. rewrite rate_sum by (rewrite map_length, seq_length; exact Hg). rewrite map_length, seq_length. f_equal. apply sumj_ext. intros j Hj.
      rewrite (nth_map _ _ 0%nat) by (rewrite seq_length; exact Hj). now rewrite seq_nth by exact Hj.
Qed.

(** ** KProd *)
Definition prod_at (j : nat) (l : list arr) : C := fold_right cmul c1 (at_j j (map dat l)).
Fixpoint prod_grads (m : nat) (g : list C) (pre : nat -> C) (ivs : list arr) (gs : list (list C)) : Prop :=
  match ivs, gs with
  | [], [] => True
  | a :: ivs', g' :: gs' => (length g' = m /\ forall j, (j < m)%nat -> nth j g' c0 = cmul (cmul (pre j) (prod_at j ivs')) (nth j g c0)) /\
      prod_grads m g (fun j => cmul (pre j) (bget (dat a) j)) ivs' gs'
  | _, _ => False
  end.
Lemma prod_at_app j l l' : prod_at j (l ++ l') = cmul (prod_at j l) (prod_at j l').
Proof. unfold prod_at, at_j. rewrite !map_app. induction l as [|a l IH]; cbn; [ring|]. rewrite IH. ring. Qed.
Lemma prod_grads_ext m g ivs : forall pre pre' gs, (forall j, pre j = pre' j) -> prod_grads m g pre ivs gs -> prod_grads m g pre' ivs gs.
Proof.
  induction ivs as [|a ivs IH]; intros pre pre' [|g' gs] He; cbn; auto. intros ((H1 & H2) & H3). split; [split; [exact H1|]|].
  - intros j Hj. rewrite H2 by exact Hj. now rewrite He.
  - eapply IH; [|exact H3]. intros j. cbv beta. now rewrite He.
Qed.
Lemma product_others_ok m g before a after : Forall (fun x => fits m (dat x)) before -> Forall (fun x => fits m (dat x)) after -> length g = m ->
  exists g', product_others (before ++ a :: after) (length before) g = Ok g' /\ length g' = m /\ forall j, (j < m)%nat -> nth j g' c0 = cmul (cmul (prod_at j before) (prod_at j after)) (nth j g c0).
Proof.
  intros Hb Ha Hg. unfold product_others.
  rewrite firstn_app, firstn_all, Nat.sub_diag. cbn [firstn]. rewrite app_nil_r.
  replace (skipn (S (length before)) (before ++ a :: after)) with after.
  2:{ rewrite skipn_app. rewrite skipn_all2 by lia. replace (S (length before) - length before)%nat with 1%nat by lia. reflexivity. }
  assert (A1 : forall x y z, cmul x (cmul y z) = cmul (cmul x y) z) by (intros; ring).
  assert (A3 : forall x, cmul x (creal 1) = x) by (intros; change (creal 1) with c1; ring).
  destruct (np_reduce_ok cmul (creal 1) A1 A3 (proj2 (Forall_map _ _ _) Hb)) as (r1 & E1 & F1 & _ & J1).
  destruct (np_reduce_ok cmul (creal 1) A1 A3 (proj2 (Forall_map _ _ _) Ha)) as (r2 & E2 & F2 & _ & J2).
  rewrite E1, E2. cbn [bind]. destruct (bcast_ok cmul F1 F2) as (r3 & E3 & F3 & _ & J3). rewrite E3. cbn [bind].
  destruct (@bcast_ok cmul r3 g m F3 (or_intror Hg)) as (r4 & E4 & F4 & L4 & J4). exists r4. specialize (L4 (or_intror Hg)). split; [exact E4|]. split; [exact L4|].
  intros j Hj. rewrite <- bget_nth by lia. rewrite J4, J3, J1, J2 by exact Hj. rewrite (bget_nth g) by lia. reflexivity.
Qed.
Lemma product_grads_ok m g : forall rest before, Forall (fun x => fits m (dat x)) (before ++ rest) -> length g = m ->
  exists gs, mapM (fun i => product_others (before ++ rest) i g) (seq (length before) (length rest)) = Ok gs /\ prod_grads m g (fun j => prod_at j before) rest gs.
Proof.
  induction rest as [|a rest IH]; intros before Hf Hg; cbn [length seq mapM]; [exists []; split; [reflexivity|exact I]|].
  assert (Hfb : Forall (fun x => fits m (dat x)) before /\ Forall (fun x => fits m (dat x)) rest).
  { apply Forall_app in Hf. destruct Hf as (H1 & H2). inversion H2; subst. auto. }
  destruct (@product_others_ok m g before a rest (proj1 Hfb) (proj2 Hfb) Hg) as (g' & E & L & J). rewrite E. cbn [bind].
  destruct (IH (before ++ [a])) as (gs & Egs & Hgs); [now rewrite <- app_assoc|exact Hg|].
  rewrite <- app_assoc in Egs. cbn [app] in Egs. rewrite app_length in Egs. cbn [length] in Egs. replace (length before + 1)%nat with (S (length before)) in Egs by lia.
  rewrite Egs. cbn [bind]. exists (g' :: gs). split; [reflexivity|]. cbn [prod_grads]. split; [split; [exact L|exact J]|].
  eapply prod_grads_ext; [|exact Hgs]. intros j. cbv beta. rewrite prod_at_app. f_equal. unfold prod_at, at_j. cbn. ring.
Qed.
Lemma prod_rate t0 fx ivs us ds m cv g : curves t0 fx ivs us ds -> length g = m -> Forall (fun a => fits m (dat a)) ivs ->
  Forall2 (fun f a => f = true \/ (size a = m /\ cpx a = cv)) fx ivs -> forall pre gs, prod_grads m g pre ivs gs ->
  total_rate (map cpx ivs) gs ds = fac cv * sumj m (fun j => fst (cmul (nth j g c0) (cmul (pre j) (pder (at_j j (map dat ivs)) (at_j j ds))))).
Proof.
  intros Hc Hg. induction Hc as [|f a u d fx ivs us ds Hm Hf Hc IH]; intros Hfit Hs pre gs Hgs.
  - destruct gs; [|destruct Hgs]. cbn [map total_rate]. rewrite sumj_zero; [ring|]. intros j _. apply fst_mul_0. cbn. ring.
  - destruct gs as [|g' gs]; [destruct Hgs|]. cbn [prod_grads] in Hgs. destruct Hgs as ((L & J) & Hgs). inversion Hfit; subst. inversion Hs as [|? ? ? ? Hs1 Hs2]; subst.
    cbn [map total_rate]. rewrite (IH ltac:(assumption) Hs2 _ _ Hgs).
    assert (E : rate (cpx a) g' d = fac cv * sumj (length g) (fun j => fst (cmul (nth j g c0) (cmul (pre j) (cmul (bget d j) (prod_at j ivs)))))).
    { destruct Hs1 as [E|(E1 & E2)].
      - rewrite rate_zero by exact (moves_fixed (Hf E) Hm). rewrite sumj_zero; [ring|]. intros j _. apply fst_mul_0. rewrite (fixed_bget j (Hf E) Hm). ring.
      - assert (Ed : length d = length g) by (rewrite (moves_length Hm); exact E1). rewrite rate_sum by lia. rewrite E2, Ed. f_equal. apply sumj_ext. intros j Hj. rewrite J by exact Hj. rewrite bget_nth by lia. f_equal. ring. }
    rewrite E, <- Rmult_plus_distr_l, <- sumj_plus. f_equal. apply sumj_ext. intros j Hj. unfold at_j. cbn [map pder]. fold (at_j j (map dat ivs)). fold (at_j j ds). fold (prod_at j ivs).
    replace (cmul (pre j) (cadd (cmul (bget d j) (prod_at j ivs)) (cmul (bget (dat a) j) (pder (at_j j (map dat ivs)) (at_j j ds))))) with
      (cadd (cmul (pre j) (cmul (bget d j) (prod_at j ivs))) (cmul (cmul (pre j) (bget (dat a) j)) (pder (at_j j (map dat ivs)) (at_j j ds)))) by ring.
    unfold cmul, cadd. cbn. ring.
Qed.
Lemma prod_shape m g cv fx ivs : length fx = length ivs -> length g = m -> (cv = false -> real_entries g /\ Forall real_entries (map dat ivs)) ->
  Forall2 (fun f a => f = true \/ (size a = m /\ cpx a = cv)) fx ivs -> forall pre gs, (cv = false -> forall j, snd (pre j) = 0) -> prod_grads m g pre ivs gs ->
  Forall2 (fun fa g' => length g' = m /\ (fst fa = false -> grad_for (snd fa) g')) (combine fx ivs) gs.
Proof.
  revert fx. induction ivs as [|a ivs IH]; intros [|f fx] HL Hg HR Hs pre gs Hpre Hgs; cbn in HL; try lia.
  - destruct gs; [constructor|destruct Hgs].
  - destruct gs as [|g' gs]; [destruct Hgs|]. cbn [prod_grads] in Hgs. destruct Hgs as ((L & J) & Hgs). inversion Hs as [|? ? ? ? Hs1 Hs2]; subst. cbn [combine]. constructor.
    + cbn [fst snd]. split; [exact L|]. intros E. destruct Hs1 as [E'|(E1 & E2)]; [congruence|]. split; [lia|]. intros Ec. rewrite E2 in Ec. destruct (HR Ec) as (R1 & R2). inversion R2 as [|? ? R3 R4].
      apply real_nth. intros j. destruct (Nat.lt_ge_cases j (length g)) as [Hj|Hj]; [|rewrite nth_overflow by lia; reflexivity].
      rewrite J by exact Hj. cbn. rewrite (Hpre Ec), (proj1 (real_nth _) R1). unfold prod_at. rewrite real_prod by (now apply real_at_j). ring.
    + eapply IH; [lia|reflexivity| |exact Hs2| |exact Hgs].
      * intros Ec. destruct (HR Ec) as (R1 & R2). inversion R2; subst. auto.
      * intros Ec j. destruct (HR Ec) as (R1 & R2). inversion R2 as [|? ? R3 R4]. cbn. rewrite (Hpre Ec), (bget_real j R3). ring.
Qed.

Lemma prod_ok fx ivs v us ds t0 : suits KProd fx ivs v -> ivs <> [] -> Forall (fun a => size a <> 0%nat) ivs ->
  keval KProd ivs = Ok v -> curves t0 fx ivs us ds -> local_ok KProd fx ivs v us ds t0.
Proof.
  intros Hs Hne Hsz Hv Hc. cbn [suits] in Hs. cbn [keval] in Hv. destruct (dominant ivs) as [dom|] eqn:Ed; [|discriminate]. cbn [bind] in Hv.
  destruct (np_reduce cmul (creal 1) (map dat ivs)) as [r|] eqn:Er; [|discriminate]. cbn [bind] in Hv. injection Hv as <-.
  assert (A1 : forall x y z, cmul x (cmul y z) = cmul (cmul x y) z) by (intros; ring).
  assert (A3 : forall x, cmul x (creal 1) = x) by (intros; change (creal 1) with c1; ring).
  destruct (reduce_fits cmul (creal 1) Hne Hsz Er) as (Hfit & Hex).
  assert (Hder : forall j, (j < length r)%nat ->
    cderive (fun t => fold_right cmul c1 (at_j j (map dat (map (fun u => u t) us)))) t0 (pder (at_j j (map dat ivs)) (at_j j ds)) /\ (existsb cpx ivs = false -> snd (pder (at_j j (map dat ivs)) (at_j j ds)) = 0)).
  { intros j Hj. split; [exact (cd_prod_all Hc Hfit Hj)|]. intros E. destruct (all_real Hc E) as (R1 & R2). apply real_pder; now apply real_at_j. }
  destruct (@reduce_moves cmul (creal 1) A1 A3 real_prod (fun j => pder (at_j j (map dat ivs)) (at_j j ds)) t0 fx ivs us ds r Hc Hne Hsz Er Hder) as (w & Hw & Hmv).
  eexists w, _. split; [|split; [exact Hmv|]].
  - eapply near_impl; [|exact (near_and (curves_near Hc) Hw)]. cbv beta. intros t ((_ & E2 & _) & (E3 & E4)). cbn [keval]. rewrite (dominant_sizes _ _ E2), Ed. cbn [bind].
    rewrite E3. cbn [bind]. rewrite <- E4. now destruct (w t).
  - intros g (Hg & HgR). unfold size in Hg, Hs. cbn [dat cpx] in Hg, Hs, HgR.
    destruct (@product_grads_ok (length r) g ivs [] Hfit Hg) as (gs & Egs & Hgs). cbn [app length] in Egs. exists gs. cbn [kgrad]. rewrite Egs, Ed. cbn [bind]. split; [reflexivity|].
    assert (Hp1 : forall j, prod_at j [] = c1) by reflexivity. split.
    + apply (@prod_shape (length r) g (existsb cpx ivs) fx ivs (proj1 (curves_length Hc)) Hg) with (pre := fun j => prod_at j []); auto.
      intros E. split; [now apply HgR|exact (proj1 (all_real Hc E))].
    + rewrite (@prod_rate _ _ _ _ _ _ _ _ Hc Hg Hfit Hs _ _ Hgs). cbn [cpx]. rewrite rate_sum by (rewrite map_length, seq_length; exact Hg). rewrite map_length, seq_length. f_equal. apply sumj_ext. intros j Hj.
      rewrite (nth_map _ _ 0%nat) by (rewrite seq_length; exact Hj). rewrite seq_nth by exact Hj. rewrite Hp1. f_equal. cbn [plus]. ring.
Qed.
