(** Slices, scalar products and norms. *)
From Coq Require Import Reals ZArith Relations Lra Psatz Ring.
From Verif Require Obj_Model.
From Verif Require Import Obj_Spec Obj_Proofs.
From Verif Require Import Base GraphExec_Spec Shape_Model GMath_Model GMath_Spec GMath_Proofs GMath_Proofs2 GMath_Proofs3.
Set Implicit Arguments.
Local Open Scope R_scope.

Lemma nth_map {A B} (f : A -> B) l j da db : (j < length l)%nat -> nth j (map f l) db = f (nth j l da).
Proof. intros H. rewrite (nth_indep _ db (f da)) by (rewrite map_length; exact H). apply map_nth. Qed.
Lemma sumj_single n j (f : nat -> R) : (j < n)%nat -> sumj n (fun i => if Nat.eqb j i then f i else 0) = f j.
Proof.
  unfold sumj. intros H. assert (Hin : In j (seq 0 n)) by (apply in_seq; lia). pose proof (seq_NoDup n 0) as Hnd.
  revert Hin Hnd. generalize (seq 0 n) as l. induction l as [|i l IH]; intros Hin Hnd; [destruct Hin|].
  inversion Hnd; subst. cbn [map]. unfold rsum. cbn [fold_right]. destruct (Nat.eqb_spec j i) as [->|Hn].
  - replace (fold_right Rplus 0 _) with 0; [ring|]. symmetry. apply rsum_zero. intros k Hk. destruct (Nat.eqb_spec i k) as [->|]; [contradiction|reflexivity].
  - destruct Hin as [->|Hin]; [contradiction|]. unfold rsum in IH. rewrite (IH Hin) by assumption. ring.
Qed.

(** ** KSlice *)
Lemma selected_ok n s : NoDup (selected n s) /\ forall i, In i (selected n s) -> (i < n)%nat.
Proof.
  assert (Hb : forall z, (bound n z <= n)%nat) by (intros z; unfold bound; destruct (Z.ltb_spec z 0); lia).
  destruct s as [|a b]; cbn; (split; [apply seq_NoDup|]); intros i Hi; apply in_seq in Hi; [lia|]. specialize (Hb b). lia.
Qed.
Lemma scatter_notin is_ : forall g i, ~ In i is_ -> scatter is_ g i = c0.
Proof.
  induction is_ as [|j is_ IH]; intros [|x g] i H; try reflexivity. cbn. destruct (Nat.eqb_spec j i) as [->|]; [exfalso; apply H; now left|].
  apply IH. intros Hi. apply H. now right.
Qed.
Lemma scatter_sum n is_ : forall g (d : nat -> C), length g = length is_ -> NoDup is_ -> (forall i, In i is_ -> (i < n)%nat) ->
  sumj n (fun i => fst (cmul (scatter is_ g i) (d i))) = rsum (map (fun xy => fst (cmul (fst xy) (snd xy))) (combine g (map d is_))).
Proof.
  induction is_ as [|j is_ IH]; intros [|x g] d Hl Hnd Hb; cbn in Hl; try lia.
  - apply sumj_zero. intros i _. unfold cmul, creal. cbn. ring.
  - inversion Hnd; subst. cbn [map combine]. unfold rsum. cbn [fold_right fst snd]. fold rsum.
    rewrite <- (sumj_single (n := n) (j := j) (fun i => fst (cmul x (d i)))) by (apply Hb; now left).
    change (fold_right Rplus 0) with rsum. rewrite <- IH; [|lia|assumption|intros i Hi; apply Hb; now right].
    rewrite <- sumj_plus. apply sumj_ext. intros i Hi. cbn [scatter]. destruct (Nat.eqb_spec j i) as [->|].
    + rewrite scatter_notin by assumption. unfold cmul, c0, creal. cbn. ring.
    + ring.
Qed.
Lemma slice_ok s fx a v us ds t0 : keval (KSlice s) [a] = Ok v -> curves t0 fx [a] us ds -> local_ok (KSlice s) fx [a] v us ds t0.
Proof.
  intros Hv Hc. inversion Hc as [|f a' u d fx' ivs' us' ds' Hm Hf Hc']; subst. inversion Hc'; subst. clear Hc Hc'.
  cbn [keval] in Hv. rewrite input0 in Hv. cbn [bind] in Hv. destruct (slice_of s (size a)) as [sl|] eqn:Esl; [|discriminate].
  cbn [bind] in Hv. injection Hv as <-. set (is_ := selected (size a) sl). destruct (selected_ok (size a) sl) as (Hnd & Hb). fold is_ in Hnd, Hb.
  set (w := fun t => mkarr (cpx (u t)) (map (fun i => nth i (dat (u t)) (creal 0)) is_)).
  exists w, (map (fun i => nth i d c0) is_). split; [|split].
  - eapply near_impl; [|exact (moves_near Hm)]. cbv beta. intros t (E1 & E2 & _). cbn [keval map]. rewrite input0. cbn [bind]. rewrite E2, Esl. reflexivity.
  - constructor.
    + unfold w. now rewrite (moves_at Hm).
    + eapply near_impl; [|exact (moves_near Hm)]. cbv beta. intros t (E1 & E2 & Hp). split; [exact E1|]. split.
      * unfold w, size. cbn. now rewrite !map_length.
      * intros Ec. cbn in Ec. unfold w. cbn. apply Forall_forall. intros z Hz. apply in_map_iff in Hz. destruct Hz as (i & <- & _).
        exact (proj1 (real_nth _) (Hp Ec) i).
    + unfold size. cbn. now rewrite !map_length.
    + cbn. intros Ec. apply Forall_forall. intros z Hz. apply in_map_iff in Hz. destruct Hz as (i & <- & _).
      exact (proj1 (real_nth _) (moves_real Hm Ec) i).
    + intros j Hj. unfold size in Hj. cbn in Hj. rewrite map_length in Hj.
      rewrite (nth_map _ _ 0%nat) by exact Hj. eapply cd_ext; [|apply (moves_entry Hm)].
      * intros t. unfold entry, w. cbn [dat]. rewrite (nth_map _ _ 0%nat) by exact Hj. reflexivity.
      * apply Hb. now apply nth_In.
  - intros g (Hg & HgR). unfold size in Hg. cbn in Hg. rewrite map_length in Hg.
    exists [map (scatter is_ g) (seq 0 (size a))]. split; [|split].
    + cbn [kgrad]. rewrite input0. cbn [bind]. rewrite Esl. cbn [bind]. fold is_.
      rewrite inplace_eq by (rewrite map_length; symmetry; exact Hg). cbn [bind]. do 2 f_equal.
      replace (map (fun xy => snd xy) (combine (map (fun _ : nat => creal 0) is_) g)) with g; [reflexivity|].
      clear - Hg. revert g Hg. induction is_ as [|i l IH]; intros [|x g] Hg; cbn in *; try lia; [reflexivity|]. now rewrite <- IH by lia.
    + cbn [combine]. constructor; [|constructor]. cbn [fst snd arrival]. split; [now rewrite map_length, seq_length|]. intros _. split; [now rewrite map_length, seq_length|].
      intros Ec. apply Forall_forall. intros z Hz. apply in_map_iff in Hz. destruct Hz as (i & <- & _).
      specialize (HgR Ec). clear - HgR. revert g HgR. induction is_ as [|j l IH]; intros [|x g] HgR; cbn; try reflexivity.
      inversion HgR; subst. destruct (Nat.eqb j i); auto.
    + cbn [map total_rate]. rewrite Rplus_0_r. rewrite rate_sum by (rewrite map_length, seq_length; symmetry; exact (moves_length Hm)).
      unfold rate. cbn [cpx]. fold (fac (cpx a)). f_equal. rewrite (moves_length Hm).
      rewrite <- (@scatter_sum (size a) is_ g (fun i => nth i d c0)) by assumption. apply sumj_ext. intros i Hi.
      rewrite (nth_map _ _ 0%nat) by (rewrite seq_length; exact Hi). now rewrite seq_nth by exact Hi.
Qed.

(** ** KDot *)
Definition csumj (n : nat) (f : nat -> C) : C := csum (map f (seq 0 n)).
Lemma csum_fst l : fst (csum l) = rsum (map fst l).
Proof. unfold csum, rsum. induction l; cbn; [reflexivity|]. now rewrite IHl. Qed.
Lemma csum_snd l : snd (csum l) = rsum (map snd l).
Proof. unfold csum, rsum. induction l; cbn; [reflexivity|]. now rewrite IHl. Qed.
Lemma cd_csum {A} (f : A -> R -> C) (e : A -> C) t0 l : (forall j, In j l -> cderive (f j) t0 (e j)) ->
  cderive (fun t => csum (map (fun j => f j t) l)) t0 (csum (map e l)).
Proof.
  induction l as [|j l IH]; intros H; cbn; [apply cd_const|]. apply cd_add; [apply H; now left|apply IH; intros i Hi; apply H; now right].
Qed.
Lemma csum_real l : real_entries l -> snd (csum l) = 0.
Proof. rewrite csum_snd. intros H. apply rsum_zero. intros x Hx. exact (proj1 (Forall_forall _ _) H x Hx). Qed.
Lemma bcast_single f x b : bcast f [x] b = Ok (map (f x) b).
Proof. unfold bcast. cbn [length]. destruct b as [|y [|z b]]; reflexivity. Qed.
Lemma one_entry (g : list C) : length g = 1%nat -> exists x, g = [x].
Proof. destruct g as [|x [|y g]]; cbn; intros H; try lia. eauto. Qed.
Lemma fst_mul_csum g l : fst (cmul g (csum l)) = rsum (map (fun z => fst (cmul g z)) l).
Proof.
  unfold cmul at 1. cbn [fst]. rewrite csum_fst, csum_snd. unfold rsum.
  induction l; cbn [map fold_right]; [ring|]. rewrite <- IHl. unfold cmul. cbn [fst]. ring.
Qed.

Lemma dot_ok fx ivs v us ds t0 : suits KDot fx ivs v -> keval KDot ivs = Ok v -> curves t0 fx ivs us ds -> local_ok KDot fx ivs v us ds t0.
Proof.
  intros (a & b & -> & Hab & Hfx) Hv Hc.
  inversion Hc as [|f1 a' u1 d1 fx' ivs' us' ds' Hm1 Hf1 Hc']; subst. inversion Hc' as [|f2 a' u2 d2 fx'' ivs'' us'' ds'' Hm2 Hf2 Hc'']; subst. inversion Hc''; subst. clear Hc Hc' Hc''.
  inversion Hfx as [|? ? ? ? Hfx1 Hfx']; subst. inversion Hfx' as [|? ? ? ? Hfx2 _]; subst. clear Hfx Hfx'.
  cbn [keval] in Hv. unfold input in Hv. cbn [nth_error bind] in Hv. rewrite bcast_eq in Hv by exact Hab. cbn [bind] in Hv. injection Hv as Hv.
  set (n := size a) in *.
  assert (Hdat : forall x y : arr, size x = n -> size y = n -> map (fun xy => cmul (fst xy) (snd xy)) (combine (dat x) (dat y)) = map (fun j => cmul (entry x j) (entry y j)) (seq 0 n)).
  { intros x y Hx Hy. rewrite (combine_nth_map _ _ _ c0 c0) by (unfold size in *; lia). unfold size in Hx. rewrite Hx. reflexivity. }
  set (w := fun t => mkarr (cpx (u1 t) || cpx (u2 t)) [csumj n (fun j => cmul (entry (u1 t) j) (entry (u2 t) j))]).
  set (e0 := csumj n (fun j => cadd (cmul (nth j d1 c0) (entry b j)) (cmul (entry a j) (nth j d2 c0)))).
  assert (Hnear := near_and (moves_near Hm1) (moves_near Hm2)). cbv beta in Hnear.
  assert (HRe : cpx v = false -> real_entries (dat a) /\ real_entries (dat b) /\ real_entries d1 /\ real_entries d2).
  { rewrite <- Hv. cbn [cpx]. intros Ec. apply orb_false_iff in Ec. destruct Ec as (E1 & E2).
    repeat split; [exact (moves_proper Hm1 E1)|exact (moves_proper Hm2 E2)|exact (moves_real Hm1 E1)|exact (moves_real Hm2 E2)]. }
  exists w, [e0]. split; [|split].
  - eapply near_impl; [|exact Hnear]. cbv beta. intros t ((E1 & E2 & _) & (E3 & E4 & _)). cbn [keval map]. unfold input. cbn [nth_error bind].
    rewrite bcast_eq by (fold n in E2; unfold size in *; lia). cbn [bind]. unfold w, csumj. rewrite Hdat; [reflexivity|exact E2|unfold size in *; lia].
  - constructor.
    + unfold w. rewrite (moves_at Hm1), (moves_at Hm2), <- Hv. unfold csumj. rewrite Hdat; [reflexivity|reflexivity|unfold size in *; lia].
    + eapply near_impl; [|exact Hnear]. cbv beta. intros t ((E1 & E2 & P1) & (E3 & E4 & P2)). rewrite <- Hv. cbn [cpx w]. rewrite E1, E3. split; [reflexivity|].
      split; [reflexivity|]. unfold proper, w. cbn [cpx dat]. intros Ec. apply orb_false_iff in Ec. destruct Ec as (F1 & F2).
      constructor; [|constructor]. apply csum_real. apply Forall_forall. intros z Hz. apply in_map_iff in Hz. destruct Hz as (j & <- & _).
      cbn. pose proof (proj1 (real_nth _) (P1 F1) j) as R1. pose proof (proj1 (real_nth _) (P2 F2) j) as R2.
      change (snd (entry (u1 t) j) = 0) in R1. change (snd (entry (u2 t) j) = 0) in R2. rewrite R1, R2. ring.
    + rewrite <- Hv. reflexivity.
    + intros Ec. destruct (HRe Ec) as (R1 & R2 & R3 & R4). constructor; [|constructor]. apply csum_real. apply Forall_forall. intros z Hz.
      apply in_map_iff in Hz. destruct Hz as (j & <- & _). cbn.
      pose proof (proj1 (real_nth _) R1 j) as Q1. pose proof (proj1 (real_nth _) R2 j) as Q2. pose proof (proj1 (real_nth _) R3 j) as Q3. pose proof (proj1 (real_nth _) R4 j) as Q4.
      change (snd (entry a j) = 0) in Q1. change (snd (entry b j) = 0) in Q2. rewrite Q1, Q2, Q3, Q4. ring.
    + intros j Hj. rewrite <- Hv in Hj. cbn in Hj. assert (j = 0)%nat as -> by lia. cbn [nth]. unfold w, entry at 1. cbn [dat nth]. unfold csumj.
      apply (cd_csum (fun j t => cmul (entry (u1 t) j) (entry (u2 t) j))). intros j Hj'. apply in_seq in Hj'.
      eapply cd_eq; [|apply cd_mul; [apply (moves_entry Hm1); fold n; lia|apply (moves_entry Hm2); fold n in Hab; lia]].
      cbv beta. rewrite (moves_at Hm1), (moves_at Hm2). reflexivity.
  - intros g (Hg & HgR). rewrite <- Hv in Hg. destruct (one_entry g Hg) as (x & ->). exists [map (cmul x) (dat b); map (cmul x) (dat a)]. split; [|split].
    + cbn [kgrad]. unfold input. cbn [nth_error bind]. rewrite !bcast_single. reflexivity.
    + assert (HG : forall c c' : arr, cpx c = cpx v -> (cpx c = false -> real_entries (dat c')) -> size c = size c' -> grad_for c (map (cmul x) (dat c'))).
      { intros c c' Ec Hr Hsz. split; [rewrite map_length; exact (eq_sym Hsz)|]. intros Ef.
        specialize (Hr Ef). rewrite Ec in Ef. specialize (HgR Ef). inversion HgR as [|? ? Hx _]; subst. apply Forall_forall. intros z Hz. apply in_map_iff in Hz. destruct Hz as (y & <- & Hy).
        pose proof (proj1 (Forall_forall _ _) Hr y Hy) as Hy'. cbv beta in Hy'. cbn. rewrite Hx, Hy'. ring. }
      cbn [combine]. constructor; [|constructor; [|constructor]]; cbn [fst snd arrival].
      * split; [rewrite map_length; exact (eq_sym Hab)|]. intros Ef. destruct Hfx1 as [Hfx1|Hfx1]; [congruence|].
        apply HG; [exact Hfx1| |exact Hab]. intros Ef'. apply HRe. congruence.
      * split; [rewrite map_length; exact Hab|]. intros Ef. destruct Hfx2 as [Hfx2|Hfx2]; [congruence|].
        apply HG; [exact Hfx2| |symmetry; exact Hab]. intros Ef'. apply HRe. congruence.
    + cbn [map total_rate]. rewrite Rplus_0_r. unfold rate at 3. cbn [combine map fst snd]. unfold rsum. cbn [fold_right]. rewrite Rplus_0_r.
      fold (fac (cpx v)). unfold e0, csumj. rewrite fst_mul_csum. rewrite map_map.
      assert (L1 : length d1 = n) by exact (moves_length Hm1). assert (L2 : length d2 = n) by (rewrite (moves_length Hm2); symmetry; exact Hab).
      rewrite !rate_sum by (rewrite map_length; unfold size in *; lia). rewrite L1, L2.
      assert (N : forall c : arr, size c = n -> forall j, (j < n)%nat -> nth j (map (cmul x) (dat c)) c0 = cmul x (entry c j)).
      { intros c Hcn j Hj. apply nth_map. unfold size in Hcn. lia. }
      assert (F1 : fac (cpx a) * sumj n (fun j => fst (cmul (nth j (map (cmul x) (dat b)) c0) (nth j d1 c0))) = fac (cpx v) * sumj n (fun j => fst (cmul x (cmul (nth j d1 c0) (entry b j))))).
      { destruct Hfx1 as [E|E].
        - rewrite !sumj_zero; [ring| |]; intros j _; rewrite (moves_fixed (Hf1 E) Hm1); unfold cmul, c0, creal; cbn; ring.
        - rewrite E. f_equal. apply sumj_ext. intros j Hj. rewrite N by (auto; now symmetry). f_equal. ring. }
      assert (F2 : fac (cpx b) * sumj n (fun j => fst (cmul (nth j (map (cmul x) (dat a)) c0) (nth j d2 c0))) = fac (cpx v) * sumj n (fun j => fst (cmul x (cmul (entry a j) (nth j d2 c0))))).
      { destruct Hfx2 as [E|E].
        - rewrite !sumj_zero; [ring| |]; intros j _; rewrite (moves_fixed (Hf2 E) Hm2); unfold cmul, c0, creal; cbn; ring.
        - rewrite E. f_equal. apply sumj_ext. intros j Hj. rewrite N by auto. f_equal. ring. }
      rewrite F1, F2. rewrite <- Rmult_plus_distr_l. f_equal. rewrite <- sumj_plus. apply sumj_ext. intros j Hj. unfold cmul, cadd. cbn. ring.
Qed.
