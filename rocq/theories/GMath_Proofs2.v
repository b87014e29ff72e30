(** Curves of arrays through a node; entrywise nodes. *)
From Coq Require Import Reals ZArith Relations Lra Psatz Ring.
From Verif Require Obj_Model.
From Verif Require Import Obj_Spec Obj_Proofs.
From Verif Require Import Base GraphExec_Spec Shape_Model GMath_Model GMath_Spec GMath_Proofs.
Set Implicit Arguments.
Local Open Scope R_scope.

Definition fac (b : bool) : R := if b then 2 else 1.
Definition sumj (n : nat) (f : nat -> R) : R := rsum (map f (seq 0 n)).
Lemma rsum_ext {A} (f h : A -> R) l : (forall x, In x l -> f x = h x) -> rsum (map f l) = rsum (map h l).
Proof. intros H. f_equal. now apply map_ext_in. Qed.
Lemma rsum_scale {A} c (f : A -> R) l : rsum (map (fun x => c * f x) l) = c * rsum (map f l).
Proof. unfold rsum. induction l; cbn; [ring|]. rewrite IHl. ring. Qed.
Lemma rsum_plus {A} (f h : A -> R) l : rsum (map (fun x => f x + h x) l) = rsum (map f l) + rsum (map h l).
Proof. unfold rsum. induction l; cbn; [ring|]. rewrite IHl. ring. Qed.
Lemma rsum_zero {A} (f : A -> R) l : (forall x, In x l -> f x = 0) -> rsum (map f l) = 0.
Proof. unfold rsum. induction l; cbn; intros H; [reflexivity|]. rewrite (H a) by auto. rewrite IHl by auto. ring. Qed.
Lemma sumj_ext n f h : (forall j, (j < n)%nat -> f j = h j) -> sumj n f = sumj n h.
Proof. intros H. apply rsum_ext. intros j Hj. apply in_seq in Hj. apply H. lia. Qed.
Lemma sumj_scale n c f : sumj n (fun j => c * f j) = c * sumj n f.
Proof. apply rsum_scale. Qed.
Lemma sumj_plus n f h : sumj n (fun j => f j + h j) = sumj n f + sumj n h.
Proof. apply rsum_plus. Qed.
Lemma sumj_zero n f : (forall j, (j < n)%nat -> f j = 0) -> sumj n f = 0.
Proof. intros H. apply rsum_zero. intros j Hj. apply in_seq in Hj. apply H. lia. Qed.

Lemma combine_nth_map {A B D} (f : A * B -> D) l l' da db : length l = length l' ->
  map f (combine l l') = map (fun j => f (nth j l da, nth j l' db)) (seq 0 (length l)).
Proof.
  revert l'. induction l as [|x l IH]; intros [|y l'] H; cbn in *; try lia; [reflexivity|].
  f_equal. rewrite IH by lia. rewrite <- seq_shift, map_map. reflexivity.
Qed.
Lemma map_nth_seq {A B} (f : A -> B) l d : map f l = map (fun j => f (nth j l d)) (seq 0 (length l)).
Proof. induction l as [|x l IH]; cbn; [reflexivity|]. f_equal. rewrite IH, <- seq_shift, map_map. reflexivity. Qed.

Lemma rate_sum b g d : length g = length d ->
  rate b g d = fac b * sumj (length d) (fun j => fst (cmul (nth j g c0) (nth j d c0))).
Proof. intros H. unfold rate, fac, sumj. rewrite (combine_nth_map _ g d c0 c0 H), H. reflexivity. Qed.
Lemma rate_zero b g d : (forall j, nth j d c0 = c0) -> rate b g d = 0.
Proof.
  intros H. unfold rate. replace (rsum _) with 0; [ring|]. symmetry. apply rsum_zero. intros (x, y) Hx. cbn [fst snd].
  apply in_combine_r in Hx. apply (In_nth _ _ c0) in Hx. destruct Hx as (j & _ & E). rewrite H in E. subst y. unfold cmul, c0, creal. cbn. ring.
Qed.

(** ** Curves *)
Definition zeros (n : nat) : list C := map (fun _ => c0) (seq 0 n).
Lemma zeros_length n : length (zeros n) = n.
Proof. unfold zeros. now rewrite map_length, seq_length. Qed.
Lemma zeros_nth n j : nth j (zeros n) c0 = c0.
Proof. unfold zeros. generalize (seq 0 n). intros l. revert j. induction l as [|x l IH]; intros [|j]; cbn; auto. Qed.
Lemma real_nth l : real_entries l <-> forall j, snd (nth j l c0) = 0.
Proof.
  unfold real_entries. rewrite Forall_forall. split; intros H.
  - intros j. destruct (nth_in_or_default j l c0) as [E|E]; [now apply H|rewrite E; reflexivity].
  - intros x Hx. apply (In_nth _ _ c0) in Hx. destruct Hx as (j & _ & <-). apply H.
Qed.
Lemma moves_const a t0 : proper a -> moves (fun _ => a) t0 a (zeros (size a)).
Proof.
  intros Hp. constructor.
  - reflexivity.
  - apply near_all. auto.
  - apply zeros_length.
  - intros _. apply real_nth. intros j. now rewrite zeros_nth.
  - intros j _. rewrite zeros_nth. apply cd_const.
Qed.
Lemma moves_fixed u t0 a d : (forall t, u t = a) -> moves u t0 a d -> forall j, nth j d c0 = c0.
Proof.
  intros Hu H j. destruct (Nat.lt_ge_cases j (size a)) as [Hj|Hj].
  - pose proof (moves_entry H Hj) as Hd. eapply cd_unique; [exact Hd|]. eapply cd_ext; [|apply cd_const]. intros t. cbv beta. rewrite Hu. reflexivity.
  - apply nth_overflow. rewrite (moves_length H). exact Hj.
Qed.
Lemma moves_proper u t0 a d : moves u t0 a d -> proper a.
Proof. intros H. destruct (near_at (moves_near H)) as (_ & _ & Hp). now rewrite (moves_at H) in Hp. Qed.
Lemma moves_unique u t0 a d a' d' : moves u t0 a d -> moves u t0 a' d' -> a = a' /\ d = d'.
Proof.
  intros H H'. assert (E : a = a') by (rewrite <- (moves_at H); apply (moves_at H')). subst a'. split; [reflexivity|].
  apply (nth_ext _ _ c0 c0); [now rewrite (moves_length H), (moves_length H')|].
  intros j Hj. rewrite (moves_length H) in Hj. eapply cd_unique; [exact (moves_entry H Hj)|exact (moves_entry H' Hj)].
Qed.
Lemma moves_near_ext u u' t0 a d : near t0 (fun t => u t = u' t) -> moves u t0 a d -> moves u' t0 a d.
Proof.
  intros He H. constructor.
  - rewrite <- (near_at He). apply (moves_at H).
  - eapply near_impl; [|exact (near_and He (moves_near H))]. cbv beta. intros t (E & Hc). now rewrite <- E.
  - exact (moves_length H).
  - exact (moves_real H).
  - intros j Hj. eapply cd_near; [|exact (moves_entry H Hj)]. eapply near_impl; [|exact He]. cbv beta. intros t ->. reflexivity.
Qed.

Inductive curves (t0 : R) : list bool -> list arr -> list (R -> arr) -> list (list C) -> Prop :=
| curves_nil : curves t0 [] [] [] []
| curves_cons f a u d fx ivs us ds : moves u t0 a d -> (f = true -> forall t, u t = a) ->
    curves t0 fx ivs us ds -> curves t0 (f :: fx) (a :: ivs) (u :: us) (d :: ds).

Definition arrival (k : kind) (v a : arr) : nat := match k with KSum | KProd => size v | _ => size a end.
Definition local_ok (k : kind) (fx : list bool) (ivs : list arr) (v : arr) (us : list (R -> arr)) (ds : list (list C)) (t0 : R) : Prop :=
  exists w e, near t0 (fun t => keval k (map (fun u => u t) us) = Ok (w t)) /\ moves w t0 v e /\
    forall g, grad_for v g -> exists gs, kgrad k ivs g = Ok gs /\
      Forall2 (fun fa g' => length g' = arrival k v (snd fa) /\ (fst fa = false -> grad_for (snd fa) g')) (combine fx ivs) gs /\
      total_rate (map cpx ivs) gs ds = rate (cpx v) g e.

(** ** Choice of finitely many *)
Lemma choose_list {A} (P : nat -> A -> Prop) (d0 : A) n : (forall j, (j < n)%nat -> exists x, P j x) ->
  exists l, length l = n /\ forall j, (j < n)%nat -> P j (nth j l d0).
Proof.
  induction n as [|n IH]; intros H; [exists []; split; [reflexivity|lia]|].
  destruct IH as (l & Hl & Hp); [auto|]. destruct (H n) as (x & Hx); [lia|]. exists (l ++ [x]). split; [rewrite app_length; cbn; lia|].
  intros j Hj. destruct (Nat.eq_dec j n) as [->|].
  - rewrite app_nth2 by lia. replace (n - length l)%nat with 0%nat by lia. exact Hx.
  - rewrite app_nth1 by lia. apply Hp. lia.
Qed.
Lemma near_below t0 n (P : nat -> R -> Prop) : (forall j, (j < n)%nat -> near t0 (P j)) -> near t0 (fun t => forall j, (j < n)%nat -> P j t).
Proof.
  intros H. eapply near_impl; [|apply (@near_list _ t0 P (seq 0 n))].
  - cbv beta. intros t Ht j Hj. apply Ht. apply in_seq. lia.
  - intros j Hj. apply in_seq in Hj. apply H. lia.
Qed.

(** ** Entrywise nodes *)
Section Entrywise.
Variable k : kind.
Variable fn : C -> res C.
Variable G : C -> C -> C.
Variable ca cv : bool.
Variable a : arr.
Hypothesis Hca : cpx a = ca.
Hypothesis Hk : match k with KSum | KProd => False | _ => True end.
Hypothesis Hev : forall a', cpx a' = ca -> keval k [a'] = bind (mapM fn (dat a')) (fun l => Ok (mkarr cv l)).
Hypothesis Hgr : forall g, length g = size a -> kgrad k [a] g = Ok [map (fun xg => G (fst xg) (snd xg)) (combine (dat a) g)].
Definition entry_ok (x : C) : Prop := forall z t0 d, z t0 = x -> cderive z t0 d ->
  (ca = false -> near t0 (fun t => snd (z t) = 0) /\ snd d = 0) ->
  near t0 (fun t => exists y, fn (z t) = Ok y) /\
  exists e, cderive (fun t => cval (fn (z t))) t0 e /\
    (cv = false -> near t0 (fun t => snd (cval (fn (z t))) = 0) /\ snd e = 0) /\
    forall g, (cv = false -> snd g = 0) -> (ca = false -> snd (G x g) = 0) /\ fac ca * fst (cmul (G x g) d) = fac cv * fst (cmul g e).
Hypothesis Hentry : forall x, In x (dat a) -> entry_ok x.

Lemma mapM_total l : (forall x, In x l -> exists y, fn x = Ok y) -> mapM fn l = Ok (map (fun x => cval (fn x)) l).
Proof.
  induction l as [|x l IH]; cbn; intros H; [reflexivity|]. destruct (H x) as (y & E); [auto|]. rewrite E. cbn.
  rewrite IH by auto. reflexivity.
Qed.
Lemma entrywise_ok fx v us ds t0 : keval k [a] = Ok v -> curves t0 fx [a] us ds -> local_ok k fx [a] v us ds t0.
Proof.
  intros Hv Hc. inversion Hc as [|f a' u d fx' ivs' us' ds' Hm Hf Hc']; subst. inversion Hc'; subst. clear Hc Hc'.
  set (n := size a).
  set (w := fun t => mkarr cv (map (fun x => cval (fn x)) (dat (u t)))).
  assert (Hat := moves_at Hm). assert (Hsz := near_at (moves_near Hm)).
  assert (Hpos : forall j, (j < n)%nat -> In (entry a j) (dat a)) by (intros j Hj; apply nth_In; exact Hj).
  assert (HR : forall j, (j < n)%nat -> ca = false -> near t0 (fun t => snd (entry (u t) j) = 0) /\ snd (nth j d c0) = 0).
  { intros j Hj Hr. rewrite <- Hca in Hr. split; [|exact (proj1 (real_nth d) (moves_real Hm Hr) j)].
    eapply near_impl; [|exact (moves_near Hm)]. cbv beta. intros t (E1 & E2 & Hp). rewrite Hr in E1.
    exact (proj1 (real_nth _) (Hp E1) j). }
  assert (HE : forall j, (j < n)%nat -> near t0 (fun t => exists y, fn (entry (u t) j) = Ok y) /\
    exists e, cderive (fun t => cval (fn (entry (u t) j))) t0 e /\
      (cv = false -> near t0 (fun t => snd (cval (fn (entry (u t) j))) = 0) /\ snd e = 0) /\
      forall g, (cv = false -> snd g = 0) -> (ca = false -> snd (G (entry a j) g) = 0) /\
        fac ca * fst (cmul (G (entry a j) g) (nth j d c0)) = fac cv * fst (cmul g e)).
  { intros j Hj. apply (@Hentry _ (Hpos j Hj) (fun t => entry (u t) j)); [now rewrite Hat|exact (moves_entry Hm Hj)|exact (HR j Hj)]. }
  assert (Hnear : near t0 (fun t => keval k [u t] = Ok (w t))).
  { eapply near_impl; [|exact (near_and (moves_near Hm) (@near_below t0 n (fun j t => exists y, fn (entry (u t) j) = Ok y) (fun j Hj => proj1 (HE j Hj))))]. cbv beta.
    intros t ((E1 & E2 & _) & Hok). rewrite Hev by congruence. rewrite mapM_total; [reflexivity|].
    intros x Hx. apply (In_nth _ _ c0) in Hx. destruct Hx as (j & Hj & <-). apply Hok. fold (size (u t)) in Hj. rewrite E2 in Hj. exact Hj. }
  assert (Hw : w t0 = v). { pose proof (near_at Hnear) as E. cbv beta in E. rewrite Hat in E. congruence. }
  assert (Hvn : size v = n). { rewrite <- Hw. unfold w, size. cbn. now rewrite map_length, Hat. }
  assert (Hcv : cpx v = cv) by (rewrite <- Hw; reflexivity).
  destruct (@choose_list C _ c0 n (fun j Hj => proj2 (HE j Hj))) as (e & Hel & He). cbv beta in He.
  assert (Hent : forall t j, (j < size (u t))%nat -> entry (w t) j = cval (fn (entry (u t) j))).
  { intros t j Hj. unfold w, entry. cbn [dat]. rewrite (nth_indep _ (creal 0) (cval (fn (creal 0)))) by (rewrite map_length; exact Hj).
    exact (map_nth (fun x => cval (fn x)) (dat (u t)) (creal 0) j). }
  assert (HRn : near t0 (fun t => forall j, (j < n)%nat -> cv = false -> snd (cval (fn (entry (u t) j))) = 0)).
  { apply (@near_below t0 n (fun j t => cv = false -> snd (cval (fn (entry (u t) j))) = 0)).
    intros j Hj. destruct (HE j Hj) as (_ & e0 & _ & Hr & _). destruct cv; [apply near_all; discriminate|].
    destruct (Hr eq_refl) as (Hr' & _). eapply near_impl; [|exact Hr']. cbv beta. auto. }
  exists w, e. split; [exact Hnear|]. split; [constructor|].
  - exact Hw.
  - eapply near_impl; [|exact (near_and (moves_near Hm) HRn)].
    cbv beta. intros t ((E1 & E2 & _) & Hr). split; [rewrite Hcv; reflexivity|]. split.
    * rewrite Hvn. unfold w, size. cbn. rewrite map_length. exact E2.
    * intros Ec. apply real_nth. intros j. destruct (Nat.lt_ge_cases j n) as [Hj|Hj].
        -- pose proof (Hent t j) as E3. unfold entry in E3 at 1. change (creal 0) with c0 in E3. rewrite E3 by (rewrite E2; exact Hj). apply Hr; auto.
        -- rewrite nth_overflow; [reflexivity|]. unfold w. cbn. rewrite map_length. fold (size (u t)). rewrite E2. exact Hj.
  - lia.
  - intros Ec. rewrite Hcv in Ec. apply real_nth. intros j. destruct (Nat.lt_ge_cases j n) as [Hj|Hj].
    + destruct (He j Hj) as (_ & Hr & _). destruct (Hr Ec) as (_ & Hr'). exact Hr'.
    + rewrite nth_overflow by lia. reflexivity.
  - intros j Hj. rewrite Hvn in Hj. destruct (He j Hj) as (Hd & _). eapply cd_near; [|exact Hd].
    eapply near_impl; [|exact (moves_near Hm)]. cbv beta. intros t (_ & E2 & _). symmetry. apply Hent. rewrite E2. exact Hj.
  - intros g (Hgl & Hgr'). assert (Hgn : length g = size a) by (fold n; congruence).
    exists [map (fun xg => G (fst xg) (snd xg)) (combine (dat a) g)]. split; [now apply Hgr|].
    assert (Hlen : length (map (fun xg => G (fst xg) (snd xg)) (combine (dat a) g)) = size a).
    { rewrite map_length, combine_length. unfold size in *. lia. }
    assert (Hmap : forall j, (j < n)%nat -> nth j (map (fun xg => G (fst xg) (snd xg)) (combine (dat a) g)) c0 = G (entry a j) (nth j g c0)).
    { intros j Hj. rewrite (combine_nth_map _ _ _ c0 c0) by (symmetry; exact Hgn).
      rewrite (nth_indep _ c0 (G (fst (nth 0 (dat a) c0, nth 0 g c0)) (snd (nth 0 (dat a) c0, nth 0 g c0)))) by (rewrite map_length, seq_length; exact Hj).
      rewrite (map_nth (fun j => G (fst (nth j (dat a) c0, nth j g c0)) (snd (nth j (dat a) c0, nth j g c0)))).
      rewrite seq_nth by exact Hj. reflexivity. }
    assert (HgR : forall j, cv = false -> snd (nth j g c0) = 0).
    { intros j Ec. rewrite <- Hcv in Ec. exact (proj1 (real_nth g) (Hgr' Ec) j). }
    split.
    + cbn [combine]. constructor; [|constructor]. cbn [fst snd]. split.
      * rewrite Hlen. unfold arrival. destruct k; try reflexivity; contradiction.
      * intros _. split; [exact Hlen|]. intros Ec. rewrite Hca in Ec. apply real_nth. intros j. destruct (Nat.lt_ge_cases j n) as [Hj|Hj].
        -- rewrite Hmap by exact Hj. destruct (He j Hj) as (_ & _ & Hg). destruct (Hg (nth j g c0) (HgR j)) as (Hg1 & _). now apply Hg1.
        -- rewrite nth_overflow by (rewrite Hlen; exact Hj). reflexivity.
    + cbn [map total_rate]. rewrite Rplus_0_r. rewrite rate_sum by (rewrite Hlen; symmetry; exact (moves_length Hm)).
      rewrite rate_sum by lia. rewrite (moves_length Hm), Hel. fold n. rewrite <- !sumj_scale. apply sumj_ext. intros j Hj.
      rewrite Hmap by exact Hj. rewrite Hcv, Hca. destruct (He j Hj) as (_ & _ & Hg). destruct (Hg (nth j g c0) (HgR j)) as (_ & Hg2). exact Hg2.
Qed.
End Entrywise.
