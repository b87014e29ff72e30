(** Maxima, nodes given from outside, and all nodes together. *)
From Coq Require Import Reals ZArith Relations Lra Psatz Ring.
From Verif Require Obj_Model.
From Verif Require Import Obj_Spec Obj_Proofs.
From Verif Require Import Base GraphExec_Spec Shape_Model GMath_Model GMath_Spec GMath_Proofs GMath_Proofs2 GMath_Proofs3 GMath_Proofs4 GMath_Proofs5 GMath_Proofs6.
Set Implicit Arguments.
Local Open Scope R_scope.

(** ** argmax *)
Definition peak (l : list R) (i : nat) : Prop := (i < length l)%nat /\ forall i', (i' < length l)%nat -> i' <> i -> nth i' l 0 < nth i l 0.
Lemma argmax_from_after l : forall i best m, (forall x, In x l -> x < m) -> argmax_from l i best m = best.
Proof.
  induction l as [|x l IH]; intros i best m H; cbn; [reflexivity|]. destruct (Rlt_dec m x) as [Hl|Hl]; [specialize (H x (or_introl eq_refl)); lra|].
  apply IH. intros y Hy. apply H. now right.
Qed.
Lemma argmax_from_peak l : forall k i best m, (k < length l)%nat -> m < nth k l 0 -> (forall k', (k' < length l)%nat -> k' <> k -> nth k' l 0 < nth k l 0) ->
  argmax_from l i best m = (i + k)%nat.
Proof.
  induction l as [|x l IH]; intros k i best m Hk Hm Hp; cbn in Hk; [lia|]. cbn [argmax_from]. destruct k as [|k].
  - cbn in Hm. destruct (Rlt_dec m x); [|contradiction]. rewrite argmax_from_after; [lia|].
    intros y Hy. apply (In_nth _ _ 0) in Hy. destruct Hy as (j & Hj & <-). exact (Hp (S j) ltac:(cbn; lia) ltac:(lia)).
  - cbn in Hm. assert (Hx : x < nth k l 0) by exact (Hp 0%nat ltac:(cbn; lia) ltac:(lia)).
    replace (i + S k)%nat with (S i + k)%nat by lia. destruct (Rlt_dec m x); (apply IH; [lia|assumption|]); intros k' Hk' Hn; exact (Hp (S k') ltac:(cbn; lia) ltac:(lia)).
Qed.
Lemma argmax_peak l i : peak l i -> argmax l = i.
Proof.
  intros (Hi & Hp). destruct l as [|x l]; cbn in Hi; [lia|]. cbn [argmax]. destruct i as [|i].
  - apply argmax_from_after. intros y Hy. apply (In_nth _ _ 0) in Hy. destruct Hy as (j & Hj & <-). exact (Hp (S j) ltac:(cbn; lia) ltac:(lia)).
  - replace (S i) with (1 + i)%nat by lia. apply argmax_from_peak; [lia|exact (Hp 0%nat ltac:(cbn; lia) ltac:(lia))|].
    intros k' Hk' Hn. exact (Hp (S k') ltac:(cbn; lia) ltac:(lia)).
Qed.

Definition a0 : arr := mkarr false [].
Lemma curves_nth t0 fx ivs us ds : curves t0 fx ivs us ds -> forall i, (i < length ivs)%nat -> moves (nth i us (fun _ => a0)) t0 (nth i ivs a0) (nth i ds []).
Proof.
  induction 1 as [|f a u d fx ivs us ds Hm Hf Hc IH]; intros i Hi; cbn in Hi; [lia|]. destruct i as [|i]; [exact Hm|]. apply IH. lia.
Qed.
Lemma total_rate_nth flags : forall gs ds, length gs = length flags -> length ds = length flags ->
  total_rate flags gs ds = sumj (length flags) (fun i => rate (nth i flags false) (nth i gs []) (nth i ds [])).
Proof.
  induction flags as [|b flags IH]; intros [|g gs] [|d ds] H1 H2; cbn in H1, H2; try lia; [reflexivity|].
  cbn [total_rate length]. rewrite IH by lia. unfold sumj. cbn [seq map]. rewrite <- seq_shift, map_map. reflexivity.
Qed.
Lemma rsum_swap {A B} (f : A -> B -> R) l l' : rsum (map (fun i => rsum (map (fun j => f i j) l')) l) = rsum (map (fun j => rsum (map (fun i => f i j) l)) l').
Proof.
  induction l as [|i l IH]; [symmetry; apply rsum_zero; reflexivity|]. cbn [map]. unfold rsum at 1. cbn [fold_right]. fold (rsum (map (fun i => rsum (map (fun j => f i j) l')) l)).
  rewrite IH. rewrite <- rsum_plus. apply rsum_ext. intros j _. reflexivity.
Qed.

Lemma max_ok fx ivs v us ds t0 : suits KMax fx ivs v -> keval KMax ivs = Ok v -> curves t0 fx ivs us ds -> local_ok KMax fx ivs v us ds t0.
Proof.
  intros Hs Hv Hc. cbn [suits] in Hs. cbn [keval] in Hv. destruct (stacked ivs) as [n|] eqn:En; [|discriminate]. cbn [bind] in Hv. injection Hv as <-.
  assert (Hst : (forall a, In a ivs -> size a = n) /\ existsb cpx ivs = false /\ ivs <> []).
  { unfold stacked in En. destruct ivs as [|a l]; [discriminate|]. destruct (forallb _ _) eqn:E1; [|discriminate]. destruct (existsb cpx _) eqn:E2; [discriminate|].
    injection En as <-. split; [|split; [reflexivity|discriminate]]. intros b Hb. apply Nat.eqb_eq. exact (proj1 (forallb_forall _ _) E1 b Hb). }
  destruct Hst as (Hsz & Hrl & Hne). set (N := length ivs).
  destruct (curves_length Hc) as (L1 & L2 & L3).
  assert (Hreal : forall i, (i < N)%nat -> cpx (nth i ivs a0) = false).
  { intros i Hi. destruct (cpx (nth i ivs a0)) eqn:E; [|reflexivity]. assert (existsb cpx ivs = true) by (apply existsb_exists; eexists; split; [apply nth_In; exact Hi|exact E]). congruence. }
  assert (HszN : forall i, (i < N)%nat -> size (nth i ivs a0) = n) by (intros i Hi; apply Hsz; apply nth_In; exact Hi).
  assert (Hcol : forall l j i, (i < length l)%nat -> nth i (column l j) 0 = fst (entry (nth i l a0) j)).
  { intros l j i Hi. unfold column. rewrite (nth_map _ _ a0) by exact Hi. reflexivity. }
  assert (HcolL : forall l j, length (column l j) = length l) by (intros; apply map_length).
  assert (Hpk : forall j, (j < n)%nat -> exists i, (i < N)%nat /\ near t0 (fun t => peak (column (map (fun u => u t) us) j) i)).
  { intros j Hj. destruct (Hs j) as (i & Hi & Hp); [unfold size; cbn; now rewrite map_length, seq_length|]. exists i. split; [exact Hi|].
    assert (Hn : near t0 (fun t => forall i', (i' < N)%nat -> i' <> i -> fst (entry (nth i' us (fun _ => a0) t) j) < fst (entry (nth i us (fun _ => a0) t) j))).
    { apply (@near_below t0 N (fun i' t => i' <> i -> fst (entry (nth i' us (fun _ => a0) t) j) < fst (entry (nth i us (fun _ => a0) t) j))).
      intros i' Hi'. destruct (Nat.eq_dec i' i) as [->|Hd]; [apply near_all; congruence|].
      assert (M1 := curves_nth Hc Hi). assert (M2 := curves_nth Hc Hi').
      assert (J1 : (j < size (nth i ivs a0))%nat) by (rewrite HszN by exact Hi; exact Hj). assert (J2 : (j < size (nth i' ivs a0))%nat) by (rewrite HszN by exact Hi'; exact Hj).
      destruct (moves_entry M1 J1) as (D1 & _). destruct (moves_entry M2 J2) as (D2 & _).
      assert (Hlt : 0 < fst (entry (nth i us (fun _ => a0) t0) j) - fst (entry (nth i' us (fun _ => a0) t0) j)).
      { rewrite (moves_at M1), (moves_at M2). pose proof (Hp i' (nth i ivs a0) (nth i' ivs a0) Hd (nth_error_nth' _ _ Hi) (nth_error_nth' _ _ Hi')). lra. }
      eapply near_impl; [|exact (near_curve (derivable_pt_lim_minus _ _ _ _ _ D1 D2) (near_lt Hlt))]. cbv beta. unfold minus_fct. intros t Ht _. lra. }
    eapply near_impl; [|exact Hn]. cbv beta. intros t Ht. unfold peak. rewrite HcolL, map_length, L2. fold N. split; [exact Hi|]. intros i' Hi' Hd.
    rewrite !Hcol by (rewrite map_length, L2; assumption).
    rewrite !(nth_map (fun u => u t) us (fun _ => a0)) by (rewrite L2; assumption). apply Ht; assumption. }
  destruct (@choose_list nat _ 0%nat n Hpk) as (top & HtL & Htop). cbv beta in Htop.
  set (top_ := fun j => nth j top 0%nat) in *.
  set (w := fun t => mkarr false (map (fun j => creal (maximum (column (map (fun u => u t) us) j))) (seq 0 n))).
  set (e := map (fun j => creal (fst (nth j (nth (top_ j) ds []) c0))) (seq 0 n)).
  assert (Hmax : forall j, (j < n)%nat -> near t0 (fun t => maximum (column (map (fun u => u t) us) j) = fst (entry (nth (top_ j) us (fun _ => a0) t) j))).
  { intros j Hj. destruct (Htop j Hj) as (Hi & Hp). eapply near_impl; [|exact Hp]. cbv beta. intros t Ht. unfold maximum. rewrite (argmax_peak Ht).
    rewrite Hcol by (rewrite map_length, L2; exact Hi). rewrite (nth_map (fun u => u t) us (fun _ => a0)) by (rewrite L2; exact Hi). reflexivity. }
  exists w, e. split; [|split].
  - eapply near_impl; [|exact (curves_near Hc)]. cbv beta. intros t (E1 & E2 & _). cbn [keval].
    assert (Est : stacked (map (fun u => u t) us) = Ok n).
    { revert E1 E2. generalize (map (fun u => u t) us) as vs. intros vs E1 E2. unfold stacked in *. destruct vs as [|b vs]; [destruct ivs; [contradiction|discriminate]|]. destruct ivs as [|a l]; [contradiction|].
      assert (Eb : size b = size a) by (cbn in E2; congruence).
      assert (Hall : forall x, In x (b :: vs) -> size x = n).
      { intros x Hx. assert (Hin : In (size x) (map size (a :: l))) by (rewrite <- E2; now apply in_map). apply in_map_iff in Hin. destruct Hin as (y & <- & Hy). now apply Hsz. }
      replace (forallb _ (b :: vs)) with true.
      - rewrite (existsb_cpx (b :: vs)), E1, <- existsb_cpx, Hrl. f_equal. apply Hall. now left.
      - symmetry. apply forallb_forall. intros x Hx. apply Nat.eqb_eq. rewrite (Hall x Hx). symmetry. apply Hall. now left. }
    rewrite Est. reflexivity.
  - constructor.
    + unfold w. now rewrite (curves_at Hc).
    + apply near_all. intros t. split; [reflexivity|]. split; [unfold w, size; cbn; now rewrite !map_length|]. intros _. unfold w. cbn. apply Forall_forall. intros z Hz. apply in_map_iff in Hz. destruct Hz as (j & <- & _). reflexivity.
    + unfold e, size. cbn. now rewrite !map_length.
    + intros _. apply Forall_forall. intros z Hz. apply in_map_iff in Hz. destruct Hz as (j & <- & _). reflexivity.
    + intros j Hj. unfold size in Hj. cbn in Hj. rewrite map_length, seq_length in Hj. unfold e. rewrite (nth_map _ _ 0%nat) by (rewrite seq_length; exact Hj). rewrite seq_nth by exact Hj. cbn [plus].
      destruct (Htop j Hj) as (Hi & _). assert (M := curves_nth Hc Hi). assert (J : (j < size (nth (top_ j) ivs a0))%nat) by (rewrite HszN by exact Hi; exact Hj).
      eapply cd_near; [|exact (cd_real (proj1 (moves_entry M J)))]. eapply near_impl; [|exact (Hmax j Hj)]. cbv beta. intros t Ht. unfold entry, w. cbn [dat].
      rewrite (nth_map _ _ 0%nat) by (rewrite seq_length; exact Hj). rewrite seq_nth by exact Hj. cbn [plus]. now rewrite Ht.
  - intros g (Hg & HgR). unfold size in Hg. cbn in Hg. rewrite map_length, seq_length in Hg. specialize (HgR eq_refl).
    set (G := fun i => map (fun jx => if Nat.eqb (argmax (column ivs (fst jx))) i then snd jx else creal 0) (combine (seq 0 n) g)).
    assert (GL : forall i, length (G i) = n) by (intros i; unfold G; rewrite map_length, combine_length, seq_length; lia).
    assert (Gn : forall i j, (j < n)%nat -> nth j (G i) c0 = if Nat.eqb (top_ j) i then nth j g c0 else c0).
    { intros i j Hj. unfold G. rewrite (combine_nth_map _ _ _ 0%nat c0) by (rewrite seq_length; now symmetry). rewrite seq_length.
      rewrite (nth_map _ _ 0%nat) by (rewrite seq_length; exact Hj). cbn [fst snd]. rewrite !(seq_nth _ _ Hj). cbn [plus]. rewrite ?(seq_nth _ _ Hj). cbn [plus].
      destruct (Htop j Hj) as (_ & Hp). apply near_at in Hp. rewrite (curves_at Hc) in Hp. rewrite (argmax_peak Hp). reflexivity. }
    exists (map G (seq 0 N)). split; [|split].
    + cbn [kgrad]. rewrite En. cbn [bind]. rewrite (proj2 (Nat.eqb_eq _ _) Hg). reflexivity.
    + assert (HF : forall fx' ivs' k, length fx' = length ivs' -> (forall a, In a ivs' -> size a = n) ->
        Forall2 (fun fa g' => length g' = arrival KMax (mkarr false (map (fun j => creal (maximum (column ivs j))) (seq 0 n))) (snd fa) /\ (fst fa = false -> grad_for (snd fa) g')) (combine fx' ivs') (map G (seq k (length ivs')))).
      { clear - GL Gn HgR. induction fx' as [|f fx' IH]; intros [|a ivs'] k HL Ha; cbn in HL; try lia; cbn [combine length seq map]; constructor.
        - cbn [fst snd arrival]. rewrite GL, (Ha a) by (now left). split; [reflexivity|]. intros _. split; [rewrite GL; symmetry; apply Ha; now left|]. intros _.
          apply real_nth. intros j. destruct (Nat.lt_ge_cases j n) as [Hj|Hj]; [|rewrite nth_overflow by (rewrite GL; exact Hj); reflexivity].
          rewrite Gn by exact Hj. destruct (Nat.eqb _ _); [exact (proj1 (real_nth _) HgR j)|reflexivity].
        - apply IH; [lia|]. intros b Hb. apply Ha. now right. }
      apply HF; assumption.
    + rewrite total_rate_nth by (rewrite ?map_length, ?seq_length; auto). rewrite map_length. fold N. cbn [cpx].
      rewrite rate_sum by (unfold e; rewrite map_length, seq_length; exact Hg). unfold e. rewrite map_length, seq_length. cbn [fac]. rewrite Rmult_1_l.
      transitivity (sumj N (fun i => sumj n (fun j => if Nat.eqb (top_ j) i then fst (cmul (nth j g c0) (nth j (nth i ds []) c0)) else 0))).
      * apply sumj_ext. intros i Hi. assert (M := curves_nth Hc Hi). assert (Ld : length (nth i ds []) = n) by (rewrite (moves_length M); apply HszN; exact Hi).
        rewrite (nth_map _ _ 0%nat) by (rewrite seq_length; exact Hi). rewrite seq_nth by exact Hi. cbn [plus]. rewrite rate_sum by (rewrite GL; now symmetry).
        rewrite (nth_map cpx ivs a0) by exact Hi. rewrite Hreal by exact Hi. cbn [fac]. rewrite Rmult_1_l, Ld. apply sumj_ext. intros j Hj. rewrite Gn by exact Hj. destruct (Nat.eqb _ _); [reflexivity|].
        unfold cmul, c0, creal. cbn. ring.
      * unfold sumj. rewrite rsum_swap. fold (sumj n (fun j => sumj N (fun i => if Nat.eqb (top_ j) i then fst (cmul (nth j g c0) (nth j (nth i ds []) c0)) else 0))).
        apply rsum_ext. intros j Hj. apply in_seq in Hj. assert (Hjn : (j < n)%nat) by lia.
        fold (sumj N (fun i => if Nat.eqb (top_ j) i then fst (cmul (nth j g c0) (nth j (nth i ds []) c0)) else 0)).
        rewrite (sumj_single (fun i => fst (cmul (nth j g c0) (nth j (nth i ds []) c0)))) by (apply Htop; exact Hjn).
        rewrite (nth_map _ _ 0%nat) by (rewrite seq_length; exact Hjn). rewrite seq_nth by exact Hjn. cbn [plus].
        pose proof (proj1 (real_nth _) HgR j) as Hgj. unfold cmul, creal. cbn. rewrite Hgj. ring.
Qed.

(** ** KExt *)
Lemma ext_ok h fn gr fx ivs v us ds t0 : suits (KExt h fn gr) fx ivs v -> ivs <> [] -> keval (KExt h fn gr) ivs = Ok v -> curves t0 fx ivs us ds -> local_ok (KExt h fn gr) fx ivs v us ds t0.
Proof.
  intros Hs Hne Hv Hc. cbn [suits] in Hs. destruct (Nat.eqb_spec (length ivs) 0) as [E|_]; [destruct ivs; [contradiction|discriminate]|].
  cbn [keval] in Hv. destruct (Hs v Hv) as (Hg & Hd). destruct (curves_length Hc) as (L1 & L2 & L3).
  destruct (Hd us ds t0) as (w & e & H1 & H2 & H3); [|exact L2|exact L3|].
  { clear - Hc. induction Hc; cbn; constructor; auto. }
  exists w, e. split; [exact H1|]. split; [exact H2|]. intros g HgG. destruct (Hg g HgG) as (gs & E & HF). exists gs. split; [exact E|]. split; [|now apply H3].
  cbn [arrival]. clear - HF L1. revert fx L1. induction HF as [|a g' ivs gs Ha HF IH]; intros [|f fx] L1; cbn in L1; try lia; cbn; constructor; [|apply IH; lia].
  cbn. split; [exact (proj1 Ha)|auto].
Qed.

(** ** All nodes *)
Theorem node_ok k fx ivs v us ds t0 : suits k fx ivs v -> ivs <> [] -> Forall (fun a => size a <> 0%nat) ivs ->
  match k with KVar _ | KConst _ => False | _ => True end ->
  keval k ivs = Ok v -> curves t0 fx ivs us ds -> local_ok k fx ivs v us ds t0.
Proof.
  intros Hs Hne Hsz Hk Hv Hc. destruct k.
  - destruct Hk.
  - destruct Hk.
  - now apply sum_ok.
  - now apply prod_ok.
  - pose proof Hs as (a & -> & _). now apply pow_ok.
  - pose proof Hs as (a & -> & _). now apply abs_ok.
  - now apply dot_ok.
  - pose proof Hs as (a & -> & _). apply norm_ok; auto. now inversion Hsz.
  - now apply max_ok.
  - pose proof Hs as (a & ->). now apply sig_ok.
  - pose proof Hs as (a & ->). now apply slice_ok.
  - pose proof Hs as (a & ->). now apply conj_ok.
  - pose proof Hs as (a & ->). now apply cast_ok.
  - now apply ext_ok.
Qed.
