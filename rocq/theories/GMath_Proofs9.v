(** The gradient of a graph of numeric nodes: counting, sharing, and the assembly. *)
From Coq Require Import Reals ZArith Relations Lra Psatz Permutation.
From Verif Require Obj_Model.
From Verif Require Import Obj_Spec Obj_Proofs.
From Verif Require Import Base GraphExec_Model GraphExec_Spec GraphExec_Proofs GraphExec_Proofs2 GraphExec_Proofs3 GradHeap_Model HeapChain_Proofs.
From Verif Require Import Shape_Model GMath_Model GMath_Spec GMath_Proofs GMath_Proofs2 GMath_Proofs5 GMath_Proofs6 GMath_Proofs7 GMath_Proofs8.
Set Implicit Arguments.
Local Open Scope R_scope.

(** *** which inputs of a sum hold the array that came in *)
Lemma sharing_first m : forall ivs cs d k, length cs = length ivs -> (d < length ivs)%nat ->
  (forall j a, (j < d)%nat -> nth_error ivs j = Some a -> size a <> m) -> (forall a, nth_error ivs d = Some a -> size a = m) ->
  sharing (fun i => negb (Nat.eqb i (k + d))) k cs = but_first m cs ivs.
Proof.
  assert (Hall : forall cs k d, (d < k)%nat -> sharing (fun i => negb (Nat.eqb i d)) k cs = cs).
  { induction cs as [|c cs IH]; intros k d Hd; cbn [sharing]; [reflexivity|]. replace (Nat.eqb k d) with false by (symmetry; apply Nat.eqb_neq; lia).
    cbn [negb]. f_equal. apply IH. lia. }
  induction ivs as [|a ivs IH]; intros [|c cs] d k Hl Hd H1 H2; cbn in Hl, Hd; try lia. cbn [sharing but_first]. destruct d as [|d].
  - rewrite Nat.add_0_r, Nat.eqb_refl. cbn [negb]. rewrite (H2 a eq_refl), Nat.eqb_refl. apply Hall. lia.
  - replace (Nat.eqb k (k + S d)) with false by (symmetry; apply Nat.eqb_neq; lia). cbn [negb].
    replace (Nat.eqb (size a) m) with false by (symmetry; apply Nat.eqb_neq; apply (H1 0%nat); [lia|reflexivity]).
    f_equal. replace (k + S d)%nat with (S k + d)%nat by lia. apply IH; [lia|lia| |exact H2].
    intros j b Hj Hb. apply (H1 (S j)); [lia|exact Hb].
Qed.
Lemma dominant_first ivs d m : dominant ivs = Ok d -> Forall (fun a => size a <> 0%nat) ivs ->
  Forall (fun a => size a = 1 \/ size a = m)%nat ivs -> Exists (fun a => size a = m) ivs ->
  (d < length ivs)%nat /\ (forall j a, (j < d)%nat -> nth_error ivs j = Some a -> size a <> m) /\ (forall a, nth_error ivs d = Some a -> size a = m).
Proof.
  intros Hd Hz Hf He. destruct ivs as [|a0 l]; [discriminate|]. unfold dominant in Hd. set (ivs := a0 :: l) in *.
  apply Exists_exists in He as (e & Hin & Hm). rewrite Forall_forall in Hz, Hf.
  destruct (forallb (fun b => Nat.eqb (size b) (size a0)) ivs) eqn:Eall.
  - injection Hd as <-. rewrite forallb_forall in Eall. split; [unfold ivs; cbn; lia|]. split; [intros; lia|]. cbn. intros a Ha. injection Ha as <-.
    specialize (Eall e Hin). apply Nat.eqb_eq in Eall. lia.
  - destruct (Nat.eq_dec m 1) as [->|Hm1].
    { exfalso. assert (forallb (fun b => Nat.eqb (size b) (size a0)) ivs = true); [|congruence]. apply forallb_forall. intros b Hb.
      destruct (Hf b Hb), (Hf a0 (or_introl eq_refl)); apply Nat.eqb_eq; lia. }
    assert (Hpos : (1 < m)%nat) by (specialize (Hz e Hin); lia).
    assert (Hidx : forall j a, nth_error ivs j = Some a -> size a = m <-> In j (filter (fun i => Nat.ltb 1 (size (nth i ivs a0))) (seq 0 (length ivs)))).
    { intros j a Ha. assert (Hj : (j < length ivs)%nat) by (apply nth_error_Some; congruence). rewrite filter_In, in_seq, (nth_error_nth _ _ a0 Ha), Nat.ltb_lt.
      specialize (Hf a (nth_error_In _ _ Ha)). split; [intros; lia|intros (_ & ?); lia]. }
    destruct (In_nth_error _ _ Hin) as (je & Hje).
    destruct (filter (fun i => Nat.ltb 1 (size (nth i ivs a0))) (seq 0 (length ivs))) as [|i [|]] eqn:Ef; [|injection Hd as <-|discriminate].
    + exfalso. apply (proj1 (Hidx _ _ Hje)) in Hm. exact Hm.
    + assert (je = i) as -> by (destruct (proj1 (Hidx _ _ Hje) Hm) as [?|[]]; congruence). split; [apply nth_error_Some; congruence|]. split.
      * intros j a Hj Ha Hs. apply (Hidx _ _ Ha) in Hs. destruct Hs as [?|[]]; lia.
      * intros a Ha. congruence.
Qed.
Lemma sharing_none cs : forall k, sharing (fun _ => false) k cs = [].
Proof. induction cs; intros k; cbn; auto. Qed.
Lemma sharing_ext sh sh' cs : (forall i, sh i = sh' i) -> forall k, sharing sh k cs = sharing sh' k cs.
Proof. intros H. induction cs as [|c cs IH]; intros k; cbn [sharing]; [reflexivity|]. now rewrite H, IH. Qed.
Lemma sharing_passed_on k cs ivs v fx : length cs = length ivs -> ivs <> [] -> Forall (fun a => size a <> 0%nat) ivs -> keval k ivs = Ok v -> suits k fx ivs v ->
  sharing (shares k ivs) 0 cs = passed_on k cs ivs v.
Proof.
  intros Hl Hne Hz Hk Hs. destruct k; try apply sharing_none.
  - cbn [keval] in Hk. cbn [shares passed_on]. unfold shares. destruct (dominant ivs) as [d|] eqn:Ed; [|discriminate]. cbn [bind] in Hk.
    destruct (np_reduce cadd (creal 0) (map dat ivs)) as [r|] eqn:Er; [|discriminate]. injection Hk as <-.
    destruct (reduce_fits cadd (creal 0) Hne Hz Er) as (Hf & He).
    destruct (@dominant_first ivs d (length r) Ed Hz Hf He) as (H1 & H2 & H3). exact (@sharing_first (length r) ivs cs d 0 Hl H1 H2 H3).
  - cbn in Hs. destruct Hs as (a & ->). destruct cs as [|c [|]]; try discriminate. reflexivity.
Qed.

(** *** how often a node is used *)
Lemma count_flat (f : nat -> list nat) c : forall U n, In n U -> (count_occ Nat.eq_dec (f n) c <= count_occ Nat.eq_dec (flat_map f U) c)%nat.
Proof.
  induction U as [|x U IH]; intros n Hn; [destruct Hn|]. cbn [flat_map]. rewrite count_occ_app. destruct Hn as [->|Hn]; [lia|]. specialize (IH n Hn). lia.
Qed.
Lemma count_flat2 (f : nat -> list nat) c : forall U n n', In n U -> In n' U -> n <> n' ->
  (count_occ Nat.eq_dec (f n) c + count_occ Nat.eq_dec (f n') c <= count_occ Nat.eq_dec (flat_map f U) c)%nat.
Proof.
  induction U as [|x U IH]; intros n n' Hn Hn' Hne; [destruct Hn|]. cbn [flat_map]. rewrite count_occ_app.
  destruct Hn as [->|Hn], Hn' as [->|Hn']; [congruence| | |].
  - pose proof (@count_flat f c U n' Hn'). lia.
  - pose proof (@count_flat f c U n Hn). lia.
  - specialize (IH n n' Hn Hn' Hne). lia.
Qed.
Lemma count_in c l : In c l -> (1 <= count_occ Nat.eq_dec l c)%nat.
Proof. intros H. apply (count_occ_In Nat.eq_dec) in H. lia. Qed.

Lemma F2_len {A B} (Q : A -> B -> Prop) l l' : Forall2 Q l l' -> length l = length l'.
Proof. induction 1; cbn; congruence. Qed.

(** *** additivity *)
Lemma gadd_same a b : length a = length b -> gadd (Gr a) (Gr b) = Gr (map (fun xy => cadd (fst xy) (snd xy)) (combine a b)).
Proof. intros H. unfold gadd, inplace. rewrite H, Nat.eqb_refl. reflexivity. Qed.
Lemma rate_add b : forall a a' d, length a = length a' -> rate b (map (fun xy => cadd (fst xy) (snd xy)) (combine a a')) d = rate b a d + rate b a' d.
Proof.
  intros a a' d. unfold rate. rewrite <- Rmult_plus_distr_l. intros H. f_equal. revert a' d H.
  induction a as [|x a IH]; intros [|x' a'] d H; try discriminate; [cbn; ring|]. destruct d as [|y d]; [cbn; ring|]. injection H as H. specialize (IH a' d H). unfold rsum in *. cbn [combine map fold_right fst snd cadd cmul] in *. rewrite IH. unfold cmul, cadd. cbn [fst snd]. ring.
Qed.
Lemma grad_for_add v a b : grad_for v a -> grad_for v b -> grad_for v (map (fun xy => cadd (fst xy) (snd xy)) (combine a b)).
Proof.
  intros (H1 & H2) (H3 & H4). split; [rewrite map_length, combine_length; lia|]. intros E. specialize (H2 E). specialize (H4 E). clear - H2 H4. revert b H4.
  induction H2 as [|x a Hx Ha IH]; intros [|y b] Hb; cbn; constructor; inversion Hb; subst; [cbn; rewrite Hx; lra|now apply IH].
Qed.
Lemma choose_nodes {A} (P : nat -> A -> Prop) (d0 : A) U : (forall n, In n U -> exists x, P n x) -> exists F, forall n, In n U -> P n (F n).
Proof.
  induction U as [|u U IH]; intros H; [exists (fun _ => d0); intros ? []|]. destruct IH as (F & HF); [intros n Hn; apply H; now right|].
  destruct (H u (or_introl eq_refl)) as (x & Hx). exists (fun n => if Nat.eqb n u then x else F n). intros n Hn.
  destruct (Nat.eqb n u) eqn:E; [apply Nat.eqb_eq in E; now subst|]. apply HF. destruct Hn as [->|Hn]; [|exact Hn]. now rewrite Nat.eqb_refl in E.
Qed.
Lemma rate_zeros {A} b (l : list A) d : rate b (map (fun _ => creal 0) l) d = 0.
Proof.
  unfold rate. replace (rsum _) with 0; [ring|]. symmetry. revert d. induction l as [|x l IH]; intros [|y d]; try reflexivity. unfold rsum in *. cbn [combine map fold_right fst snd]. rewrite IH. unfold cmul, creal. cbn. ring.
Qed.
Lemma sum_vars L vars F : NoDup L -> NoDup vars -> (forall n, In n L -> ~ In n vars -> F n = 0) -> (forall x, In x vars -> ~ In x L -> F x = 0) ->
  sumK R Rplus 0 L F = sumK R Rplus 0 vars F.
Proof.
  intros HL HV H1 H2. assert (Hmon : comm_monoid Rplus 0) by (repeat split; intros; ring).
  assert (Hm : forall n l, memb n l = false -> ~ In n l) by (intros n l E Hn; apply memb_spec in Hn; congruence).
  rewrite <- (sumK_filter R Rplus 0 Hmon L F (fun n => memb n vars)) by (intros n Hn E; apply H1; auto).
  rewrite <- (sumK_filter R Rplus 0 Hmon vars F (fun n => memb n L)) by (intros n Hn E; apply H2; auto).
  apply (sumK_perm R Rplus 0 Hmon). apply NoDup_Permutation; [now apply NoDup_filter|now apply NoDup_filter|].
  intros x. rewrite !filter_In, !memb_spec. tauto.
Qed.

Section Assemble.
Variable kinds : nat -> kind.
Variable inputs : nat -> list nat.
Variable ord : list nat -> list nat -> list nat.
Variable fuel : nat.
Variable ov : dict arr.
Variable vars : list nat.
Variable out : nat.
Variable U : list nat.
Hypothesis Hord : forall blk c, Permutation (ord blk c) c.
Hypothesis Hfuel : (1 + length U <= fuel)%nat.
Hypothesis HG : goos_graph kinds inputs ov vars out U.
Hypothesis HD : differentiable kinds inputs ov vars U.
Notation f := (fun n ivs => keval (kinds n) ivs).
Notation den W := (Den inputs f W).
Notation val := (value_of kinds inputs ov).
Notation heavy := (is_heavy kinds).

Lemma HU : universe inputs [out] U.
Proof using HG.
  destruct (g_nodes HG) as (_ & H). split.
  - intros n [<-|[]]. apply H. exists out. split; [now left|apply rt_refl].
  - intros n Hn c Hc. exact (closed HG _ _ Hn Hc).
Qed.
Lemma In_out : In out U.
Proof using HG. apply (proj1 HU). now left. Qed.
Lemma heavy_ov n : heavy n = true -> ov n = None.
Proof using HG.
  intros H. destruct (ov n) as [a|] eqn:E; [|reflexivity]. destruct (g_over HG n) as (x & Ek); [congruence|]. unfold is_heavy in H. rewrite Ek in H. discriminate.
Qed.

(** evaluation gives the value, and whenever there is a value *)
Lemma eval_value W v : (forall n, heavy n = true -> W n = None) -> (forall x a, W x = Some a -> inputs x = []) ->
  goos_eval kinds inputs ord fuel W out = Ok v <-> den W out v.
Proof using HG Hord Hfuel.
  intros HW HL. assert (Hf : (length [out] + length U <= fuel)%nat) by exact Hfuel. split.
  - unfold goos_eval. destruct (eval_fun _ _ _ _ _ _ _) as [vs|] eqn:E; cbn [bind]; [|discriminate].
    apply (@eval_fun_sound arr inputs f heavy ord Hord [out] U HU (g_dag HG) fuel Hf W HW) in E.
    inversion E as [|? w ? ? Hw]; subst. intros E2. injection E2 as <-. exact Hw.
  - intros Hv. assert (Hden : forall n, reachable inputs [out] n -> exists w, den W n w).
    { intros n (o & [<-|[]] & Hr). apply clos_rt_rtn1 in Hr. induction Hr as [|y z Hyz Hr IH]; [eauto|]. destruct IH as (w & Hw). unfold depends in Hyz.
      destruct Hw as [y w E|y ivs w E HF Hf']; [rewrite (HL _ _ E) in Hyz; destruct Hyz|]. clear - HF Hyz.
      induction HF as [|c x l l' Hx HF IH]; [destruct Hyz|]. destruct Hyz as [->|Hy]; eauto. }
    destruct (@eval_fun_complete arr inputs f heavy ord Hord [out] U HU (g_dag HG) fuel Hf W HW Hden (g_heavy HG)) as (vs & E & HF).
    unfold goos_eval. rewrite E. cbn [bind]. inversion HF as [|? w ? ? Hw HF']; subst. f_equal. exact (Den_det _ _ _ _ _ _ Hw _ Hv).
Qed.

Lemma quiet_leaf n : quiet kinds inputs U n = true -> inputs n = [] /\ used_once inputs U n = true /\ heavy n = false.
Proof using.
  unfold quiet. destruct (inputs n); [|discriminate]. intros H. apply andb_prop in H as (H1 & H2). split; [reflexivity|]. split; [exact H1|]. now apply negb_true_iff.
Qed.
Lemma quiet_used n : quiet kinds inputs U n = true -> exists m, In m U /\ In n (inputs m).
Proof using.
  intros H. apply quiet_leaf in H as (_ & H & _). unfold used_once in H. apply Nat.eqb_eq in H.
  assert (Hin : In n (flat_map inputs U)) by (apply (count_occ_In Nat.eq_dec); rewrite H; apply Nat.lt_0_1). apply in_flat_map in Hin. exact Hin.
Qed.
Lemma child_not_out n : In n U -> ~ In out (inputs n).
Proof using HG.
  intros Hn Ho. apply (proj2 (g_nodes HG)) in Hn as (o & [<-|[]] & Hr). apply (@g_dag _ _ _ _ _ _ HG out). apply clos_rt_t with n; [exact Hr|]. now apply t_step.
Qed.
Lemma quiet_out : quiet kinds inputs U out = false.
Proof using HG.
  destruct (quiet kinds inputs U out) eqn:E; [|reflexivity]. destruct (quiet_used _ E) as (m & Hm & Ho). destruct (child_not_out m Hm Ho).
Qed.
Lemma spare_spec n : spare kinds inputs vars U n = true -> quiet kinds inputs U n = true /\ ~ In n vars.
Proof using.
  unfold spare. intros H. apply andb_prop in H as (H1 & H2). split; [exact H1|]. intros Hx. apply memb_spec in Hx. rewrite Hx in H2. discriminate.
Qed.
Lemma spare_fixed n : spare kinds inputs vars U n = true -> fixed inputs vars n = true /\ In n U.
Proof using HG.
  intros H. destruct (spare_spec _ H) as (H1 & H2). destruct (quiet_leaf _ H1) as (Hl & _). split.
  - unfold fixed. rewrite Hl. apply negb_true_iff. destruct (memb n vars) eqn:E; [apply memb_spec in E; contradiction|reflexivity].
  - destruct (quiet_used _ H1) as (m & Hm & Hc). exact (closed HG _ _ Hm Hc).
Qed.

Variable v0 : arr.
Hypothesis Hv0 : val out v0.
Hypothesis Hreal : cpx v0 = false.
Hypothesis Hone : size v0 = 1%nat.

Section Along.
Variable W : R -> dict arr.
Variable t0 : R.
Variable dv : list (list C).
Hypothesis HW : varying ov vars W t0 dv.
Variable VAL : nat -> arr.
Hypothesis HVAL : forall n, In n U -> val n (VAL n).
Variable D : nat -> list C.
Hypothesis HDw : forall n, In n U -> exists w, goes kinds inputs vars W t0 n (VAL n) w (D n).

Definition gok (n : nat) (a : grad) : Prop :=
  In n U /\ match a with
  | Gr l => if fixed inputs vars n && negb (Nat.eqb n out) then arrives kinds inputs ov U n (length l) else grad_for (VAL n) l
  | Broken => False
  end.
Definition pn (n : nat) (a : grad) : R := match a with Gr l => rate (cpx (VAL n)) l (D n) | Broken => 0 end.

Lemma fixed_still n : In n U -> fixed inputs vars n = true -> forall j, nth j (D n) c0 = c0.
Proof using HDw. intros Hn Hf. destruct (HDw _ Hn) as (w & _ & H2 & H3). exact (moves_fixed (H3 Hf) H2). Qed.
Lemma gok_add n a b : gok n a -> gok n b -> gok n (gadd a b) /\ pn n (gadd a b) = pn n a + pn n b.
Proof using HD.
  intros (Hn & Ha) (_ & Hb). destruct a as [a|], b as [b|]; try contradiction.
  assert (Hl : length a = length b).
  { destruct (fixed inputs vars n) eqn:Ef; [destruct (Nat.eqb n out)|]; cbn [andb negb] in Ha, Hb; [destruct Ha, Hb; congruence|exact (d_sizes HD Ef Ha Hb)|destruct Ha, Hb; congruence]. }
  rewrite (gadd_same _ _ Hl). split; [|exact (rate_add _ _ _ _ Hl)]. split; [exact Hn|].
  destruct (fixed inputs vars n && negb (Nat.eqb n out)); [|now apply grad_for_add].
  rewrite map_length, combine_length, <- Hl, Nat.min_id. exact Ha.
Qed.
Lemma inputs_val l ivs : incl l U -> Forall2 val l ivs -> ivs = map VAL l.
Proof using HVAL.
  intros Hi HF. induction HF as [|c a l ivs Ha HF IH]; [reflexivity|]. cbn [map]. f_equal.
  - exact (Den_det _ _ _ _ _ _ Ha _ (HVAL _ (Hi c (or_introl eq_refl)))).
  - apply IH. intros x Hx. apply Hi. now right.
Qed.
Lemma curves_inputs l : incl l U -> exists us, curves t0 (map (fixed inputs vars) l) (map VAL l) us (map D l) /\
  near t0 (fun t => Forall2 (den (W t)) l (map (fun u => u t) us)).
Proof using HDw.
  induction l as [|c l IH]; intros Hi.
  - exists []. split; [constructor|]. apply near_all. intros t. constructor.
  - destruct IH as (us & Hc & Hn); [intros x Hx; apply Hi; now right|]. destruct (HDw _ (Hi c (or_introl eq_refl))) as (w & H1 & H2 & H3).
    exists (w :: us). split; [now constructor|]. eapply near_impl; [|exact (near_and H1 Hn)]. cbv beta. intros t (Ha & Hb). cbn. now constructor.
Qed.
Lemma sum_pn_total l gs : sum_pn grad R Rplus 0 pn l (map Gr gs) = total_rate (map cpx (map VAL l)) gs (map D l).
Proof using. revert gs. induction l as [|c l IH]; intros [|g gs]; cbn; try reflexivity. now rewrite IH. Qed.

Lemma pb_ok n ivs a : In n U -> Forall2 val (inputs n) ivs -> inputs n <> [] -> gok n a ->
  exists gs, node_grad kinds n ivs a = Ok gs /\ Forall2 gok (inputs n) gs /\ sum_pn grad R Rplus 0 pn (inputs n) gs = pn n a /\
    forall i x, shares (kinds n) ivs i = true -> nth_error gs i = Some x -> x = a.
Proof using HG HD HW HVAL HDw.
  intros Hn HF Hne (_ & Ha). destruct a as [l|]; [|contradiction].
  assert (Hnf : fixed inputs vars n = false) by (unfold fixed; destruct (inputs n); [contradiction|reflexivity]). rewrite Hnf in Ha. cbn [andb] in Ha.
  assert (Hi : incl (inputs n) U) by (intros c; exact (closed HG n c Hn)).
  assert (Hiv := inputs_val Hi HF). destruct (curves_inputs Hi) as (us & Hc & Hnear). rewrite Hiv in HF.
  destruct (@inner_goes _ _ _ _ _ _ HG HD W t0 dv HW n (VAL n) _ us (map D (inputs n)) Hn Hne HF (HVAL _ Hn) Hc Hnear) as (w & e & Hg & Hgr).
  destruct (HDw _ Hn) as (w' & Hg'). destruct (goes_unique Hg Hg') as (_ & ->). destruct (Hgr l Ha) as (gs & E1 & E2 & E3). rewrite Hiv.
  exists (map Gr gs). unfold node_grad. cbn [sound bind]. rewrite E1. cbn [bind]. split; [reflexivity|]. split; [|split].
  - assert (Hch : forall i c, nth_error (inputs n) i = Some c -> In c U /\ c <> out /\ arrives kinds inputs ov U c (arrival (kinds n) (VAL n) (VAL c))).
    { intros i c Hc'. assert (Hcin := nth_error_In _ _ Hc'). split; [now apply Hi|]. split; [intros ->; exact (child_not_out n Hn Hcin)|].
      exists n, (map VAL (inputs n)), (VAL n), i, (VAL c). split; [exact Hn|]. split; [exact HF|]. split; [now apply HVAL|]. split; [exact Hc'|]. split; [now apply map_nth_error|]. reflexivity. }
    clear - E2 Hch. revert gs E2 Hch. generalize (inputs n) as cs. induction cs as [|c cs IH]; intros gs E2 Hch; cbn [map combine] in E2; inversion E2 as [|? g ? gs' (H1 & H2) H3]; subst; constructor.
    + cbn [fst snd] in H1, H2. destruct (Hch 0%nat c eq_refl) as (Q1 & Q2 & Q3). split; [exact Q1|]. apply Nat.eqb_neq in Q2. rewrite Q2. cbn [negb]. rewrite andb_true_r.
      destruct (fixed inputs vars c); [now rewrite H1|auto].
    + apply IH; [exact H3|]. intros i c' Hc'. exact (Hch (S i) c' Hc').
  - rewrite sum_pn_total. cbn [pn]. exact E3.
  - intros i x Hs Hx. rewrite nth_error_map in Hx. destruct (nth_error gs i) as [g|] eqn:Eg; [|discriminate]. injection Hx as <-. f_equal.
    destruct (kinds n); try discriminate.
    + cbn [kgrad] in E1. destruct (dominant _) as [d|]; [|discriminate]. cbn [bind] in E1. injection E1 as <-. rewrite nth_error_map in Eg. destruct (nth_error _ i); [|discriminate]. now injection Eg.
    + cbn [kgrad] in E1. injection E1 as <-. destruct i as [|i]; [now injection Eg|]. destruct i; discriminate.
Qed.
Lemma leaf_grad n a : In n U -> inputs n = [] -> P grad gok a -> exists gs, node_grad kinds n [] a = Ok gs.
Proof using HG HD HVAL.
  intros Hn Hl (m & _ & Ha). destruct a as [l|]; [|contradiction]. unfold node_grad. cbn [sound bind].
  assert (H : exists gs, kgrad (kinds n) [] l = Ok gs); [|destruct H as (gs & ->); eexists; reflexivity].
  assert (Hv := HVAL _ Hn). assert (HF : Forall2 val (inputs n) []) by (rewrite Hl; constructor). assert (Hs := d_suits HD Hn HF Hv).
  inversion Hv as [? ? E|? ivs ? E HF' Hf]; subst.
  - destruct (g_over HG n) as (x & Ek); [congruence|]. rewrite Ek. cbn. eauto.
  - rewrite Hl in HF'. inversion HF'; subst. destruct (keval_nil _ Hf) as [(c & Ek & _)|(h & fn & gr & Ek & _)]; rewrite Ek in *; cbn in *; eauto.
Qed.
Lemma share_ok n ivs : In n U -> Forall2 val (inputs n) ivs ->
  Forall (isquiet (quiet kinds inputs U)) (sharing (shares (kinds n) ivs) 0 (inputs n)) \/ few (spare kinds inputs vars U) (sharing (shares (kinds n) ivs) 0 (inputs n)).
Proof using HG HD HVAL.
  intros Hn HF. destruct (inputs n) as [|c l] eqn:El; [left; constructor|]. rewrite <- El in *.
  assert (Hlen := F2_len HF).
  assert (Hne : ivs <> []) by (intros ->; rewrite El in Hlen; discriminate).
  assert (Hi : incl (inputs n) U) by (intros x; exact (closed HG n x Hn)).
  assert (Hov : ov n = None). { destruct (ov n) as [a|] eqn:E; [|reflexivity]. apply (over_leaf HG) in E. congruence. }
  destruct (value_inputs HG (HVAL _ Hn)) as (ivs' & HF' & Hk). specialize (Hk Hov). rewrite <- (Den_det_list _ _ _ _ _ _ HF _ HF') in Hk.
  rewrite (@sharing_passed_on _ _ _ _ _ Hlen Hne (sizes_nonzero HD Hi HF) Hk (d_suits HD Hn HF (HVAL _ Hn))).
  exact (d_shared HD Hn HF (HVAL _ Hn)).
Qed.

Lemma quiet_once n l1 c l2 : In n U -> inputs n = l1 ++ c :: l2 -> quiet kinds inputs U c = true -> ~ In c l2.
Proof using.
  intros Hn E Hq Hc. apply quiet_leaf in Hq as (_ & Hq & _). unfold used_once in Hq. apply Nat.eqb_eq in Hq.
  pose proof (@count_flat inputs c U n Hn) as H. rewrite E, count_occ_app, Hq in H. cbn [count_occ] in H. destruct (Nat.eq_dec c c) as [_|]; [|congruence].
  apply count_in in Hc. clear - H Hc. lia.
Qed.
Lemma quiet_one_user n n' c : In n U -> In n' U -> In c (inputs n) -> In c (inputs n') -> quiet kinds inputs U c = true -> n = n'.
Proof using.
  intros Hn Hn' Hc Hc' Hq. destruct (Nat.eq_dec n n') as [|Hne]; [assumption|]. exfalso. apply quiet_leaf in Hq as (_ & Hq & _). unfold used_once in Hq. apply Nat.eqb_eq in Hq.
  pose proof (@count_flat2 inputs c U n n' Hn Hn' Hne) as H. rewrite Hq in H. apply count_in in Hc, Hc'. clear - H Hc Hc'. lia.
Qed.
Lemma var_val x a : ov x = Some a -> In x U -> VAL x = a.
Proof using HVAL. intros E Hx. assert (H := HVAL _ Hx). inversion H; congruence. Qed.
Lemma var_D x d a u : In x U -> ov x = Some a -> (forall t, W t x = Some (u t)) -> moves u t0 a d -> In x vars -> D x = d.
Proof using HDw HVAL.
  intros Hx E Hu Hm Hin. destruct (HDw _ Hx) as (w & Hg).
  assert (Hg' : goes kinds inputs vars W t0 x a u d).
  { split; [apply near_all; intros t; now apply Den_override|]. split; [exact Hm|]. intros Hf. apply fixed_not_var in Hf. tauto. }
  exact (proj2 (goes_unique Hg Hg')).
Qed.

Lemma along : exists gs, goos_grad kinds inputs ord fuel ov out vars = Ok gs /\
  Forall2 (fun x g => exists a, ov x = Some a /\ grad_for a g) vars gs /\
  total_rate (flags ov vars) gs dv = rate false [creal 1] (D out).
Proof.
  assert (Hf : (length [out] + length U <= fuel)%nat) by exact Hfuel.
  assert (Hden : forall n, reachable inputs [out] n -> exists w, den ov n w).
  { intros n Hn. apply (proj2 (g_nodes HG)) in Hn. exists (VAL n). now apply HVAL. }
  destruct (@forward_complete arr inputs f heavy ord Hord [out] U HU (g_dag HG) fuel Hf ov heavy_ov Hden (g_heavy HG))
    as (g & sched & vals & Hg & Hs & Hnd & Hr & Ha & HP & Ho & He & Hv).
  assert (HUk : forall n, In n (keys g) <-> In n U) by (intros n; rewrite Hr; symmetry; apply (proj2 (g_nodes HG))).
  assert (Hvals : forall n, In n (keys g) -> exists v, vals n = Some v /\ den ov n v) by (intros n Hn; apply Hv; now apply Hr).
  assert (Hclosed : forall n c, In n (keys g) -> In c (inputs n) -> In c (keys g)).
  { intros n c Hn Hc. apply HUk. apply HUk in Hn. exact (closed HG _ _ Hn Hc). }
  assert (Hhp : forall n, In n (keys g) -> n = out \/ exists m, In m (keys g) /\ In n (inputs m)).
  { intros n Hn. apply Hr in Hn as (o & [<-|[]] & Hrt). apply clos_rt_rtn1 in Hrt.
    inversion Hrt as [|y z Hyz Hry]; subst; [now left|]. right. exists y. split; [|assumption].
    apply Hr. exists out. split; [now left|]. now apply clos_rtn1_rt. }
  assert (Hout : In out (keys g)) by (apply HUk; exact In_out).
  assert (Hpar : forall l1 n l2 m, sched = l1 ++ n :: l2 -> In m (keys g) -> In n (inputs m) -> In m l1).
  { intros l1 n l2 m Hsp Hm Hn. apply (Ho l1 n l2 Hsp m). now rewrite Ha. }
  assert (Hin : forall l1 n l2, sched = l1 ++ n :: l2 -> incl (inputs n) l2).
  { intros l1 n l2 Hsp c Hc.
    assert (Hrev : rev sched = rev l2 ++ n :: rev l1) by (rewrite Hsp, rev_app_distr; cbn; now rewrite <- app_assoc).
    apply in_rev. exact (@reversed_order arr inputs f [out] 0 g sched Ha HP Hr Ho Hnd (rev l2) n (rev l1) Hrev c Hc). }
  assert (Hmon : comm_monoid Rplus 0) by (repeat split; intros; ring).
  assert (Hvo : VAL out = v0) by exact (Den_det _ _ _ _ _ _ (HVAL _ In_out) _ Hv0).
  assert (Hseed : gok out (Gr [creal 1])).
  { split; [exact In_out|]. rewrite Nat.eqb_refl, andb_false_r, Hvo. split; [cbn; now rewrite Hone|]. intros _. repeat constructor. }
  destruct (@hbackward_spec arr grad R inputs f ov heavy (node_grad kinds) (fun n ivs i => shares (kinds n) ivs i) gadd Rplus 0 Hmon pn gok gok_add
    (quiet kinds inputs U) (spare kinds inputs vars U)) with (g := g) (vals := vals) (out := out) (seed := Gr [creal 1]) (sched := sched)
    as (h & nx & hg & Hb & L & HLn & HL & Hsum & Hset & HallP & Hleafs); try assumption.
  - intros n Hn. exact (proj1 (spare_spec _ Hn)).
  - intros n a Hn. destruct (spare_fixed _ Hn) as (Hfx & HnU). destruct a as [l|]; [|reflexivity]. cbn [pn]. apply rate_zero. now apply fixed_still.
  - intros n ivs a Hn. apply HUk in Hn. now apply pb_ok.
  - intros n a Hn. apply HUk in Hn. now apply leaf_grad.
  - intros n ivs Hn. apply HUk in Hn. now apply share_ok.
  - intros n ivs i Hn Hh. unfold is_heavy in Hh. destruct (kinds n); try discriminate. reflexivity.
  - intros n Hh. destruct (spare kinds inputs vars U n) eqn:E; [|reflexivity]. apply spare_spec in E as (E & _). apply quiet_leaf in E as (_ & _ & E). congruence.
  - intros n Hq. exact (proj1 (quiet_leaf _ Hq)).
  - intros n l1 c l2 Hn. apply HUk in Hn. now apply quiet_once.
  - intros n n' c Hn Hn'. apply HUk in Hn, Hn'. now apply quiet_one_user.
  - exact (g_heavy HG).
  - exact quiet_out.
  - assert (Hknown : forall x, hg x <> None -> In x U).
    { intros x Hx. apply HUk. refine (@known_backward arr grad g heavy gadd _ vals _ sched out _ _ hg _ Hout Hb x Hx).
      - intros n c Hn. rewrite Ha by exact Hn. now apply Hclosed.
      - intros x' Hx'. exact (Permutation_in _ HP Hx'). }
    set (rel := fun x l => exists a, ov x = Some a /\ grad_for a l /\ match hg x with Some k => h k = Gr l | None => l = map (fun _ => creal 0) (dat a) end).
    assert (Hcol : exists gs, mapM (fun x => match hg x with Some l => sound (h l) | None => bind (dget ov x) (fun v => Ok (map (fun _ => creal 0) (dat v))) end) vars = Ok gs /\ Forall2 rel vars gs).
    { assert (Hxs : forall x, In x vars -> exists l, match hg x with Some l => sound (h l) | None => bind (dget ov x) (fun v => Ok (map (fun _ => creal 0) (dat v))) end = Ok l /\ rel x l).
      { intros x Hx. destruct (ov x) as [a|] eqn:Eo; [|apply (proj2 (g_vars HG)) in Hx; contradiction]. destruct (hg x) as [k|] eqn:Eh.
        - assert (HxU : In x U) by (apply Hknown; congruence).
          assert (HxL : In x L) by (apply HL; split; [now apply HUk|exact (over_leaf HG _ Eo)]).
          destruct (Hleafs x k HxL Eh) as (_ & Hk). assert (Hq : spare kinds inputs vars U x = false).
          { destruct (spare kinds inputs vars U x) eqn:E; [|reflexivity]. apply spare_spec in E. tauto. }
          specialize (Hk Hq). destruct Hk as (_ & Hk). destruct (h k) as [l|] eqn:Ek; [|contradiction]. exists l. split; [reflexivity|]. exists a. split; [exact Eo|].
          assert (Hnf : fixed inputs vars x = false) by (destruct (fixed inputs vars x) eqn:E; [apply fixed_not_var in E; tauto|reflexivity]).
          rewrite Hnf in Hk. cbn [andb] in Hk. rewrite (var_val Eo HxU) in Hk. split; [exact Hk|]. now rewrite Eh.
        - exists (map (fun _ => creal 0) (dat a)). unfold dget. rewrite Eo. cbn [bind]. split; [reflexivity|]. exists a. split; [exact Eo|]. rewrite Eh. split; [|reflexivity].
          split; [apply map_length|]. intros _. apply Forall_map, Forall_forall. reflexivity. }
      clear - Hxs. induction vars as [|x l IH]; cbn [mapM]; [exists []; split; [reflexivity|constructor]|].
      destruct (Hxs x (or_introl eq_refl)) as (g1 & -> & H1). cbn [bind]. destruct IH as (gs & -> & HF); [intros y Hy; apply Hxs; now right|].
      cbn [bind]. exists (g1 :: gs). split; [reflexivity|now constructor]. }
    destruct Hcol as (gs & Ecol & HFg). exists gs. split; [|split].
    + unfold goos_grad. rewrite Hg. cbn [bind]. rewrite Hs. cbn [bind]. rewrite He. cbn [bind].
      change (hbackward g heavy gadd (node_hpb kinds) vals sched out (Gr [creal 1]) = Ok ((h, nx), hg)) in Hb. rewrite Hb. cbn [bind].
      assert (Hck : exists r, mapM (fun n => match hg n with Some l => sound (h l) | None => Ok [] end) (keys g) = Ok r).
      { clear - HallP. induction (keys g) as [|n l IH]; cbn [mapM]; [eauto|]. destruct IH as (r & ->).
        destruct (hg n) as [k|] eqn:E; [|cbn; eauto]. apply HallP in E as (m & _ & E). destruct (h k); [|contradiction]. cbn. eauto. }
      destruct Hck as (r & ->). cbn [bind]. exact Ecol.
    + eapply Forall2_impl; [|exact HFg]. intros x l (a & H1 & H2 & _). eauto.
    + rewrite Hvo in Hsum || idtac. cbn [pn] in Hsum. rewrite Hvo, Hreal in Hsum. rewrite <- Hsum.
      rewrite (@sum_vars L vars (hpg grad R 0 pn h hg) HLn (proj1 (g_vars HG))).
      * assert (Hgen : forall xs gs, Forall2 rel xs gs -> forall ds, Forall2 (fun x d => exists a u, ov x = Some a /\ (forall t, W t x = Some (u t)) /\ moves u t0 a d) xs ds -> incl xs vars ->
          total_rate (flags ov xs) gs ds = sumK R Rplus 0 xs (hpg grad R 0 pn h hg)); [|exact (Hgen vars gs HFg dv (proj1 HW) (fun x Hx => Hx))].
        clear gs HFg Ecol. intros xs gs HFg.
        induction HFg as [|x l xs gs (a & R1 & R2 & R3) HFg IH]; intros ds HFd Hsub; inversion HFd as [|? d ? ds' (a' & u & S1 & S2 & S3) HFd']; subst; [reflexivity|].
        rewrite R1 in S1. injection S1 as <-. cbn [flags map total_rate GraphExec_Proofs3.sumK]. rewrite R1. f_equal; [|apply IH; [exact HFd'|intros y Hy; apply Hsub; now right]].
        unfold hpg. destruct (hg x) as [k|] eqn:Eh.
        -- rewrite R3. cbn [pn]. assert (HxU : In x U) by (apply Hknown; congruence). rewrite (var_val R1 HxU), (@var_D x d a u HxU R1 S2 S3 (Hsub x (or_introl eq_refl))). reflexivity.
        -- rewrite R3. apply rate_zeros.
      * intros n Hn Hx. apply HL in Hn as (Hn & Hl). apply HUk in Hn. unfold hpg. destruct (hg n) as [k|]; [|reflexivity]. destruct (h k) as [l|]; [|reflexivity]. cbn [pn].
        apply rate_zero. apply fixed_still; [exact Hn|]. unfold fixed. rewrite Hl. apply negb_true_iff. destruct (memb n vars) eqn:E; [apply memb_spec in E; contradiction|reflexivity].
      * intros x Hx HxL. unfold hpg. destruct (hg x) as [k|] eqn:E; [|reflexivity]. exfalso. apply HxL. apply HL. split; [apply HUk, Hknown; congruence|].
        destruct (ov x) as [a|] eqn:Eo; [exact (over_leaf HG _ Eo)|]. apply (proj2 (g_vars HG)) in Hx. contradiction.
Qed.
End Along.

Lemma along_any W t0 dv : varying ov vars W t0 dv -> exists gs, goos_grad kinds inputs ord fuel ov out vars = Ok gs /\
  Forall2 (fun x g => exists a, ov x = Some a /\ grad_for a g) vars gs /\
  near t0 (fun t => exists v, goos_eval kinds inputs ord fuel (W t) out = Ok v) /\
  derivable_pt_lim (fun t => number (goos_eval kinds inputs ord fuel (W t) out)) t0 (total_rate (flags ov vars) gs dv).
Proof.
  intros HW. destruct (choose_nodes (fun n v => val n v) (mkarr false []) U (@all_values _ _ _ _ _ _ HG v0 Hv0)) as (VAL & HVAL).
  destruct (choose_nodes (fun n d => exists w, goes kinds inputs vars W t0 n (VAL n) w d) [] U) as (D & HDw).
  { intros n Hn. destruct (@node_goes _ _ _ _ _ _ HG HD W t0 dv HW n (VAL n) (HVAL n Hn) Hn) as (w & d & H). eauto. }
  destruct (@along W t0 dv HW VAL HVAL D HDw) as (gs & H1 & H2 & H3). exists gs. split; [exact H1|]. split; [exact H2|].
  destruct (HDw out In_out) as (w & G1 & G2 & _).
  assert (Hvo : VAL out = v0) by exact (Den_det _ _ _ _ _ _ (HVAL _ In_out) _ Hv0). rewrite Hvo in G2.
  assert (HWh : forall t n, heavy n = true -> W t n = None).
  { intros t n Hh. assert (Hn := heavy_ov n Hh). rewrite (proj2 HW); [exact Hn|]. intros Hx. apply (proj2 (g_vars HG)) in Hx. contradiction. }
  assert (HWl : forall t x a, W t x = Some a -> inputs x = []).
  { intros t x a Hx. destruct (in_dec Nat.eq_dec x vars) as [Hi|Hi].
    - destruct (ov x) as [b|] eqn:E; [exact (over_leaf HG _ E)|]. apply (proj2 (g_vars HG)) in Hi. contradiction.
    - rewrite (proj2 HW) in Hx by exact Hi. exact (over_leaf HG _ Hx). }
  assert (Hev : near t0 (fun t => goos_eval kinds inputs ord fuel (W t) out = Ok (w t))).
  { eapply near_impl; [|exact G1]. cbv beta. intros t Ht. apply eval_value; [apply HWh|apply HWl|exact Ht]. }
  split; [eapply near_impl; [|exact Hev]; cbv beta; eauto|]. rewrite H3.
  eapply derive_ext_near with (f := fun t => fst (entry (w t) 0)).
  - eapply near_impl; [|exact Hev]. cbv beta. intros t ->. reflexivity.
  - assert (Hd := proj1 (moves_entry G2 (j := 0%nat) ltac:(rewrite Hone; apply Nat.lt_0_1))).
    assert (Hl := moves_length G2). rewrite Hone in Hl. destruct (D out) as [|d [|]]; try discriminate. cbn [nth] in Hd.
    replace (rate false [creal 1] [d]) with (fst d); [exact Hd|]. unfold rate. cbn. ring.
Qed.

Theorem goos_grad_correct : exists gs, goos_grad kinds inputs ord fuel ov out vars = Ok gs /\
  Forall2 (fun x g => exists a, ov x = Some a /\ grad_for a g) vars gs /\
  forall W t0 ds, varying ov vars W t0 ds ->
    near t0 (fun t => exists v, goos_eval kinds inputs ord fuel (W t) out = Ok v) /\
    derivable_pt_lim (fun t => number (goos_eval kinds inputs ord fuel (W t) out)) t0 (total_rate (flags ov vars) gs ds).
Proof.
  set (ds0 := map (fun x => match ov x with Some a => zeros (size a) | None => [] end) vars).
  assert (HW0 : varying ov vars (fun _ => ov) 0 ds0).
  { split; [|reflexivity]. assert (Hv : forall x, In x vars -> ov x <> None) by apply (g_vars HG). unfold ds0. revert Hv. generalize vars as xs.
    intros xs. induction xs as [|x l IH]; intros Hv; cbn [map]; constructor.
    - destruct (ov x) as [a|] eqn:E; [|destruct (Hv x (or_introl eq_refl) E)]. exists a, (fun _ => a). split; [reflexivity|]. split; [reflexivity|]. apply moves_const. exact (proj1 (g_proper HG) x a E).
    - apply IH. intros y Hy. apply Hv. now right. }
  destruct (along_any HW0) as (gs & H1 & H2 & _). exists gs. split; [exact H1|]. split; [exact H2|]. intros W t0 ds HW.
  destruct (along_any HW) as (gs' & H1' & _ & H3 & H4). rewrite H1 in H1'. injection H1' as <-. now split.
Qed.
End Assemble.
