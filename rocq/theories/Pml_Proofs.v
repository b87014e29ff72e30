(** Lemmas about absorbing layers. *)
From Verif Require Import Base QTac Pml_Model Pml_Spec.
From Coq Require Import ZArith Setoid Morphisms.
Set Implicit Arguments.

Global Instance ceq_equiv : Equivalence ceq.
Proof.
  split; unfold ceq.
  - intros z. split; reflexivity.
  - intros z w [H1 H2]. now split; symmetry.
  - intros x y z [H1 H2] [H3 H4]. split; etransitivity; eassumption.
Qed.
Global Instance cadd_proper : Proper (ceq ==> ceq ==> ceq) cadd.
Proof. intros a b [H1 H2] c d [H3 H4]. split; cbn [cadd cnorm cre cim fst snd] in *; rewrite ?Qred_correct; unfold cre, cim in *; now rewrite ?H1, ?H2, ?H3, ?H4. Qed.
Global Instance csub_proper : Proper (ceq ==> ceq ==> ceq) csub.
Proof. intros a b [H1 H2] c d [H3 H4]. split; cbn [csub cnorm cre cim fst snd] in *; rewrite ?Qred_correct; unfold cre, cim in *; now rewrite ?H1, ?H2, ?H3, ?H4. Qed.
Global Instance cmul_proper : Proper (ceq ==> ceq ==> ceq) cmul.
Proof. intros a b [H1 H2] c d [H3 H4]. split; cbn [cmul cnorm cre cim fst snd] in *; rewrite ?Qred_correct; unfold cre, cim in *; now rewrite ?H1, ?H2, ?H3, ?H4. Qed.
Global Instance cdiv_proper : Proper (ceq ==> ceq ==> ceq) cdiv.
Proof. intros a b [H1 H2] c d [H3 H4]. split; unfold cdiv; cbn [cre cim cnorm fst snd] in *; rewrite ?Qred_correct; unfold cre, cim in *; now rewrite ?H1, ?H2, ?H3, ?H4. Qed.
Lemma creal_proper x y : x == y -> ceq (creal x) (creal y).
Proof. intros H. split; [exact H|reflexivity]. Qed.

Ltac cunf := unfold cadd, csub, cmul, cdiv, cnorm, creal; cbn [cre cim fst snd]; rewrite ?Qred_correct; cbn [cre cim fst snd].
Lemma ceq_real z : cim z == 0 -> ceq z (creal (cre z)).
Proof. intros H. split; [reflexivity|exact H]. Qed.
Lemma cadd_real x y : ceq (cadd (creal x) (creal y)) (creal (x + y)).
Proof. split; cunf; ring. Qed.
Lemma csub_real x y : ceq (csub (creal x) (creal y)) (creal (x - y)).
Proof. split; cunf; ring. Qed.
Lemma cmul_real x y : ceq (cmul (creal x) (creal y)) (creal (x * y)).
Proof. split; cunf; ring. Qed.
Lemma cdiv_real x y : ~ y == 0 -> ceq (cdiv (creal x) (creal y)) (creal (x / y)).
Proof. intros H. split; cunf; field; auto. Qed.
Lemma cpow_real x m : ceq (cpow (creal x) m) (creal (qpow x m)).
Proof. induction m as [|m IH]; [reflexivity|]. cbn [cpow qpow]. rewrite IH. apply cmul_real. Qed.
Lemma cpow_proper z w m : ceq z w -> ceq (cpow z m) (cpow w m).
Proof. intros H. induction m as [|m IH]; [reflexivity|]. cbn [cpow]. now rewrite IH, H. Qed.
Lemma s_default_real z x : ceq z (creal x) -> ceq (s_default z) (creal (-40 * qpow x 4)).
Proof.
  intros H. unfold s_default, s_factor. rewrite (cpow_proper 4 H), cpow_real, cmul_real. apply creal_proper.
  unfold s_max. change (inject_Z (Z.of_nat 4)) with 4. assert (E : (4 + 1) * -16 / 2 == -40) by reflexivity. now rewrite E.
Qed.

(** positions *)
Lemma positions_length a : forall acc, length (positions acc a) = S (length a).
Proof. induction a as [|x a IH]; intros acc; simpl; auto. Qed.
Lemma positions_at a : forall acc i, (i <= length a)%nat ->
  cre (cn (positions acc a) i) == cre acc + sumn i (fun k => cre (cn a k)) /\
  cim (cn (positions acc a) i) == cim acc + sumn i (fun k => cim (cn a k)).
Proof.
  induction a as [|x a IH]; intros acc i Hi; simpl in Hi.
  - assert (i = 0%nat) as -> by lia. unfold cn; simpl. split; ring.
  - destruct i as [|i]; [unfold cn; simpl; split; ring|].
    assert (Hs : forall f : nat -> Q, sumn (S i) f == f 0%nat + sumn i (fun k => f (S k))).
    { intros f. clear. induction i as [|i IHi]; [simpl; ring|]. cbn [sumn] in *. rewrite IHi. ring. }
    rewrite !Hs. change (cn (positions acc (x :: a)) (S i)) with (cn (positions (cadd acc x) a) i).
    destruct (IH (cadd acc x) i) as [H1 H2]; [lia|]. rewrite H1, H2. unfold cn; cbn [nth]. split; cunf; ring.
Qed.
Lemma scale_sel_length l : forall i sel f, length (scale_sel i sel f l) = length l.
Proof. induction l as [|x l IH]; intros; simpl; auto. Qed.
Lemma scale_sel_at l : forall i0 sel f i, (i < length l)%nat ->
  cn (scale_sel i0 sel f l) i = if sel (i0 + i)%nat then cmul (cn l i) (f (i0 + i)%nat) else cn l i.
Proof.
  induction l as [|x l IH]; intros i0 sel f i Hi; [simpl in Hi; lia|]. destruct i as [|i].
  - rewrite Nat.add_0_r. reflexivity.
  - change (cn (scale_sel i0 sel f (x :: l)) (S i)) with (cn (scale_sel (S i0) sel f l) i).
    rewrite IH by (simpl in Hi; lia). now rewrite Nat.add_succ_r.
Qed.

(** multiplying a real cell by the stretching factor *)
Lemma factor_real x z dz d corr l r : ~ d == 0 -> ~ corr == 0 -> ceq x (creal r) ->
  ceq z (creal l) -> ceq dz (creal d) ->
  ceq (cmul x (cadd (1, 0) (cdiv (cdiv (cmul (0, 1) (s_default z)) dz) (creal corr)))) (r, r * (-40 * qpow l 4 / d / corr)).
Proof.
  intros Hd Hc Hx Hz Hdz. rewrite Hx, Hdz, (s_default_real Hz). set (s := -40 * qpow l 4).
  split; cunf; field; auto.
Qed.

(** *** one stretch *)
Section Stretch.
Variables (corr : Q) (r : list Q) (a b : list cq).
Hypothesis Hcorr : ~ corr == 0.
Hypothesis Hla : length a = length r.
Hypothesis Hlb : length b = length r.
Hypothesis Hra : forall i, (i < length r)%nat -> cre (cn a i) == qn r i.
Hypothesis Hpos : all_positive r.
Notation n := (length r).

Lemma edge_diff i j : (i <= j)%nat -> edge r j - edge r i == sumn (j - i) (fun k => qn r (i + k)).
Proof.
  intros H. unfold edge. induction j as [|j IH].
  - assert (i = 0%nat) as -> by lia. simpl. ring.
  - destruct (Nat.eq_dec i (S j)) as [->|]; [rewrite Nat.sub_diag; simpl; ring|].
    replace (S j - i)%nat with (S (j - i)) by lia. cbn [sumn]. replace (i + (j - i))%nat with j by lia. rewrite <- IH by lia. ring.
Qed.
Lemma edge_lt i j : (i < j <= n)%nat -> edge r i < edge r j.
Proof.
  clear Hla Hlb Hra Hcorr. intros H. induction j as [|j IH]; [lia|]. unfold edge in *. cbn [sumn]. assert (0 < qn r j) by (apply Hpos; lia).
  destruct (Nat.eq_dec i j) as [->|]; [lra|]. assert (sumn i (qn r) < sumn j (qn r)) by (apply IH; lia). lra.
Qed.
Lemma pos_re i : (i <= n)%nat -> cre (cn (positions (0, 0) a) i) == edge r i.
Proof.
  intros Hi. destruct (positions_at a (0, 0) (i := i)) as [H1 _]; [lia|]. rewrite H1. cbn [cre fst].
  unfold edge. rewrite (@sumn_ext i _ (qn r)); [ring|]. intros k Hk. apply Hra. lia.
Qed.
(** all imaginary parts of positions between [i] and [j] agree when the cells between are real *)
Lemma pos_im i j : (i <= j <= n)%nat -> (forall k, (i <= k < j)%nat -> cim (cn a k) == 0) ->
  cim (cn (positions (0, 0) a) j) == cim (cn (positions (0, 0) a) i).
Proof.
  intros Hij Hk. destruct (positions_at a (0, 0) (i := i)) as [_ H1]; [lia|].
  destruct (positions_at a (0, 0) (i := j)) as [_ H2]; [lia|]. rewrite H1, H2. cbn [cim snd]. clear H1 H2.
  induction j as [|j IH]; [assert (i = 0%nat) as -> by lia; reflexivity|].
  destruct (Nat.eq_dec i (S j)) as [->|]; [reflexivity|]. cbn [sumn]. rewrite (Hk j) by lia.
  rewrite <- (IH ltac:(lia)) by (intros k Hk'; apply Hk; lia). ring.
Qed.

Lemma stretch_front_lemma p : (p <= n)%nat -> (forall i, (i < p)%nat -> cim (cn a i) == 0) ->
  exists a' b', stretch s_default corr true p a b = Ok (a', b') /\ length a' = n /\ length b' = n /\
  (forall i, (p <= i)%nat -> cn a' i = cn a i /\ cn b' i = cn b i) /\
  (forall i, (i < p)%nat ->
     ceq (cn a' i) (qn r i, qn r i * (-40 * qpow ((edge r p - centre r i) / edge r p) 4 / edge r p / corr)) /\
     (forall y, ceq (cn b i) (creal y) ->
      ceq (cn b' i) (y, y * (-40 * qpow ((edge r p - edge r i) / edge r p) 4 / edge r p / corr)))).
Proof.
  intros Hp Him. unfold stretch. rewrite Hla. destruct (Nat.ltb_spec n p) as [H|_]; [lia|].
  set (pos := positions (0, 0) a). eexists _, _. split; [reflexivity|].
  split; [rewrite scale_sel_length; lia|]. split; [rewrite scale_sel_length; lia|].
  assert (E0 : ceq (cn pos 0) (creal 0)).
  { split; [unfold pos; rewrite pos_re by lia; reflexivity|]. destruct (positions_at a (0, 0) (i := 0)) as [_ H1]; [lia|]. fold pos in H1. rewrite H1. reflexivity. }
  assert (EP : forall j, (j <= p)%nat -> ceq (cn pos j) (creal (edge r j))).
  { intros j Hj. split; [apply pos_re; lia|]. unfold pos. rewrite (@pos_im 0 j); [|lia|intros; apply Him; lia]. apply E0. }
  split.
  - intros i Hi. destruct (Nat.lt_ge_cases i n) as [Hin|Hin].
    + rewrite !scale_sel_at by lia. cbn [Nat.add]. destruct (Nat.ltb_spec i p); [lia|]. auto.
    + unfold cn. rewrite !nth_overflow by (rewrite ?scale_sel_length; lia). auto.
  - intros i Hi. assert (Hpp : 0 < edge r p). { change 0 with (edge r 0). apply edge_lt. lia. }
    assert (Hp0 : ~ edge r p == 0) by lra.
    assert (Ed : ceq (csub (cn pos p) (cn pos 0)) (creal (edge r p))).
    { rewrite E0, (EP p) by lia. rewrite csub_real. apply creal_proper. ring. }
    assert (Emid : ceq (cdiv (cadd (cn pos i) (cn pos (S i))) (2, 0)) (creal (centre r i))).
    { rewrite (EP i), (EP (S i)) by lia. rewrite cadd_real. change (2, 0) with (creal 2). rewrite cdiv_real by discriminate. reflexivity. }
    rewrite !scale_sel_at by lia. cbn [Nat.add]. destruct (Nat.ltb_spec i p); [|lia]. split.
    + apply factor_real; auto.
      * split; [apply Hra; lia|apply Him; lia].
      * rewrite Ed, Emid, (EP p) by lia. rewrite csub_real. now apply cdiv_real.
    + intros y Hy. apply factor_real; auto. rewrite Ed, (EP i), (EP p) by lia. rewrite csub_real. now apply cdiv_real.
Qed.

Lemma stretch_back_lemma q : (0 < q <= n)%nat -> (forall i, (n - q <= i < n)%nat -> cim (cn a i) == 0) ->
  exists a' b', stretch s_default corr false q a b = Ok (a', b') /\ length a' = n /\ length b' = n /\
  (forall i, (i < n - q)%nat -> cn a' i = cn a i /\ cn b' i = cn b i) /\
  (forall i, (n - q <= i < n)%nat ->
     let th := edge r n - edge r (n - q) in
     ceq (cn a' i) (qn r i, qn r i * (-40 * qpow ((centre r i - edge r (n - q)) / th) 4 / th / corr)) /\
     (forall y, ceq (cn b i) (creal y) ->
      ceq (cn b' i) (y, y * (-40 * qpow ((edge r i - edge r (n - q)) / th) 4 / th / corr)))).
Proof.
  intros Hq Him. unfold stretch. rewrite Hla. destruct (Nat.ltb_spec n q) as [H|_]; [lia|].
  destruct (Nat.eqb_spec q 0) as [H|_]; [lia|].
  set (pos := positions (0, 0) a). eexists _, _. split; [reflexivity|].
  split; [rewrite scale_sel_length; lia|]. split; [rewrite scale_sel_length; lia|].
  set (k := (n - q)%nat) in *. set (y0 := cim (cn pos k)).
  assert (EP : forall j, (k <= j <= n)%nat -> ceq (cn pos j) (edge r j, y0)).
  { intros j Hj. split; [apply pos_re; lia|]. cbn [cim snd]. unfold pos, y0, pos. apply pos_im; [lia|]. intros m Hm. apply Him. lia. }
  split.
  - intros i Hi. rewrite !scale_sel_at by lia. cbn [Nat.add]. destruct (Nat.leb_spec k i); [lia|]. auto.
  - intros i Hi. cbv zeta. set (th := edge r n - edge r k). assert (Hth : 0 < th). { assert (edge r k < edge r n) by (apply edge_lt; lia). unfold th. lra. }
    assert (Hp0 : ~ th == 0) by lra.
    assert (Esub : forall x z, ceq (csub (x, y0) (z, y0)) (creal (x - z))).
    { intros x z. split; cunf; ring. }
    assert (Ed : ceq (csub (cn pos n) (cn pos k)) (creal th)).
    { rewrite (EP n), (EP k) by lia. apply Esub. }
    assert (Emid : ceq (cdiv (cadd (cn pos i) (cn pos (S i))) (2, 0)) (centre r i, y0)).
    { rewrite (EP i), (EP (S i)) by lia. unfold centre. split; cunf; field. }
    rewrite !scale_sel_at by lia. cbn [Nat.add]. destruct (Nat.leb_spec k i); [|lia]. split.
    + apply factor_real; auto.
      * split; [apply Hra; lia|apply Him; lia].
      * rewrite Ed, Emid, (EP k) by lia. rewrite Esub. now apply cdiv_real.
    + intros y Hy. apply factor_real; auto. rewrite Ed, (EP i), (EP k) by lia. rewrite Esub. now apply cdiv_real.
Qed.
End Stretch.

(** *** both layers of an axis *)
Definition maybe (front : bool) (corr : Q) (t : nat) (ab : list cq * list cq) : res (list cq * list cq) :=
  match t with O => Ok ab | S _ => stretch s_default corr front t (fst ab) (snd ab) end.
Lemma cn_creal l i : (i < length l)%nat -> cn (map creal l) i = creal (qn l i).
Proof. intros H. unfold cn, qn. rewrite (nth_indep _ (0, 0) (creal 0)) by (now rewrite map_length). apply map_nth. Qed.
Lemma axis_lemma corr r y p q : ~ corr == 0 -> length y = length r -> all_positive r -> (p + q <= length r)%nat ->
  exists a' b', bind (maybe true corr p (map creal r, map creal y)) (maybe false corr q) = Ok (a', b') /\
  length a' = length r /\ length b' = length r /\
  forall i, (i < length r)%nat ->
    ceq (cn a' i) (qn r i, qn r i * absorption corr r p q i (centre r i)) /\
    ceq (cn b' i) (qn y i, qn y i * absorption corr r p q i (edge r i)).
Proof.
  intros Hc Hly Hr Hpq. set (a := map creal r). set (b := map creal y).
  assert (La : length a = length r) by apply map_length. assert (Lb : length b = length r) by (unfold b; now rewrite map_length).
  assert (Ra : forall i, (i < length r)%nat -> cn a i = creal (qn r i)) by (intros; now apply cn_creal).
  assert (Rb : forall i, (i < length r)%nat -> cn b i = creal (qn y i)) by (intros; apply cn_creal; lia).
  assert (F : exists a1 b1, maybe true corr p (a, b) = Ok (a1, b1) /\ length a1 = length r /\ length b1 = length r /\
     (forall i, (p <= i)%nat -> cn a1 i = cn a i /\ cn b1 i = cn b i) /\
     (forall i, (i < p)%nat -> ceq (cn a1 i) (qn r i, qn r i * absorption corr r p q i (centre r i)) /\
                               ceq (cn b1 i) (qn y i, qn y i * absorption corr r p q i (edge r i)))).
  { destruct p as [|p'] eqn:Ep; [exists a, b; cbn [maybe]; repeat split; auto; intros; lia|]. rewrite <- Ep in *.
    assert (Hm : maybe true corr p (a, b) = stretch s_default corr true p a b) by (rewrite Ep; reflexivity). rewrite Hm.
    assert (Q1 : forall i, (i < length r)%nat -> cre (cn a i) == qn r i) by (intros i Hi; now rewrite Ra by auto).
    assert (Q2 : forall i, (i < p)%nat -> cim (cn a i) == 0) by (intros i Hi; now rewrite Ra by lia).
    assert (Q3 : (p <= length r)%nat) by lia.
    destruct (@stretch_front_lemma corr r a b Hc La Lb Q1 Hr p Q3 Q2) as (a1 & b1 & E & L1 & L2 & H1 & H2).
    exists a1, b1. split; [exact E|]. split; [exact L1|]. split; [exact L2|]. split; [exact H1|].
    intros i Hi. destruct (H2 i Hi) as [H3 H4]. unfold absorption. destruct (Nat.ltb_spec i p); [|lia]. split; [exact H3|].
    apply H4. rewrite Rb by lia. reflexivity. }
  destruct F as (a1 & b1 & E1 & L1 & L2 & H1 & H2). fold a b. rewrite E1. cbn [bind].
  assert (Hout : forall i, (i < length r)%nat -> (i < length r - q)%nat ->
    ceq (cn a1 i) (qn r i, qn r i * absorption corr r p q i (centre r i)) /\ ceq (cn b1 i) (qn y i, qn y i * absorption corr r p q i (edge r i))).
  { intros i Hi Hq. destruct (Nat.lt_ge_cases i p) as [Hip|Hip]; [auto|]. destruct (H1 i Hip) as [-> ->]. rewrite Ra, Rb by lia.
    unfold absorption. destruct (Nat.ltb_spec i p); [lia|]. destruct (Nat.leb_spec (length r - q) i); [lia|].
    split; split; cunf; ring. }
  destruct q as [|q'] eqn:Eq.
  - exists a1, b1. cbn [maybe]. split; [reflexivity|]. split; [exact L1|]. split; [exact L2|]. intros i Hi. apply Hout; lia.
  - rewrite <- Eq in *. assert (Hm : maybe false corr q (a1, b1) = stretch s_default corr false q a1 b1) by (rewrite Eq; reflexivity). rewrite Hm.
    assert (Q1 : forall i, (i < length r)%nat -> cre (cn a1 i) == qn r i).
    { intros i Hi. destruct (Nat.lt_ge_cases i p) as [Hip|Hip]; [apply (H2 i Hip)|]. destruct (H1 i Hip) as [-> _]. now rewrite Ra by auto. }
    assert (Q2 : forall i, (length r - q <= i < length r)%nat -> cim (cn a1 i) == 0).
    { intros i Hi. destruct (H1 i ltac:(lia)) as [-> _]. now rewrite Ra by lia. }
    assert (Q3 : (0 < q <= length r)%nat) by lia.
    destruct (@stretch_back_lemma corr r a1 b1 Hc L1 L2 Q1 Hr q Q3 Q2) as (a2 & b2 & E & L3 & L4 & H3 & H4).
    exists a2, b2. split; [exact E|]. split; [exact L3|]. split; [exact L4|]. intros i Hi.
    destruct (Nat.lt_ge_cases i (length r - q)) as [Hiq|Hiq].
    + destruct (H3 i Hiq) as [-> ->]. apply Hout; auto.
    + destruct (H4 i ltac:(lia)) as [H5 H6]. unfold absorption. destruct (Nat.ltb_spec i p); [lia|].
      destruct (Nat.leb_spec (length r - q) i); [|lia]. split; [exact H5|]. apply H6.
      destruct (H1 i ltac:(lia)) as [_ ->]. rewrite Rb by lia. reflexivity.
Qed.
