(** Refinement of meshes. *)
From Coq Require Import Reals Lra Psatz Lia Ring Field.
From Verif Require Import Base Ff_Model Ff_Spec Ff_Proofs.
Set Implicit Arguments.
Local Open Scope R_scope.

Definition uses (i : nat) (t : tri) : Prop := i = fst (fst t) \/ i = snd (fst t) \/ i = snd t.
Definition tri_ok (pts : list vec3) (t : tri) : Prop := exists a b c, has_corners pts t a b c /\ det a b c <> 0.
Lemma corners_mono pts pts' t a b c : extends pts pts' -> has_corners pts t a b c -> has_corners pts' t a b c.
Proof. intros H. destruct t as [[i j] k]. intros (H1 & H2 & H3). repeat split; now apply H. Qed.
Lemma corners_fun pts t a b c a' b' c' : has_corners pts t a b c -> has_corners pts t a' b' c' -> a = a' /\ b = b' /\ c = c'.
Proof. destruct t as [[i j] k]. intros (H1 & H2 & H3) (H1' & H2' & H3'). rewrite H1 in H1'. rewrite H2 in H2'. rewrite H3 in H3'. injection H1' as ->. injection H2' as ->. injection H3' as ->. auto. Qed.
Definition kids (pts : list vec3) (t : tri) (ks : list tri) : Prop :=
  exists a b c m1 m2 m3 k1 k2 k3 t0 ta tb tc, has_corners pts t a b c /\ det a b c <> 0 /\ mid k1 a b m1 /\ mid k2 b c m2 /\ mid k3 c a m3 /\
    ks = [t0; ta; tb; tc] /\ has_corners pts t0 m1 m2 m3 /\ has_corners pts ta a m1 m3 /\ has_corners pts tb b m1 m2 /\ has_corners pts tc c m3 m2.
Lemma kids_mono pts pts' t ks : extends pts pts' -> kids pts t ks -> kids pts' t ks.
Proof.
  intros H (a & b & c & m1 & m2 & m3 & k1 & k2 & k3 & t0 & ta & tb & tc & H1 & H2 & H3 & H4 & H5 & H6 & H7 & H8 & H9 & H10).
  exists a, b, c, m1, m2, m3, k1, k2, k3, t0, ta, tb, tc. repeat match goal with |- _ /\ _ => split end; auto; eapply corners_mono; eauto.
Qed.
Lemma tri_ok_mono pts pts' t : extends pts pts' -> tri_ok pts t -> tri_ok pts' t.
Proof. intros H (a & b & c & H1 & H2). exists a, b, c. split; [eapply corners_mono; eauto|exact H2]. Qed.
Lemma get_ok {A} (l : list A) i a : nth_error l i = Some a -> get l i = Ok a.
Proof. unfold get. now intros ->. Qed.
Lemma refine_one_spec pts t : good_points pts -> tri_ok pts t -> exists pts' ks, refine_one pts t = Ok (pts', ks) /\ good_points pts' /\ extends pts pts' /\ kids pts' t ks /\
  (forall j, (j < length pts')%nat -> (j < length pts)%nat \/ exists t', In t' ks /\ uses j t') /\ (forall j, uses j t -> exists t', In t' ks /\ uses j t').
Proof.
  intros G (a & b & c & Hc & D). destruct t as [[i j] k]. pose proof Hc as (Ha & Hb & Hk). destruct (mid_nonzero D) as (Z1 & Z2 & Z3).
  destruct (unit_ok Z1) as (k1 & m1 & K1 & U1 & M1 & N1). destruct (unit_ok Z2) as (k2 & m2 & K2 & U2 & M2 & N2). destruct (unit_ok Z3) as (k3 & m3 & K3 & U3 & M3 & N3).
  destruct (add_point pts m1) as [pts1 i1] eqn:A1. destruct (add_point pts1 m2) as [pts2 i2] eqn:A2. destruct (add_point pts2 m3) as [pts3 i3] eqn:A3.
  destruct (add_point_spec A1 G N1) as (G1 & X1 & I1 & L1). destruct (add_point_spec A2 G1 N2) as (G2 & X2 & I2 & L2). destruct (add_point_spec A3 G2 N3) as (G3 & X3 & I3 & L3).
  exists pts3, [(i1, i2, i3); (i, i1, i3); (j, i1, i2); (k, i3, i2)]. split.
  { unfold refine_one. rewrite (get_ok _ _ Ha), (get_ok _ _ Hb), (get_ok _ _ Hk). cbn [bind]. rewrite U1, U2, U3. cbn [bind]. now rewrite A1, A2, A3. }
  assert (X13 : extends pts1 pts3) by (eapply extends_trans; eauto). assert (X03 : extends pts pts3) by (eapply extends_trans; eauto).
  split; [exact G3|]. split; [exact X03|]. split; [|split].
  - exists a, b, c, m1, m2, m3, k1, k2, k3. do 4 eexists. split; [eapply corners_mono; eauto|]. split; [exact D|].
    split; [split; [exact K1|exact M1]|]. split; [split; [exact K2|exact M2]|]. split; [split; [exact K3|exact M3]|]. split; [reflexivity|].
    pose proof (X13 _ _ I1). pose proof (X3 _ _ I2). pose proof (X03 _ _ Ha). pose proof (X03 _ _ Hb). pose proof (X03 _ _ Hk). repeat split; assumption.
  - intros n Hn. assert (K : (n < length pts)%nat \/ n = i1 \/ n = i2 \/ n = i3).
    { destruct (L3 n Hn) as [H|H]; [|auto]. destruct (L2 n H) as [H'|H']; [|auto]. destruct (L1 n H'); auto. }
    destruct K as [K|K]; [now left|right]. exists (i1, i2, i3). split; [now left|]. unfold uses. cbn [fst snd]. tauto.
  - intros n [H|[H|H]]; cbn [fst snd] in H; subst n.
    + exists (i, i1, i3). split; [right; now left|now left].
    + exists (j, i1, i2). split; [do 2 right; now left|now left].
    + exists (k, i3, i2). split; [do 3 right; now left|now left].
Qed.
Lemma refine_all_spec ts : forall pts, good_points pts -> Forall (tri_ok pts) ts -> exists pts' kss, refine_all pts ts = Ok (pts', concat kss) /\ good_points pts' /\ extends pts pts' /\
  Forall2 (kids pts') ts kss /\ (forall j, (j < length pts')%nat -> (j < length pts)%nat \/ exists t', In t' (concat kss) /\ uses j t') /\
  (forall j t, In t ts -> uses j t -> exists t', In t' (concat kss) /\ uses j t').
Proof.
  induction ts as [|t ts IH]; intros pts G Ht.
  - exists pts, []. split; [reflexivity|]. split; [exact G|]. split; [apply extends_refl|]. split; [constructor|]. split; [now left|intros j t []].
  - apply Forall_cons_iff in Ht as [Ht Hts]. destruct (refine_one_spec G Ht) as (pts1 & ks & E1 & G1 & X1 & K1 & L1 & U1).
    destruct (IH pts1 G1) as (pts2 & kss & E2 & G2 & X2 & K2 & L2 & U2).
    { eapply Forall_impl; [|exact Hts]. intros t'. now apply tri_ok_mono. }
    exists pts2, (ks :: kss). split; [|split; [exact G2|split; [eapply extends_trans; eauto|split; [|split]]]].
    + cbn [refine_all]. rewrite E1. cbn [bind fst snd]. rewrite E2. reflexivity.
    + constructor; [eapply kids_mono; eauto|exact K2].
    + intros j Hj. cbn [concat]. destruct (L2 j Hj) as [H|(t' & H & H')].
      * destruct (L1 j H) as [H'|(t' & H' & H'')]; [now left|]. right. exists t'. split; [apply in_app_iff; now left|exact H''].
      * right. exists t'. split; [apply in_app_iff; now right|exact H'].
    + intros j t' [<-|H] Hu; cbn [concat].
      * destruct (U1 j Hu) as (t'' & H1 & H2). exists t''. split; [apply in_app_iff; now left|exact H2].
      * destruct (U2 j t' H Hu) as (t'' & H1 & H2). exists t''. split; [apply in_app_iff; now right|exact H2].
Qed.

(** ** The invariant *)
Definition disjoint (pts : list vec3) (t t' : tri) : Prop := forall v, through_interior pts t v -> ~ through_interior pts t' v.
Definition closed (Q : vec3 -> Prop) : Prop := forall k a b, 0 < k -> Q a -> Q b -> Q (scale k (vadd a b)).
Definition all_corners (Q : vec3 -> Prop) (pts : list vec3) (t : tri) : Prop := exists a b c, has_corners pts t a b c /\ Q a /\ Q b /\ Q c.
Record mesh (Fam : (vec3 -> Prop) -> Prop) (dom : vec3 -> Prop) (pts : list vec3) (ts : list tri) : Prop := {
  me_points : good_points pts;
  me_tris : Forall (tri_ok pts) ts;
  me_used : forall i, (i < length pts)%nat -> exists t, In t ts /\ uses i t;
  me_cover : forall v, dom v -> exists t, In t ts /\ through pts t v;
  me_disj : ForallOrdPairs (disjoint pts) ts;
  me_fam : forall t, In t ts -> exists Q, Fam Q /\ all_corners Q pts t
}.
Lemma through_cone pts t a b c v : has_corners pts t a b c -> (through pts t v <-> cone a b c v).
Proof.
  intros H. split.
  - intros (a' & b' & c' & x & y & z & H' & Hv). destruct (@corners_fun _ _ _ _ _ _ _ _ H H') as (<- & <- & <-). now exists x, y, z.
  - intros (x & y & z & Hv). now exists a, b, c, x, y, z.
Qed.
Lemma through_icone pts t a b c v : has_corners pts t a b c -> (through_interior pts t v <-> icone a b c v).
Proof.
  intros H. split.
  - intros (a' & b' & c' & x & y & z & H' & Hv). destruct (@corners_fun _ _ _ _ _ _ _ _ H H') as (<- & <- & <-). now exists x, y, z.
  - intros (x & y & z & Hv). now exists a, b, c, x, y, z.
Qed.
Lemma kids_facts pts t ks : kids pts t ks ->
  length ks = 4%nat /\ (forall t', In t' ks -> tri_ok pts t') /\ (forall v, through pts t v -> exists t', In t' ks /\ through pts t' v) /\
  (forall t' v, In t' ks -> through_interior pts t' v -> through_interior pts t v) /\ ForallOrdPairs (disjoint pts) ks /\
  (forall Q, closed Q -> all_corners Q pts t -> forall t', In t' ks -> all_corners Q pts t').
Proof.
  intros (a & b & c & m1 & m2 & m3 & k1 & k2 & k3 & t0 & ta & tb & tc & H & D & M1 & M2 & M3 & -> & H0 & Ha & Hb & Hc).
  destruct (split_det D M1 M2 M3) as (D0 & Da & Db & Dc). split; [reflexivity|]. split; [|split; [|split; [|split]]].
  - intros t' [<-|[<-|[<-|[<-|[]]]]]; do 3 eexists; eauto.
  - intros v Hv. apply (@through_cone _ _ _ _ _ v H) in Hv. destruct (split_cover M1 M2 M3 Hv) as [E|[E|[E|E]]].
    + exists t0. split; [now left|]. now apply (@through_cone _ _ _ _ _ v H0).
    + exists ta. split; [right; now left|]. now apply (@through_cone _ _ _ _ _ v Ha).
    + exists tb. split; [do 2 right; now left|]. now apply (@through_cone _ _ _ _ _ v Hb).
    + exists tc. split; [do 3 right; now left|]. now apply (@through_cone _ _ _ _ _ v Hc).
  - intros t' v Ht' Hv. apply (@through_icone _ _ _ _ _ v H). apply (split_inside M1 M2 M3).
    destruct Ht' as [<-|[<-|[<-|[<-|[]]]]]; [apply (@through_icone _ _ _ _ _ v H0) in Hv|apply (@through_icone _ _ _ _ _ v Ha) in Hv|apply (@through_icone _ _ _ _ _ v Hb) in Hv|apply (@through_icone _ _ _ _ _ v Hc) in Hv]; auto.
  - assert (DD : forall v, _) by exact (split_disjoint D M1 M2 M3).
    repeat constructor; intros v Hv Hv'; destruct (DD v) as (D1 & D2 & D3 & D4 & D5 & D6);
    repeat match goal with
    | X : through_interior pts t0 v |- _ => apply (@through_icone _ _ _ _ _ v H0) in X
    | X : through_interior pts ta v |- _ => apply (@through_icone _ _ _ _ _ v Ha) in X
    | X : through_interior pts tb v |- _ => apply (@through_icone _ _ _ _ _ v Hb) in X
    | X : through_interior pts tc v |- _ => apply (@through_icone _ _ _ _ _ v Hc) in X
    end; tauto.
  - intros Q HQ (a' & b' & c' & H' & Qa & Qb & Qc). destruct (@corners_fun _ _ _ _ _ _ _ _ H H') as (<- & <- & <-).
    destruct M1 as [P1 ->], M2 as [P2 ->], M3 as [P3 ->].
    intros t' [<-|[<-|[<-|[<-|[]]]]]; do 3 eexists; (split; [eassumption|]); auto.
Qed.
Lemma FOP_app {A} (Rl : A -> A -> Prop) l l' : ForallOrdPairs Rl l -> ForallOrdPairs Rl l' -> (forall x y, In x l -> In y l' -> Rl x y) -> ForallOrdPairs Rl (l ++ l').
Proof.
  induction l as [|a l IH]; intros H1 H2 H; [exact H2|]. inversion_clear H1. cbn. constructor.
  - apply Forall_app. split; [assumption|]. apply Forall_forall. intros y Hy. apply H; [now left|exact Hy].
  - apply IH; auto. intros x y Hx Hy. apply H; [now right|exact Hy].
Qed.
Lemma through_mono pts pts' t v : extends pts pts' -> tri_ok pts t -> (through pts t v <-> through pts' t v) /\ (through_interior pts t v <-> through_interior pts' t v).
Proof.
  intros X (a & b & c & H & _). pose proof (@corners_mono _ _ _ _ _ _ X H) as H'. rewrite (@through_cone _ _ _ _ _ v H), (@through_cone _ _ _ _ _ v H'), (@through_icone _ _ _ _ _ v H), (@through_icone _ _ _ _ _ v H'). tauto.
Qed.
Lemma refine_all_mesh (Fam : (vec3 -> Prop) -> Prop) dom pts ts : (forall Q, Fam Q -> closed Q) -> mesh Fam dom pts ts ->
  exists pts' ts', refine_all pts ts = Ok (pts', ts') /\ mesh Fam dom pts' ts' /\ length ts' = (4 * length ts)%nat.
Proof.
  intros HF [G T U Cv Dj Fm]. destruct (refine_all_spec G T) as (pts' & kss & E & G' & X & K & L & U'). exists pts', (concat kss). split; [exact E|].
  assert (In_kid : forall t', In t' (concat kss) -> exists t ks, In t ts /\ kids pts' t ks /\ In t' ks).
  { clear - K. intros t' H. induction K as [|t ks ts kss Hk K IH]; [destruct H|]. cbn in H. apply in_app_iff in H as [H|H].
    - exists t, ks. split; [now left|auto].
    - destruct (IH H) as (t1 & k1 & H1 & H2 & H3). exists t1, k1. split; [now right|auto]. }
  assert (Kid_in : forall t, In t ts -> exists ks, kids pts' t ks /\ forall t', In t' ks -> In t' (concat kss)).
  { clear - K. intros t H. induction K as [|t1 ks ts kss Hk K IH]; [destruct H|]. destruct H as [->|H].
    - exists ks. split; [exact Hk|]. intros t' Ht'. cbn. apply in_app_iff. now left.
    - destruct (IH H) as (k1 & H1 & H2). exists k1. split; [exact H1|]. intros t' Ht'. cbn. apply in_app_iff. right. now apply H2. }
  split; [constructor|].
  - exact G'.
  - apply Forall_forall. intros t' Ht'. destruct (In_kid t' Ht') as (t & ks & _ & Hk & Hi). now apply (kids_facts Hk).
  - intros i Hi. destruct (L i Hi) as [H|H]; [|exact H]. destruct (U i H) as (t & Ht & Hu). now apply (U' i t).
  - intros v Hv. destruct (Cv v Hv) as (t & Ht & Hv'). destruct (Kid_in t Ht) as (ks & Hk & Hin). rewrite Forall_forall in T.
    apply (proj1 (proj1 (through_mono v X (T t Ht)))) in Hv'. destruct (kids_facts Hk) as (_ & _ & Hc & _). destruct (Hc v Hv') as (t' & H1 & H2). exists t'. split; [now apply Hin|exact H2].
  - assert (Dj' : ForallOrdPairs (disjoint pts') ts).
    { clear - Dj X T. induction Dj as [|t ts Hd Dj IH]; [constructor|]. apply Forall_cons_iff in T as [T1 T2]. constructor; [|now apply IH].
      rewrite Forall_forall in *. intros t' Ht' v Hv Hv'. apply (proj2 (through_mono v X T1)) in Hv. apply (proj2 (through_mono v X (T2 t' Ht'))) in Hv'. exact (Hd t' Ht' v Hv Hv'). }
    clear - K Dj'. induction K as [|t ks ts kss Hk K IH]; [constructor|]. inversion_clear Dj'. cbn. apply FOP_app.
    + apply (kids_facts Hk).
    + now apply IH.
    + intros x y Hx Hy v Hv Hv'. destruct (kids_facts Hk) as (_ & _ & _ & Hin & _). apply (Hin x v Hx) in Hv.
      assert (Hy' : exists t1 k1, In t1 ts /\ kids pts' t1 k1 /\ In y k1).
      { clear - K Hy. induction K as [|t1 k1 ts kss Hk1 K IH]; [destruct Hy|]. cbn in Hy. apply in_app_iff in Hy as [H|H]; [exists t1, k1; split; [now left|auto]|].
        destruct (IH H) as (t2 & k2 & A1 & A2 & A3). exists t2, k2. split; [now right|auto]. }
      destruct Hy' as (t1 & k1 & A1 & A2 & A3). destruct (kids_facts A2) as (_ & _ & _ & Hin2 & _). apply (Hin2 y v A3) in Hv'.
      rewrite Forall_forall in H. exact (H t1 A1 v Hv Hv').
  - intros t' Ht'. destruct (In_kid t' Ht') as (t & ks & Ht & Hk & Hi). destruct (Fm t Ht) as (Q & HQ & (a & b & c & Hc & Q3)). exists Q. split; [exact HQ|].
    destruct (kids_facts Hk) as (_ & _ & _ & _ & _ & Hq). apply (Hq Q (HF Q HQ)); [|exact Hi]. exists a, b, c. split; [eapply corners_mono; eauto|exact Q3].
  - clear - K. induction K as [|t ks ts kss Hk K IH]; [reflexivity|]. cbn [concat]. rewrite app_length, IH. destruct (kids_facts Hk) as (-> & _). cbn [length]. lia.
Qed.
Lemma refine_mesh (Fam : (vec3 -> Prop) -> Prop) dom n : (forall Q, Fam Q -> closed Q) -> forall pts ts, mesh Fam dom pts ts ->
  exists pts' ts', refine n (pts, ts) = Ok (pts', ts') /\ mesh Fam dom pts' ts' /\ length ts' = (length ts * 4 ^ n)%nat.
Proof.
  intros HF. induction n as [|n IH]; intros pts ts M; cbn [refine].
  - exists pts, ts. split; [reflexivity|]. split; [exact M|]. cbn. lia.
  - destruct (refine_all_mesh HF M) as (p1 & t1 & E & M1 & L1). cbn [fst snd]. rewrite E. cbn [bind]. destruct (IH p1 t1 M1) as (p2 & t2 & E2 & M2 & L2).
    exists p2, t2. split; [exact E2|]. split; [exact M2|]. rewrite L2, L1. cbn [Nat.pow]. lia.
Qed.
