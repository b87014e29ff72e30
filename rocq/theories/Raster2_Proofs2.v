(** Lemmas about 2D rastering, second part: vertices outside the grid may be dropped. *)
From Coq Require Import Sorted.
From Verif Require Import QTac Raster2_Model Raster2_Proofs.
Set Implicit Arguments.
Open Scope Q_scope.

Section drop.
Variables gx gy : list Q.
(** no grid line strictly between two coordinates; every grid line that leaves [v] on one
    side (or through it) does the same with [u] *)
Definition nosep_all (G : list Q) (a b : Q) : Prop := forall g, In g G -> nosep g a b.
Definition near1 (G : list Q) (v u : Q) : Prop := forall g, In g G -> (v < g -> u <= g) /\ (v == g -> u == g) /\ (g < v -> g <= u).
Definition cell (p q : pt) : Prop := nosep_all gx (fst p) (fst q) /\ nosep_all gy (snd p) (snd q).
Definition near (v u : pt) : Prop := near1 gx (fst v) (fst u) /\ near1 gy (snd v) (snd u).
Lemma near1_trans G a b c : near1 G a b -> near1 G b a -> near1 G b c -> near1 G a c.
Proof.
  intros H1 H2 H3 g Hg. destruct (H1 g Hg) as (A1 & A2 & A3), (H2 g Hg) as (B1 & B2 & B3), (H3 g Hg) as (C1 & C2 & C3).
  repeat split; intros H.
  - apply C1. apply A1 in H as K. destruct (Qlt_le_dec b g) as [|K']; [assumption|]. assert (b == g) as E by lra. apply B2 in E. lra.
  - apply C2, A2, H.
  - apply C3. apply A3 in H as K. destruct (Qlt_le_dec g b) as [|K']; [assumption|]. assert (b == g) as E by lra. apply B2 in E. lra.
Qed.
Lemma near_trans a b c : near a b -> near b a -> near b c -> near a c.
Proof. intros [? ?] [? ?] [? ?]. split; eapply near1_trans; eassumption. Qed.
Lemma near1_nosep G v u w : near1 G v u -> near1 G v w -> nosep_all G u w.
Proof.
  intros H1 H2 g Hg. destruct (H1 g Hg) as (A1 & A2 & A3), (H2 g Hg) as (B1 & B2 & B3). apply nosep_intro.
  destruct (Qlt_le_dec v g) as [H|H]; [left; auto|]. destruct (Qlt_le_dec g v) as [H'|H']; [right; auto|].
  assert (v == g) as E by lra. apply A2 in E as ?. apply B2 in E. left; lra.
Qed.
Lemma near_cell v u w : near v u -> near v w -> cell u w.
Proof. intros [? ?] [? ?]. split; eapply near1_nosep; eassumption. Qed.

(** points of the path: a flag tells the added crossings from the vertices *)
Definition tagged := (pt * bool)%type.
Definition keep (t : tagged) : bool := snd t || inside gx gy (fst t).
Definition adjacent (t t' : tagged) : Prop :=
  cell (fst t) (fst t') /\ (snd t = false -> near (fst t) (fst t')) /\ (snd t' = false -> near (fst t') (fst t)).

Variables x0 x1 y0 y1 : Q.
Hypothesis Hx : x0 < x1.
Hypothesis Hy : y0 < y1.
Hypothesis Hgx : gx <> [] /\ hd 0 gx <= x0 /\ x1 <= last gx 0.
Hypothesis Hgy : gy <> [] /\ hd 0 gy <= y0 /\ y1 <= last gy 0.
Notation T := (trap x0 x1 y0 y1).

Lemma hd_In (l : list Q) : l <> [] -> In (hd 0 l) l.
Proof. destruct l; [congruence|simpl; auto]. Qed.
Lemma last_In (l : list Q) : l <> [] -> In (last l 0) l.
Proof. intros H. destruct (exists_last H) as (l' & a & ->). rewrite last_last. apply in_or_app. simpl. auto. Qed.

(** the sides of the grid: all three points in one outer half plane *)
Definition weak_side (s : nat) (p : pt) : Prop :=
  match s with
  | O => fst p <= hd 0 gx
  | 1%nat => last gx 0 <= fst p
  | 2%nat => snd p <= hd 0 gy
  | _ => last gy 0 <= snd p
  end.
Lemma side_near v : inside gx gy v = false -> exists s, forall u, near v u -> weak_side s u.
Proof.
  destruct Hgx as (Nx & _), Hgy as (Ny & _). unfold inside. intros H.
  rewrite !andb_false_iff in H. destruct H as [[[H|H]|H]|H]; qhyps.
  - exists 1%nat. intros u [Hu _]. destruct (Hu _ (last_In Nx)) as (_ & _ & K). exact (K H).
  - exists 0%nat. intros u [Hu _]. destruct (Hu _ (hd_In Nx)) as (K & _). exact (K H).
  - exists 3%nat. intros u [_ Hu]. destruct (Hu _ (last_In Ny)) as (_ & _ & K). exact (K H).
  - exists 2%nat. intros u [_ Hu]. destruct (Hu _ (hd_In Ny)) as (K & _). exact (K H).
Qed.
Lemma side_add s u v w : weak_side s u -> weak_side s v -> weak_side s w -> T u v + T v w == T u w.
Proof.
  destruct Hgx as (_ & G1 & G2), Hgy as (_ & G3 & G4).
  unfold trap. destruct s as [|[|[|s]]]; cbn [weak_side]; intros H1 H2 H3.
  - assert (F : forall z, z <= hd 0 gx -> phi x0 x1 z == x1 - x0) by (intros z Hz; unfold phi; qlra).
    rewrite !F by assumption. ring.
  - assert (F : forall z, last gx 0 <= z -> phi x0 x1 z == 0) by (intros z Hz; unfold phi; qlra).
    rewrite !F by assumption. ring.
  - assert (F : forall z, z <= hd 0 gy -> eta y0 y1 z == 0) by (intros z Hz; unfold eta; qlra).
    rewrite !F by assumption. ring.
  - assert (F : forall z, last gy 0 <= z -> eta y0 y1 z == y1 - y0) by (intros z Hz; unfold eta; qlra).
    rewrite !F by assumption. ring.
Qed.
Lemma near_refl v : near v v.
Proof. split; intros g _; repeat split; intros; lra. Qed.
Lemma outside_add v u w : inside gx gy v = false -> near v u -> near v w -> T u v + T v w == T u w.
Proof. intros H Hu Hw. destruct (side_near _ H) as (s & Hs). apply (@side_add s); apply Hs; auto using near_refl. Qed.

Notation Tt := (fun a b : tagged => T (fst a) (fst b)).
Notation cell' := (fun a b : tagged => cell (fst a) (fst b)).
Lemma keep_false t : keep t = false -> snd t = false /\ inside gx gy (fst t) = false.
Proof. unfold keep. now rewrite orb_false_iff. Qed.

Lemma drop_path z : keep z = true -> forall l u v,
  (v = u \/ keep v = false /\ near (fst v) (fst u)) -> chain adjacent v (l ++ [z]) ->
  T (fst u) (fst v) + walk Tt v (l ++ [z]) == walk Tt u (filter keep l ++ [z]) /\ chain cell' u (filter keep l ++ [z]).
Proof.
  intros Hz. induction l as [|q l IH]; intros u v Huv Hc; cbn [app] in Hc.
  - destruct Hc as [(H1 & H2 & H3) _]. cbn [filter app walk chain]. destruct Huv as [->|[Hk Hn]].
    + rewrite (@trap_same x0 x1 y0 y1 (fst u) (fst u)) by reflexivity. split; [ring|split; [exact H1|exact I]].
    + apply keep_false in Hk as [Ht Hi]. specialize (H2 Ht). split.
      * rewrite !Qplus_0_r. now apply outside_add.
      * split; [|exact I]. now apply near_cell with (v := fst v).
  - destruct Hc as [(H1 & H2 & H3) Hc]. cbn [filter]. destruct (keep q) eqn:Ek.
    + destruct (IH q q (or_introl eq_refl) Hc) as [E1 E2]. rewrite (@trap_same x0 x1 y0 y1 (fst q) (fst q)) in E1 by reflexivity.
      cbn [app walk chain]. rewrite <- E1. destruct Huv as [->|[Hk Hn]].
      * split; [rewrite (@trap_same x0 x1 y0 y1 (fst u) (fst u)) by reflexivity; ring|]. split; assumption.
      * apply keep_false in Hk as [Ht Hi]. specialize (H2 Ht). split.
        -- rewrite <- (outside_add Hi Hn H2). ring.
        -- split; [|assumption]. now apply near_cell with (v := fst v).
    + destruct (keep_false _ Ek) as [Tq Iq]. specialize (H3 Tq). destruct Huv as [->|[Hk Hn]].
      * destruct (IH u q (or_intror (conj Ek H3)) Hc) as [E1 E2]. split; [|assumption].
        cbn [walk app]. rewrite <- E1. rewrite (@trap_same x0 x1 y0 y1 (fst u) (fst u)) by reflexivity. ring.
      * apply keep_false in Hk as [Ht Hi]. specialize (H2 Ht).
        assert (Hqu : near (fst q) (fst u)) by (apply near_trans with (b := fst v); assumption).
        destruct (IH u q (or_intror (conj Ek Hqu)) Hc) as [E1 E2]. split; [|assumption].
        cbn [walk app]. rewrite <- E1. rewrite <- (outside_add Hi Hn H2). ring.
Qed.

(** all points dropped: they lie on one side and the sum vanishes *)
Lemma all_dropped_near (v : tagged) : forall l u, near (fst v) (fst u) -> near (fst u) (fst v) -> snd u = false -> (forall t, In t l -> keep t = false) ->
  chain adjacent u l -> forall t, In t l -> near (fst v) (fst t).
Proof.
  induction l as [|q l IH]; intros u N1 N2 Hu Hl Hc t Ht; [destruct Ht|].
  destruct Hc as [(H1 & H2 & H3) Hc]. specialize (H2 Hu).
  assert (Kq : keep q = false) by (apply Hl; simpl; auto). apply keep_false in Kq as [Tq _]. specialize (H3 Tq).
  assert (Nq : near (fst v) (fst q)) by (apply near_trans with (b := fst u); assumption).
  destruct Ht as [<-|Ht]; [assumption|].
  apply (IH q); auto.
  - apply near_trans with (b := fst u); assumption.
  - intros; apply Hl; simpl; auto.
Qed.
Lemma side_walk s : forall (l : list tagged) (u z : tagged), weak_side s (fst u) -> weak_side s (fst z) -> (forall t, In t l -> weak_side s (fst t)) ->
  walk Tt u (l ++ [z]) == T (fst u) (fst z).
Proof.
  induction l as [|q l IH]; intros u z Hu Hz Hl; cbn [app walk]; [ring|].
  rewrite IH; [|apply Hl; simpl; auto|assumption|intros; apply Hl; simpl; auto]. apply (@side_add s); auto. apply Hl; simpl; auto.
Qed.

Lemma drop_outside l : cchain adjacent l ->
  cwalk Tt (filter keep l) == cwalk Tt l /\ cchain cell' (filter keep l).
Proof.
  intros Hc. destruct (filter keep l) as [|k fl] eqn:Ef.
  - assert (Hl : forall t, In t l -> keep t = false).
    { intros t Ht. destruct (keep t) eqn:E; [|reflexivity]. assert (In t (filter keep l)) by now apply filter_In. rewrite Ef in *. contradiction. }
    split; [|exact I]. destruct l as [|v l]; [reflexivity|]. cbn [cwalk cchain] in *. symmetry.
    assert (Kv : keep v = false) by (apply Hl; simpl; auto). apply keep_false in Kv as [Tv Iv].
    destruct (side_near _ Iv) as (s & Hs).
    assert (Hn : forall t, In t (l ++ [v]) -> near (fst v) (fst t)).
    { apply (@all_dropped_near v (l ++ [v]) v); auto using near_refl. intros t Ht. apply Hl. apply in_app_or in Ht as [?|[<-|[]]]; simpl; auto. }
    rewrite (@side_walk s).
    + apply trap_same. reflexivity.
    + apply Hs, near_refl.
    + apply Hs, near_refl.
    + intros t Ht. apply Hs, Hn, in_or_app. auto.
  - assert (Hk : exists a b, l = a ++ k :: b /\ filter keep a = [] /\ fl = filter keep b /\ keep k = true).
    { clear Hc. revert k fl Ef. induction l as [|t l IH]; intros k fl Ef; [discriminate|]. cbn [filter] in Ef. destruct (keep t) eqn:Et.
      - inversion Ef; subst. exists [], l. auto.
      - destruct (IH _ _ Ef) as (a & b & -> & H1 & H2 & H3). exists (t :: a), b. cbn [app filter]. rewrite Et. auto. }
    destruct Hk as (a & b & -> & Ha & -> & Hkk).
    rewrite cchain_rotate in Hc. rewrite cwalk_rotate. cbn [cwalk cchain] in *.
    destruct (@drop_path k Hkk (b ++ a) k k (or_introl eq_refl) Hc) as [E1 E2].
    rewrite filter_app, Ha, app_nil_r in E1, E2. rewrite (@trap_same x0 x1 y0 y1 (fst k) (fst k)) in E1 by reflexivity.
    split; [|assumption]. rewrite <- E1. ring.
Qed.
End drop.
