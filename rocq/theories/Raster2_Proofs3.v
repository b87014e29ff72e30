(** Lemmas about 2D rastering, third part: the crossings of an edge with the grid lines. *)
From Coq Require Import Sorted.
From Verif Require Import QTac Raster2_Model Raster2_Proofs Raster2_Proofs2.
Set Implicit Arguments.
Open Scope Q_scope.

Lemma chain_impl_end A (P R : A -> A -> Prop) z : forall l u, (forall x y, In x (u :: l) -> In y (l ++ [z]) -> P x y -> R x y) ->
  chain P u (l ++ [z]) -> chain R u (l ++ [z]).
Proof.
  induction l as [|v l IH]; intros u H; cbn [app chain].
  - intros [H1 _]. split; [|exact I]. apply H; simpl; auto.
  - intros [H1 H2]. split; [apply H; simpl; auto|]. apply IH; [|assumption]. intros x y Hx Hy. apply H; simpl in *; tauto.
Qed.

(** *** minimum, maximum, unique *)
Lemma fold_qmin_le : forall l a, fold_left qmin l a <= a /\ forall x, In x l -> fold_left qmin l a <= x.
Proof.
  induction l as [|y l IH]; intros a; simpl; [split; [apply Qle_refl|tauto]|].
  destruct (IH (qmin a y)) as [H1 H2]. assert (qmin a y <= a /\ qmin a y <= y) as [K1 K2] by (split; qlra).
  split; [lra|]. intros x [<-|Hx]; [lra|auto].
Qed.
Lemma fold_qmax_le : forall l a, a <= fold_left qmax l a /\ forall x, In x l -> x <= fold_left qmax l a.
Proof.
  induction l as [|y l IH]; intros a; simpl; [split; [apply Qle_refl|tauto]|].
  destruct (IH (qmax a y)) as [H1 H2]. assert (a <= qmax a y /\ y <= qmax a y) as [K1 K2] by (split; qlra).
  split; [lra|]. intros x [<-|Hx]; [lra|auto].
Qed.
Lemma amin_le l x : In x l -> amin l <= x.
Proof. destruct l as [|a l]; [intros []|]. unfold amin. simpl. destruct (fold_qmin_le l a) as [H1 H2]. intros [<-|H]; auto. Qed.
Lemma amax_le l x : In x l -> x <= amax l.
Proof. destruct l as [|a l]; [intros []|]. unfold amax. simpl. destruct (fold_qmax_le l a) as [H1 H2]. intros [<-|H]; auto. Qed.

Lemma uinsert_has x l : (exists y, In y (uinsert x l) /\ y == x) /\ forall z, In z l -> In z (uinsert x l).
Proof.
  induction l as [|y l [IH1 IH2]]; simpl; [split; [exists x; auto with qarith|tauto]|].
  destruct (qlt x y) eqn:E1; [split; [exists x; simpl; auto with qarith|simpl; tauto]|].
  destruct (Qeq_bool x y) eqn:E2.
  - split; [exists y; split; [simpl; auto|]|auto]. apply Qeq_bool_iff in E2. symmetry. assumption.
  - destruct IH1 as (w & Hw & Ew). split; [exists w; simpl; auto|]. intros z [<-|Hz]; simpl; auto.
Qed.
Lemma uinsert_in x l z : In z (uinsert x l) -> z = x \/ In z l.
Proof.
  induction l as [|y l IH]; simpl; [intuition|].
  destruct (qlt x y); simpl; [intuition|]. destruct (Qeq_bool x y); simpl; intuition.
Qed.
Lemma uinsert_sorted x l : StronglySorted Qle l -> StronglySorted Qle (uinsert x l).
Proof.
  induction l as [|y l IH]; simpl; intros H; [repeat constructor|].
  inversion H as [|? ? Hs Hf]; subst. destruct (qlt x y) eqn:E1; qhyps.
  - constructor; [assumption|]. constructor; [lra|]. eapply Forall_impl; [|exact Hf]. intros; lra.
  - destruct (Qeq_bool x y); [assumption|]. constructor; [auto|]. apply Forall_forall. intros z Hz.
    apply uinsert_in in Hz as [->|Hz]; [assumption|]. rewrite Forall_forall in Hf. auto.
Qed.
Lemma unique_has l x : In x l -> exists y, In y (unique l) /\ y == x.
Proof.
  induction l as [|a l IH]; simpl; [tauto|]. intros [<-|H].
  - apply uinsert_has.
  - destruct (IH H) as (y & H1 & H2). exists y. split; [|assumption]. now apply uinsert_has.
Qed.
Lemma unique_sorted l : StronglySorted Qle (unique l).
Proof. induction l; simpl; [constructor|]. now apply uinsert_sorted. Qed.
Lemma sorted_hd l x : StronglySorted Qle l -> In x l -> hd 0 l <= x.
Proof. intros H Hi. destruct H as [|a l H Hf]; [destruct Hi|]. simpl. destruct Hi as [<-|Hi]; [lra|]. rewrite Forall_forall in Hf. auto. Qed.
Lemma sorted_last l x : StronglySorted Qle l -> In x l -> x <= last l 0.
Proof.
  intros H. revert x. induction H as [|a l H IH Hf]; [intros x []|]. intros x Hi.
  destruct l as [|b l]; [destruct Hi as [<-|[]]; simpl; lra|]. change (last (a :: b :: l) 0) with (last (b :: l) 0).
  destruct Hi as [<-|Hi]; [|auto]. rewrite Forall_forall in Hf. specialize (Hf b (or_introl eq_refl)). specialize (IH b (or_introl eq_refl)). lra.
Qed.
Lemma local_grid_lo coords grid x : In x coords -> hd 0 (local_grid coords grid) <= x.
Proof.
  intros H. unfold local_grid. set (l := _ :: _). destruct (@unique_has l (amin coords)) as (y & H1 & H2); [simpl; auto|].
  pose proof (sorted_hd _ (unique_sorted l) H1). pose proof (amin_le _ _ H). lra.
Qed.
Lemma local_grid_hi coords grid x : In x coords -> x <= last (local_grid coords grid) 0.
Proof.
  intros H. unfold local_grid. set (l := _ :: _). destruct (@unique_has l (amax coords)) as (y & H1 & H2).
  { unfold l. right. apply in_or_app. simpl. auto. }
  pose proof (sorted_last _ (unique_sorted l) H1). pose proof (amax_le _ _ H). lra.
Qed.
Lemma local_grid_has coords grid g u v : In u coords -> In v coords -> In g grid -> u <= g -> g <= v ->
  exists l, In l (local_grid coords grid) /\ l == g.
Proof.
  intros Hu Hv Hg H1 H2. unfold local_grid. apply unique_has. right. apply in_or_app. left. apply filter_In. split; [assumption|].
  pose proof (amin_le _ _ Hu). pose proof (amax_le _ _ Hv). rewrite andb_true_iff, !Qle_bool_iff. split; lra.
Qed.

(** *** intersections *)
Definition on (a b : pt) (f : Q) : pt := (fst a + (fst b - fst a) * f, snd a + (snd b - snd a) * f).
Lemma intersection_some a b c d f p : intersection a b c d = Some (f, p) -> p = on a b f /\ 0 <= f <= 1.
Proof.
  unfold intersection. destruct (Qeq_bool _ 0); [discriminate|]. destruct (_ && _) eqn:E; [|discriminate].
  intros H. inversion H; subst. rewrite !andb_true_iff, !Qle_bool_iff in E. unfold on. intuition.
Qed.
Lemma intersection_found a b c d f h :
  fst a + (fst b - fst a) * f == fst c + (fst d - fst c) * h -> snd a + (snd b - snd a) * f == snd c + (snd d - snd c) * h ->
  ~ (snd d - snd c) * (fst b - fst a) - (fst d - fst c) * (snd b - snd a) == 0 -> 0 <= f <= 1 -> 0 <= h <= 1 ->
  exists f', intersection a b c d = Some (f', on a b f') /\ f' == f.
Proof.
  intros E1 E2 HD Hf Hh. unfold intersection. cbv zeta.
  assert (X : fst c == fst a + (fst b - fst a) * f - (fst d - fst c) * h) by lra.
  assert (Y : snd c == snd a + (snd b - snd a) * f - (snd d - snd c) * h) by lra.
  set (D := (snd d - snd c) * (fst b - fst a) - (fst d - fst c) * (snd b - snd a)) in *.
  assert (NA : (fst c - fst a) * (snd d - snd c) - (snd c - snd a) * (fst d - fst c) == f * D).
  { unfold D. set (dx := fst d - fst c) in *. set (dy := snd d - snd c) in *. clearbody dx dy. rewrite X, Y. ring. }
  assert (NB : (fst c - fst a) * (snd b - snd a) - (snd c - snd a) * (fst b - fst a) == h * D).
  { unfold D. set (dx := fst d - fst c) in *. set (dy := snd d - snd c) in *. clearbody dx dy. rewrite X, Y. ring. }
  assert (Qeq_bool D 0 = false) as ->. { destruct (Qeq_bool D 0) eqn:E; [|reflexivity]. apply Qeq_bool_iff in E. contradiction. }
  set (fa := ((fst c - fst a) * (snd d - snd c) - (snd c - snd a) * (fst d - fst c)) / D).
  set (fb := ((fst c - fst a) * (snd b - snd a) - (snd c - snd a) * (fst b - fst a)) / D).
  assert (Fa : fa == f) by (unfold fa; rewrite NA; field; assumption).
  assert (Fb : fb == h) by (unfold fb; rewrite NB; field; assumption).
  exists fa. split; [|assumption].
  assert (Qle_bool 0 fa && Qle_bool fa 1 && Qle_bool 0 fb && Qle_bool fb 1 = true) as ->; [|reflexivity].
  rewrite !andb_true_iff, !Qle_bool_iff. repeat split; lra.
Qed.

(** *** sorted crossings *)
Notation le_fst := (fun x y : Q * pt => fst x <= fst y).
Lemma insert_in x l z : In z (insert_by x l) <-> z = x \/ In z l.
Proof. induction l as [|y l IH]; simpl; [intuition|]. destruct (Qle_bool (fst x) (fst y)); simpl; [intuition|]. rewrite IH. intuition. Qed.
Lemma sort_in l z : In z (sort_by l) <-> In z l.
Proof. induction l as [|y l IH]; simpl; [tauto|]. rewrite insert_in, IH. intuition. Qed.
Lemma insert_sorted x l : StronglySorted le_fst l -> StronglySorted le_fst (insert_by x l).
Proof.
  induction l as [|y l IH]; simpl; intros H; [repeat constructor|]. inversion H as [|? ? Hs Hf]; subst.
  destruct (Qle_bool (fst x) (fst y)) eqn:E; qhyps.
  - constructor; [assumption|]. constructor; [assumption|]. eapply Forall_impl; [|exact Hf]. simpl. intros; lra.
  - constructor; [auto|]. apply Forall_forall. intros z Hz. apply insert_in in Hz as [->|Hz]; [lra|]. rewrite Forall_forall in Hf. auto.
Qed.
Lemma sort_sorted l : StronglySorted le_fst (sort_by l).
Proof. induction l; simpl; [constructor|]. now apply insert_sorted. Qed.

Section edge.
Variables gx gy : list Q.
Variables lx ly : list Q.
Variables a b : pt.
Notation X0 := (hd 0 lx). Notation X1 := (last lx 0). Notation Y0 := (hd 0 ly). Notation Y1 := (last ly 0).
Hypothesis HX : X0 < X1.
Hypothesis HY : Y0 < Y1.
Hypothesis Ha : X0 <= fst a <= X1 /\ Y0 <= snd a <= Y1.
Hypothesis Hb : X0 <= fst b <= X1 /\ Y0 <= snd b <= Y1.
Hypothesis Hlx : forall g, In g gx -> (fst a <= g <= fst b \/ fst b <= g <= fst a) -> exists l, In l lx /\ l == g.
Hypothesis Hly : forall g, In g gy -> (snd a <= g <= snd b \/ snd b <= g <= snd a) -> exists l, In l ly /\ l == g.
Notation C := (crossings (grid_lines lx ly) a b).

Lemma crossings_sorted : StronglySorted le_fst C.
Proof. apply sort_sorted. Qed.
Lemma crossings_on c : In c C -> snd c = on a b (fst c) /\ 0 <= fst c <= 1.
Proof.
  unfold crossings. rewrite sort_in, in_flat_map. intros (cd & _ & H).
  destruct (intersection a b (fst cd) (snd cd)) as [[f p]|] eqn:E; [|destruct H]. destruct H as [<-|[]].
  now apply intersection_some in E.
Qed.
Lemma between_lo x y f lo : 0 <= f <= 1 -> lo <= x -> lo <= y -> lo <= x + (y - x) * f.
Proof. intros. nra. Qed.
Lemma between_hi x y f hi : 0 <= f <= 1 -> x <= hi -> y <= hi -> x + (y - x) * f <= hi.
Proof. intros. nra. Qed.
Lemma frac_range u d : 0 < d -> 0 <= u <= d -> 0 <= u / d <= 1.
Proof.
  intros Hd Hu. split; [apply Qle_shift_div_l; lra|apply Qle_shift_div_r; lra].
Qed.
Lemma between_order x y f : 0 <= f <= 1 -> x <= x + (y - x) * f <= y \/ y <= x + (y - x) * f <= x.
Proof. intros H. destruct (Qlt_le_dec x y); [left|right]; nra. Qed.
Lemma crossing_x g f : In g gx -> ~ fst b - fst a == 0 -> fst a + (fst b - fst a) * f == g -> 0 <= f <= 1 -> exists c, In c C /\ fst c == f.
Proof.
  intros Hg Hd Hf H01.
  destruct (@Hlx g Hg) as (l & Hl & El).
  { destruct (between_order (fst a) (fst b) H01); [left|right]; lra. }
  set (h := (snd a + (snd b - snd a) * f - Y0) / (Y1 - Y0)).
  assert (Hh : 0 <= h <= 1).
  { apply frac_range; [lra|].
    assert (Y0 <= snd a + (snd b - snd a) * f) by (apply between_lo; lra).
    assert (snd a + (snd b - snd a) * f <= Y1) by (apply between_hi; lra). lra. }
  destruct (@intersection_found a b (l, Y0) (l, Y1) f h) as (f' & E & Ef); cbn [fst snd]; try assumption.
  - rewrite Hf, El. ring.
  - unfold h. field. lra.
  - intros K. apply Hd. assert ((Y1 - Y0) * (fst b - fst a) == 0) as K' by lra.
    apply Qmult_integral in K' as [K'|K']; lra.
  - exists (f', on a b f'). split; [|assumption]. unfold crossings. rewrite sort_in, in_flat_map.
    exists ((l, Y0), (l, Y1)). split; [|cbn [fst snd]; rewrite E; simpl; auto].
    unfold grid_lines. apply in_or_app. right. apply in_map_iff. exists l. auto.
Qed.
Lemma crossing_y g f : In g gy -> ~ snd b - snd a == 0 -> snd a + (snd b - snd a) * f == g -> 0 <= f <= 1 -> exists c, In c C /\ fst c == f.
Proof.
  intros Hg Hd Hf H01.
  destruct (@Hly g Hg) as (l & Hl & El).
  { destruct (between_order (snd a) (snd b) H01); [left|right]; lra. }
  set (h := (fst a + (fst b - fst a) * f - X0) / (X1 - X0)).
  assert (Hh : 0 <= h <= 1).
  { apply frac_range; [lra|].
    assert (X0 <= fst a + (fst b - fst a) * f) by (apply between_lo; lra).
    assert (fst a + (fst b - fst a) * f <= X1) by (apply between_hi; lra). lra. }
  destruct (@intersection_found a b (X0, l) (X1, l) f h) as (f' & E & Ef); cbn [fst snd]; try assumption.
  - unfold h. field. lra.
  - rewrite Hf, El. ring.
  - intros K. apply Hd. assert ((X1 - X0) * (snd b - snd a) == 0) as K' by lra.
    apply Qmult_integral in K' as [K'|K']; lra.
  - exists (f', on a b f'). split; [|assumption]. unfold crossings. rewrite sort_in, in_flat_map.
    exists ((X0, l), (X1, l)). split; [|cbn [fst snd]; rewrite E; simpl; auto].
    unfold grid_lines. apply in_or_app. left. apply in_map_iff. exists l. auto.
Qed.

(** consecutive points of the cut edge, with their fractions *)
Definition item := (Q * tagged)%type.
Definition step (i i' : item) : Prop := fst i <= fst i' /\
  forall c, In c C -> (fst c <= fst i \/ fst i' <= fst c) /\ (snd (snd i) = false -> fst i' <= fst c) /\ (snd (snd i') = false -> fst c <= fst i).
Definition item_ok (i : item) : Prop :=
  fst (fst (snd i)) == fst (on a b (fst i)) /\ snd (fst (snd i)) == snd (on a b (fst i)) /\ 0 <= fst i <= 1.
Definition mk_item (c : Q * pt) : item := (fst c, (snd c, true)).
Lemma chain_items : forall C2 x, StronglySorted le_fst (x :: C2) -> (forall c, In c C -> fst c <= fst x \/ In c C2) ->
  (forall c, In c (x :: C2) -> In c C) -> chain step (mk_item x) (map mk_item C2 ++ [(1, (b, false))]).
Proof.
  induction C2 as [|y C2 IH]; intros x Hs Hall Hin; cbn [map app chain].
  - split; [|exact I]. split; [apply crossings_on, Hin; simpl; auto|]. intros c Hc.
    destruct (Hall c Hc) as [H|[]]. cbn. repeat split; auto. discriminate.
  - inversion Hs as [|? ? Hs' Hf]; subst. inversion Hs' as [|? ? Hs'' Hf']; subst. rewrite Forall_forall in Hf, Hf'. split.
    + split; [apply (Hf y); simpl; auto|]. intros c Hc. cbn. split; [|split; discriminate].
      destruct (Hall c Hc) as [H|[<-|H]]; [left; assumption|right; lra|right; apply (Hf' c H)].
    + apply IH; [assumption| |intros c Hc; apply Hin; simpl in *; tauto].
      intros c Hc. destruct (Hall c Hc) as [H|[<-|H]]; [|left; lra|right; assumption]. left. specialize (Hf y (or_introl eq_refl)). simpl in Hf. lra.
Qed.
Lemma edge_items : chain step (0, (a, false)) (map mk_item C ++ [(1, (b, false))]).
Proof.
  pose proof crossings_sorted as Hs. pose proof chain_items as K. pose proof crossings_on as O. unfold step in *.
  revert Hs K O. generalize C. intros C' Hs K O. destruct C' as [|x C'].
  - cbn. split; [|exact I]. split; [lra|]. intros c [].
  - cbn [map app chain]. split; [|apply K; auto].
    + split; [apply (O x); simpl; auto|]. intros c Hc. destruct (O c Hc) as [_ H]. inversion Hs as [|? ? Hs' Hf]; subst. rewrite Forall_forall in Hf.
      assert (fst x <= fst c) by (destruct Hc as [<-|Hc]; [lra|apply (Hf c Hc)]). cbn. repeat split; auto. discriminate.
    + intros c [<-|Hc]; [left; lra|right; assumption].
Qed.

Lemma edge_nosep (f f' u v g s t : Q) : f <= f' -> 0 <= f -> f' <= 1 -> s == u + (v - u) * f -> t == u + (v - u) * f' ->
  (forall h, ~ v - u == 0 -> u + (v - u) * h == g -> 0 <= h <= 1 -> h <= f \/ f' <= h) -> nosep g s t.
Proof.
  intros Hf H0 H1 Hs Ht Hx.
  assert (G : (s < g < t \/ t < g < s) -> False).
  { intros K. assert (Hd : ~ v - u == 0) by (intros E; nra).
    set (h := (g - u) / (v - u)). assert (Eh : u + (v - u) * h == g) by (unfold h; field; assumption).
    assert (Hh : (v - u) * (h - f) == g - s /\ (v - u) * (f' - h) == t - g) by (split; lra).
    assert (Hlt : f < h < f') by (destruct (Qlt_le_dec 0 (v - u)); nra).
    destruct (Hx h Hd Eh) as [?|?]; lra. }
  split; intros K; apply G; auto.
Qed.

Lemma step_adjacent i i' : item_ok i -> item_ok i' -> (snd (snd i) = false -> fst i == 0) -> (snd (snd i') = false -> fst i' == 1) ->
  step i i' -> adjacent gx gy (snd i) (snd i').
Proof.
  destruct i as (f & p & t), i' as (f' & p' & t'). unfold item_ok, step, adjacent. cbn [fst snd on].
  intros (P1 & P2 & P3) (Q1 & Q2 & Q3) T0 T1 (Hle & Hst).
  assert (NX : forall g, In g gx -> nosep g (fst p) (fst p')).
  { intros g Hg. apply (@edge_nosep f f' (fst a) (fst b)); try assumption; try lra.
    intros h Hd Eh H01. destruct (crossing_x Hg Hd Eh H01) as (c & Hc & Ec). destruct (Hst c Hc) as ([H|H] & _); [left|right]; lra. }
  assert (NY : forall g, In g gy -> nosep g (snd p) (snd p')).
  { intros g Hg. apply (@edge_nosep f f' (snd a) (snd b)); try assumption; try lra.
    intros h Hd Eh H01. destruct (crossing_y Hg Hd Eh H01) as (c & Hc & Ec). destruct (Hst c Hc) as ([H|H] & _); [left|right]; lra. }
  split; [split; assumption|]. split.
  - intros ->. specialize (T0 eq_refl). split; intros g Hg.
    + specialize (NX g Hg). apply nosep_cases in NX. assert (fst p == fst a) as Ep by (rewrite P1, T0; ring).
      repeat split; intros H; try lra. destruct (Qeq_dec (fst b - fst a) 0) as [E|E]; [rewrite Q1, E; lra|].
      destruct (@crossing_x g 0 Hg E) as (c & Hc & Ec); [lra|lra|]. destruct (Hst c Hc) as (_ & K & _). specialize (K eq_refl).
      assert (f' == 0) as Ef by lra. rewrite Q1, Ef. lra.
    + specialize (NY g Hg). apply nosep_cases in NY. assert (snd p == snd a) as Ep by (rewrite P2, T0; ring).
      repeat split; intros H; try lra. destruct (Qeq_dec (snd b - snd a) 0) as [E|E]; [rewrite Q2, E; lra|].
      destruct (@crossing_y g 0 Hg E) as (c & Hc & Ec); [lra|lra|]. destruct (Hst c Hc) as (_ & K & _). specialize (K eq_refl).
      assert (f' == 0) as Ef by lra. rewrite Q2, Ef. lra.
  - intros ->. specialize (T1 eq_refl). split; intros g Hg.
    + specialize (NX g Hg). apply nosep_cases in NX. assert (fst p' == fst b) as Ep by (rewrite Q1, T1; ring).
      repeat split; intros H; try lra. destruct (Qeq_dec (fst b - fst a) 0) as [E|E]; [rewrite P1, E; lra|].
      destruct (@crossing_x g 1 Hg E) as (c & Hc & Ec); [lra|lra|]. destruct (Hst c Hc) as (_ & _ & K). specialize (K eq_refl).
      assert (f == 1) as Ef by lra. rewrite P1, Ef. lra.
    + specialize (NY g Hg). apply nosep_cases in NY. assert (snd p' == snd b) as Ep by (rewrite Q2, T1; ring).
      repeat split; intros H; try lra. destruct (Qeq_dec (snd b - snd a) 0) as [E|E]; [rewrite P2, E; lra|].
      destruct (@crossing_y g 1 Hg E) as (c & Hc & Ec); [lra|lra|]. destruct (Hst c Hc) as (_ & _ & K). specialize (K eq_refl).
      assert (f == 1) as Ef by lra. rewrite P2, Ef. lra.
Qed.

Definition mark (c : Q * pt) : tagged := (snd c, true).
Lemma edge_chain : chain (adjacent gx gy) (a, false) (map mark C ++ [(b, false)]).
Proof.
  assert (E : map mark C ++ [(b, false)] = map (@snd Q tagged) (map mk_item C ++ [(1, (b, false))])).
  { rewrite map_app, map_map. reflexivity. }
  rewrite E. change (a, false) with (snd (0, (a, false))). rewrite chain_map.
  assert (OK : forall i, In i ((0, (a, false)) :: map mk_item C ++ [(1, (b, false))]) -> item_ok i).
  { intros i [<-|Hi]; [unfold item_ok, on; cbn [fst snd]; repeat split; lra|].
    apply in_app_or in Hi as [Hi|[<-|[]]]; [|unfold item_ok, on; cbn [fst snd]; repeat split; lra].
    apply in_map_iff in Hi as (c & <- & Hc). apply crossings_on in Hc as [H1 H2]. unfold item_ok, mk_item. cbn [fst snd]. rewrite H1. repeat split; lra. }
  pose proof edge_items as H. revert H. apply chain_impl_end. intros x y Hx Hy Hs.
  apply step_adjacent; [apply OK; simpl in *; rewrite in_app_iff; tauto|apply OK; simpl; auto| | |assumption].
  - intros Ht. destruct Hx as [<-|Hx]; [reflexivity|]. apply in_map_iff in Hx as (c & <- & _). discriminate.
  - intros Ht. apply in_app_or in Hy as [Hy|[<-|[]]]; [|reflexivity]. apply in_map_iff in Hy as (c & <- & _). discriminate.
Qed.
End edge.
