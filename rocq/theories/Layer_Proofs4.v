(** Lemmas about rendering, fourth part: the loops over layers, polygons and components. *)
From Coq Require Import Reals Lia List QArith Qreals.
From Coquelicot Require Import Coquelicot.
From Verif Require Import QTac Grid_Model Raster_Model Raster_Spec Raster2_Model Raster2_Spec Raster2_Proofs6 Layer_Model Layer_Spec Layer_Proofs Layer_Proofs2 Layer_Proofs3.
From Coq Require Import Lra.
Open Scope R_scope.

Definition Rsum (l : list R) : R := fold_right Rplus 0 l.
Lemma Rsum_app l m : Rsum (l ++ m) = Rsum l + Rsum m.
Proof. unfold Rsum. induction l as [|x l IH]; cbn [app fold_right]; [ring|rewrite IH; ring]. Qed.
Lemma Rsum_ext {A} (f g : A -> R) l : (forall x, In x l -> f x = g x) -> Rsum (map f l) = Rsum (map g l).
Proof. intros H. f_equal. now apply map_ext_in. Qed.
Lemma Rsum_scal {A} k (f : A -> R) l : Rsum (map (fun x => k * f x) l) = k * Rsum (map f l).
Proof. unfold Rsum. induction l as [|x l IH]; cbn [map fold_right]; [ring|rewrite IH; ring]. Qed.
Lemma Rsum_zero {A} (f : A -> R) l : (forall x, In x l -> f x = 0) -> Rsum (map f l) = 0.
Proof. intros H. rewrite (Rsum_ext _ (fun _ => 0 * 0)) by (intros; rewrite H by assumption; ring). rewrite Rsum_scal. ring. Qed.
Lemma Rsum_single (f : nat -> R) l x : NoDup l -> In x l -> (forall y, In y l -> y <> x -> f y = 0) -> Rsum (map f l) = f x.
Proof.
  intros N I H. induction N as [|y l Hy N IH]; [destruct I|]. cbn [map]. change (Rsum (?a :: ?b)) with (a + Rsum b). destruct I as [->|I].
  - rewrite Rsum_zero; [ring|]. intros z Hz. apply H; [now right|]. intros ->. tauto.
  - rewrite IH; [|assumption|intros z Hz; apply H; now right]. rewrite H; [ring|now left|]. intros ->. tauto.
Qed.

Definition layer := list (polygon * list Q).
(** contribution of a layer to a cell in the plane, relative to the background [bg] *)
Definition Dsum (n : nat) (c : component) (bg : R) (l : layer) (i j : nat) : R :=
  Rsum (map (fun x => (Q2R (qn (snd x) n) - bg) * share c (fst x) i j) l).
Definition zfrac (c : component) (z0 z1 : Q) (k : nat) : R := Q2R (covered (qmin z0 z1) (qmax z0 z1) (cell_edges (c_z c)) k).
(** value of a component after rendering: [grids] plus background times [frac_bg] *)
Definition val (c : component) (s : array * array) (i j k : nat) : R := Q2R (fst s i j k) + Q2R (c_bg c i j k) * Q2R (snd s i j k).
Definition dc : component := mkcomp (mkaxis [] false 0 0) (mkaxis [] false 0 0) (mkaxis [] false 0 0) (fun _ _ _ => 0%Q).
Definition ds : array * array := ((fun _ _ _ => 0%Q), (fun _ _ _ => 1%Q)).

Lemma mapM_nth {A B} (f : A -> res B) l da db : (forall a, In a l -> exists b, f a = Ok b) ->
  exists bs, mapM f l = Ok bs /\ length bs = length l /\ forall n, (n < length l)%nat -> f (nth n l da) = Ok (nth n bs db).
Proof.
  induction l as [|a l IH]; intros H.
  - exists []. cbn. split; [reflexivity|]. split; [reflexivity|]. intros n Hn. lia.
  - destruct (H a (or_introl eq_refl)) as [b Eb]. destruct IH as (bs & E & L & N); [intros; apply H; now right|].
    exists (b :: bs). cbn [mapM]. rewrite Eb. cbn [bind]. rewrite E. cbn [bind length]. split; [reflexivity|]. split; [congruence|].
    intros [|n] Hn; cbn [nth]; [assumption|apply N; lia].
Qed.
Section clip.
Variable cs : list component.
Hypothesis CS : forall c, In c cs -> component_ok c.
Definition goodx (x : polygon * list Q) : Prop := usable (fst x) /\ (length cs <= length (snd x))%nat.

Lemma polygon_step p eps z0 z1 st : goodx (p, eps) -> length st = length cs ->
  exists st', render_polygon cs p z0 z1 eps st = Ok st' /\ length st' = length cs /\
  forall n, (n < length cs)%nat -> forall i j k, in_grid (nth n cs dc) i j k ->
  let c := nth n cs dc in
  val c (nth n st' ds) i j k = val c (nth n st ds) i j k + (Q2R (qn eps n) - Q2R (c_bg c i j k)) * share c p i j * zfrac c z0 z1 k.
Proof.
  intros [U L] Hst. cbn [fst snd] in *. unfold render_polygon. assert (Nat.leb (length p) 2 = false) as -> by (apply Nat.leb_gt; destruct U; lia).
  assert (NT : forall n, (n < length cs)%nat -> nth n (combine (seq 0 (length cs)) (combine cs st)) (O, (dc, ds)) = (n, (nth n cs dc, nth n st ds))).
  { intros n Hn. rewrite combine_nth by (rewrite seq_length, combine_length; lia). rewrite combine_nth by lia. rewrite seq_nth by lia. reflexivity. }
  assert (LN : length (combine (seq 0 (length cs)) (combine cs st)) = length cs) by (rewrite !combine_length, seq_length; lia).
  match goal with |- context[mapM ?F _] => set (g := F) end.
  destruct (@mapM_nth _ _ g (combine (seq 0 (length cs)) (combine cs st)) (O, (dc, ds)) ds) as (bs & E & Lb & N).
  { intros x Hx. apply (In_nth _ _ (O, (dc, ds))) in Hx as (n & Hn & <-). rewrite LN in Hn. rewrite NT by assumption. unfold g.
    destruct (nth n st ds) as [a f] eqn:Es. destruct (weights_pf (nth n cs dc) p z0 z1) as (w & Ew & _); [apply CS, nth_In; lia|assumption|].
    rewrite Ew. cbn [bind]. destruct (nth_error eps n) eqn:En; [eauto|]. apply nth_error_None in En. lia. }
  exists bs. split; [assumption|]. split; [exact (eq_trans Lb LN)|]. intros n Hn i j k Hg. set (c := nth n cs dc) in *. specialize (N n (eq_ind_r (fun m => (n < m)%nat) Hn LN)).
  assert (N' : g (n, (nth n cs dc, nth n st ds)) = Ok (nth n bs ds)) by (rewrite <- (NT n Hn); exact N). clear N. rename N' into N. unfold g in N.
  destruct (nth n st ds) as [a f] eqn:Es. destruct (weights_pf (nth n cs dc) p z0 z1) as (w & Ew & Vw); [apply CS, nth_In; lia|assumption|].
  rewrite Ew in N. cbn [bind] in N. destruct (nth_error eps n) as [e|] eqn:En; [|discriminate]. injection N as N.
  assert (e = qn eps n) as ->. { unfold qn. apply nth_error_nth with (d := 0%Q) in En. now symmetry. }
  unfold val. unfold array in *. rewrite <- N. cbn [fst snd]. rewrite Q2R_plus, Q2R_minus, Q2R_mult, (Vw i j k Hg). fold c. unfold zfrac. ring.
Qed.
Lemma layer_step l z0 z1 : forall st, (forall x, In x l -> goodx x) -> length st = length cs ->
  exists st', render_layer cs l z0 z1 st = Ok st' /\ length st' = length cs /\
  forall n, (n < length cs)%nat -> forall i j k, in_grid (nth n cs dc) i j k ->
  let c := nth n cs dc in
  val c (nth n st' ds) i j k = val c (nth n st ds) i j k + Dsum n c (Q2R (c_bg c i j k)) l i j * zfrac c z0 z1 k.
Proof.
  induction l as [|[p eps] l IH]; intros st G L.
  - exists st. cbn [render_layer]. split; [reflexivity|]. split; [assumption|]. intros n Hn i j k Hg. cbv zeta. set (c := nth n cs dc) in *. unfold Dsum. cbn. ring.
  - destruct (polygon_step p eps z0 z1 st (G _ (or_introl eq_refl)) L) as (s1 & E1 & L1 & V1).
    destruct (IH s1) as (s2 & E2 & L2 & V2); [intros; apply G; now right|assumption|].
    exists s2. cbn [render_layer]. rewrite E1. cbn [bind]. split; [assumption|]. split; [assumption|]. intros n Hn i j k Hg. cbv zeta. set (c := nth n cs dc) in *.
    specialize (V1 n Hn i j k Hg). specialize (V2 n Hn i j k Hg). cbv zeta in V1, V2. fold c in V1, V2. rewrite V2, V1. unfold Dsum. cbn [map fst snd]. change (Rsum (?a :: ?b)) with (a + Rsum b). ring.
Qed.
Lemma layers_step z : forall ls st m, (forall l x, In l ls -> In x l -> goodx x) -> length st = length cs ->
  exists st', render_layers cs ls z m st = Ok st' /\ length st' = length cs /\
  forall n, (n < length cs)%nat -> forall i j k, in_grid (nth n cs dc) i j k ->
  let c := nth n cs dc in
  val c (nth n st' ds) i j k = val c (nth n st ds) i j k +
    Rsum (map (fun q => Dsum n c (Q2R (c_bg c i j k)) (nth q ls []) i j * zfrac c (qn z (m + q)) (qn z (m + q + 1)) k) (seq 0 (length ls))).
Proof.
  induction ls as [|l ls IH]; intros st m G L.
  - exists st. cbn [render_layers]. split; [reflexivity|]. split; [assumption|]. intros n Hn i j k Hg. cbv zeta. set (c := nth n cs dc) in *. cbn. ring.
  - destruct (layer_step l (qn z m) (qn z (m + 1)) st) as (s1 & E1 & L1 & V1); [intros; apply (G l); [now left|assumption]|assumption|].
    destruct (IH s1 (S m)) as (s2 & E2 & L2 & V2); [intros l' x H1 H2; apply (G l'); [now right|assumption]|assumption|].
    exists s2. cbn [render_layers]. rewrite E1. cbn [bind]. split; [assumption|]. split; [assumption|]. intros n Hn i j k Hg. cbv zeta. set (c := nth n cs dc) in *.
    specialize (V1 n Hn i j k Hg). specialize (V2 n Hn i j k Hg). cbv zeta in V1, V2. fold c in V1, V2. rewrite V2, V1. cbn [length seq map nth]. change (Rsum (?a :: ?b)) with (a + Rsum b).
    rewrite <- seq_shift, map_map. rewrite !Nat.add_0_r. rewrite Rplus_assoc. do 2 f_equal.
    apply Rsum_ext. intros q _. cbn [nth]. now replace (S m + q)%nat with (m + S q)%nat by lia.
Qed.

(** the result of [render] for given layers *)
Variable boolean_not : polygon -> polygon -> list polygon.
Lemma render_engine num_shifts bs dis : let ls := if (dis : bool) then layer_polygons bs else map (reduce_layer boolean_not) (layer_polygons bs) in
  (num_shifts <= length cs)%nat -> (forall l x, In l ls -> In x l -> goodx x) ->
  exists r, render boolean_not cs num_shifts bs dis = Ok r /\ length r = length cs /\
  forall n, (n < length cs)%nat -> forall i j k, in_grid (nth n cs dc) i j k ->
  let c := nth n cs dc in let bg := Q2R (c_bg c i j k) in
  Q2R (nth n r (fun _ _ _ => 0%Q) i j k) = bg +
    Rsum (map (fun q => Dsum n c bg (nth q ls []) i j * zfrac c (qn (layer_z bs) q) (qn (layer_z bs) (q + 1)) k) (seq 0 (length ls))).
Proof.
  intros ls Hn G. destruct (layers_step (layer_z bs) ls (repeat ds (length cs)) 0 G (repeat_length _ _)) as (st & E & L & V).
  unfold render. fold ls. match goal with |- context[bind ?m _] => replace m with (Ok st : res (list (array * array))) by (symmetry; exact E) end. cbn [bind]. assert (Nat.ltb (length cs) num_shifts = false) as -> by (apply Nat.ltb_ge; lia).
  eexists. split; [reflexivity|]. split; [rewrite map_length, combine_length; lia|]. intros n Hc i j k Hg. cbv zeta. set (c := nth n cs dc) in *. set (bg := Q2R (c_bg c i j k)).
  specialize (V n Hc i j k Hg). cbv zeta in V. fold c in V. fold bg in V. cbn [Nat.add] in V.
  match goal with |- context[map ?F (combine cs st)] => set (h := F) end. rewrite (nth_indep _ _ (h (dc, ds))) by (rewrite map_length, combine_length; lia).
  rewrite map_nth, combine_nth by lia. fold c. unfold h. destruct (nth n st ds) as [a f] eqn:Es. cbn beta iota.
  rewrite Q2R_plus, Q2R_mult. unfold val in V. cbn [fst snd] in V. fold bg in V |- *. rewrite V.
  rewrite nth_repeat. unfold ds. cbn [fst snd]. rewrite Q2R_0, Q2R_1. ring.
Qed.
End clip.
