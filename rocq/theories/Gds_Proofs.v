(** Proofs for C50 and C82. *)
From Coq Require Import String Ascii.
From Verif Require Import QTac Gds_Model Gds_Spec.
Set Implicit Arguments.
Open Scope Q_scope.
Local Open Scope nat_scope.

Lemma largest_app a b : largest (a ++ b) = Nat.max (largest a) (largest b).
Proof. unfold largest. now rewrite filter_app, map_app, list_max_app. Qed.
Lemma largest_one c : largest [c] = if hidden c then 0 else num_polys c.
Proof. unfold largest. simpl. destruct (hidden c); simpl; [reflexivity|lia]. Qed.
Lemma largest_le cs c : In c cs -> visible c -> num_polys c <= largest cs.
Proof.
  intros Hi Hv. unfold largest. assert (H := proj1 (list_max_le (map num_polys (filter (fun c => negb (hidden c)) cs)) _) (Nat.le_refl _)).
  rewrite Forall_forall in H. apply H. apply in_map. apply filter_In. unfold visible in Hv. rewrite Hv. auto.
Qed.

(** scanning the rest of the cells after [pre] *)
Lemma scan_spec : forall cells pre best,
  (forall a c b, cells = a ++ c :: b -> visible c -> num_polys c <> largest (pre ++ a)) ->
  exists best', scan cells (largest pre) best = Ok (largest (pre ++ cells), best') /\
    ((best' = best /\ largest (pre ++ cells) = largest pre) \/
     exists a c b, cells = a ++ c :: b /\ best' = Some c /\ visible c /\ num_polys c = largest (pre ++ cells) /\
       largest (pre ++ a) < num_polys c /\ (forall d, In d b -> visible d -> num_polys d < num_polys c)).
Proof.
  induction cells as [|c cs IH]; intros pre best H.
  - exists best. rewrite app_nil_r. split; [reflexivity|]. left; auto.
  - assert (E : pre ++ c :: cs = (pre ++ [c]) ++ cs) by now rewrite <- app_assoc.
    assert (H' : forall a c0 b, cs = a ++ c0 :: b -> visible c0 -> num_polys c0 <> largest ((pre ++ [c]) ++ a)).
    { intros a c0 b -> Hv. rewrite <- app_assoc. apply (H (c :: a) c0 b); auto. }
    cbn [scan]. destruct (hidden c) eqn:Hc.
    + assert (L : largest (pre ++ [c]) = largest pre) by (rewrite largest_app, largest_one, Hc; lia).
      destruct (IH (pre ++ [c]) best H') as (best' & Es & Hb). rewrite L in Es. exists best'. rewrite E. split; [exact Es|].
      destruct Hb as [[-> Hb]|(a & c0 & b & -> & -> & Hv & Hn & Ha & Hb)].
      * left. split; [reflexivity|congruence].
      * right. exists (c :: a), c0, b. rewrite <- app_assoc in Ha. auto 10.
    + assert (N : num_polys c <> largest pre) by (rewrite <- (app_nil_r pre); apply (H [] c cs); auto).
      assert (N' : Nat.eqb (largest pre) (num_polys c) = false) by (apply Nat.eqb_neq; congruence).
      rewrite N'. destruct (Nat.ltb_spec (largest pre) (num_polys c)) as [L|L].
      * assert (L' : largest (pre ++ [c]) = num_polys c) by (rewrite largest_app, largest_one, Hc; lia).
        destruct (IH (pre ++ [c]) (Some c) H') as (best' & Es & Hb). rewrite L' in Es. exists best'. rewrite E. split; [exact Es|].
        right. destruct Hb as [[-> Hb]|(a & c0 & b & -> & -> & Hv & Hn & Ha & Hb)].
        -- exists [], c, cs. rewrite app_nil_r. repeat split; auto; [congruence|].
           intros d Hd Hv. apply in_split in Hd. destruct Hd as (a & b & ->).
           assert (K1 : num_polys d <= largest ((pre ++ [c]) ++ a ++ d :: b)).
           { apply largest_le; auto. rewrite !in_app_iff. simpl. auto. }
           assert (K2 : num_polys d <> largest ((pre ++ [c]) ++ a)) by (apply (H' a d b); auto).
           assert (K3 : largest ((pre ++ [c]) ++ a) = num_polys c).
           { rewrite app_assoc in Hb. rewrite (largest_app ((pre ++ [c]) ++ a)) in Hb.
             assert (largest (pre ++ [c]) <= largest ((pre ++ [c]) ++ a)) by (rewrite (largest_app (pre ++ [c]) a); lia). lia. }
           lia.
        -- exists (c :: a), c0, b. rewrite <- app_assoc in Ha. auto 10.
      * assert (L' : largest (pre ++ [c]) = largest pre) by (rewrite largest_app, largest_one, Hc; lia).
        destruct (IH (pre ++ [c]) best H') as (best' & Es & Hb). rewrite L' in Es. exists best'. rewrite E. split; [exact Es|].
        destruct Hb as [[-> Hb]|(a & c0 & b & -> & -> & Hv & Hn & Ha & Hb)].
        -- left. split; [reflexivity|congruence].
        -- right. exists (c :: a), c0, b. rewrite <- app_assoc in Ha. auto 10.
Qed.
Lemma scan_tie : forall cells pre best a c b, cells = a ++ c :: b -> visible c -> num_polys c = largest (pre ++ a) ->
  scan cells (largest pre) best = Err ValueError.
Proof.
  induction cells as [|x cs IH]; intros pre best a c b E Hv Hn; [destruct a; discriminate|].
  destruct a as [|y a]; inversion E; subst.
  - rewrite app_nil_r in Hn. simpl. unfold visible in Hv. rewrite Hv. rewrite Hn, Nat.eqb_refl. reflexivity.
  - assert (IH' : forall best, scan (a ++ c :: b) (largest (pre ++ [y])) best = Err ValueError).
    { intros best'. apply (IH (pre ++ [y]) best' a c b); auto. now rewrite <- app_assoc. }
    rewrite largest_app, largest_one in IH'. simpl. destruct (hidden y).
    + rewrite Nat.max_0_r in IH'. apply IH'.
    + destruct (Nat.eqb_spec (largest pre) (num_polys y)); [reflexivity|].
      destruct (Nat.ltb_spec (largest pre) (num_polys y)).
      * rewrite Nat.max_r in IH' by lia. apply IH'.
      * rewrite Nat.max_l in IH' by lia. apply IH'.
Qed.

Lemma auto_ok cells c : get_top_level_cell cells None = Ok c ->
  no_tie cells /\ exists a b, cells = a ++ c :: b /\ visible c /\ 0 < num_polys c /\
  forall d, In d (a ++ b) -> visible d -> num_polys d < num_polys c.
Proof.
  intros H. assert (N : no_tie cells).
  { intros a d b E Hv Hn. unfold get_top_level_cell in H.
    assert (K := @scan_tie cells [] None a d b E Hv). change (largest []) with 0 in K. simpl in K. rewrite K in H by exact Hn. discriminate. }
  split; [exact N|]. destruct (@scan_spec cells [] None N) as (best & Es & Hb).
  change (largest []) with 0 in Es. unfold get_top_level_cell in H. rewrite Es in H. cbn [bind] in H. simpl in Hb, H.
  destruct Hb as [[-> Hb]|(a & c0 & b & -> & -> & Hv & Hn & Ha & Hb)].
  - destruct (Nat.ltb 0 (largest cells)); discriminate.
  - destruct (Nat.ltb_spec 0 (largest (a ++ c0 :: b))); [|discriminate]. inversion H; subst c0.
    exists a, b. repeat split; auto; [lia|]. intros d Hd Hvd. apply in_app_or in Hd. destruct Hd as [Hd|Hd]; [|now apply Hb].
    assert (K := @largest_le a d Hd Hvd). lia.
Qed.
Lemma auto_complete cells : no_tie cells -> (exists c, In c cells /\ visible c) ->
  exists c, get_top_level_cell cells None = Ok c.
Proof.
  intros N (c & Hc & Hv). unfold get_top_level_cell. destruct (@scan_spec cells [] None N) as (best & Es & Hb).
  change (largest []) with 0 in Es. rewrite Es. cbn [bind]. simpl in Hb |- *.
  assert (P : 0 < largest cells).
  { (* the first visible cell has a positive count *)
    assert (exists a d b, cells = a ++ d :: b /\ visible d /\ largest a = 0) as (a & d & b & -> & Hvd & Ha).
    { clear - Hc Hv. induction cells as [|x l IH]; [destruct Hc|]. destruct (hidden x) eqn:E.
      - destruct Hc as [->|Hc]; [unfold visible in Hv; congruence|]. destruct (IH Hc) as (a & d & b & -> & Hd & Ha).
        exists (x :: a), d, b. repeat split; auto. unfold largest in *. simpl. now rewrite E.
      - exists [], x, l. auto. }
    assert (K := N a d b eq_refl Hvd). rewrite Ha in K. rewrite largest_app.
    assert (num_polys d <= largest (d :: b)) by (apply largest_le; [now left|exact Hvd]). lia. }
  destruct (Nat.ltb_spec 0 (largest cells)); [|lia].
  destruct Hb as [[-> Hb]|(a & c0 & b & -> & -> & _)].
  - change (largest []) with 0 in Hb. lia.
  - now exists c0.
Qed.
Lemma auto_errors cells : (forall c, In c cells -> ~ visible c) \/ ~ no_tie cells ->
  get_top_level_cell cells None = Err ValueError.
Proof.
  intros H. destruct (get_top_level_cell cells None) as [c|e] eqn:E.
  - exfalso. apply auto_ok in E. destruct E as [N (a & b & -> & Hv & _)]. destruct H as [H|H]; [|now apply H].
    apply (H c); auto. apply in_or_app. right. now left.
  - unfold get_top_level_cell in E. destruct (scan cells 0 None) as [[mx best]|e'] eqn:S.
    + cbn [bind] in E. destruct (Nat.ltb 0 mx) eqn:L; [|congruence].
      destruct best as [c|]; [discriminate|].
      (* a positive maximum comes with a cell *)
      exfalso. assert (G : forall cs m b m' b', scan cs m b = Ok (m', b') -> (0 < m -> b <> None) -> 0 < m' -> b' <> None).
      { clear. induction cs as [|c cs IH]; intros m b m' b'; simpl.
        - intros H K P. inversion H; subst. now apply K.
        - destruct (hidden c); [apply IH|]. destruct (Nat.eqb m (num_polys c)); [discriminate|].
          destruct (Nat.ltb m (num_polys c)); [|apply IH]. intros H K P. eapply IH; [exact H| |exact P]. discriminate. }
      apply (G _ _ _ _ _ S); [lia|now apply Nat.ltb_lt in L|reflexivity].
    + cbn [bind] in E. assert (e' = ValueError).
      { clear - S. revert S. generalize 0 at 1. generalize (@None cell). induction cells as [|c cs IH]; intros b m; simpl; [discriminate|].
        destruct (hidden c); [apply IH|]. destruct (Nat.eqb m (num_polys c)); [congruence|].
        destruct (Nat.ltb m (num_polys c)); apply IH. }
      congruence.
Qed.

(** *** layers *)
Lemma key_eqb_true a b : key_eqb a b = true <-> a = b.
Proof.
  unfold key_eqb. destruct a, b. simpl. rewrite andb_true_iff, !Nat.eqb_eq. split; [intros [-> ->]; reflexivity|].
  intros H; inversion H; auto.
Qed.
Lemma extract_spec : forall ss m, (forall s, In s ss -> layers s <> [] /\ datatypes s <> []) ->
  exists m', extract_layers_loop ss m = Ok m' /\ forall k,
   get_polygons m' k = get_polygons m k ++
     flat_map (fun s => if key_eqb (hd 0 (layers s), hd 0 (datatypes s)) k then polygons s else []) ss.
Proof.
  induction ss as [|s ss IH]; intros m H.
  - exists m. split; [reflexivity|]. intros k. simpl. now rewrite app_nil_r.
  - destruct (H s (or_introl eq_refl)) as [H1 H2]. simpl. unfold add_set, set_key.
    destruct (layers s) as [|l ls]; [congruence|]. destruct (datatypes s) as [|d ds]; [congruence|]. cbn [bind hd].
    match goal with |- context [extract_layers_loop ss ?m0] => destruct (IH m0) as (m' & E & Hm) end.
    + intros x Hx. apply H. now right.
    + exists m'. split; [exact E|]. intros k. rewrite Hm. rewrite app_assoc. f_equal.
      unfold get_polygons. destruct (key_eqb k (l, d)) eqn:K.
      * apply key_eqb_true in K. subst k. rewrite (proj2 (key_eqb_true _ _) eq_refl). destruct (m (l, d)); reflexivity.
      * destruct (key_eqb (l, d) k) eqn:K'; [apply key_eqb_true in K'; subst k; rewrite (proj2 (key_eqb_true _ _) eq_refl) in K; discriminate|].
        now rewrite app_nil_r.
Qed.

(** *** bounding boxes *)
Lemma max_list_ge l : forall x, Qle x (max_list x l) /\ forall y, In y l -> Qle y (max_list x l).
Proof.
  induction l as [|z l IH]; intros x; simpl; [split; [apply Qle_refl|intros y []]|].
  destruct (IH (qmax x z)) as [A B]. split.
  - eapply Qle_trans; [|exact A]. qlra.
  - intros y [->|Hy]; [|now apply B]. eapply Qle_trans; [|exact A]. qlra.
Qed.
Lemma max_list_in l : forall x, max_list x l = x \/ In (max_list x l) l.
Proof.
  induction l as [|z l IH]; intros x; simpl; [now left|].
  destruct (IH (qmax x z)) as [A|A]; [|now right; right]. rewrite A. unfold qmax. destruct (Qle_bool x z); auto.
Qed.
Lemma min_list_le l : forall x, Qle (min_list x l) x /\ forall y, In y l -> Qle (min_list x l) y.
Proof.
  induction l as [|z l IH]; intros x; simpl; [split; [apply Qle_refl|intros y []]|].
  destruct (IH (qmin x z)) as [A B]. split.
  - eapply Qle_trans; [exact A|]. qlra.
  - intros y [->|Hy]; [|now apply B]. eapply Qle_trans; [exact A|]. qlra.
Qed.
Lemma min_list_in l : forall x, min_list x l = x \/ In (min_list x l) l.
Proof.
  induction l as [|z l IH]; intros x; simpl; [now left|].
  destruct (IH (qmin x z)) as [A|A]; [|now right; right]. rewrite A. unfold qmin. destruct (Qle_bool x z); auto.
Qed.
Lemma bounding_pf p : p <> [] -> exists b, get_bounding_box p = Ok b /\
  (forall v, In v p -> (xmin b <= 1000 * fst v <= xmax b /\ ymin b <= 1000 * snd v <= ymax b)%Q) /\
  (exists v, In v p /\ xmin b == 1000 * fst v)%Q /\ (exists v, In v p /\ xmax b == 1000 * fst v)%Q /\
  (exists v, In v p /\ ymin b == 1000 * snd v)%Q /\ (exists v, In v p /\ ymax b == 1000 * snd v)%Q.
Proof.
  intros H. destruct p as [|[x y] ps]; [congruence|]. eexists. split; [reflexivity|]. simpl.
  destruct (max_list_ge (map fst ps) x) as [A1 A2]. destruct (min_list_le (map fst ps) x) as [B1 B2].
  destruct (max_list_ge (map snd ps) y) as [C1 C2]. destruct (min_list_le (map snd ps) y) as [D1 D2].
  assert (G : forall (pr : point -> Q) m, m = pr (x, y) \/ In m (map pr ps) -> exists v, ((x, y) = v \/ In v ps) /\ (m * 1000 == 1000 * pr v)%Q).
  { intros pr m [->|Hm]; [exists (x, y); split; [now left|ring]|]. apply in_map_iff in Hm. destruct Hm as (v & <- & Hv).
    exists v. split; [now right|ring]. }
  repeat split.
  1-4: destruct H0 as [<-|Hv]; simpl;
     [|assert (I1 := in_map fst _ _ Hv); assert (I2 := in_map snd _ _ Hv);
      specialize (A2 _ I1); specialize (B2 _ I1); specialize (C2 _ I2); specialize (D2 _ I2)]; lra.
  - apply (G fst). apply min_list_in.
  - apply (G fst). apply max_list_in.
  - apply (G snd). apply min_list_in.
  - apply (G snd). apply max_list_in.
Qed.
