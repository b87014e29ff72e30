(** Lemmas about 2D rastering, fourth part: the result as a sum over the cut edges. *)
From Coq Require Import Sorted.
From Verif Require Import QTac Raster2_Model Raster2_Proofs Raster2_Proofs2 Raster2_Proofs3.
Set Implicit Arguments.
Open Scope Q_scope.

Lemma last_qn (g : list Q) : last g 0 = qn g (length g - 1).
Proof.
  induction g as [|a g IH]; [reflexivity|]. destruct g as [|b g]; [reflexivity|].
  change (last (a :: b :: g) 0) with (last (b :: g) 0). rewrite IH. unfold qn. cbn [length].
  replace (S (S (length g)) - 1)%nat with (S (S (length g) - 1)) by lia. reflexivity.
Qed.
Lemma hd_qn (g : list Q) : hd 0 g = qn g 0.
Proof. destruct g; reflexivity. Qed.
Lemma qn_In (g : list Q) i : (i < length g)%nat -> In (qn g i) g.
Proof. intros H. unfold qn. now apply nth_In. Qed.

(** *** one segment *)
Lemma digitize_cell g m : increasing g -> (2 <= length g)%nat -> hd 0 g <= m -> m < last g 0 ->
  let s := (digitize m g - 1)%nat in (s + 1 < length g)%nat /\ qn g s <= m /\ m < qn g (s + 1) /\
  forall k, (k + 1 < length g)%nat -> ((k < s)%nat -> qn g (k + 1) <= m) /\ ((s < k)%nat -> m < qn g k).
Proof.
  rewrite hd_qn, last_qn. intros Hg Hl H0 H1.
  assert (S : forall k, (k < length g)%nat -> (k < digitize m g)%nat <-> qn g k <= m) by (intros; now apply digitize_spec).
  assert (D0 : (0 < digitize m g)%nat) by (apply S; [lia|assumption]).
  assert (D1 : (digitize m g <= length g - 1)%nat).
  { destruct (le_lt_dec (digitize m g) (length g - 1)); [assumption|]. assert (qn g (length g - 1) <= m) by (apply S; lia). lra. }
  cbv zeta. repeat split; try lia.
  - apply S; lia.
  - apply Qnot_le_lt. intros K. apply S in K; lia.
  - intros Hk. apply S; lia.
  - intros Hk. apply Qnot_le_lt. intros K. apply S in K; lia.
Qed.

Section contribution.
Variables gx gy : list Q.
Hypothesis Gx : increasing gx.
Hypothesis Gy : increasing gy.
Hypothesis Lx : (2 <= length gx)%nat.
Hypothesis Ly : (2 <= length gy)%nat.
Variables i j : nat.
Hypothesis Hi : (i < length gx - 1)%nat.
Hypothesis Hj : (j < length gy - 1)%nat.
Notation x0 := (qn gx i). Notation x1 := (qn gx (i + 1)). Notation y0 := (qn gy j). Notation y1 := (qn gy (j + 1)).
Lemma HX : x0 < x1. Proof. apply Gx. lia. Qed.
Lemma HY : y0 < y1. Proof. apply Gy. lia. Qed.
Lemma gx_ends : gx <> [] /\ hd 0 gx <= x0 /\ x1 <= last gx 0.
Proof.
  split; [intros ->; simpl in Lx; lia|]. rewrite hd_qn, last_qn. split; apply (increasing_le Gx); lia.
Qed.
Lemma gy_ends : gy <> [] /\ hd 0 gy <= y0 /\ y1 <= last gy 0.
Proof.
  split; [intros ->; simpl in Ly; lia|]. rewrite hd_qn, last_qn. split; apply (increasing_le Gy); lia.
Qed.

Definition seg_re (s : nat * nat * Q * Q) : Q := match s with (xs, ys, area, _) => if Nat.eqb xs i && Nat.eqb ys j then - area else 0 end.
Definition seg_im (s : nat * nat * Q * Q) (k : nat) : Q := match s with (xs, ys, _, cover) => if Nat.eqb xs k && Nat.eqb ys j then cover else 0 end.
Definition contribution (p q : pt) : Q :=
  match segment gx gy p q with Some s => seg_re s + sumn (i + 1) (seg_im s) | None => 0 end.
Lemma seg_im_sum xs ys area cover :
  sumn (i + 1) (seg_im (xs, ys, area, cover)) == if Nat.leb xs i && Nat.eqb ys j then cover else 0.
Proof.
  unfold seg_im. destruct (Nat.leb_spec xs i) as [H|H]; cbn [andb].
  - rewrite (@sumn_single (i + 1) xs); [now rewrite Nat.eqb_refl|lia|]. intros k Hk Hn.
    destruct (Nat.eqb_spec xs k); [congruence|reflexivity].
  - apply sumn_zero. intros k Hk. destruct (Nat.eqb_spec xs k); [lia|reflexivity].
Qed.
Lemma contribution_value p q : inside gx gy p = true -> inside gx gy q = true ->
  contribution p q * ((x1 - x0) * (y1 - y0)) == seg_value x0 x1 y0 y1 p q.
Proof.
  pose proof HX as HX. pose proof HY as HY. destruct gx_ends as (_ & E1 & E2), gy_ends as (_ & E3 & E4).
  unfold inside. rewrite !andb_true_iff, !Qle_bool_iff. intros (((P1 & P2) & P3) & P4) (((Q1 & Q2) & Q3) & Q4).
  unfold contribution, segment. set (mx := (fst p + fst q) * (1 # 2)). set (my := (snd p + snd q) * (1 # 2)).
  assert (M1 : hd 0 gx <= mx) by (unfold mx; lra). assert (M2 : hd 0 gy <= my) by (unfold my; lra).
  unfold seg_value, seg_in_row. fold mx my.
  destruct (qlt mx (last gx 0)) eqn:Lx1; cbn [andb]; qhyps.
  - destruct (qlt my (last gy 0)) eqn:Ly1; cbn [andb]; qhyps.
    + destruct (digitize_cell Gx Lx M1 Lx1) as (X1 & X2 & X3 & X4). destruct (digitize_cell Gy Ly M2 Ly1) as (Y1 & Y2 & Y3 & Y4).
      set (xs := (digitize mx gx - 1)%nat) in *. set (ys := (digitize my gy - 1)%nat) in *. clearbody xs ys.
      rewrite seg_im_sum. unfold seg_re.
      destruct (Nat.eqb_spec ys j) as [->|Hys].
      * assert (Qle_bool y0 my = true) as -> by now apply Qle_bool_iff. assert (qlt my y1 = true) as -> by now apply qlt_true. cbn [andb]. rewrite !andb_true_r.
        destruct (Nat.eqb_spec xs i) as [->|Hxs].
        -- rewrite Nat.leb_refl. assert (F : phi x0 x1 mx == x1 - mx) by (unfold phi; qlra). rewrite F. field. split; lra.
        -- destruct (Nat.leb_spec xs i) as [Hle|Hgt].
           ++ assert (qn gx (xs + 1) <= x0) by (apply (increasing_le Gx); lia).
              assert (F : phi x0 x1 mx == x1 - x0) by (unfold phi; qlra). rewrite F. field. lra.
           ++ assert (x1 <= qn gx xs) by (apply (increasing_le Gx); lia).
              assert (F : phi x0 x1 mx == 0) by (unfold phi; qlra). rewrite F. ring.
      * rewrite !andb_false_r.
        assert (Qle_bool y0 my && qlt my y1 = false) as ->; [|ring].
        destruct (Nat.lt_ge_cases ys j) as [H|H].
        -- assert (qn gy (ys + 1) <= y0) by (apply (increasing_le Gy); lia). assert (Qle_bool y0 my = false) as -> by (apply Qle_bool_false; lra). reflexivity.
        -- assert (y1 <= qn gy ys) by (apply (increasing_le Gy); lia). assert (qlt my y1 = false) as -> by (apply qlt_false; lra). apply andb_false_r.
    + assert (qlt my y1 = false) as -> by (apply qlt_false; lra). rewrite andb_false_r. ring.
  - assert (F : phi x0 x1 mx == 0) by (unfold phi; qlra). destruct (_ && _); [rewrite F|]; ring.
Qed.
Lemma grid_sum l :
  let segs := flat_map (fun pq => match segment gx gy (fst pq) (snd pq) with Some s => [s] | None => [] end) l in
  poly_grid_re segs i j + sumn (i + 1) (fun k => poly_grid_im segs k j) == qsum (map (fun pq => contribution (fst pq) (snd pq)) l).
Proof.
  induction l as [|pq l IH]; cbn [flat_map map qsum].
  - unfold poly_grid_re, poly_grid_im. cbn [map qsum]. rewrite sumn_zero by reflexivity. ring.
  - rewrite <- IH. unfold contribution. destruct (segment gx gy (fst pq) (snd pq)) as [s|]; cbn [app]; [|ring].
    unfold poly_grid_re, poly_grid_im. cbn [map qsum]. rewrite sumn_plus. unfold seg_re, seg_im. destruct s as [[[xs ys] area] cover]. ring.
Qed.

(** *** repeated vertices *)
Notation T := (trap x0 x1 y0 y1).
Notation SC := (same_cell x0 x1 y0 y1).
Definition eqpt (p q : pt) : Prop := fst p == fst q /\ snd p == snd q.
Lemma same_pt_iff p q : same_pt p q = true <-> eqpt p q.
Proof. unfold same_pt, eqpt. now rewrite andb_true_iff, !Qeq_bool_iff. Qed.
Lemma nosep_ext g a b a' b' : a == a' -> b == b' -> nosep g a b -> nosep g a' b'.
Proof. intros E1 E2 H. apply nosep_cases in H. apply nosep_intro. lra. Qed.
Lemma same_cell_ext p q p' q' : eqpt p p' -> eqpt q q' -> SC p q -> SC p' q'.
Proof. intros [E1 E2] [F1 F2] (A & B & C & D). exact (conj (nosep_ext E1 F1 A) (conj (nosep_ext E1 F1 B) (conj (nosep_ext E2 F2 C) (nosep_ext E2 F2 D)))). Qed.
Lemma drop_repeats_path z : forall l u u', eqpt u u' ->
  walk T u (drop_repeats u' l ++ [z]) == walk T u' (l ++ [z]) /\ (chain SC u' (l ++ [z]) -> chain SC u (drop_repeats u' l ++ [z])).
Proof.
  induction l as [|v l IH]; intros u u' E; cbn [drop_repeats].
  - cbn [app walk chain]. split; [|intros [H _]; split; [|exact I]; apply (same_cell_ext (p := u') (q := z)); [split; symmetry; apply E|split; reflexivity|assumption]].
    rewrite (@trap_ext x0 x1 y0 y1 u z u' z); try apply E; reflexivity.
  - destruct (same_pt v u') eqn:Es.
    + apply same_pt_iff in Es. assert (E' : eqpt u v) by (destruct E, Es; split; lra).
      destruct (IH u v E') as [H1 H2]. cbn [app walk chain]. split; [|intros [_ K]; auto]. rewrite H1.
      rewrite (@trap_same x0 x1 y0 y1 u' v); [ring|]. symmetry. apply Es.
    + destruct (IH v v) as [H1 H2]; [split; reflexivity|]. cbn [app walk chain]. split.
      * rewrite H1. rewrite (@trap_ext x0 x1 y0 y1 u v u' v); try apply E; reflexivity.
      * intros [K1 K2]. split; [|auto]. apply (same_cell_ext (p := u') (q := v)); [split; symmetry; apply E|split; reflexivity|assumption].
Qed.
Lemma unique_path l : cwalk T (consecutive_unique l) == cwalk T l /\ (cchain SC l -> cchain SC (consecutive_unique l)).
Proof.
  destruct l as [|u l]; cbn [consecutive_unique cwalk cchain]; [split; [reflexivity|auto]|].
  apply drop_repeats_path. split; reflexivity.
Qed.
Lemma drop_repeats_In : forall l u v, In v (drop_repeats u l) -> In v l.
Proof. induction l as [|w l IH]; intros u v; simpl; [auto|]. destruct (same_pt w u); simpl; intros H; [right; eauto|destruct H; [auto|right; eauto]]. Qed.
Lemma consecutive_unique_In l v : In v (consecutive_unique l) -> In v l.
Proof. destruct l as [|u l]; simpl; [auto|]. intros [H|H]; [auto|right; eapply drop_repeats_In; eassumption]. Qed.

Lemma inside_clip p : inside gx gy (clip_pt gx gy p) = true.
Proof.
  pose proof HX as HX. pose proof HY as HY.
  destruct gx_ends as (_ & E1 & E2), gy_ends as (_ & E3 & E4). unfold inside, clip_pt, clip. cbn [fst snd].
  rewrite !andb_true_iff, !Qle_bool_iff. repeat split; qlra.
Qed.

(** value from the list of vertices *)
Lemma vertices_value V : cchain SC V -> (forall v, In v V -> inside gx gy v = true) ->
  qsum (map (fun pq => contribution (fst pq) (snd pq)) (cyclic V)) * ((x1 - x0) * (y1 - y0)) == cwalk T V.
Proof.
  intros Hc Hin. rewrite sum_cyclic. set (k := (x1 - x0) * (y1 - y0)).
  assert (Hs : forall l u, (forall v, In v (u :: l) -> inside gx gy v = true) -> chain SC u l -> walk contribution u l * k == walk T u l).
  { induction l as [|v l IH]; intros u Hu Hch; cbn [walk]; [ring|]. destruct Hch as [H1 H2].
    rewrite Qmult_plus_distr_l, IH; [|intros; apply Hu; simpl in *; tauto|assumption].
    unfold k. rewrite contribution_value by (apply Hu; simpl; auto). rewrite seg_trap; [reflexivity|apply HX|apply HY|assumption]. }
  destruct V as [|u V]; cbn [cwalk]; [ring|]. apply Hs; [|assumption]. intros v Hv. apply Hin. simpl in Hv. rewrite in_app_iff in Hv. simpl in Hv. simpl. tauto.
Qed.

(** *** the polygon *)
Variable poly : list pt.
Notation lines := (grid_lines (local_grid (map fst poly) gx) (local_grid (map snd poly) gy)).
Notation C := (fun a b => crossings lines a b).
Definition trow (ab : pt * pt) : list tagged := (fst ab, false) :: map mark (crossings lines (fst ab) (snd ab)).
Definition out (t : tagged) : pt := if snd t then clip_pt gx gy (fst t) else fst t.
Lemma rows_tagged l :
  filter (inside gx gy) (flat_map (fun ab => fst ab :: map (fun c => clip_pt gx gy (snd c)) (crossings lines (fst ab) (snd ab))) l)
  = map out (filter (keep gx gy) (flat_map trow l)).
Proof.
  induction l as [|ab l IH]; [reflexivity|]. cbn [flat_map]. rewrite !filter_app, map_app, <- IH. f_equal.
  unfold trow. cbn [filter]. unfold keep at 1. cbn [fst snd orb].
  assert (E : filter (inside gx gy) (map (fun c => clip_pt gx gy (snd c)) (crossings lines (fst ab) (snd ab))) =
              map out (filter (keep gx gy) (map mark (crossings lines (fst ab) (snd ab))))).
  { generalize (crossings lines (fst ab) (snd ab)). induction l0 as [|c l0 IH0]; [reflexivity|]. cbn [map filter].
    rewrite inside_clip. unfold keep at 1. cbn [mark snd orb map]. now rewrite IH0. }
  destruct (inside gx gy (fst ab)); cbn [map]; rewrite E; reflexivity.
Qed.

Definition edge_sum : Q :=
  qsum (map (fun ab => walk T (fst ab) (map snd (crossings lines (fst ab) (snd ab)) ++ [snd ab])) (cyclic poly)).

Lemma path_sum : forall ps u z, exists L, flat_map trow (combine (u :: ps) (ps ++ [z])) = (u, false) :: L /\
  walk (fun a b : tagged => T (fst a) (fst b)) (u, false) (L ++ [(z, false)]) ==
  qsum (map (fun ab => walk T (fst ab) (map snd (crossings lines (fst ab) (snd ab)) ++ [snd ab])) (combine (u :: ps) (ps ++ [z]))) /\
  ((forall a b, In (a, b) (combine (u :: ps) (ps ++ [z])) -> chain (adjacent gx gy) (a, false) (map mark (crossings lines a b) ++ [(b, false)])) ->
   chain (adjacent gx gy) (u, false) (L ++ [(z, false)])).
Proof.
  assert (W : forall a b l, walk (fun a b : tagged => T (fst a) (fst b)) (a, false) (map mark l ++ [(b, false)]) = walk T a (map snd l ++ [b])).
  { intros a b l. change (a, false) with ((fun p : pt => (p, false)) a) at 1. rewrite <- (walk_map (@fst pt bool)). rewrite map_app, map_map. reflexivity. }
  induction ps as [|q ps IH]; intros u z.
  - exists (map mark (crossings lines u z)). cbn [combine app flat_map trow map qsum fst snd]. rewrite app_nil_r. split; [reflexivity|]. split.
    + rewrite W. ring.
    + intros H. apply H. simpl. auto.
  - destruct (IH q z) as (L & E1 & E2 & E3). exists (map mark (crossings lines u q) ++ (q, false) :: L).
    split; [|split].
    + cbn [app combine flat_map] in E1 |- *. unfold trow at 1. cbn [fst snd app]. rewrite E1. reflexivity.
    + cbn [app combine map qsum fst snd]. cbn [app combine] in E2. rewrite <- E2. rewrite <- app_assoc. cbn [app]. rewrite walk_app, W. reflexivity.
    + intros H. rewrite <- app_assoc. cbn [app]. rewrite chain_app. split.
      * apply H. cbn [app combine]. left. reflexivity.
      * apply E3. intros a b Hab. apply H. cbn [app combine]. right. exact Hab.
Qed.

Lemma in_cyclic (A : Type) (l : list A) a b : In (a, b) (cyclic l) -> In a l /\ In b l.
Proof.
  unfold cyclic. intros H. split; [now apply in_combine_l in H|]. apply in_combine_r in H. destruct l as [|u l]; [destruct H|].
  cbn [tl firstn] in H. apply in_app_or in H as [H|[<-|[]]]; simpl; auto.
Qed.

Hypothesis Wx : exists p q, In p poly /\ In q poly /\ fst p < fst q.

Lemma wide_case : (exists p q, In p poly /\ In q poly /\ snd p < snd q) ->
  cchain SC (expand_polygon poly gx gy) /\ cwalk T (expand_polygon poly gx gy) == edge_sum.
Proof.
  intros Wy. unfold expand_polygon. rewrite rows_tagged.
  set (Tg := flat_map trow (cyclic poly)).
  assert (Hadj : cchain (adjacent gx gy) Tg /\ cwalk (fun a b : tagged => T (fst a) (fst b)) Tg == edge_sum).
  { unfold Tg, edge_sum. destruct poly as [|u ps] eqn:Ep; [destruct Wx as (? & ? & [] & _)|]. rewrite <- Ep in *.
    assert (Ec : cyclic poly = combine (u :: ps) (ps ++ [u])) by now rewrite Ep. rewrite Ec.
    destruct (path_sum ps u u) as (L & E1 & E2 & E3). rewrite E1. cbn [cchain cwalk]. split; [|exact E2]. apply E3. rewrite <- Ec.
    intros a b Hab. apply in_cyclic in Hab as [Ha Hb]. 
    assert (Bx : forall p, In p poly -> hd 0 (local_grid (map fst poly) gx) <= fst p <= last (local_grid (map fst poly) gx) 0).
    { intros p Hp. split; [apply local_grid_lo|apply local_grid_hi]; now apply in_map. }
    assert (By : forall p, In p poly -> hd 0 (local_grid (map snd poly) gy) <= snd p <= last (local_grid (map snd poly) gy) 0).
    { intros p Hp. split; [apply local_grid_lo|apply local_grid_hi]; now apply in_map. }
    apply edge_chain.
    - destruct Wx as (p & q & Hp & Hq & Hlt). pose proof (Bx p Hp). pose proof (Bx q Hq). lra.
    - destruct Wy as (p & q & Hp & Hq & Hlt). pose proof (By p Hp). pose proof (By q Hq). lra.
    - split; auto.
    - split; auto.
    - intros g Hg [H|H]; [apply (@local_grid_has _ _ g (fst a) (fst b))|apply (@local_grid_has _ _ g (fst b) (fst a))]; auto using in_map; apply H.
    - intros g Hg [H|H]; [apply (@local_grid_has _ _ g (snd a) (snd b))|apply (@local_grid_has _ _ g (snd b) (snd a))]; auto using in_map; apply H. }
  destruct Hadj as [Hadj Hsum].
  destruct (@drop_outside gx gy x0 x1 y0 y1 HX HY gx_ends gy_ends Tg Hadj) as [D1 D2].
  pose proof HX as HX. pose proof HY as HY. destruct gx_ends as (Nx & G1 & G2), gy_ends as (Ny & G3 & G4).
  assert (Eo : forall t, keep gx gy t = true -> eqpt (out t) (clip_pt gx gy (fst t))).
  { intros [p tag]. unfold keep, out, eqpt. cbn [fst snd]. destruct tag; [intros _; split; reflexivity|].
    cbn [orb]. unfold inside. rewrite !andb_true_iff, !Qle_bool_iff. intros (((P1 & P2) & P3) & P4). unfold clip_pt, clip. cbn [fst snd]. split; qlra. }
  set (K := filter (keep gx gy) Tg) in *.
  assert (HK : forall t, In t K -> keep gx gy t = true) by (intros t Ht; now apply filter_In in Ht).
  assert (O1 : cchain SC (map out K)).
  { rewrite cchain_map. destruct K as [|k K']; [exact I|]. cbn [cchain] in *. revert D2. apply chain_impl. intros a b Ha Hb [H1 H2].
    assert (Ka : keep gx gy a = true) by (apply HK; simpl in *; rewrite in_app_iff in Ha; simpl in Ha; tauto).
    assert (Kb : keep gx gy b = true) by (apply HK; simpl in *; rewrite in_app_iff in Hb; simpl in Hb; tauto).
    apply (same_cell_ext (p := clip_pt gx gy (fst a)) (q := clip_pt gx gy (fst b))).
    - destruct (Eo a Ka); split; symmetry; assumption.
    - destruct (Eo b Kb); split; symmetry; assumption.
    - unfold same_cell, clip_pt. cbn [fst snd]. split; [|split; [|split]]; apply nosep_clip; try lra; first [apply H1; apply qn_In; lia|apply H2; apply qn_In; lia]. }
  assert (O2 : cwalk T (map out K) == cwalk (fun a b : tagged => T (fst a) (fst b)) K).
  { rewrite cwalk_map. destruct K as [|k K']; [reflexivity|]. cbn [cwalk cchain] in *.
    assert (Hext : forall l u, (forall t, In t (u :: l) -> keep gx gy t = true) -> walk (fun a b => T (out a) (out b)) u l == walk (fun a b : tagged => T (fst a) (fst b)) u l).
    { induction l as [|v l IH]; intros u Hu; cbn [walk]; [reflexivity|]. rewrite IH by (intros; apply Hu; simpl in *; tauto).
      destruct (Eo u (Hu u (or_introl eq_refl))) as [A1 A2]. destruct (Eo v (Hu v (or_intror (or_introl eq_refl)))) as [B1 B2].
      unfold trap. rewrite (phi_ext x0 x1 A1), (phi_ext x0 x1 B1), (eta_ext y0 y1 A2), (eta_ext y0 y1 B2). unfold clip_pt. cbn [fst snd].
      rewrite !phi_clip, !eta_clip by assumption. reflexivity. }
    apply Hext. intros t Ht. apply HK. simpl in Ht. rewrite in_app_iff in Ht. simpl in *. tauto. }
  destruct (unique_path (map out K)) as [U1 U2]. split; [auto|]. rewrite U1, O2, D1. exact Hsum.
Qed.

(** all vertices at one height: nothing is covered *)
Lemma flat_case c : (forall p, In p poly -> snd p == c) ->
  cwalk contribution (expand_polygon poly gx gy) == 0 /\ edge_sum == 0.
Proof.
  intros Hc. assert (On : forall a b k, In (a, b) (cyclic poly) -> In k (crossings lines a b) -> snd (snd k) == c).
  { intros a b k Hab Hk. apply in_cyclic in Hab as [Ha Hb]. apply crossings_on in Hk as [-> _]. unfold on. cbn [snd]. rewrite (Hc a Ha), (Hc b Hb). ring. }
  split.
  - assert (Hv : forall v, In v (expand_polygon poly gx gy) -> snd v == clip (hd 0 gy) (last gy 0) c).
    { intros v Hv. unfold expand_polygon in Hv. apply consecutive_unique_In, filter_In in Hv as [Hv Hin].
      apply in_flat_map in Hv as ((a & b) & Hab & [<-|Hv]).
      - cbn [fst snd]. apply in_cyclic in Hab as Hab'. destruct Hab' as [Ha _]. unfold inside in Hin. rewrite !andb_true_iff, !Qle_bool_iff in Hin. cbn [fst snd] in Hin.
        rewrite (Hc a Ha) in *. destruct Hin as ((_ & H3) & H4). unfold clip. qlra.
      - apply in_map_iff in Hv as (k & <- & Hk). cbn [fst snd] in *. specialize (On a b k Hab Hk). unfold clip_pt, clip. cbn [snd]. qlra. }
    set (V := expand_polygon poly gx gy) in *. clearbody V.
    assert (Hs : forall l u, (forall v, In v (u :: l) -> snd v == clip (hd 0 gy) (last gy 0) c) -> walk contribution u l == 0).
    { induction l as [|v l IH]; intros u Hu; cbn [walk]; [reflexivity|]. rewrite IH by (intros; apply Hu; simpl in *; tauto).
      assert (E : snd v - snd u == 0) by (rewrite (Hu u (or_introl eq_refl)), (Hu v (or_intror (or_introl eq_refl))); ring).
      unfold contribution, segment. destruct (_ && _); [|ring]. rewrite seg_im_sum. unfold seg_re.
      set (cover := (snd v - snd u) / _). assert (Z : cover == 0) by (unfold cover; rewrite E; unfold Qdiv; ring). clearbody cover.
      assert (Z' : forall m d, m * cover / d == 0) by (intros m d; rewrite Z; unfold Qdiv; ring).
      repeat match goal with |- context[if ?x then _ else _] => destruct x end; rewrite ?Z', ?Z; ring. }
    destruct V as [|u V]; [reflexivity|]. cbn [cwalk]. apply Hs. intros v Hv'. apply Hv. simpl in *. rewrite in_app_iff in Hv'. simpl in Hv'. tauto.
  - unfold edge_sum. assert (Hz : forall l, (forall a b, In (a, b) l -> In (a, b) (cyclic poly)) ->
      qsum (map (fun ab => walk T (fst ab) (map snd (crossings lines (fst ab) (snd ab)) ++ [snd ab])) l) == 0); [|apply Hz; auto].
    induction l as [|(a, b) l IH]; intros Hl; cbn [map qsum]; [reflexivity|]. rewrite IH by (intros; apply Hl; simpl; auto). cbn [fst snd].
    specialize (Hl a b (or_introl eq_refl)). pose proof (in_cyclic _ _ _ Hl) as [Ha Hb].
    assert (Hw : forall (l0 : list (Q * pt)) (u : pt), snd u == c -> (forall k, In k l0 -> snd (snd k) == c) -> walk T u (map snd l0 ++ [b]) == 0).
    { induction l0 as [|k l0 IH0]; intros u Hu Hk; cbn [map app walk].
      - rewrite (@trap_same x0 x1 y0 y1 u b); [ring|]. rewrite Hu, (Hc b Hb). reflexivity.
      - rewrite IH0; [|apply Hk; simpl; auto|intros; apply Hk; simpl; auto]. rewrite (@trap_same x0 x1 y0 y1 u (snd k)); [ring|]. rewrite Hu. symmetry. apply Hk. simpl; auto. }
    rewrite Hw; [ring|apply Hc; assumption|intros k Hk; eapply On; eassumption].
Qed.

Lemma raster_value :
  qsum (map (fun pq => contribution (fst pq) (snd pq)) (cyclic (expand_polygon poly gx gy))) * ((x1 - x0) * (y1 - y0)) == edge_sum.
Proof.
  destruct (existsb (fun p => existsb (fun q => qlt (snd p) (snd q)) poly) poly) eqn:E.
  - apply existsb_exists in E as (p & Hp & E). apply existsb_exists in E as (q & Hq & E). qhyps.
    destruct wide_case as [H1 H2]; [exists p, q; auto|]. rewrite <- H2. apply vertices_value; [assumption|].
    intros v Hv. unfold expand_polygon in Hv. apply consecutive_unique_In, filter_In in Hv as [_ Hv]. assumption.
  - destruct Wx as (p & _ & Hp & _). destruct (@flat_case (snd p)) as [H1 H2].
    + intros q Hq. assert (A : forall a b, In a poly -> In b poly -> snd b <= snd a).
      { intros a b Ha Hb. apply Qnot_lt_le. intros K. apply qlt_true in K.
        assert (existsb (fun p => existsb (fun q => qlt (snd p) (snd q)) poly) poly = true) as K'; [|congruence].
        apply existsb_exists. exists a. split; [assumption|]. apply existsb_exists. exists b. auto. }
      pose proof (A p q Hp Hq). pose proof (A q p Hq Hp). lra.
    + rewrite sum_cyclic, H1, H2. ring.
Qed.
End contribution.
