(** Lemmas about 2D rastering, seventh part: the function as a whole. *)
From Coq Require Import Reals Lia List QArith Qreals.
From Coquelicot Require Import Coquelicot.
From Verif Require Import QTac Raster2_Model Raster2_Spec Raster2_Proofs Raster2_Proofs4 Raster2_Proofs5 Raster2_Proofs6.
From Coq Require Import Lra.
Open Scope R_scope.

Lemma grid_step g k : grid_ok g -> (k < length g - 1)%nat -> Q2R (qn g k) < Q2R (qn g (k + 1)).
Proof. intros [G _] H. apply Q2R_lt, G. lia. Qed.
Lemma table_nth f n m i j : (i < n)%nat -> (j < m)%nat -> pixel (map (fun i => map (f i) (seq 0 m)) (seq 0 n)) i j = f i j.
Proof.
  intros Hi Hj. unfold pixel.
  rewrite (nth_indep _ [] (map (f 0%nat) (seq 0 m))) by now rewrite map_length, seq_length.
  rewrite (map_nth (fun i => map (f i) (seq 0 m)) (seq 0 n) 0%nat i). rewrite seq_nth by assumption. cbn [Nat.add].
  rewrite (nth_indep _ 0%Q (f i 0%nat)) by now rewrite map_length, seq_length.
  rewrite (map_nth (f i) (seq 0 m) 0%nat j). now rewrite seq_nth by assumption.
Qed.
Lemma qabs_ext a b : (a == b)%Q -> (qabs a == qabs b)%Q.
Proof. intros H. unfold qabs. destruct (qlt a 0) eqn:E1, (qlt b 0) eqn:E2; qhyps; Lqa.lra. Qed.
Lemma raster_ok poly gx gy : (2 <= length gx)%nat -> (2 <= length gy)%nat -> poly <> [] ->
  exists r, raster_2D poly gx gy = Ok r /\ length r = (length gx - 1)%nat /\ (forall row, In row r -> length row = (length gy - 1)%nat) /\
  forall i j, (i < length gx - 1)%nat -> (j < length gy - 1)%nat ->
  (pixel r i j == qabs (qsum (map (fun pq => contribution gx gy i j (fst pq) (snd pq)) (cyclic (expand_polygon poly gx gy)))))%Q.
Proof.
  intros H1 H2 Hp. unfold raster_2D.
  assert (Nat.ltb (length gx) 2 = false) as -> by (apply Nat.ltb_ge; assumption).
  assert (Nat.ltb (length gy) 2 = false) as -> by (apply Nat.ltb_ge; assumption). cbn [orb].
  destruct poly as [|p0 ps] eqn:Ep; [congruence|]. rewrite <- Ep. clear Ep Hp p0 ps.
  assert (Sh : forall f : nat -> nat -> Q, length (map (fun i => map (f i) (seq 0 (length gy - 1))) (seq 0 (length gx - 1))) = (length gx - 1)%nat /\
    (forall row, In row (map (fun i => map (f i) (seq 0 (length gy - 1))) (seq 0 (length gx - 1))) -> length row = (length gy - 1)%nat)).
  { intros f. split; [now rewrite map_length, seq_length|]. intros row Hr. apply in_map_iff in Hr as (i & <- & _). now rewrite map_length, seq_length. }
  destruct (expand_polygon poly gx gy) as [|v V] eqn:EV.
  - eexists. split; [reflexivity|]. destruct (Sh (fun _ _ => 0%Q)) as [S1 S2]. split; [exact S1|]. split; [exact S2|].
    intros i j Hi Hj. rewrite (table_nth (fun _ _ => 0%Q)) by assumption. reflexivity.
  - rewrite <- EV. set (segs := flat_map _ _). eexists. split; [reflexivity|]. destruct (Sh (fun i j => qabs (poly_grid_re segs i j + sumn (i + 1) (fun k => poly_grid_im segs k j)))) as [S1 S2].
    split; [exact S1|]. split; [exact S2|].
    intros i j Hi Hj. rewrite (table_nth (fun i j => qabs (poly_grid_re segs i j + sumn (i + 1) (fun k => poly_grid_im segs k j)))) by assumption.
    apply qabs_ext, grid_sum.
Qed.

Lemma raster_2D_average_pf poly gx gy : grid_ok gx -> grid_ok gy -> (exists p q, In p poly /\ In q poly /\ (fst p < fst q)%Q) ->
  exists r, raster_2D poly gx gy = Ok r /\ length r = (length gx - 1)%nat /\ (forall row, In row r -> length row = (length gy - 1)%nat) /\
  forall i j, (i < length gx - 1)%nat -> (j < length gy - 1)%nat ->
  Q2R (pixel r i j) = Rabs (pixel_average (winding (map ptR poly)) gx gy i j).
Proof.
  intros [G1 L1] [G2 L2] W. destruct (raster_ok poly gx gy L1 L2) as (r & E & S1 & S2 & V).
  { destruct W as (p & _ & Hp & _). now intros ->. }
  exists r. split; [assumption|]. split; [assumption|]. split; [assumption|]. intros i j Hi Hj. rewrite (Q2R_eq _ _ (V i j Hi Hj)), Q2R_qabs.
  rewrite (raster_average gx gy G1 G2 L1 L2 i j Hi Hj poly W). apply Rabs_Ropp.
Qed.

(** *** simple polygons *)
Lemma average_scal P k x0 x1 y0 y1 f : x0 < x1 -> y0 < y1 -> (forall x y, f x y = k * winding P x y) ->
  average f x0 x1 y0 y1 = k * average (winding P) x0 x1 y0 y1.
Proof.
  intros Hx Hy H. unfold average.
  assert (E : RInt (fun y => RInt (fun x => f x y) x0 x1) y0 y1 = k * RInt (fun y => RInt (fun x => winding P x y) x0 x1) y0 y1).
  { apply is_RInt_unique. apply (int_ext (fun y => k * RInt (fun x => winding P x y) x0 x1)); [lra| |].
    - intros y _. symmetry. apply is_RInt_unique. apply (int_ext (fun x => k * winding P x y)); [lra|intros; symmetry; apply H|].
      apply int_scal. apply (@RInt_correct R_CompleteNormedModule). now apply winding_ex_inner.
    - apply int_scal. apply (@RInt_correct R_CompleteNormedModule). now apply winding_ex_outer. }
  rewrite E. unfold Rdiv. ring.
Qed.
Lemma average_bounds P x0 x1 y0 y1 lo hi : x0 < x1 -> y0 < y1 -> (forall x y, lo <= winding P x y <= hi) ->
  lo <= average (winding P) x0 x1 y0 y1 <= hi.
Proof.
  intros Hx Hy H. unfold average. set (I := RInt _ _ _).
  assert (B : forall y, (x1 - x0) * lo <= RInt (fun x => winding P x y) x0 x1 <= (x1 - x0) * hi).
  { intros y. split.
    - rewrite <- (is_RInt_unique _ _ _ _ (int_const lo x0 x1 _ eq_refl)). apply RInt_le; [lra|eexists; now apply int_const|now apply winding_ex_inner|intros; apply H].
    - rewrite <- (is_RInt_unique _ _ _ _ (int_const hi x0 x1 _ eq_refl)). apply RInt_le; [lra|now apply winding_ex_inner|eexists; now apply int_const|intros; apply H]. }
  assert (BI : (y1 - y0) * ((x1 - x0) * lo) <= I <= (y1 - y0) * ((x1 - x0) * hi)).
  { unfold I. split.
    - rewrite <- (is_RInt_unique _ _ _ _ (int_const ((x1 - x0) * lo) y0 y1 _ eq_refl)). apply RInt_le; [lra|eexists; now apply int_const|now apply winding_ex_outer|intros; apply B].
    - rewrite <- (is_RInt_unique _ _ _ _ (int_const ((x1 - x0) * hi) y0 y1 _ eq_refl)). apply RInt_le; [lra|now apply winding_ex_outer|eexists; now apply int_const|intros; apply B]. }
  assert (A : 0 < (x1 - x0) * (y1 - y0)) by (apply Rmult_lt_0_compat; lra).
  split; apply (Rmult_le_reg_r _ _ _ A); unfold Rdiv; rewrite Rmult_assoc, ?Rinv_l, ?Rmult_1_r by lra; lra.
Qed.
Lemma raster_2D_simple_pf poly gx gy r : grid_ok gx -> grid_ok gy -> (exists p q, In p poly /\ In q poly /\ (fst p < fst q)%Q) ->
  simple (map ptR poly) -> raster_2D poly gx gy = Ok r ->
  forall i j, (i < length gx - 1)%nat -> (j < length gy - 1)%nat ->
  Q2R (pixel r i j) = pixel_average (enclosed (map ptR poly)) gx gy i j /\ (0 <= pixel r i j <= 1)%Q.
Proof.
  intros G1 G2 W (s & Hs & HP) E i j Hi Hj.
  destruct (raster_2D_average_pf poly gx gy G1 G2 W) as (r' & E' & _ & _ & V). rewrite E in E'. injection E' as <-.
  specialize (V i j Hi Hj). set (P := map ptR poly) in *. unfold pixel_average in *.
  pose proof (grid_step gx i G1 Hi) as Hx. pose proof (grid_step gy j G2 Hj) as Hy.
  assert (K : average (enclosed P) (Q2R (qn gx i)) (Q2R (qn gx (i + 1))) (Q2R (qn gy j)) (Q2R (qn gy (j + 1))) = s * average (winding P) (Q2R (qn gx i)) (Q2R (qn gx (i + 1))) (Q2R (qn gy j)) (Q2R (qn gy (j + 1)))).
  { apply average_scal; [assumption|assumption|]. intros x y. unfold enclosed. destruct (HP x y) as [H|H]; destruct Req_EM_T as [Z|Z]; destruct Hs; subst; try rewrite H in *; lra. }
  set (A := average (winding P) _ _ _ _) in *.
  assert (B : 0 <= s * A <= 1).
  { destruct Hs as [-> | ->].
    - assert (0 <= A <= 1); [|lra]. apply average_bounds; [assumption|assumption|]. intros x y. destruct (HP x y); lra.
    - assert (-1 <= A <= 0); [|lra]. apply average_bounds; [assumption|assumption|]. intros x y. destruct (HP x y); lra. }
  assert (V' : Q2R (pixel r i j) = s * A).
  { rewrite V. destruct Hs as [-> | ->]; [rewrite Rabs_right|rewrite Rabs_left1]; lra. }
  split; [now rewrite K|]. split; apply Rle_Qle; rewrite V', ?Q2R_0, ?Q2R_1; lra.
Qed.

(** *** orientation and starting vertex *)
Section walks.
Variable f : (R * R) -> (R * R) -> R.
Fixpoint rwalk (g : (R * R) -> (R * R) -> R) (u : R * R) (l : list (R * R)) : R :=
  match l with [] => 0 | v :: l' => g u v + rwalk g v l' end.
Lemma rwalk_edges g : forall l u z, fold_right Rplus 0 (map (fun e => g (fst e) (snd e)) (combine (u :: l) (l ++ [z]))) = rwalk g u (l ++ [z]).
Proof. induction l as [|v l IH]; intros u z; [simpl; lra|]. cbn [app combine map fold_right rwalk fst snd]. f_equal. apply IH. Qed.
Lemma rwalk_app g : forall l u v m, rwalk g u (l ++ v :: m) = rwalk g u (l ++ [v]) + rwalk g v m.
Proof. induction l as [|w l IH]; intros u v m; cbn [app rwalk]; [lra|]. rewrite IH. lra. Qed.
Lemma rwalk_rev g : forall l u z, rwalk g u (l ++ [z]) = rwalk (fun a b => g b a) z (rev l ++ [u]).
Proof.
  induction l as [|v l IH]; intros u z; cbn [app rwalk rev]; [lra|]. rewrite IH. rewrite <- app_assoc. cbn [app].
  rewrite (rwalk_app _ (rev l) z v [u]). cbn [rwalk]. lra.
Qed.
End walks.
Definition cyc (g : (R * R) -> (R * R) -> R) (P : list (R * R)) : R := fold_right Rplus 0 (map (fun e => g (fst e) (snd e)) (polygon_edges P)).
Lemma cyc_cons g u l : cyc g (u :: l) = rwalk g u (l ++ [u]).
Proof. unfold cyc, polygon_edges. cbn [tl firstn]. apply rwalk_edges. Qed.
Lemma cyc_rotate g u l : cyc g (l ++ [u]) = cyc g (u :: l).
Proof.
  destruct l as [|v m]; [reflexivity|]. cbn [app]. rewrite !cyc_cons. cbn [app rwalk]. rewrite <- app_assoc. cbn [app]. rewrite (rwalk_app g m v u [v]). cbn [rwalk]. lra.
Qed.
Lemma cyc_rev g P : cyc g (rev P) = cyc (fun a b => g b a) P.
Proof.
  destruct P as [|u l]; [reflexivity|]. cbn [rev]. rewrite cyc_rotate, !cyc_cons. now rewrite rwalk_rev, rev_involutive.
Qed.
Lemma crossing_swap a b x y : crossing b a x y = - crossing a b x y.
Proof.
  unfold crossing. destruct (Req_dec (snd a) (snd b)) as [E|E].
  - assert (upwards b a y = 0 /\ upwards a b y = 0) as [-> ->]; [|lra]. unfold upwards, ind. rewrite E. repeat destruct Rle_dec; repeat destruct Rlt_dec; split; lra.
  - assert (abscissa b a y = abscissa a b y) as ->; [|lra]. unfold abscissa. field. split; lra.
Qed.
Lemma winding_cyc P x y : winding P x y = cyc (fun a b => crossing a b x y) P. Proof. reflexivity. Qed.
Lemma winding_rev P x y : winding (rev P) x y = - winding P x y.
Proof.
  rewrite !winding_cyc, cyc_rev. unfold cyc. induction (polygon_edges P) as [|e l IH]; cbn [map fold_right]; [lra|]. rewrite IH, crossing_swap. lra.
Qed.
Lemma winding_rotate u P x y : winding (P ++ [u]) x y = winding (u :: P) x y.
Proof. rewrite !winding_cyc. apply cyc_rotate. Qed.
Lemma raster_2D_rev_pf poly gx gy : grid_ok gx -> grid_ok gy -> (exists p q, In p poly /\ In q poly /\ (fst p < fst q)%Q) ->
  exists r r', raster_2D poly gx gy = Ok r /\ raster_2D (rev poly) gx gy = Ok r' /\
  forall i j, (i < length gx - 1)%nat -> (j < length gy - 1)%nat -> (pixel r i j == pixel r' i j)%Q.
Proof.
  intros G1 G2 W. destruct (raster_2D_average_pf poly gx gy G1 G2 W) as (r & E & _ & _ & V).
  destruct (raster_2D_average_pf (rev poly) gx gy G1 G2) as (r' & E' & _ & _ & V').
  { destruct W as (p & q & Hp & Hq & H). exists p, q. rewrite <- !in_rev. auto. }
  exists r, r'. split; [assumption|]. split; [assumption|]. intros i j Hi Hj. apply eqR_Qeq. rewrite V, V' by assumption. rewrite map_rev.
  unfold pixel_average.
  rewrite (average_scal (map ptR poly) (-1) _ _ _ _ (winding (rev (map ptR poly)))).
  - rewrite Rabs_mult. rewrite (Rabs_left (-1)) by lra. lra.
  - exact (grid_step gx i G1 Hi).
  - exact (grid_step gy j G2 Hj).
  - intros. rewrite winding_rev. lra.
Qed.
Lemma raster_2D_rotate_pf v poly gx gy : grid_ok gx -> grid_ok gy -> (exists p q, In p (v :: poly) /\ In q (v :: poly) /\ (fst p < fst q)%Q) ->
  exists r r', raster_2D (v :: poly) gx gy = Ok r /\ raster_2D (poly ++ [v]) gx gy = Ok r' /\
  forall i j, (i < length gx - 1)%nat -> (j < length gy - 1)%nat -> (pixel r i j == pixel r' i j)%Q.
Proof.
  intros G1 G2 W. destruct (raster_2D_average_pf (v :: poly) gx gy G1 G2 W) as (r & E & _ & _ & V).
  destruct (raster_2D_average_pf (poly ++ [v]) gx gy G1 G2) as (r' & E' & _ & _ & V').
  { destruct W as (p & q & Hp & Hq & H). exists p, q. rewrite !in_app_iff. simpl in *. tauto. }
  exists r, r'. split; [assumption|]. split; [assumption|]. intros i j Hi Hj. apply eqR_Qeq. rewrite V, V' by assumption. rewrite map_app. cbn [map].
  unfold pixel_average.
  rewrite (average_scal (ptR v :: map ptR poly) 1 _ _ _ _ (winding (map ptR poly ++ [ptR v]))).
  - rewrite Rmult_1_l. reflexivity.
  - exact (grid_step gx i G1 Hi).
  - exact (grid_step gy j G2 Hj).
  - intros. rewrite winding_rotate. lra.
Qed.

(** *** errors and concrete cases *)
Lemma raster_2D_errors_pf poly gx gy :
  raster_2D poly gx gy = Err ValueError <-> (length gx < 2)%nat \/ (length gy < 2)%nat \/ poly = [].
Proof.
  split.
  - intros E. destruct (Nat.lt_ge_cases (length gx) 2); [tauto|]. destruct (Nat.lt_ge_cases (length gy) 2); [tauto|].
    destruct poly as [|p ps]; [tauto|]. destruct (raster_ok (p :: ps) gx gy) as (r & E' & _); [assumption|assumption|discriminate|]. congruence.
  - unfold raster_2D. intros [H|[H|H]].
    + apply Nat.ltb_lt in H. now rewrite H.
    + apply Nat.ltb_lt in H. now rewrite H, Bool.orb_true_r.
    + subst. now destruct (_ || _)%bool.
Qed.
Fixpoint steps_up (g : list Q) : bool :=
  match g with a :: (b :: _) as g' => qlt a b && steps_up g' | _ => true end.
Lemma steps_up_inc g : steps_up g = true -> increasing g.
Proof.
  assert (S : forall g k, steps_up g = true -> (S k < length g)%nat -> (qn g k < qn g (S k))%Q).
  { clear g. induction g as [|a g IH]; intros k H Hk; [simpl in Hk; lia|]. destruct g as [|b g]; [simpl in Hk; lia|].
    cbn [steps_up] in H. apply andb_prop in H as [H1 H2]. destruct k; [now apply qlt_true|]. apply (IH k H2). cbn [length] in *. lia. }
  intros H i j [Hij Hj]. induction j as [|j IH]; [lia|]. destruct (Nat.eq_dec i j) as [->|].
  - apply S; assumption.
  - apply (Qlt_trans _ (qn g j)); [apply IH; lia|apply S; assumption].
Qed.
Lemma grid_check g : steps_up g && Nat.leb 2 (length g) = true -> grid_ok g.
Proof. intros H. apply andb_prop in H as [H1 H2]. split; [now apply steps_up_inc|now apply Nat.leb_le]. Qed.
Lemma raster_2D_vertical_refuted_pf : exists poly gx gy r, grid_ok gx /\ grid_ok gy /\
  raster_2D poly gx gy = Ok r /\ (forall p, In p poly -> (fst p == 1 # 2)%Q) /\ exists i j, (pixel r i j == 10)%Q.
Proof.
  exists [(1#2,0);(1#2,10);(1#2,4)]%Q, [0;1;2;3]%Q, [0;1;2;3;4;5;6;7;8;9;10]%Q. eexists.
  split; [apply grid_check; reflexivity|]. split; [apply grid_check; reflexivity|]. split; [reflexivity|]. split.
  - intros p [<-|[<-|[<-|[]]]]; reflexivity.
  - exists 1%nat, 5%nat. vm_compute. reflexivity.
Qed.
Lemma Q2R_2 : Q2R 2 = 2. Proof. unfold Q2R. simpl. field. Qed.
Ltac real_cases := repeat match goal with |- context[Rle_dec ?a ?b] => destruct (Rle_dec a b) | |- context[Rlt_dec ?a ?b] => destruct (Rlt_dec a b) end.
Lemma simple_triangle : simple (map ptR [(0,0);(2,0);(0,2)]%Q).
Proof.
  exists 1. split; [auto|]. intros x y. unfold winding, polygon_edges, ptR. cbn [map tl firstn app combine fst snd fold_right]. rewrite !Q2R_0, !Q2R_2.
  unfold crossing, upwards, abscissa, ind. cbn [fst snd].
  replace (2 + (0 - 2) * ((y - 0) / (2 - 0))) with (2 - y) by field. replace (0 + (0 - 0) * ((y - 2) / (0 - 2))) with 0 by field.
  replace (0 + (2 - 0) * ((y - 0) / (0 - 0))) with (2 * (y / 0)) by (unfold Rdiv; rewrite !Rminus_0_r; ring).
  generalize (2 * (y / 0)). intros z. real_cases; lra.
Qed.
Lemma raster_2D_bow_tie_refuted_pf : exists poly gx gy r, grid_ok gx /\ grid_ok gy /\
  raster_2D poly gx gy = Ok r /\ (pixel r 0 0 == 0)%Q /\
  exists x0 x1 y0 y1, Q2R (qn gx 0) <= x0 < x1 /\ x1 <= Q2R (qn gx 1) /\ Q2R (qn gy 0) <= y0 < y1 /\ y1 <= Q2R (qn gy 1) /\
  forall x y, x0 < x < x1 -> y0 < y < y1 -> enclosed (map ptR poly) x y = 1.
Proof.
  exists [(0,0);(2,2);(2,0);(0,2)]%Q, [0;2]%Q, [0;2]%Q. eexists.
  split; [apply grid_check; reflexivity|]. split; [apply grid_check; reflexivity|]. split; [reflexivity|]. split; [vm_compute; reflexivity|].
  exists 0, (1/2), (3/4), (5/4). unfold qn. cbn [nth]. rewrite Q2R_0, Q2R_2. split; [lra|]. split; [lra|]. split; [lra|]. split; [lra|].
  intros x y Hx Hy. unfold enclosed, winding, polygon_edges, ptR. cbn [map tl firstn app combine fst snd fold_right]. rewrite !Q2R_0, !Q2R_2.
  unfold crossing, upwards, abscissa, ind. cbn [fst snd].
  replace (0 + (2 - 0) * ((y - 0) / (2 - 0))) with y by field. replace (2 + (2 - 2) * ((y - 2) / (0 - 2))) with 2 by field.
  replace (2 + (0 - 2) * ((y - 0) / (2 - 0))) with (2 - y) by field. replace (0 + (0 - 0) * ((y - 2) / (0 - 2))) with 0 by field.
  destruct Req_EM_T as [E|E]; [exfalso; revert E|reflexivity]. real_cases; lra.
Qed.
