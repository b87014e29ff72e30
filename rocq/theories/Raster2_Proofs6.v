(** Lemmas about 2D rastering, sixth part: the average winding number. *)
From Coq Require Import Reals Lra Lia List QArith Qreals.
From Coquelicot Require Import Coquelicot.
From Verif Require Import QTac Raster2_Model Raster2_Spec Raster2_Proofs Raster2_Proofs2 Raster2_Proofs3 Raster2_Proofs4 Raster2_Proofs5.
From Coq Require Import Lra.
Open Scope R_scope.

(** *** one edge *)
Lemma int_scal (f : R -> R) k a b w : is_RInt f a b w -> is_RInt (fun x => k * f x) a b (k * w).
Proof. intros H. exact (is_RInt_scal f a b k w H). Qed.
Lemma int_plus (f g : R -> R) a b v w : is_RInt f a b v -> is_RInt g a b w -> is_RInt (fun x => f x + g x) a b (v + w).
Proof. intros H1 H2. exact (is_RInt_plus f g a b v w H1 H2). Qed.

Section edge.
Variables x0 x1 y0 y1 : R.
Hypothesis Hx : x0 < x1.
Hypothesis Hy : y0 < y1.
Variables a b : R * R.
Definition fe (y : R) : R := PhiR x0 x1 (abscissa a b y).
Lemma abscissa_affine y : abscissa a b y = (fst a - (fst b - fst a) / (snd b - snd a) * snd a) + (fst b - fst a) / (snd b - snd a) * y.
Proof. unfold abscissa, Rdiv. ring. Qed.
Lemma fe_continuous y : continuous fe y.
Proof.
  apply (continuous_ext (fun y => PhiR x0 x1 ((fst a - (fst b - fst a) / (snd b - snd a) * snd a) + (fst b - fst a) / (snd b - snd a) * y))).
  - intros z. unfold fe. now rewrite abscissa_affine.
  - apply Phi_continuous.
Qed.
Definition Je (s : R) : R := J y0 y1 fe s.
Lemma inner_crossing y : is_RInt (fun x => crossing a b x y) x0 x1 ((upwards b a y - upwards a b y) * fe y).
Proof. apply inner_integral. assumption. Qed.
Lemma outer_crossing : is_RInt (fun y => (upwards b a y - upwards a b y) * fe y) y0 y1 (Je (snd a) - Je (snd b)).
Proof.
  assert (Z : forall p q : R * R, snd p <= snd q -> forall y, upwards q p y = 0).
  { intros p q H y. unfold upwards, ind. destruct (Rle_dec (snd q) y), (Rlt_dec y (snd p)); lra. }
  destruct (Rle_lt_dec (snd a) (snd b)) as [H|H].
  - replace (Je (snd a) - Je (snd b)) with (-1 * (Je (snd b) - Je (snd a))) by ring.
    apply (int_ext (fun y => -1 * (ind (Rle_dec (snd a) y) * ind (Rlt_dec y (snd b)) * fe y))); [lra| |].
    + intros y _. rewrite (Z a b H). unfold upwards. ring.
    + apply int_scal, window_integral; [assumption|apply fe_continuous|assumption].
  - apply (int_ext (fun y => ind (Rle_dec (snd b) y) * ind (Rlt_dec y (snd a)) * fe y)); [lra| |].
    + intros y _. rewrite (Z b a) by lra. unfold upwards. ring.
    + apply window_integral; [assumption|apply fe_continuous|lra].
Qed.
Lemma pair_integral p q : snd a <> snd b -> abscissa a b (snd p) = fst p -> abscissa a b (snd q) = fst q ->
  nosepR x0 (fst p) (fst q) -> nosepR x1 (fst p) (fst q) -> nosepR y0 (snd p) (snd q) -> nosepR y1 (snd p) (snd q) ->
  Je (snd q) - Je (snd p) = TrapR x0 x1 y0 y1 p q.
Proof.
  intros Hab Hp Hq X0 X1 Y0 Y1.
  set (v := (fst b - fst a) / (snd b - snd a)). set (u := fst a - v * snd a).
  assert (Ea : forall y, abscissa a b y = u + v * y) by (intros y; rewrite abscissa_affine; reflexivity).
  assert (B : forall y, Rmin (snd p) (snd q) <= y <= Rmax (snd p) (snd q) -> Rmin (fst p) (fst q) <= abscissa a b y <= Rmax (fst p) (fst q)).
  { intros y. rewrite <- Hp, <- Hq, !Ea. clear. unfold Rmin, Rmax. intros [H1 H2].
    destruct (Rle_lt_dec 0 v) as [V|V], (Rle_dec (snd p) (snd q)).
    all: pose proof (Rmult_le_compat_l (Rabs v) (snd p) y (Rabs_pos v)); pose proof (Rmult_le_compat_l (Rabs v) (snd q) y (Rabs_pos v));
      pose proof (Rmult_le_compat_l (Rabs v) y (snd p) (Rabs_pos v)); pose proof (Rmult_le_compat_l (Rabs v) y (snd q) (Rabs_pos v)).
    all: first [rewrite Rabs_right in * by lra|rewrite Rabs_left in * by lra].
    all: set (vp := v * snd p) in *; set (vq := v * snd q) in *; set (vy := v * y) in *.
    all: try replace (- v * snd p) with (- vp) in * by (unfold vp; ring); try replace (- v * snd q) with (- vq) in * by (unfold vq; ring); try replace (- v * y) with (- vy) in * by (unfold vy; ring).
    all: destruct (Rle_dec (u + vp) (u + vq)); lra. }
  assert (R1 : fe (snd p) = PhiR x0 x1 (fst p)) by (unfold fe; now rewrite Hp).
  assert (R2 : fe (snd q) = PhiR x0 x1 (fst q)) by (unfold fe; now rewrite Hq).
  unfold Je, TrapR. rewrite <- R1, <- R2.
  assert (Aff : exists al be, forall y, Rmin (snd p) (snd q) <= y <= Rmax (snd p) (snd q) -> fe y = al * y + be).
  { destruct X0 as [[P1 P2]|[P1 P2]], X1 as [[P3 P4]|[P3 P4]].
    - exists 0, (x1 - x0). intros y Hyy. specialize (B y Hyy). unfold fe, PhiR. revert B. generalize (abscissa a b y). intros e. unfold Rmin, Rmax. repeat destruct Rle_dec; lra.
    - exists 0, 0. lra.
    - exists (- v), (x1 - u). intros y Hyy. specialize (B y Hyy). unfold fe, PhiR. rewrite Ea in *. revert B. set (e := v * y).
      replace (- v * y) with (- e) by (unfold e; ring). clearbody e. unfold Rmin, Rmax. repeat destruct Rle_dec; lra.
    - exists 0, 0. intros y Hyy. specialize (B y Hyy). unfold fe, PhiR. revert B. generalize (abscissa a b y). intros e. unfold Rmin, Rmax. repeat destruct Rle_dec; lra. }
  destruct Aff as (al & be & Aff). apply (trapezoid y0 y1 Hy fe fe_continuous al be); assumption.
Qed.
End edge.

(** *** the whole polygon *)
Section polygon.
Variables x0 x1 y0 y1 : R.
Hypothesis Hx : x0 < x1.
Hypothesis Hy : y0 < y1.
Fixpoint rsum (l : list R) : R := match l with nil => 0 | x :: l' => x + rsum l' end.
Lemma winding_inner es y : is_RInt (fun x => fold_right Rplus 0 (map (fun e => crossing (fst e) (snd e) x y) es)) x0 x1
  (fold_right Rplus 0 (map (fun e => (upwards (snd e) (fst e) y - upwards (fst e) (snd e) y) * fe x0 x1 (fst e) (snd e) y) es)).
Proof.
  induction es as [|e es IH]; cbn [map fold_right].
  - apply int_const. ring.
  - apply int_plus; [|exact IH]. now apply inner_crossing.
Qed.
Lemma winding_outer es : is_RInt (fun y => fold_right Rplus 0 (map (fun e => (upwards (snd e) (fst e) y - upwards (fst e) (snd e) y) * fe x0 x1 (fst e) (snd e) y) es)) y0 y1
  (fold_right Rplus 0 (map (fun e => Je x0 x1 y0 y1 (fst e) (snd e) (snd (fst e)) - Je x0 x1 y0 y1 (fst e) (snd e) (snd (snd e))) es)).
Proof.
  induction es as [|e es IH]; cbn [map fold_right].
  - apply int_const. ring.
  - apply int_plus; [|exact IH]. now apply outer_crossing.
Qed.
Lemma winding_integral P : is_RInt (fun y => RInt (fun x => winding P x y) x0 x1) y0 y1
  (fold_right Rplus 0 (map (fun e => Je x0 x1 y0 y1 (fst e) (snd e) (snd (fst e)) - Je x0 x1 y0 y1 (fst e) (snd e) (snd (snd e))) (polygon_edges P))).
Proof.
  eapply int_ext; [lra| |apply winding_outer]. intros y _. symmetry. apply is_RInt_unique. apply winding_inner.
Qed.
Lemma winding_ex_inner P y : ex_RInt (fun x => winding P x y) x0 x1.
Proof. eexists. apply winding_inner. Qed.
Lemma winding_ex_outer P : ex_RInt (fun y => RInt (fun x => winding P x y) x0 x1) y0 y1.
Proof. eexists. apply winding_integral. Qed.
End polygon.

(** *** from rationals to reals *)
Lemma Q2R_le a b : (a <= b)%Q -> Q2R a <= Q2R b. Proof. apply Qle_Rle. Qed.
Lemma Q2R_lt a b : (a < b)%Q -> Q2R a < Q2R b. Proof. apply Qlt_Rlt. Qed.
Lemma Q2R_0 : Q2R 0 = 0. Proof. unfold Q2R. simpl. field. Qed.
Lemma Q2R_1 : Q2R 1 = 1. Proof. unfold Q2R. simpl. field. Qed.
Lemma Q2R_qmax a b : Q2R (qmax a b) = Rmax (Q2R a) (Q2R b).
Proof. unfold qmax, Rmax. destruct (Qle_bool a b) eqn:E; qhyps; destruct Rle_dec; auto; [apply Q2R_le in E|apply Q2R_lt in E]; lra. Qed.
Lemma Q2R_qmin a b : Q2R (qmin a b) = Rmin (Q2R a) (Q2R b).
Proof. unfold qmin, Rmin. destruct (Qle_bool a b) eqn:E; qhyps; destruct Rle_dec; auto; [apply Q2R_le in E|apply Q2R_lt in E]; lra. Qed.
Lemma Q2R_phi x0 x1 x : Q2R (phi x0 x1 x) = PhiR (Q2R x0) (Q2R x1) (Q2R x).
Proof. unfold phi, PhiR. now rewrite Q2R_qmax, Q2R_qmin, !Q2R_minus, Q2R_0. Qed.
Lemma Q2R_eta y0 y1 y : Q2R (eta y0 y1 y) = EtaR (Q2R y0) (Q2R y1) (Q2R y).
Proof. unfold eta, EtaR. now rewrite Q2R_qmax, Q2R_qmin, !Q2R_minus, Q2R_0. Qed.
Lemma Q2R_half : Q2R (1 # 2) = / 2. Proof. unfold Q2R. simpl. field. Qed.
Lemma Q2R_trap x0 x1 y0 y1 p q : Q2R (trap x0 x1 y0 y1 p q) = TrapR (Q2R x0) (Q2R x1) (Q2R y0) (Q2R y1) (ptR p) (ptR q).
Proof. unfold trap, TrapR. rewrite !Q2R_mult, Q2R_minus, Q2R_plus, !Q2R_phi, !Q2R_eta, Q2R_half. reflexivity. Qed.
Lemma Q2R_nosep g a b : nosep g a b -> nosepR (Q2R g) (Q2R a) (Q2R b).
Proof. intros H. apply nosep_cases in H as [[H1 H2]|[H1 H2]]; [left|right]; split; now apply Q2R_le. Qed.
Lemma Q2R_sum l : Q2R (qsum l) = fold_right Rplus 0 (map Q2R l).
Proof. induction l as [|x l IH]; simpl; [apply Q2R_0|]. now rewrite Q2R_plus, IH. Qed.
Lemma Q2R_qabs x : Q2R (qabs x) = Rabs (Q2R x).
Proof.
  unfold qabs, Rabs. destruct (qlt x 0) eqn:E; qhyps; destruct (Rcase_abs (Q2R x)) as [H|H].
  - apply Q2R_opp.
  - apply Q2R_lt in E. rewrite Q2R_0 in E. lra.
  - apply Q2R_le in E. rewrite Q2R_0 in E. lra.
  - reflexivity.
Qed.
Lemma Q2R_eq a b : (a == b)%Q -> Q2R a = Q2R b. Proof. apply Qeq_eqR. Qed.

(** the sum over a cut edge is the integral of its crossings *)
Lemma edge_value (x0 x1 y0 y1 : Q) a b : (x0 < x1)%Q -> (y0 < y1)%Q -> forall l u z,
  ~ (snd a == snd b)%Q -> (forall p, In p (u :: l ++ [z])%list -> exists f, (fst p == fst (on a b f))%Q /\ (snd p == snd (on a b f))%Q) ->
  chain (same_cell x0 x1 y0 y1) u (l ++ [z])%list ->
  Q2R (walk (trap x0 x1 y0 y1) u (l ++ [z])%list) =
  Je (Q2R x0) (Q2R x1) (Q2R y0) (Q2R y1) (ptR a) (ptR b) (Q2R (snd z)) - Je (Q2R x0) (Q2R x1) (Q2R y0) (Q2R y1) (ptR a) (ptR b) (Q2R (snd u)).
Proof.
  intros Hx Hy l u z Hab. revert u.
  assert (Hab' : snd (ptR a) <> snd (ptR b)).
  { simpl. intros E. apply Hab. now apply eqR_Qeq. }
  assert (Hon : forall p, (exists f, (fst p == fst (on a b f))%Q /\ (snd p == snd (on a b f))%Q) -> abscissa (ptR a) (ptR b) (snd (ptR p)) = fst (ptR p)).
  { intros p (f & E1 & E2). apply Q2R_eq in E1, E2. unfold on in E1, E2. cbn [fst snd] in E1, E2.
    rewrite Q2R_plus, Q2R_mult, Q2R_minus in E1, E2. unfold abscissa, ptR in *. cbn [fst snd] in *. rewrite E1, E2. field. lra. }
  assert (Pair : forall p q, (exists f, (fst p == fst (on a b f))%Q /\ (snd p == snd (on a b f))%Q) -> (exists f, (fst q == fst (on a b f))%Q /\ (snd q == snd (on a b f))%Q) ->
    same_cell x0 x1 y0 y1 p q -> Q2R (trap x0 x1 y0 y1 p q) = Je (Q2R x0) (Q2R x1) (Q2R y0) (Q2R y1) (ptR a) (ptR b) (Q2R (snd q)) - Je (Q2R x0) (Q2R x1) (Q2R y0) (Q2R y1) (ptR a) (ptR b) (Q2R (snd p))).
  { intros p q Hp Hq (S1 & S2 & S3 & S4). rewrite Q2R_trap. symmetry.
    apply (pair_integral (Q2R x0) (Q2R x1) (Q2R y0) (Q2R y1) (Q2R_lt _ _ Hx) (Q2R_lt _ _ Hy) (ptR a) (ptR b) (ptR p) (ptR q)); auto using Q2R_nosep; now apply Q2R_nosep. }
  induction l as [|v l IH]; intros u Hall Hc; cbn [app walk chain] in *.
  - rewrite Q2R_plus, Q2R_0, Rplus_0_r. apply Pair; [apply Hall; simpl; auto|apply Hall; simpl; auto|apply Hc].
  - rewrite Q2R_plus, IH; [|intros p Hp; apply Hall; simpl in *; tauto|apply Hc].
    rewrite Pair; [lra|apply Hall; simpl; auto|apply Hall; simpl; auto|apply Hc].
Qed.

Section result.
Variables gx gy : list Q.
Hypothesis Gx : increasing gx.
Hypothesis Gy : increasing gy.
Hypothesis Lx : (2 <= length gx)%nat.
Hypothesis Ly : (2 <= length gy)%nat.
Variables i j : nat.
Hypothesis Hi : (i < length gx - 1)%nat.
Hypothesis Hj : (j < length gy - 1)%nat.
Notation x0 := (qn gx i). Notation x1 := (qn gx (i + 1)). Notation y0 := (qn gy j). Notation y1 := (qn gy (j + 1)).
Variable poly : list pt.
Hypothesis Wx : exists p q, In p poly /\ In q poly /\ (fst p < fst q)%Q.
Notation lines := (grid_lines (local_grid (map fst poly) gx) (local_grid (map snd poly) gy)).
Notation JE a b s := (Je (Q2R x0) (Q2R x1) (Q2R y0) (Q2R y1) (ptR a) (ptR b) s).

Lemma pixel_x : (x0 < x1)%Q. Proof. apply Gx. lia. Qed.
Lemma pixel_y : (y0 < y1)%Q. Proof. apply Gy. lia. Qed.
Lemma edge_adjacent a b : (exists p q, In p poly /\ In q poly /\ (snd p < snd q)%Q) -> In a poly -> In b poly ->
  chain (adjacent gx gy) (a, false) (map mark (crossings lines a b) ++ [(b, false)]).
Proof.
  intros Wy Ha Hb.
  assert (Bx : forall p, In p poly -> (hd 0 (local_grid (map fst poly) gx) <= fst p <= last (local_grid (map fst poly) gx) 0)%Q).
  { intros p Hp. split; [apply local_grid_lo|apply local_grid_hi]; now apply in_map. }
  assert (By : forall p, In p poly -> (hd 0 (local_grid (map snd poly) gy) <= snd p <= last (local_grid (map snd poly) gy) 0)%Q).
  { intros p Hp. split; [apply local_grid_lo|apply local_grid_hi]; now apply in_map. }
  apply edge_chain.
  - destruct Wx as (p & q & Hp & Hq & Hlt). pose proof (Bx p Hp). pose proof (Bx q Hq). Lqa.lra.
  - destruct Wy as (p & q & Hp & Hq & Hlt). pose proof (By p Hp). pose proof (By q Hq). Lqa.lra.
  - split; auto.
  - split; auto.
  - intros g Hg [H|H]; [apply (@local_grid_has _ _ g (fst a) (fst b))|apply (@local_grid_has _ _ g (fst b) (fst a))]; auto using in_map; apply H.
  - intros g Hg [H|H]; [apply (@local_grid_has _ _ g (snd a) (snd b))|apply (@local_grid_has _ _ g (snd b) (snd a))]; auto using in_map; apply H.
Qed.
Lemma adjacent_cell : forall (l : list (Q * pt)) u t b, chain (adjacent gx gy) (u, t) (map mark l ++ [(b, false)]) ->
  chain (same_cell x0 x1 y0 y1) u (map snd l ++ [b]).
Proof.
  assert (A : forall u v t t', adjacent gx gy (u, t) (v, t') -> same_cell x0 x1 y0 y1 u v).
  { intros u v t t' ((H1 & H2) & _). split; [|split; [|split]]; first [apply H1; apply qn_In; lia|apply H2; apply qn_In; lia]. }
  induction l as [|k l IH]; intros u t b; cbn [map app chain].
  - intros [H _]. split; [eapply A; eassumption|exact I].
  - intros [H1 H2]. split; [eapply A; eassumption|]. eapply IH. exact H2.
Qed.
Lemma edge_walk a b : In a poly -> In b poly ->
  Q2R (walk (trap x0 x1 y0 y1) a (map snd (crossings lines a b) ++ [b])) = JE a b (Q2R (snd b)) - JE a b (Q2R (snd a)).
Proof.
  intros Ha Hb. destruct (Qeq_dec (snd a) (snd b)) as [E|E].
  - rewrite <- (Q2R_eq _ _ E), Rminus_diag_eq by reflexivity. rewrite <- Q2R_0. apply Q2R_eq.
    assert (Hw : forall (l0 : list (Q * pt)) (u : pt), (snd u == snd a)%Q -> (forall k, In k l0 -> (snd (snd k) == snd a)%Q) -> (walk (trap x0 x1 y0 y1) u (map snd l0 ++ [b]) == 0)%Q).
    { induction l0 as [|k l0 IH0]; intros u Hu Hk; cbn [map app walk].
      - rewrite (@trap_same x0 x1 y0 y1 u b); [ring|]. rewrite Hu, E. reflexivity.
      - rewrite IH0; [|apply Hk; simpl; auto|intros; apply Hk; simpl; auto]. rewrite (@trap_same x0 x1 y0 y1 u (snd k)); [ring|]. rewrite Hu. symmetry. apply Hk. simpl; auto. }
    apply Hw; [reflexivity|]. intros k Hk. apply crossings_on in Hk as [-> _]. unfold on. cbn [snd]. rewrite <- E. ring.
  - apply edge_value; [exact pixel_x|exact pixel_y|assumption| |].
    + intros p [<-|Hp]; [exists 0%Q; unfold on; cbn [fst snd]; split; ring|]. apply in_app_or in Hp as [Hp|[<-|[]]]; [|exists 1%Q; unfold on; cbn [fst snd]; split; ring].
      apply in_map_iff in Hp as (k & <- & Hk). apply crossings_on in Hk as [-> _]. eexists. split; reflexivity.
    + apply (adjacent_cell _ _ false). apply edge_adjacent; try assumption.
      destruct (Q_dec (snd a) (snd b)) as [[H|H]|H]; [exists a, b; auto|exists b, a; auto|contradiction].
Qed.
Lemma polygon_edges_map {A B} (f : A -> B) l : polygon_edges (map f l) = map (fun e => (f (fst e), f (snd e))) (cyclic l).
Proof.
  unfold polygon_edges, cyclic. assert (E : tl (map f l) ++ firstn 1 (map f l) = map f (tl l ++ firstn 1 l)) by (rewrite firstn_map, map_app; destruct l; reflexivity). rewrite E. clear E.
  generalize (tl l ++ firstn 1 l). intros m. revert m. induction l as [|a l IH]; intros [|b m]; simpl; try reflexivity. f_equal. apply IH.
Qed.
Lemma edge_sum_integral :
  fold_right Rplus 0 (map (fun e => Je (Q2R x0) (Q2R x1) (Q2R y0) (Q2R y1) (fst e) (snd e) (snd (fst e)) - Je (Q2R x0) (Q2R x1) (Q2R y0) (Q2R y1) (fst e) (snd e) (snd (snd e))) (polygon_edges (map ptR poly)))
  = - Q2R (edge_sum gx gy i j poly).
Proof.
  unfold edge_sum. rewrite polygon_edges_map, map_map.
  assert (H : forall l, (forall a b, In (a, b) l -> In (a, b) (cyclic poly)) ->
    fold_right Rplus 0 (map (fun e => JE (fst e) (snd e) (Q2R (snd (fst e))) - JE (fst e) (snd e) (Q2R (snd (snd e)))) l)
    = - Q2R (qsum (map (fun ab => walk (trap x0 x1 y0 y1) (fst ab) (map snd (crossings lines (fst ab) (snd ab)) ++ [snd ab])) l))).
  { induction l as [|(a, b) l IH]; intros Hl; cbn [map fold_right qsum fst snd]; [rewrite Q2R_0; lra|].
    rewrite Q2R_plus, IH by (intros; apply Hl; simpl; auto).
    destruct (in_cyclic poly a b (Hl a b (or_introl eq_refl))) as [Ha Hb]. rewrite edge_walk by assumption. lra. }
  apply H. auto.
Qed.
Lemma raster_average :
  Q2R (qsum (map (fun pq => contribution gx gy i j (fst pq) (snd pq)) (cyclic (expand_polygon poly gx gy))))
  = - average (winding (map ptR poly)) (Q2R x0) (Q2R x1) (Q2R y0) (Q2R y1).
Proof.
  pose proof (Q2R_lt _ _ pixel_x) as Hx. pose proof (Q2R_lt _ _ pixel_y) as Hy.
  pose proof (raster_value Gx Gy Lx Ly Hi Hj poly Wx) as V. apply Q2R_eq in V. rewrite !Q2R_mult, !Q2R_minus in V.
  unfold average. rewrite (is_RInt_unique _ _ _ _ (winding_integral _ _ _ _ Hx Hy (map ptR poly))), edge_sum_integral.
  rewrite <- V. field. split; lra.
Qed.
End result.
