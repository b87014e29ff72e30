(** Positions, indices and slices. *)
From Coq Require Import Qround.
From Verif Require Import QTac Grid_Model Layer_Model Slice_Model Slice_Spec.
Set Implicit Arguments.
Open Scope Q_scope.

Lemma qnat_S n : qnat (S n) == qnat n + 1.
Proof. unfold qnat. rewrite Nat2Z.inj_succ. unfold Z.succ. rewrite inject_Z_plus. reflexivity. Qed.
Lemma qnat_le a b : (a <= b)%nat -> qnat a <= qnat b.
Proof. intros H. unfold qnat. rewrite <- Zle_Qle. lia. Qed.
Lemma qnat_0 : qnat 0 == 0.
Proof. reflexivity. Qed.
Lemma qnat_pos n : 0 <= qnat n.
Proof. apply (@qnat_le 0 n). lia. Qed.
Lemma digitize_cell e i r : increasing e -> in_cell e i r -> digitize r e = S i.
Proof.
  intros Inc (L & A & B). assert (H1 := @digitize_spec r e i Inc). assert (H2 := @digitize_spec r e (S i) Inc L). assert (D := digitize_le r e).
  assert ((i < digitize r e)%nat) by (apply H1; [lia|exact A]). assert (~ (S i < digitize r e)%nat) by (intros X; apply H2 in X; lra). lia.
Qed.
Lemma digitize_top e r : increasing e -> (2 <= length e)%nat -> qlast e <= r -> digitize r e = length e.
Proof.
  intros Inc L H. assert (D := digitize_le r e). assert (X := @digitize_spec r e (length e - 1) Inc). assert ((length e - 1 < digitize r e)%nat) by (apply X; [lia|exact H]). lia.
Qed.
Lemma digitize_bottom e r : increasing e -> (2 <= length e)%nat -> r < qn e 0 -> digitize r e = 0%nat.
Proof.
  intros Inc L H. assert (X := @digitize_spec r e 0 Inc). destruct (digitize r e) as [|d]; [reflexivity|]. assert (qn e 0 <= r) by (apply X; lia). lra.
Qed.
Lemma fraction_bounds e i r : increasing e -> in_cell e i r -> 0 <= fraction e i r /\ fraction e i r < 1.
Proof.
  intros Inc (L & A & B). unfold fraction. assert (P : 0 < qn e (S i) - qn e i) by lra.
  split; [apply Qle_shift_div_l; lra|apply Qlt_shift_div_r; lra].
Qed.
Lemma find_cell e r : increasing e -> (2 <= length e)%nat -> qn e 0 <= r -> r < qlast e -> exists i, in_cell e i r.
Proof.
  intros Inc L A B. assert (D := digitize_le r e). assert (D0 : (0 < digitize r e)%nat) by (apply (@digitize_spec r e 0 Inc); [lia|exact A]).
  assert (D1 : (digitize r e < length e)%nat).
  { assert (H := @digitize_spec r e (length e - 1) Inc). destruct (Nat.eq_dec (digitize r e) (length e)) as [E|]; [|lia].
    assert (qn e (length e - 1) <= r) by (apply H; lia). unfold qlast in B. lra. }
  exists (Nat.pred (digitize r e)). unfold in_cell. replace (S (Nat.pred (digitize r e))) with (digitize r e) by lia. split; [exact D1|]. split.
  - apply (@digitize_spec r e (Nat.pred (digitize r e)) Inc); lia.
  - apply Qnot_le_lt. intros H. apply (@digitize_spec r e (digitize r e) Inc) in H; lia.
Qed.
Lemma index_in_cell a i r : axis_good a -> in_cell (x_sedges a) i r -> pos2ind_axis a r false == qnat i + fraction (x_sedges a) i r.
Proof.
  intros (Inc & L2 & Sz) C. unfold pos2ind_axis. rewrite (digitize_cell Inc C). destruct (fraction_bounds Inc C) as [F1 F2]. destruct C as (L & A & B).
  cbn [Nat.pred Nat.eqb orb]. replace (Nat.min i (length (x_sedges a) - 2)) with i by lia. rewrite Nat.eqb_refl. cbn [negb].
  assert (E : (r - qn (x_sedges a) i) / qn (x_ssizes a) i == fraction (x_sedges a) i r). { unfold fraction. rewrite (Sz i L). reflexivity. }
  assert (P := qnat_pos i). assert (U : qnat i + 1 <= qnat (length (x_sedges a) - 1)). { rewrite <- qnat_S. apply qnat_le. lia. }
  unfold clip, qmin, qmax. rewrite E. qcase; lra.
Qed.
Lemma round_in_cell a i r : axis_good a -> in_cell (x_sedges a) i r -> pos2ind_axis a r true == qnat i.
Proof.
  intros (Inc & L2 & Sz) C. unfold pos2ind_axis. rewrite (digitize_cell Inc C). destruct C as (L & _). cbn [Nat.pred orb]. replace (Nat.min i (length (x_sedges a) - 2)) with i by lia. reflexivity.
Qed.
Lemma index_top a r b : axis_good a -> qlast (x_sedges a) <= r -> pos2ind_axis a r b == qnat (length (x_sedges a) - 2).
Proof.
  intros (Inc & L2 & Sz) C. unfold pos2ind_axis. rewrite (digitize_top Inc L2 C).
  replace (Nat.min (Nat.pred (length (x_sedges a))) (length (x_sedges a) - 2)) with (length (x_sedges a) - 2)%nat by lia.
  destruct (Nat.eqb_spec (Nat.pred (length (x_sedges a))) (length (x_sedges a) - 2)); [lia|]. cbn [negb]. rewrite !Bool.orb_true_r. reflexivity.
Qed.
Lemma index_bottom a r b : axis_good a -> r < qn (x_sedges a) 0 -> pos2ind_axis a r b == 0.
Proof. intros (Inc & L2 & Sz) C. unfold pos2ind_axis. rewrite (digitize_bottom Inc L2 C). cbn. rewrite Bool.orb_true_r. reflexivity. Qed.
(** np.interp at the half indices *)
Definition halves (m : nat) : list Q := map (fun i => qnat i - (1 # 2)) (seq 0 m).
Lemma halves_len m : length (halves m) = m.
Proof. unfold halves. now rewrite map_length, seq_length. Qed.
Lemma halves_at m i : (i < m)%nat -> qn (halves m) i == qnat i - (1 # 2).
Proof.
  intros H. unfold qn, halves. rewrite (nth_indep _ 0 ((fun i => qnat i - (1 # 2)) 0%nat)) by (rewrite map_length, seq_length; lia).
  rewrite (map_nth (fun i => qnat i - (1 # 2))). rewrite seq_nth by lia. reflexivity.
Qed.
Lemma halves_incr m : increasing (halves m).
Proof.
  intros i j. rewrite halves_len. intros H. rewrite !halves_at by lia. assert (qnat (S i) <= qnat j) by (apply qnat_le; lia). rewrite qnat_S in H0. lra.
Qed.
Lemma interp_at ys x i f : (S i < length ys)%nat -> 0 <= f -> f < 1 -> x == qnat i + f - (1 # 2) ->
  interp x (halves (length ys)) ys == qn ys i + f * (qn ys (S i) - qn ys i).
Proof.
  intros L F1 F2 E. unfold interp. assert (C : in_cell (halves (length ys)) i x).
  { split; [now rewrite halves_len|]. rewrite !halves_at by lia. rewrite qnat_S, E. lra. }
  rewrite (digitize_cell (@halves_incr _) C). cbn [Nat.pred]. assert (P := qnat_pos i).
  assert (U : qnat i + 1 <= qnat (length ys - 1)). { rewrite <- qnat_S. apply qnat_le. lia. }
  assert (H0 : qn (halves (length ys)) 0 == - (1 # 2)). { rewrite halves_at by lia. rewrite qnat_0. lra. }
  assert (Hl : qlast (halves (length ys)) == qnat (length ys - 1) - (1 # 2)). { unfold qlast. rewrite halves_len. now rewrite halves_at by lia. }
  assert (X : (x - qn (halves (length ys)) i) / (qn (halves (length ys)) (S i) - qn (halves (length ys)) i) == f).
  { rewrite !halves_at by lia. rewrite qnat_S, E. field. lra. }
  destruct (Qle_bool x (qn (halves (length ys)) 0)) eqn:B1.
  - apply Qle_bool_iff in B1. rewrite H0, E in B1. assert (Fi : f == 0 /\ qnat i == 0) by lra. destruct Fi as [-> Zi].
    assert (i = 0)%nat. { destruct i; [reflexivity|]. rewrite qnat_S in Zi. assert (Pi := qnat_pos i). lra. } subst i. ring.
  - destruct (Qle_bool (qlast (halves (length ys))) x) eqn:B2.
    + apply Qle_bool_iff in B2. rewrite Hl, E in B2. lra.
    + rewrite X. reflexivity.
Qed.
Lemma interp_top ys x : (2 <= length ys)%nat -> qnat (length ys - 1) - (1 # 2) <= x -> interp x (halves (length ys)) ys == qlast ys.
Proof.
  intros L H. unfold interp. assert (H0 : qn (halves (length ys)) 0 == - (1 # 2)). { rewrite halves_at by lia. rewrite qnat_0. lra. }
  assert (Hl : qlast (halves (length ys)) == qnat (length ys - 1) - (1 # 2)). { unfold qlast. rewrite halves_len. now rewrite halves_at by lia. }
  assert (U : 1 <= qnat (length ys - 1)). { assert (X := @qnat_le 1 (length ys - 1) ltac:(lia)). exact X. }
  destruct (Qle_bool x (qn (halves (length ys)) 0)) eqn:B1; [apply Qle_bool_iff in B1; rewrite H0 in B1; lra|].
  destruct (Qle_bool (qlast (halves (length ys))) x) eqn:B2; [reflexivity|]. assert (qlast (halves (length ys)) <= x) by (rewrite Hl; exact H). apply Qle_bool_iff in H1. congruence.
Qed.
(** three axes *)
Definition in_range (a : ax) (r : Q) : Prop := qn (x_sedges a) 0 <= r /\ r < qlast (x_sedges a).
Lemma roundtrip_axis a r : axis_good a -> in_range a r ->
  0 <= pos2ind_axis a r false /\ pos2ind_axis a r false < qnat (length (x_sedges a) - 1) /\
  forall x, x == pos2ind_axis a r false - (1 # 2) -> interp x (halves (length (x_sedges a))) (x_sedges a) == r.
Proof.
  intros G [A B]. destruct (find_cell (proj1 G) (proj1 (proj2 G)) A B) as (i & C). assert (E := index_in_cell G C).
  destruct (fraction_bounds (proj1 G) C) as [F1 F2]. assert (P := qnat_pos i). destruct C as (L & C1 & C2).
  assert (U : qnat i + 1 <= qnat (length (x_sedges a) - 1)). { rewrite <- qnat_S. apply qnat_le. lia. }
  split; [rewrite E; lra|]. split; [rewrite E; lra|]. intros x Hx. rewrite E in Hx. rewrite (@interp_at (x_sedges a) x i _ L F1 F2 Hx). unfold fraction. field. lra.
Qed.
Lemma combine_map_r {A B C : Type} (f : B -> C) (l : list A) (m : list B) : combine l (map f m) = map (fun p => (fst p, f (snd p))) (combine l m).
Proof. revert m. induction l as [|x l IH]; intros [|y m]; cbn; try reflexivity. now rewrite IH. Qed.
Lemma combine_self_map {A B : Type} (f : A * B -> Q) (l : list A) (m : list B) : length l = length m -> combine l (map f (combine l m)) = map (fun p => (fst p, f p)) (combine l m).
Proof. revert m. induction l as [|x l IH]; intros [|y m] H; cbn in *; try discriminate; [reflexivity|]. rewrite IH by lia. reflexivity. Qed.
Lemma roundtrip g r : length g = 3%nat -> length r = 3%nat -> Forall (fun p => axis_good (fst p) /\ in_range (fst p) (snd p) /\ (length (x_sedges (fst p)) <= cells (fst p) + 2)%nat) (combine g r) ->
  exists x y, pos2ind3 g true r false true = Ok x /\ ind2pos g true (map (fun t => t - (1 # 2)) x) false true = Ok y /\ Forall2 Qeq y r.
Proof.
  intros Lg Lr H. unfold pos2ind3. rewrite Lr. cbn [Nat.eqb negb].
  assert (B : existsb (fun p => Nat.ltb 1 (cells (fst p)) && (qlt (snd p) (qn (x_sedges (fst p)) 0) || qlt (qlast (x_sedges (fst p))) (snd p))) (combine g r) = false).
  { clear Lg Lr. induction H as [|p l (G & [A B] & L) _ IH]; [reflexivity|]. cbn [existsb]. rewrite IH. unfold qlt.
    apply Qle_bool_iff in A. rewrite A. assert (X : Qle_bool (snd p) (qlast (x_sedges (fst p))) = true) by (apply Qle_bool_iff; lra). rewrite X. cbn [negb orb]. now rewrite Bool.andb_false_r. }
  rewrite B. cbn [andb]. eexists _, _. split; [reflexivity|]. unfold ind2pos. cbn [negb].
  rewrite map_map, (combine_self_map (fun p => pos2ind_axis (fst p) (snd p) false - (1 # 2))) by lia.
  assert (B2 : existsb (fun p => qlt (snd p) (- (1 # 2)) || qlt (qnat (cells (fst p)) - - (1 # 2)) (snd p)) (map (fun p => (fst p, pos2ind_axis (fst p) (snd p) false - (1 # 2))) (combine g r)) = false).
  { clear Lg Lr B. induction H as [|p l (G & R & L) _ IH]; [reflexivity|]. cbn [map existsb]. rewrite IH. cbn [fst snd].
    destruct (roundtrip_axis G R) as (A1 & A2 & _). assert (U : qnat (length (x_sedges (fst p)) - 1) <= qnat (cells (fst p)) + 1). { rewrite <- qnat_S. apply qnat_le. lia. }
    unfold qlt. assert (X1 : Qle_bool (- (1 # 2)) (pos2ind_axis (fst p) (snd p) false - (1 # 2)) = true) by (apply Qle_bool_iff; lra).
    assert (X2 : Qle_bool (pos2ind_axis (fst p) (snd p) false - (1 # 2)) (qnat (cells (fst p)) - - (1 # 2)) = true) by (apply Qle_bool_iff; lra).
    rewrite X1, X2. reflexivity. }
  rewrite B2. cbn [andb]. split; [reflexivity|]. rewrite map_map. cbn [fst snd].
  clear B B2. revert r Lr H. assert (Lgr : forall r : list Q, length r = 3%nat -> length g = length r) by (intros; lia).
  intros r Lr H. specialize (Lgr r Lr). clear Lg Lr. revert r Lgr H. induction g as [|a g IH]; intros [|q r] Lgr H; cbn in *; try discriminate; [constructor|].
  inversion H as [|? ? (G & R & L) H']; subst. constructor; [|apply IH; [lia|exact H']]. destruct (roundtrip_axis G R) as (_ & _ & X). apply X. reflexivity.
Qed.
Lemma rounded_never g valid ind check : forall r, ind2pos g valid ind true check <> Ok r.
Proof. intros r. unfold ind2pos. destruct valid; cbn [negb]; [|discriminate]. destruct (check && _); discriminate. Qed.
Lemma half_cell_off a i r dx : axis_good a -> in_cell (x_sedges a) i r -> (S (S i) < length (x_sedges a))%nat ->
  qn (x_sedges a) (S i) - qn (x_sedges a) i == dx -> qn (x_sedges a) (S (S i)) - qn (x_sedges a) (S i) == dx ->
  interp (pos2ind_axis a r false) (halves (length (x_sedges a))) (x_sedges a) == r + dx / 2.
Proof.
  intros G C L E1 E2. assert (E := index_in_cell G C). destruct (fraction_bounds (proj1 G) C) as [F1 F2]. destruct C as (L1 & C1 & C2).
  assert (Ef : fraction (x_sedges a) i r * dx == r - qn (x_sedges a) i). { unfold fraction. rewrite E1. field. lra. }
  destruct (Qlt_le_dec (fraction (x_sedges a) i r) (1 # 2)) as [H|H].
  - rewrite (@interp_at (x_sedges a) _ i (fraction (x_sedges a) i r + (1 # 2)) L1); [|lra|lra|rewrite E; ring].
    rewrite E1. transitivity (qn (x_sedges a) i + fraction (x_sedges a) i r * dx + dx / 2); [field|]. rewrite Ef. field.
  - rewrite (@interp_at (x_sedges a) _ (S i) (fraction (x_sedges a) i r - (1 # 2)) L); [|lra|lra|rewrite E, qnat_S; ring].
    rewrite E2. transitivity (qn (x_sedges a) i + (qn (x_sedges a) (S i) - qn (x_sedges a) i) + fraction (x_sedges a) i r * dx - dx / 2); [field|]. rewrite Ef, E1. field.
Qed.
(** *** slices *)
Lemma floor_in i f : 0 <= f -> f < 1 -> forall x, x == qnat i + f -> Qfloor x = Z.of_nat i.
Proof.
  intros F1 F2 x E. rewrite (Qfloor_comp _ _ E). assert (H1 := Qfloor_le (qnat i + f)). assert (H2 := Qlt_floor (qnat i + f)).
  rewrite inject_Z_plus in H2. change (inject_Z 1) with 1 in H2. unfold qnat in *.
  assert (A : inject_Z (Qfloor (inject_Z (Z.of_nat i) + f)) < inject_Z (Z.of_nat i + 1)) by (rewrite inject_Z_plus; change (inject_Z 1) with 1; lra).
  assert (B : inject_Z (Z.of_nat i) < inject_Z (Qfloor (inject_Z (Z.of_nat i) + f) + 1)) by (rewrite inject_Z_plus; change (inject_Z 1) with 1; lra).
  rewrite <- Zlt_Qlt in A, B. lia.
Qed.
Lemma ceil_in i f : 0 < f -> f <= 1 -> forall x, x == qnat i + f -> Qceiling x = Z.of_nat (S i).
Proof.
  intros F1 F2 x E. unfold Qceiling. assert (X : - x == inject_Z (- Z.of_nat (S i)) + (1 - f)).
  { rewrite E, inject_Z_opp. fold (qnat (S i)). rewrite qnat_S. ring. }
  rewrite (Qfloor_comp _ _ X). assert (H1 := Qfloor_le (inject_Z (- Z.of_nat (S i)) + (1 - f))). assert (H2 := Qlt_floor (inject_Z (- Z.of_nat (S i)) + (1 - f))).
  rewrite inject_Z_plus in H2. change (inject_Z 1) with 1 in H2. set (z := Qfloor (inject_Z (- Z.of_nat (S i)) + (1 - f))) in *.
  assert (A : inject_Z z < inject_Z (- Z.of_nat (S i) + 1)) by (rewrite inject_Z_plus; change (inject_Z 1) with 1; lra).
  assert (B : inject_Z (- Z.of_nat (S i)) < inject_Z (z + 1)) by (rewrite inject_Z_plus; change (inject_Z 1) with 1; lra).
  rewrite <- Zlt_Qlt in A, B. lia.
Qed.
Definition in_domain (a : ax) (c : Q) : Prop := qn (centers (x_edges a)) 0 <= c /\ c <= qlast (centers (x_edges a)).
Lemma domain_test a c : in_domain a c -> qlt c (qn (centers (x_edges a)) 0) || qlt (qlast (centers (x_edges a))) c = false.
Proof. intros [A B]. unfold qlt. apply Qle_bool_iff in A, B. now rewrite A, B. Qed.
Lemma strided_one n : strided n 1 = n.
Proof. unfold strided. rewrite Nat.div_1_r. lia. Qed.
Section Sl.
Variables (a : ax) (n1 n2 : nat) (grid : nat -> nat -> nat -> Q) (c : Q).
Hypothesis G : axis_good a.
Hypothesis L : length (x_sedges a) = length (x_edges a).
Hypothesis D : in_domain a c.
Lemma slice_on_edge i : (S i < length (x_sedges a))%nat -> inject_Z (trunc c) == qn (x_sedges a) i ->
  exists v, get_slice a n1 n2 false grid c 1 = Ok v /\ forall j k, v j k == grid i j k.
Proof.
  intros Li E. assert (C : in_cell (x_sedges a) i (inject_Z (trunc c))).
  { split; [exact Li|]. rewrite E. split; [apply Qle_refl|]. apply (proj1 G). lia. }
  assert (I := index_in_cell G C). assert (F0 : fraction (x_sedges a) i (inject_Z (trunc c)) == 0).
  { unfold fraction. rewrite E. assert (X := proj1 G i (S i) ltac:(lia)). field. lra. }
  rewrite F0 in I. unfold get_slice. cbn [Z.leb]. change (Z.leb 1 0) with false. cbv iota.
  set (x := pos2ind_axis a (inject_Z (trunc c)) false) in *. rewrite (@floor_in i 0 ltac:(lra) ltac:(lra) x I).
  assert (Ce : Qceiling x = Z.of_nat i). { unfold Qceiling. assert (X : - x == inject_Z (- Z.of_nat i)) by (rewrite I, inject_Z_opp; unfold qnat; ring). rewrite (Qfloor_comp _ _ X), Qfloor_Z. lia. }
  rewrite Ce, Z.eqb_refl, (domain_test D). cbn [fold_left bind fst snd].
  assert (T : Z.ltb (Z.of_nat i) (- Z.of_nat (cells a)) || Z.leb (Z.of_nat (cells a)) (Z.of_nat i) = false). { unfold cells. rewrite <- L. destruct (Z.ltb_spec (Z.of_nat i) (- Z.of_nat (length (x_sedges a) - 1))); [lia|]. destruct (Z.leb_spec (Z.of_nat (length (x_sedges a) - 1)) (Z.of_nat i)); [lia|reflexivity]. }
  rewrite T. unfold fits, source. change (Z.to_nat 1) with 1%nat. rewrite !strided_one, !Nat.eqb_refl. cbn [orb andb].
  destruct (Z.ltb_spec (Z.of_nat i) 0) as [Hn|_]; [lia|]. rewrite Nat2Z.id. eexists. split; [reflexivity|]. intros j k. cbv beta iota. rewrite !Nat.mul_1_r. ring.
Qed.
Lemma slice_inside i : in_cell (x_sedges a) i (inject_Z (trunc c)) -> qn (x_sedges a) i < inject_Z (trunc c) ->
  let f := fraction (x_sedges a) i (inject_Z (trunc c)) in
  ((S i < cells a)%nat -> exists v, get_slice a n1 n2 false grid c 1 = Ok v /\ forall j k, v j k == (1 - f) * grid i j k + f * grid (S i) j k) /\
  (S i = cells a -> get_slice a n1 n2 false grid c 1 = Err IndexError).
Proof.
  intros C Lt f. assert (I := index_in_cell G C). destruct (fraction_bounds (proj1 G) C) as [F1 F2]. fold f in I, F1, F2.
  assert (F3 : 0 < f). { unfold f, fraction. destruct C as (Li & C1 & C2). apply Qlt_shift_div_l; lra. }
  destruct C as (Li & C1 & C2).
  assert (Es : forall (X : Prop), (get_slice a n1 n2 false grid c 1 = fold_left (fun acc p => bind acc (fun v =>
    if Z.ltb (fst p) (- Z.of_nat (cells a)) || Z.leb (Z.of_nat (cells a)) (fst p) then Err IndexError else
    let ci := Z.to_nat (if Z.ltb (fst p) 0 then fst p + Z.of_nat (cells a) else fst p) in
    Ok (fun j k => v j k + snd p * grid ci (j * 1)%nat (k * 1)%nat)))
    [(Z.of_nat i, 1 - (pos2ind_axis a (inject_Z (trunc c)) false - inject_Z (Z.of_nat i))); (Z.of_nat (S i), pos2ind_axis a (inject_Z (trunc c)) false - inject_Z (Z.of_nat i))] (Ok (fun _ _ => 0)) -> X) -> X).
  { intros X K. apply K. unfold get_slice. change (Z.leb 1 0) with false. cbv iota.
    rewrite (@floor_in i f F1 F2 _ I), (@ceil_in i f F3 ltac:(lra) _ I). destruct (Z.eqb_spec (Z.of_nat i) (Z.of_nat (S i))) as [Q|_]; [lia|].
    rewrite (domain_test D). unfold fits, source. change (Z.to_nat 1) with 1%nat. rewrite !strided_one, !Nat.eqb_refl. reflexivity. }
  apply Es. intros ->. clear Es.
  assert (T : Z.ltb (Z.of_nat i) (- Z.of_nat (cells a)) || Z.leb (Z.of_nat (cells a)) (Z.of_nat i) = false). { unfold cells. rewrite <- L. destruct (Z.ltb_spec (Z.of_nat i) (- Z.of_nat (length (x_sedges a) - 1))); [lia|]. destruct (Z.leb_spec (Z.of_nat (length (x_sedges a) - 1)) (Z.of_nat i)); [lia|reflexivity]. }
  cbn [fold_left bind fst snd]. rewrite T. cbn [bind].
  assert (N1 : Z.ltb (Z.of_nat i) 0 = false) by (apply Z.ltb_ge; lia). assert (N2 : Z.ltb (Z.of_nat (S i)) 0 = false) by (apply Z.ltb_ge; lia).
  rewrite N1, N2, !Nat2Z.id. split.
  - intros Hc. assert (T2 : Z.ltb (Z.of_nat (S i)) (- Z.of_nat (cells a)) || Z.leb (Z.of_nat (cells a)) (Z.of_nat (S i)) = false). { destruct (Z.ltb_spec (Z.of_nat (S i)) (- Z.of_nat (cells a))); [lia|]. destruct (Z.leb_spec (Z.of_nat (cells a)) (Z.of_nat (S i))); [lia|reflexivity]. }
    rewrite T2. eexists. split; [reflexivity|]. intros j k. cbv beta zeta. rewrite !Nat.mul_1_r, I. unfold qnat. ring.
  - intros Hc. assert (T2 : Z.leb (Z.of_nat (cells a)) (Z.of_nat (S i)) = true) by (apply Z.leb_le; lia). rewrite T2, Bool.orb_true_r. reflexivity.
Qed.
End Sl.
Lemma slice_trunc a n1 n2 cplx grid c c' sp : in_domain a c -> in_domain a c' -> trunc c = trunc c' -> get_slice a n1 n2 cplx grid c sp = get_slice a n1 n2 cplx grid c' sp.
Proof. intros D D' E. unfold get_slice. rewrite E, (domain_test D), (domain_test D'). reflexivity. Qed.
Lemma slice_complex_fails a n1 n2 grid c sp : forall v, get_slice a n1 n2 true grid c sp <> Ok v.
Proof.
  intros v. unfold get_slice. destruct (Z.leb sp 0); [discriminate|]. destruct (_ || _); [discriminate|].
  cbv iota. destruct (Z.eqb _ _); cbn [fold_left bind fst snd]; destruct (_ || _); cbn [bind]; discriminate.
Qed.
Lemma slice_domain a n1 n2 cplx grid c sp v : get_slice a n1 n2 cplx grid c sp = Ok v -> in_domain a c.
Proof.
  unfold get_slice. destruct (Z.leb sp 0); [discriminate|]. destruct (qlt c (qn (centers (x_edges a)) 0) || qlt (qlast (centers (x_edges a))) c) eqn:E; [discriminate|].
  intros _. apply Bool.orb_false_iff in E as [A B]. unfold qlt in A, B. apply Bool.negb_false_iff in A, B. apply Qle_bool_iff in A, B. now split.
Qed.
Lemma slice_strided a n1 n2 cplx grid c sp v : get_slice a n1 n2 cplx grid c sp = Ok v -> (0 < sp)%Z /\ fits n1 (Z.to_nat sp) = true /\ fits n2 (Z.to_nat sp) = true.
Proof.
  unfold get_slice. destruct (Z.leb_spec sp 0); [discriminate|]. destruct (_ || _); [discriminate|]. split; [lia|]. revert H0.
  destruct (Z.eqb _ _); cbn [fold_left bind fst snd]; (destruct (_ || _); cbn [bind]; [discriminate|]); (destruct cplx; cbn [bind]; [discriminate|]);
  destruct (fits n1 (Z.to_nat sp)), (fits n2 (Z.to_nat sp)); cbn; try discriminate; auto.
Qed.
Lemma fits_spec n sp : (0 < sp)%nat -> (fits n sp = true <-> sp = 1%nat \/ (n <= sp)%nat).
Proof.
  intros H. unfold fits, strided. rewrite Bool.orb_true_iff, !Nat.eqb_eq.
  assert (M := Nat.div_mod (n + sp - 1) sp ltac:(lia)). assert (U := Nat.mod_upper_bound (n + sp - 1) sp ltac:(lia)).
  set (q := ((n + sp - 1) / sp)%nat) in *. set (r := ((n + sp - 1) mod sp)%nat) in *. clearbody q r. split.
  - intros [E|E]; [|right; nia]. destruct (Nat.eq_dec sp 1) as [|N]; [now left|right]. subst n. destruct q as [|[|q']]; nia.
  - intros [E|E].
    + left. subst sp. clear - M U. assert (r = 0)%nat by lia. nia.
    + destruct n as [|n]; [left; destruct q; nia|]. right. destruct q as [|[|q']]; nia.
Qed.
