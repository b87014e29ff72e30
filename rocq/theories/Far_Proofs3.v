(** Far fields: nearest cells, spherical components, the matrix of a plane *)
From Coq Require Import Reals List ZArith Lra.
From Verif Require Import Base CField CField_Proofs GMath_Model GMath_Proofs CplxField Maxwell_Model Maxwell_Spec Maxwell_Proofs Maxwell_Proofs2 Maxwell_Proofs3 Wg_Model Wg_Model2 Fs_Model Ov_Model Ov_Spec Ov_Proofs Ov_Proofs3 Far_Model Far_Spec Far_Proofs Far_Proofs2.
From Verif Require Ff_Model Ff_Proofs5 EmObj_Proofs3 Fs_Proofs6 Wg_Spec.
Set Implicit Arguments.

Section Nearest.
Local Open Scope R_scope.
Definition first_min (l : list R) (i : nat) : Prop :=
  (i < length l)%nat /\ (forall j, (j < length l)%nat -> nth i l 0 <= nth j l 0) /\ (forall j, (j < i)%nat -> nth i l 0 < nth j l 0).
Lemma argmin_from_spec l : forall pre best b, (best < length pre)%nat -> nth best pre 0 = b -> (forall j, (j < length pre)%nat -> b <= nth j pre 0) -> (forall j, (j < best)%nat -> b < nth j pre 0) ->
  first_min (pre ++ l) (argmin_from best b (length pre) l).
Proof.
  induction l as [|x l IH]; intros pre best b Hb Hn Hle Hlt; cbn [argmin_from].
  - rewrite app_nil_r. rewrite <- Hn in Hle, Hlt. now repeat split.
  - replace (pre ++ x :: l) with ((pre ++ [x]) ++ l) by (rewrite <- app_assoc; reflexivity).
    assert (LE : length (pre ++ [x]) = S (length pre)) by (rewrite app_length; cbn; lia).
    assert (OLD : forall j, (j < length pre)%nat -> nth j (pre ++ [x]) 0 = nth j pre 0) by (intros; now rewrite app_nth1).
    assert (NEW : nth (length pre) (pre ++ [x]) 0 = x) by (rewrite app_nth2, Nat.sub_diag by lia; reflexivity).
    destruct (Rlt_dec x b) as [L|L]; rewrite <- LE; apply IH; rewrite ?LE.
    + lia.
    + exact NEW.
    + intros j Hj. destruct (Nat.eq_dec j (length pre)) as [->|]; [rewrite NEW; lra|]. rewrite OLD by lia. specialize (Hle j ltac:(lia)). lra.
    + intros j Hj. rewrite OLD by lia. specialize (Hle j ltac:(lia)). lra.
    + lia.
    + now rewrite OLD.
    + intros j Hj. destruct (Nat.eq_dec j (length pre)) as [->|]; [rewrite NEW; lra|]. rewrite OLD by lia. apply Hle; lia.
    + intros j Hj. rewrite OLD by lia. now apply Hlt.
Qed.
Lemma argmin_spec l : l <> [] -> first_min l (argmin l).
Proof.
  destruct l as [|x l]; [congruence|]. intros _. unfold argmin. apply (@argmin_from_spec l [x] 0%nat x); cbn [length nth]; try lia; auto.
  intros j Hj. replace j with 0%nat by lia. cbn. lra.
Qed.
Lemma first_min_unique l i j : first_min l i -> first_min l j -> i = j.
Proof.
  intros (Hi & Li & Si) (Hj & Lj & Sj). destruct (Nat.lt_trichotomy i j) as [H|[H|H]]; [|exact H|].
  - specialize (Sj i H). specialize (Li j Hj). lra.
  - specialize (Si j H). specialize (Lj i Hi). lra.
Qed.
Lemma nth_map_seq n (f : nat -> R) i : (i < n)%nat -> nth i (map f (seq 0 n)) 0 = f i.
Proof. intros H. rewrite (nth_indep _ 0 (f 0%nat)) by (now rewrite map_length, seq_length). rewrite map_nth, seq_nth by auto. reflexivity. Qed.
Lemma nearest_min v n x i : nearest v n x i <-> first_min (map (fun j => Rabs (x - v j)) (seq 0 n)) i.
Proof.
  unfold nearest, first_min. rewrite map_length, seq_length.
  split; intros (H & L & S); (split; [exact H|]); split; intros j Hj.
  - rewrite !nth_map_seq by auto. now apply L.
  - rewrite !nth_map_seq by lia. now apply S.
  - specialize (L j Hj). now rewrite !nth_map_seq in L by auto.
  - specialize (S j Hj). now rewrite !nth_map_seq in S by lia.
Qed.
Lemma find_ind_nearest v n x i : nearest v n x i -> find_ind x n v = i.
Proof.
  intros H. assert (n <> 0)%nat by (destruct H; lia). apply nearest_min in H. unfold find_ind. apply (@first_min_unique (map (fun j => Rabs (x - v j)) (seq 0 n))); [|exact H].
  apply argmin_spec. destruct n; [congruence|discriminate].
Qed.
Lemma nearest_unique v n x i j : nearest v n x i -> nearest v n x j -> i = j.
Proof. intros H H'. now rewrite <- (find_ind_nearest H), <- (find_ind_nearest H'). Qed.
Lemma axis_of_width width axis : (axis < 3)%nat -> width axis = 0 -> (forall a, (a < axis)%nat -> width a <> 0) -> argmin (map (fun a => Rabs (width a)) (seq 0 3)) = axis.
Proof.
  intros Ha H0 Hn. apply (@first_min_unique (map (fun a => Rabs (width a)) (seq 0 3))); [now apply argmin_spec|].
  split; [exact Ha|]. split; intros j Hj; rewrite !nth_map_seq by (rewrite ?map_length, ?seq_length in *; lia); rewrite H0, Rabs_R0; [apply Rabs_pos|]. apply Rabs_pos_lt. now apply Hn.
Qed.
End Nearest.

Section Spheric.
Local Open Scope K_scope.
Add Field CCf4 : (k_field CC).
Lemma comp3_rows th ph c : (c < 3)%nat -> comp3 1 (Ff_Proofs5.rows th ph (unit3 c)) = (match c with 0%nat => cos th * cos ph | 1%nat => cos th * sin ph | _ => - sin th end)%R /\
   comp3 2 (Ff_Proofs5.rows th ph (unit3 c)) = (match c with 0%nat => - sin ph | 1%nat => cos ph | _ => 0 end)%R.
Proof. intros Hc. ax3 c; unfold Ff_Proofs5.rows, Ff_Model.dot3; cbn; split; ring. Qed.
Lemma angles p : Ff_Model.norm p <> 0%R -> let th := acos (Ff_Model.pz p / Ff_Model.norm p) in let ph := Ff_Model.angle (Ff_Model.px p) (Ff_Model.py p) in
  let x := coordinate p 0 in let y := coordinate p 1 in let rho := sqrt (x * x + y * y) in
  let u := if Req_EM_T rho 0 then (1, 0)%R else (x / rho, y / rho)%R in
  cos th = (coordinate p 2 / length3 p)%R /\ sin th = (rho / length3 p)%R /\ cos ph = fst u /\ sin ph = snd u.
Proof.
  intros Hp th ph x y rho u. destruct (Ff_Proofs5.polar_trig p Hp) as [E1 E2]. split; [exact E1|]. split; [exact E2|]. unfold u.
  destruct (Req_EM_T rho 0) as [Z|Z].
  - unfold ph, Ff_Model.angle. change (sqrt (Ff_Model.px p * Ff_Model.px p + Ff_Model.py p * Ff_Model.py p)) with rho. destruct (Req_EM_T rho 0); [|contradiction]. now rewrite cos_0, sin_0.
  - apply Ff_Proofs5.angle_azimuth. change (Ff_Model.px p) with x. change (Ff_Model.py p) with y. destruct (Req_dec x 0) as [X|X]; [|now left]. right. intros Y. apply Z. unfold rho. rewrite X, Y.
    replace (0 * 0 + 0 * 0)%R with 0%R by ring. apply sqrt_0.
Qed.
Lemma spheric_matrix pts : (forall p, In p pts -> Ff_Model.norm p <> 0%R) -> exists S, cart2spheric_matrix 2 pts = Ok S /\
  forall v k, (k < length pts)%nat -> let p := nth k pts origin in let P := length pts in
    act (3 * P) S v (1 * P + k) = along_theta p (fun c => v (c * P + k)%nat) /\ act (3 * P) S v (2 * P + k) = along_phi p (fun c => v (c * P + k)%nat).
Proof.
  intros Hp. set (col := fun p c => Ff_Proofs5.rows (acos (Ff_Model.pz p / Ff_Model.norm p)) (Ff_Model.angle (Ff_Model.px p) (Ff_Model.py p)) (unit3 c)).
  unfold cart2spheric_matrix.
  rewrite (EmObj_Proofs3.mapM_ok _ (fun p => map (col p) (seq 0 3))).
  2:{ intros p Hin. apply EmObj_Proofs3.mapM_ok. intros c _. apply Ff_Proofs5.spheric_z. now apply Hp. }
  cbn [bind]. eexists. split; [reflexivity|]. intros v k Hk. set (p := nth k pts origin). set (P := length pts) in *.
  assert (Np : Ff_Model.norm p <> 0%R) by (apply Hp; now apply nth_In).
  assert (CE : forall r c, (c < 3)%nat -> comp3 r (nth c (nth k (map (fun p => map (col p) (seq 0 3)) pts) []) origin) = comp3 r (col p c)).
  { intros r c Hc. rewrite (nth_indep _ [] (map (col origin) (seq 0 3))) by (now rewrite map_length). rewrite (map_nth (fun p => map (col p) (seq 0 3))). fold p. ax3 c; reflexivity. }
  destruct (angles p Np) as (T1 & T2 & U1 & U2). unfold along_theta, along_phi.
  rewrite <- T1, <- T2, <- U1, <- U2.
  split; rewrite bmat_blocks, act_blocks, !act_mdiag by auto; rewrite !CE by lia; unfold col;
    destruct (@comp3_rows (acos (Ff_Model.pz p / Ff_Model.norm p)) (Ff_Model.angle (Ff_Model.px p) (Ff_Model.py p)) 0) as [A0 B0]; [lia| |lia|];
    destruct (@comp3_rows (acos (Ff_Model.pz p / Ff_Model.norm p)) (Ff_Model.angle (Ff_Model.px p) (Ff_Model.py p)) 1) as [A1 B1]; [lia| |lia|];
    destruct (@comp3_rows (acos (Ff_Model.pz p / Ff_Model.norm p)) (Ff_Model.angle (Ff_Model.px p) (Ff_Model.py p)) 2) as [A2 B2]; [lia| |lia|];
    rewrite ?A0, ?A1, ?A2, ?B0, ?B1, ?B2.
  - replace (rl (- sin (acos (Ff_Model.pz p / Ff_Model.norm p)))) with (- rl (sin (acos (Ff_Model.pz p / Ff_Model.norm p)))) by (apply c_eq; simpl; ring). cbn [Nat.mul Nat.add]. ring.
  - replace (rl (- sin (Ff_Model.angle (Ff_Model.px p) (Ff_Model.py p)))) with (- rl (sin (Ff_Model.angle (Ff_Model.px p) (Ff_Model.py p)))) by (apply c_eq; simpl; ring).
    replace (rl 0) with (0 : CC) by reflexivity. cbn [Nat.mul Nat.add]. ring.
Qed.
Lemma radial_removed P v k : (k < P)%nat -> let M := bmat P (fun r c => if Nat.eqb r c then if Nat.eqb r 0 then mzero else meye else mzero) in
  act (3 * P) M v k = 0 /\ act (3 * P) M v (1 * P + k) = v (1 * P + k)%nat /\ act (3 * P) M v (2 * P + k) = v (2 * P + k)%nat.
Proof.
  intros Hk M. split; [|split].
  - replace k with (0 * P + k)%nat at 1 by lia. unfold M. rewrite bmat_blocks, act_blocks by auto. cbn [Nat.eqb]. rewrite !act_mzero. ring.
  - unfold M. rewrite bmat_blocks, act_blocks by auto. cbn [Nat.eqb]. rewrite !act_mzero, act_meye by auto. ring.
  - unfold M. rewrite bmat_blocks, act_blocks by auto. cbn [Nat.eqb]. rewrite !act_mzero, act_meye by auto. ring.
Qed.
Lemma along_theta_ext p f f' : (forall c, (c < 3)%nat -> f c = f' c) -> along_theta p f = along_theta p f'.
Proof. intros H. unfold along_theta. now rewrite !H by lia. Qed.
Lemma along_phi_ext p f f' : (forall c, (c < 3)%nat -> f c = f' c) -> along_phi p f = along_phi p f'.
Proof. intros H. unfold along_phi. now rewrite !H by lia. Qed.
Lemma along_theta_add p f f' : along_theta p (fun c => f c + f' c) = along_theta p f + along_theta p f'.
Proof. unfold along_theta. ring. Qed.
Lemma along_phi_add p f f' : along_phi p (fun c => f c + f' c) = along_phi p f + along_phi p f'.
Proof. unfold along_phi. ring. Qed.
End Spheric.
