(** Shifts with mirrors and shifts with a phase: C158, C159. *)
From Coq Require Import Reals ZArith Lia.
From Coq Require Lra.
From Verif Require Import Base CField CField_Proofs Gauss Maxwell_Model Maxwell_Proofs GMath_Model GMath_Proofs CplxField Wg_Model2 Mir_Model Mir_Spec Mir_Proofs Mir_Proofs2 Mir_Proofs3.
Set Implicit Arguments.

(** *** C158: shift_with_mirror *)
(** the values of a function that is symmetric about both ends, s cells further *)
Theorem mirror_shift (K : cfield) shape axis s : good_shape shape -> (axis < length shape)%nat ->
  let n := Z.of_nat (nth axis shape 1%nat) in let g := shape_grid K shape in (- n <= s < n)%Z ->
  exists M, shift_with_mirror K axis shape s = Ok M /\
  forall F, mirror_symmetric axis n F -> mv (cellsn g) M (sampled g F) = sampled g (moved axis (fun i => i + s)%Z F).
Proof. intros G Ha n g Hs. exact (mirror_lemma K G Ha Hs). Qed.
(** every vector consists of the values of such a function: the matrix is determined *)
Theorem mirror_continuation (K : cfield) shape axis (v : list K) : good_shape shape -> (axis < length shape)%nat ->
  let n := Z.of_nat (nth axis shape 1%nat) in let g := shape_grid K shape in length v = cellsn g ->
  exists F, mirror_symmetric axis n F /\ sampled g F = v.
Proof. intros G Ha n g. exact (extension_lemma K G Ha v). Qed.
(** longer shifts are refused; in the negative direction this is left to the constructor of the matrix *)
Theorem mirror_refused (K : cfield) shape axis s : good_shape shape -> (axis < length shape)%nat ->
  let n := Z.of_nat (nth axis shape 1%nat) in
  ((n <= s)%Z -> exists e, shift_with_mirror K axis shape s = Err (UserError e)) /\ ((s < - n)%Z -> shift_with_mirror K axis shape s = Err ValueError).
Proof. intros G Ha n. split; intros H; [exists 2%nat; exact (mirror_big K G Ha H)|exact (mirror_far K G Ha H)]. Qed.
Theorem shift_arguments (K : cfield) shape axis s phi : (length shape <> 2 /\ length shape <> 3)%nat \/ (length shape <= axis)%nat ->
  (exists e, shift_with_mirror K axis shape s = Err (UserError e)) /\ (exists e, rotation_bloch shape axis phi s = Err (UserError e)).
Proof.
  intros H. assert (E : exists e, check_shape axis shape = Err (UserError e)).
  { unfold check_shape. destruct (Nat.eqb_spec (length shape) 2) as [E2|E2]; [|destruct (Nat.eqb_spec (length shape) 3) as [E3|E3]]; cbn [orb negb]; try (eexists; reflexivity);
    (destruct (Nat.ltb_spec axis (length shape)); [lia|eexists; reflexivity]). }
  destruct E as (e & E). unfold shift_with_mirror, rotation_bloch. rewrite E. split; eexists; reflexivity.
Qed.
Example mirror_ex : match shift_with_mirror G 0 [3; 2] (-2) with
  | Ok M => gleqb (mv 6 M (map (fun k => gz k 0) [1; 2; 3; 4; 5; 6]%Z)) (map (fun k => gz k 0) [2; 1; 1; 5; 4; 4]%Z) = true
  | Err _ => False end /\ good_shape [3; 2] /\
  mirror_symmetric (K:=G) 0 3 (fun x _ _ => gz ((x * (x + 1)) mod 6) 0).
Proof.
  split; [vm_compute; reflexivity|]. split; [split; [auto|repeat constructor; lia]|]. intros x y z. unfold moved. split; f_equal.
  - f_equal. ring.
  - replace ((2 * 3 - 1 - x) * (2 * 3 - 1 - x + 1))%Z with (x * (x + 1) + (5 - 2 * x) * 6)%Z by ring. apply Z.mod_add. lia.
Qed.
Example mirror_negative_ex : shift_with_mirror G 0 [2; 2] (-3) = Err ValueError /\ shift_with_mirror G 0 [2; 2] 2 = Err (UserError 2).
Proof. vm_compute. auto. Qed.
Print Assumptions mirror_shift.
Print Assumptions mirror_continuation.
Print Assumptions mirror_refused.
Print Assumptions shift_arguments.

(** *** C159: rotation_bloch, deriv_forward and deriv_back *)
Local Open Scope K_scope.
(** the values of a function that takes a factor after the length of the axis, in the next or the previous cell *)
Theorem bloch_shift shape axis (phi : CC) : good_shape shape -> (axis < length shape)%nat ->
  let n := Z.of_nat (nth axis shape 1%nat) in let g := shape_grid CC shape in
  exists Mf Mb, rotation_bloch shape axis phi 1 = Ok Mf /\ rotation_bloch shape axis phi (-1) = Ok Mb /\
  (forall F, bloch_periodic axis n (cexp (- ki * phi)) F -> mv (cellsn g) Mf (sampled g F) = sampled g (moved axis (fun i => i + 1)%Z F)) /\
  (forall F, bloch_periodic axis n (cexp (- ki * kconj phi)) F -> mv (cellsn g) Mb (sampled g F) = sampled g (moved axis (fun i => i - 1)%Z F)).
Proof.
  intros G Ha n g. exists (df shape axis phi), (mherm (df shape axis phi)). split; [exact (rotation_ok G Ha phi (or_introl eq_refl))|].
  split; [exact (rotation_ok G Ha phi (or_intror eq_refl))|]. split; [exact (forward_lemma G Ha (phi:=phi))|exact (back_lemma G Ha (phi:=phi))].
Qed.
(** there and back is the identity exactly for real phases *)
Theorem bloch_round_trip shape axis (phi : CC) Mf Mb : good_shape shape -> (axis < length shape)%nat ->
  rotation_bloch shape axis phi 1 = Ok Mf -> rotation_bloch shape axis phi (-1) = Ok Mb -> let n := cellsn (shape_grid CC shape) in
  ((forall v, length v = n -> mv n Mb (mv n Mf v) = v) <-> snd phi = 0%R).
Proof.
  intros G Ha. rewrite (rotation_ok G Ha phi (or_introl eq_refl)), (rotation_ok G Ha phi (or_intror eq_refl)). intros E1 E2.
  injection E1 as <-. injection E2 as <-. exact (round_trip_lemma G Ha phi).
Qed.
Theorem bloch_other_shift shape axis (phi : CC) s : s <> 1%Z -> s <> (-1)%Z -> exists e, rotation_bloch shape axis phi s = Err (UserError e).
Proof.
  intros H1 H2. unfold rotation_bloch, check_shape. repeat match goal with |- context [if negb ?b then _ else _] => destruct b eqn:?; cbn [negb bind]; try (eexists; reflexivity) end.
  exfalso. match goal with H : ((s =? -1)%Z || (s =? 1)%Z)%bool = true |- _ => apply Bool.orb_true_iff in H; destruct H as [H|H]; apply Z.eqb_eq in H; contradiction end.
Qed.
(** the derivatives of the waveguide solver are the newer ones, with the phase of the Bloch vector along the sum of the
    cell sizes forward, and of its conjugate backward *)
Theorem bloch_derivatives dims dx (bloch : nat -> CC) a u w : good_shape dims -> (a < length dims)%nat ->
  let g := @Grid CC (fun b => nth b dims 1%nat) dx dx in let phase := bloch a * fsum (nth a dims 1%nat) (dx a) in
  u a = cexp (- ki * phase) -> w a = cexp (ki * kconj phase) ->
  exists Df Db, old_deriv_forward dims dx bloch a = Ok Df /\ old_deriv_back dims dx bloch a = Ok Db /\
  forall t j, (t < cellsn g)%nat -> (j < cellsn g)%nat -> Df t j = deriv_forward g u w a t j /\ Db t j = deriv_back g u w a t j.
Proof.
  intros G Ha g phase Hu Hw. destruct (deriv_forward_lemma dx bloch G Ha u w Hu) as (Df & E1 & H1). destruct (deriv_back_lemma dx bloch G Ha u w Hw) as (Db & E2 & H2).
  exists Df, Db. repeat split; auto.
Qed.
Example bloch_ex : good_shape [2; 3; 2] /\ bloch_periodic (K:=CC) 1 3 (cexp (- ki * rl (3 * PI))) (fun _ y _ => rl (if Z.even y then 1 else -1)) /\
  exists M, rotation_bloch [2; 3; 2] 1 (rl (3 * PI)) 1 = Ok M /\ M 5%nat 1%nat = cexp (- ki * rl (3 * PI)) :> CC /\ M 0%nat 2%nat = (1 : CC).
Proof.
  split; [split; [auto|repeat constructor; lia]|]. split.
  - assert (E : cexp (- ki * rl (3 * PI)) = rl (-1)).
    { unfold cexp, rl. cbn [fst snd]. apply c_eq; cbn.
      - replace (- 0 * (3 * PI) - - (1) * 0)%R with 0%R by ring. replace (- 0 * 0 + - (1) * (3 * PI))%R with (- (PI + 2 * INR 1 * PI))%R by (simpl; ring).
        rewrite exp_0, cos_neg, cos_period, cos_PI. ring.
      - replace (- 0 * 0 + - (1) * (3 * PI))%R with (- (PI + 2 * INR 1 * PI))%R by (simpl; ring). rewrite sin_neg, sin_period, sin_PI. ring. }
    intros x y z. unfold moved. rewrite E, Z.even_add. cbn [Z.even]. destruct (Z.even y); apply c_eq; cbn; ring.
  - eexists. split; [reflexivity|]. cbn [Z.eqb]. assert (GS : good_shape [2; 3; 2]) by (split; [auto|repeat constructor; lia]).
    split.
    + etransitivity; [exact (@df_entry [2; 3; 2]%nat GS 1%nat ltac:(simpl; lia) (rl (3 * PI)) 5%nat 1%nat ltac:(vm_compute; lia) ltac:(vm_compute; lia))|]. reflexivity.
    + etransitivity; [exact (@df_entry [2; 3; 2]%nat GS 1%nat ltac:(simpl; lia) (rl (3 * PI)) 0%nat 2%nat ltac:(vm_compute; lia) ltac:(vm_compute; lia))|]. reflexivity.
Qed.
(** a phase that is not real *)
Theorem bloch_round_trip_refuted : exists shape axis phi Mf Mb, good_shape shape /\ rotation_bloch shape axis phi 1 = Ok Mf /\ rotation_bloch shape axis phi (-1) = Ok Mb /\
  exists v, length v = cellsn (shape_grid CC shape) /\ mv (cellsn (shape_grid CC shape)) Mb (mv (cellsn (shape_grid CC shape)) Mf v) <> v.
Proof.
  assert (GS : good_shape [1; 1]%nat) by (split; [auto|repeat constructor; lia]). set (phi := (0, 1)%R : CC).
  exists [1; 1]%nat, 0%nat, phi, (df [1; 1]%nat 0 phi), (mherm (df [1; 1]%nat 0 phi)). split; [exact GS|]. split; [reflexivity|]. split; [reflexivity|].
  exists [(1 : CC)]. split; [reflexivity|]. intros E. apply (f_equal (fun l => at_ l 0)) in E.
  assert (A := @round_trip_at [1; 1]%nat GS 0%nat ltac:(simpl; lia) phi [(1 : CC)] 0%nat ltac:(vm_compute; lia)).
  rewrite A in E. assert (X : rl (exp (2 * snd phi)) = (1 : CC)).
  { etransitivity; [|exact E]. apply c_eq; cbn; ring. }
  apply (factor_one_iff phi) in X. cbn in X. Lra.lra.
Qed.
Print Assumptions bloch_shift.
Print Assumptions bloch_round_trip.
Print Assumptions bloch_other_shift.
Print Assumptions bloch_derivatives.
Print Assumptions bloch_round_trip_refuted.
