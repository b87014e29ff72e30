(** The eigenvectors of the waveguide operator are modes. *)
From Verif Require Import Base CField CField_Proofs Maxwell_Model Wg_Model.
From Coq Require Import Lia.
Set Implicit Arguments.

Section Modes.
Variable K : cfield.
Local Open Scope K_scope.
Add Field Kf : (k_field K).
Variable g : grid K.
Variables (omega beta : K) (eps mu : field3 K) (v : array K * array K) (l : nat).
Local Notation n0 := (dim g 0). Local Notation n1 := (dim g 1).
Hypothesis Hom : omega <> 0.
Hypothesis Hbe : beta <> 0.
Hypothesis Heps : forall c i j, (c < 3)%nat -> (i < n0)%nat -> (j < n1)%nat -> eps c i j l <> 0.
Hypothesis Hmu : forall c i j, (c < 3)%nat -> (i < n0)%nat -> (j < n1)%nat -> mu c i j l <> 0.
Hypothesis Hd0 : forall i, (i < n0)%nat -> dxe g 0 i <> 0 /\ dxh g 0 i <> 0.
Hypothesis Hd1 : forall j, (j < n1)%nat -> dxe g 1 j <> 0 /\ dxh g 1 j <> 0.
Hypothesis Heig : forall i j, (i < n0)%nat -> (j < n1)%nat ->
  fst (wg_operator g omega eps mu v) i j l = beta * beta * fst v i j l /\
  snd (wg_operator g omega eps mu v) i j l = beta * beta * snd v i j l.
Local Notation h := (v2h g mu beta v).
Local Notation e := (v2e g omega eps mu beta v).

Lemma ki2 : (ki : K) * ki = - (1).
Proof. exact (ki_sq K). Qed.
Lemma mode_h c i j : (c < 3)%nat -> (i < n0)%nat -> (j < n1)%nat -> wg_curl_h g beta h c i j l = ki * omega * eps c i j l * e c i j l.
Proof.
  intros Hc Hi Hj. unfold v2e. assert (H := Heps Hc Hi Hj). assert (Hk := ki_neq0 K). field. repeat split; auto.
Qed.
Lemma e2_cz i j : (i < n0)%nat -> (j < n1)%nat -> e 2%nat i j l = op_cz g eps (fst v) (snd v) i j l / (ki * omega).
Proof.
  intros Hi Hj. unfold v2e, op_cz, wg_curl_h, wg_curl. cbn [v2h]. assert (H := @Heps 2 i j ltac:(lia) Hi Hj). assert (Hk := ki_neq0 K).
  change (h 1%nat) with (fst (snd v, snd v)). change (h 0%nat) with (fst (fst v, fst v)). cbn [fst]. field. repeat split; auto.
Qed.
Lemma mod_lt' a n : (a < n)%nat -> (Nat.modulo (a + 1) n < n)%nat.
Proof. intros H. apply Nat.mod_upper_bound. lia. Qed.
Lemma pred_lt' a n : (a < n)%nat -> (Nat.modulo (a + n - 1) n < n)%nat.
Proof. intros H. apply Nat.mod_upper_bound. lia. Qed.
(** component x *)
Lemma mode_e0 i j : (i < n0)%nat -> (j < n1)%nat -> wg_curl_e g beta e 0%nat i j l = - ki * omega * mu 0%nat i j l * h 0%nat i j l.
Proof.
  intros Hi Hj. assert (Hk := ki_neq0 K). assert (H1 := @Heps 1 i j ltac:(lia) Hi Hj). destruct (Hd0 Hi), (Hd1 Hj).
  unfold wg_curl_e, wg_curl. unfold de at 1. unfold roll_forward. rewrite (e2_cz Hi Hj), (e2_cz Hi (mod_lt' Hj)).
  destruct (Heig Hi Hj) as [E _]. unfold wg_operator in E. cbn [fst snd] in E. unfold de at 1 in E. unfold roll_forward in E.
  change (e 1%nat i j l) with (1 / (ki * omega * eps 1%nat i j l) * ((- ki * beta) * fst v i j l - dh g (h 2%nat) 0 i j l)).
  assert (D : dh g (h 2%nat) 0 i j l = dh g (op_dv g mu (fst v) (snd v)) 0 i j l / (ki * beta)).
  { unfold dh, roll_back. cbn [v2h pick]. field. repeat split; auto. }
  rewrite D. cbn [pick] in *. cbn [v2h].
  set (cz1 := op_cz g eps (fst v) (snd v) i ((j + 1) mod n1)%nat l) in *. set (cz := op_cz g eps (fst v) (snd v) i j l) in *.
  set (dd := dh g (op_dv g mu (fst v) (snd v)) 0 i j l) in *. set (hx := fst v i j l) in *.
  assert (Edd : dd = beta * beta * hx - omega * omega * eps 1%nat i j l * mu 0%nat i j l * hx + eps 1%nat i j l * ((cz1 - cz) / dxe g 1 j)).
  { rewrite <- E. ring. }
  rewrite Edd. assert (Hi2 := ki2). field [Hi2]. repeat split; auto.
Qed.
(** component y *)
Lemma mode_e1 i j : (i < n0)%nat -> (j < n1)%nat -> wg_curl_e g beta e 1%nat i j l = - ki * omega * mu 1%nat i j l * h 1%nat i j l.
Proof.
  intros Hi Hj. assert (Hk := ki_neq0 K). assert (H1 := @Heps 0 i j ltac:(lia) Hi Hj). destruct (Hd0 Hi), (Hd1 Hj).
  unfold wg_curl_e, wg_curl. unfold de at 1. unfold roll_forward. rewrite (e2_cz Hi Hj), (e2_cz (mod_lt' Hi) Hj).
  destruct (Heig Hi Hj) as [_ E]. unfold wg_operator in E. cbn [fst snd] in E. unfold de at 1 in E. unfold roll_forward in E.
  change (e 0%nat i j l) with (1 / (ki * omega * eps 0%nat i j l) * (dh g (h 2%nat) 1 i j l - (- ki * beta) * snd v i j l)).
  assert (D : dh g (h 2%nat) 1 i j l = dh g (op_dv g mu (fst v) (snd v)) 1 i j l / (ki * beta)).
  { unfold dh, roll_back. cbn [v2h pick]. field. repeat split; auto. }
  rewrite D. cbn [pick] in *. cbn [v2h].
  set (cz1 := op_cz g eps (fst v) (snd v) ((i + 1) mod n0)%nat j l) in *. set (cz := op_cz g eps (fst v) (snd v) i j l) in *.
  set (dd := dh g (op_dv g mu (fst v) (snd v)) 1 i j l) in *. set (hy := snd v i j l) in *.
  assert (Edd : dd = beta * beta * hy - omega * omega * eps 0%nat i j l * mu 1%nat i j l * hy - eps 0%nat i j l * ((cz1 - cz) / dxe g 0 i)).
  { rewrite <- E. ring. }
  rewrite Edd. assert (Hi2 := ki2). field [Hi2]. repeat split; auto.
Qed.
(** component z *)
Lemma mode_e2 i j : (i < n0)%nat -> (j < n1)%nat -> wg_curl_e g beta e 2%nat i j l = - ki * omega * mu 2%nat i j l * h 2%nat i j l.
Proof.
  intros Hi Hj. assert (Hk := ki_neq0 K). assert (Hm := @Hmu 2 i j ltac:(lia) Hi Hj). assert (Hi2 := ki2).
  assert (E1 : forall i j, (i < n0)%nat -> (j < n1)%nat -> e 1%nat i j l = (- ki * omega * mu 0%nat i j l * fst v i j l - de g (e 2%nat) 1 i j l) / (ki * beta)).
  { intros i' j' Hi' Hj'. assert (E := mode_e0 Hi' Hj'). unfold wg_curl_e, wg_curl in E. cbn [v2h] in E. rewrite <- E. field. all: repeat split; auto using kopp_neq0. }
  assert (E0 : forall i j, (i < n0)%nat -> (j < n1)%nat -> e 0%nat i j l = (- ki * omega * mu 1%nat i j l * snd v i j l + de g (e 2%nat) 0 i j l) / (- ki * beta)).
  { intros i' j' Hi' Hj'. assert (E := mode_e1 Hi' Hj'). unfold wg_curl_e, wg_curl in E. cbn [v2h] in E. rewrite <- E. field. all: repeat split; auto using kopp_neq0. }
  unfold wg_curl_e, wg_curl. cbn [v2h]. unfold op_dv. unfold de at 1 2. unfold roll_forward. cbn [pick].
  rewrite (E1 _ _ (mod_lt' Hi) Hj), (E1 _ _ Hi Hj), (E0 _ _ Hi (mod_lt' Hj)), (E0 _ _ Hi Hj).
  destruct (Hd0 Hi), (Hd1 Hj). unfold de, roll_forward. cbn [pick]. field [Hi2]. all: repeat split; auto using kopp_neq0.
Qed.
Lemma mode_e c i j : (c < 3)%nat -> (i < n0)%nat -> (j < n1)%nat -> wg_curl_e g beta e c i j l = - ki * omega * mu c i j l * h c i j l.
Proof. intros Hc Hi Hj. destruct c as [|[|[|]]]; [apply mode_e0|apply mode_e1|apply mode_e2|lia]; auto. Qed.
End Modes.
