(** The Gaussian rationals: a field with conjugation in which examples can be computed. *)
From Verif Require Import Base CField.
From Coq Require Import QArith Qcanon.
Set Implicit Arguments.
Local Open Scope Qc_scope.

Definition gauss := (Qc * Qc)%type.
Definition gadd (x y : gauss) : gauss := (fst x + fst y, snd x + snd y).
Definition gmul (x y : gauss) : gauss := (fst x * fst y - snd x * snd y, fst x * snd y + snd x * fst y).
Definition gopp (x : gauss) : gauss := (- fst x, - snd x).
Definition gsub (x y : gauss) : gauss := (fst x - fst y, snd x - snd y).
Definition gnorm (x : gauss) : Qc := fst x * fst x + snd x * snd x.
Definition ginv (x : gauss) : gauss := (fst x / gnorm x, - snd x / gnorm x).
Definition gdiv (x y : gauss) : gauss := gmul x (ginv y).
Definition gconj (x : gauss) : gauss := (fst x, - snd x).

Lemma qsq_nonneg (a : Qc) : 0 <= a * a.
Proof.
  assert (H : forall x : Qc, 0 <= x -> 0 <= x * x).
  { intros x Hx. replace 0 with (0 * x) by ring. now apply Qcmult_le_compat_r. }
  destruct (Qclt_le_dec a 0) as [Ha|Ha]; [|auto].
  replace (a * a) with ((- a) * (- a)) by ring. apply H. replace 0 with (- 0) by ring. apply Qcopp_le_compat. now apply Qclt_le_weak.
Qed.
Lemma gnorm_zero (x : gauss) : gnorm x = 0 -> x = (0, 0).
Proof.
  destruct x as [a b]. unfold gnorm; simpl. intros H.
  assert (Ha : a * a = 0).
  { apply Qcle_antisym; [|apply qsq_nonneg]. assert (E : a * a = - (b * b)) by (transitivity (a * a + b * b - b * b); [ring|rewrite H; ring]).
    rewrite E. replace 0 with (- 0)%Qc by ring. apply Qcopp_le_compat, qsq_nonneg. }
  assert (Hb : b * b = 0) by (rewrite Ha in H; rewrite <- H; ring).
  apply Qcmult_integral in Ha. apply Qcmult_integral in Hb. f_equal; tauto.
Qed.
Lemma gauss_field : field_theory (0, 0) (1, 0) gadd gmul gsub gopp gdiv ginv eq.
Proof.
  split; [split|..].
  - intros [a b]. unfold gadd; simpl; f_equal; ring.
  - intros [a b] [c d]. unfold gadd; simpl; f_equal; ring.
  - intros [a b] [c d] [e f]. unfold gadd; simpl; f_equal; ring.
  - intros [a b]. unfold gmul; simpl; f_equal; ring.
  - intros [a b] [c d]. unfold gmul; simpl; f_equal; ring.
  - intros [a b] [c d] [e f]. unfold gmul; simpl; f_equal; ring.
  - intros [a b] [c d] [e f]. unfold gmul, gadd; simpl; f_equal; ring.
  - intros [a b] [c d]. unfold gsub, gadd, gopp; simpl; f_equal; ring.
  - intros [a b]. unfold gadd, gopp; simpl; f_equal; ring.
  - discriminate.
  - reflexivity.
  - intros x Hx. assert (Hn : gnorm x <> 0) by (intros E; apply Hx, gnorm_zero, E). destruct x as [a b]. unfold gnorm in Hn; simpl in Hn.
    unfold gmul, ginv, gnorm; simpl; f_equal; field; auto.
Qed.
Definition G : cfield.
Proof.
  refine (@CField gauss (0, 0) (1, 0) gadd gmul gsub gopp gdiv ginv gconj (0, 1) gauss_field _ _ _ _ _).
  - intros [a b] [c d]. unfold gconj, gadd; simpl; f_equal; ring.
  - intros [a b] [c d]. unfold gconj, gmul; simpl; f_equal; ring.
  - intros [a b]. unfold gconj; simpl; f_equal; ring.
  - unfold gmul, gopp; simpl; f_equal; ring.
  - unfold gconj, gopp; simpl; f_equal; ring.
Defined.
(** small numbers: z + z' i *)
Definition gz (a b : Z) : G := (Q2Qc (inject_Z a), Q2Qc (inject_Z b)).
Definition geqb (x y : G) : bool := Qeq_bool (this (fst x)) (this (fst y)) && Qeq_bool (this (snd x)) (this (snd y)).
Lemma geqb_true x y : geqb x y = true -> x = y.
Proof.
  destruct x as [a b], y as [c d]. unfold geqb; simpl. intros H. apply andb_prop in H as [H1 H2].
  f_equal; apply Qc_is_canon; now apply Qeq_bool_iff.
Qed.
Lemma geqb_false x y : geqb x y = false -> x <> y.
Proof.
  intros H ->. unfold geqb in H. assert (E : forall q, Qeq_bool q q = true) by (intros; apply Qeq_bool_iff; reflexivity). now rewrite !E in H.
Qed.
Fixpoint gleqb (l m : list G) : bool :=
  match l, m with [], [] => true | x :: l, y :: m => geqb x y && gleqb l m | _, _ => false end.
Lemma gleqb_true l m : gleqb l m = true -> l = m.
Proof.
  revert m; induction l as [|x l IH]; intros [|y m] H; simpl in *; try discriminate; [reflexivity|].
  apply andb_prop in H as [H1 H2]. now rewrite (geqb_true _ _ H1), (IH m H2).
Qed.
Lemma geqb_refl x : geqb x x = true.
Proof. unfold geqb. assert (E : forall q, Qeq_bool q q = true) by (intros; apply Qeq_bool_iff; reflexivity). now rewrite !E. Qed.
Lemma gleqb_false l m : gleqb l m = false -> l <> m.
Proof. intros H ->. induction m as [|y m IH]; simpl in H; [discriminate|]. rewrite geqb_refl in H. auto. Qed.
