(** Rational helpers: executable minimum and maximum, list access, case analysis. *)
From Coq Require Export QArith Lqa.
From Verif Require Export Base.
Set Implicit Arguments.
Open Scope Q_scope.

Definition qmin (a b : Q) : Q := if Qle_bool a b then a else b.
Definition qmax (a b : Q) : Q := if Qle_bool a b then b else a.
(** Python [a < b] *)
Definition qlt (a b : Q) : bool := negb (Qle_bool b a).

Lemma Qle_bool_false a b : Qle_bool a b = false <-> b < a.
Proof.
  split; intros H.
  - apply Qnot_le_lt. intros H1. apply Qle_bool_iff in H1. congruence.
  - destruct (Qle_bool a b) eqn:E; [|reflexivity]. apply Qle_bool_iff in E. apply Qlt_not_le in H. contradiction.
Qed.
Lemma qlt_true a b : qlt a b = true <-> a < b.
Proof. unfold qlt. rewrite negb_true_iff. apply Qle_bool_false. Qed.
Lemma qlt_false a b : qlt a b = false <-> b <= a.
Proof. unfold qlt. rewrite negb_false_iff. apply Qle_bool_iff. Qed.

Ltac qhyps := repeat match goal with
  | H : Qle_bool _ _ = true |- _ => apply Qle_bool_iff in H
  | H : Qle_bool _ _ = false |- _ => apply Qle_bool_false in H
  | H : qlt _ _ = true |- _ => apply qlt_true in H
  | H : qlt _ _ = false |- _ => apply qlt_false in H
  | H : Qeq_bool _ _ = true |- _ => apply Qeq_bool_iff in H
  end.
(** split on every executable comparison *)
Ltac qcase := unfold qmin, qmax in *; repeat match goal with
  | |- context[if Qle_bool ?a ?b then _ else _] => let E := fresh "E" in destruct (Qle_bool a b) eqn:E
  | H : context[if Qle_bool ?a ?b then _ else _] |- _ => let E := fresh "E" in destruct (Qle_bool a b) eqn:E
  | |- context[if qlt ?a ?b then _ else _] => let E := fresh "E" in destruct (qlt a b) eqn:E
  | H : context[if qlt ?a ?b then _ else _] |- _ => let E := fresh "E" in destruct (qlt a b) eqn:E
  end; qhyps.
Ltac qlra := qcase; try lra.

(** [l[i]], in range *)
Definition qn (l : list Q) (i : nat) : Q := nth i l 0.
(** [l[i] = v] *)
Fixpoint lset {A} (l : list A) (i : nat) (v : A) : list A :=
  match l, i with
  | [], _ => []
  | _ :: l', O => v :: l'
  | x :: l', S i' => x :: lset l' i' v
  end.
Lemma lset_length {A} : forall (l : list A) i v, length (lset l i v) = length l.
Proof. induction l; intros [|i] v; simpl; auto. Qed.
Lemma lset_nth {A} (d : A) : forall l i v j, (i < length l)%nat -> nth j (lset l i v) d = if Nat.eqb j i then v else nth j l d.
Proof.
  induction l as [|x l IH]; intros [|i] v [|j] H; simpl in *; try lia; try reflexivity.
  apply IH. lia.
Qed.
Fixpoint qsum (l : list Q) : Q := match l with [] => 0 | x :: l' => x + qsum l' end.
Lemma qsum_app a b : qsum (a ++ b) == qsum a + qsum b.
Proof. induction a as [|x a IH]; simpl; [ring|rewrite IH; ring]. Qed.

(** strictly increasing coordinates *)
Definition increasing (g : list Q) : Prop := forall i j, (i < j < length g)%nat -> qn g i < qn g j.
Definition nondecreasing (g : list Q) : Prop := forall i j, (i <= j < length g)%nat -> qn g i <= qn g j.
Lemma increasing_tail a g : increasing (a :: g) -> increasing g.
Proof. intros H i j Hij. apply (H (S i) (S j)). simpl. lia. Qed.
Lemma increasing_head a g i : increasing (a :: g) -> (i < length g)%nat -> a < qn g i.
Proof. intros H Hi. apply (H 0%nat (S i)). simpl. lia. Qed.
Lemma increasing_le g i j : increasing g -> (i <= j < length g)%nat -> qn g i <= qn g j.
Proof.
  intros H Hij. destruct (Nat.eq_dec i j) as [->|]; [apply Qle_refl|]. apply Qlt_le_weak, H. lia.
Qed.

(** np.digitize on increasing bins: the number of bins <= x *)
Definition digitize (x : Q) (g : list Q) : nat := length (filter (fun b => Qle_bool b x) g).
Lemma digitize_le x g : (digitize x g <= length g)%nat.
Proof. unfold digitize. induction g as [|a g IH]; simpl; [lia|]. destruct (Qle_bool a x); simpl; lia. Qed.
Lemma digitize_zero x : forall g, (forall i, (i < length g)%nat -> x < qn g i) -> digitize x g = 0%nat.
Proof.
  unfold digitize. induction g as [|a g IH]; intros H; simpl; [reflexivity|].
  assert (x < a) as Ha by (apply (H 0%nat); simpl; lia).
  assert (Qle_bool a x = false) as -> by now apply Qle_bool_false. apply IH. intros i Hi. apply (H (S i)). simpl. lia.
Qed.
Lemma digitize_spec x : forall g k, increasing g -> (k < length g)%nat -> ((k < digitize x g)%nat <-> qn g k <= x).
Proof.
  induction g as [|a g IH]; intros k Hg Hk; simpl in Hk; [lia|].
  unfold digitize. cbn [filter]. destruct (Qle_bool a x) eqn:Ea; qhyps.
  - cbn [length]. fold (digitize x g). destruct k as [|k]; [cbn; split; [auto|lia]|].
    change (qn (a :: g) (S k)) with (qn g k). rewrite <- IH; [lia|now apply increasing_tail in Hg|lia].
  - fold (digitize x g). assert (digitize x g = 0%nat) as ->.
    { apply digitize_zero. intros i Hi. pose proof (increasing_head Hg Hi). lra. }
    split; [lia|]. intros H. exfalso. assert (a <= qn (a :: g) k) by (apply (@increasing_le (a :: g) 0 k Hg); simpl; lia). lra.
Qed.

(** sum over 0..n-1 *)
Fixpoint sumn (n : nat) (f : nat -> Q) : Q := match n with O => 0 | S n' => sumn n' f + f n' end.
Lemma sumn_ext n f g : (forall i, (i < n)%nat -> f i == g i) -> sumn n f == sumn n g.
Proof. induction n as [|n IH]; intros H; simpl; [reflexivity|]. rewrite (H n), IH; [reflexivity| |lia]. intros; apply H; lia. Qed.
Lemma sumn_plus n f g : sumn n (fun i => f i + g i) == sumn n f + sumn n g.
Proof. induction n as [|n IH]; simpl; [ring|rewrite IH; ring]. Qed.
Lemma sumn_scale n k f : sumn n (fun i => k * f i) == k * sumn n f.
Proof. induction n as [|n IH]; simpl; [ring|rewrite IH; ring]. Qed.
Lemma sumn_zero n f : (forall i, (i < n)%nat -> f i == 0) -> sumn n f == 0.
Proof. intros H. induction n as [|n IH]; simpl; [reflexivity|]. rewrite (H n) by lia. rewrite IH; [ring|]. intros; apply H; lia. Qed.
Lemma sumn_single n k f : (k < n)%nat -> (forall i, (i < n)%nat -> i <> k -> f i == 0) -> sumn n f == f k.
Proof.
  induction n as [|n IH]; intros Hk H; [lia|]. simpl. destruct (Nat.eq_dec k n) as [->|Hne].
  - rewrite sumn_zero; [ring|]. intros i Hi. apply H; lia.
  - rewrite IH; [|lia|intros; apply H; lia]. rewrite (H n) by lia. ring.
Qed.
Lemma sumn_le n f g : (forall i, (i < n)%nat -> f i <= g i) -> sumn n f <= sumn n g.
Proof. induction n as [|n IH]; intros H; simpl; [apply Qle_refl|]. apply Qplus_le_compat; [apply IH; intros; apply H; lia|apply H; lia]. Qed.
Lemma sumn_swap n m (f : nat -> nat -> Q) : sumn n (fun i => sumn m (f i)) == sumn m (fun j => sumn n (fun i => f i j)).
Proof.
  induction n as [|n IH]; simpl.
  - symmetry. apply sumn_zero. reflexivity.
  - rewrite IH, <- sumn_plus. reflexivity.
Qed.
Lemma qsum_sumn l : qsum l == sumn (length l) (qn l).
Proof.
  induction l as [|x l IH] using rev_ind; [reflexivity|].
  rewrite qsum_app, app_length. cbn [length qsum]. rewrite Nat.add_1_r. cbn [sumn]. rewrite IH.
  unfold qn at 3. rewrite app_nth2, Nat.sub_diag by lia. cbn [nth].
  rewrite (@sumn_ext (length l) (qn (l ++ [x])) (qn l)); [ring|]. intros i Hi. unfold qn. now rewrite app_nth1.
Qed.
