(** The classes of the library, and constancy flags. *)
From Coq Require Import QArith String ZArith Lqa.
From Verif Require Import Base Flow_Model Flow_Spec Flow_Proofs.
Set Implicit Arguments.
Local Open Scope nat_scope.
Local Open Scope string_scope.

(** *** the classes of the library *)
Definition order (c : nat) : list nat :=
  match c with 0 => [0] | 1 => [1; 0] | 2 => [2; 0] | 3 => [3; 2; 0] | 4 => [4; 2; 0] | 5 => [5; 2; 0] | _ => [6; 2; 1; 0] end.
Lemma lib_cases (P : nat -> Prop) : P 0 -> P 1 -> P 2 -> P 3 -> P 4 -> P 5 -> P 6 -> forall c, c <= 6 -> P c.
Proof. intros. do 7 (destruct c as [|c]; [assumption|]). lia. Qed.
Lemma lib_lineage c : c <= 6 -> lineage goos_classes c (order c).
Proof.
  revert c. apply lib_cases; (split; [reflexivity|]); intros k Hk; simpl in Hk;
    repeat (destruct Hk as [<- | Hk]; [eexists; reflexivity|]); contradiction.
Qed.
Lemma lib_fields c f : c <= 6 ->
  (In f (flat_map (fields_of goos_classes) (order c)) <-> In f (inherited c ++ own_fields c)).
Proof.
  revert c. apply lib_cases; cbn; tauto.
Qed.
Lemma lib_times c f : c <= 6 -> times goos_classes (order c) f =
  if in_dec string_dec f (inherited c) then 2 else if in_dec string_dec f (own_fields c) then 1 else 0.
Proof.
  intros Hc.
  destruct (in_dec string_dec f (inherited c ++ own_fields c)) as [Hf|Hf].
  - revert c Hc Hf. refine (lib_cases _ _ _ _ _ _ _ _); cbn [inherited own_fields app In]; intros Hf;
      repeat (destruct Hf as [<- | Hf]; [vm_compute; reflexivity|]); contradiction.
  - destruct (in_dec string_dec f (inherited c)) as [H|_]; [exfalso; apply Hf, in_or_app; now left|].
    destruct (in_dec string_dec f (own_fields c)) as [H|_]; [exfalso; apply Hf, in_or_app; now right|].
    apply count_occ_not_In. intros H. apply Hf. now apply lib_fields.
Qed.
Lemma lib_shaped c sh g : c <= 6 ->
  (shaped c (inherited c ++ own_fields c) sh g <-> shaped c (flat_map (fields_of goos_classes) (order c)) sh g).
Proof.
  intros Hc. unfold shaped. split; intros [H1 H2]; (split; [exact H1|]); intros f Hf; apply H2, (lib_fields f Hc), Hf.
Qed.
Theorem lib_accumulate c sh g gs : c <= 6 ->
  shaped c (inherited c ++ own_fields c) sh g -> Forall (shaped c (inherited c ++ own_fields c) sh) gs ->
  exists r, accumulate goos_classes g gs = Ok r /\ shaped c (inherited c ++ own_fields c) sh r /\
    (forall f i, In f (inherited c) -> (entry r f i == entry g f i + 2 * total f i gs)%Q) /\
    (forall f i, In f (own_fields c) -> (entry r f i == entry g f i + total f i gs)%Q).
Proof.
  intros Hc Hg Hgs.
  destruct (@accumulate_times goos_classes c (order c) sh gs (lib_lineage Hc) g) as (r & E & S1 & Q1).
  { now apply lib_shaped. }
  { eapply Forall_impl; [|exact Hgs]. intros a Ha. now apply lib_shaped. }
  exists r. split; [exact E|]. split; [now apply lib_shaped|]. split; intros f i Hf; rewrite Q1, lib_times by exact Hc.
  - destruct (in_dec string_dec f (inherited c)); [reflexivity|contradiction].
  - destruct (in_dec string_dec f (inherited c)) as [H|_].
    + exfalso. revert c Hc Hg Hgs E S1 Q1 Hf H.
      refine (lib_cases _ _ _ _ _ _ _ _); cbn; intros _ _ _ _ _ Hf H;
        repeat (destruct H as [<- | H]; [repeat (destruct Hf as [Hf|Hf]; [discriminate Hf|]); contradiction|]); contradiction.
    + destruct (in_dec string_dec f (own_fields c)); [|contradiction]. unfold nq. simpl. ring.
Qed.

(** *** gradients that are missing *)
(** adding to the gradient that stands for zero *)
Theorem zero_grad_iadd l : List.length l <> 1 ->
  gval_iadd (Vec [0%Q]) (Vec l) = Err ValueError /\ forall r, gval_iadd (Vec l) (Vec [0%Q]) = Ok r ->
    exists r', r = Vec r' /\ List.length r' = List.length l /\ forall i, (nth i r' 0 == nth i l 0)%Q.
Proof.
  intros H. split.
  - unfold gval_iadd. cbn [List.length]. apply Nat.eqb_neq in H as H'. rewrite H'.
    destruct l as [|a [|b l]]; [reflexivity|now simpl in H|reflexivity].
  - intros r. unfold gval_iadd. cbn [List.length]. destruct (Nat.eqb 1 (List.length l)) eqn:E.
    + apply Nat.eqb_eq in E. congruence.
    + intros Hr. inversion Hr; subst. eexists. split; [reflexivity|]. split; [apply map_length|].
      intros i. revert i. clear. induction l as [|a l IH]; intros [|i]; simpl; try reflexivity; [ring|apply IH].
Qed.
