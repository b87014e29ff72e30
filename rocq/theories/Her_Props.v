(** Theorems about HermiteParam (C166, C167). *)
From Coq Require Import Reals List.
From Coquelicot Require Import Coquelicot.
From Verif Require Import Base Her_Model Her_Spec Her_Proofs.
From Coq Require Import Lia Lra.
Import ListNotations.
Open Scope R_scope.

(** *** C166: values and gradient *)
(** values strictly between 0 and 1, one for each fine point *)
Theorem hermite_values p : length (get_structure p) = h_fine p /\ forall x, In x (get_structure p) -> 0 < x < 1.
Proof. split; [apply structure_length|apply values_lemma]. Qed.
(** with a positive k they are on the same side of 1/2 as the interpolated values; with k = 0 all
    are 1/2, unlike CubicParam, where k = 0 gives the interpolated values *)
Theorem hermite_sides p i : (i < h_fine p)%nat ->
  let z := nth i (times (h_fine p) (h_vec2f p) (h_vector p)) 0 in let y := nth i (get_structure p) 0 in
  (0 < h_k p -> (1 / 2 < y <-> 1 / 2 < z) /\ (y < 1 / 2 <-> z < 1 / 2)) /\ (h_k p = 0 -> y = 1 / 2).
Proof. exact (half_lemma p i). Qed.
(** the gradient holds the partial derivatives of the structure *)
Theorem hermite_gradient p i j : (i < h_fine p)%nat -> (j < length (h_vector p))%nat ->
  is_derive (fun h => nth i (get_structure (set_vector p (bump (h_vector p) j h))) 0) 0 (gradient p i j).
Proof. exact (gradient_lemma p i j). Qed.

(** *** C167: vectors *)
(** a number fills the vector; an array has the length of the vector, or the number of rows of
    the geometry matrix and is reduced; everything else is refused *)
Theorem hermite_decode p x :
  match x with
  | Scalar c => exists q, decode p x = Ok q /\ length (to_vector q) = h_cols p /\ forall y, In y (to_vector q) -> y = c
  | Array l =>
      (length l = h_cols p -> exists q, decode p x = Ok q /\ to_vector q = l) /\
      (length l <> h_cols p -> length l = h_rows p -> exists q, decode p x = Ok q /\ length (to_vector q) = h_cols p /\
         forall i, (i < h_cols p)%nat -> nth i (to_vector q) 0 = dot 0 (h_reverse p i) l) /\
      (length l <> h_cols p -> length l <> h_rows p -> decode p x = Err ValueError)
  end.
Proof.
  destruct x as [c|l]; unfold decode.
  - eexists. split; [reflexivity|]. unfold to_vector. cbn [set_vector h_vector]. split; [apply repeat_length|]. intros y Hy. now apply repeat_spec in Hy.
  - split; [|split].
    + intros ->. rewrite Nat.eqb_refl. eexists. split; reflexivity.
    + intros H1 H2. destruct (Nat.eqb_spec (length l) (h_cols p)); [contradiction|]. rewrite H2, Nat.eqb_refl. eexists. split; [reflexivity|].
      unfold to_vector. cbn [set_vector h_vector]. split; [apply times_length|]. intros i Hi. now apply times_at.
    + intros H1 H2. destruct (Nat.eqb_spec (length l) (h_cols p)); [contradiction|]. destruct (Nat.eqb_spec (length l) (h_rows p)); [contradiction|]. reflexivity.
Qed.
(** the constructor accepts the same and values at the coarse points without derivatives *)
Theorem hermite_initial init cols rows dcols fine reverse der vec2f lower upper bounds :
  (exists p, hermite_param init cols rows dcols fine reverse der vec2f lower upper bounds = Ok p) \/
  (exists l, init = Array l /\ length l <> cols /\ length l <> rows /\ length l <> dcols /\
   hermite_param init cols rows dcols fine reverse der vec2f lower upper bounds = Err ValueError).
Proof.
  unfold hermite_param. destruct (match bounds with Some b => b | None => (lower, upper) end) as [lo up]. destruct init as [c|l]; [left; cbn [bind]; eauto|].
  destruct (Nat.eqb_spec (length l) cols); [left; cbn [bind]; eauto|]. destruct (Nat.eqb_spec (length l) rows); [left; cbn [bind]; eauto|].
  destruct (Nat.eqb_spec (length l) dcols); [left; cbn [bind]; eauto|]. right. exists l. auto.
Qed.
Theorem hermite_constructed init cols rows dcols fine reverse der vec2f lower upper bounds p :
  hermite_param init cols rows dcols fine reverse der vec2f lower upper bounds = Ok p ->
  length (to_vector p) = cols /\ h_k p = 4 /\ (h_lower p, h_upper p) = match bounds with Some b => b | None => (lower, upper) end /\
  match init with
  | Scalar c => to_vector p = repeat c cols
  | Array l => (length l = cols -> to_vector p = l) /\
               (length l <> cols -> length l = rows -> to_vector p = times cols reverse l) /\
               (length l <> cols -> length l <> rows -> to_vector p = times cols reverse (times rows der l))
  end.
Proof.
  unfold hermite_param. destruct (match bounds with Some b => b | None => (lower, upper) end) as [lo up]. destruct init as [c|l].
  - cbn [bind]. intros E. injection E as <-. unfold to_vector. cbn. rewrite repeat_length. auto.
  - destruct (Nat.eqb_spec (length l) cols); [|destruct (Nat.eqb_spec (length l) rows); [|destruct (Nat.eqb_spec (length l) dcols)]]; cbn [bind]; intros E; try discriminate;
      injection E as <-; unfold to_vector; cbn [h_vector h_k h_lower h_upper]; rewrite ?times_length; repeat split; congruence || (intros; contradiction) || auto.
Qed.
(** from_vector keeps within the bounds, and keeps a vector that is within them *)
Theorem hermite_bounded p x q : h_lower p <= h_upper p -> from_vector p x = Ok q ->
  in_bounds (h_lower p) (h_upper p) (to_vector q) /\
  (forall l, x = Array l -> length l = h_cols p -> in_bounds (h_lower p) (h_upper p) l -> to_vector q = l).
Proof.
  intros H E. unfold from_vector in E. destruct (decode p x) as [r|e] eqn:D; [|discriminate]. cbn [bind] in E. injection E as <-.
  assert (B : h_lower r = h_lower p /\ h_upper r = h_upper p).
  { unfold decode in D. destruct x as [c|l]; [injection D as <-; auto|]. destruct (Nat.eqb _ _); [injection D as <-; auto|]. destruct (Nat.eqb _ _); [injection D as <-; auto|discriminate]. }
  destruct B as [B1 B2]. split.
  - rewrite <- B1, <- B2. apply project_in. now rewrite B1, B2.
  - intros l -> L I. unfold decode in D. rewrite L, Nat.eqb_refl in D. injection D as <-. unfold to_vector, project. cbn [set_vector h_vector h_lower h_upper]. now apply clip_list.
Qed.
(** saving and loading into an object of the same shape and bounds restores vector and k, if the
    vector is within the bounds *)
Theorem hermite_saved p q : length (to_vector p) = h_cols q -> in_bounds (h_lower q) (h_upper q) (to_vector p) ->
  exists r, deserialize q (serialize p) = Ok r /\ to_vector r = to_vector p /\ h_k r = h_k p /\ get_structure r = get_structure (set_k (set_vector q (to_vector p)) (h_k p)).
Proof.
  intros L I. unfold deserialize, serialize. cbn [fst snd]. unfold from_vector, decode. rewrite L, Nat.eqb_refl. cbn [bind]. eexists. split; [reflexivity|].
  unfold project. cbn [set_vector h_vector h_lower h_upper]. rewrite (clip_list _ _ _ I). repeat split; reflexivity.
Qed.
(** a vector outside of them, which the constructor takes, is changed by saving and loading *)
Theorem hermite_saved_refuted : exists p r, hermite_param (Array [2]) 1 4 1 1 (fun _ _ => 1) (fun _ _ => 1) (fun _ _ => 1) 0 1 None = Ok p /\
  deserialize p (serialize p) = Ok r /\ to_vector p = [2] /\ to_vector r = [1].
Proof.
  eexists. eexists. split; [reflexivity|]. split; [reflexivity|]. split; [reflexivity|]. unfold to_vector, project. cbn [set_k set_vector h_vector h_lower h_upper map fst serialize to_vector].
  f_equal. unfold Rmin, Rmax. destruct (Rle_dec 2 0); [lra|]. destruct (Rle_dec 2 1); lra.
Qed.
(** optimizers are told that there are no bounds, although from_vector applies them: the objective
    they evaluate at a vector outside of the bounds is the one at another vector *)
Theorem hermite_bounds_refuted : exists p q v, get_bounds p = None /\ from_vector p (Array v) = Ok q /\ to_vector q <> v.
Proof.
  exists (HParam 1 4 (fun _ _ => 1) 1 (fun _ _ => 1) [0] 4 0 1). eexists. exists [2]. split; [reflexivity|]. split; [reflexivity|].
  unfold to_vector, project. cbn [set_vector h_vector h_lower h_upper map]. intros E. injection E as E. revert E. unfold Rmin, Rmax. destruct (Rle_dec 2 0); [lra|]. destruct (Rle_dec 2 1); lra.
Qed.

(** *** examples *)
Definition ex : hparam := HParam 2 8 (fun i j => if Nat.eqb i j then 1 else 0) 3 (fun i j => if Nat.eqb i j then 1 else 1 / 4) [1; 0] 4 0 1.
Example hermite_ex1 : 0 < h_k ex /\ (2 < h_fine ex)%nat /\ (1 < length (h_vector ex))%nat /\ h_lower ex <= h_upper ex /\ length (to_vector ex) = h_cols ex /\ in_bounds (h_lower ex) (h_upper ex) (to_vector ex).
Proof. cbn. repeat split; try lia; try lra; destruct H as [<-|[<-|[]]]; lra. Qed.
Example hermite_ex2 : 1 / 2 < nth 0 (get_structure ex) 0 /\ nth 1 (get_structure ex) 0 < 1 / 2.
Proof.
  split; [apply (proj1 (hermite_sides ex 0 ltac:(cbn; lia)))|apply (proj1 (hermite_sides ex 1 ltac:(cbn; lia)))]; cbn; lra.
Qed.
Example hermite_ex3 : decode ex (Array [1; 2; 3]) = Err ValueError /\ exists q, from_vector ex (Array [1 / 2; 1 / 3]) = Ok q.
Proof. split; [reflexivity|]. eexists. reflexivity. Qed.

Print Assumptions hermite_values. Print Assumptions hermite_sides. Print Assumptions hermite_gradient. Print Assumptions hermite_decode. Print Assumptions hermite_initial.
Print Assumptions hermite_constructed. Print Assumptions hermite_bounded. Print Assumptions hermite_saved. Print Assumptions hermite_saved_refuted. Print Assumptions hermite_bounds_refuted.
