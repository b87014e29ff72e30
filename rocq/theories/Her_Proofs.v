(** Proofs about HermiteParam. *)
From Coq Require Import Reals List.
From Coquelicot Require Import Coquelicot.
From Verif Require Import Base Her_Model Her_Spec.
From Coq Require Import Lia Lra.
Import ListNotations.
Open Scope R_scope.

Lemma map_seq_at (f : nat -> R) n i d : (i < n)%nat -> nth i (map f (seq 0 n)) d = f i.
Proof. intros H. rewrite (nth_indep _ d (f 0%nat)) by (now rewrite map_length, seq_length). now rewrite map_nth, seq_nth. Qed.
Lemma times_length n A v : length (times n A v) = n.
Proof. unfold times. now rewrite map_length, seq_length. Qed.
Lemma times_at n A v i : (i < n)%nat -> nth i (times n A v) 0 = dot 0 (A i) v.
Proof.
  intros H. unfold times. now rewrite map_seq_at.
Qed.
Lemma bump_length v j h : length (bump v j h) = length v.
Proof. unfold bump. now rewrite map_length, seq_length. Qed.
Lemma dot_seq row (f : nat -> R) s n : dot s row (map f (seq s n)) = fold_right Rplus 0 (map (fun t => row t * f t) (seq s n)).
Proof. revert s. induction n as [|n IH]; intros s; [reflexivity|]. cbn [seq map dot fold_right]. now rewrite IH. Qed.
Lemma list_seq (v : list R) : v = map (fun t => nth t v 0) (seq 0 (length v)).
Proof.
  apply nth_ext with (d := 0) (d' := 0); [now rewrite map_length, seq_length|]. intros i Hi.
  now rewrite map_seq_at.
Qed.
Lemma sum_delta (row f : nat -> R) j h s n : (s <= j < s + n)%nat ->
  fold_right Rplus 0 (map (fun t => row t * (f t + (if Nat.eqb t j then h else 0))) (seq s n))
  = fold_right Rplus 0 (map (fun t => row t * f t) (seq s n)) + row j * h.
Proof.
  assert (N : forall s n, (j < s)%nat -> fold_right Rplus 0 (map (fun t => row t * (f t + (if Nat.eqb t j then h else 0))) (seq s n)) = fold_right Rplus 0 (map (fun t => row t * f t) (seq s n))).
  { clear s n. intros s n. revert s. induction n as [|n IH]; intros s H; [reflexivity|]. cbn [seq map fold_right]. rewrite IH by lia. destruct (Nat.eqb_spec s j); [lia|]. ring. }
  revert s. induction n as [|n IH]; intros s H; [lia|]. cbn [seq map fold_right]. destruct (Nat.eqb_spec s j) as [->|Hn].
  - rewrite N by lia. ring.
  - rewrite IH by lia. ring.
Qed.
Lemma dot_bump row v j h : (j < length v)%nat -> dot 0 row (bump v j h) = dot 0 row v + row j * h.
Proof.
  intros H. rewrite (list_seq v) at 2. unfold bump. rewrite !dot_seq. apply (sum_delta row (fun t => nth t v 0)). lia.
Qed.
Lemma structure_length p : length (get_structure p) = h_fine p.
Proof. unfold get_structure. now rewrite map_length, times_length. Qed.
Lemma structure_at p i : (i < h_fine p)%nat -> nth i (get_structure p) 0 = 1 / (1 + exp (- h_k p * (2 * dot 0 (h_vec2f p i) (h_vector p) - 1))).
Proof.
  intros H. unfold get_structure. set (f := fun z => _). rewrite (nth_indep _ 0 (f 0)) by (now rewrite map_length, times_length).
  rewrite map_nth, times_at by exact H. reflexivity.
Qed.
Lemma sig_range u : 0 < 1 / (1 + exp u) < 1.
Proof.
  pose proof (exp_pos u). split; [apply Rdiv_lt_0_compat; Lra.lra|]. apply Rmult_lt_reg_r with (1 + exp u); [Lra.lra|]. unfold Rdiv. rewrite Rmult_assoc, Rinv_l by Lra.lra. Lra.lra.
Qed.
Lemma sig_half u : (u < 0 -> 1 / 2 < 1 / (1 + exp u)) /\ (0 < u -> 1 / (1 + exp u) < 1 / 2) /\ (u = 0 -> 1 / (1 + exp u) = 1 / 2).
Proof.
  pose proof (exp_pos u). repeat split; intros H'.
  - apply Rmult_lt_compat_l; [Lra.lra|]. apply Rinv_lt_contravar; [apply Rmult_lt_0_compat; Lra.lra|]. assert (exp u < exp 0) by (now apply exp_increasing). rewrite exp_0 in *. Lra.lra.
  - apply Rmult_lt_compat_l; [Lra.lra|]. apply Rinv_lt_contravar; [apply Rmult_lt_0_compat; Lra.lra|]. assert (exp 0 < exp u) by (now apply exp_increasing). rewrite exp_0 in *. Lra.lra.
  - subst u. rewrite exp_0. reflexivity.
Qed.
Lemma values_lemma p x : In x (get_structure p) -> 0 < x < 1.
Proof. unfold get_structure. intros H. apply in_map_iff in H. destruct H as (z & <- & _). apply sig_range. Qed.
Lemma half_lemma p i : (i < h_fine p)%nat -> let z := nth i (times (h_fine p) (h_vec2f p) (h_vector p)) 0 in let y := nth i (get_structure p) 0 in
  (0 < h_k p -> (1 / 2 < y <-> 1 / 2 < z) /\ (y < 1 / 2 <-> z < 1 / 2)) /\ (h_k p = 0 -> y = 1 / 2).
Proof.
  intros H z y. unfold y, z. rewrite structure_at, times_at by exact H. set (d := dot 0 (h_vec2f p i) (h_vector p)).
  destruct (sig_half (- h_k p * (2 * d - 1))) as (A & B & C). set (u := - h_k p * (2 * d - 1)) in *.
  split; [|intros E; apply C; unfold u; rewrite E; ring]. intros K.
  assert (S : (1 / 2 < d -> u < 0) /\ (d < 1 / 2 -> 0 < u) /\ (d = 1 / 2 -> u = 0)).
  { clear A B C. unfold u. clearbody d. clear u. split; [|split]; intros Hd.
    - assert (0 < h_k p * (2 * d - 1)) by (apply Rmult_lt_0_compat; Lra.lra). Lra.lra.
    - assert (0 < h_k p * (1 - 2 * d)) by (apply Rmult_lt_0_compat; Lra.lra). Lra.lra.
    - replace (2 * d - 1) with 0 by Lra.lra. ring. }
  destruct S as (S1 & S2 & S3). destruct (Rtotal_order d (1 / 2)) as [O|[O|O]].
  - specialize (B (S2 O)). split; split; intros; Lra.lra.
  - specialize (C (S3 O)). split; split; intros; Lra.lra.
  - specialize (A (S1 O)). split; split; intros; Lra.lra.
Qed.
Lemma gradient_lemma p i j : (i < h_fine p)%nat -> (j < length (h_vector p))%nat ->
  is_derive (fun h => nth i (get_structure (set_vector p (bump (h_vector p) j h))) 0) 0 (gradient p i j).
Proof.
  intros Hi Hj. unfold gradient. rewrite times_at by exact Hi. set (d := dot 0 (h_vec2f p i) (h_vector p)). set (a := h_vec2f p i j). set (k := h_k p).
  apply (is_derive_ext (fun h => 1 / (1 + exp (- k * (2 * (d + a * h) - 1))))).
  { intros h. rewrite structure_at by exact Hi. cbn [set_vector h_k h_vec2f h_vector]. now rewrite dot_bump by exact Hj. }
  auto_derive.
  - match goal with |- context [exp ?x] => pose proof (exp_pos x) end. Lra.lra.
  - rewrite Rmult_0_r, Rplus_0_r. replace (2 * d + - (1)) with (2 * d - 1) by ring. pose proof (exp_pos (- k * (2 * d - 1))). field. Lra.lra.
Qed.
Lemma clip_in lo up t : lo <= up -> lo <= Rmin (Rmax t lo) up <= up.
Proof. intros H. unfold Rmin, Rmax. destruct (Rle_dec t lo), (Rle_dec _ up); Lra.lra. Qed.
Lemma clip_id lo up t : lo <= t <= up -> Rmin (Rmax t lo) up = t.
Proof. intros H. unfold Rmin, Rmax. destruct (Rle_dec t lo), (Rle_dec _ up); Lra.lra. Qed.
Lemma project_in p : h_lower p <= h_upper p -> in_bounds (h_lower p) (h_upper p) (to_vector (project p)).
Proof. intros H x Hx. unfold to_vector, project in Hx. cbn [set_vector h_vector] in Hx. apply in_map_iff in Hx. destruct Hx as (t & <- & _). now apply clip_in. Qed.
Lemma clip_list lo up v : in_bounds lo up v -> map (fun t => Rmin (Rmax t lo) up) v = v.
Proof. intros H. rewrite <- (map_id v) at 2. apply map_ext_in. intros x Hx. now apply clip_id, H. Qed.
