(** Lemmas about rendering, second part: the affected cells and the weights. *)
From Verif Require Import QTac Grid_Model Grid_Proofs Raster_Model Raster_Spec Raster_Proofs Raster2_Model Raster2_Spec Raster2_Proofs3 Layer_Model Layer_Spec.
Set Implicit Arguments.
Open Scope Q_scope.

Lemma increasing_step g : (forall i, (i + 1 < length g)%nat -> qn g i < qn g (i + 1)) -> increasing g.
Proof.
  intros H i j [Hij Hj]. induction j as [|j IH]; [lia|]. destruct (Nat.eq_dec i j) as [->|].
  - specialize (H j). rewrite Nat.add_1_r in H. apply H. lia.
  - specialize (H j). rewrite Nat.add_1_r in H. apply (Qlt_trans _ (qn g j)); [apply IH; lia|apply H; lia].
Qed.

Lemma nth_skipn_own (l : list Q) n i : nth i (skipn n l) 0 = nth (n + i) l 0.
Proof. revert l. induction n as [|n IH]; intros [|x l]; cbn [skipn]; try reflexivity; [now destruct i|]. apply IH. Qed.

Section axis.
Variable a : axis.
Hypothesis OK : axis_ok a.
Notation e := (a_edges a). Notation N := (num_cells a).
Notation d := (dxyz_with_ghost (a_edges a) (a_periodic a)).
Notation pE := (shifted_edges (a_edges a) (a_periodic a) false (a_shift a)).
Notation cE := (cell_edges a).
Lemma e_inc : increasing e. Proof. apply OK. Qed.
Lemma e_len : length e = S N /\ (1 <= N)%nat. Proof. destruct OK as ((_ & H) & _). unfold num_cells. lia. Qed.
Lemma d_pos i : (i <= N)%nat -> 0 < qn d i.
Proof.
  destruct e_len as [E1 E2]. pose proof e_inc as He. intros Hi. destruct (Nat.eq_dec i N) as [->|Hn].
  - unfold num_cells. rewrite ghost_last by lia. apply ghost_pos; [assumption|lia].
  - rewrite ghost_nth by lia. assert (qn e i < qn e (S i)) by (apply He; lia). lra.
Qed.
Lemma d_step i : (i < N)%nat -> qn d i = qn e (S i) - qn e i.
Proof. intros Hi. apply ghost_nth. unfold num_cells in Hi. assumption. Qed.
Lemma e_step i : (i < N)%nat -> qn e i < qn e (S i).
Proof. intros Hi. destruct e_len as [E1 E2]. apply e_inc. lia. Qed.
Lemma shifted_le s i : 0 <= s -> s < 1 -> (i < N)%nat -> qn e i <= qn e i + qn d i * s /\ qn e i + qn d i * s < qn e (S i).
Proof. intros H0 H1 Hi. pose proof (e_step Hi). rewrite d_step by assumption. split; nra. Qed.
Lemma shifted_ge s i : 0 <= s -> (i <= N)%nat -> qn e i <= qn e i + qn d i * s.
Proof. intros H0 Hi. pose proof (d_pos Hi). nra. Qed.
Lemma pE_len : length pE = S N.
Proof. destruct e_len as [E1 _]. unfold shifted_edges. cbn [andb]. now rewrite map_length, seq_length. Qed.
Lemma pE_nth i : (i <= N)%nat -> qn pE i = qn e i + qn d i * a_shift a.
Proof. destruct e_len as [E1 _]. intros Hi. unfold shifted_edges. cbn [andb]. rewrite map_seq_nth by lia. reflexivity. Qed.
Lemma pE_inc : increasing pE.
Proof.
  destruct OK as (_ & (H0 & H1) & _). apply increasing_step. rewrite pE_len. intros i Hi. rewrite !pE_nth by lia. rewrite Nat.add_1_r.
  destruct (@shifted_le (a_shift a) i H0 H1 ltac:(lia)). pose proof (@shifted_ge (a_shift a) (S i) H0 ltac:(lia)). lra.
Qed.
Lemma cE_cases : (a_comp a == 0 /\ length cE = S N /\ forall i, (i <= N)%nat -> qn cE i == qn e i) \/
  (0 < a_comp a /\ a_shift a <= a_comp a /\ a_comp a < 1 /\ length cE = S (S N) /\ qn cE 0 < qn e 0 /\ forall i, (i <= N)%nat -> qn cE (S i) = qn e i + qn d i * a_comp a).
Proof.
  destruct e_len as [E1 E2]. destruct OK as (_ & _ & [H|(H1 & H2 & H3)]); [left|right]; unfold cell_edges, shifted_edges; cbn [andb].
  - assert (Qeq_bool (a_comp a) 0 = true) as -> by now apply Qeq_bool_iff. cbn [negb]. rewrite map_length, seq_length. split; [assumption|]. split; [assumption|].
    intros i Hi. rewrite map_seq_nth by lia. rewrite H. ring.
  - assert (Qeq_bool (a_comp a) 0 = false) as ->. { destruct (Qeq_bool (a_comp a) 0) eqn:E; [|reflexivity]. apply Qeq_bool_iff in E. lra. }
    cbn [negb]. split; [assumption|]. split; [assumption|]. split; [assumption|]. cbn [length]. rewrite map_length, seq_length. split; [lia|]. split.
    + change (qn ((qn e 0 - qlast d * a_comp a) :: map (fun i => qn e i + qn d i * a_comp a) (seq 0 (length e))) 0) with (qn e 0 - qlast d * a_comp a).
      assert (0 < qlast d). { unfold qlast. rewrite ghost_length by lia. apply d_pos. unfold num_cells. lia. } nra.
    + intros i Hi. change (qn ((qn e 0 - qlast d * a_comp a) :: map (fun i => qn e i + qn d i * a_comp a) (seq 0 (length e))) (S i)) with (qn (map (fun i => qn e i + qn d i * a_comp a) (seq 0 (length e))) i).
      rewrite map_seq_nth by lia. reflexivity.
Qed.
Lemma cE_len : (S N <= length cE)%nat.
Proof. destruct cE_cases as [(_ & E & _)|(_ & _ & _ & E & _)]; lia. Qed.
Lemma cE_inc : increasing cE.
Proof.
  destruct e_len as [E1 E2]. apply increasing_step. destruct cE_cases as [(_ & E & H)|(H1 & H2 & H3 & E & H0 & H)]; rewrite E; intros i Hi.
  - rewrite !H by lia. rewrite Nat.add_1_r. apply e_step. lia.
  - rewrite Nat.add_1_r. destruct i as [|i].
    + rewrite H by lia. pose proof (@shifted_ge (a_comp a) 0 ltac:(lra) ltac:(lia)). lra.
    + rewrite !H by lia. destruct (@shifted_le (a_comp a) i ltac:(lra) H3 ltac:(lia)). pose proof (@shifted_ge (a_comp a) (S i) ltac:(lra) ltac:(lia)). lra.
Qed.
Lemma cE_upper i : (i < N)%nat -> qn cE (i + 1) <= qn pE (i + 1).
Proof.
  destruct OK as (_ & (S0 & S1) & _). intros Hi. rewrite Nat.add_1_r. rewrite pE_nth by lia. pose proof (@shifted_ge (a_shift a) (S i) S0 ltac:(lia)) as G.
  destruct cE_cases as [(_ & E & H)|(H1 & H2 & H3 & E & H0 & H)].
  - rewrite H by lia. assumption.
  - rewrite H by lia. destruct (@shifted_le (a_comp a) i ltac:(lra) H3 Hi). lra.
Qed.
Lemma cE_lower i : (i < N)%nat -> qn pE i <= qn cE (S i).
Proof.
  destruct OK as (_ & (S0 & S1) & _). intros Hi. rewrite pE_nth by lia.
  destruct cE_cases as [(_ & E & H)|(H1 & H2 & H3 & E & H0 & H)]; rewrite H by lia.
  - destruct (@shifted_le (a_shift a) i S0 S1 Hi). lra.
  - pose proof (@d_pos i ltac:(lia)). nra.
Qed.

Variables lo hi : Q.
Hypothesis Hlh : lo <= hi.
Lemma digitize_mono g : increasing g -> (digitize lo g <= digitize hi g)%nat.
Proof.
  intros G. destruct (le_lt_dec (digitize lo g) (digitize hi g)) as [|H]; [assumption|]. exfalso.
  pose proof (digitize_le lo g). assert (K : qn g (digitize hi g) <= lo) by (apply digitize_spec; [assumption|lia|lia]).
  assert (qn g (digitize hi g) <= hi) by lra. apply digitize_spec in H1; [lia|assumption|lia].
Qed.
Lemma corners_range : (fst (corners a lo hi) <= snd (corners a lo hi))%nat /\ (snd (corners a lo hi) < N)%nat.
Proof.
  destruct e_len as [_ HN]. unfold corners, cell_index. cbn [fst snd]. rewrite pE_len. pose proof (digitize_mono pE_inc). lia.
Qed.
Lemma slice_nth t : (fst (corners a lo hi) + t <= snd (corners a lo hi) + 1)%nat -> qn (edge_slice a lo hi) t = qn cE (fst (corners a lo hi) + t).
Proof.
  pose proof corners_range as [C1 C2]. unfold edge_slice, cell_edges. destruct (corners a lo hi) as [j m]. cbn [fst snd] in *. intros Ht.
  assert (Hf : Nat.min (m + 1) (comp_shape a - 1) = (m + 1)%nat) by (unfold comp_shape; destruct (Qeq_bool _ _); lia).
  rewrite Hf. rewrite firstn_qn by lia. unfold qn. rewrite nth_skipn_own. reflexivity.
Qed.
Lemma slice_len : length (edge_slice a lo hi) = (snd (corners a lo hi) + 2 - fst (corners a lo hi))%nat.
Proof.
  pose proof corners_range as [C1 C2]. pose proof cE_len as L. unfold edge_slice. fold cE. unfold cell_edges in *. destruct (corners a lo hi) as [j m]. cbn [fst snd] in *.
  assert (Hf : Nat.min (m + 1) (comp_shape a - 1) = (m + 1)%nat) by (unfold comp_shape; destruct (Qeq_bool _ _); lia).
  rewrite Hf, firstn_length, skipn_length. lia.
Qed.
Lemma slice_ok : grid_ok (edge_slice a lo hi).
Proof.
  pose proof corners_range as [C1 C2]. pose proof cE_len as L. split; [|rewrite slice_len; lia].
  intros i j [Hij Hj]. rewrite slice_len in Hj. rewrite !slice_nth by lia. apply cE_inc. lia.
Qed.
(** cells outside the affected ones do not meet the interval *)
Lemma unaffected n : (n < N)%nat -> (n < fst (corners a lo hi))%nat \/ (snd (corners a lo hi) < n)%nat ->
  qn cE (n + 1) <= lo \/ hi <= qn cE n.
Proof.
  destruct e_len as [_ HN]. unfold corners, cell_index. cbn [fst snd]. rewrite pE_len. intros Hn [H|H].
  - left. apply (Qle_trans _ (qn pE (n + 1))); [now apply cE_upper|]. apply digitize_spec; [apply pE_inc|rewrite pE_len; lia|lia].
  - right. set (m := Nat.min (Nat.pred (digitize hi pE)) (S N - 2)) in *.
    assert (Hm : (m + 2 <= n)%nat) by lia. assert (K : hi < qn pE (m + 1)).
    { apply Qnot_le_lt. intros K. apply digitize_spec in K; [lia|apply pE_inc|rewrite pE_len; lia]. }
    assert (qn pE (m + 1) <= qn cE (S (m + 1))) by (apply cE_lower; lia).
    assert (qn cE (S (m + 1)) <= qn cE n) by (apply (increasing_le cE_inc); pose proof cE_len; lia). lra.
Qed.
End axis.
