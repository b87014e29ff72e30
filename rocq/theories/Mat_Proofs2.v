(** The tables. *)
From Verif Require Import QTac Mat_Data Mat_Model Mat_Spec Mat_Proofs.
From Coq Require Import Lia Qfield.
Set Implicit Arguments.

Lemma increasing_spec xs : increasing xs = true -> strictly_increasing xs.
Proof.
  unfold increasing. rewrite forallb_forall. intros H i Hi. apply qlt_true. apply (H i). apply in_seq. lia.
Qed.
Lemma energy_bounds lam lo hi e0 e1 : 0 < lo -> lo <= lam <= hi -> e0 * (hi * (1 # 1000000000)) <= hc -> hc <= e1 * (lo * (1 # 1000000000)) ->
  0 <= e0 -> 0 <= e1 -> e0 <= photon_energy lam <= e1.
Proof.
  intros Hlo Hl H0 H1 P0 P1. unfold photon_energy. set (q := lam * (1 # 1000000000)). assert (Q0 : 0 < q) by (unfold q; lra).
  assert (E : hc / q * q == hc) by (field; lra). set (e := hc / q) in *. 
  split; apply Qnot_lt_le; intros L.
  - assert (e * q < e0 * q) by nra. assert (e0 * q <= e0 * (hi * (1 # 1000000000))) by (unfold q; nra). lra.
  - assert (e1 * q < e * q) by nra. assert (e1 * (lo * (1 # 1000000000)) <= e1 * q) by (unfold q; nra). lra.
Qed.
(** everything to be checked about a table, between the positions a and b of the reversed lists *)
Definition table_check (En vs : list Q) (a b : nat) (lo hi v0 v1 : Q) : bool :=
  increasing (rev En) && Nat.eqb (length (rev vs)) (length (rev En)) && Nat.leb 2 (length (rev En)) && Nat.ltb a b && Nat.ltb b (length (rev En)) &&
  qlt 0 lo && Qle_bool 0 (nth a (rev En) 0) && Qle_bool 0 (nth b (rev En) 0) &&
  Qle_bool (nth a (rev En) 0 * (hi * (1 # 1000000000))) hc && Qle_bool hc (nth b (rev En) 0 * (lo * (1 # 1000000000))) &&
  forallb (fun v => Qle_bool v0 v && Qle_bool v v1) (firstn (S b - a) (skipn a (rev vs))).
Lemma table_lemma En vs a b lo hi v0 v1 lam : table_check En vs a b lo hi v0 v1 = true -> lo <= lam <= hi ->
  exists v, pchip (rev En) (rev vs) (photon_energy lam) = Ok v /\ v0 <= v <= v1.
Proof.
  unfold table_check. rewrite !Bool.andb_true_iff. intros ((((((((((H1 & H2) & H3) & H4) & H5) & H6) & H7) & H8) & H9) & H10) & H11) Hl.
  apply increasing_spec in H1. apply Nat.eqb_eq in H2. apply Nat.leb_le in H3. apply Nat.ltb_lt in H4, H5. apply qlt_true in H6. qhyps.
  apply (@pchip_range_lemma (rev En) (rev vs) H1 H2 H3 _ a b); [lia| |].
  - exact (energy_bounds H6 Hl H9 H10 H7 H8).
  - intros k Hk. rewrite forallb_forall in H11. specialize (H11 (nth k (rev vs) 0)).
    assert (I : In (nth k (rev vs) 0) (firstn (S b - a) (skipn a (rev vs)))).
    { assert (E : nth k (rev vs) 0 = nth (k - a) (firstn (S b - a) (skipn a (rev vs))) 0).
      { assert (L : (k - a < length (firstn (S b - a) (skipn a (rev vs))))%nat) by (rewrite firstn_length, skipn_length; lia).
        rewrite <- (app_nth1 _ (skipn (S b - a) (skipn a (rev vs))) 0 L). rewrite firstn_skipn.
        rewrite <- (firstn_skipn a (rev vs)) at 1. rewrite app_nth2; rewrite firstn_length, Nat.min_l by lia; [reflexivity|lia]. }
      rewrite E. apply nth_In. rewrite firstn_length, skipn_length. lia. }
    specialize (H11 I). apply Bool.andb_true_iff in H11. destruct H11. qhyps. split; assumption.
Qed.
Lemma lam_nonzero lo lam : 0 < lo -> lo <= lam -> Qeq_bool lam 0 = false.
Proof. intros H L. destruct (Qeq_bool lam 0) eqn:E; [|reflexivity]. apply Qeq_bool_iff in E. lra. Qed.
Lemma energy_lemma lam n k En Ek a b a' b' lo hi n0 n1 k0 k1 : table_check En n a b lo hi n0 n1 = true -> table_check Ek k a' b' lo hi k0 k1 = true -> lo <= lam <= hi ->
  exists n' k', interpolate_using_energy lam n k En Ek = Ok (n', k') /\ n0 <= n' <= n1 /\ k0 <= k' <= k1.
Proof.
  intros H1 H2 Hl. assert (L : 0 < lo).
  { unfold table_check in H1. rewrite !Bool.andb_true_iff in H1. destruct H1 as ((((((_ & H6) & _) & _) & _) & _) & _). now apply qlt_true in H6. }
  destruct (@table_lemma En n a b lo hi n0 n1 lam H1 Hl) as (n' & E1 & B1). destruct (@table_lemma Ek k a' b' lo hi k0 k1 lam H2 Hl) as (k' & E2 & B2).
  exists n', k'. unfold interpolate_using_energy. rewrite (@lam_nonzero lo lam L (proj1 Hl)), E1. cbn [bind]. rewrite E2. auto.
Qed.
(** the ranges: wavelengths in nm, n and k *)
Definition range_of (m : tabled) : Q * Q := match m with TSiO2 => (1 # 8, 499900) | TSi => (62 # 100, 250000) | TSi3N4 => (517 # 10, 12398 # 10) end.
Definition n_range (m : tabled) : Q * Q := match m with TSiO2 => (3563 # 10000, 500) | TSi => (255 # 1000, 35361 # 10000) | TSi3N4 => (611 # 1000, 2766 # 1000) end.
Definition k_max (m : tabled) : Q := match m with TSiO2 => 2936 # 1000 | TSi => 358 # 100 | TSi3N4 => 153 # 100 end.
Lemma tables_lemma m lam : fst (range_of m) <= lam <= snd (range_of m) ->
  exists n k, table_index m lam = Ok (n, k) /\ fst (n_range m) <= n <= snd (n_range m) /\ 0 <= k <= k_max m.
Proof.
  intros H. destruct m; unfold table_index.
  - apply (@energy_lemma lam SiO2_n SiO2_k SiO2_En SiO2_Ek 0 537 0 450 (1 # 8) 499900); [vm_compute; reflexivity..|exact H].
  - apply (@energy_lemma lam Si_n Si_k Si_En Si_Ek 0 286 0 347 (62 # 100) 250000); [vm_compute; reflexivity..|exact H].
  - apply (@energy_lemma lam Si3N4_n Si3N4_k Si3N4_eV Si3N4_eV 0 41 0 41 (517 # 10) (12398 # 10)); [vm_compute; reflexivity..|exact H].
Qed.
Lemma silica_near lam : (1 # 8) <= lam <= 12349 -> exists n k, table_index TSiO2 lam = Ok (n, k) /\ (3563 # 10000) <= n <= (2839 # 1000) /\ 0 <= k <= (2936 # 1000).
Proof. intros H. apply (@energy_lemma lam SiO2_n SiO2_k SiO2_En SiO2_Ek 38 537 0 450 (1 # 8) 12349); [vm_compute; reflexivity..|exact H]. Qed.
Lemma silica_far lam : 12500 <= lam <= 499900 -> exists n k, table_index TSiO2 lam = Ok (n, k) /\ (125 # 10) <= n <= 500 /\ 0 <= k <= (2936 # 1000).
Proof. intros H. apply (@energy_lemma lam SiO2_n SiO2_k SiO2_En SiO2_Ek 0 37 0 450 12500 499900); [vm_compute; reflexivity..|exact H]. Qed.
Lemma silica_very_far lam : 100000 <= lam <= 499900 -> exists n k, table_index TSiO2 lam = Ok (n, k) /\ 100 <= n <= 500 /\ 0 <= k <= (2936 # 1000).
Proof. intros H. apply (@energy_lemma lam SiO2_n SiO2_k SiO2_En SiO2_Ek 0 4 0 450 100000 499900); [vm_compute; reflexivity..|exact H]. Qed.
