(** Proofs about photonic-crystal modes: products of modes, results of the solver. *)
From Verif Require Import Base CField CField_Proofs Maxwell_Model Maxwell_Spec Maxwell_Proofs Maxwell_Proofs2 Maxwell_Proofs3 Phc_Model Phc_Spec Phc_Proofs.
Set Implicit Arguments.

Section M.
Variable K : cfield.
Local Open Scope K_scope.
Add Field Kfield2 : (k_field K).
Variable g : grid K.
Variable ph : phases K.
Local Notation n := (cellsn g).
Local Notation N := (vlen g).
Local Notation ce := (curl_e g (ue ph) (we ph)).
Local Notation ch := (curl_h g (uh ph) (wh ph)).
Local Notation pmul := (pmul g).
Local Notation p2 := (at_ (vec g (p_squared g))).
Local Notation hw := (at_ (vec g (h_volume g))).
Implicit Types (E H v : list K) (eps : nat -> K).

Section Pairing.
Hypothesis Hnz : nonzero_cells g.
Hypothesis Hr : real_cells g.
Hypothesis Hph : real_bloch ph.

Lemma conj_curl_e i k : (i < N)%nat -> (k < N)%nat -> kconj (ce i k) = curl_e g (wh ph) (uh ph) i k.
Proof.
  intros Hi Hk. unfold curl_e. symmetry. apply (@conj_cross K g (deriv_forward g (ue ph) (we ph)) (deriv_forward g (wh ph) (uh ph))); auto.
  intros a t j Ha Ht. rewrite !deriv_forward_entry by auto.
  destruct (Hr (a:=a) (i:=coord g a t) Ha (coord_lt g Ha Ht)) as [E _].
  destruct (Hnz (a:=a) (i:=coord g a t) Ha (coord_lt g Ha Ht)) as [E' _].
  rewrite kconj_mul, kconj_div, kconj_1, kconj_sub, !conj_if, kconj_0, kconj_1, E by auto.
  unfold Maxwell_Proofs.fd. rewrite conj_if, kconj_1, Hph by auto. reflexivity.
Qed.
Lemma transpose_entry i k : (i < N)%nat -> (k < N)%nat -> p2 i * ch i k = hw k * kconj (ce k i).
Proof. intros Hi Hk. rewrite conj_curl_e by auto. apply (@curl_transpose K g Hnz); auto. Qed.
Lemma pairing E H : fsum N (fun i => p2 i * (kconj (at_ E i) * at_ (mv N ch H) i))
  = fsum N (fun k => hw k * (kconj (at_ (mv N ce E) k) * at_ H k)).
Proof.
  transitivity (fsum N (fun i => fsum N (fun k => hw k * kconj (ce k i) * (kconj (at_ E i) * at_ H k)))).
  - apply fsum_ext. intros i Hi. rewrite mv_at by auto. rewrite <- !fsum_scale. apply fsum_ext. intros k Hk.
    rewrite <- transpose_entry by auto. ring.
  - rewrite fsum_swap. apply fsum_ext. intros k Hk. rewrite mv_at, kconj_fsum by auto.
    rewrite <- fsum_scale_r, <- fsum_scale. apply fsum_ext. intros i Hi. rewrite kconj_mul. ring.
Qed.
Lemma real_hw i : (i < N)%nat -> kconj (hw i) = hw i.
Proof.
  intros Hi. destruct (@block_ex n i Hi) as (r & t & Hr' & Ht & ->). rewrite vec_at by auto.
  destruct (Hr (a:=0%nat) (i:=coord g 0 t) ltac:(lia) (@coord_lt K g 0%nat t ltac:(lia) Ht)) as [A0 B0].
  destruct (Hr (a:=1%nat) (i:=coord g 1 t) ltac:(lia) (@coord_lt K g 1%nat t ltac:(lia) Ht)) as [A1 B1].
  destruct (Hr (a:=2%nat) (i:=coord g 2 t) ltac:(lia) (@coord_lt K g 2%nat t ltac:(lia) Ht)) as [A2 B2].
  unfold h_volume. destruct r as [|[|r]]; rewrite !kconj_mul, ?A0, ?A1, ?A2, ?B0, ?B1, ?B2; reflexivity.
Qed.
Lemma conj_h_product A B : kconj (h_product g A B) = h_product g B A.
Proof.
  unfold h_product. rewrite kconj_fsum. apply fsum_ext. intros i Hi. rewrite !kconj_mul, real_hw, kconj_conj by auto. ring.
Qed.
Lemma conj_e_product eps A B : real_values g eps -> kconj (e_product g eps A B) = e_product g eps B A.
Proof.
  intros He. unfold e_product. rewrite kconj_fsum. apply fsum_ext. intros i Hi.
  rewrite !kconj_mul, (real_s Hr Hi), He, kconj_conj by auto. ring.
Qed.
Lemma e_energy eps w E1 E2 : e_resonance g ph eps w E2 ->
  w * w * e_product g eps E1 E2 = h_product g (mv N ce E1) (mv N ce E2).
Proof.
  intros (Hl & Hn & Hv). pose proof (proj1 (e_res_iff g ph eps w E2) Hv) as H1. unfold h_product. rewrite <- pairing.
  unfold e_product. rewrite <- fsum_scale. apply fsum_ext. intros i Hi. rewrite H1 by auto. ring.
Qed.
Lemma h_energy eps w H1 H2 : real_values g eps -> nonzero_values g eps -> h_resonance g ph eps w H2 ->
  w * w * h_product g H1 H2 = e_product g (fun i => 1 / eps i) (mv N ch H1) (mv N ch H2).
Proof.
  intros Hre He (Hl & Hn & Hv). pose proof (proj1 (h_res_iff g ph eps w H2) Hv) as H0.
  set (F := pmul (fun i => 1 / eps i) (mv N ch H2)) in *.
  transitivity (kconj (fsum N (fun k => hw k * (kconj (at_ (mv N ce F) k) * at_ H1 k)))).
  - unfold h_product. rewrite kconj_fsum, <- fsum_scale. apply fsum_ext. intros i Hi.
    rewrite !kconj_mul, real_hw, kconj_conj, H0 by auto. ring.
  - rewrite <- pairing. unfold e_product. rewrite kconj_fsum. apply fsum_ext. intros i Hi.
    rewrite !kconj_mul, (real_s Hr Hi), kconj_conj by auto. unfold F. rewrite pmul_at by auto. ring.
Qed.
(** two resonances of two permittivities *)
Lemma reciprocity_lemma eps1 eps2 w1 w2 E1 E2 : real_values g eps1 -> 
  e_resonance g ph eps1 w1 E1 -> e_resonance g ph eps2 w2 E2 ->
  w2 * w2 * e_product g eps2 E1 E2 = kconj (w1 * w1) * e_product g eps1 E1 E2.
Proof.
  intros H1 R1 R2. rewrite (e_energy E1 R2). rewrite <- conj_h_product, <- (e_energy E2 R1).
  rewrite kconj_mul, conj_e_product by auto. reflexivity.
Qed.
Lemma e_orthogonal_lemma eps w1 w2 E1 E2 : real_values g eps ->
  e_resonance g ph eps w1 E1 -> e_resonance g ph eps w2 E2 -> w2 * w2 <> kconj (w1 * w1) -> e_product g eps E1 E2 = 0.
Proof.
  intros H1 R1 R2 Hw. pose proof (reciprocity_lemma H1 R1 R2) as H.
  apply (@kmul_cancel K (w2 * w2 - kconj (w1 * w1))).
  - intros E. apply Hw. transitivity (w2 * w2 - kconj (w1 * w1) + kconj (w1 * w1)); [ring|]. rewrite E. ring.
  - transitivity (w2 * w2 * e_product g eps E1 E2 - kconj (w1 * w1) * e_product g eps E1 E2); [ring|]. rewrite H. ring.
Qed.
Lemma h_orthogonal_lemma eps w1 w2 H1 H2 : real_values g eps -> nonzero_values g eps ->
  h_resonance g ph eps w1 H1 -> h_resonance g ph eps w2 H2 -> w2 * w2 <> kconj (w1 * w1) -> h_product g H1 H2 = 0.
Proof.
  intros Hre He R1 R2 Hw.
  assert (H : w2 * w2 * h_product g H1 H2 = kconj (w1 * w1) * h_product g H1 H2).
  { rewrite (h_energy H1 Hre He R2). rewrite <- (conj_h_product H2 H1), <- kconj_mul, (h_energy H2 Hre He R1), conj_e_product; [reflexivity|].
    intros i Hi. rewrite kconj_div, kconj_1, Hre by auto. reflexivity. }
  apply (@kmul_cancel K (w2 * w2 - kconj (w1 * w1))).
  - intros E. apply Hw. transitivity (w2 * w2 - kconj (w1 * w1) + kconj (w1 * w1)); [ring|]. rewrite E. ring.
  - transitivity (w2 * w2 * h_product g H1 H2 - kconj (w1 * w1) * h_product g H1 H2); [ring|]. rewrite H. ring.
Qed.
(** change of a frequency with the permittivity *)
Lemma shift_lemma eps1 eps2 w1 w2 E1 E2 : real_values g eps1 -> kconj (w1 * w1) = w1 * w1 ->
  e_resonance g ph eps1 w1 E1 -> e_resonance g ph eps2 w2 E2 ->
  (w2 * w2 - w1 * w1) * e_product g eps1 E1 E2 = - (w2 * w2) * e_product g (fun i => eps2 i - eps1 i) E1 E2.
Proof.
  intros H1 Hw R1 R2. pose proof (reciprocity_lemma H1 R1 R2) as H. rewrite Hw in H.
  assert (E : e_product g (fun i => eps2 i - eps1 i) E1 E2 = e_product g eps2 E1 E2 - e_product g eps1 E1 E2).
  { unfold e_product. rewrite <- fsum_sub. apply fsum_ext. intros. ring. }
  rewrite E. transitivity (w2 * w2 * e_product g eps1 E1 E2 - w1 * w1 * e_product g eps1 E1 E2); [ring|]. rewrite <- H. ring.
Qed.
(** the operator for E *)
Lemma chce_entry i j : (i < N)%nat -> (j < N)%nat -> p2 i * mmul N ch ce i j = fsum N (fun k => hw k * (kconj (ce k i) * ce k j)).
Proof.
  intros Hi Hj. unfold mmul. rewrite <- fsum_scale. apply fsum_ext. intros k Hk.
  transitivity (p2 i * ch i k * ce k j); [ring|]. rewrite transpose_entry by auto. ring.
Qed.
Lemma chce_hermitian i j : (i < N)%nat -> (j < N)%nat -> p2 i * mmul N ch ce i j = p2 j * kconj (mmul N ch ce j i).
Proof.
  intros Hi Hj. rewrite <- (real_s Hr Hj), <- kconj_mul, !chce_entry, kconj_fsum by auto. apply fsum_ext. intros k Hk.
  rewrite !kconj_mul, real_hw, kconj_conj by auto. ring.
Qed.
Lemma efield_entry s i j : (i < N)%nat -> (j < N)%nat -> efield_operator g ph s i j = 1 / s i * mmul N ch ce i j * (1 / s j).
Proof.
  intros Hi Hj. unfold efield_operator, eps_norm. rewrite mmul_mdiag_r by auto. f_equal.
  unfold mmul at 1. unfold mmul at 2. rewrite <- fsum_scale. apply fsum_ext. intros k Hk. rewrite mmul_mdiag_l by auto. ring.
Qed.
Lemma uniform_p2 i j : uniform_cells g -> (i < N)%nat -> (j < N)%nat -> p2 i = p2 j.
Proof.
  intros Hu Hi Hj. destruct (Hu 0%nat ltac:(lia)) as (d0 & H0). destruct (Hu 1%nat ltac:(lia)) as (d1 & H1). destruct (Hu 2%nat ltac:(lia)) as (d2 & H2).
  assert (E : forall i, (i < N)%nat -> p2 i = d0 * d1 * d2); [|now rewrite !E].
  clear i j Hi Hj. intros i Hi. destruct (@block_ex n i Hi) as (r & t & Hr' & Ht & ->). rewrite vec_at by auto.
  destruct (H0 (coord g 0 t) (@coord_lt K g 0%nat t ltac:(lia) Ht)) as [A0 B0].
  destruct (H1 (coord g 1 t) (@coord_lt K g 1%nat t ltac:(lia) Ht)) as [A1 B1].
  destruct (H2 (coord g 2 t) (@coord_lt K g 2%nat t ltac:(lia) Ht)) as [A2 B2].
  unfold p_squared. destruct r as [|[|r]]; rewrite ?A0, ?A1, ?A2, ?B0, ?B1, ?B2; reflexivity.
Qed.
Lemma efield_hermitian_lemma s : uniform_cells g -> real_values g s -> nonzero_values g s -> hermitian N (efield_operator g ph s).
Proof.
  intros Hu Hs Hs0 i j Hi Hj. rewrite !efield_entry, !kconj_mul, !kconj_div, !kconj_1, !Hs by auto.
  assert (E : mmul N ch ce i j = kconj (mmul N ch ce j i)).
  { apply (@kmul_cancel K (p2 i)); [now apply p_squared_neq0|]. rewrite chce_hermitian by auto. now rewrite (uniform_p2 Hu Hj Hi). }
  rewrite E. field. auto.
Qed.
End Pairing.

(** *** the solver *)
Variable eigs : mat K -> nat -> option (list K) -> res (list (K * list K)).
Variable ksqrt : K -> K.
Variable sim : res (list K).
Hypothesis Hroot : square_root ksqrt.
Lemma in_combine_map (l : list (K * list K)) (f : list K -> list K) w F :
  In (w, F) (combine (map (fun p => ksqrt (fst p)) l) (map (fun p => f (snd p)) l)) ->
  exists x v, In (x, v) l /\ w = ksqrt x /\ F = f v.
Proof.
  induction l as [|[x v] l IH]; simpl; [tauto|]. intros [E|E].
  - injection E as <- <-. exists x, v. auto.
  - destruct (IH E) as (x' & v' & ? & ?). exists x', v'. auto.
Qed.
Lemma efield_result_lemma k eps mu b (v0 : option (list K)) l : eig_contract g eigs (efield_operator g ph (fun i => ksqrt (eps i))) -> nonzero_values g eps ->
  mode_solver g ph eigs ksqrt sim k eps mu Efield b v0 = Ok l ->
  length l = 1%nat /\ forall w E, In (w, E) l -> e_resonance g ph eps w E.
Proof.
  intros Heig He H. unfold mode_solver in H. cbn [bind] in H.
  assert (Hp : exists op k' o' pairs, op = efield_operator g ph (fun i => ksqrt (eps i)) /\ eigs op k' o' = Ok pairs /\ length pairs = 1%nat /\
     l = combine (map (fun p => ksqrt (fst p)) pairs) (map (fun p => mv N (eps_norm (fun i => ksqrt (eps i))) (snd p)) pairs)).
  { destruct v0 as [v0|]; [|destruct b].
    - destruct (eigs _ _ _) as [pairs|] eqn:E in H; cbn [bind] in H; [|discriminate].
      destruct (Nat.eqb_spec (length pairs) 1); [|destruct (_ || _); discriminate]. inversion H; eauto 10.
    - destruct sim as [e|]; cbn [bind] in H; [|discriminate].
      destruct (eigs _ _ _) as [pairs|] eqn:E in H; cbn [bind] in H; [|discriminate].
      destruct (Nat.eqb_spec (length pairs) 1); [|destruct (_ || _); discriminate]. inversion H; eauto 10.
    - destruct (eigs _ _ _) as [pairs|] eqn:E in H; cbn [bind] in H; [|discriminate].
      destruct (Nat.eqb_spec (length pairs) 1); [|destruct (_ || _); discriminate]. inversion H; eauto 10. }
  destruct Hp as (op & k' & o' & pairs & -> & Ee & Hl & ->). split.
  - rewrite combine_length, !map_length. lia.
  - intros w E Hin. destruct (in_combine_map _ _ _ _ Hin) as (x & v & Hx & -> & ->).
    destruct (Heig _ _ _ Ee) as [_ Hc]. apply (@efield_eigen_resonance K g ph _ eps); auto. rewrite Hroot. now apply Hc.
Qed.
Lemma hfield_result_lemma k eps mu b (v0 : option (list K)) l : eig_contract g eigs (hfield_operator g ph eps) ->
  mode_solver g ph eigs ksqrt sim k eps mu Hfield b v0 = Ok l ->
  length l = match v0 with Some _ => 1%nat | None => k end /\ forall w H, In (w, H) l -> h_resonance g ph eps w H.
Proof.
  intros Heig H. unfold mode_solver in H. cbn [bind] in H.
  assert (Hp : exists op o' pairs, op = hfield_operator g ph eps /\ eigs op (match v0 with Some _ => 1%nat | None => k end) o' = Ok pairs /\
     l = combine (map (fun p => ksqrt (fst p)) pairs) (map (fun p => snd p) pairs)).
  { destruct v0 as [v0|]; [|destruct b].
    - destruct (eigs _ _ _) as [pairs|] eqn:E in H; cbn [bind] in H; [|discriminate]. inversion H; eauto 10.
    - destruct sim as [e|]; cbn [bind] in H; [|discriminate].
      destruct (eigs _ _ _) as [pairs|] eqn:E in H; cbn [bind] in H; [|discriminate]. inversion H; eauto 10.
    - destruct (eigs _ _ _) as [pairs|] eqn:E in H; cbn [bind] in H; [|discriminate]. inversion H; eauto 10. }
  destruct Hp as (op & o' & pairs & -> & Ee & ->). destruct (Heig _ _ _ Ee) as [Hl Hc]. split.
  - rewrite combine_length, !map_length. lia.
  - intros w F Hin. destruct (@in_combine_map pairs (fun v => v) w F Hin) as (x & v & Hx & -> & ->).
    apply hfield_eigen_iff. rewrite Hroot. now apply Hc.
Qed.
Lemma efield_many_lemma k eps mu b : eig_contract g eigs (efield_operator g ph (fun i => ksqrt (eps i))) -> k <> 1%nat -> is_ok (mode_solver g ph eigs ksqrt sim k eps mu Efield b None) = false.
Proof.
  intros Heig Hk. unfold mode_solver. cbn [bind]. destruct b.
  - destruct sim as [e|]; cbn [bind]; [|reflexivity]. destruct (eigs _ _ _) as [pairs|] eqn:E; cbn [bind]; [|reflexivity].
    rewrite (proj1 (Heig _ _ _ E)). destruct (Nat.eqb_spec k 1); [congruence|]. now destruct (_ || _).
  - destruct (eigs _ _ _) as [pairs|] eqn:E; cbn [bind]; [|reflexivity].
    rewrite (proj1 (Heig _ _ _ E)). destruct (Nat.eqb_spec k 1); [congruence|]. now destruct (_ || _).
Qed.
End M.
