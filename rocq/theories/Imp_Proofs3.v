(** Entries of an imported overlap. *)
From Verif Require Import QTac Grid_Model Grid_Proofs Slice_Proofs2 Imp_Model Imp_Spec Imp_Proofs Imp_Proofs2.
Set Implicit Arguments.
Open Scope Q_scope.

(** the positions only matter up to == *)
Lemma cell_w l w w' i j lo hi : w == w' -> cell l w i j lo hi -> exists lo' hi', cell l w' i j lo' hi' /\ lo' == lo /\ hi' == hi.
Proof.
  intros E [(Ej & L & A & B)|(L & Ei & Ej & A & B)].
  - exists lo, hi. split; [left; auto|]. split; reflexivity.
  - exists (qn l 0 - w' / 2), (qn l 0 + w' / 2). split; [right; auto|]. subst. rewrite E. split; reflexivity.
Qed.
Lemma outside_ext l w w' x x' : w == w' -> x == x' -> outside l w x -> outside l w' x'.
Proof.
  intros E Ex. unfold outside. assert (H := halve w). assert (H' := halve w'). destruct (Nat.eqb (length l) 1); intros [A|A]; (left; Lqa.lra) || (right; Lqa.lra).
Qed.

Section Entries.
Variables (g : grid3) (center : nat -> Q) (m : mat) (rows : nat -> list (list Q)) (field : nat -> nd).
Hypothesis Comp : complete m rows field.
Hypothesis Grid : proper_grid g.
Hypothesis Cons : consistent rows field.
Variable E : list (list (list (list C))).
Hypothesis HE : import_overlap g center m = Ok E.
Let l (a : nat) := placed (rows a) (center a).
Let w (a : nat) := first_width (g_edges g a).
Let x (i a : nat) (p : nat -> nat) := position (g_edges g a) (g_shift g i a) (p a).

Lemma result_form : E = [comp_values g center rows field 0; comp_values g center rows field 1; comp_values g center rows field 2].
Proof. destruct (@import_spec g center m rows field Comp Grid) as [[_ H]|[N _]]; [congruence|contradiction]. Qed.
Lemma l_inc a : (a < 3)%nat -> increasing (l a).
Proof. intros Ha. apply placed_increasing. apply (Cons Ha). Qed.
Lemma l_ne a : (a < 3)%nat -> l a <> [].
Proof. intros Ha Z. apply (@l_nonempty center m rows field Comp a Ha). fold (l a). rewrite Z. reflexivity. Qed.

Lemma entry_outside i p a : (i < 3)%nat -> in_grid g p -> (a < 3)%nat -> outside (l a) (w a) (x i a p) -> entry E i p = (0, 0).
Proof.
  intros Hi Hp Ha Ho. rewrite (@entry_value g center rows field E i p Hi Hp result_form). unfold interpolate.
  assert (O : out_of_bounds (wide (l a) (qn (dxyz (g_edges g a)) 0)) (qn (sample_axis g i a) (p a)) = true).
  { apply oob_iff. refine (@outside_ext _ _ _ _ _ _ _ Ho).
    - unfold w. symmetry. apply (proj1 (width_pos Grid Ha)).
    - unfold x. symmetry. apply sample_position. apply Hp, Ha. }
  unfold l in O.
  assert (X : a = 0%nat \/ a = 1%nat \/ a = 2%nat) by lia. destruct X as [X|[X|X]]; subst a; rewrite O; [reflexivity| |]; rewrite ?orb_true_r; reflexivity.
Qed.

(** [ci a], [cj a], [lo a], [hi a]: a cell along each axis around the position *)
Lemma entry_tri i p (ci cj : nat -> nat) (lo hi : nat -> Q) : (i < 3)%nat -> in_grid g p ->
  (forall a, (a < 3)%nat -> cell (l a) (w a) (ci a) (cj a) (lo a) (hi a) /\ lo a <= x i a p <= hi a) ->
  exists s : nat -> Q, (forall a, (a < 3)%nat -> x i a p == lo a + s a * (hi a - lo a) /\ 0 <= s a <= 1) /\
    fst (entry E i p) == tri (s 0%nat) (s 1%nat) (s 2%nat) (fun a b c => fst (el (field i) [a; b; c])) (ci 0%nat) (cj 0%nat) (ci 1%nat) (cj 1%nat) (ci 2%nat) (cj 2%nat) /\
    snd (entry E i p) == tri (s 0%nat) (s 1%nat) (s 2%nat) (fun a b c => snd (el (field i) [a; b; c])) (ci 0%nat) (cj 0%nat) (ci 1%nat) (cj 1%nat) (ci 2%nat) (cj 2%nat).
Proof.
  intros Hi Hp Hc. rewrite (@entry_value g center rows field E i p Hi Hp result_form).
  assert (K : forall a, (a < 3)%nat -> exists lo' hi', cell (l a) (qn (dxyz (g_edges g a)) 0) (ci a) (cj a) lo' hi' /\ lo' == lo a /\ hi' == hi a /\ lo' <= qn (sample_axis g i a) (p a) <= hi' /\ qn (sample_axis g i a) (p a) == x i a p).
  { intros a Ha. destruct (Hc a Ha) as [H1 H2]. destruct (@cell_w _ _ (qn (dxyz (g_edges g a)) 0) _ _ _ _ (Qeq_sym _ _ (proj1 (width_pos Grid Ha))) H1) as (lo' & hi' & A & B & D).
    assert (S := @sample_position g i a (p a) (Hp a Ha)). fold (x i a p) in S. exists lo', hi'. split; [exact A|]. split; [exact B|]. split; [exact D|]. split; [|exact S]. Lqa.lra. }
  destruct (K 0%nat ltac:(lia)) as (lx & hx & Cx & Lx & Hx & Bx & Sx), (K 1%nat ltac:(lia)) as (ly & hy & Cy & Ly & Hy & By & Sy), (K 2%nat ltac:(lia)) as (lz & hz & Cz & Lz & Hz & Bz & Sz).
  destruct (@interpolate_cells _ _ _ _ _ _ _ _ _ _ _ _ _ _ _ _ _ _ _ _ _ _ _ (l_inc (ltac:(lia) : (0 < 3)%nat)) (l_inc (ltac:(lia) : (1 < 3)%nat)) (l_inc (ltac:(lia) : (2 < 3)%nat)) (proj2 (width_pos Grid (ltac:(lia) : (0 < 3)%nat))) (proj2 (width_pos Grid (ltac:(lia) : (1 < 3)%nat))) (proj2 (width_pos Grid (ltac:(lia) : (2 < 3)%nat))) Cx Bx Cy By Cz Bz (full_field _ _ _ (field i)))
    as (sx & sy & sz & Ex & Ey & Ez & Rx & Ry & Rz & V1 & V2).
  exists (fun a => match a with 0%nat => sx | 1%nat => sy | _ => sz end). split; [|split; [exact V1|exact V2]].
  intros a Ha. assert (X : a = 0%nat \/ a = 1%nat \/ a = 2%nat) by lia.
  destruct X as [X|[X|X]]; subst a; (split; [|assumption]).
  - rewrite <- Sx, Ex, Lx, Hx. reflexivity.
  - rewrite <- Sy, Ey, Ly, Hy. reflexivity.
  - rewrite <- Sz, Ez, Lz, Hz. reflexivity.
Qed.
Lemma entry_affine i p (ci cj : nat -> nat) (lo hi : nat -> Q) (fr fi : Q -> Q -> Q -> Q) : (i < 3)%nat -> in_grid g p ->
  (forall a, (a < 3)%nat -> cell (l a) (w a) (ci a) (cj a) (lo a) (hi a) /\ lo a <= x i a p <= hi a) ->
  multi_affine fr -> multi_affine fi ->
  (forall b0 b1 b2 : bool, ceq (el (field i) [if b0 then cj 0%nat else ci 0%nat; if b1 then cj 1%nat else ci 1%nat; if b2 then cj 2%nat else ci 2%nat])
     (fr (if b0 then hi 0%nat else lo 0%nat) (if b1 then hi 1%nat else lo 1%nat) (if b2 then hi 2%nat else lo 2%nat),
      fi (if b0 then hi 0%nat else lo 0%nat) (if b1 then hi 1%nat else lo 1%nat) (if b2 then hi 2%nat else lo 2%nat))) ->
  ceq (entry E i p) (fr (x i 0 p) (x i 1 p) (x i 2 p), fi (x i 0 p) (x i 1 p) (x i 2 p)).
Proof.
  intros Hi Hp Hc Fr Fi Hd. destruct (@entry_tri i p ci cj lo hi Hi Hp Hc) as (s & Hs & V1 & V2).
  destruct (Hs 0%nat ltac:(lia)) as [E0 _], (Hs 1%nat ltac:(lia)) as [E1 _], (Hs 2%nat ltac:(lia)) as [E2 _].
  split; cbn [fst snd]; [rewrite V1|rewrite V2].
  - apply (@tri_affine fr _ _ _ _ _ _ _ _ _ _ _ _ _ _ _ _ _ _ _ Fr E0 E1 E2). intros b0 b1 b2. apply (Hd b0 b1 b2).
  - apply (@tri_affine fi _ _ _ _ _ _ _ _ _ _ _ _ _ _ _ _ _ _ _ Fi E0 E1 E2). intros b0 b1 b2. apply (Hd b0 b1 b2).
Qed.

Lemma inside_cells i p : (i < 3)%nat -> (forall a, (a < 3)%nat -> ~ outside (l a) (w a) (x i a p)) ->
  exists (ci cj : nat -> nat) (lo hi : nat -> Q), forall a, (a < 3)%nat -> cell (l a) (w a) (ci a) (cj a) (lo a) (hi a) /\ lo a <= x i a p <= hi a /\ (ci a < length (l a))%nat /\ (cj a < length (l a))%nat.
Proof.
  intros Hi Ho.
  destruct (@cell_exists _ (w 0) (x i 0 p) (l_inc (ltac:(lia) : (0 < 3)%nat)) (l_ne (ltac:(lia) : (0 < 3)%nat)) (Ho 0%nat ltac:(lia))) as (i0 & j0 & lo0 & hi0 & H0).
  destruct (@cell_exists _ (w 1) (x i 1 p) (l_inc (ltac:(lia) : (1 < 3)%nat)) (l_ne (ltac:(lia) : (1 < 3)%nat)) (Ho 1%nat ltac:(lia))) as (i1 & j1 & lo1 & hi1 & H1).
  destruct (@cell_exists _ (w 2) (x i 2 p) (l_inc (ltac:(lia) : (2 < 3)%nat)) (l_ne (ltac:(lia) : (2 < 3)%nat)) (Ho 2%nat ltac:(lia))) as (i2 & j2 & lo2 & hi2 & H2).
  exists (fun a => match a with 0%nat => i0 | 1%nat => i1 | _ => i2 end), (fun a => match a with 0%nat => j0 | 1%nat => j1 | _ => j2 end),
    (fun a => match a with 0%nat => lo0 | 1%nat => lo1 | _ => lo2 end), (fun a => match a with 0%nat => hi0 | 1%nat => hi1 | _ => hi2 end).
  intros a Ha. assert (X : a = 0%nat \/ a = 1%nat \/ a = 2%nat) by lia. destruct X as [X|[X|X]]; subst a; assumption.
Qed.
Lemma tri_bounds s0 s1 s2 h i0 j0 i1 j1 i2 j2 lo hi : 0 <= s0 <= 1 -> 0 <= s1 <= 1 -> 0 <= s2 <= 1 ->
  (forall a b c, (a = i0 \/ a = j0) -> (b = i1 \/ b = j1) -> (c = i2 \/ c = j2) -> lo <= h a b c <= hi) -> lo <= tri s0 s1 s2 h i0 j0 i1 j1 i2 j2 <= hi.
Proof. intros S0 S1 S2 H. unfold tri. repeat (apply mix_bounds; [assumption| |]); apply H; auto. Qed.

Lemma entry_bounded i p lo hi : (i < 3)%nat -> in_grid g p -> lo <= 0 <= hi ->
  (forall a b c, (a < length (l 0))%nat -> (b < length (l 1))%nat -> (c < length (l 2))%nat -> lo <= fst (el (field i) [a; b; c]) <= hi /\ lo <= snd (el (field i) [a; b; c]) <= hi) ->
  lo <= fst (entry E i p) <= hi /\ lo <= snd (entry E i p) <= hi.
Proof.
  intros Hi Hp Z Hd.
  assert (D : (exists a, (a < 3)%nat /\ outside (l a) (w a) (x i a p)) \/ (forall a, (a < 3)%nat -> ~ outside (l a) (w a) (x i a p))).
  { assert (Dec : forall a, outside (l a) (w a) (x i a p) \/ ~ outside (l a) (w a) (x i a p)).
    { intros a. destruct (out_of_bounds (wide (l a) (w a)) (x i a p)) eqn:Eo; [left; apply oob_iff; exact Eo|right; intros H; apply oob_iff in H; congruence]. }
    destruct (Dec 0%nat) as [H0|H0]; [left; exists 0%nat; auto|]. destruct (Dec 1%nat) as [H1|H1]; [left; exists 1%nat; auto|]. destruct (Dec 2%nat) as [H2|H2]; [left; exists 2%nat; auto|].
    right. intros a Ha. assert (X : a = 0%nat \/ a = 1%nat \/ a = 2%nat) by lia. destruct X as [X|[X|X]]; subst a; assumption. }
  destruct D as [(a & Ha & Ho)|Hin].
  - rewrite (@entry_outside i p a Hi Hp Ha Ho). cbn [fst snd]. split; assumption.
  - destruct (@inside_cells i p Hi Hin) as (ci & cj & lo' & hi' & K).
    destruct (@entry_tri i p ci cj lo' hi' Hi Hp (fun a Ha => conj (proj1 (K a Ha)) (proj1 (proj2 (K a Ha))))) as (s & Hs & V1 & V2).
    rewrite V1, V2. destruct (Hs 0%nat ltac:(lia)) as [_ S0], (Hs 1%nat ltac:(lia)) as [_ S1], (Hs 2%nat ltac:(lia)) as [_ S2].
    destruct (K 0%nat ltac:(lia)) as (_ & _ & A0 & B0), (K 1%nat ltac:(lia)) as (_ & _ & A1 & B1), (K 2%nat ltac:(lia)) as (_ & _ & A2 & B2).
    split; (apply tri_bounds; [assumption..|]); intros a b c Ha Hb Hcc; apply Hd; [destruct Ha|destruct Hb|destruct Hcc|destruct Ha|destruct Hb|destruct Hcc]; subst; assumption.
Qed.

(** planes of a file with one point along an axis: equal data in all covered planes *)
Lemma entry_same_plane i p q a : (i < 3)%nat -> in_grid g p -> in_grid g q -> (a < 3)%nat -> length (l a) = 1%nat ->
  (forall b, b <> a -> p b = q b) -> ~ outside (l a) (w a) (x i a p) -> ~ outside (l a) (w a) (x i a q) -> ceq (entry E i p) (entry E i q).
Proof.
  intros Hi Hp Hq Ha L1 Epq Op Oq.
  assert (Ex : forall b, b <> a -> x i b p = x i b q) by (intros b Hb; unfold x; rewrite (Epq b Hb); reflexivity).
  assert (D : (exists b, b <> a /\ (b < 3)%nat /\ outside (l b) (w b) (x i b p)) \/ (forall b, (b < 3)%nat -> ~ outside (l b) (w b) (x i b p))).
  { assert (Dec : forall b, outside (l b) (w b) (x i b p) \/ ~ outside (l b) (w b) (x i b p)).
    { intros b. destruct (out_of_bounds (wide (l b) (w b)) (x i b p)) eqn:Eo; [left; apply oob_iff; exact Eo|right; intros H; apply oob_iff in H; congruence]. }
    assert (One : forall b, (b < 3)%nat -> outside (l b) (w b) (x i b p) -> b <> a /\ (b < 3)%nat /\ outside (l b) (w b) (x i b p)).
    { intros b Hb H. split; [|auto]. intros ->. contradiction. }
    destruct (Dec 0%nat) as [H0|H0]; [left; exists 0%nat; apply One; [lia|assumption]|]. destruct (Dec 1%nat) as [H1|H1]; [left; exists 1%nat; apply One; [lia|assumption]|]. destruct (Dec 2%nat) as [H2|H2]; [left; exists 2%nat; apply One; [lia|assumption]|].
    right. intros b Hb. assert (X : b = 0%nat \/ b = 1%nat \/ b = 2%nat) by lia. destruct X as [X|[X|X]]; subst b; assumption. }
  destruct D as [(b & Nb & Hb & Ho)|Hin].
  - rewrite (@entry_outside i p b Hi Hp Hb Ho). rewrite (Ex b Nb) in Ho. rewrite (@entry_outside i q b Hi Hq Hb Ho). split; reflexivity.
  - destruct (@inside_cells i p Hi Hin) as (ci & cj & lo & hi & K).
    assert (Kq : forall b, (b < 3)%nat -> cell (l b) (w b) (ci b) (cj b) (lo b) (hi b) /\ lo b <= x i b q <= hi b).
    { intros b Hb. destruct (K b Hb) as (Cb & Bb & _). split; [exact Cb|]. destruct (Nat.eq_dec b a) as [->|N]; [|rewrite <- (Ex b N); exact Bb].
      destruct Cb as [(_ & L & _)|(_ & _ & _ & El & Eh)]; [lia|]. unfold outside in Oq. rewrite L1 in Oq. cbn [Nat.eqb] in Oq. rewrite El, Eh.
      split; apply Qnot_lt_le; intros H; apply Oq; auto. }
    destruct (@entry_tri i p ci cj lo hi Hi Hp (fun b Hb => conj (proj1 (K b Hb)) (proj1 (proj2 (K b Hb))))) as (s & Hs & V1 & V2).
    destruct (@entry_tri i q ci cj lo hi Hi Hq Kq) as (t & Ht & W1 & W2).
    assert (Ca : ci a = cj a). { destruct (K a Ha) as ([(_ & L & _)|(_ & Ei & Ej & _)] & _); [lia|congruence]. }
    assert (St : forall b, (b < 3)%nat -> b <> a -> s b == t b).
    { intros b Hb N. destruct (Hs b Hb) as [E1 _], (Ht b Hb) as [E2 _]. rewrite <- (Ex b N) in E2.
      assert (P : 0 < hi b - lo b).
      { destruct (K b Hb) as ([(Ej & L & El & Eh)|(_ & _ & _ & El & Eh)] & _).
        - rewrite El, Eh. assert (X := @l_inc b Hb (ci b) (cj b) ltac:(lia)). Lqa.lra.
        - rewrite El, Eh. assert (X := proj2 (width_pos Grid Hb)). assert (Y := proj1 (width_pos Grid Hb)). unfold w. assert (H2 := halve (first_width (g_edges g b))). Lqa.lra. }
      assert (Z : (s b - t b) * (hi b - lo b) == 0) by (rewrite E1 in E2; Lqa.lra).
      apply Qmult_integral in Z. destruct Z; Lqa.lra. }
    assert (Tri : forall h, tri (s 0%nat) (s 1%nat) (s 2%nat) h (ci 0%nat) (cj 0%nat) (ci 1%nat) (cj 1%nat) (ci 2%nat) (cj 2%nat) == tri (t 0%nat) (t 1%nat) (t 2%nat) h (ci 0%nat) (cj 0%nat) (ci 1%nat) (cj 1%nat) (ci 2%nat) (cj 2%nat)).
    { intros h. assert (X : a = 0%nat \/ a = 1%nat \/ a = 2%nat) by lia. unfold tri, mix. destruct X as [X|[X|X]]; subst a; rewrite <- Ca.
      - rewrite (St 1%nat), (St 2%nat) by lia. ring.
      - rewrite (St 0%nat), (St 2%nat) by lia. ring.
      - rewrite (St 0%nat), (St 1%nat) by lia. ring. }
    split; [rewrite V1, W1|rewrite V2, W2]; apply Tri.
Qed.
End Entries.

(** positions on a grid of equal cells *)
Lemma uniform_edges e k : uniform e -> (k < length e)%nat -> qn e k == qn e 0 + inject_Z (Z.of_nat k) * first_width e.
Proof.
  intros U. induction k as [|k IH]; intros Hk.
  - change (inject_Z (Z.of_nat 0)) with 0. ring.
  - assert (A := U k Hk). assert (B := IH ltac:(lia)). rewrite Nat2Z.inj_succ. unfold Z.succ. rewrite inject_Z_plus. change (inject_Z 1) with 1.
    setoid_replace (qn e 0 + (inject_Z (Z.of_nat k) + 1) * first_width e) with (qn e k + first_width e) by (rewrite B; ring). Lqa.lra.
Qed.
Lemma uniform_positions e s j k : uniform e -> (S j < length e)%nat -> (S k < length e)%nat ->
  position e s k - position e s j == (inject_Z (Z.of_nat k) - inject_Z (Z.of_nat j)) * first_width e.
Proof.
  intros U Hj Hk. unfold position. assert (A := U j Hj). assert (B := U k Hk). assert (Ej := @uniform_edges e j U ltac:(lia)). assert (Ek := @uniform_edges e k U ltac:(lia)).
  setoid_replace (qn e (S k)) with (qn e k + first_width e) by Lqa.lra. setoid_replace (qn e (S j)) with (qn e j + first_width e) by Lqa.lra. rewrite Ej, Ek. field.
Qed.
