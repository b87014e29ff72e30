(** Selection matrices on two-dimensional grids, and the geometry matrix. *)
From Coq Require Import Reals Lra.
From Verif Require Import Base Cub_Model.
Set Implicit Arguments.
Open Scope nat_scope.

(** [A] selects, for the point (i, j) of an a x b grid, the point (fx i, fy j) of
    a c x d grid. *)
Record view (A : smat) (a b c d : nat) (fx fy : nat -> nat) : Prop := {
  v_rows : rows A = a * b;
  v_cols : cols A = c * d;
  v_fx : forall i, i < a -> fx i < c;
  v_fy : forall j, j < b -> fy j < d;
  v_at : forall i j, i < a -> j < b -> at_ A (i + a * j) = fx i + c * fy j }.

Lemma flat_lt a b i j : i < a -> j < b -> i + a * j < a * b.
Proof. intros H1 H2. assert (a * S j <= a * b) by (apply Nat.mul_le_mono_l; lia). lia. Qed.

Lemma flat_div a i j : i < a -> (i + a * j) / a = j.
Proof.
  intros H. symmetry. apply (Nat.div_unique _ _ _ i); lia.
Qed.
Lemma flat_mod a i j : i < a -> (i + a * j) mod a = i.
Proof. intros H. symmetry. apply (Nat.mod_unique _ _ j); lia. Qed.

Lemma flat_split a b r : r < a * b -> exists i j, i < a /\ j < b /\ r = i + a * j.
Proof.
  intros H. assert (0 < a) by (destruct a; lia).
  exists (r mod a), (r / a). split; [apply Nat.mod_upper_bound; lia |]. split.
  - apply Nat.div_lt_upper_bound; lia.
  - pose proof (Nat.div_mod r a). lia.
Qed.

Lemma view_eye a b n : n = a * b -> view (eye n) a b a b (fun i => i) (fun j => j).
Proof. intros ->. split; cbn; auto. Qed.

Lemma view_smul A B a b c d e f fx fy gx gy :
  view A a b c d fx fy -> view B c d e f gx gy ->
  exists C, smul A B = Ok C /\ view C a b e f (fun i => gx (fx i)) (fun j => gy (fy j)).
Proof.
  intros HA HB. unfold smul. rewrite (v_cols HA), (v_rows HB), Nat.eqb_refl.
  eexists. split; [reflexivity |]. split; cbn.
  - apply (v_rows HA).
  - apply (v_cols HB).
  - intros i Hi. apply (v_fx HB), (v_fx HA), Hi.
  - intros i Hi. apply (v_fy HB), (v_fy HA), Hi.
  - intros i j Hi Hj. rewrite (v_at HA), (v_at HB); auto.
    + apply (v_fx HA), Hi.
    + apply (v_fy HA), Hj.
Qed.

Lemma view_ext A a b c d fx fy gx gy :
  view A a b c d fx fy ->
  (forall i, i < a -> fx i = gx i) -> (forall j, j < b -> fy j = gy j) ->
  view A a b c d gx gy.
Proof.
  intros [H1 H2 H3 H4 H5] Hx Hy. split; auto.
  - intros i Hi. rewrite <- Hx; auto.
  - intros i Hi. rewrite <- Hy; auto.
  - intros i j Hi Hj. rewrite <- Hx, <- Hy; auto.
Qed.

Definition wrap (n i : nat) : nat := if Nat.ltb i (n - 1) then i else 0.

Lemma wrap_lt n i : 2 <= n -> wrap n i < n - 1.
Proof. intros H. unfold wrap. destruct (Nat.ltb_spec i (n - 1)); lia. Qed.

Lemma block_at n A i j : i < rows A ->
  at_ (block_diag n A) (i + rows A * j) = at_ A i + cols A * j.
Proof.
  intros H. cbn. rewrite flat_div, flat_mod by exact H. lia.
Qed.

Ltac sh := unfold dup_x, dup_y, periodic_x, periodic_y, symmetry_0, symmetry_1;
  cbn [rows cols at_ fst snd eye hstack0 vstack vstack_n block_diag rev_cols];
  repeat match goal with A := _ : smat |- _ => subst A end;
  cbn [rows cols at_ fst snd eye hstack0 vstack vstack_n block_diag rev_cols].

Lemma view_dup_x s0 s1 : 2 <= s0 ->
  view (fst (dup_x s0 s1)) s0 s1 (s0 - 1) s1 (wrap s0) (fun j => j).
Proof.
  intros H. split.
  - sh. replace (s0 - 1 + 1) with s0 by lia. lia.
  - sh. lia.
  - intros i Hi. apply wrap_lt, H.
  - auto.
  - intros i j Hi Hj. unfold dup_x. cbn [fst].
    set (A := vstack _ _). assert (HA : rows A = s0) by (sh; lia).
    rewrite <- HA at 1. rewrite block_at by lia. unfold A, wrap.
    cbn [at_ vstack eye rows cols]. destruct (Nat.ltb_spec i (s0 - 1)); lia.
Qed.

Lemma view_dup_x_rev s0 s1 : 2 <= s0 ->
  view (snd (dup_x s0 s1)) (s0 - 1) s1 s0 s1 (fun i => i) (fun j => j).
Proof.
  intros H. split.
  - sh. lia.
  - sh. replace (s0 - 1 + 1) with s0 by lia. lia.
  - intros; lia.
  - auto.
  - intros i j Hi Hj. unfold dup_x. cbn [snd].
    set (A := hstack0 _ _). assert (HA : rows A = s0 - 1) by (sh; lia).
    rewrite <- HA at 1. rewrite block_at by lia. sh. f_equal. f_equal. lia.
Qed.

Lemma view_dup_y s0 s1 : 2 <= s1 ->
  view (fst (dup_y s0 s1)) s0 s1 s0 (s1 - 1) (fun i => i) (wrap s1).
Proof.
  intros H. split.
  - sh. replace s1 with (s1 - 1 + 1) at 2 by lia. lia.
  - sh. lia.
  - auto.
  - intros i Hi. apply wrap_lt, H.
  - intros i j Hi Hj. unfold dup_y, wrap. cbn [fst at_ vstack eye rows cols hstack0].
    destruct (Nat.ltb_spec j (s1 - 1)) as [L | L].
    + pose proof (flat_lt Hi L). destruct (Nat.ltb_spec (i + s0 * j) (s0 * (s1 - 1))); lia.
    + replace j with (s1 - 1) by lia.
      destruct (Nat.ltb_spec (i + s0 * (s1 - 1)) (s0 * (s1 - 1))); lia.
Qed.

Lemma view_dup_y_rev s0 s1 : 2 <= s1 ->
  view (snd (dup_y s0 s1)) s0 (s1 - 1) s0 s1 (fun i => i) (fun j => j).
Proof.
  intros H. split.
  - sh. lia.
  - sh. replace s1 with (s1 - 1 + 1) at 2 by lia. lia.
  - auto.
  - intros; lia.
  - reflexivity.
Qed.

Lemma div_exact n p : p <> 0 -> n mod p = 0 -> n = p * (n / p).
Proof. intros Hp Hm. pose proof (Nat.div_mod n p Hp). lia. Qed.

Lemma unit_pos n p : p <> 0 -> n mod p = 0 -> 1 <= n -> 1 <= n / p.
Proof. intros Hp Hm Hn. pose proof (div_exact n Hp Hm). destruct (n / p); lia. Qed.

Lemma view_periodic_x nx ny p : p <> 0 -> nx mod p = 0 -> 1 <= nx ->
  view (fst (periodic_x nx ny p)) nx ny (nx / p) ny (fun i => i mod (nx / p)) (fun j => j).
Proof.
  intros Hp Hm Hn. pose proof (div_exact nx Hp Hm) as E.
  pose proof (unit_pos Hp Hm Hn) as U. split.
  - sh. rewrite <- E. lia.
  - sh. lia.
  - intros i Hi. apply Nat.mod_upper_bound. lia.
  - auto.
  - intros i j Hi Hj. unfold periodic_x. cbn [fst].
    set (A := vstack_n _ _). assert (HA : rows A = nx) by (sh; lia).
    rewrite <- HA at 1. rewrite block_at by lia. reflexivity.
Qed.

Lemma view_periodic_x_rev nx ny p : p <> 0 -> nx mod p = 0 -> 1 <= nx ->
  view (snd (periodic_x nx ny p)) (nx / p) ny nx ny (fun i => i) (fun j => j).
Proof.
  intros Hp Hm Hn. pose proof (div_exact nx Hp Hm) as E.
  pose proof (unit_pos Hp Hm Hn) as U. 
  assert (E2 : nx / p + (p - 1) * (nx / p) = nx).
  { rewrite E at 3. destruct p as [| p]; [lia |]. replace (S p - 1) with p by lia. cbn [Nat.mul]. lia. }
  split.
  - sh. lia.
  - sh. rewrite E2. lia.
  - intros i Hi. rewrite E. destruct p; [lia |]. cbn [Nat.mul]. lia.
  - auto.
  - intros i j Hi Hj. unfold periodic_x. cbn [snd].
    set (A := hstack0 _ _). assert (HA : rows A = nx / p) by (sh; lia).
    rewrite <- HA at 1. rewrite block_at by lia. sh. now rewrite E2.
Qed.

Lemma view_periodic_y nx ny p : p <> 0 -> ny mod p = 0 -> 1 <= ny ->
  view (fst (periodic_y nx ny p)) nx ny nx (ny / p) (fun i => i) (fun j => j mod (ny / p)).
Proof.
  intros Hp Hm Hn. pose proof (div_exact ny Hp Hm) as E.
  pose proof (unit_pos Hp Hm Hn) as U. split.
  - sh. rewrite E at 2. lia.
  - sh. lia.
  - auto.
  - intros i Hi. apply Nat.mod_upper_bound. lia.
  - intros i j Hi Hj. unfold periodic_y. cbn [fst at_ vstack_n eye rows].
    set (m := ny / p) in *.
    pose proof (Nat.div_mod j m ltac:(lia)) as D.
    symmetry. apply (Nat.mod_unique _ _ (j / m)).
    + pose proof (Nat.mod_upper_bound j m ltac:(lia)). pose proof (@flat_lt nx m i (j mod m) Hi H). lia.
    + rewrite D at 1. lia.
Qed.

Lemma view_periodic_y_rev nx ny p : p <> 0 -> ny mod p = 0 -> 1 <= ny ->
  view (snd (periodic_y nx ny p)) nx (ny / p) nx ny (fun i => i) (fun j => j).
Proof.
  intros Hp Hm Hn. pose proof (div_exact ny Hp Hm) as E.
  pose proof (unit_pos Hp Hm Hn) as U. split.
  - sh. lia.
  - sh. rewrite E at 3. destruct p as [| p]; [lia |]. replace (S p - 1) with p by lia. cbn [Nat.mul]. lia.
  - auto.
  - intros i Hi. rewrite E. destruct p; [lia |]. cbn [Nat.mul]. lia.
  - reflexivity.
Qed.

Lemma half_sum n : half_up n + n / 2 = n.
Proof.
  unfold half_up. pose proof (Nat.div_mod n 2 ltac:(lia)). pose proof (Nat.div_mod (n + 1) 2 ltac:(lia)).
  pose proof (Nat.mod_upper_bound n 2 ltac:(lia)). pose proof (Nat.mod_upper_bound (n+1) 2 ltac:(lia)). lia.
Qed.

Lemma half_cases n : (n mod 2 = 0 /\ half_up n = n / 2) \/ (n mod 2 = 1 /\ half_up n = n / 2 + 1).
Proof.
  pose proof (half_sum n). pose proof (Nat.div_mod n 2 ltac:(lia)).
  pose proof (Nat.mod_upper_bound n 2 ltac:(lia)). lia.
Qed.

Definition mirror (n i : nat) : nat := Nat.min i (n - 1 - i).

Lemma mirror_lt n i : i < n -> mirror n i < half_up n.
Proof.
  intros H. unfold mirror. pose proof (half_sum n). destruct (half_cases n); lia.
Qed.
Lemma mirror_low n i : i < half_up n -> mirror n i = i.
Proof. intros H. unfold mirror. pose proof (half_sum n). destruct (half_cases n); lia. Qed.
Lemma mirror_high n i : i < n -> half_up n <= i -> mirror n i = n - 1 - i.
Proof. intros H1 H2. unfold mirror. pose proof (half_sum n). destruct (half_cases n); lia. Qed.

Lemma view_symmetry_0 nx ny :
  view (fst (symmetry_0 nx ny)) nx ny nx (half_up ny) (fun i => i) (mirror ny).
Proof.
  pose proof (half_sum ny) as HS. split.
  - unfold symmetry_0. sh. destruct (Nat.eqb (ny mod 2) 0); sh; rewrite <- HS at 3; lia.
  - sh. lia.
  - auto.
  - intros j Hj. apply mirror_lt, Hj.
  - intros i j Hi Hj. unfold symmetry_0. cbn [fst].
    set (B2 := if Nat.eqb (ny mod 2) 0 then _ else _).
    assert (HB : forall r, at_ B2 r = ny / 2 * nx - 1 - (r / nx * nx + (nx - 1 - r mod nx))).
    { intros r. unfold B2. destruct (Nat.eqb (ny mod 2) 0); reflexivity. }
    cbn [vstack at_ rows eye].
    destruct (Nat.lt_ge_cases j (half_up ny)) as [L | L].
    + pose proof (flat_lt Hi L). rewrite mirror_low by exact L.
      destruct (Nat.ltb_spec (i + nx * j) (nx * half_up ny)); lia.
    + rewrite mirror_high by assumption.
      destruct (Nat.ltb_spec (i + nx * j) (nx * half_up ny)) as [L2 | L2].
      * pose proof (Nat.mul_le_mono_l _ _ nx L). lia.
      * rewrite HB.
        replace (i + nx * j - nx * half_up ny) with (i + nx * (j - half_up ny))
          by (rewrite Nat.mul_sub_distr_l; pose proof (Nat.mul_le_mono_l _ _ nx L); lia).
        rewrite flat_div, flat_mod by exact Hi.
        set (k := j - half_up ny).
        replace (ny / 2) with (k + 1 + (ny - 1 - j)) by (unfold k; lia).
        nia.
Qed.

Lemma view_symmetry_0_rev nx ny :
  view (snd (symmetry_0 nx ny)) nx (half_up ny) nx ny (fun i => i) (fun j => j).
Proof.
  pose proof (half_sum ny) as HS. split.
  - reflexivity.
  - unfold symmetry_0. cbn [snd hstack0 cols eye].
    assert (rows (if Nat.eqb (ny mod 2) 0
      then rev_cols (block_diag (ny / 2) (rev_cols (eye nx)))
      else hstack0 (rev_cols (block_diag (ny / 2) (rev_cols (eye nx)))) nx) = ny / 2 * nx) as ->.
    { destruct (Nat.eqb (ny mod 2) 0); reflexivity. }
    rewrite <- HS at 3. lia.
  - auto.
  - intros j Hj. lia.
  - reflexivity.
Qed.

Lemma sym1_rows nx : rows (if Nat.eqb (nx mod 2) 1
     then hstack0 (rev_cols (eye (nx / 2))) 1 else rev_cols (eye (nx / 2))) = nx / 2.
Proof. now destruct (Nat.eqb (nx mod 2) 1). Qed.

Lemma view_symmetry_1 nx ny :
  view (fst (symmetry_1 nx ny)) nx ny (half_up nx) ny (mirror nx) (fun j => j).
Proof.
  pose proof (half_sum nx) as HS. split.
  - unfold symmetry_1. cbn [fst block_diag rows vstack]. rewrite sym1_rows. cbn [rows eye].
    rewrite HS. lia.
  - sh. lia.
  - intros j Hj. apply mirror_lt, Hj.
  - auto.
  - intros i j Hi Hj. unfold symmetry_1. cbn [fst].
    set (A := vstack _ _). assert (HA : rows A = nx).
    { unfold A. cbn [rows vstack]. rewrite sym1_rows. sh. lia. }
    rewrite <- HA at 1. rewrite block_at by lia.
    replace (cols A) with (half_up nx) by reflexivity. f_equal.
    unfold A. cbn [at_ vstack rows eye].
    destruct (Nat.ltb_spec i (half_up nx)) as [L | L].
    + now rewrite mirror_low.
    + rewrite mirror_high by assumption.
      assert (forall r, at_ (if Nat.eqb (nx mod 2) 1
        then hstack0 (rev_cols (eye (nx / 2))) 1 else rev_cols (eye (nx / 2))) r
        = nx / 2 - 1 - r) as ->.
      { intros r. now destruct (Nat.eqb (nx mod 2) 1). }
      lia.
Qed.

Lemma view_symmetry_1_rev nx ny :
  view (snd (symmetry_1 nx ny)) (half_up nx) ny nx ny (fun i => i) (fun j => j).
Proof.
  pose proof (half_sum nx) as HS.
  assert (E : cols (hstack0 (eye (half_up nx)) (rows (if Nat.eqb (nx mod 2) 1
     then hstack0 (rev_cols (eye (nx / 2))) 1 else rev_cols (eye (nx / 2))))) = nx).
  { cbn [hstack0 cols eye]. rewrite sym1_rows. exact HS. }
  split.
  - sh. lia.
  - unfold symmetry_1. cbn [snd block_diag cols]. rewrite E. lia.
  - intros i Hi. lia.
  - auto.
  - intros i j Hi Hj. unfold symmetry_1. cbn [snd].
    set (A := hstack0 _ _) in *. assert (HA : rows A = half_up nx) by reflexivity.
    rewrite <- HA at 1. rewrite block_at by lia. rewrite E. reflexivity.
Qed.
