(** The geometry matrix parametrizes exactly the arrays with the symmetries. *)
From Coq Require Import Reals Lra.
From Verif Require Import Base Cub_Model Cub_Spec Cub_Proofs Cub_Proofs2.
Set Implicit Arguments.
Open Scope nat_scope.

Lemma fits_divides p n : fits p n -> divides p n.
Proof.
  intros [H | [m H]]; [now left |]. destruct (Nat.eq_dec p 0); [now left |].
  right. subst n. now apply Nat.mod_mul.
Qed.
Lemma divides_fits p n : divides p n -> fits p n.
Proof.
  intros [H | H]; [now left |]. destruct (Nat.eq_dec p 0); [now left |].
  right. exists (n / p). pose proof (@div_exact n p n0 H). lia.
Qed.

Lemma geon_unit p s n : divides p n -> 1 <= n -> geon p s n <= unitn p n.
Proof.
  intros D H. pose proof (unitn_pos D H) as U. unfold geon, boundn, cellb.
  destruct s; [| now rewrite andb_false_r].
  rewrite andb_true_r. destruct (negb (Nat.eqb p 0)).
  - pose proof (half_sum (unitn p n + 1)). destruct (half_cases (unitn p n + 1)); lia.
  - pose proof (half_sum (unitn p n)). destruct (half_cases (unitn p n)); lia.
Qed.

Lemma unitn_le p n : unitn p n <= n.
Proof.
  unfold unitn. destruct (Nat.eqb_spec p 0); [lia |].
  apply Nat.div_le_upper_bound; [exact n0 |]. destruct p; [lia |]. cbn. lia.
Qed.

Lemma canon_fixed p s n i : divides p n -> 1 <= n -> i < geon p s n -> canon p s n i = i.
Proof.
  intros D H Hi. pose proof (geon_unit s D H) as L.
  assert (U : unitm p n i = i).
  { unfold unitm, unitn in *. destruct (Nat.eqb p 0); [reflexivity |]. apply Nat.mod_small. lia. }
  unfold canon. rewrite U. unfold symm_m, geon in *. destruct s; [| reflexivity].
  now apply mirror_low.
Qed.

Lemma mod_comp n L i : L <> 0 -> n mod L = 0 -> 0 < i < n -> i mod L <> 0 ->
  (n - i) mod L = L - i mod L.
Proof.
  intros HL Hn Hi Hm.
  pose proof (Nat.div_mod n L HL). pose proof (Nat.div_mod i L HL).
  pose proof (Nat.mod_upper_bound i L HL).
  set (q := n / L) in *. set (k := i / L) in *. set (u := i mod L) in *.
  assert (k < q). { apply Nat.nle_gt. intros C. pose proof (Nat.mul_le_mono_l _ _ L C). lia. }
  symmetry. apply (Nat.mod_unique _ _ (q - k - 1)); [lia |].
  replace q with (k + 1 + (q - k - 1)) in H by lia. lia.
Qed.

Lemma mod_comp0 n L i : L <> 0 -> n mod L = 0 -> i <= n -> i mod L = 0 ->
  (n - i) mod L = 0.
Proof.
  intros HL Hn Hi Hm.
  pose proof (Nat.div_mod n L HL). pose proof (Nat.div_mod i L HL).
  set (q := n / L) in *. set (k := i / L) in *.
  symmetry. apply (Nat.mod_unique _ _ (q - k)); [lia |].
  rewrite Nat.mul_sub_distr_l. lia.
Qed.

Lemma div_mod0 n p : p <> 0 -> 1 <= n -> n mod p = 0 -> n mod (n / p) = 0.
Proof.
  intros Hp Hn Hm. pose proof (div_exact n Hp Hm). pose proof (unit_pos Hp Hm Hn).
  rewrite H at 1. apply Nat.mod_mul. lia.
Qed.

Lemma canon_keeps p s n : divides p n -> 1 <= n -> forall v : nat -> R,
  keeps p s n (fun i => v (canon p s n i)).
Proof.
  intros D H v. split; [| split].
  - intros Hp i Hi. f_equal. unfold canon. f_equal. unfold unitm.
    destruct (Nat.eqb_spec p 0); [contradiction |].
    destruct D as [D | D]; [contradiction |]. pose proof (unit_pos Hp D H).
    rewrite <- (Nat.mul_1_l (n / p)) at 1. apply Nat.mod_add. lia.
  - intros -> -> i Hi. f_equal. unfold canon, unitm, symm_m, boundn, cellb, unitn. cbn [Nat.eqb negb andb].
    unfold mirror. lia.
  - intros -> Hp i Hi. f_equal. unfold canon, unitm, symm_m, boundn, cellb, unitn.
    destruct (Nat.eqb_spec p 0); [contradiction |]. cbn [negb andb].
    destruct D as [D | D]; [contradiction |]. pose proof (unit_pos Hp D H) as U.
    pose proof (@div_mod0 n p Hp H D) as M.
    unfold mirror. destruct (Nat.eq_dec (i mod (n / p)) 0) as [E | E].
    + rewrite mod_comp0 by lia. rewrite E. reflexivity.
    + rewrite mod_comp by lia. pose proof (Nat.mod_upper_bound i (n / p) ltac:(lia)). lia.
Qed.

Lemma keeps_mod p s n f : divides p n -> 1 <= n -> keeps p s n f ->
  forall i, i < n -> f (unitm p n i) = f i.
Proof.
  intros D H [K _] i Hi. unfold unitm. destruct (Nat.eqb_spec p 0) as [E | E]; [reflexivity |].
  destruct D as [D | D]; [contradiction |]. pose proof (unit_pos E D H) as U.
  specialize (K E). set (L := n / p) in *.
  pose proof (Nat.div_mod i L ltac:(lia)) as DM.
  rewrite DM at 2. assert (Hq : L * (i / L) + i mod L < n) by lia. clear DM.
  revert Hq. generalize (i / L) as q. set (u := i mod L).
  induction q as [| q IH]; intros Hq.
  - f_equal. lia.
  - replace (L * S q + u) with (L * q + u + L) in * by lia.
    rewrite K by lia. apply IH. lia.
Qed.

Lemma keeps_canon p s n f : divides p n -> 1 <= n -> keeps p s n f ->
  forall i, i < n -> f (canon p s n i) = f i.
Proof.
  intros D H K i Hi. rewrite <- (keeps_mod D H K Hi).
  assert (Hu : unitm p n i < unitn p n).
  { unfold unitm, unitn. destruct (Nat.eqb_spec p 0) as [E | E]; [exact Hi |].
    apply Nat.mod_upper_bound. destruct D as [D | D]; [contradiction |].
    pose proof (unit_pos E D H). lia. }
  pose proof (unitn_le p n) as L.
  unfold canon. generalize (unitm p n i) Hu. clear i Hi Hu. intros u Hu.
  destruct s; [| reflexivity]. cbn [symm_m]. unfold mirror, boundn, cellb.
  pose proof K as K0. destruct K as (Kp & Km & Kc). destruct (Nat.eqb_spec p 0) as [E | E]; cbn [negb andb].
  - unfold unitn in *. destruct (Nat.eqb_spec p 0); [| contradiction].
    destruct (Nat.min_dec u (n - 1 - u)) as [E1 | E1]; rewrite E1; [reflexivity |].
    apply Km; auto.
  - destruct (Nat.min_dec u (unitn p n + 1 - 1 - u)) as [E1 | E1]; rewrite E1; [reflexivity |].
    destruct (Nat.eq_dec u 0) as [Z | Z]; [lia |].
    specialize (Kc eq_refl E u ltac:(lia)). rewrite <- Kc.
    rewrite <- (@keeps_mod p true n f D H K0 (n - u)) by lia.
    f_equal. unfold unitm, unitn in *.
    destruct (Nat.eqb_spec p 0); [contradiction |].
    destruct D as [D | D]; [contradiction |].
    pose proof (unit_pos E D H). pose proof (@div_mod0 n p E H D).
    assert (M : u mod (n / p) = u) by now apply Nat.mod_small.
    rewrite mod_comp; rewrite ?M; lia.
Qed.

Lemma geometry_divides nx ny symm per periods full x :
  make_geometry_matrix (Two nx ny) symm per periods full = Ok x ->
  divides (ax0 periods) (independent (ax0 per) nx) /\
  divides (ax1 periods) (independent (ax1 per) ny).
Proof.
  destruct periods as [p0 p1]. unfold make_geometry_matrix. cbn [ax0 ax1].
  set (n0 := independent (ax0 per) nx). set (n1 := independent (ax1 per) ny).
  replace (if ax1 per then ny - 1 else ny) with n1
    by (unfold n1, independent; destruct (ax1 per); lia).
  replace (if ax0 per then nx - 1 else nx) with n0
    by (unfold n0, independent; destruct (ax0 per); lia).
  destruct (if ax1 per then dup_y nx ny else _) as [ay ray].
  destruct (if ax0 per then dup_x nx n1 else _) as [ax rax].
  unfold divides.
  destruct (Nat.eqb_spec p1 0) as [E1 | E1]; destruct (Nat.eqb_spec p0 0) as [E0 | E0];
    try (destruct (Nat.eqb_spec (n1 mod p1) 0); cbn [bind]; [| discriminate]);
    try (destruct (Nat.eqb_spec (n0 mod p0) 0); cbn [bind]; [| discriminate]); auto.
Qed.

Lemma geometry_refuses nx ny symm per periods full :
  let n0 := independent (ax0 per) nx in
  let n1 := independent (ax1 per) ny in
  1 <= n0 -> 1 <= n1 ->
  ~ (fits (ax0 periods) n0 /\ fits (ax1 periods) n1) ->
  make_geometry_matrix (Two nx ny) symm per periods full = Err ValueError.
Proof.
  destruct periods as [p0 p1]. cbn [ax0 ax1]. unfold make_geometry_matrix. cbn [ax0 ax1].
  set (n0 := independent (ax0 per) nx). set (n1 := independent (ax1 per) ny).
  intros H0 H1 NF.
  replace (if ax1 per then ny - 1 else ny) with n1
    by (unfold n1, independent; destruct (ax1 per); lia).
  replace (if ax0 per then nx - 1 else nx) with n0
    by (unfold n0, independent; destruct (ax0 per); lia).
  destruct (if ax1 per then dup_y nx ny else _) as [ay ray].
  destruct (if ax0 per then dup_x nx n1 else _) as [ax rax].
  destruct (Nat.eqb_spec p1 0) as [E1 | E1]; destruct (Nat.eqb_spec p0 0) as [E0 | E0];
    try (destruct (Nat.eqb_spec (n1 mod p1) 0); cbn [bind]; [| reflexivity]);
    try (destruct (Nat.eqb_spec (n0 mod p0) 0); cbn [bind]; [| reflexivity]);
    exfalso; apply NF; split; apply divides_fits; unfold divides; auto.
Qed.

(** what the statements are about: entry (i, j) of an array *)
Lemma geometry_main nx ny symm per periods geo rev g :
  let n0 := independent (ax0 per) nx in
  let n1 := independent (ax1 per) ny in
  1 <= n0 -> 1 <= n1 ->
  make_geometry_matrix (Two nx ny) symm per periods false = Ok (geo, rev, g) ->
  rows geo = n0 * n1 /\ cols geo = ax0 g * ax1 g /\
  (forall v j, j < n1 -> keeps (ax0 periods) (ax0 symm) n0 (fun i => sapply geo v (i + n0 * j))) /\
  (forall v i, i < n0 -> keeps (ax1 periods) (ax1 symm) n1 (fun j => sapply geo v (i + n0 * j))) /\
  (forall E : nat -> nat -> R,
     (forall j, j < n1 -> keeps (ax0 periods) (ax0 symm) n0 (fun i => E i j)) ->
     (forall i, i < n0 -> keeps (ax1 periods) (ax1 symm) n1 (fun j => E i j)) ->
     exists v, forall i j, i < n0 -> j < n1 -> sapply geo v (i + n0 * j) = E i j) /\
  (forall v w, (forall r, r < rows geo -> sapply geo v r = sapply geo w r) ->
     forall c, c < cols geo -> v c = w c).
Proof.
  destruct symm as [s0 s1], periods as [p0 p1]. cbn [ax0 ax1].
  set (n0 := independent (ax0 per) nx). set (n1 := independent (ax1 per) ny).
  intros H0 H1 HM.
  assert (D : divides p0 n0 /\ divides p1 n1).
  { exact (@geometry_divides nx ny (Two s0 s1) per (Two p0 p1) false _ HM). }
  destruct D as [D0 D1].
  destruct (@geometry_views nx ny (Two s0 s1) per (Two p0 p1) H0 H1 D0 D1)
    as (geo' & geof & rev' & E1 & _ & V & _ & _).
  rewrite HM in E1. injection E1 as -> -> ->. cbn [ax0 ax1] in *.
  change (redn (ax0 per) nx) with n0 in V. change (redn (ax1 per) ny) with n1 in V.
  change (redn (ax0 per) nx) with n0. change (redn (ax1 per) ny) with n1.
  assert (A : forall v i j, i < n0 -> j < n1 ->
     sapply geo' v (i + n0 * j) = v (canon p0 s0 n0 i + geon p0 s0 n0 * canon p1 s1 n1 j)).
  { intros v i j Hi Hj. unfold sapply. now rewrite (v_at V). }
  assert (KE : forall p s n (f g : nat -> R), 1 <= n -> (forall i, i < n -> f i = g i) ->
     keeps p s n g -> keeps p s n f).
  { intros p s n f g Hn Hfg (K1 & K2 & K3). split; [| split].
    - intros Hp i Hi. rewrite !Hfg by lia. auto.
    - intros Hs Hp i Hi. rewrite !Hfg by lia. auto.
    - intros Hs Hp i Hi. rewrite !Hfg by lia. auto. }
  split; [apply (v_rows V) |]. split; [apply (v_cols V) |].
  split; [| split; [| split]].
  - intros v j Hj.
    apply (KE _ _ _ _ (fun i => v (canon p0 s0 n0 i + geon p0 s0 n0 * canon p1 s1 n1 j)) H0);
      [intros i Hi; now apply A |].
    apply (@canon_keeps p0 s0 n0 D0 H0 (fun c => v (c + geon p0 s0 n0 * canon p1 s1 n1 j))).
  - intros v i Hi.
    apply (KE _ _ _ _ (fun j => v (canon p0 s0 n0 i + geon p0 s0 n0 * canon p1 s1 n1 j)) H1);
      [intros j Hj; now apply A |].
    apply (@canon_keeps p1 s1 n1 D1 H1 (fun c => v (canon p0 s0 n0 i + geon p0 s0 n0 * c))).
  - intros E K0 K1.
    exists (fun c => E (c mod geon p0 s0 n0) (c / geon p0 s0 n0)).
    intros i j Hi Hj. rewrite A by assumption.
    assert (B : canon p0 s0 n0 i < geon p0 s0 n0) by apply (v_fx V Hi).
    rewrite flat_mod, flat_div by exact B.
    assert (B1 : canon p1 s1 n1 j < n1).
    { pose proof (v_fy V Hj). pose proof (geon_unit s1 D1 H1). pose proof (unitn_le p1 n1). lia. }
    rewrite (keeps_canon D0 H0 (K0 _ B1) Hi).
    apply (keeps_canon D1 H1 (K1 i Hi) Hj).
  - intros v w Hvw c Hc. rewrite (v_cols V) in Hc.
    destruct (flat_split _ _ Hc) as (i & j & Hi & Hj & ->).
    pose proof (geon_unit s1 D1 H1). pose proof (unitn_le p1 n1).
    pose proof (geon_unit s0 D0 H0). pose proof (unitn_le p0 n0).
    specialize (Hvw (i + n0 * j)). rewrite (v_rows V) in Hvw.
    rewrite !A in Hvw by lia. rewrite !canon_fixed in Hvw by assumption.
    apply Hvw. apply flat_lt; lia.
Qed.

(** A full grid expanded from a vector is read back as this vector. *)
Lemma geometry_round_trip nx ny symm per periods :
  let n0 := independent (ax0 per) nx in
  let n1 := independent (ax1 per) ny in
  1 <= n0 -> 1 <= n1 -> fits (ax0 periods) n0 -> fits (ax1 periods) n1 ->
  exists geo full rev g,
    make_geometry_matrix (Two nx ny) symm per periods false = Ok (geo, rev, g) /\
    make_geometry_matrix (Two nx ny) symm per periods true = Ok (full, rev, g) /\
    rows full = nx * ny /\ cols full = cols geo /\ rows rev = cols geo /\ cols rev = nx * ny /\
    (forall v i j, i < nx -> j < ny ->
       sapply full v (i + nx * j)
       = sapply geo v ((if ax0 per then i mod n0 else i)
                       + n0 * (if ax1 per then j mod n1 else j))) /\
    (forall v c, c < cols geo -> sapply rev (sapply full v) c = v c).
Proof.
  cbn zeta. intros H0 H1 F0 F1.
  apply fits_divides in F0, F1.
  destruct (@geometry_views nx ny symm per periods H0 H1 F0 F1)
    as (geo & geof & rev & E1 & E2 & V & VF & VR).
  eexists geo, geof, rev, _. split; [exact E1 |]. split; [exact E2 |].
  split; [apply (v_rows VF) |]. split; [now rewrite (v_cols VF), (v_cols V) |].
  split; [now rewrite (v_rows VR), (v_cols V) |]. split; [apply (v_cols VR) |].
  assert (W : forall (b : bool) n i, 1 <= independent b n -> i < n ->
     wrapb b n i = (if b then i mod independent b n else i) /\
     (if b then i mod independent b n else i) < independent b n).
  { intros b n i Hn Hi. destruct b; cbn [wrapb]; unfold independent in *; [| lia].
    split; [| apply Nat.mod_upper_bound; lia].
    unfold wrap. destruct (Nat.ltb_spec i (n - 1)).
    - symmetry. now apply Nat.mod_small.
    - replace i with (n - 1) by lia. symmetry. apply Nat.mod_same. lia. }
  split.
  - intros v i j Hi Hj. unfold sapply. rewrite (v_at VF) by assumption.
    destruct (W (ax0 per) nx i H0 Hi) as [W1 W1']. destruct (W (ax1 per) ny j H1 Hj) as [W2 W2'].
    rewrite (v_at V) by assumption. now rewrite W1, W2.
  - intros v c Hc. rewrite (v_cols V) in Hc.
    destruct (flat_split _ _ Hc) as (i & j & Hi & Hj & ->).
    unfold sapply. rewrite (v_at VR) by assumption.
    pose proof (v_fx VR Hi). pose proof (v_fy VR Hj).
    rewrite (v_at VF) by assumption. f_equal.
    pose proof (geon_unit (ax1 symm) F1 H1). pose proof (unitn_le (ax1 periods) (independent (ax1 per) ny)).
    pose proof (geon_unit (ax0 symm) F0 H0). pose proof (unitn_le (ax0 periods) (independent (ax0 per) nx)).
    unfold redn in *. unfold independent in *.
    assert (WB : forall (b : bool) n i, i < n - (if b then 1 else 0) -> wrapb b n i = i).
    { intros b n k Hk. destruct b; [| reflexivity]. cbn [wrapb]. unfold wrap.
      destruct (Nat.ltb_spec k (n - 1)); lia. }
    rewrite !WB by lia. now rewrite !canon_fixed.
Qed.
