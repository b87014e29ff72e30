(** The geometry matrix as a whole. *)
From Coq Require Import Reals Lra.
From Verif Require Import Base Cub_Model Cub_Proofs.
Set Implicit Arguments.
Open Scope nat_scope.

Definition redn (per : bool) (n : nat) : nat := n - if per then 1 else 0.
Definition unitn (p n : nat) : nat := if Nat.eqb p 0 then n else n / p.
Definition cellb (p : nat) (s : bool) : bool := negb (Nat.eqb p 0) && s.
Definition boundn (p : nat) (s : bool) (n : nat) : nat :=
  if cellb p s then unitn p n + 1 else unitn p n.
Definition geon (p : nat) (s : bool) (n : nat) : nat :=
  if s then half_up (boundn p s n) else boundn p s n.
Definition unitm (p n i : nat) : nat := if Nat.eqb p 0 then i else i mod (n / p).
Definition symm_m (s : bool) (n i : nat) : nat := if s then mirror n i else i.
Definition canon (p : nat) (s : bool) (n i : nat) : nat :=
  symm_m s (boundn p s n) (unitm p n i).
Definition wrapb (b : bool) (n i : nat) : nat := if b then wrap n i else i.

Definition divides (p n : nat) : Prop := p = 0 \/ n mod p = 0.

Lemma unitn_pos p n : divides p n -> 1 <= n -> 1 <= unitn p n.
Proof.
  intros D H. unfold unitn. destruct (Nat.eqb_spec p 0); [exact H |].
  destruct D as [D | D]; [contradiction |]. now apply unit_pos.
Qed.

(** the stages *)
Lemma st_add_y g0 g1 (per : bool) : (per = true -> 2 <= g1) ->
  let m := if per then dup_y g0 g1 else (eye (g0 * g1), eye (g0 * g1)) in
  view (fst m) g0 g1 g0 (redn per g1) (fun i => i) (wrapb per g1) /\
  view (snd m) g0 (redn per g1) g0 g1 (fun i => i) (fun j => j).
Proof.
  intros H. destruct per; cbn; unfold redn.
  - split; [apply view_dup_y | apply view_dup_y_rev]; auto.
  - replace (g1 - 0) with g1 by lia. split; now apply view_eye.
Qed.

Lemma st_add_x g0 g1 (per : bool) n m : (per = true -> 2 <= g0) ->
  n = g0 * g1 -> m = g0 * g1 ->
  let m := if per then dup_x g0 g1 else (eye n, eye m) in
  view (fst m) g0 g1 (redn per g0) g1 (wrapb per g0) (fun j => j) /\
  view (snd m) (redn per g0) g1 g0 g1 (fun i => i) (fun j => j).
Proof.
  intros H -> ->. destruct per; cbn; unfold redn.
  - split; [apply view_dup_x | apply view_dup_x_rev]; auto.
  - replace (g0 - 0) with g0 by lia. split; now apply view_eye.
Qed.

Lemma st_per_y g0 g1 p n m : divides p g1 -> 1 <= g1 -> n = g0 * g1 -> m = g0 * g1 ->
  exists A B, (if Nat.eqb p 0 then Ok (eye n, eye m)
        else if Nat.eqb (g1 mod p) 0
        then Ok (periodic_y g0 g1 p) else Err ValueError) = Ok (A, B) /\
  view A g0 g1 g0 (unitn p g1) (fun i => i) (unitm p g1) /\
  view B g0 (unitn p g1) g0 g1 (fun i => i) (fun j => j).
Proof.
  intros D H -> ->. unfold unitn, unitm. destruct (Nat.eqb_spec p 0) as [E | E].
  - eexists _, _. split; [reflexivity |]. split; now apply view_eye.
  - destruct D as [D | D]; [contradiction |]. rewrite D. cbn [Nat.eqb].
    exists (fst (periodic_y g0 g1 p)), (snd (periodic_y g0 g1 p)).
    split; [now destruct (periodic_y g0 g1 p) |].
    split; [now apply view_periodic_y | now apply view_periodic_y_rev].
Qed.

Lemma st_per_x g0 g1 p n m : divides p g0 -> 1 <= g0 -> n = g0 * g1 -> m = g0 * g1 ->
  exists A B, (if Nat.eqb p 0 then Ok (eye n, eye m)
        else if Nat.eqb (g0 mod p) 0
        then Ok (periodic_x g0 g1 p) else Err ValueError) = Ok (A, B) /\
  view A g0 g1 (unitn p g0) g1 (unitm p g0) (fun j => j) /\
  view B (unitn p g0) g1 g0 g1 (fun i => i) (fun j => j).
Proof.
  intros D H -> ->. unfold unitn, unitm. destruct (Nat.eqb_spec p 0) as [E | E].
  - eexists _, _. split; [reflexivity |]. split; now apply view_eye.
  - destruct D as [D | D]; [contradiction |]. rewrite D. cbn [Nat.eqb].
    exists (fst (periodic_x g0 g1 p)), (snd (periodic_x g0 g1 p)).
    split; [now destruct (periodic_x g0 g1 p) |].
    split; [now apply view_periodic_x | now apply view_periodic_x_rev].
Qed.

Lemma st_cell_y g0 g1 (b : bool) n m : 1 <= g1 -> n = g0 * g1 -> m = g0 * g1 ->
  let g1' := if b then g1 + 1 else g1 in
  let mm := if b then dup_y g0 g1' else (eye n, eye m) in
  view (fst mm) g0 g1' g0 g1 (fun i => i) (wrapb b g1') /\
  view (snd mm) g0 g1 g0 g1' (fun i => i) (fun j => j).
Proof.
  intros H -> ->. destruct b; cbn zeta.
  - pose proof (@view_dup_y g0 (g1 + 1)) as V. pose proof (@view_dup_y_rev g0 (g1 + 1)) as V'.
    replace (g1 + 1 - 1) with g1 in V, V' by lia. split; [apply V | apply V']; lia.
  - split; now apply view_eye.
Qed.

Lemma st_cell_x g0 g1 (b : bool) n m : 1 <= g0 -> n = g0 * g1 -> m = g0 * g1 ->
  let g0' := if b then g0 + 1 else g0 in
  let mm := if b then dup_x g0' g1 else (eye n, eye m) in
  view (fst mm) g0' g1 g0 g1 (wrapb b g0') (fun j => j) /\
  view (snd mm) g0 g1 g0' g1 (fun i => i) (fun j => j).
Proof.
  intros H -> ->. destruct b; cbn zeta.
  - pose proof (@view_dup_x (g0 + 1) g1) as V. pose proof (@view_dup_x_rev (g0 + 1) g1) as V'.
    replace (g0 + 1 - 1) with g0 in V, V' by lia. split; [apply V | apply V']; lia.
  - split; now apply view_eye.
Qed.

Lemma st_sym_y g0 g1 (s : bool) n m : n = g0 * g1 -> m = g0 * g1 ->
  let mm := if s then symmetry_0 g0 g1 else (eye n, eye m) in
  let g1' := if s then half_up g1 else g1 in
  view (fst mm) g0 g1 g0 g1' (fun i => i) (symm_m s g1) /\
  view (snd mm) g0 g1' g0 g1 (fun i => i) (fun j => j).
Proof.
  intros -> ->. destruct s; cbn [fst snd].
  - split; [apply view_symmetry_0 | apply view_symmetry_0_rev].
  - split; now apply view_eye.
Qed.

Lemma st_sym_x g0 g1 (s : bool) n m : n = g0 * g1 -> m = g0 * g1 ->
  let mm := if s then symmetry_1 g0 g1 else (eye n, eye m) in
  let g0' := if s then half_up g0 else g0 in
  view (fst mm) g0 g1 g0' g1 (symm_m s g0) (fun j => j) /\
  view (snd mm) g0' g1 g0 g1 (fun i => i) (fun j => j).
Proof.
  intros -> ->. destruct s; cbn [fst snd].
  - split; [apply view_symmetry_1 | apply view_symmetry_1_rev].
  - split; now apply view_eye.
Qed.

Ltac chain_step H1 H2 H :=
  let C := fresh "C" in let E := fresh "E" in
  destruct (view_smul H1 H2) as (C & E & H).

Lemma half_unit p s n : divides p n -> 1 <= n ->
  forall i, i < geon p s n -> wrapb (cellb p s) (boundn p s n) i = i.
Proof.
  intros D H i Hi. pose proof (unitn_pos D H) as U.
  unfold wrapb, geon, boundn in *. unfold cellb in *.
  destruct (negb (Nat.eqb p 0)); cbn [andb] in *; [| reflexivity].
  destruct s; [| reflexivity]. unfold wrap.
  pose proof (half_sum (unitn p n + 1)). destruct (half_cases (unitn p n + 1));
    destruct (Nat.ltb_spec i (unitn p n + 1 - 1)); lia.
Qed.

Lemma geometry_views nx ny symm per periods :
  let n0 := redn (ax0 per) nx in
  let n1 := redn (ax1 per) ny in
  let g0 := geon (ax0 periods) (ax0 symm) n0 in
  let g1 := geon (ax1 periods) (ax1 symm) n1 in
  1 <= n0 -> 1 <= n1 ->
  divides (ax0 periods) n0 -> divides (ax1 periods) n1 ->
  exists geo geof rev,
    make_geometry_matrix (Two nx ny) symm per periods false = Ok (geo, rev, Two g0 g1) /\
    make_geometry_matrix (Two nx ny) symm per periods true = Ok (geof, rev, Two g0 g1) /\
    view geo n0 n1 g0 g1 (canon (ax0 periods) (ax0 symm) n0) (canon (ax1 periods) (ax1 symm) n1) /\
    view geof nx ny g0 g1
      (fun i => canon (ax0 periods) (ax0 symm) n0 (wrapb (ax0 per) nx i))
      (fun j => canon (ax1 periods) (ax1 symm) n1 (wrapb (ax1 per) ny j)) /\
    view rev g0 g1 nx ny (fun i => i) (fun j => j).
Proof.
  destruct symm as [s0 s1], per as [pr0 pr1], periods as [p0 p1].
  cbn [ax0 ax1].
  set (n0 := redn pr0 nx). set (n1 := redn pr1 ny).
  set (g0 := geon p0 s0 n0). set (g1 := geon p1 s1 n1).
  intros H0 H1 D0 D1.
  assert (A0 : pr0 = true -> 2 <= nx) by (intros ->; unfold n0, redn in H0; lia).
  assert (A1 : pr1 = true -> 2 <= ny) by (intros ->; unfold n1, redn in H1; lia).
  unfold make_geometry_matrix. cbn [ax0 ax1].
  (* boundaries *)
  pose proof (@st_add_y nx ny pr1 A1) as Say. cbn zeta in Say.
  set (may := if pr1 then dup_y nx ny else _) in *. clearbody may.
  destruct may as [ay ray]. cbn [fst snd] in Say. destruct Say as [Vay Vray].
  replace (if pr1 then ny - 1 else ny) with n1
    by (unfold n1, redn; destruct pr1; lia).
  fold n1 in Vay, Vray.
  assert (Eay : cols ay = nx * n1) by apply (v_cols Vay).
  assert (Eray : rows ray = nx * n1) by apply (v_rows Vray).
  pose proof (@st_add_x nx n1 pr0 _ _ A0 Eay Eray) as Sax. cbn zeta in Sax.
  set (may := if pr0 then dup_x nx n1 else _) in *. clearbody may.
  destruct may as [ax rax]. cbn [fst snd] in Sax. destruct Sax as [Vax Vrax].
  replace (if pr0 then nx - 1 else nx) with n0
    by (unfold n0, redn; destruct pr0; lia).
  fold n0 in Vax, Vrax.
  (* periods *)
  destruct (@st_per_y n0 n1 p1 _ _ D1 H1 (v_cols Vax) (v_rows Vrax)) as (py & rpy & Epy & Vpy & Vrpy).
  rewrite Epy. cbn [bind fst snd].
  replace (if Nat.eqb p1 0 then n1 else n1 / p1) with (unitn p1 n1) by reflexivity.
  pose proof (unitn_pos D1 H1) as U1. pose proof (unitn_pos D0 H0) as U0.
  destruct (@st_per_x n0 (unitn p1 n1) p0 _ _ D0 H0 (v_cols Vpy) (v_rows Vrpy))
    as (px & rpx & Epx & Vpx & Vrpx).
  rewrite Epx. cbn [bind fst snd].
  replace (if Nat.eqb p0 0 then n0 else n0 / p0) with (unitn p0 n0) by reflexivity.
  fold (cellb p0 s0). fold (cellb p1 s1).
  (* unit cells *)
  pose proof (@st_cell_y (unitn p0 n0) (unitn p1 n1) (cellb p1 s1) _ _ U1 (v_cols Vpx) (v_rows Vrpx)) as Scy.
  cbn zeta in Scy.
  fold (boundn p1 s1 n1) in Scy. fold (boundn p1 s1 n1).
  set (may := if cellb p1 s1 then dup_y _ _ else _) in *. clearbody may.
  destruct may as [cy rcy]. cbn [fst snd] in Scy. destruct Scy as [Vcy Vrcy].
  pose proof (@st_cell_x (unitn p0 n0) (boundn p1 s1 n1) (cellb p0 s0) _ _ U0 (v_rows Vcy) (v_cols Vrcy)) as Scx.
  cbn zeta in Scx.
  fold (boundn p0 s0 n0) in Scx. fold (boundn p0 s0 n0).
  set (may := if cellb p0 s0 then dup_x _ _ else _) in *. clearbody may.
  destruct may as [cx rcx]. cbn [fst snd] in Scx. destruct Scx as [Vcx Vrcx].
  (* symmetry *)
  pose proof (@st_sym_y (boundn p0 s0 n0) (boundn p1 s1 n1) s1 _ _ (v_cols Vrcx) (v_rows Vcx)) as Ssy.
  cbn zeta in Ssy.
  fold (geon p1 s1 n1) in Ssy. fold (geon p1 s1 n1).
  set (may := if s1 then symmetry_0 _ _ else _) in *. clearbody may.
  destruct may as [sy rsy]. cbn [fst snd] in Ssy. destruct Ssy as [Vsy Vrsy].
  pose proof (@st_sym_x (boundn p0 s0 n0) (geon p1 s1 n1) s0 _ _ (v_cols Vsy) (v_rows Vrsy)) as Ssx.
  cbn zeta in Ssx.
  fold (geon p0 s0 n0) in Ssx. fold (geon p0 s0 n0).
  set (may := if s0 then symmetry_1 _ _ else _) in *. clearbody may.
  destruct may as [sx rsx]. cbn [fst snd] in Ssx. destruct Ssx as [Vsx Vrsx].
  fold g0 in Vsx, Vrsx. fold g1 in Vsx, Vrsx, Vsy, Vrsy. fold g0. fold g1.
  cbn [schain].
  (* geometry *)
  chain_step Vpy Vpx W1. rewrite E. cbn [bind].
  chain_step W1 Vrcy W2. rewrite E0. cbn [bind].
  chain_step W2 Vrcx W3. rewrite E1. cbn [bind].
  chain_step W3 Vsy W4. rewrite E2. cbn [bind].
  chain_step W4 Vsx W5. rewrite E3. cbn [bind].
  (* full *)
  chain_step Vay Vax X0. rewrite E4. cbn [bind].
  chain_step X0 Vpy X1. rewrite E5. cbn [bind].
  chain_step X1 Vpx X2. rewrite E6. cbn [bind].
  chain_step X2 Vrcy X3. rewrite E7. cbn [bind].
  chain_step X3 Vrcx X4. rewrite E8. cbn [bind].
  chain_step X4 Vsy X5. rewrite E9. cbn [bind].
  chain_step X5 Vsx X6. rewrite E10. cbn [bind].
  (* reverse *)
  chain_step Vrsx Vrsy Y1. rewrite E11. cbn [bind].
  chain_step Y1 Vcx Y2. rewrite E12. cbn [bind].
  chain_step Y2 Vcy Y3. rewrite E13. cbn [bind].
  chain_step Y3 Vrpx Y4. rewrite E14. cbn [bind].
  chain_step Y4 Vrpy Y5. rewrite E15. cbn [bind].
  chain_step Y5 Vrax Y6. rewrite E16. cbn [bind].
  chain_step Y6 Vray Y7. rewrite E17. cbn [bind].
  eexists _, _, _. split; [reflexivity |]. split; [reflexivity |].
  split; [exact W5 |]. split; [exact X6 |].
  refine (@view_ext _ _ _ _ _ _ _ _ _ Y7 _ _).
  - intros i Hi. unfold g0 in Hi. exact (@half_unit p0 s0 n0 D0 H0 i Hi).
  - intros i Hi. unfold g1 in Hi. exact (@half_unit p1 s1 n1 D1 H1 i Hi).
Qed.
