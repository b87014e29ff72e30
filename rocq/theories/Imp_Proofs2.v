(** The fields after widening; when the call succeeds; the entries of the result. *)
From Verif Require Import QTac Grid_Model Grid_Proofs Slice_Proofs2 Imp_Model Imp_Spec Imp_Proofs.
Set Implicit Arguments.
Open Scope Q_scope.

(** np.repeat along an axis whose coordinate is single, else nothing *)
Definition stretch (s : bool) (a : nat) (v : nd) : nd :=
  if s then Nd (lset (sh v) a (nth a (sh v) 0 * 3)%nat) (fun i => el v (lset i a (nth a i 0 / 3)%nat)) else v.

Lemma repeat_fields_spec (f : dict nd) (v : nat -> nd) a : (forall i, (i < 3)%nat -> f i = Some (v i)) ->
  (exists f', repeat_fields [0; 1; 2]%nat f 3 a = Ok f' /\ (forall i, (i < 3)%nat -> f' i = Some (stretch true a (v i)) /\ (a < length (sh (v i)))%nat)) \/
  (repeat_fields [0; 1; 2]%nat f 3 a = Err ValueError /\ exists i, (i < 3)%nat /\ (length (sh (v i)) <= a)%nat).
Proof.
  intros H. cbn [repeat_fields]. unfold dget, nd_repeat. rewrite (H 0%nat) by lia. cbn [bind].
  destruct (Nat.ltb_spec a (length (sh (v 0%nat)))) as [L0|L0]; [|right; split; [reflexivity|exists 0%nat; auto]].
  cbn [bind]. rewrite dset_other by lia. rewrite (H 1%nat) by lia. cbn [bind].
  destruct (Nat.ltb_spec a (length (sh (v 1%nat)))) as [L1|L1]; [|right; split; [reflexivity|exists 1%nat; auto]].
  cbn [bind]. rewrite !dset_other by lia. rewrite (H 2%nat) by lia. cbn [bind].
  destruct (Nat.ltb_spec a (length (sh (v 2%nat)))) as [L2|L2]; [|right; split; [reflexivity|exists 2%nat; auto]].
  left. eexists. split; [reflexivity|]. intros i Hi.
  assert (X : i = 0%nat \/ i = 1%nat \/ i = 2%nat) by lia.
  destruct X as [X|[X|X]]; subst i; (split; [|assumption]).
  - rewrite !dset_other by lia. rewrite dset_same. reflexivity.
  - rewrite dset_other by lia. rewrite dset_same. reflexivity.
  - rewrite dset_same. reflexivity.
Qed.

Lemma widen_spec g a cs (f : dict nd) (v : nat -> nd) : (forall i, (i < 3)%nat -> f i = Some (v i)) ->
  let l := nth a cs [] in let w := qn (dxyz (g_edges g a)) 0 in
  (exists f', widen_axis g a (cs, f) = Ok (if single l then lset cs a (wide l w) else cs, f') /\
     (forall i, (i < 3)%nat -> f' i = Some (stretch (single l) a (v i)) /\ (single l = true -> (a < length (sh (v i)))%nat))) \/
  (widen_axis g a (cs, f) = Err ValueError /\ exists i, (i < 3)%nat /\ (length (sh (v i)) <= a)%nat).
Proof.
  intros H l w. unfold widen_axis. fold l. unfold single, wide. destruct (Nat.eqb (length l) 1).
  - cbn [length]. destruct (@repeat_fields_spec f v a H) as [(f' & E & F)|(E & X)]; rewrite E; cbn [bind].
    + left. exists f'. split; [reflexivity|]. intros i Hi. destruct (F i Hi). auto.
    + right. auto.
  - left. exists f. split; [reflexivity|]. intros i Hi. split; [apply H, Hi|discriminate].
Qed.

Definition full (sx sy sz : bool) (v : nd) : nd := stretch sz 2 (stretch sy 1 (stretch sx 0 v)).
Lemma stretch_length s a v : length (sh (stretch s a v)) = length (sh v).
Proof. destruct s; cbn [stretch sh]; [apply lset_length|reflexivity]. Qed.

(** the three widenings together *)
Lemma widen_all g lx ly lz (f : dict nd) (v : nat -> nd) : (forall i, (i < 3)%nat -> f i = Some (v i)) ->
  let r := bind (widen_axis g 0 ([lx; ly; lz], f)) (fun s0 => bind (widen_axis g 1 s0) (fun s1 => widen_axis g 2 s1)) in
  (exists f', r = Ok ([wide lx (qn (dxyz (g_edges g 0)) 0); wide ly (qn (dxyz (g_edges g 1)) 0); wide lz (qn (dxyz (g_edges g 2)) 0)], f') /\
     (forall i, (i < 3)%nat -> f' i = Some (full (single lx) (single ly) (single lz) (v i)))) \/
  (r = Err ValueError /\ exists i, (i < 3)%nat /\ (length (sh (v i)) < 3)%nat).
Proof.
  intros H r. unfold r.
  destruct (@widen_spec g 0 [lx; ly; lz] f v H) as [(f0 & E0 & F0)|(E0 & X)]; rewrite E0; cbn [bind].
  2: { right. split; [reflexivity|]. destruct X as (i & Hi & L). exists i. lia. }
  cbn [nth]. assert (F0' := fun i Hi => proj1 (F0 i Hi)).
  assert (C0 : (if single lx then lset [lx; ly; lz] 0 (wide lx (qn (dxyz (g_edges g 0)) 0)) else [lx; ly; lz]) = [wide lx (qn (dxyz (g_edges g 0)) 0); ly; lz]).
  { unfold single, wide. destruct (Nat.eqb (length lx) 1); reflexivity. }
  rewrite C0.
  match goal with |- context[widen_axis g 1 (?cs, _)] => destruct (@widen_spec g 1 cs f0 _ F0') as [(f1 & E1 & F1)|(E1 & X)] end; rewrite E1; cbn [bind].
  2: { right. split; [reflexivity|]. destruct X as (i & Hi & L). exists i. rewrite stretch_length in L. lia. }
  cbn [nth]. assert (F1' := fun i Hi => proj1 (F1 i Hi)). cbn [nth] in F1'.
  assert (C1 : forall a, (if single ly then lset [a; ly; lz] 1 (wide ly (qn (dxyz (g_edges g 1)) 0)) else [a; ly; lz]) = [a; wide ly (qn (dxyz (g_edges g 1)) 0); lz]).
  { intros a. unfold single, wide. destruct (Nat.eqb (length ly) 1); reflexivity. }
  rewrite C1.
  match goal with |- context[widen_axis g 2 (?cs, _)] => destruct (@widen_spec g 2 cs f1 _ F1') as [(f2 & E2 & F2)|(E2 & X)] end; rewrite E2.
  2: { right. split; [reflexivity|]. destruct X as (i & Hi & L). exists i. rewrite !stretch_length in L. lia. }
  left. exists f2. cbn [nth]. assert (C2 : forall a b, (if single lz then lset [a; b; lz] 2 (wide lz (qn (dxyz (g_edges g 2)) 0)) else [a; b; lz]) = [a; b; wide lz (qn (dxyz (g_edges g 2)) 0)]).
  { intros a b. unfold single, wide. destruct (Nat.eqb (length lz) 1); reflexivity. }
  rewrite C2. split; [reflexivity|]. intros i Hi. exact (proj1 (F2 i Hi)).
Qed.

Lemma full_field sx sy sz v : field_of sx sy sz v (full sx sy sz v).
Proof. intros a b c. unfold full, stretch, orig. destruct sx, sy, sz; reflexivity. Qed.
Lemma times3 n : (n * 3 =? 3)%nat = (n =? 1)%nat.
Proof. destruct (Nat.eqb_spec n 1); [subst; reflexivity|]. apply Nat.eqb_neq. lia. Qed.

(** when the interpolator accepts the widened data *)
Lemma interpolator_spec lx ly lz wx wy wz v : 0 < wx -> 0 < wy -> 0 < wz ->
  interpolator_ok [wide lx wx; wide ly wy; wide lz wz] (full (single lx) (single ly) (single lz) v) = Ok tt /\ increasing lx /\ increasing ly /\ increasing lz /\ sh v = [length lx; length ly; length lz] \/
  interpolator_ok [wide lx wx; wide ly wy; wide lz wz] (full (single lx) (single ly) (single lz) v) = Err ValueError /\ ~ (increasing lx /\ increasing ly /\ increasing lz /\ sh v = [length lx; length ly; length lz]).
Proof.
  intros Wx Wy Wz. unfold interpolator_ok.
  assert (Ln : length (sh (full (single lx) (single ly) (single lz) v)) = length (sh v)) by (unfold full; rewrite !stretch_length; reflexivity).
  rewrite Ln. destruct (Nat.eqb_spec (length (sh v)) 3) as [L3|L3].
  2: { right. cbn [negb]. split; [reflexivity|]. intros (_ & _ & _ & E). rewrite E in L3. apply L3. reflexivity. }
  cbn [negb]. destruct v as [s e]. cbn [sh] in *. destruct s as [|a [|b [|c [|]]]]; cbn [length] in L3; try lia. clear L3 Ln.
  assert (W : forall l w n, 0 < w -> ascending (wide l w) && ((if single l then n * 3 else n) =? length (wide l w))%nat = true <-> increasing l /\ n = length l).
  { intros l w n Wp. rewrite andb_true_iff, ascending_increasing, Nat.eqb_eq. unfold single, wide. destruct (Nat.eqb_spec (length l) 1) as [E1|E1].
    - assert (I3 : increasing [qn l 0 - w / 2; qn l 0; qn l 0 + w / 2]).
      { assert (H2 := halve w). apply ascending_increasing. cbn [ascending]. rewrite !andb_true_iff, !qlt_true. split; [Lqa.lra|split; [Lqa.lra|reflexivity]]. }
      assert (I1 : increasing l) by (intros i j Hij; lia). cbn [length]. rewrite E1. split; intros [A B]; (split; [assumption|lia]).
    - reflexivity. }
  assert (Sh : sh (full (single lx) (single ly) (single lz) (Nd [a; b; c] e)) = [if single lx then a * 3 else a; if single ly then b * 3 else b; if single lz then c * 3 else c]%nat).
  { unfold full, stretch. destruct (single lx), (single ly), (single lz); reflexivity. }
  cbn [forallb]. rewrite Sh. cbn [nth].
  destruct (ascending (wide lx wx) && ((if single lx then a * 3 else a) =? length (wide lx wx))%nat) eqn:Ax.
  2: { right. split; [reflexivity|]. intros (I & _ & _ & E). injection E as E1 E2 E3. assert (X := proj2 (W lx wx a Wx) (conj I E1)). congruence. }
  destruct (ascending (wide ly wy) && ((if single ly then b * 3 else b) =? length (wide ly wy))%nat) eqn:Ay.
  2: { right. split; [reflexivity|]. intros (_ & I & _ & E). injection E as E1 E2 E3. assert (X := proj2 (W ly wy b Wy) (conj I E2)). congruence. }
  destruct (ascending (wide lz wz) && ((if single lz then c * 3 else c) =? length (wide lz wz))%nat) eqn:Az.
  2: { right. split; [reflexivity|]. intros (_ & _ & I & E). injection E as E1 E2 E3. assert (X := proj2 (W lz wz c Wz) (conj I E3)). congruence. }
  left. apply (W lx wx a Wx) in Ax. apply (W ly wy b Wy) in Ay. apply (W lz wz c Wz) in Az.
  destruct Ax as [I1 E1], Ay as [I2 E2], Az as [I3 E3]. subst. auto.
Qed.

Lemma placed_increasing rows c : increasing (placed rows c) <-> increasing (nth 0 rows []).
Proof.
  assert (P : forall i, (i < length (nth 0 rows []))%nat -> qn (placed rows c) i == qn (nth 0 rows []) i + c).
  { intros i Hi. unfold placed, qn. rewrite (nth_indep _ 0 (0 + c)) by (rewrite map_length; exact Hi). rewrite (map_nth (fun q => q + c)). reflexivity. }
  assert (L : length (placed rows c) = length (nth 0 rows [])) by (unfold placed; apply map_length).
  unfold increasing. rewrite L. split; intros H i j Hij; specialize (H i j Hij); assert (A := P i ltac:(lia)); assert (B := P j ltac:(lia)); Lqa.lra.
Qed.
Lemma placed_length rows c : length (placed rows c) = length (nth 0 rows []).
Proof. unfold placed. apply map_length. Qed.
Lemma load_placed m center a rows : m_coord m a = Some rows -> nth 0 rows [] <> [] -> load_axis m center a = Ok (placed rows (center a)).
Proof. intros E N. unfold load_axis, placed. rewrite E. destruct rows as [|r t]; [exfalso; apply N; reflexivity|reflexivity]. Qed.

Lemma width_pos g a : proper_grid g -> (a < 3)%nat -> qn (dxyz (g_edges g a)) 0 == first_width (g_edges g a) /\ 0 < qn (dxyz (g_edges g a)) 0.
Proof.
  intros P Ha. destruct (P a Ha) as [I L]. assert (E : qn (dxyz (g_edges g a)) 0 == first_width (g_edges g a)) by (unfold first_width; apply dxyz_at; lia).
  split; [exact E|]. rewrite E. unfold first_width. assert (X := I 0%nat 1%nat ltac:(lia)). Lqa.lra.
Qed.

Section Call.
Variables (g : grid3) (center : nat -> Q) (m : mat) (rows : nat -> list (list Q)) (field : nat -> nd).
Hypothesis Comp : complete m rows field.
Hypothesis Grid : proper_grid g.
Let l (a : nat) := placed (rows a) (center a).
Let w (a : nat) := qn (dxyz (g_edges g a)) 0.
Let cs := [wide (l 0) (w 0); wide (l 1) (w 1); wide (l 2) (w 2)].
Let vfull (i : nat) := full (single (l 0)) (single (l 1)) (single (l 2)) (field i).
Definition comp_values (i : nat) : list (list (list C)) :=
  map (fun x => map (fun y => map (fun z => interpolate (wide (l 0) (w 0)) (wide (l 1) (w 1)) (wide (l 2) (w 2)) (vfull i) x y z)
        (sample_axis g i 2)) (sample_axis g i 1)) (sample_axis g i 0).

Lemma l_nonempty a : (a < 3)%nat -> length (l a) <> 0%nat.
Proof. intros Ha. destruct (Comp Ha) as (_ & N & _). unfold l. rewrite placed_length. destruct (nth 0 (rows a) []); [congruence|discriminate]. Qed.
Lemma component_spec (f : dict nd) i : (i < 3)%nat -> f i = Some (vfull i) ->
  component g cs f i = Ok (comp_values i) /\ increasing (l 0) /\ increasing (l 1) /\ increasing (l 2) /\ sh (field i) = [length (l 0); length (l 1); length (l 2)] \/
  component g cs f i = Err ValueError /\ ~ (increasing (l 0) /\ increasing (l 1) /\ increasing (l 2) /\ sh (field i) = [length (l 0); length (l 1); length (l 2)]).
Proof.
  intros Hi Hf. unfold component, dget. rewrite Hf. cbn [bind].
  destruct (@interpolator_spec (l 0) (l 1) (l 2) (w 0) (w 1) (w 2) (field i) (proj2 (width_pos Grid (ltac:(lia) : (0 < 3)%nat))) (proj2 (width_pos Grid (ltac:(lia) : (1 < 3)%nat))) (proj2 (width_pos Grid (ltac:(lia) : (2 < 3)%nat)))) as [[E R]|[E R]];
    fold (vfull i) in E; fold cs in E; rewrite E; cbn [bind]; [left|right]; (split; [|exact R]); [|reflexivity].
  replace (existsb _ _) with false; [reflexivity|]. symmetry. unfold cs. cbn [existsb nth].
  assert (Z : forall a, (a < 3)%nat -> Nat.eqb (length (wide (l a) (w a))) 0 = false).
  { intros a Ha. apply Nat.eqb_neq. assert (X := @wide_length (l a) (w a) (l_nonempty Ha)). lia. }
  rewrite !Z by lia. reflexivity.
Qed.
Lemma import_spec : (consistent rows field /\ import_overlap g center m = Ok [comp_values 0; comp_values 1; comp_values 2]) \/
  (~ consistent rows field /\ import_overlap g center m = Err ValueError).
Proof.
  destruct (Comp (ltac:(lia) : (0 < 3)%nat)) as (C0 & N0 & _ & _), (Comp (ltac:(lia) : (1 < 3)%nat)) as (C1 & N1 & _ & _), (Comp (ltac:(lia) : (2 < 3)%nat)) as (C2 & N2 & _ & _).
  unfold import_overlap. rewrite (@load_placed m center 0 _ C0 N0), (@load_placed m center 1 _ C1 N1), (@load_placed m center 2 _ C2 N2). cbn [bind].
  fold (l 0) (l 1) (l 2).
  assert (Hf : forall i, (i < 3)%nat -> m_field m i = Some (field i)) by (intros i Hi; apply (Comp Hi)).
  assert (Wa := @widen_all g (l 0) (l 1) (l 2) (m_field m) field Hf). cbn zeta in Wa.
  assert (Inc : forall a, (a < 3)%nat -> increasing (l a) <-> increasing (nth 0 (rows a) [])) by (intros a _; apply placed_increasing).
  assert (Len : forall a, length (l a) = length (nth 0 (rows a) [])) by (intros a; apply placed_length).
  destruct (widen_axis g 0 ([l 0; l 1; l 2], m_field m)) as [s0|e0]; cbn [bind] in *.
  2: { destruct Wa as [(f' & E & _)|(E & i & Hi & L)]; [discriminate|]. right. split; [|congruence]. intros Co. destruct (Co i Hi) as [_ Sh]. rewrite Sh in L. cbn in L. lia. }
  destruct (widen_axis g 1 s0) as [s1|e1]; cbn [bind] in *.
  2: { destruct Wa as [(f' & E & _)|(E & i & Hi & L)]; [discriminate|]. right. split; [|congruence]. intros Co. destruct (Co i Hi) as [_ Sh]. rewrite Sh in L. cbn in L. lia. }
  destruct (widen_axis g 2 s1) as [s2|e2]; cbn [bind] in *.
  2: { destruct Wa as [(f' & E & _)|(E & i & Hi & L)]; [discriminate|]. right. split; [|congruence]. intros Co. destruct (Co i Hi) as [_ Sh]. rewrite Sh in L. cbn in L. lia. }
  destruct Wa as [(f' & E & F)|(E & _)]; [|discriminate]. injection E as E. subst s2. cbn [fst snd]. fold (w 0) (w 1) (w 2). fold cs.
  assert (Bad : forall i, (i < 3)%nat -> ~ (increasing (l 0) /\ increasing (l 1) /\ increasing (l 2) /\ sh (field i) = [length (l 0); length (l 1); length (l 2)]) -> ~ consistent rows field).
  { intros i Hi N Co. apply N. split; [|split; [|split]]; [apply Inc; [lia|apply Co; lia]..|]. rewrite !Len. apply (Co i Hi). }
  destruct (@component_spec f' 0 ltac:(lia) (F 0%nat ltac:(lia))) as [[E0 R0]|[E0 R0]]; fold cs in E0; rewrite E0; cbn [bind]; [|right; split; [apply (Bad 0%nat); [lia|exact R0]|reflexivity]].
  destruct (@component_spec f' 1 ltac:(lia) (F 1%nat ltac:(lia))) as [[E1 R1]|[E1 R1]]; fold cs in E1; rewrite E1; cbn [bind]; [|right; split; [apply (Bad 1%nat); [lia|exact R1]|reflexivity]].
  destruct (@component_spec f' 2 ltac:(lia) (F 2%nat ltac:(lia))) as [[E2 R2]|[E2 R2]]; fold cs in E2; rewrite E2; cbn [bind]; [|right; split; [apply (Bad 2%nat); [lia|exact R2]|reflexivity]].
  left. split; [|reflexivity]. intros a Ha. destruct R0 as (I0 & I1 & I2 & S0), R1 as (_ & _ & _ & S1), R2 as (_ & _ & _ & S2). rewrite <- !Len.
  assert (X : a = 0%nat \/ a = 1%nat \/ a = 2%nat) by lia. destruct X as [X|[X|X]]; subst a; (split; [apply Inc; [lia|assumption]|assumption]).
Qed.

Lemma sample_length i a : length (sample_axis g i a) = (length (g_edges g a) - 1)%nat.
Proof. unfold sample_axis. rewrite map_length, seq_length. reflexivity. Qed.
Lemma sample_position i a k : (k < length (g_edges g a) - 1)%nat -> qn (sample_axis g i a) k == position (g_edges g a) (g_shift g i a) k.
Proof.
  intros Hk. unfold sample_axis. rewrite qn_map_seq by exact Hk. rewrite centers_nth, dxyz_at by exact Hk. unfold position. rewrite Nat.add_1_r. ring.
Qed.
Lemma entry_value E i p : (i < 3)%nat -> in_grid g p -> E = [comp_values 0; comp_values 1; comp_values 2] ->
  entry E i p = interpolate (wide (l 0) (w 0)) (wide (l 1) (w 1)) (wide (l 2) (w 2)) (vfull i) (qn (sample_axis g i 0) (p 0%nat)) (qn (sample_axis g i 1) (p 1%nat)) (qn (sample_axis g i 2) (p 2%nat)).
Proof.
  intros Hi Hp ->. unfold entry.
  assert (En : nth i [comp_values 0; comp_values 1; comp_values 2] [] = comp_values i).
  { assert (X : i = 0%nat \/ i = 1%nat \/ i = 2%nat) by lia. destruct X as [X|[X|X]]; subst i; reflexivity. }
  rewrite En. unfold comp_values.
  assert (M : forall A B (f : A -> B) (s : list A) (k : nat) (da : A) (db : B), (k < length s)%nat -> nth k (map f s) db = f (nth k s da)).
  { intros A B f s k da db Hk. rewrite (nth_indep _ db (f da)) by (rewrite map_length; exact Hk). apply map_nth. }
  rewrite (M _ _ _ _ _ 0) by (rewrite sample_length; apply Hp; lia).
  rewrite (M _ _ _ _ _ 0) by (rewrite sample_length; apply Hp; lia).
  rewrite (M _ _ _ _ _ 0) by (rewrite sample_length; apply Hp; lia).
  reflexivity.
Qed.
End Call.
