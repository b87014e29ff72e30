(** The meshes of the sphere and the half sphere; selection of all triangles. *)
From Coq Require Import Reals Lra Psatz Lia Ring Field.
From Verif Require Import Base Ff_Model Ff_Spec Ff_Proofs Ff_Proofs2.
Set Implicit Arguments.
Local Open Scope R_scope.

Definition octant (sx sy sz : R) (p : vec3) : Prop := 0 <= sx * px p /\ 0 <= sy * py p /\ 0 <= sz * pz p.
Definition sign (s : R) : Prop := s = 1 \/ s = -1.
Definition octants (Z : R -> Prop) (Q : vec3 -> Prop) : Prop := exists sx sy sz, sign sx /\ sign sy /\ sign sz /\ Z sz /\ Q = octant sx sy sz.
Lemma octants_closed Z Q : octants Z Q -> closed Q.
Proof.
  intros (sx & sy & sz & _ & _ & _ & _ & ->) k a b Hk (A1 & A2 & A3) (B1 & B2 & B3). unfold octant, scale, vadd, px, py, pz in *. cbn [fst snd] in *.
  repeat split; match goal with |- 0 <= ?s * (k * (?u + ?w)) => replace (s * (k * (u + w))) with (k * (s * u + s * w)) by ring end; apply Rmult_le_pos; lra.
Qed.
Ltac tri_corners := repeat match goal with
  | H : has_corners _ _ _ _ _ |- _ => cbn in H; destruct H as (?H & ?H & ?H)
  | H : Some _ = Some _ |- _ => injection H as <-
  end.
Ltac signs H := let a := fresh "a" in let b := fresh "b" in let c := fresh "c" in let x := fresh "x" in let y := fresh "y" in let z := fresh "z" in
  destruct H as (a & b & c & x & y & z & H & ? & ? & ? & ?E); tri_corners.
Ltac coords := unfold combination, px, py, pz in *; cbn [fst snd] in *.
Definition sphere0 : list vec3 := [(1, 0, 0); (0, 1, 0); (-1, 0, 0); (0, -1, 0); (0, 0, 1); (0, 0, -1)].
Definition sphere_tris : list tri := [(0, 1, 4); (1, 2, 4); (2, 3, 4); (3, 0, 4); (0, 1, 5); (1, 2, 5); (2, 3, 5); (3, 0, 5)]%nat.
Definition half0 (s : R) : list vec3 := [(1, 0, 0); (0, 1, 0); (-1, 0, 0); (0, -1, 0); (0, 0, s)].
Definition half_tris : list tri := [(0, 1, 4); (1, 2, 4); (2, 3, 4); (3, 0, 4)]%nat.
Ltac nodup := repeat (apply NoDup_cons; [cbn; intros Hin; repeat (destruct Hin as [Hin|Hin]; [injection Hin; intros; lra|]); exact Hin|]); apply NoDup_nil.
Lemma sphere_start : mesh (octants (fun _ => True)) (fun _ => True) sphere0 sphere_tris.
Proof.
  constructor.
  - split; [unfold sphere0; nodup|]. intros p Hp. unfold sphere0 in Hp. repeat (destruct Hp as [<-|Hp]; [unfold n2, px, py, pz; cbn; ring|]). destruct Hp.
  - unfold sphere_tris. repeat constructor; do 3 eexists; (split; [repeat split|unfold det, px, py, pz; cbn; lra]).
  - intros i Hi. cbn in Hi. unfold uses, sphere_tris. do 6 (destruct i as [|i]; [match goal with |- exists t, In t ?l /\ (?k = _ \/ _) =>
      first [exists (0, 1, 4)%nat; cbn; tauto | exists (1, 2, 4)%nat; cbn; tauto | exists (2, 3, 4)%nat; cbn; tauto | exists (0, 1, 5)%nat; cbn; tauto] end|]). lia.
  - intros [[x y] z] _. destruct (Rle_dec 0 x), (Rle_dec 0 y), (Rle_dec 0 z).
    + exists (0, 1, 4)%nat. split; [cbn; tauto|]. do 3 eexists. exists x, y, z. split; [repeat split|]. repeat split; try lra. ve; ring.
    + exists (0, 1, 5)%nat. split; [cbn; tauto|]. do 3 eexists. exists x, y, (- z). split; [repeat split|]. repeat split; try lra. ve; ring.
    + exists (3, 0, 4)%nat. split; [cbn; tauto|]. do 3 eexists. exists (- y), x, z. split; [repeat split|]. repeat split; try lra. ve; ring.
    + exists (3, 0, 5)%nat. split; [cbn; tauto|]. do 3 eexists. exists (- y), x, (- z). split; [repeat split|]. repeat split; try lra. ve; ring.
    + exists (1, 2, 4)%nat. split; [cbn; tauto|]. do 3 eexists. exists y, (- x), z. split; [repeat split|]. repeat split; try lra. ve; ring.
    + exists (1, 2, 5)%nat. split; [cbn; tauto|]. do 3 eexists. exists y, (- x), (- z). split; [repeat split|]. repeat split; try lra. ve; ring.
    + exists (2, 3, 4)%nat. split; [cbn; tauto|]. do 3 eexists. exists (- x), (- y), z. split; [repeat split|]. repeat split; try lra. ve; ring.
    + exists (2, 3, 5)%nat. split; [cbn; tauto|]. do 3 eexists. exists (- x), (- y), (- z). split; [repeat split|]. repeat split; try lra. ve; ring.
  - unfold sphere_tris. repeat constructor; intros v Hv Hv'; signs Hv; signs Hv'; subst v; coords; match goal with H : (_, _, _) = (_, _, _) |- _ => injection H as ? ? ? end; lra.
  - assert (S1 : sign 1) by now left. assert (S2 : sign (-1)) by now right.
    assert (K : forall sx sy sz a b c t, sign sx -> sign sy -> sign sz -> has_corners sphere0 t a b c -> octant sx sy sz a -> octant sx sy sz b -> octant sx sy sz c ->
       exists Q, octants (fun _ => True) Q /\ all_corners Q sphere0 t).
    { intros sx sy sz a b c t H1 H2 H3 H4 H5 H6 H7. exists (octant sx sy sz). split; [exists sx, sy, sz; repeat split; auto|]. now exists a, b, c. }
    intros t Ht. repeat (destruct Ht as [<-|Ht]; [|]); [..|destruct Ht].
    + eapply (@K 1 1 1); auto; [repeat split|..]; unfold octant; coords; lra.
    + eapply (@K (-1) 1 1); auto; [repeat split|..]; unfold octant; coords; lra.
    + eapply (@K (-1) (-1) 1); auto; [repeat split|..]; unfold octant; coords; lra.
    + eapply (@K 1 (-1) 1); auto; [repeat split|..]; unfold octant; coords; lra.
    + eapply (@K 1 1 (-1)); auto; [repeat split|..]; unfold octant; coords; lra.
    + eapply (@K (-1) 1 (-1)); auto; [repeat split|..]; unfold octant; coords; lra.
    + eapply (@K (-1) (-1) (-1)); auto; [repeat split|..]; unfold octant; coords; lra.
    + eapply (@K 1 (-1) (-1)); auto; [repeat split|..]; unfold octant; coords; lra.
Qed.
Lemma half_start s : sign s -> mesh (octants (fun sz => sz = s)) (fun v => 0 <= s * pz v) (half0 s) half_tris.
Proof.
  intros Hs. constructor.
  - split; [unfold half0; destruct Hs as [-> | ->]; nodup|]. intros p Hp. unfold half0 in Hp. repeat (destruct Hp as [<-|Hp]; [unfold n2, px, py, pz; cbn; destruct Hs as [-> | ->]; ring|]). destruct Hp.
  - unfold half_tris. repeat constructor; do 3 eexists; (split; [repeat split|unfold det, px, py, pz; cbn; destruct Hs as [-> | ->]; lra]).
  - intros i Hi. cbn in Hi. unfold uses, half_tris. do 5 (destruct i as [|i]; [match goal with |- exists t, In t ?l /\ (?k = _ \/ _) =>
      first [exists (0, 1, 4)%nat; cbn; tauto | exists (1, 2, 4)%nat; cbn; tauto | exists (2, 3, 4)%nat; cbn; tauto] end|]). lia.
  - intros [[x y] z] Hz. cbn [pz snd] in Hz. assert (Ss : s * s = 1) by (destruct Hs as [-> | ->]; ring).
    assert (Ez : z = (s * z) * s) by (transitivity ((s * s) * z); [rewrite Ss|]; ring). destruct (Rle_dec 0 x), (Rle_dec 0 y).
    + exists (0, 1, 4)%nat. split; [cbn; tauto|]. do 3 eexists. exists x, y, (s * z). split; [repeat split|]. repeat split; try lra. ve; lra.
    + exists (3, 0, 4)%nat. split; [cbn; tauto|]. do 3 eexists. exists (- y), x, (s * z). split; [repeat split|]. repeat split; try lra. ve; lra.
    + exists (1, 2, 4)%nat. split; [cbn; tauto|]. do 3 eexists. exists y, (- x), (s * z). split; [repeat split|]. repeat split; try lra. ve; lra.
    + exists (2, 3, 4)%nat. split; [cbn; tauto|]. do 3 eexists. exists (- x), (- y), (s * z). split; [repeat split|]. repeat split; try lra. ve; lra.
  - unfold half_tris. repeat constructor; intros v Hv Hv'; signs Hv; signs Hv'; subst v; coords; match goal with H : (_, _, _) = (_, _, _) |- _ => injection H as ? ? ? end; lra.
  - assert (S1 : sign 1) by now left. assert (S2 : sign (-1)) by now right. assert (Ss : s * s = 1) by (destruct Hs as [-> | ->]; ring).
    assert (K : forall sx sy a b c t, sign sx -> sign sy -> has_corners (half0 s) t a b c -> octant sx sy s a -> octant sx sy s b -> octant sx sy s c ->
       exists Q, octants (fun sz => sz = s) Q /\ all_corners Q (half0 s) t).
    { intros sx sy a b c t H1 H2 H4 H5 H6 H7. exists (octant sx sy s). split; [exists sx, sy, s; repeat split; auto|]. now exists a, b, c. }
    intros t Ht. repeat (destruct Ht as [<-|Ht]; [|]); [..|destruct Ht].
    + eapply (@K 1 1); auto; [repeat split|..]; unfold octant; coords; lra.
    + eapply (@K (-1) 1); auto; [repeat split|..]; unfold octant; coords; lra.
    + eapply (@K (-1) (-1)); auto; [repeat split|..]; unfold octant; coords; lra.
    + eapply (@K 1 (-1)); auto; [repeat split|..]; unfold octant; coords; lra.
Qed.
(** ** Triangulations *)
Lemma area_pos a b c : det a b c <> 0 -> 0 < area a b c.
Proof.
  intros D. unfold area. apply Rmult_lt_0_compat; [lra|]. apply sqrt_lt_R0.
  set (u := py (vsub b a) * pz (vsub c a) - pz (vsub b a) * py (vsub c a)).
  set (v := pz (vsub b a) * px (vsub c a) - px (vsub b a) * pz (vsub c a)).
  set (w := px (vsub b a) * py (vsub c a) - py (vsub b a) * px (vsub c a)).
  assert (E : det a b c = px a * u + py a * v + pz a * w) by (unfold det, u, v, w, vsub, px, py, pz; cbn [fst snd]; ring).
  destruct (Rle_lt_dec (u * u + v * v + w * w) 0) as [H|H]; [|exact H]. exfalso. apply D. rewrite E.
  assert (u = 0) by nra. assert (v = 0) by nra. assert (w = 0) by nra. rewrite H0, H1, H2. ring.
Qed.
Lemma FOP_nth {A} (Rl : A -> A -> Prop) l i j x y : ForallOrdPairs Rl l -> (i < j)%nat -> nth_error l i = Some x -> nth_error l j = Some y -> Rl x y.
Proof.
  intros H. revert i j. induction H as [|a l Ha H IH]; intros i j Hij Hi Hj; [destruct i; discriminate|]. destruct j as [|j]; [lia|]. destruct i as [|i]; cbn in Hi, Hj.
  - injection Hi as <-. rewrite Forall_forall in Ha. apply Ha. eapply nth_error_In; eauto.
  - apply (IH i j); auto. lia.
Qed.
Lemma mesh_triangulation Fam dom pts ts : mesh Fam dom pts ts -> triangulation pts ts dom.
Proof.
  intros [[G1 G2] T U Cv Dj Fm]. constructor; auto.
  - intros t Ht. rewrite Forall_forall in T. destruct (T t Ht) as (a & b & c & H & D). exists a, b, c. split; [exact H|now apply area_pos].
  - intros i j t t' v Hi Hj Hv Hv'. destruct (Nat.lt_trichotomy i j) as [H|[H|H]]; [exfalso|exact H|exfalso].
    + exact (@FOP_nth _ _ _ i j t t' Dj H Hi Hj v Hv Hv').
    + exact (@FOP_nth _ _ _ j i t' t Dj H Hj Hi v Hv' Hv).
Qed.
Lemma sphere_mesh n : exists pts ts, make_sphere_point n = Ok (pts, ts) /\ mesh (octants (fun _ => True)) (fun _ => True) pts ts /\ length ts = (8 * 4 ^ n)%nat.
Proof. apply (refine_mesh n (@octants_closed _) sphere_start). Qed.
Lemma half_mesh n s : sign s -> exists pts ts, make_half_sphere_point n s = Ok (pts, ts) /\ mesh (octants (fun sz => sz = s)) (fun v => 0 <= s * pz v) pts ts /\ length ts = (4 * 4 ^ n)%nat.
Proof. intros Hs. apply (refine_mesh n (@octants_closed _) (half_start Hs)). Qed.
Lemma half_side n s pts ts p : sign s -> make_half_sphere_point n s = Ok (pts, ts) -> In p pts -> 0 <= s * pz p.
Proof.
  intros Hs E Hp. destruct (half_mesh n Hs) as (pts' & ts' & E' & [_ T U _ _ F] & _). rewrite E in E'. injection E' as <- <-.
  apply In_nth_error in Hp as (i & Hi). assert (Hl : (i < length pts)%nat) by (apply nth_error_Some; congruence). destruct (U i Hl) as (t & Ht & Hu).
  destruct (F t Ht) as (Q & (sx & sy & sz & _ & _ & _ & -> & ->) & (a & b & c & Hc & Qa & Qb & Qc)). destruct t as [[i1 i2] i3]. destruct Hc as (C1 & C2 & C3). cbn [fst snd] in Hu.
  destruct Hu as [-> | [-> | ->]]; cbn [fst snd] in Hi; [rewrite C1 in Hi|rewrite C2 in Hi|rewrite C3 in Hi]; injection Hi as <-; [apply Qa|apply Qb|apply Qc].
Qed.
(** the centre of a triangle is off the third axis *)
Lemma center_off_axis Z dom pts ts t a b c : mesh (octants Z) dom pts ts -> In t ts -> has_corners pts t a b c -> px (center a b c) <> 0 \/ py (center a b c) <> 0.
Proof.
  intros [_ T _ _ _ F] Ht Hc. rewrite Forall_forall in T. destruct (T t Ht) as (a' & b' & c' & Hc' & D). destruct (@corners_fun _ _ _ _ _ _ _ _ Hc Hc') as (<- & <- & <-).
  destruct (F t Ht) as (Q & (sx & sy & sz & S1 & S2 & _ & _ & ->) & (a' & b' & c' & Hc2 & (A1 & A2 & _) & (B1 & B2 & _) & (C1 & C2 & _))).
  destruct (@corners_fun _ _ _ _ _ _ _ _ Hc Hc2) as (<- & <- & <-).
  destruct (Req_dec (px (center a b c)) 0) as [X|X]; [|now left]. destruct (Req_dec (py (center a b c)) 0) as [Y|Y]; [|now right]. exfalso. apply D.
  assert (px a = 0 /\ px b = 0 /\ px c = 0) as (X1 & X2 & X3) by (unfold center in X; cbn [px fst] in X; destruct S1 as [-> | ->]; lra).
  assert (py a = 0 /\ py b = 0 /\ py c = 0) as (Y1 & Y2 & Y3) by (unfold center in Y; cbn [py fst snd] in Y; destruct S2 as [-> | ->]; lra).
  unfold det. rewrite X1, X2, X3, Y1, Y2, Y3. ring.
Qed.
