(** Proofs about the benchmark problems. *)
From Coq Require Import Reals Lra Lia Psatz.
From Verif Require Import Base Obj_Model Obj_Spec Obj_Proofs Bench_Model Bench_Spec.
Set Implicit Arguments.
Local Open Scope R_scope.

Lemma pow2_gt_0 x : x <> 0 -> 0 < x ^ 2.
Proof. intros H. destruct (Rdichotomy x 0 H); nra. Qed.
Ltac nz := apply pow2_gt_0; let q := fresh "q" in intro q; match goal with H : ?u <> ?v |- False => apply H; lra end.
Lemma valued_fun e x v w : valued e x v -> valued e x w -> v = w.
Proof. unfold valued. congruence. Qed.
Lemma box1 P x : length (start P) = 1%nat -> in_box P x -> exists a, x = [a] /\ low P <= a <= high P.
Proof.
  intros L [H F]. destruct x as [|a [|b x]]; cbn in *; try congruence.
  exists a. split; [reflexivity|]. now inversion F.
Qed.
Lemma box2 P x : length (start P) = 2%nat -> in_box P x -> exists a b, x = [a; b] /\ low P <= a <= high P /\ low P <= b <= high P.
Proof.
  intros L [H F]. destruct x as [|a [|b [|c x]]]; cbn in *; try congruence.
  exists a, b. inversion F as [|? ? F1 F2]; subst. inversion F2; subst. auto.
Qed.
Lemma mkbox1 P a : length (start P) = 1%nat -> low P <= a <= high P -> in_box P [a].
Proof. intros L H. split; [now rewrite L|]. constructor; [exact H|constructor]. Qed.
Lemma mkbox2 P a b : length (start P) = 2%nat -> low P <= a <= high P -> low P <= b <= high P -> in_box P [a; b].
Proof. intros L H1 H2. split; [now rewrite L|]. constructor; [exact H1|]. constructor; [exact H2|constructor]. Qed.
Lemma powf2 x : powf x 2 = Ok (x ^ 2).
Proof. rewrite <- powf_nat. reflexivity. Qed.
(** the distance is positive unless the points are equal *)
Lemma apart x y a b : [x; y] <> [a; b] -> 0 < (x - a) ^ 2 + (y - b) ^ 2.
Proof.
  intros N. destruct (Req_dec x a) as [->|Hx]; [destruct (Req_dec y b) as [->|Hy]; [now exfalso; apply N|]|].
  - assert (0 < (y - b) ^ 2) by nz. assert (H2 := pow2_ge_0 (a - a)). lra.
  - assert (0 < (x - a) ^ 2) by nz. assert (H2 := pow2_ge_0 (y - b)). lra.
Qed.

(** a problem of two entries is solved if this holds of the values *)
Lemma solves2 P sx sy f eqf inf :
  length (start P) = 2%nat -> in_box P (start P) -> low P <= sx <= high P -> low P <= sy <= high P ->
  (forall x y, valued (obj_of P) [x; y] (f x y)) ->
  (forall x y, Forall2 (fun c g => valued c [x; y] (g x y)) (eqs P) eqf) ->
  (forall x y, Forall2 (fun c g => valued c [x; y] (g x y)) (ineqs P) inf) ->
  Forall (fun g : R -> R -> R => g sx sy = 0) eqf -> Forall (fun g : R -> R -> R => g sx sy <= 0) inf ->
  (forall x y, Forall (fun g : R -> R -> R => g x y = 0) eqf -> Forall (fun g : R -> R -> R => g x y <= 0) inf ->
     0 < (x - sx) ^ 2 + (y - sy) ^ 2 -> f sx sy < f x y) ->
  solves P [sx; sy].
Proof.
  intros L Bs B1 B2 Vf Ve Vi Se Si Hmin. split; [|split; [|split; [exact Bs|]]].
  - intros x Hx. rewrite L in Hx. destruct x as [|a [|b [|c x]]]; try discriminate. eexists. apply Vf.
  - split; [now apply mkbox2|]. split.
    + specialize (Ve sx sy). revert Se. clear - Ve. induction Ve as [|c g cs gs H _ IH]; intros Se; constructor.
      * inversion Se as [|? ? S1 S2]; subst. rewrite S1 in H. exact H.
      * apply IH. now inversion Se.
    + specialize (Vi sx sy). revert Si. clear - Vi. induction Vi as [|c g cs gs H _ IH]; intros Si; constructor.
      * exists (g sx sy). split; [exact H|]. inversion Si as [|? ? S1 S2]; subst. exact S1.
      * apply IH. now inversion Si.
  - intros x vs vx (Bx & Ex & Ix) N Hs Hx. destruct (@box2 P x L Bx) as (a & b & -> & _ & _).
    rewrite (valued_fun Hs (Vf sx sy)), (valued_fun Hx (Vf a b)). apply Hmin.
    + specialize (Ve a b). revert Ex. clear -Ve. induction Ve as [|c g cs gs H _ IH]; intros Ex; constructor.
      * inversion Ex as [|? ? S1 S2]; subst. exact (valued_fun H S1).
      * apply IH. now inversion Ex.
    + specialize (Vi a b). revert Ix. clear -Vi. induction Vi as [|c g cs gs H _ IH]; intros Ix; constructor.
      * inversion Ix as [|? ? (v & S1 & S2) S3]; subst. rewrite (valued_fun H S1). exact S2.
      * apply IH. now inversion Ix.
    + now apply apart.
Qed.
Ltac val := unfold valued; cbn; f_equal; f_equal; unfold sq_dist; cbn; ring.
Ltac box := split; [reflexivity|]; repeat constructor; cbn; lra.

Theorem single_quadratic_solved : solves (fst single_quadratic) (snd single_quadratic).
Proof.
  set (P := fst single_quadratic). assert (V : forall x, valued (obj_of P) [x] (x * x - 4 * x + 1)) by (intros; val).
  split; [|split; [|split]].
  - intros x Hx. destruct x as [|a [|b x]]; try discriminate. eexists. apply V.
  - split; [box|]. split; constructor.
  - box.
  - intros x vs vx (Bx & _) N Hs Hx. destruct (@box1 P x eq_refl Bx) as (a & -> & _).
    rewrite (valued_fun Hs (V 2)), (valued_fun Hx (V a)).
    assert (a <> 2) by (intros ->; now apply N). assert (0 < (a - 2) ^ 2) by nz. nra.
Qed.
Lemma quartic_value x : valued quartic_obj [x] ((x - 2) * (x - 3) * (x + 1) ^ 2).
Proof. val. Qed.
Lemma sqrt57 : 0 < sqrt 57 /\ sqrt 57 * sqrt 57 = 57.
Proof. split; [apply sqrt_lt_R0; lra|apply sqrt_sqrt; lra]. Qed.
Theorem quartic_solved : forall p, quartic 0 = Some p -> solves (fst p) (snd p).
Proof.
  intros p E. injection E as <-. destruct sqrt57 as [Hs1 Hs2]. set (r := sqrt 57) in *.
  assert (B : 7 < r < 8) by (split; nra).
  cbn [fst snd]. split; [|split; [|split]].
  - intros x Hx. destruct x as [|a [|b x]]; try discriminate. eexists. apply quartic_value.
  - split; [split; [reflexivity|]; constructor; [cbn; lra|constructor]|]. split; constructor.
  - box.
  - intros x vs vx (Bx & _) N Hs Hx.
    destruct (@box1 (mkprob quartic_obj [] [] [1] (-10) 10) x eq_refl Bx) as (a & -> & _).
    rewrite (valued_fun Hs (quartic_value _)), (valued_fun Hx (quartic_value a)).
    assert (Ha : a <> (13 + r) / 8) by (intros ->; now apply N).
    set (s := (13 + r) / 8) in *.
    assert (Es : 4 * (s * s) - 13 * s + 7 = 0) by (unfold s; nra).
    assert (Bs : 5 / 2 < s < 21 / 8) by (unfold s; lra).
    (* f(a) - f(s) = (a - s)^2 (a^2 + (2s-3) a + c) with a positive quadratic *)
    assert (Q : (a - 2) * (a - 3) * (a + 1) ^ 2 - (s - 2) * (s - 3) * (s + 1) ^ 2 =
                (a - s) ^ 2 * (a ^ 2 + (2 * s - 3) * a + (3 * s ^ 2 - 6 * s - 3)) +
                (a - s) * (s + 1) * (4 * (s * s) - 13 * s + 7)) by ring.
    rewrite Es, Rmult_0_r, Rplus_0_r in Q.
    assert (0 < (a - s) ^ 2) by nz.
    assert (0 < a ^ 2 + (2 * s - 3) * a + (3 * s ^ 2 - 6 * s - 3)).
    { assert (0 <= (a + (2 * s - 3) / 2) ^ 2) by apply pow2_ge_0. nra. }
    assert (0 < (a - s) ^ 2 * (a ^ 2 + (2 * s - 3) * a + (3 * s ^ 2 - 6 * s - 3))) by now apply Rmult_lt_0_compat.
    lra.
Qed.
Theorem quartic_local : forall p, quartic 1 = Some p -> exists s, snd p = [s] /\ solves_locally (fst p) s 3 /\ ~ solves (fst p) (snd p).
Proof.
  intros p E. injection E as <-. exists (-1). split; [reflexivity|].
  assert (F : feasible (mkprob quartic_obj [] [] [0] (-10) 10) [-1]) by (split; [box|split; constructor]).
  split.
  - split; [intros x; eexists; apply quartic_value|]. split; [exact F|].
    intros x vs vx _ N D Hs Hx. rewrite (valued_fun Hs (quartic_value _)), (valued_fun Hx (quartic_value x)).
    apply Rabs_def2 in D. assert (x <> -1) by (intros ->; now apply N). assert (0 < (x + 1) ^ 2) by nz.
    assert (0 < (x - 2) * (x - 3)) by nra. assert (0 < (x - 2) * (x - 3) * (x + 1) ^ 2) by now apply Rmult_lt_0_compat.
    cbn [pow] in *. lra.
  - intros (_ & _ & _ & H). cbn [fst snd] in H.
    assert (F2 : feasible (mkprob quartic_obj [] [] [0] (-10) 10) [5 / 2]) by (split; [box|split; constructor]).
    assert (N : [5 / 2] <> [-1]) by (intros E; inversion E; lra).
    assert (G := H [5 / 2] _ _ F2 N (quartic_value _) (quartic_value _)). lra.
Qed.
Theorem two_quadratic_solved : solves (fst two_quadratic) (snd two_quadratic).
Proof.
  apply (@solves2 (fst two_quadratic) (5 / 2) (5 / 2) (fun x y => x ^ 2 + 2 * y ^ 2 - 5 * y - 2 * x * y) [] []).
  - reflexivity. - box. - cbn; lra. - cbn; lra.
  - intros. val.
  - constructor. - constructor. - constructor. - constructor.
  - intros x y _ _ H.
    assert (0 <= (x - y) ^ 2) by apply pow2_ge_0. assert (0 <= (y - 5 / 2) ^ 2) by apply pow2_ge_0.
    destruct (Req_dec y (5 / 2)) as [->|Hy].
    + nra.
    + assert (0 < (y - 5 / 2) ^ 2) by nz. nra.
Qed.
Theorem rosenbrock_solved a b : a ^ 2 <= 10 -> 0 < b -> solves (fst (rosenbrock a b)) (snd (rosenbrock a b)).
Proof.
  intros Ha Hb.
  apply (@solves2 (fst (rosenbrock a b)) a (a ^ 2) (fun x y => (a - x) ^ 2 + b * (y - x ^ 2) ^ 2) [] []).
  - reflexivity. - box. - cbn [rosenbrock fst low high]. nra. - cbn [rosenbrock fst low high]. nra.
  - intros. val.
  - constructor. - constructor. - constructor. - constructor.
  - intros x y _ _ H.
    assert (E : (a - a) ^ 2 + b * (a ^ 2 - a ^ 2) ^ 2 = 0) by ring. rewrite E.
    assert (0 <= (a - x) ^ 2) by apply pow2_ge_0. assert (0 <= (y - x ^ 2) ^ 2) by apply pow2_ge_0.
    destruct (Req_dec x a) as [->|Hx].
    + assert (y - a ^ 2 <> 0) by (intros Q; rewrite Q in H; ring_simplify in H; lra).
      assert (0 < (y - a ^ 2) ^ 2) by now apply pow2_gt_0. nra.
    + assert (0 < (a - x) ^ 2) by nz. nra.
Qed.
(** otherwise the point returned violates the bounds of the parametrization, or is no optimum *)
Theorem rosenbrock_outside a b : 10 < a ^ 2 -> ~ solves (fst (rosenbrock a b)) (snd (rosenbrock a b)).
Proof.
  intros Ha (_ & ((_ & F) & _) & _). inversion F as [|? ? _ F2]; subst. inversion F2 as [|? ? [_ G] _]; subst.
  cbn [rosenbrock fst high] in G. lra.
Qed.
Theorem rosenbrock_flat a b : b <= 0 -> ~ solves (fst (rosenbrock a b)) (snd (rosenbrock a b)).
Proof.
  intros Hb (_ & Fs & _ & H).
  assert (V : forall x y, valued (obj_of (fst (rosenbrock a b))) [x; y] ((a - x) ^ 2 + b * (y - x ^ 2) ^ 2)) by (intros; val).
  assert (Ha : -10 <= a <= 10 /\ a ^ 2 <= 10).
  { destruct Fs as ((_ & F) & _). inversion F as [|? ? F1 F2]; subst. inversion F2; subst. cbn in *. lra. }
  assert (F0 : feasible (fst (rosenbrock a b)) [a; a ^ 2 - 1]).
  { split; [|split; constructor]. split; [reflexivity|]. constructor; [cbn; lra|]. constructor; [|constructor].
    cbn [rosenbrock fst low high]. nra. }
  assert (N : [a; a ^ 2 - 1] <> [a; a ^ 2]) by (intros E; inversion E; lra).
  assert (G := H _ _ _ F0 N (V _ _) (V _ _)).
  assert (E1 : (a - a) ^ 2 + b * (a ^ 2 - a ^ 2) ^ 2 = 0) by ring.
  assert (E2 : (a - a) ^ 2 + b * (a ^ 2 - 1 - a ^ 2) ^ 2 = b) by ring. lra.
Qed.

(** *** constrained problems *)
Definition cf (cx cy : R) (x y : R) : R := (x - cx) ^ 2 + (y - cy) ^ 2 - 1.
Lemma circle_value cx cy c : circle [cx; cy] = Ok c -> forall x y, valued c [x; y] (cf cx cy x y).
Proof. intros E. injection E as <-. intros x y. unfold valued, cf. cbn. f_equal. f_equal. unfold sq_dist. cbn. ring. Qed.
Lemma sqrt2 : 0 < sqrt 2 /\ sqrt 2 * sqrt 2 = 2.
Proof. split; [apply sqrt_lt_R0; lra|apply sqrt_sqrt; lra]. Qed.
Lemma inv_sqrt2 : exists h, 1 / sqrt 2 = h /\ 0 < h /\ 2 * (h * h) = 1.
Proof.
  destruct sqrt2 as [H1 H2]. exists (1 / sqrt 2). split; [reflexivity|]. split; [apply Rdiv_lt_0_compat; lra|].
  replace (2 * (1 / sqrt 2 * (1 / sqrt 2))) with (2 / (sqrt 2 * sqrt 2)) by (field; lra). rewrite H2. lra.
Qed.
Lemma sqrt_34 : exists h, sqrt (1 - (1 / 2) ^ 2) = h /\ 0 < h /\ h * h = 3 / 4.
Proof.
  exists (sqrt (1 - (1 / 2) ^ 2)). split; [reflexivity|]. split; [apply sqrt_lt_R0; lra|].
  rewrite sqrt_sqrt; lra.
Qed.
Lemma F2_one {A B} (R0 : A -> B -> Prop) a b : R0 a b -> Forall2 R0 [a] [b].
Proof. intros H. constructor; [exact H|constructor]. Qed.
Lemma F1_one {A} (R0 : A -> Prop) a : R0 a -> Forall R0 [a].
Proof. intros H. constructor; [exact H|constructor]. Qed.
Theorem linear_solved i p : linear_problem i = Ok (Some p) -> solves (fst p) (snd p).
Proof.
  intros E. unfold linear_problem in E. destruct (circle [0; 0]) as [c0|] eqn:E0; [|discriminate]. cbn [bind] in E.
  destruct (circle [1; 0]) as [c1|] eqn:E1; [|discriminate]. cbn [bind] in E.
  assert (V0 := circle_value E0). assert (V1 := circle_value E1).
  assert (VP : forall x y, valued plane [x; y] (- x - y)) by (intros; val).
  destruct i as [|[|i]]; [| |discriminate]; injection E as <-; cbn [fst snd].
  - destruct inv_sqrt2 as (h & -> & H1 & H2).
    apply (solves2 (P := mkprob plane [c0] [c1] [1 / 2; 1 / 2] (-1) 1) (fun x y => - x - y) (eqf := [cf 0 0]) (inf := [cf 1 0])).
    + reflexivity. + box. + cbn. nra. + cbn. nra. + exact VP. + intros. apply F2_one, V0. + intros. apply F2_one, V1.
    + apply F1_one. unfold cf. nra.
    + apply F1_one. unfold cf. nra.
    + intros x y He _ Hd. inversion He as [|? ? Hc _]; subst. unfold cf in Hc.
      (* x + y <= 2 h with equality only at the point *)
      assert (Hd' : (x - h) ^ 2 + (y - h) ^ 2 = 2 - 2 * h * (x + y)) by nra. nra.
  - destruct sqrt_34 as (h & Eh & H1 & H2).
    match goal with |- context [sqrt ?u] => change (sqrt u) with (sqrt (1 - (1 / 2) ^ 2)) end. rewrite Eh. clear Eh.
    apply (solves2 (P := mkprob plane [c1] [c0] [1 / 2; 1 / 2] (-1) 1) (fun x y => - x - y) (eqf := [cf 1 0]) (inf := [cf 0 0])).
    + reflexivity. + box. + cbn. nra. + cbn. nra. + exact VP. + intros. apply F2_one, V1. + intros. apply F2_one, V0.
    + apply F1_one. unfold cf. nra.
    + apply F1_one. unfold cf. nra.
    + intros x y He Hi Hd. inversion He as [|? ? Hc _]; subst. inversion Hi as [|? ? Hc' _]; subst. unfold cf in Hc, Hc'.
      assert (Hx : x <= 1 / 2) by nra.
      assert (Hx0 : 0 <= x) by nra.
      assert (Hy : y * y = x * (2 - x)) by nra.
      assert (Hyh : y <= h) by nra.
      destruct (Req_dec x (1 / 2)) as [->|Nx]; [|lra].
      assert (y <> h) by (intros ->; nra). lra.
Qed.
Theorem quadratic_solved i p : quadratic_problem i = Ok (Some p) -> solves (fst p) (snd p).
Proof.
  intros E. unfold quadratic_problem in E. destruct (circle [0; 0]) as [c0|] eqn:E0; [|discriminate]. cbn [bind] in E.
  destruct (circle [1; 0]) as [c1|] eqn:E1; [|discriminate]. cbn [bind] in E.
  assert (V0 := circle_value E0). assert (V1 := circle_value E1).
  assert (VQ : forall x y, valued (quad [- (1 / 2); 0]) [x; y] ((x + 1 / 2) ^ 2 + y ^ 2)) by (intros; val).
  assert (M : forall x y, cf 1 0 x y = 0 -> 0 < (x - 0) ^ 2 + (y - 0) ^ 2 -> (0 + 1 / 2) ^ 2 + 0 ^ 2 < (x + 1 / 2) ^ 2 + y ^ 2).
  { unfold cf. intros x y H1 H2. nra. }
  destruct i as [|[|[|i]]]; [| | |discriminate]; injection E as <-; cbn [fst snd].
  - apply (solves2 (P := mkprob (quad [- (1 / 2); 0]) [c1] [c0] [1 / 2; 1 / 2] (-1) 1) (fun x y => (x + 1 / 2) ^ 2 + y ^ 2) (eqf := [cf 1 0]) (inf := [cf 0 0])).
    + reflexivity. + box. + cbn; lra. + cbn; lra. + exact VQ. + intros. apply F2_one, V1. + intros. apply F2_one, V0.
    + apply F1_one. unfold cf. ring.
    + apply F1_one. unfold cf. lra.
    + intros x y He _. inversion He; subst. now apply M.
  - apply (solves2 (P := mkprob (quad [- (1 / 2); 0]) [c1] [] [1 / 2; 1 / 2] (-1) 1) (fun x y => (x + 1 / 2) ^ 2 + y ^ 2) (eqf := [cf 1 0]) (inf := [])).
    + reflexivity. + box. + cbn; lra. + cbn; lra. + exact VQ. + intros. apply F2_one, V1. + constructor.
    + apply F1_one. unfold cf. ring.
    + constructor.
    + intros x y He _. inversion He; subst. now apply M.
  - apply (solves2 (P := mkprob (quad [- (1 / 2); 0]) [] [c0] [1 / 2; 1 / 2] (-1) 1) (fun x y => (x + 1 / 2) ^ 2 + y ^ 2) (eqf := []) (inf := [cf 0 0])).
    + reflexivity. + box. + cbn; lra. + cbn; lra. + exact VQ. + constructor. + intros. apply F2_one, V0.
    + constructor.
    + apply F1_one. unfold cf. lra.
    + intros x y _ _ H. nra.
Qed.
Theorem ellipsoidal_solved p : ellipsoidal = Ok p -> solves (fst p) (snd p).
Proof.
  intros E. unfold ellipsoidal in E. cbn in E. injection E as <-. cbn [fst snd].
  match goal with |- solves ?P _ => apply (solves2 (P := P) (fun x y => x ^ 2 + 2 * y ^ 2 - 5 * y - 2 * x * y) (eqf := []) (inf := [fun x y => y - x + 1])) end.
  - reflexivity. - box. - cbn; lra. - cbn; lra.
  - intros x y. unfold valued. cbn. rewrite !powf2. cbn. f_equal. f_equal. ring.
  - constructor.
  - intros. apply F2_one. val.
  - constructor.
  - apply F1_one. lra.
  - intros x y _ Hi H. inversion Hi as [|? ? Hc _]; subst. cbn beta in Hc.
    assert (0 <= (y - 5 / 2) ^ 2) by apply pow2_ge_0.
    destruct (Req_dec y (5 / 2)) as [->|Hy].
    + assert (x <> 7 / 2) by (intros ->; nra). nra.
    + assert (0 < (y - 5 / 2) ^ 2) by nz. nra.
Qed.
Theorem problem_list_solved l : problem_list = Ok l -> length l = 6%nat /\ Forall (fun p => solves (fst p) (snd p)) l.
Proof.
  intros E. unfold problem_list in E. destruct ellipsoidal as [e|] eqn:Ee; [|discriminate]. cbn [bind] in E.
  assert (He := ellipsoidal_solved Ee).
  cbn [mapM] in E.
  destruct (linear_problem 0) as [[l0|]|] eqn:L0; try discriminate. cbn [bind] in E.
  destruct (linear_problem 1) as [[l1|]|] eqn:L1; try discriminate. cbn [bind] in E.
  destruct (quadratic_problem 0) as [[q0|]|] eqn:Q0; try discriminate. cbn [bind] in E.
  destruct (quadratic_problem 1) as [[q1|]|] eqn:Q1; try discriminate. cbn [bind] in E.
  destruct (quadratic_problem 2) as [[q2|]|] eqn:Q2; try discriminate. cbn [bind] in E.
  cbn [app flat_map] in E. injection E as <-. split; [reflexivity|].
  constructor; [exact He|]. constructor; [exact (@linear_solved _ _ L0)|]. constructor; [exact (@linear_solved _ _ L1)|].
  constructor; [exact (@quadratic_solved _ _ Q0)|]. constructor; [exact (@quadratic_solved _ _ Q1)|].
  constructor; [exact (@quadratic_solved _ _ Q2)|constructor].
Qed.

(** ** gradients of the hand-made objectives *)
Lemma F2_len {A B} (R0 : A -> B -> Prop) l m : Forall2 R0 l m -> length l = length m.
Proof. intros H. induction H; cbn; congruence. Qed.
Lemma dotr_cons a l b d : dotr (a :: l) (b :: d) = a * b + dotr l d.
Proof. reflexivity. Qed.
Lemma near_any t0 (P : R -> Prop) : (forall t, P t) -> near t0 P.
Proof. intros H. exists 1. split; [lra|]. intros; apply H. Qed.
Lemma sum_derive : forall us ds t0, Forall2 (fun u d => derivable_pt_lim u t0 d) us ds ->
  derivable_pt_lim (fun t => rsum (map (fun u => u t) us)) t0 (rsum ds).
Proof.
  intros us ds t0 H. induction H as [|u d us ds Hu H IH]; [exact (derivable_pt_lim_const 0 t0)|].
  exact (@derivable_pt_lim_plus u _ t0 d _ Hu IH).
Qed.
Lemma plane_dot : forall xs (ds : list R), length xs = length ds -> dotr (map (fun _ : R => -1) xs) ds = - rsum ds.
Proof.
  induction xs as [|x xs IH]; intros [|d ds] H; try discriminate; [unfold dotr; cbn; ring|].
  cbn [map]. rewrite dotr_cons, IH by (now injection H). cbn [rsum fold_right]. unfold rsum. cbn [fold_right]. ring.
Qed.
Lemma dist_derive : forall us ds t0 r0, Forall2 (fun u d => derivable_pt_lim u t0 d) us ds -> length us = length r0 ->
  derivable_pt_lim (fun t => sq_dist (map (fun u => u t) us) r0) t0
    (dotr (map (fun p => 2 * (fst p - snd p)) (combine (map (fun u => u t0) us) r0)) ds).
Proof.
  intros us ds t0 r0 H. revert r0. induction H as [|u d us ds Hu H IH]; intros [|r r0] L; try discriminate.
  - exact (derivable_pt_lim_const 0 t0).
  - specialize (IH r0 ltac:(now injection L)). cbn [map combine]. rewrite dotr_cons. cbn [fst snd].
    change (derivable_pt_lim (fun t => (u t - r) ^ 2 + sq_dist (map (fun u => u t) us) r0) t0
      (2 * (u t0 - r) * d + dotr (map (fun p => 2 * (fst p - snd p)) (combine (map (fun u => u t0) us) r0)) ds)).
    apply (@derivable_pt_lim_plus (fun t => (u t - r) ^ 2) _ t0); [|exact IH].
    assert (Hs : derivable_pt_lim (fun t => u t - r) t0 d).
    { eapply derive_eq; [|exact (@derivable_pt_lim_minus u (fun _ => r) t0 d 0 Hu (derivable_pt_lim_const r t0))]. ring. }
    eapply derive_ext; [|eapply derive_eq; [|exact (@derivable_pt_lim_mult _ _ t0 _ _ Hs Hs)]]; [intros t; cbv beta; unfold mult_fct; ring|cbv beta; ring].
Qed.
Lemma combine_map_length {A B C} (f : A * B -> C) l r : length l = length r -> length (map f (combine l r)) = length l.
Proof. intros H. rewrite map_length, combine_length, H. lia. Qed.
Lemma neg_dot : forall (l : list (R * R)) ds, dotr (map (fun p => -2 * (fst p - snd p)) l) ds = - dotr (map (fun p => 2 * (fst p - snd p)) l) ds.
Proof.
  induction l as [|p l IH]; intros ds; [unfold dotr; cbn; ring|]. destruct ds as [|d ds]; [unfold dotr; cbn; ring|].
  cbn [map]. rewrite !dotr_cons, IH. ring.
Qed.
Lemma at_point {A} (us : list (R -> A)) t0 xs : map (fun u => u t0) us = xs -> length us = length xs.
Proof. intros <-. now rewrite map_length. Qed.
Theorem old_gradients :
  (forall c g xs, plane = Node (KOld c g) [] -> has_partials (fun l => Ok (c l)) xs (g xs)) /\
  (forall r0 c g xs, quad r0 = Node (KOld c g) [] -> length xs = length r0 -> has_partials (fun l => Ok (c l)) xs (g xs)) /\
  (forall radius r0 c g xs, sphere radius r0 = Node (KOld c g) [] -> length xs = length r0 ->
     has_partials (fun l => Ok (c l)) xs (g xs)).
Proof.
  split; [|split].
  - intros c g xs E. injection E as <- <-. split; [now rewrite map_length|]. intros us ds t0 Ex HD.
    split; [apply near_any; intros t; eexists; reflexivity|].
    rewrite plane_dot by (rewrite <- (@at_point R us t0 xs Ex); exact (F2_len HD)).
    exact (@derivable_pt_lim_opp (fun t => rsum (map (fun u => u t) us)) t0 _ (@sum_derive us ds t0 HD)).
  - intros r0 c g xs E L. injection E as <- <-. split; [now apply combine_map_length|]. intros us ds t0 Ex HD.
    split; [apply near_any; intros t; eexists; reflexivity|]. rewrite <- Ex.
    apply dist_derive; [exact HD|]. now rewrite (@at_point R us t0 xs Ex).
  - intros radius r0 c g xs E L. injection E as <- <-. split; [now apply combine_map_length|]. intros us ds t0 Ex HD.
    split; [apply near_any; intros t; eexists; reflexivity|]. rewrite neg_dot, <- Ex.
    pose proof (@dist_derive us ds t0 r0 HD ltac:(now rewrite (@at_point R us t0 xs Ex))) as H.
    eapply derive_eq; [|exact (@derivable_pt_lim_minus (fun _ => radius ^ 2) _ t0 0 _ (derivable_pt_lim_const (radius ^ 2) t0) H)]. ring.
Qed.
