(** Theorems about eigenfrequency simulations: C141 and C142. *)
From Coq Require Import Reals Lra Lia.
From Verif Require Obj_Model Adj_Model.
From Verif Require Import Base CField CField_Proofs GMath_Model GMath_Proofs CplxField Maxwell_Model Maxwell_Spec Maxwell_Proofs Phc_Model Phc_Spec Phc_Proofs Phc_Proofs2 Phc_Proofs3 Phc_Props Adj_Proofs3 Eig_Model Eig_Spec Eig_Proofs Eig_Proofs2.
Set Implicit Arguments.
Local Open Scope R_scope.

(** C141.  After an evaluation whose solver returned the frequency w(0) and a multiple of
    sqrt(eps) E(0), the gradient of d times the frequency is the derivative along every mode that
    passes through E(0). *)
Theorem eig_gradient : forall (g : grid CC) (ph : phases CC) (eps : R -> nat -> R) (w : R -> R) (E : R -> list C) (delta : nat -> R)
    sources outputs solve history vals k d r gs,
  let s := node_evals (vlen g) sources outputs solve (fresh outputs) history in
  let e0 := eps_array g (eps 0) in
  let s' := fst (node_eval (vlen g) sources outputs solve s e0) in
  positive_cells g -> uniform_cells g -> real_bloch ph -> (forall i, (i < vlen g)%nat -> 0 < eps 0 i) ->
  path_direction g eps delta -> mode_path g ph eps w E -> 0 < w 0 ->
  snd (node_eval (vlen g) sources outputs solve s e0) = Ok vals ->
  (forall J v om, solve e0 J = Ok (v, om) -> fst om = w 0 /\ weighted_by_root g (eps 0) (E 0) v) ->
  last_eig outputs k -> grads_fit outputs gs -> nth_error gs k = Some (Some (d :: r)) ->
  nth_error vals k = Some (VNum (w 0)) /\
  exists G, node_grad (vlen g) outputs solve s' e0 gs = (s', Ok G) /\ length G = vlen g /\
    derivable_pt_lim (fun t => d * w t) 0 (along (vlen g) (fun i => nth i G 0) delta).
Proof.
  intros g ph eps w E delta sources outputs solve history vals k d r gs s e0 s' Hg Hu Hb He Hd Hm Hw Hv Hs Hk Hf Hgk.
  assert (Hr : remembers (vlen g) sources outputs solve s) by (apply evals_remember, fresh_remembers).
  split.
  - destruct (@out_nth (vlen g) sources outputs solve s e0 vals k Hr Hv (proj1 Hk)) as (J & v & om & _ & S & O). destruct (Hs J v om S) as [<- _]. exact O.
  - destruct (@grad_after_eval (vlen g) sources outputs solve s e0 vals k d r gs Hr Hv Hk Hf Hgk) as (J & v & om & _ & S & G). destruct (Hs J v om S) as [Ew Wv].
    eexists. split; [exact G|]. split; [now rewrite map_length, seq_length|].
    assert (D := @gradient_is_derivative g ph eps w E delta Hg Hu Hb He Hd Hm Hw v Wv).
    assert (X : along (vlen g) (fun i => nth i (map (fun i => d * domega (vlen g) e0 v (fst om) i) (seq 0 (vlen g))) 0) delta = d * along (vlen g) (domega (vlen g) e0 v (w 0)) delta).
    { unfold along. rewrite !rsum_seq, <- Adj_Proofs.rs_scale. apply rs_ext. intros i Hi. rewrite Ew.
      rewrite nth_indep with (d' := d * domega (vlen g) e0 v (w 0) 0) by (rewrite map_length, seq_length; exact Hi).
      rewrite (map_nth (fun i => d * domega (vlen g) e0 v (w 0) i)), seq_nth by exact Hi. cbn [Nat.add]. ring. }
    rewrite X. replace (fun t => d * w t) with (mult_real_fct d w) by reflexivity. apply derivable_pt_lim_scal. exact D.
Qed.
Print Assumptions eig_gradient.

(** *** examples: one cubic cell with Bloch factors -1; a real field (a, b, c) *)
Lemma one_cell (e : nat -> R) (w a b c : R) : a <> 0 ->
  12 * a - 4 * (a + b + c) = w * w * (e 0%nat * a) -> 12 * b - 4 * (a + b + c) = w * w * (e 1%nat * b) -> 12 * c - 4 * (a + b + c) = w * w * (e 2%nat * c) ->
  e_resonance ex_cubic ex_minus (real_eps e) (creal w) [creal a; creal b; creal c].
Proof.
  intros Ha H0 H1 H2. repeat split.
  - intros E. injection E as E. intros. now apply Ha.
  - apply e_res_iff. intros i Hi. assert (I : / (1 * 1 + 0 * 0) = 1) by field.
    destruct i as [|[|[|i]]]; [| | |exfalso; vm_compute in Hi; lia]; cbv -[Rplus Rmult Ropp Rinv IZR]; rewrite ?I; apply f_equal2; Lra.lra.
Qed.
Lemma const_cont (c : R) : continuity_pt (fun _ : R => c) 0.
Proof. apply continuity_pt_const. intros ? ?. reflexivity. Qed.
Lemma cubic_positive : positive_cells ex_cubic.
Proof. intros a i _ _. repeat split; simpl; Lra.lra. Qed.
Lemma cubic_uniform : uniform_cells ex_cubic.
Proof. intros a _. exists c1. intros i _. now split. Qed.
Lemma minus_bloch : real_bloch ex_minus.
Proof. intros a _. simpl. unfold cconj, copp, c1. simpl. f_equal; ring. Qed.

(** eps = 3 + t, the mode (1, -1, 0) of frequency 2 sqrt(3/(3+t)): the derivative is -1/3 *)
Definition ex_eps (t : R) (i : nat) : R := 3 + t.
Definition ex_w (t : R) : R := 2 * sqrt (3 * / (3 + t)).
Definition ex_E : list C := [creal 1; creal (-1); creal 0].
Definition ex_v : list C := [creal (sqrt 3); creal (- sqrt 3); creal 0].
Definition ex_solve (eps J : list C) : res (list C * C) := Ok (ex_v, creal 2).
Lemma ex_w_0 : ex_w 0 = 2.
Proof. unfold ex_w. replace (3 * / (3 + 0)) with 1 by field. rewrite sqrt_1. ring. Qed.
Lemma ex_w_cont : continuity_pt ex_w 0.
Proof.
  unfold ex_w. apply (continuity_pt_mult (fun _ => 2) (fun t => sqrt (3 * / (3 + t)))); [apply const_cont|].
  apply (continuity_pt_comp (fun t => 3 * / (3 + t)) sqrt); [|apply continuity_pt_sqrt; replace (3 * / (3 + 0)) with 1 by field; Lra.lra].
  apply (continuity_pt_mult (fun _ => 3) (fun t => / (3 + t))); [apply const_cont|]. apply (continuity_pt_inv (fun t => 3 + t)); [|Lra.lra].
  apply (continuity_pt_plus (fun _ => 3) (fun t => t)); [apply const_cont|apply derivable_continuous_pt, derivable_pt_id].
Qed.
Lemma ex_path : mode_path ex_cubic ex_minus ex_eps ex_w (fun _ => ex_E).
Proof.
  split; [|exact ex_w_cont|intros i _; split; apply const_cont].
  exists 1. split; [Lra.lra|]. intros t Ht. apply Rabs_def2 in Ht.
  assert (Sq : ex_w t * ex_w t * (3 + t) = 12).
  { unfold ex_w. replace (2 * sqrt (3 * / (3 + t)) * (2 * sqrt (3 * / (3 + t)))) with (4 * (sqrt (3 * / (3 + t)) * sqrt (3 * / (3 + t)))) by ring.
    rewrite sqrt_sqrt; [field; Lra.lra|]. assert (0 < / (3 + t)) by (apply Rinv_0_lt_compat; Lra.lra). Lra.lra. }
  apply one_cell; unfold ex_eps; [Lra.lra| | |]; Lra.lra.
Qed.
Lemma ex_dir : path_direction ex_cubic ex_eps (fun _ => 1).
Proof.
  intros i _. unfold ex_eps. replace 1 with (0 + 1) by ring. apply (derivable_pt_lim_plus (fun _ => 3) (fun t => t)); [apply derivable_pt_lim_const|apply derivable_pt_lim_id].
Qed.
Example eig_gradient_ex :
  let e0 := eps_array ex_cubic (ex_eps 0) in
  let s' := fst (node_eval 3 [] [OField; OEig] ex_solve (fresh [OField; OEig]) e0) in
  snd (node_eval 3 [] [OField; OEig] ex_solve (fresh [OField; OEig]) e0) = Ok [VArr ex_v; VNum 2] /\
  exists G, node_grad 3 [OField; OEig] ex_solve s' e0 [None; Some [1]] = (s', Ok G) /\
    derivable_pt_lim ex_w 0 (along 3 (fun i => nth i G 0) (fun _ => 1)) /\ G = [-1/6; -1/6; 0].
Proof.
  assert (V : weighted_by_root ex_cubic (ex_eps 0) ex_E ex_v).
  { exists c1. split; [intros X; injection X as X; Lra.lra|]. unfold ex_eps. rewrite Rplus_0_r. intros i Hi.
    destruct i as [|[|[|i]]]; [| | |exfalso; vm_compute in Hi; lia]; unfold cmul, creal; cbn; apply c_eq; cbn; ring. }
  split; [reflexivity|].
  destruct (@eig_gradient ex_cubic ex_minus ex_eps ex_w (fun _ => ex_E) (fun _ => 1) [] [OField; OEig] ex_solve [] [VArr ex_v; VNum 2] 1 1 [] [None; Some [1]]) as (_ & G & HG & _ & D);
    [exact cubic_positive|exact cubic_uniform|exact minus_bloch|intros; unfold ex_eps; Lra.lra|exact ex_dir|exact ex_path|rewrite ex_w_0; Lra.lra|reflexivity| | | |reflexivity|].
  - intros J v om X. injection X as <- <-. split; [now rewrite ex_w_0|exact V].
  - split; [reflexivity|]. intros [|[|[|j]]] Hj; try lia; discriminate.
  - split; [reflexivity|]. intros [|[|[|j]]] Hj; try discriminate. now exists 1, [].
  - exists G. split; [exact HG|]. split.
    + replace (fun t => 1 * ex_w t) with (mult_real_fct 1 ex_w) in D by reflexivity. intros e He. destruct (D e He) as (r & Hr). exists r. intros h H1 H2. specialize (Hr h H1 H2). unfold mult_real_fct in Hr. rewrite !Rmult_1_l in Hr. exact Hr.
    + cbv zeta in HG. unfold node_grad in HG. assert (L : n_last (fst (node_eval 3 [] [OField; OEig] ex_solve (fresh [OField; OEig]) (eps_array ex_cubic (ex_eps 0)))) = Some (eps_array ex_cubic (ex_eps 0), (ex_v, 2))) by reflexivity.
      assert (Sv : Adj_Proofs.rs 3 (fun k => n2 (at_ (K:=CC) ex_v k)) = 6).
      { cbn [Adj_Proofs.rs]. unfold n2. cbn. rewrite !Rmult_1_r. assert (Q := sqrt_sqrt 3 ltac:(Lra.lra)). nra. }
      assert (Dk : forall k, (k < 3)%nat -> domega 3 (eps_array ex_cubic (ex_eps 0)) ex_v 2 k = - 2 / 2 * (n2 (at_ (K:=CC) ex_v k) / 3 / 6)).
      { intros k Hk. assert (A := @domega_re ex_cubic (ex_eps 0) ex_v 2 k Hk). change (vlen ex_cubic) with 3%nat in A. rewrite Sv in A. assert (Ek : ex_eps 0 k = 3) by (unfold ex_eps; ring). rewrite Ek in A. apply A; Lra.lra. }
      assert (Q := sqrt_sqrt 3 ltac:(Lra.lra)).
      cbn [vlen] in HG. change (vlen ex_cubic) with 3%nat in HG. cbn [node_evals fold_left] in HG. rewrite L, (hit_last _ L) in HG. injection HG as <-.
      cbn [map seq]. rewrite !Dk by lia. unfold n2. cbn. rewrite ?Rmult_1_r. apply f_equal2; [nra|apply f_equal2; [nra|apply f_equal2; [nra|reflexivity]]].
Qed.

(** If the solver returns the electric field itself, the result is not the derivative: eps =
    (1-t, 2-t/2, (2t-5)/(t-1)), the mode (1, 2, t-1) keeps the frequency 2. *)
Definition bad_eps (t : R) (i : nat) : R := match i with 0%nat => 1 - t | 1%nat => 2 - t / 2 | _ => (2 * t - 5) / (t - 1) end.
Definition bad_dir (i : nat) : R := match i with 0%nat => -1 | 1%nat => -1 / 2 | _ => 3 end.
Definition bad_E (t : R) : list C := [creal 1; creal 2; creal (-1 + t)].
Definition bad_solve (eps J : list C) : res (list C * C) := Ok (bad_E 0, creal 2).
Lemma bad_path : mode_path ex_cubic ex_minus bad_eps (fun _ => 2) bad_E.
Proof.
  split; [|apply const_cont|].
  - exists (1 / 2). split; [Lra.lra|]. intros t Ht. apply Rabs_def2 in Ht. apply one_cell; cbn [bad_eps]; [Lra.lra|Lra.lra|Lra.lra|field; Lra.lra].
  - intros i Hi. destruct i as [|[|[|i]]]; [| | |exfalso; vm_compute in Hi; lia]; cbn; split; try apply const_cont.
    apply (continuity_pt_plus (fun _ => -1) (fun t => t)); [apply const_cont|apply derivable_continuous_pt, derivable_pt_id].
Qed.
Lemma bad_direction : path_direction ex_cubic bad_eps bad_dir.
Proof.
  intros i Hi. destruct i as [|[|[|i]]]; [| | |exfalso; vm_compute in Hi; lia]; cbn [bad_eps bad_dir].
  - apply (@quot_deriv (fun t => 1 - t) (fun _ => -1) 1); [apply const_cont|Lra.lra|intros; ring].
  - apply (@quot_deriv (fun t => 2 - t / 2) (fun _ => -1 / 2) 1); [apply const_cont|Lra.lra|intros; field].
  - replace 3 with ((fun t => -3 / (t - 1)) 0) by (cbv beta; field).
    apply (@quot_deriv (fun t => (2 * t - 5) / (t - 1)) (fun t => -3 / (t - 1)) (1 / 2)); [|Lra.lra|intros t Ht; apply Rabs_def2 in Ht; field; Lra.lra].
    apply (continuity_pt_div (fun _ => -3) (fun t => t - 1)); [apply const_cont| |Lra.lra].
    apply (continuity_pt_minus (fun t => t) (fun _ => 1)); [apply derivable_continuous_pt, derivable_pt_id|apply const_cont].
Qed.
Theorem eig_gradient_of_field_refuted :
  exists g ph (eps : R -> nat -> R) w (E : R -> list C) delta solve G,
    let e0 := eps_array g (eps 0) in
    let s' := fst (node_eval (vlen g) [] [OEig; OField] solve (fresh [OEig; OField]) e0) in
    positive_cells g /\ uniform_cells g /\ real_bloch ph /\ (forall i, (i < vlen g)%nat -> 0 < eps 0 i) /\
    path_direction g eps delta /\ mode_path g ph eps w E /\
    snd (node_eval (vlen g) [] [OEig; OField] solve (fresh [OEig; OField]) e0) = Ok [VNum (w 0); VArr (E 0)] /\
    node_grad (vlen g) [OEig; OField] solve s' e0 [Some [1]; None] = (s', Ok G) /\
    derivable_pt_lim w 0 0 /\ along (vlen g) (fun i => nth i G 0) delta = 7 / 30.
Proof.
  exists ex_cubic, ex_minus, bad_eps, (fun _ => 2), bad_E, bad_dir, bad_solve. eexists. cbv zeta.
  split; [exact cubic_positive|]. split; [exact cubic_uniform|]. split; [exact minus_bloch|].
  split; [intros i Hi; destruct i as [|[|[|i]]]; [| | |exfalso; vm_compute in Hi; lia]; cbn; Lra.lra|].
  split; [exact bad_direction|]. split; [exact bad_path|]. split; [reflexivity|].
  assert (L : n_last (fst (node_eval (vlen ex_cubic) [] [OEig; OField] bad_solve (fresh [OEig; OField]) (eps_array ex_cubic (bad_eps 0)))) = Some (eps_array ex_cubic (bad_eps 0), (bad_E 0, 2))) by reflexivity.
  split; [unfold node_grad; rewrite L, (hit_last _ L); reflexivity|]. split; [apply derivable_pt_lim_const|].
  assert (Sv : Adj_Proofs.rs 3 (fun k => n2 (at_ (K:=CC) (bad_E 0) k)) = 6) by (cbn [Adj_Proofs.rs]; unfold n2; cbn; ring).
  assert (Dk : forall k, (k < 3)%nat -> domega 3 (eps_array ex_cubic (bad_eps 0)) (bad_E 0) 2 k = - 2 / 2 * (n2 (at_ (K:=CC) (bad_E 0) k) / bad_eps 0 k / 6)).
  { intros k Hk. assert (A := @domega_re ex_cubic (bad_eps 0) (bad_E 0) 2 k Hk). change (vlen ex_cubic) with 3%nat in A. rewrite Sv in A. apply A; [|Lra.lra].
    destruct k as [|[|[|k]]]; [| | |lia]; cbn; Lra.lra. }
  change (vlen ex_cubic) with 3%nat. unfold along. cbn [map seq nth]. rewrite !Dk by lia. unfold n2. cbn. field.
Qed.
Print Assumptions eig_gradient_of_field_refuted.

(** C142.  The gradient depends on the gradient given for the last EigenValue only: those for
    other EigenValues, fields, overlaps have no effect. *)
Theorem eig_gradient_of_last : forall N sources outputs solve history eps vals k gs gs',
  let s := node_evals N sources outputs solve (fresh outputs) history in
  let s' := fst (node_eval N sources outputs solve s eps) in
  snd (node_eval N sources outputs solve s eps) = Ok vals ->
  last_eig outputs k -> grads_fit outputs gs -> grads_fit outputs gs' -> nth_error gs k = nth_error gs' k ->
  node_grad N outputs solve s' eps gs = node_grad N outputs solve s' eps gs' /\ is_ok (snd (node_grad N outputs solve s' eps gs)) = true.
Proof.
  intros N sources outputs solve history eps vals k gs gs' s s' Hv Hk F F' Eq.
  assert (Hr : remembers N sources outputs solve s) by (apply evals_remember, fresh_remembers).
  destruct (proj2 F k (proj1 Hk)) as (d & r & Hd).
  destruct (@grad_after_eval N sources outputs solve s eps vals k d r gs Hr Hv Hk F Hd) as (J & v & w & A & B & G).
  destruct (@grad_after_eval N sources outputs solve s eps vals k d r gs' Hr Hv Hk F' (eq_trans (eq_sym Eq) Hd)) as (J2 & v2 & w2 & A2 & B2 & G2).
  rewrite A in A2. injection A2 as <-. rewrite B in B2. injection B2 as <- <-. subst s'. cbv zeta in G, G2. rewrite G, G2. now split.
Qed.
Print Assumptions eig_gradient_of_last.
(** so the gradient of a sum of two EigenValues of one simulation is that of one of them *)
Theorem eig_gradient_sum_refuted : exists N solve eps G,
  let outs := [OEig; OEig] in
  let s' := fst (node_eval N [] outs solve (fresh outs) eps) in
  node_grad N outs solve s' eps [Some [1]; Some [1]] = (s', Ok G) /\
  node_grad N outs solve s' eps [Some [0]; Some [1]] = (s', Ok G) /\ ~ nth 0 G 0 = 0.
Proof.
  exists 1%nat, (fun _ _ => Ok ([creal 1], creal 2)), [creal 1]. eexists. cbv zeta.
  assert (L : n_last (fst (node_eval 1 [] [OEig; OEig] (fun _ _ => Ok ([creal 1], creal 2)) (fresh [OEig; OEig]) [creal 1])) = Some ([creal 1], ([creal 1], 2))) by reflexivity.
  unfold node_grad. rewrite L, (hit_last _ L). split; [reflexivity|]. split; [reflexivity|].
  cbn. unfold cinv, cscale, cmul, cconj, creal. cbn. intros H. match type of H with ?l = 0 => assert (l = -1) by field end. Lra.lra.
Qed.
Print Assumptions eig_gradient_sum_refuted.

(** Exceptions of the gradient: no EigenValue among the outputs, no gradient for the first of them,
    a permittivity that is not the one of the last evaluation. *)
Theorem eig_gradient_errors : forall N sources outputs solve history eps vals gs,
  let s := node_evals N sources outputs solve (fresh outputs) history in
  let s' := fst (node_eval N sources outputs solve s eps) in
  snd (node_eval N sources outputs solve s eps) = Ok vals ->
  (no_eig outputs -> node_grad N outputs solve s' eps gs = (s', Err NameError)) /\
  (forall k, nth_error outputs k = Some OEig -> nth_error gs k = Some None -> (forall j, (j < k)%nat -> nth_error outputs j <> Some OEig) ->
     node_grad N outputs solve s' eps gs = (s', Err AttributeError)) /\
  (forall eps', eps' <> eps -> outputs <> [] -> node_grad N outputs solve s' eps' gs = (s', Err TypeError)).
Proof.
  intros N sources outputs solve history eps vals gs s s' Hv.
  assert (Hr : remembers N sources outputs solve s) by (apply evals_remember, fresh_remembers).
  split; [intros H; exact (@grad_no_eig N sources outputs solve s eps vals gs Hr Hv H)|].
  split; [intros k H1 H2 H3; exact (@grad_none N sources outputs solve s eps vals gs k Hr Hv H1 H2 H3)|].
  intros eps' Ne Ho. apply grad_other_eps; [|exact Ho]. destruct (@eval_last N sources outputs solve s eps vals Hr Hv) as (J & v & w & _ & _ & L).
  subst s'. unfold hit. rewrite L. destruct (Adj_Model.same eps eps') eqn:S; [|reflexivity]. apply same_spec in S. congruence.
Qed.
Print Assumptions eig_gradient_errors.

(** Values of eigenvalue, field and permittivity do not depend on earlier evaluations. *)
Theorem eig_eval_history : forall N sources outputs solve history eps,
  Forall stateless outputs ->
  snd (node_eval N sources outputs solve (node_evals N sources outputs solve (fresh outputs) history) eps)
  = snd (node_eval N sources outputs solve (fresh outputs) eps).
Proof.
  intros N sources outputs solve history eps F. rewrite (@eval_pure N sources outputs solve _ eps F) by (apply evals_remember, fresh_remembers).
  symmetry. apply eval_pure; [exact F|apply fresh_remembers].
Qed.
Print Assumptions eig_eval_history.
(** an overlap keeps the mode of the first permittivity *)
Theorem eig_overlap_history_refuted : exists N outputs solve history eps,
  is_ok (snd (node_eval N [] outputs solve (fresh outputs) eps)) = true /\
  is_ok (snd (node_eval N [] outputs solve (node_evals N [] outputs solve (fresh outputs) history) eps)) = true /\
  snd (node_eval N [] outputs solve (node_evals N [] outputs solve (fresh outputs) history) eps)
  <> snd (node_eval N [] outputs solve (fresh outputs) eps).
Proof.
  exists 1%nat, [OOverlap (fun e => e)], (fun _ _ => Ok ([creal 1], creal 2)), [[creal 1]], [creal 2].
  assert (Hh : Adj_Model.same [creal 1] [creal 2] = false).
  { destruct (Adj_Model.same [creal 1] [creal 2]) eqn:S; [|reflexivity]. apply same_spec in S. injection S as S. Lra.lra. }
  split; [reflexivity|]. unfold node_evals. cbn [fold_left]. unfold node_eval at 1 3, hit.
  replace (n_last (fst (node_eval 1 [] [OOverlap (fun e => e)] (fun _ _ => Ok ([creal 1], creal 2)) (fresh [OOverlap (fun e => e)]) [creal 1]))) with (Some ([creal 1], ([creal 1], 2))) by reflexivity.
  rewrite Hh. split; [reflexivity|]. cbn. intros H. injection H as H _. unfold c0, cadd, cmul, creal in H. cbn in H. Lra.lra.
Qed.
Print Assumptions eig_overlap_history_refuted.

(** The constructor: only the solver maxwell_eig; a Bloch vector given as an array is rejected,
    None and the empty list mean zero. *)
Theorem eig_create : forall s b,
  (is_ok (create s b) = true <-> s = MaxwellEig /\ (forall l, b = BArray l -> (length l <= 1)%nat)) /\
  (forall l, l <> [] -> create MaxwellEig (BList l) = Ok l) /\ create MaxwellEig BNone = Ok [0; 0; 0] /\
  (is_ok (create s b) = false -> create s b = Err ValueError).
Proof.
  intros s b. split; [|split; [|split]].
  - destruct s; cbn; [|split; [discriminate|intros [? _]; discriminate]..].
    assert (Y : forall b', (forall l, b' = BArray l -> (length l <= 1)%nat) -> is_ok (choose_bloch b') = true).
    { intros [|[|x l]|[|x [|y l]]] H; cbn; try reflexivity; [now destruct (Req_EM_T x 0)|]. specialize (H _ eq_refl). cbn in H. lia. }
    split; [|intros [_ H]; exact (Y b H)]. intros H. split; [reflexivity|]. intros l ->. destruct l as [|x [|y l]]; cbn in *; [lia|lia|discriminate].
  - intros [|x l] H; [congruence|reflexivity].
  - reflexivity.
  - destruct s; try reflexivity. destruct b as [|[|x l]|[|x [|y l]]]; cbn; try discriminate; try reflexivity. destruct (Req_EM_T x 0); discriminate.
Qed.
Print Assumptions eig_create.
Example eig_node_ex :
  let outs := [OEig; OField; OEig] in let solve := fun e _ : list C => Ok (e, creal 2) in
  last_eig outs 2 /\ grads_fit outs [Some [5]; None; Some [1]] /\
  snd (node_eval 1 [] outs solve (node_evals 1 [] outs solve (fresh outs) [[creal 3]]) [creal 3]) = Ok [VNum 2; VArr [creal 3]; VNum 2] /\
  Forall stateless outs.
Proof.
  cbv zeta. split; [split; [reflexivity|intros [|[|[|[|j]]]] Hj; try lia; discriminate]|]. split.
  - split; [reflexivity|]. intros [|[|[|[|j]]]] Hj; try discriminate; [now exists 5, []|now exists 1, []].
  - split; [|repeat constructor]. rewrite eig_eval_history; [reflexivity|repeat constructor].
Qed.
