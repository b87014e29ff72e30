(** Lemmas about penalty and augmented Lagrangian methods, closures, packing and options. *)
From Verif Require Import Base QTac Opt_Model Opt_Spec Opt_Proofs Opt_Proofs2.
From Coq Require Import ZArith Qabs Setoid.
Set Implicit Arguments.

Section Pen.
Variables (P : Type) (f : P -> Q) (cons : list (P -> Q)) (inner : (P -> Q) -> Q -> P -> P) (pw : Q -> Q).
Variables (mu0 ftol : Q) (pf num_cycles : nat).
Definition pen_h (k : nat) : P -> Q := fun y => f y + weight pw mu0 k * penalty cons pf y.
Definition pen_tol (k : nat) : Q := qmax (1 / qpower 100 (k + 1)) ftol.
Fixpoint iterates (x : P) (k : nat) : P :=
  match k with O => x | S k' => inner (pen_h k') (pen_tol k') (iterates x k') end.
Lemma weight_S k : weight pw mu0 (S k) = pw (weight pw mu0 k).
Proof. reflexivity. Qed.
Lemma loop_char_pen x n : forall k log, penalty_loop f cons inner pw ftol pf (seq k n) (weight pw mu0 k) (iterates x k) log =
  (iterates x (k + n), log ++ map (fun j => Cycle j (weight pw mu0 j) (iterates x (S j))) (seq k n)).
Proof.
  induction n as [|n IH]; intros k log; cbn [seq penalty_loop map].
  - now rewrite Nat.add_0_r, app_nil_r.
  - change (inner (penalty_obj f cons pf (weight pw mu0 k)) (cycle_ftol ftol k) (iterates x k)) with (iterates x (S k)).
    rewrite <- weight_S, IH, <- app_assoc. cbn [app]. now replace (S k + n)%nat with (k + S n)%nat by lia.
Qed.
Lemma first_call x : exists xs : nat -> P, xs 0%nat = x /\
  (forall k, (k < num_cycles)%nat -> xs (S k) = inner (fun y => f y + weight pw mu0 k * penalty cons pf y) (qmax (1 / qpower 100 (k + 1)) ftol) (xs k)) /\
  penalty_call f cons inner pw mu0 ftol pf num_cycles 0 x =
    (xs num_cycles, map (fun k => Cycle k (weight pw mu0 k) (xs (S k))) (seq 0 num_cycles), (num_cycles - 1)%nat).
Proof.
  exists (iterates x). split; [reflexivity|]. split; [reflexivity|]. unfold penalty_call. rewrite Nat.sub_0_r.
  change mu0 with (weight pw mu0 0) at 1. change x with (iterates x 0) at 1. rewrite loop_char_pen. cbn [app Nat.add].
  f_equal. destruct num_cycles; reflexivity.
Qed.
Lemma later_call x : (1 <= num_cycles)%nat ->
  let x' := inner (fun y => f y + mu0 * penalty cons pf y) (qmax (1 / qpower 100 num_cycles) ftol) x in
  penalty_call f cons inner pw mu0 ftol pf num_cycles (num_cycles - 1) x = (x', [Cycle (num_cycles - 1) mu0 x'], (num_cycles - 1)%nat).
Proof.
  intros H x'. unfold penalty_call. replace (num_cycles - (num_cycles - 1))%nat with 1%nat by lia. cbn [seq penalty_loop app].
  replace (Nat.ltb (num_cycles - 1) num_cycles) with true by (symmetry; apply Nat.ltb_lt; lia).
  change (inner (penalty_obj f cons pf mu0) (cycle_ftol ftol (num_cycles - 1)) x) with (inner (fun y => f y + mu0 * penalty cons pf y) (qmax (1 / qpower 100 (num_cycles - 1 + 1)) ftol) x).
  replace (num_cycles - 1 + 1)%nat with num_cycles by lia. reflexivity.
Qed.
Lemma qpower0 b n : b == 0 -> (1 <= n)%nat -> qpower b n == 0.
Proof. intros H Hn. destruct n; [lia|]. cbn [qpower]. generalize (qpower b n). intros q. rewrite H. ring. Qed.
Lemma penalty_feasible y : (1 <= pf)%nat -> feasible cons y -> penalty cons pf y == 0.
Proof.
  intros Hp Hy. unfold penalty, feasible in *. induction cons as [|c l IH]; [reflexivity|]. cbn [map qsum]. rewrite IH by (intros; apply Hy; now right).
  rewrite qpower0; [reflexivity| |exact Hp]. apply Hy. now left.
Qed.
Lemma lower_bound mu x y : (1 <= pf)%nat -> minimizes (fun y => f y + mu * penalty cons pf y) x -> feasible cons y ->
  f x + mu * penalty cons pf x <= f y.
Proof. intros Hp Hm Hy. specialize (Hm y). cbn beta in Hm. rewrite (penalty_feasible Hp Hy) in Hm. lra. Qed.
Lemma monotone mu1 mu2 x1 x2 : 0 <= mu1 -> mu1 < mu2 ->
  minimizes (fun y => f y + mu1 * penalty cons pf y) x1 -> minimizes (fun y => f y + mu2 * penalty cons pf y) x2 ->
  penalty cons pf x2 <= penalty cons pf x1 /\ f x1 <= f x2.
Proof.
  intros H0 H1 M1 M2. specialize (M1 x2). specialize (M2 x1). cbn beta in *.
  set (p1 := penalty cons pf x1) in *. set (p2 := penalty cons pf x2) in *.
  assert (p2 <= p1) by nra. split; [assumption|]. nra.
Qed.
Lemma weight_grows : 1 < mu0 -> (forall m, 1 < m -> m < pw m) -> forall j k, (j < k)%nat -> 1 < weight pw mu0 j /\ weight pw mu0 j < weight pw mu0 k.
Proof.
  intros H0 H1 j k. assert (G : forall k, 1 < weight pw mu0 k).
  { induction k0 as [|k0 IH]; [exact H0|]. rewrite weight_S. specialize (H1 _ IH). lra. }
  intros Hjk. split; [apply G|]. induction k as [|k IH]; [lia|]. rewrite weight_S. specialize (H1 _ (G k)).
  destruct (Nat.eq_dec j k) as [->|]; [exact H1|]. assert (weight pw mu0 j < weight pw mu0 k) by (apply IH; lia). lra.
Qed.
Lemma run_monotone x : (1 <= pf)%nat -> 1 < mu0 -> (forall m, 1 < m -> m < pw m) ->
  (forall k t y, minimizes (fun z => f z + weight pw mu0 k * penalty cons pf z) (inner (fun z => f z + weight pw mu0 k * penalty cons pf z) t y)) ->
  forall xn log cn, penalty_call f cons inner pw mu0 ftol pf num_cycles 0 x = (xn, log, cn) ->
  (forall j k d, (j <= k < num_cycles)%nat ->
     penalty cons pf (c_param (nth k log d)) <= penalty cons pf (c_param (nth j log d)) /\
     f (c_param (nth j log d)) <= f (c_param (nth k log d))) /\
  (forall k d y, (k < num_cycles)%nat -> feasible cons y ->
     f (c_param (nth k log d)) + c_mu (nth k log d) * penalty cons pf (c_param (nth k log d)) <= f y).
Proof.
  intros Hp H0 H1 Hm xn log cn E. destruct (first_call x) as (xs & X0 & XS & E'). rewrite E in E'. injection E' as _ -> _.
  assert (N : forall k d, (k < num_cycles)%nat -> nth k (map (fun k => Cycle k (weight pw mu0 k) (xs (S k))) (seq 0 num_cycles)) d = Cycle k (weight pw mu0 k) (xs (S k))).
  { intros k d Hk. set (g := fun k => Cycle k (weight pw mu0 k) (xs (S k))). rewrite (nth_indep _ d (g 0%nat)) by (rewrite map_length, seq_length; exact Hk).
    rewrite map_nth, seq_nth by exact Hk. reflexivity. }
  split.
  - intros j k d Hjk. rewrite !N by lia. cbn [c_param]. destruct (Nat.eq_dec j k) as [->|]; [split; apply Qle_refl|].
    destruct (@weight_grows H0 H1 j k ltac:(lia)) as [G1 G2]. rewrite !XS by lia. apply monotone with (mu1 := weight pw mu0 j) (mu2 := weight pw mu0 k); auto. lra.
  - intros k d y Hk Hy. rewrite !N by lia. cbn [c_param c_mu]. rewrite XS by lia. apply lower_bound; auto.
Qed.

(** *** augmented Lagrangian *)
Variables (p01 p09 pexp : Q -> Q) (ltol_final ctol_final : Q).
Notation cyc := (auglag_cycle f cons inner p01 p09 ltol_final ctol_final).
Notation lloop := (auglag_loop f cons inner p01 p09 ltol_final ctol_final).
Lemma cycle_lam s : length (l_lam s) = length cons -> length (l_lam (fst (cyc s))) = length cons.
Proof.
  intros H. unfold auglag_cycle. repeat match goal with |- context [if ?b then _ else _] => destruct b end; cbn [fst l_lam]; auto.
  rewrite map_length, combine_length. unfold cvals. rewrite map_length, H. apply Nat.min_id.
Qed.
Lemma cycle_mu s : l_mu (fst (cyc s)) = l_mu s \/ l_mu (fst (cyc s)) = l_mu s * 100.
Proof. unfold auglag_cycle. repeat match goal with |- context [if ?b then _ else _] => destruct b end; cbn [fst l_mu]; auto. Qed.
Lemma cycle_x s : l_x (fst (cyc s)) = inner (lagrangian f cons (l_lam s) (l_mu s)) (l_ltol s) (l_x s).
Proof. unfold auglag_cycle. repeat match goal with |- context [if ?b then _ else _] => destruct b end; reflexivity. Qed.
Lemma cycle_stop s : snd (cyc s) = true ->
  let x := l_x (fst (cyc s)) in
  qsum (map (fun c => Qabs (c x)) cons) < l_ctol s /\ qsum (map (fun c => Qabs (c x)) cons) < ctol_final /\ l_ltol s < ltol_final /\
  l_ltol (fst (cyc s)) = l_ltol s /\ l_lam (fst (cyc s)) = l_lam s /\ l_mu (fst (cyc s)) = l_mu s.
Proof.
  unfold auglag_cycle. set (x := inner _ _ _). unfold cvals. rewrite map_map. set (e := qsum _).
  destruct (qlt e (l_ctol s)) eqn:E1; [|discriminate].
  destruct (qlt (l_ltol s) ltol_final && qlt e ctol_final) eqn:E2; [|discriminate]. intros _. cbn [fst l_x l_ltol l_lam l_mu]. fold e.
  apply andb_true_iff in E2. destruct E2 as [E2 E3]. qhyps. auto 6.
Qed.
Lemma lloop_char d : forall n s calls s' calls' conv, lloop n s calls = (s', calls', conv) -> length (l_lam s) = length cons -> last calls d = l_x s ->
  exists k, (k <= n)%nat /\ length calls' = (length calls + k)%nat /\
  length (l_lam s') = length cons /\ (exists j, (j <= k)%nat /\ l_mu s' == l_mu s * qpower 100 j) /\
  (conv = false -> k = n /\ last calls' d = l_x s') /\
  (conv = true -> (k < n)%nat /\ l_ltol s' < ltol_final /\ qsum (map (fun c => Qabs (c (l_x s'))) cons) < ctol_final).
Proof.
  induction n as [|n IH]; intros s calls s' calls' conv E Hl Hd; cbn [auglag_loop] in E.
  - injection E as <- <- <-. exists 0%nat. split; [lia|]. split; [lia|]. split; [exact Hl|].
    split; [exists 0%nat; split; [lia|cbn [qpower]; ring]|]. split; [auto|discriminate].
  - destruct (snd (cyc s)) eqn:Es.
    + injection E as <- <- <-. exists 0%nat. destruct (cycle_stop s Es) as (H1 & H2 & H3 & H4 & H5 & H6).
      split; [lia|]. split; [lia|]. split; [now apply cycle_lam|].
      split; [exists 0%nat; split; [lia|rewrite H6; cbn [qpower]; ring]|]. split; [discriminate|]. intros _. split; [lia|]. rewrite H4. auto.
    + apply IH in E; [|now apply cycle_lam|apply last_last]. destruct E as (k & Hk & Hc & Hl' & (j & Hj & Hm) & HF & HT). exists (S k).
      rewrite app_length in Hc. cbn [length] in Hc. split; [lia|]. split; [lia|]. split; [exact Hl'|]. split.
      { destruct (cycle_mu s) as [Em|Em]; rewrite Em in Hm; [exists j|exists (S j)]; (split; [lia|]); rewrite Hm; cbn [qpower]; ring. }
      split; [intros Hc'; destruct (HF Hc') as [-> Hlast]; auto|]. intros Hc'; destruct (HT Hc') as (A & B); split; [lia|exact B].
Qed.
Lemma auglag_lemma x s calls conv :
  auglag_call f cons inner mu0 num_cycles p01 p09 pexp ltol_final ctol_final x = (s, calls, conv) ->
  length (l_lam s) = length cons /\ (exists j, (j <= length calls)%nat /\ l_mu s == mu0 * qpower 100 j) /\
  (conv = false -> length calls = num_cycles /\ last calls x = l_x s) /\
  (conv = true -> (length calls < num_cycles)%nat /\ l_ltol s < ltol_final /\ qsum (map (fun c => Qabs (c (l_x s))) cons) < ctol_final).
Proof.
  intros E. apply lloop_char with (d := x) in E; [|apply repeat_length|reflexivity].
  destruct E as (k & Hk & Hc & Hl & Hj & HF & HT). cbn [length Nat.add] in Hc. subst k. cbn [auglag_init l_mu] in Hj.
  split; [exact Hl|]. split; [exact Hj|]. split; [|exact HT]. exact HF.
Qed.
Lemma lag_identity lam mu x y : length lam = length cons ->
  lagrangian f cons lam mu y ==
  f y - dot (map (fun p => fst p + -1 * mu * snd p) (combine lam (cvals cons x))) (cvals cons y) + mu / 2 * sqdiff cons x y
      - mu / 2 * qsum (map (fun c => c x * c x) cons).
Proof.
  unfold lagrangian, cvals, sqdiff, dot. intros Hl. setoid_replace (mu / 2) with ((1 # 2) * mu) by field.
  assert (G : -1 * qsum (map (fun p => fst p * snd p) (combine lam (map (fun c => c y) cons))) + (1 # 2) * mu * qsum (map (fun c => c * c) (map (fun c => c y) cons)) ==
    (1 # 2) * mu * qsum (map (fun c => (c y - c x) * (c y - c x)) cons) - (1 # 2) * mu * qsum (map (fun c => c x * c x) cons)
    - qsum (map (fun p => fst p * snd p) (combine (map (fun p => fst p + -1 * mu * snd p) (combine lam (map (fun c => c x) cons))) (map (fun c => c y) cons)))).
  { revert lam Hl. clear. induction cons as [|c l IH]; intros [|a lam] Hl; try discriminate; cbn [map combine qsum fst snd]; [ring|].
    injection Hl as Hl. specialize (IH lam Hl).
    set (A := qsum (map _ (combine lam _))) in *. set (B := qsum (map _ (map _ l))) in *. set (C := qsum (map (fun c => _ * _) l)) in *.
    set (D := qsum (map _ l)) in *. set (F := qsum (map _ (combine _ _))) in *. nra. }
  lra.
Qed.
Lemma cycle_identity s y : length (l_lam s) = length cons -> snd (cyc s) = false ->
  let s' := fst (cyc s) in let x := l_x s' in
  l_x s' = inner (lagrangian f cons (l_lam s) (l_mu s)) (l_ltol s) (l_x s) /\
  (qsum (map (fun c => Qabs (c x)) cons) < l_ctol s -> l_mu s' = l_mu s /\
     lagrangian f cons (l_lam s) (l_mu s) y ==
     f y - dot (l_lam s') (cvals cons y) + l_mu s / 2 * sqdiff cons x y - l_mu s / 2 * qsum (map (fun c => c x * c x) cons)) /\
  (l_ctol s <= qsum (map (fun c => Qabs (c x)) cons) -> l_mu s' = l_mu s * 100 /\ l_lam s' = l_lam s).
Proof.
  intros Hl Hs s' x. assert (Hx : l_x s' = inner (lagrangian f cons (l_lam s) (l_mu s)) (l_ltol s) (l_x s)) by apply cycle_x.
  split; [exact Hx|]. unfold x. rewrite Hx. clear x. unfold s' in *. clear s'. unfold auglag_cycle in *. set (x := inner _ _ _) in *.
  assert (Ee : qsum (map Qabs (cvals cons x)) = qsum (map (fun c => Qabs (c x)) cons)) by (unfold cvals; now rewrite map_map).
  rewrite Ee in *. set (e := qsum (map (fun c => Qabs (c x)) cons)) in *. destruct (qlt e (l_ctol s)) eqn:E1.
  - destruct (qlt (l_ltol s) ltol_final && qlt e ctol_final); [discriminate|]. cbn [fst l_mu l_lam] in *. qhyps. split; [|intros; lra].
    intros _. split; [reflexivity|]. now apply lag_identity.
  - cbn [fst l_mu l_lam]. qhyps. split; [intros; lra|auto].
Qed.
Lemma lag_optimal lam mu x y : minimizes (lagrangian f cons lam mu) x -> (forall c, In c cons -> c y == c x) -> f x <= f y.
Proof.
  intros H E. specialize (H y). unfold lagrangian, cvals in H.
  assert (D : dot lam (map (fun c => c y) cons) == dot lam (map (fun c => c x) cons)).
  { clear H. unfold dot. revert lam. induction cons as [|c l IH]; intros [|a lam]; try reflexivity. cbn [map combine qsum fst snd].
    rewrite (E c (or_introl eq_refl)), IH; [reflexivity|]. intros c' Hc'. apply E. now right. }
  assert (S : qsum (map (fun c => c * c) (map (fun c => c y) cons)) == qsum (map (fun c => c * c) (map (fun c => c x) cons))).
  { clear H D. induction cons as [|c l IH]; [reflexivity|]. cbn [map qsum]. rewrite (E c (or_introl eq_refl)), IH; [reflexivity|]. intros c' Hc'. apply E. now right. }
  rewrite D, S in H. lra.
Qed.
End Pen.

(** *** closures *)
Section Clo.
Variable X : Type.
Lemma fold_eq (eqs : list (X -> Q)) : forall l fr,
  fold_left (fun s g => (fst s ++ [(TEq, CodeEq)], Frame (Some g) (v_ineq (snd s)))) eqs (l, fr) =
  (l ++ repeat (TEq, CodeEq) (length eqs), Frame (fold_left (fun _ g => Some g) eqs (v_eq fr)) (v_ineq fr)).
Proof.
  induction eqs as [|g eqs IH]; intros l fr; cbn [fold_left length repeat]; [rewrite app_nil_r; now destruct fr|].
  cbn [fst snd v_ineq v_eq] in *. rewrite IH. cbn [v_eq v_ineq]. now rewrite <- app_assoc.
Qed.
Lemma fold_ineq (ineqs : list (X -> Q)) : forall l fr,
  fold_left (fun s g => (fst s ++ [(TIneq, CodeIneq)], Frame (v_eq (snd s)) (Some g))) ineqs (l, fr) =
  (l ++ repeat (TIneq, CodeIneq) (length ineqs), Frame (v_eq fr) (fold_left (fun _ g => Some g) ineqs (v_ineq fr))).
Proof.
  induction ineqs as [|g ineqs IH]; intros l fr; cbn [fold_left length repeat]; [rewrite app_nil_r; now destruct fr|].
  cbn [fst snd v_ineq v_eq] in *. rewrite IH. cbn [v_eq v_ineq]. now rewrite <- app_assoc.
Qed.
Lemma fold_last {A} (l : list A) o : fold_left (fun _ g => Some g) l o = match rev l with [] => o | g :: _ => Some g end.
Proof. destruct l as [|x l] using rev_ind; [reflexivity|]. rewrite fold_left_app, rev_app_distr. reflexivity. Qed.
Lemma build_char (eqs ineqs : list (X -> Q)) : build_constraints eqs ineqs =
  (repeat (TEq, CodeEq) (length eqs) ++ repeat (TIneq, CodeIneq) (length ineqs),
   Frame (match rev eqs with [] => None | g :: _ => Some g end) (match rev ineqs with [] => None | g :: _ => Some g end)).
Proof. unfold build_constraints. rewrite fold_eq, fold_ineq. cbn [v_eq v_ineq app]. now rewrite !fold_last. Qed.
Lemma map_repeat {A B} (h : A -> B) a n : map h (repeat a n) = repeat (h a) n.
Proof. induction n; cbn; congruence. Qed.
Lemma seen_char (eqs ineqs : list (X -> Q)) : let fr := snd (build_constraints eqs ineqs) in
  seen_constraints Qopp eqs ineqs = repeat (TEq, call_closure Qopp CodeEq fr) (length eqs) ++ repeat (TIneq, call_closure Qopp CodeIneq fr) (length ineqs).
Proof. unfold seen_constraints. rewrite build_char. cbn [fst snd]. now rewrite map_app, !map_repeat. Qed.
Lemma seen_types (eqs ineqs : list (X -> Q)) : map fst (seen_constraints Qopp eqs ineqs) = repeat TEq (length eqs) ++ repeat TIneq (length ineqs).
Proof. rewrite seen_char, map_app, !map_repeat. reflexivity. Qed.
Lemma seen_funs (eqs ineqs : list (X -> Q)) t h : In (t, h) (seen_constraints Qopp eqs ineqs) ->
  match t with
  | TEq => exists l g, eqs = l ++ [g] /\ forall x, h x = Ok (g x)
  | TIneq => exists l g, ineqs = l ++ [g] /\ forall x, h x = Ok (- g x)
  end.
Proof.
  rewrite seen_char, build_char. cbn [snd]. intros H. apply in_app_iff in H.
  assert (R : forall A (a b : A) n, In a (repeat b n) -> a = b /\ n <> 0%nat).
  { intros A a b n Hn. split; [now apply repeat_spec in Hn|]. intros ->. destruct Hn. }
  assert (L : forall A (l : list A), length l <> 0%nat -> exists l' g, l = l' ++ [g] /\ match rev l with [] => None | g :: _ => Some g end = Some g).
  { intros A l Hl. destruct l as [|g l'] using rev_ind; [now elim Hl|]. exists l', g. split; [reflexivity|]. now rewrite rev_app_distr. }
  destruct H as [H|H]; apply R in H; destruct H as [E Hn]; injection E as -> ->; apply L in Hn; destruct Hn as (l & g & E1 & E2); exists l, g; (split; [exact E1|]);
    intros x; cbn [call_closure v_eq v_ineq]; rewrite E2; reflexivity.
Qed.
Lemma accepted_char m (eqs ineqs : list (X -> Q)) x : accepted (passed_constraints Qopp m eqs ineqs) x <->
  (accepts_constraints m = true -> (forall l g, eqs = l ++ [g] -> g x == 0) /\ (forall l g, ineqs = l ++ [g] -> g x <= 0)).
Proof.
  unfold passed_constraints. destruct (accepts_constraints m); [|cbn; split; [discriminate|auto]]. cbn [accepted]. split.
  - intros H _. split; intros l g E.
    + assert (I : exists h, In (TEq, h) (seen_constraints Qopp eqs ineqs)).
      { rewrite seen_char. eexists. apply in_app_iff. left. rewrite E at 2. rewrite app_length, Nat.add_comm. cbn [length Nat.add repeat]. now left. }
      destruct I as [h I]. destruct (seen_funs _ _ _ _ I) as (l' & g' & E' & Hh). destruct (H _ _ I) as (v & Ev & Hv). rewrite Hh in Ev. injection Ev as <-.
      rewrite E in E'. apply app_inj_tail in E'. now destruct E' as [_ ->].
    + assert (I : exists h, In (TIneq, h) (seen_constraints Qopp eqs ineqs)).
      { rewrite seen_char. eexists. apply in_app_iff. right. rewrite E at 2. rewrite app_length, Nat.add_comm. cbn [length Nat.add repeat]. now left. }
      destruct I as [h I]. destruct (seen_funs _ _ _ _ I) as (l' & g' & E' & Hh). destruct (H _ _ I) as (v & Ev & Hv). rewrite Hh in Ev. injection Ev as <-.
      rewrite E in E'. apply app_inj_tail in E'. destruct E' as [_ ->]. lra.
  - intros H t h I. destruct (H eq_refl) as [H1 H2]. pose proof (seen_funs _ _ _ _ I) as F. destruct t; destruct F as (l & g & E & Hh); rewrite Hh; eexists; (split; [reflexivity|]).
    + eapply H1. exact E.
    + specialize (H2 _ _ E). lra.
Qed.
Lemma accepted_faithful m (eqs ineqs : list (X -> Q)) x : accepts_constraints m = true -> (length eqs <= 1)%nat -> (length ineqs <= 1)%nat ->
  accepted (passed_constraints Qopp m eqs ineqs) x <-> satisfies eqs ineqs x.
Proof.
  intros Hm H1 H2. rewrite accepted_char.
  assert (L : forall A (l : list A) (Q : A -> Prop), (length l <= 1)%nat -> (forall l' g, l = l' ++ [g] -> Q g) <-> (forall g, In g l -> Q g)).
  { intros A l Q Hl. destruct l as [|a [|b l]]; [| |cbn in Hl; lia].
    - split; [intros _ g []|intros _ l' g E; now destruct l'].
    - split; [intros H g [<-|[]]; now apply (H [] a)|intros H l' g E; apply H; rewrite E; apply in_app_iff; right; now left]. }
  unfold satisfies. rewrite <- (L _ eqs (fun g => g x == 0)), <- (L _ ineqs (fun g => g x <= 0)) by assumption. intuition.
Qed.
Lemma accepts_iff m : accepts_constraints m = true <-> m = SLSQP \/ m = COBYLA.
Proof. destruct m; simpl; split; intros H; try discriminate; try tauto; destruct H; discriminate. Qed.
Lemma accepted_char' m (eqs ineqs : list (X -> Q)) x : accepted (passed_constraints Qopp m eqs ineqs) x <->
  (m = SLSQP \/ m = COBYLA -> (forall l g, eqs = l ++ [g] -> g x == 0) /\ (forall l g, ineqs = l ++ [g] -> g x <= 0)).
Proof. rewrite accepted_char, accepts_iff. reflexivity. Qed.
Lemma accepted_faithful' m (eqs ineqs : list (X -> Q)) x : m = SLSQP \/ m = COBYLA -> (length eqs <= 1)%nat -> (length ineqs <= 1)%nat ->
  accepted (passed_constraints Qopp m eqs ineqs) x <-> satisfies eqs ineqs x.
Proof. intros H. apply accepted_faithful. now apply accepts_iff. Qed.
Lemma accepted_weaker m (eqs ineqs : list (X -> Q)) x : satisfies eqs ineqs x -> accepted (passed_constraints Qopp m eqs ineqs) x.
Proof.
  intros [H1 H2]. apply accepted_char. intros _. split; intros l g ->; [apply H1|apply H2]; apply in_app_iff; right; now left.
Qed.
End Clo.

(** *** packing *)
Definition restored (a : arr) : arr := Arr (var_shape a) (a_data a).
Lemma prod_var_shape a : prod (var_shape a) = prod (a_shape a).
Proof. unfold var_shape. now destruct (a_shape a). Qed.
Lemma unpack_at_pack : forall vs pre suf, (forall a, In a vs -> arr_ok a) ->
  unpack_at (length pre) (pre ++ concat (map a_data vs) ++ suf) (map var_shape vs) = Ok (map restored vs).
Proof.
  induction vs as [|a vs IH]; intros pre suf Hok; [reflexivity|]. cbn [map concat unpack_at].
  assert (Ha : length (a_data a) = prod (var_shape a)) by (rewrite prod_var_shape; apply Hok; now left).
  assert (E : firstn (prod (var_shape a)) (skipn (length pre) (pre ++ (a_data a ++ concat (map a_data vs)) ++ suf)) = a_data a).
  { rewrite skipn_app, skipn_all, Nat.sub_diag. cbn [app skipn]. rewrite <- app_assoc, <- Ha, firstn_app, Nat.sub_diag, firstn_all. cbn [firstn]. apply app_nil_r. }
  rewrite E, Ha, Nat.eqb_refl. rewrite <- Ha, <- app_length.
  replace (pre ++ (a_data a ++ concat (map a_data vs)) ++ suf) with ((pre ++ a_data a) ++ concat (map a_data vs) ++ suf) by (now rewrite <- !app_assoc).
  rewrite IH by (intros b Hb; apply Hok; now right). reflexivity.
Qed.
Lemma unpack_pack vs x : (forall a, In a vs -> arr_ok a) -> pack vs = Ok x ->
  unpack x (map var_shape vs) = Ok (map (fun a => Arr (match a_shape a with [] => [1%nat] | s => s end) (a_data a)) vs).
Proof.
  intros Hok E. assert (Ex : x = concat (map a_data vs)) by (destruct vs; [discriminate|now injection E as <-]). subst x.
  pose proof (@unpack_at_pack vs [] [] Hok) as H. cbn [length app] in H. rewrite app_nil_r in H. exact H.
Qed.
Lemma skip_skip {A} m : forall n (l : list A), skipn n (skipn m l) = skipn (m + n) l.
Proof. induction m as [|m IH]; intros n l; [reflexivity|]. destruct l as [|a l]; [now rewrite !skipn_nil|]. cbn [skipn Nat.add]. apply IH. Qed.
Lemma unpack_at_ok : forall shapes cur x, (cur <= length x)%nat ->
  match unpack_at cur x shapes with
  | Ok vs => (cur + fold_right Nat.add 0 (map prod shapes) <= length x)%nat /\ map a_shape vs = shapes /\ (forall a, In a vs -> arr_ok a) /\
             concat (map a_data vs) = firstn (fold_right Nat.add 0%nat (map prod shapes)) (skipn cur x)
  | Err e => e = ValueError /\ (length x < cur + fold_right Nat.add 0 (map prod shapes))%nat
  end.
Proof.
  induction shapes as [|s shapes IH]; intros cur x Hc; cbn [unpack_at map fold_right]; [split; [lia|]; split; [reflexivity|]; split; [intros a []|reflexivity]|].
  destruct (Nat.eqb_spec (length (firstn (prod s) (skipn cur x))) (prod s)) as [El|El]; rewrite firstn_length, skipn_length in El.
  - specialize (IH (cur + prod s)%nat x ltac:(lia)). destruct (unpack_at (cur + prod s) x shapes) as [vs|e]; cbn [bind].
    + destruct IH as (H1 & H2 & H3 & H4). split; [lia|]. split; [cbn [map a_shape]; now rewrite H2|]. split.
      * intros a [<-|Ha]; [unfold arr_ok; cbn [a_data a_shape]; rewrite firstn_length, skipn_length; lia|now apply H3].
      * cbn [map a_data concat]. rewrite H4. rewrite <- (firstn_skipn (prod s) (skipn cur x)) at 2.
        rewrite firstn_app, firstn_firstn, Nat.min_r by lia. f_equal. rewrite firstn_length, skipn_length.
        replace (Nat.min (prod s) (length x - cur)) with (prod s) by lia. rewrite skip_skip. f_equal. lia.
    + destruct IH as [-> IH]. split; [reflexivity|lia].
  - split; [reflexivity|]. lia.
Qed.
Lemma unpack_lemma x shapes :
  match unpack x shapes with
  | Ok vs => (fold_right Nat.add 0 (map prod shapes) <= length x)%nat /\ map a_shape vs = shapes /\ (forall a, In a vs -> arr_ok a) /\
             concat (map a_data vs) = firstn (fold_right Nat.add 0%nat (map prod shapes)) x
  | Err e => e = ValueError /\ (length x < fold_right Nat.add 0 (map prod shapes))%nat
  end.
Proof. exact (@unpack_at_ok shapes 0%nat x (Nat.le_0_l _)). Qed.
Lemma pack_unpack x shapes vs : shapes <> [] -> length x = fold_right Nat.add 0%nat (map prod shapes) -> unpack x shapes = Ok vs -> pack vs = Ok x.
Proof.
  intros Hs Hl E. pose proof (unpack_lemma x shapes) as H. rewrite E in H. destruct H as (_ & H2 & _ & H4).
  rewrite <- Hl, firstn_all in H4. destruct vs as [|a vs]; [subst shapes; now elim Hs|]. unfold pack. now rewrite H4.
Qed.
(** entry [i] of variable [j] sits at the same offset in the packed values and in the packed bounds *)
Lemma concat_nth {A} (ls : list (list A)) d : forall j i, (j < length ls)%nat -> (i < length (nth j ls []))%nat ->
  nth (fold_right Nat.add 0%nat (map (@length A) (firstn j ls)) + i) (concat ls) d = nth i (nth j ls []) d.
Proof.
  induction ls as [|l ls IH]; intros j i Hj Hi; [cbn in Hj; lia|]. destruct j as [|j]; cbn [firstn map fold_right concat nth] in *.
  - now apply app_nth1.
  - rewrite app_nth2 by lia. rewrite <- (IH j i) by (cbn in Hj; lia || assumption). f_equal. lia.
Qed.
Lemma bounds_aligned vs bs d db : length vs = length bs ->
  (forall j, (j < length vs)%nat -> length (a_data (nth j vs d)) = length (b_lo (nth j bs db)) /\ length (b_hi (nth j bs db)) = length (b_lo (nth j bs db))) ->
  forall x, pack vs = Ok x ->
  length (pack_bounds bs) = length x /\
  forall j i, (j < length vs)%nat -> (i < length (a_data (nth j vs d)))%nat -> exists o,
    qn x o = qn (a_data (nth j vs d)) i /\
    nth o (pack_bounds bs) (None, None) = (nth i (b_lo (nth j bs db)) None, nth i (b_hi (nth j bs db)) None).
Proof.
  intros Hl Hsz x E. assert (Ex : x = concat (map a_data vs)) by (destruct vs; [discriminate|now injection E as <-]). subst x. clear E.
  unfold pack_bounds. set (cb := fun b => combine (b_lo b) (b_hi b)).
  assert (EL : map (@length _) (map a_data vs) = map (@length _) (map cb bs)).
  { apply nth_ext with (d := 0%nat) (d' := 0%nat); rewrite !map_length; [exact Hl|]. intros j Hj.
    rewrite (nth_indep _ 0%nat (length (a_data d))) by (rewrite !map_length; exact Hj).
    rewrite (nth_indep (map _ (map cb bs)) 0%nat (length (cb db))) by (rewrite !map_length; lia). rewrite !map_map, (map_nth (fun a => length (a_data a))), (map_nth (fun b => length (cb b))).
    unfold cb. rewrite combine_length. destruct (Hsz j Hj). lia. }
  split.
  - assert (C : forall B (ls : list (list B)), length (concat ls) = fold_right Nat.add 0%nat (map (@length B) ls)) by (intros B ls; induction ls; cbn; [reflexivity|]; rewrite app_length; congruence).
    rewrite !C. now rewrite EL.
  - intros j i Hj Hi. exists (fold_right Nat.add 0%nat (map (@length Q) (firstn j (map a_data vs))) + i)%nat.
    assert (N1 : nth j (map a_data vs) [] = a_data (nth j vs d)).
    { rewrite (nth_indep _ [] (a_data d)) by (rewrite map_length; exact Hj). apply map_nth. }
    assert (N2 : nth j (map cb bs) [] = cb (nth j bs db)).
    { rewrite (nth_indep _ [] (cb db)) by (rewrite map_length; lia). apply map_nth. }
    destruct (Hsz j Hj) as [S1 S2]. split.
    + unfold qn. rewrite concat_nth; [now rewrite N1|now rewrite map_length|now rewrite N1].
    + rewrite firstn_map. rewrite <- firstn_map. rewrite <- (firstn_map (@length Q)), EL, (firstn_map (@length _)).
      rewrite concat_nth; [rewrite N2|rewrite map_length; lia|rewrite N2; unfold cb; rewrite combine_length; lia].
      unfold cb. now rewrite combine_nth.
Qed.
(** *** options *)
Lemma resume_lemma max_iters start : so_maxiter (run_opts (make_opts max_iters) start) = match max_iters with Some m => if Z.eqb m 0 then None else Some m | None => None end.
Proof. reflexivity. Qed.

(** *** the optimizer loop in terms of the caller's arguments *)
Lemma finished_ends {S} (it : Z -> S -> S * bool) iters (o : ostate S) k : (0 <= o_iters o)%Z ->
  (forall a, iters = Some a -> 0 <= a)%Z -> (forall b, o_max o = Some b -> 0 <= b)%Z ->
  ends it (stop_iter iters o) (o_iters o) (o_s o) k <-> finished it iters (o_max o) (o_iters o) (o_s o) k.
Proof.
  intros H0 Hi Hm. unfold ends, finished, stop_iter, truthy. destruct iters as [a|], (o_max o) as [b|];
    try specialize (Hi _ eq_refl); try specialize (Hm _ eq_refl);
    try (destruct (Z.eqb_spec a 0) as [Ea|Ea]); try (destruct (Z.eqb_spec b 0) as [Eb|Eb]); split;
    (intros [(m & E & N & L)|H]; [|(destruct H as [(m & E & N & L)|H]; [|auto]) || auto]); try discriminate E; try injection E as <-; try (now elim N); auto;
    try (destruct (Z.min_spec (o_iters o + a) b) as [[? Emin]|[? Emin]]); try rewrite Emin in *;
    try (left; eexists; split; [reflexivity|]; split; lia); try (right; left; eexists; split; [reflexivity|]; split; lia); auto.
Qed.
Lemma optimize_stops_lemma {S} (it : Z -> S -> S * bool) fuel iters (o : ostate S) : (0 <= o_iters o)%Z ->
  (forall a, iters = Some a -> 0 <= a)%Z -> (forall b, o_max o = Some b -> 0 <= b)%Z ->
  match optimize (total it) fuel iters o with
  | Ok (o', seen) => exists k, (1 <= k <= fuel)%nat /\ finished it iters (o_max o) (o_iters o) (o_s o) k /\
      (forall j, (1 <= j < k)%nat -> ~ finished it iters (o_max o) (o_iters o) (o_s o) j) /\
      o' = OState (after it (o_iters o) (o_s o) k) (o_iters o + Z.of_nat k) (o_max o) /\
      seen = map (after it (o_iters o) (o_s o)) (seq 1 k)
  | Err e => e = OutOfFuel /\ forall j, (1 <= j <= fuel)%nat -> ~ finished it iters (o_max o) (o_iters o) (o_s o) j
  end.
Proof.
  intros H0 Hi Hm. pose proof (@optimize_char S it fuel iters o) as H.
  pose proof (fun k => @finished_ends S it iters o k H0 Hi Hm) as F.
  destruct (optimize (total it) fuel iters o) as [[o' seen]|e].
  - destruct H as (k & Hk & He & Hj & R). exists k. split; [exact Hk|]. split; [now apply F|]. split; [|exact R]. intros j Hj' C. apply (Hj j Hj'). now apply F.
  - destruct H as [-> H]. split; [reflexivity|]. intros j Hj C. apply (H j Hj). now apply F.
Qed.
