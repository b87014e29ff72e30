(** C40 - C44, C70 - C72: optimizers. *)
From Verif Require Import Base QTac Opt_Model Opt_Spec Opt_Proofs Opt_Proofs2 Opt_Proofs3.
From Coq Require Import ZArith Qabs.
Set Implicit Arguments.

(** C40.  optimize() performs exactly as many iterations as it takes to finish for the first
    time, at least one, calling back after each; it fails to return only when it never
    finishes. *)
Theorem optimize_stops : forall (S : Type) (it : Z -> S -> S * bool) fuel iters (o : ostate S), (0 <= o_iters o)%Z ->
  (forall a, iters = Some a -> 0 <= a)%Z -> (forall b, o_max o = Some b -> 0 <= b)%Z ->
  match optimize (total it) fuel iters o with
  | Ok (o', seen) => exists k, (1 <= k <= fuel)%nat /\ finished it iters (o_max o) (o_iters o) (o_s o) k /\
      (forall j, (1 <= j < k)%nat -> ~ finished it iters (o_max o) (o_iters o) (o_s o) j) /\
      o' = OState (after it (o_iters o) (o_s o) k) (o_iters o + Z.of_nat k) (o_max o) /\
      seen = map (after it (o_iters o) (o_s o)) (seq 1 k)
  | Err e => e = OutOfFuel /\ forall j, (1 <= j <= fuel)%nat -> ~ finished it iters (o_max o) (o_iters o) (o_s o) j
  end.
Proof. exact @optimize_stops_lemma. Qed.
Print Assumptions optimize_stops.
Definition count : Z -> Z -> Z * bool := fun _ s => ((s + 1)%Z, Z.eqb s 6).
Example optimize_ex : optimize (total count) 20 (Some 3%Z) (OState 0%Z 2 (Some 10%Z)) = Ok (OState 3%Z 5 (Some 10%Z), [1; 2; 3]%Z) /\
  optimize (total count) 20 None (OState 0%Z 2 (Some 4%Z)) = Ok (OState 2%Z 4 (Some 4%Z), [1; 2]%Z) /\
  optimize (total count) 20 None (OState 0%Z 2 None) = Ok (OState 7%Z 9 None, [1; 2; 3; 4; 5; 6; 7]%Z).
Proof. repeat split. Qed.

(** a positive limit is always reached, so optimize() returns, after at most that many
    iterations and, beyond the first, within the optimizer's own total *)
Theorem optimize_limit : forall (S : Type) (it : Z -> S -> S * bool) n (o : ostate S) fuel, (0 < n)%Z -> (0 <= o_iters o)%Z -> (Z.to_nat n <= fuel)%nat ->
  exists o' seen, optimize (total it) fuel (Some n) o = Ok (o', seen) /\
    (1 <= length seen)%nat /\ (Z.of_nat (length seen) <= n)%Z /\
    (forall m, o_max o = Some m -> m <> 0%Z -> (Z.of_nat (length seen) <= Z.max 1 (m - o_iters o))%Z) /\
    o_iters o' = (o_iters o + Z.of_nat (length seen))%Z.
Proof. exact @optimize_limit_lemma. Qed.
Print Assumptions optimize_limit.

(** two runs in a row do what one longer run does *)
Theorem optimize_split : forall (S : Type) (it : Z -> S -> S * bool) a b (o : ostate S) fuel, (0 < a)%Z -> (0 < b)%Z -> (0 <= o_iters o)%Z -> (Z.to_nat (a + b) <= fuel)%nat ->
  o_max o = None \/ o_max o = Some 0%Z -> (forall k, asks it (o_iters o) (o_s o) k = false) ->
  exists o1 s1 o2 s2, optimize (total it) fuel (Some a) o = Ok (o1, s1) /\ optimize (total it) fuel (Some b) o1 = Ok (o2, s2) /\
    optimize (total it) fuel (Some (a + b)%Z) o = Ok (o2, s1 ++ s2).
Proof. exact @optimize_split_lemma. Qed.
Print Assumptions optimize_split.
Example optimize_split_ex : forall k, asks (fun _ (s : Z) => ((s + 1)%Z, false)) 0 5%Z k = false.
Proof. now destruct k. Qed.

(** "perform no more iterations" does not work: iters = 0 never returns, and an optimizer that
    has used up its total iterates once more *)
Theorem optimize_zero_refuted : (forall fuel, optimize (total (fun _ (s : Z) => ((s + 1)%Z, false))) fuel (Some 0%Z) (OState 0%Z 0 None) = Err OutOfFuel) /\
  optimize (total (fun _ (s : Z) => ((s + 1)%Z, false))) 5 (Some 1%Z) (OState 0%Z 4 (Some 4%Z)) = Ok (OState 1%Z 5 (Some 4%Z), [1%Z]).
Proof.
  split; [|reflexivity]. intros fuel. pose proof (@optimize_stops Z (fun _ s => ((s + 1)%Z, false)) fuel (Some 0%Z) (OState 0%Z 0 None)) as H.
  cbn [o_iters o_max o_s] in H. specialize (H ltac:(lia) ltac:(intros a E; injection E as <-; lia) ltac:(discriminate)).
  destruct (optimize _ fuel (Some 0%Z) _) as [[o' seen]|e]; [exfalso|now destruct H as [-> _]].
  destruct H as (k & Hk & F & _). destruct F as [(a & E & N & _)|[(b & E & _)|F]]; [now injection E as <-|discriminate|now destruct k].
Qed.
Print Assumptions optimize_zero_refuted.

(** C41.  One iteration: the tolerance test leaves everything unchanged and asks to stop;
    otherwise the first of the shrinking steps that does not increase the objective is taken. *)
Theorem adaptive_step : forall f grad proj norm success failure tol fuel n s,
  match adaptive_iterate f grad proj norm success failure tol fuel n s with
  | Ok (s', true) => norm (grad (a_x s)) < tol /\ s' = s
  | Ok (s', false) => tol <= norm (grad (a_x s)) /\ exists j, (j < fuel)%nat /\
      (forall i, (i < j)%nat -> a_obj s < f (trial proj (a_x s) (grad (a_x s)) (shrunk failure (a_alpha s) i))) /\
      a_x s' = trial proj (a_x s) (grad (a_x s)) (shrunk failure (a_alpha s) j) /\ a_alpha s' = shrunk failure (a_alpha s) j * success /\
      a_obj s' = f (a_x s') /\ a_obj s' <= a_obj s
  | Err e => e = OutOfFuel /\ tol <= norm (grad (a_x s)) /\
      forall i, (i < fuel)%nat -> a_obj s < f (trial proj (a_x s) (grad (a_x s)) (shrunk failure (a_alpha s) i))
  end.
Proof. exact iterate_char. Qed.
Print Assumptions adaptive_step.

(** whole runs: objective values never increase, the recorded objective is that of the current
    parameters, and parameters after a step have been projected *)
Theorem adaptive_run : forall f grad proj norm success failure tol ifuel fuel iters x alpha n m o' seen,
  optimize (adaptive_iterate f grad proj norm success failure tol ifuel) fuel iters (OState (adaptive_init f x alpha) n m) = Ok (o', seen) ->
  descending f (adaptive_init f x alpha :: seen) /\ o_s o' = last seen (adaptive_init f x alpha) /\
  a_obj (o_s o') = f (a_x (o_s o')) /\ f (a_x (o_s o')) <= f x /\
  (forall s, In s seen -> a_obj s = f (a_x s) /\ (a_x s = x \/ exists y, a_x s = proj y)).
Proof. exact adaptive_run_lemma. Qed.
Print Assumptions adaptive_run.
(** f(x) = x0^2 from x0 = 3 with too large a step: 3 is rejected twice, then accepted *)
Definition sq_f : vec -> Q := fun x => x 0%nat * x 0%nat.
Definition sq_g : vec -> vec := fun x i => 2 * x i.
Definition abs_norm : vec -> Q := fun g => Qabs (g 0%nat).
Definition show (r : res (ostate astate * list astate)) : option (list (Q * Q * Q)) :=
  match r with Ok (_, seen) => Some (map (fun s => (Qred (a_x s 0%nat), Qred (a_alpha s), Qred (a_obj s))) seen) | Err _ => None end.
Example adaptive_ex : show (optimize (adaptive_iterate sq_f sq_g (fun x => x) abs_norm (3 # 2) (1 # 2) (1 # 100) 10) 5 (Some 2%Z)
    (OState (adaptive_init sq_f (fun _ => 3) 3) 0 None)) = Some [(- (3 # 2), 9 # 8, 9 # 4); (3 # 16, 27 # 32, 9 # 256)].
Proof. vm_compute. reflexivity. Qed.

(** a gradient pointing the wrong way makes the iteration run forever *)
Theorem adaptive_terminates_refuted : exists f grad proj norm x, forall fuel, 
  adaptive_iterate f grad proj norm 1 (1 # 2) (1 # 100) fuel 0 (adaptive_init f x 1) = Err OutOfFuel.
Proof.
  exists (fun x => x 0%nat), (fun _ _ => - (1)), (fun x => x), abs_norm, (fun _ => 0). intros fuel.
  set (f := fun x : vec => x 0%nat). set (g := fun (_ : vec) (_ : nat) => - (1)).
  pose proof (@adaptive_step f g (fun x => x) abs_norm 1 (1 # 2) (1 # 100) fuel 0%Z (adaptive_init f (fun _ => 0) 1)) as H.
  change (adaptive_iterate f g (fun x => x) abs_norm 1 (1 # 2) (1 # 100) fuel 0 (adaptive_init f (fun _ => 0) 1) = Err OutOfFuel).
  destruct (adaptive_iterate f g (fun x => x) abs_norm 1 (1 # 2) (1 # 100) fuel 0 (adaptive_init f (fun _ => 0) 1)) as [[s' [|]]|e].
  - destruct H as [H _]. vm_compute in H. discriminate.
  - exfalso. destruct H as (_ & j & _ & _ & Ex & _ & Eo & Hle). rewrite Eo, Ex in Hle. unfold trial, adaptive_init, f, g in Hle. cbn [a_x a_obj a_alpha] in Hle.
    assert (P : 0 < shrunk (1 # 2) 1 j).
    { clear. unfold shrunk. induction j as [|j IH]; [reflexivity|]. cbn [Nat.iter nat_rect]. change (0 < Nat.iter j (fun a => a * (1 # 2)) 1 * (1 # 2)). lra. }
    lra.
  - destruct H as [-> _]. reflexivity.
Qed.
Print Assumptions adaptive_terminates_refuted.

(** C42.  The first call performs the configured number of cycles with the weights
    mu0, mu0 ** tau, (mu0 ** tau) ** tau, ..., each starting from the result of the one before. *)
Theorem penalty_schedule : forall (P : Type) (f : P -> Q) cons inner pw mu0 ftol pf num_cycles x, exists xs : nat -> P, xs 0%nat = x /\
  (forall k, (k < num_cycles)%nat -> xs (S k) = inner (fun y => f y + weight pw mu0 k * penalty cons pf y) (qmax (1 / qpower 100 (k + 1)) ftol) (xs k)) /\
  penalty_call f cons inner pw mu0 ftol pf num_cycles 0 x =
    (xs num_cycles, map (fun k => Cycle k (weight pw mu0 k) (xs (S k))) (seq 0 num_cycles), (num_cycles - 1)%nat).
Proof. exact @first_call. Qed.
Print Assumptions penalty_schedule.
(** calling the same object again performs a single cycle, with the starting weight *)
Theorem penalty_second_call : forall (P : Type) (f : P -> Q) cons inner pw mu0 ftol pf num_cycles x, (1 <= num_cycles)%nat ->
  let x' := inner (fun y => f y + mu0 * penalty cons pf y) (qmax (1 / qpower 100 num_cycles) ftol) x in
  penalty_call f cons inner pw mu0 ftol pf num_cycles (num_cycles - 1) x = (x', [Cycle (num_cycles - 1) mu0 x'], (num_cycles - 1)%nat).
Proof. exact @later_call. Qed.
Print Assumptions penalty_second_call.
(** with a weight above one, an exponent that increases such weights and an inner optimizer
    that minimizes, the violation never grows, the objective never falls, and every cycle's
    penalized value is a lower bound for the constrained optimum *)
Theorem penalty_monotone : forall (P : Type) (f : P -> Q) cons inner pw mu0 ftol pf num_cycles x, (1 <= pf)%nat -> 1 < mu0 -> (forall m, 1 < m -> m < pw m) ->
  (forall k t y, minimizes (fun z => f z + weight pw mu0 k * penalty cons pf z) (inner (fun z => f z + weight pw mu0 k * penalty cons pf z) t y)) ->
  forall xn log cn, penalty_call f cons inner pw mu0 ftol pf num_cycles 0 x = (xn, log, cn) ->
  (forall j k d, (j <= k < num_cycles)%nat ->
     penalty cons pf (c_param (nth k log d)) <= penalty cons pf (c_param (nth j log d)) /\
     f (c_param (nth j log d)) <= f (c_param (nth k log d))) /\
  (forall k d y, (k < num_cycles)%nat -> feasible cons y ->
     f (c_param (nth k log d)) + c_mu (nth k log d) * penalty cons pf (c_param (nth k log d)) <= f y).
Proof. exact @run_monotone. Qed.
Print Assumptions penalty_monotone.
(** a two-point problem: [true] violates the constraint by 1 and costs 0, [false] is feasible and costs [c] *)
Definition two_f (c : Q) (b : bool) : Q := if b then 0 else c.
Definition two_c (b : bool) : Q := if b then 1 else 0.
Definition two_inner (h : bool -> Q) (_ : Q) (_ : bool) : bool := Qle_bool (h true) (h false).
Lemma two_minimizes h t y : minimizes h (two_inner h t y).
Proof.
  intros z. unfold two_inner. destruct (Qle_bool (h true) (h false)) eqn:E; qhyps; destruct z; lra.
Qed.
Example penalty_ex : (forall m, 1 < m -> m < m * m) /\
  (forall h t y, minimizes h (two_inner h t y)) /\
  (let r := penalty_call (two_f 3) [two_c] two_inner (fun m => m * m) 2 0 2 2 0 true in
   map (fun c => (c_num c, c_mu c, c_param c)) (snd (fst r)) = [(0%nat, 2, true); (1%nat, 4, false)]).
Proof. split; [intros m H; nra|]. split; [exact two_minimizes|]. vm_compute. reflexivity. Qed.
(** with a starting weight below one the weights shrink and a feasible result can become infeasible *)
Theorem penalty_small_weight_refuted :
  let r := penalty_call (two_f (1 # 3)) [two_c] two_inner (fun m => m * m) (1 # 2) 0 2 2 0 false in
  map (fun c => (c_mu c, c_param c)) (snd (fst r)) = [(1 # 2, false); (1 # 4, true)] /\ penalty [two_c] 2 (fst (fst r)) == 1.
Proof. split; vm_compute; reflexivity. Qed.
Print Assumptions penalty_small_weight_refuted.

(** C43.  The wrappers pass one constraint of the right type per user constraint, but each
    evaluates the last one of its kind. *)
Theorem constraint_types : forall (X : Type) (eqs ineqs : list (X -> Q)),
  map fst (seen_constraints Qopp eqs ineqs) = repeat TEq (length eqs) ++ repeat TIneq (length ineqs).
Proof. exact @seen_types. Qed.
Print Assumptions constraint_types.
Theorem constraints_accepted : forall (X : Type) m (eqs ineqs : list (X -> Q)) x, accepted (passed_constraints Qopp m eqs ineqs) x <->
  (m = SLSQP \/ m = COBYLA -> (forall l g, eqs = l ++ [g] -> g x == 0) /\ (forall l g, ineqs = l ++ [g] -> g x <= 0)).
Proof. exact @accepted_char'. Qed.
Print Assumptions constraints_accepted.
Theorem constraints_faithful : forall (X : Type) m (eqs ineqs : list (X -> Q)) x, m = SLSQP \/ m = COBYLA -> (length eqs <= 1)%nat -> (length ineqs <= 1)%nat ->
  accepted (passed_constraints Qopp m eqs ineqs) x <-> satisfies eqs ineqs x.
Proof. exact @accepted_faithful'. Qed.
Print Assumptions constraints_faithful.
Theorem constraints_weaker : forall (X : Type) m (eqs ineqs : list (X -> Q)) x, satisfies eqs ineqs x -> accepted (passed_constraints Qopp m eqs ineqs) x.
Proof. exact @accepted_weaker. Qed.
Print Assumptions constraints_weaker.
(** two equalities x0 = 0 and x1 = 0: the point (5, 0) is accepted; and methods without
    constraint support accept anything *)
Theorem constraints_last_only_refuted : exists (eqs : list (vec -> Q)) (x : vec),
  accepted (passed_constraints Qopp SLSQP eqs []) x /\ ~ satisfies eqs [] x /\
  accepted (passed_constraints Qopp LBFGSB [fun x => x 0%nat] []) x /\ ~ satisfies [fun x : vec => x 0%nat] [] x.
Proof.
  exists [(fun x => x 0%nat); (fun x => x 1%nat)], (fun i => match i with O => 5 | _ => 0 end).
  assert (E : ~ 5 == 0) by (vm_compute; discriminate).
  split; [|split; [intros [H _]; apply E; apply (H (fun x => x 0%nat)); now left|split; [exact I|intros [H _]; apply E; apply (H (fun x => x 0%nat)); now left]]].
  apply constraints_accepted. intros _. split.
  - intros l g El. destruct l as [|a [|b l]]; [discriminate| |destruct l; discriminate]. injection El as <- <-. reflexivity.
  - intros l g El. now destruct l.
Qed.
Print Assumptions constraints_last_only_refuted.
Example constraints_ex : accepted (passed_constraints Qopp COBYLA [fun x : vec => x 0%nat - 1] [fun x : vec => x 1%nat]) (fun i => match i with O => 1 | _ => - (2) end).
Proof. apply constraints_weaker. split; intros g [<-|[]]; vm_compute; auto; discriminate. Qed.

(** C44.  Unpacking a packed vector gives back every variable with its data; scalars come back
    with shape [1]. *)
Theorem unpack_after_pack : forall vs x, (forall a, In a vs -> arr_ok a) -> pack vs = Ok x ->
  unpack x (map var_shape vs) = Ok (map (fun a => Arr (match a_shape a with [] => [1%nat] | s => s end) (a_data a)) vs).
Proof. exact unpack_pack. Qed.
Print Assumptions unpack_after_pack.
Theorem pack_after_unpack : forall x shapes vs, shapes <> [] -> length x = fold_right Nat.add 0%nat (map prod shapes) -> unpack x shapes = Ok vs -> pack vs = Ok x.
Proof. exact pack_unpack. Qed.
Print Assumptions pack_after_unpack.
Theorem unpack_spec : forall x shapes,
  match unpack x shapes with
  | Ok vs => (fold_right Nat.add 0 (map prod shapes) <= length x)%nat /\ map a_shape vs = shapes /\ (forall a, In a vs -> arr_ok a) /\
             concat (map a_data vs) = firstn (fold_right Nat.add 0%nat (map prod shapes)) x
  | Err e => e = ValueError /\ (length x < fold_right Nat.add 0 (map prod shapes))%nat
  end.
Proof. exact unpack_lemma. Qed.
Print Assumptions unpack_spec.
(** bounds of the right sizes line up with the entries they belong to *)
Theorem bounds_line_up : forall vs bs d db, length vs = length bs ->
  (forall j, (j < length vs)%nat -> length (a_data (nth j vs d)) = length (b_lo (nth j bs db)) /\ length (b_hi (nth j bs db)) = length (b_lo (nth j bs db))) ->
  forall x, pack vs = Ok x ->
  length (pack_bounds bs) = length x /\
  forall j i, (j < length vs)%nat -> (i < length (a_data (nth j vs d)))%nat -> exists o,
    qn x o = qn (a_data (nth j vs d)) i /\
    nth o (pack_bounds bs) (None, None) = (nth i (b_lo (nth j bs db)) None, nth i (b_hi (nth j bs db)) None).
Proof. exact bounds_aligned. Qed.
Print Assumptions bounds_line_up.
Definition ex_vs := [Arr [2; 1]%nat [1; 2]; Arr [] [7]; Arr [3]%nat [4; 5; 6]].
Example pack_ex : (forall a, In a ex_vs -> arr_ok a) /\ pack ex_vs = Ok [1; 2; 7; 4; 5; 6] /\
  unpack [1; 2; 7; 4; 5; 6] (map var_shape ex_vs) = Ok [Arr [2; 1]%nat [1; 2]; Arr [1%nat] [7]; Arr [3]%nat [4; 5; 6]] /\
  unpack [1; 2; 7; 4; 5] (map var_shape ex_vs) = Err ValueError /\ pack [] = Err ValueError.
Proof. split; [intros a [<-|[<-|[<-|[]]]]; reflexivity|]. repeat split. Qed.
(** a variable whose value was set to another size keeps its old bounds, and every later bound is misplaced *)
Theorem bounds_line_up_refuted : exists vs bs x, pack vs = Ok x /\ length vs = length bs /\ length (pack_bounds bs) <> length x /\
  qn x 1 == qn (a_data (nth 1 vs (Arr [] []))) 0 /\ nth 1 (pack_bounds bs) (None, None) <> (nth 0 (b_lo (nth 1 bs (Bnd [] []))) None, nth 0 (b_hi (nth 1 bs (Bnd [] []))) None).
Proof.
  exists [Arr [1]%nat [3]; Arr [1]%nat [9]], [Bnd [Some 0; Some 1] [None; None]; Bnd [Some 5] [None]], [3; 9].
  repeat split; try reflexivity; discriminate.
Qed.
Print Assumptions bounds_line_up_refuted.

(** C70.  Moment estimates of a fresh optimizer run by optimize(): the step of Adam uses weighted
    averages of the gradients and squared gradients seen so far. *)
Theorem adam_step : forall grad proj sqrt alpha eps b1 b2 x k, 0 <= b1 -> b1 < 1 -> 0 <= b2 -> b2 < 1 ->
  let s j := after (adam_iterate grad proj sqrt alpha eps b1 b2) 0 (moments_init x) j in
  exists mh vh : vec, m_x (s (S k)) = proj (fun i => m_x (s k) i - alpha * mh i / (sqrt (vh i) + eps)) /\
    forall i, (forall lo hi, (forall j, (j <= k)%nat -> lo <= grad (m_x (s j)) i <= hi) -> lo <= mh i <= hi) /\
              (forall lo hi, (forall j, (j <= k)%nat -> lo <= grad (m_x (s j)) i * grad (m_x (s j)) i <= hi) -> lo <= vh i <= hi).
Proof. exact adam_lemma. Qed.
Print Assumptions adam_step.
Theorem adagrad_step : forall grad proj sqrt alpha eps x k,
  let s j := after (adagrad_iterate grad proj sqrt alpha eps) 0 (moments_init x) j in
  exists v : vec, m_x (s (S k)) = proj (fun i => m_x (s k) i - alpha * grad (m_x (s k)) i / sqrt (v i + eps)) /\
    forall i, v i == sumn (S k) (fun j => grad (m_x (s j)) i * grad (m_x (s j)) i).
Proof. exact adagrad_lemma. Qed.
Print Assumptions adagrad_step.
Theorem rmsprop_step : forall grad proj sqrt alpha eps gamma x k, 0 <= gamma -> gamma < 1 ->
  let s j := after (rmsprop_iterate grad proj sqrt alpha eps gamma) 0 (moments_init x) j in
  exists v : vec, m_x (s (S k)) = proj (fun i => m_x (s k) i - alpha * grad (m_x (s k)) i / sqrt (v i + eps)) /\
    forall i hi, (forall j, (j <= k)%nat -> grad (m_x (s j)) i * grad (m_x (s j)) i <= hi) -> 0 <= v i <= (1 - qpower gamma (S k)) * hi.
Proof. exact rmsprop_lemma. Qed.
Print Assumptions rmsprop_step.
Theorem nag_step : forall grad proj alpha gamma x k,
  let s j := after (nag_iterate grad proj alpha gamma) 0 (moments_init x) j in
  let look j := proj (fun i => m_x (s j) i - gamma * m_g (s j) i) in
  m_x (s (S k)) = proj (fun i => m_x (s k) i - m_g (s (S k)) i) /\
  forall i, m_g (s k) i == alpha * decayed gamma (fun j => grad (look j) i) k.
Proof. exact nag_lemma. Qed.
Print Assumptions nag_step.
Example moments_ex : let s := after (adam_iterate sq_g (fun x => x) (fun q => q) 1 0 (1 # 2) (1 # 4)) 0 (moments_init (fun _ => 1)) in
  Qeq_bool (m_x (s 1%nat) 0%nat) (1 # 2) = true /\ Qeq_bool (m_g (s 2%nat) 0%nat) (1 # 1) = true.
Proof. vm_compute. auto. Qed.
(** calling iterate() directly never advances the iteration number the bias correction relies
    on: under a constant gradient 1 the second step is half as large again *)
Theorem adam_iterate_alone_refuted : exists grad b1, 0 <= b1 /\ b1 < 1 /\ (forall x i, grad x i == 1) /\
  let it := fun (_ : Z) => adam_iterate grad (fun x => x) (fun q => q) 1 1 b1 0 0 in
  let s j := after it 0 (moments_init zero) j in
  m_x (s 0%nat) 0%nat - m_x (s 1%nat) 0%nat == 1 # 2 /\ m_x (s 1%nat) 0%nat - m_x (s 2%nat) 0%nat == 3 # 4.
Proof. exists (fun _ _ => 1), (1 # 2). split; [discriminate|]. split; [reflexivity|]. split; [reflexivity|]. split; vm_compute; reflexivity. Qed.
Print Assumptions adam_iterate_alone_refuted.

(** C71.  The augmented Lagrangian method: bookkeeping of a call. *)
Theorem auglag_call_spec : forall (P : Type) (f : P -> Q) cons inner mu0 num_cycles p01 p09 pexp ltol_final ctol_final x s calls conv,
  auglag_call f cons inner mu0 num_cycles p01 p09 pexp ltol_final ctol_final x = (s, calls, conv) ->
  length (l_lam s) = length cons /\ (exists j, (j <= length calls)%nat /\ l_mu s == mu0 * qpower 100 j) /\
  (conv = false -> length calls = num_cycles /\ last calls x = l_x s) /\
  (conv = true -> (length calls < num_cycles)%nat /\ l_ltol s < ltol_final /\ qsum (map (fun c => Qabs (c (l_x s))) cons) < ctol_final).
Proof. exact @auglag_lemma. Qed.
Print Assumptions auglag_call_spec.
(** one cycle that does not end the call.  If the constraints are met within the current tolerance
    the multipliers are updated so that what the cycle minimized is, up to a constant, the ordinary
    Lagrangian with the new multipliers plus the squared distance of the constraint values from
    those of the result; otherwise only the weight grows. *)
Theorem auglag_update : forall (P : Type) (f : P -> Q) cons inner p01 p09 ltol_final ctol_final s y,
  let r := auglag_cycle f cons inner p01 p09 ltol_final ctol_final s in
  length (l_lam s) = length cons -> snd r = false ->
  let s' := fst r in let x := l_x s' in
  l_x s' = inner (lagrangian f cons (l_lam s) (l_mu s)) (l_ltol s) (l_x s) /\
  (qsum (map (fun c => Qabs (c x)) cons) < l_ctol s -> l_mu s' = l_mu s /\
     lagrangian f cons (l_lam s) (l_mu s) y ==
     f y - dot (l_lam s') (cvals cons y) + l_mu s / 2 * sqdiff cons x y - l_mu s / 2 * qsum (map (fun c => c x * c x) cons)) /\
  (l_ctol s <= qsum (map (fun c => Qabs (c x)) cons) -> l_mu s' = l_mu s * 100 /\ l_lam s' = l_lam s).
Proof. exact @cycle_identity. Qed.
Print Assumptions auglag_update.
(** a minimizer of what a cycle minimizes is optimal among the points with the same constraint
    values: a feasible one solves the constrained problem *)
Theorem auglag_optimal : forall (P : Type) (f : P -> Q) cons lam mu x y,
  minimizes (lagrangian f cons lam mu) x -> (forall c, In c cons -> c y == c x) -> f x <= f y.
Proof. exact @lag_optimal. Qed.
Print Assumptions auglag_optimal.
Example auglag_optimal_ex : minimizes (lagrangian (two_f 3) [two_c] [1] 10) false.
Proof. intros [|]; vm_compute; discriminate. Qed.
Definition two_auglag := auglag_call (two_f 3) [two_c] two_inner 10 5 (fun m => m) (fun m => m) (fun m => m) (1 # 50) (1 # 2) true.
Example auglag_ex : let r := two_auglag in (l_x (fst (fst r)), snd (fst r), snd r) = (false, [false], true) /\
  l_mu (fst (fst r)) == 10.
Proof. vm_compute. auto. Qed.

(** C72.  Resuming: the limit handed to scipy does not depend on the iterations already done *)
Theorem resumed_limit : forall max_iters start, so_maxiter (run_opts (make_opts max_iters) start) = match max_iters with Some m => if Z.eqb m 0 then None else Some m | None => None end.
Proof. exact resume_lemma. Qed.
Print Assumptions resumed_limit.
(** so a resumed run may exceed the configured total *)
Theorem resumed_total_refuted : exists max_iters start m, so_maxiter (run_opts (make_opts (Some max_iters)) start) = Some m /\ (0 < start < max_iters)%Z /\ (start + m > max_iters)%Z.
Proof. exists 10%Z, 4%Z, 10%Z. split; [reflexivity|]. lia. Qed.
Print Assumptions resumed_total_refuted.
