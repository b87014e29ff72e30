(** Properties C131 and C132: convergence of gradient descent on a bounded parametrization; termination of adaptive
    gradient descent. *)
From Verif Require Import Base QTac Opt_Model Opt_Spec Param_Model Descent_Model Descent_Spec Descent_Proofs Descent_Proofs2.
From Coq Require Import ZArith Lqa.
Set Implicit Arguments.

(** The projection on vectors is that of DirectParam on lists. *)
Theorem boxed_is_projection : forall v lo hi, length (snd lo) = length v -> length (snd hi) = length v ->
  exists v', project (Direct v lo hi) = Ok (Direct v' lo hi) /\ length v' = length v /\
    forall i, (i < length v)%nat -> qn v' i = boxed (fun i => nth i (snd lo) None) (fun i => nth i (snd hi) None) (qn v) i.
Proof. exact boxed_projects. Qed.
Print Assumptions boxed_is_projection.

(** ** C131.  A run of [k] iterations of plain gradient descent with step size at most [2 / L]: all points lie within
    the bounds, the values never increase, and the squared lengths of the steps add up to at most the decrease over
    [1 / alpha - L / 2]. *)
Theorem descent_run : forall n lo hi f g L alpha x m fuel k,
  bounds_ok n lo hi -> smooth n lo hi f g L -> 0 < alpha -> alpha * L <= 2 -> within n lo hi x -> (0 <= m)%Z -> (0 < k <= fuel)%nat ->
  exists o' seen, optimize (total (gd_step g lo hi alpha)) fuel (Some (Z.of_nat k)) (OState x m None) = Ok (o', seen) /\
    length seen = k /\ o_s o' = last seen x /\ o_iters o' = (m + Z.of_nat k)%Z /\
    (forall y, In y seen -> within n lo hi y) /\
    (forall i j, (i <= j <= k)%nat -> f (nth j (x :: seen) x) <= f (nth i (x :: seen) x)) /\
    (1 / alpha - L / 2) * sumn k (fun j => sqd n (nth (S j) (x :: seen) x) (nth j (x :: seen) x)) <= f x - f (o_s o').
Proof. exact descent_run_lemma. Qed.
Print Assumptions descent_run.
(** A point stays where it is exactly if no feasible direction leads down. *)
Theorem descent_fixed_points : forall n lo hi g alpha x, bounds_ok n lo hi -> 0 < alpha -> within n lo hi x ->
  (sqd n (fst (gd_step g lo hi alpha 0 x)) x == 0 <-> stationary n lo hi g x).
Proof. intros n lo hi g alpha x O A W. exact (@fixed_stationary n lo hi O g alpha A x W). Qed.
Print Assumptions descent_fixed_points.
(** Convex objectives, step size at most [1 / L]: after [k] iterations the value is within
    |x - y|^2 / (2 alpha k) of that of any feasible [y], and the distance to a minimum shrinks by [1 - alpha mu]. *)
Theorem descent_converges : forall n lo hi f g L mu alpha x m fuel k,
  bounds_ok n lo hi -> smooth n lo hi f g L -> convex n lo hi f g mu -> 0 <= mu -> 0 < alpha -> alpha * L <= 1 ->
  within n lo hi x -> (0 <= m)%Z -> (0 < k <= fuel)%nat ->
  exists o' seen, optimize (total (gd_step g lo hi alpha)) fuel (Some (Z.of_nat k)) (OState x m None) = Ok (o', seen) /\
    (forall y, within n lo hi y -> f (o_s o') - f y <= sqd n x y / (2 * alpha * inject_Z (Z.of_nat k))) /\
    (forall y, alpha * mu <= 1 -> minimum n lo hi f y -> sqd n (o_s o') y <= qpower (1 - alpha * mu) k * sqd n x y).
Proof. exact descent_converges_lemma. Qed.
Print Assumptions descent_converges.

(** x^2 - 4x + 1, the one-dimensional benchmark, within -10 and 10: [L] = [mu] = 2 *)
Definition bench_f : vec -> Q := fun x => x 0%nat * x 0%nat - 4 * x 0%nat + 1.
Definition bench_g : vec -> vec := fun x _ => 2 * x 0%nat - 4.
Definition bench_lo : nat -> option Q := fun _ => Some (-10).
Definition bench_hi : nat -> option Q := fun _ => Some 10.
Lemma bench_smooth : smooth 1 bench_lo bench_hi bench_f bench_g 2.
Proof. intros x y _ _. unfold bench_f, bench_g, slope, sqd. cbn [sumn]. apply Qle_lteq. right. field. Qed.
Lemma bench_convex : convex 1 bench_lo bench_hi bench_f bench_g 2.
Proof. intros x y _ _. unfold bench_f, bench_g, slope, sqd. cbn [sumn]. apply Qle_lteq. right. field. Qed.
Lemma bench_bounds : bounds_ok 1 bench_lo bench_hi.
Proof. intros i l h _ E1 E2. injection E1 as <-. injection E2 as <-. discriminate. Qed.
Lemma bench_minimum : minimum 1 bench_lo bench_hi bench_f (fun _ => 2).
Proof.
  split; [intros i _; split; intros q E; injection E as <-; discriminate|]. intros z _. unfold bench_f.
  pose proof (sq_pos (z 0%nat - 2)). lra.
Qed.
Example descent_bench : forall k, (0 < k)%nat ->
  exists o' seen, optimize (total (gd_step bench_g bench_lo bench_hi (1 # 4))) k (Some (Z.of_nat k)) (OState (fun _ => 0) 0 None) = Ok (o', seen) /\
    sqd 1 (o_s o') (fun _ => 2) <= qpower (1 - (1 # 4) * 2) k * (2 * 2).
Proof.
  intros k Hk. assert (W : within 1 bench_lo bench_hi (fun _ => 0)) by (intros i _; split; intros q E; injection E as <-; discriminate).
  destruct (@descent_converges 1 bench_lo bench_hi bench_f bench_g 2 2 (1 # 4) (fun _ => 0) 0%Z k k bench_bounds bench_smooth bench_convex
    ltac:(lra) ltac:(reflexivity) ltac:(discriminate) W ltac:(lia) ltac:(lia)) as (o' & seen & E & _ & H).
  exists o', seen. split; [exact E|]. specialize (H (fun _ => 2) ltac:(discriminate) bench_minimum).
  setoid_replace (2 * 2) with (sqd 1 (fun _ => 0) (fun _ => 2)); [exact H|reflexivity].
Qed.
(** With a step size above [2 / L] the values can grow without limit. *)
Theorem descent_large_step_refuted :
  exists f g alpha, smooth 1 (fun _ => None) (fun _ => None) f g 2 /\ convex 1 (fun _ => None) (fun _ => None) f g 2 /\ 0 < alpha /\
  forall k, (0 < k)%nat -> exists o' seen,
    optimize (total (gd_step g (fun _ => None) (fun _ => None) alpha)) k (Some (Z.of_nat k)) (OState (fun _ => 1) 0 None) = Ok (o', seen) /\
    f (o_s o') == qpower 4 k.
Proof. exact large_step. Qed.
Print Assumptions descent_large_step_refuted.
(** With normalized gradients and no bounds every step has length [alpha], so of two successive points at least one
    is further than [alpha / 2] from any given point: such runs do not converge. *)
Theorem normalized_descent_refuted : forall n g norm alpha it x z,
  ~ norm (g x) == 0 -> norm (g x) * norm (g x) == sumn n (fun i => g x i * g x i) ->
  let x' := fst (gd_normalized g norm (fun _ => None) (fun _ => None) alpha it x) in
  sqd n x' x == alpha * alpha /\ (alpha * alpha / 4 <= sqd n x z \/ alpha * alpha / 4 <= sqd n x' z).
Proof.
  intros n g norm alpha it x z Hn E. split; [exact (@normalized_length n g norm alpha it x Hn E)|exact (@normalized_stays_away n g norm alpha it x z Hn E)].
Qed.
Print Assumptions normalized_descent_refuted.
Example normalized_ex : let g : vec -> vec := fun x i => 2 * x i in let x : vec := fun i => match i with O => 3 | _ => 4 end in
  ~ (10 == 0) /\ 10 * 10 == sumn 2 (fun i => g x i * g x i).
Proof. split; [discriminate|reflexivity]. Qed.

(** ** C132.  Adaptive gradient descent on a smooth objective: each iteration ends, whatever the step size it starts
    with, and the step it takes is the current one or longer than [2 * failure / L]. *)
Theorem adaptive_iteration_ends : forall n lo hi f g L norm success failure tol it x alpha,
  bounds_ok n lo hi -> smooth n lo hi f g L -> 0 < failure -> failure < 1 -> within n lo hi x -> 0 < alpha ->
  exists s' b fuel0, (forall fuel, (fuel0 <= fuel)%nat ->
      adaptive_iterate f g (boxed lo hi) norm success failure tol fuel it (AState x alpha (f x)) = Ok (s', b)) /\
    (b = true -> s' = AState x alpha (f x)) /\
    (b = false -> exists a, 0 < a /\ (a = alpha \/ 2 * failure < a * L) /\ a_alpha s' = a * success /\
      a_x s' = trial (boxed lo hi) x (g x) a /\ a_obj s' = f (a_x s') /\ f (a_x s') <= f x).
Proof. exact adaptive_ends. Qed.
Print Assumptions adaptive_iteration_ends.
(** So does every run with a limit on the number of iterations; and the step size stays at least the first one or
    above [2 * failure / L]. *)
Theorem adaptive_run_ends : forall n lo hi f g L norm success failure tol k fuel x alpha,
  bounds_ok n lo hi -> smooth n lo hi f g L -> 0 < failure -> failure < 1 -> 1 <= success -> (0 < k <= fuel)%nat -> within n lo hi x -> 0 < alpha ->
  exists o' seen ifuel0, (forall ifuel, (ifuel0 <= ifuel)%nat ->
    optimize (adaptive_iterate f g (boxed lo hi) norm success failure tol ifuel) fuel (Some (Z.of_nat k))
      (OState (adaptive_init f x alpha) 0 None) = Ok (o', seen)) /\
    within n lo hi (a_x (o_s o')) /\ (alpha <= a_alpha (o_s o') \/ 2 * failure < a_alpha (o_s o') * L).
Proof. intros n lo hi f g L norm success failure tol k fuel x alpha O Sm F0 F1 Su. exact (@adaptive_run_terminates n lo hi f g L norm success failure tol O Sm F0 F1 Su k fuel x alpha). Qed.
Print Assumptions adaptive_run_ends.
Example adaptive_bench : exists s', adaptive_iterate bench_f bench_g (boxed bench_lo bench_hi) (fun v => v 0%nat * v 0%nat) 2 (1 # 2) (1 # 10) 9 0
  (adaptive_init bench_f (fun _ => 0) 4) = Ok (s', false) /\ a_alpha s' == 2 /\ a_x s' 0%nat == 4.
Proof. eexists. split; [vm_compute; reflexivity|]. split; vm_compute; reflexivity. Qed.
