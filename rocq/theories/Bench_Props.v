(** Property C130: the benchmark problems and the solutions returned with them. *)
From Coq Require Import Reals Lra Lia.
From Verif Require Import Base Obj_Model Obj_Spec Obj_Proofs Bench_Model Bench_Spec Bench_Proofs.
Set Implicit Arguments.
Local Open Scope R_scope.

(** ** C130.  The point returned by a builder is the only feasible point within the bounds where the objective is
    smallest. *)
Theorem benchmark_single_quadratic : solves (fst single_quadratic) (snd single_quadratic).
Proof. exact single_quadratic_solved. Qed.
Print Assumptions benchmark_single_quadratic.
Theorem benchmark_two_quadratic : solves (fst two_quadratic) (snd two_quadratic).
Proof. exact two_quadratic_solved. Qed.
Print Assumptions benchmark_two_quadratic.
Theorem benchmark_quartic : forall p, quartic 0 = Some p -> solves (fst p) (snd p).
Proof. exact quartic_solved. Qed.
Print Assumptions benchmark_quartic.
(** the second instance of the quartic returns the bottom of the other valley, which is not the minimum *)
Theorem benchmark_quartic_local_refuted :
  forall p, quartic 1 = Some p -> exists s, snd p = [s] /\ solves_locally (fst p) s 3 /\ ~ solves (fst p) (snd p).
Proof. exact quartic_local. Qed.
Print Assumptions benchmark_quartic_local_refuted.
Example quartic_instances : (exists p, quartic 0 = Some p) /\ (exists p, quartic 1 = Some p) /\ quartic 2 = None.
Proof. split; [eexists; reflexivity|]. split; [eexists; reflexivity|reflexivity]. Qed.

(** Rosenbrock's function: right exactly if [b] is positive and the valley lies within the bounds. *)
Theorem benchmark_rosenbrock :
  forall a b, solves (fst (rosenbrock a b)) (snd (rosenbrock a b)) <-> a ^ 2 <= 10 /\ 0 < b.
Proof.
  intros a b. split; [|intros [? ?]; now apply rosenbrock_solved]. intros H. split.
  - destruct (Rle_lt_dec (a ^ 2) 10) as [L|L]; [exact L|]. now destruct (@rosenbrock_outside a b L).
  - destruct (Rlt_le_dec 0 b) as [L|L]; [exact L|]. now destruct (@rosenbrock_flat a b L).
Qed.
Print Assumptions benchmark_rosenbrock.
Example rosenbrock_default : solves (fst (rosenbrock 1 100)) [1; 1 ^ 2].
Proof. apply (proj2 (@benchmark_rosenbrock 1 100)). lra. Qed.

(** constrained problems *)
Theorem benchmark_linear : forall i p, linear_problem i = Ok (Some p) -> solves (fst p) (snd p).
Proof. exact linear_solved. Qed.
Print Assumptions benchmark_linear.
Theorem benchmark_quadratic : forall i p, quadratic_problem i = Ok (Some p) -> solves (fst p) (snd p).
Proof. exact quadratic_solved. Qed.
Print Assumptions benchmark_quadratic.
Theorem benchmark_ellipsoidal : forall p, ellipsoidal = Ok p -> solves (fst p) (snd p).
Proof. exact ellipsoidal_solved. Qed.
Print Assumptions benchmark_ellipsoidal.
Theorem benchmark_problem_list :
  exists l, problem_list = Ok l /\ length l = 6%nat /\ Forall (fun p => solves (fst p) (snd p)) l.
Proof.
  destruct problem_list as [l|e] eqn:E; [exists l; split; [reflexivity|now apply problem_list_solved]|].
  exfalso. vm_compute in E. discriminate.
Qed.
Print Assumptions benchmark_problem_list.
Example constrained_instances :
  (forall i, (i < 2)%nat -> exists p, linear_problem i = Ok (Some p)) /\
  (forall i, (i < 3)%nat -> exists p, quadratic_problem i = Ok (Some p)) /\
  linear_problem 2 = Ok None /\ quadratic_problem 3 = Ok None /\ exists p, ellipsoidal = Ok p.
Proof.
  split; [intros [|[|i]] H; [eexists; reflexivity|eexists; reflexivity|lia]|].
  split; [intros [|[|[|i]]] H; [eexists; reflexivity|eexists; reflexivity|eexists; reflexivity|lia]|].
  split; [reflexivity|]. split; [reflexivity|]. eexists. vm_compute. reflexivity.
Qed.

(** The gradients written down for the three hand-made objectives are those of their values. *)
Theorem benchmark_gradients :
  (forall c g xs, plane = Node (KOld c g) [] -> has_partials (fun l => Ok (c l)) xs (g xs)) /\
  (forall r0 c g xs, quad r0 = Node (KOld c g) [] -> length xs = length r0 -> has_partials (fun l => Ok (c l)) xs (g xs)) /\
  (forall radius r0 c g xs, sphere radius r0 = Node (KOld c g) [] -> length xs = length r0 ->
     has_partials (fun l => Ok (c l)) xs (g xs)).
Proof. exact old_gradients. Qed.
Print Assumptions benchmark_gradients.
Example quad_gradient : exists c g, quad [1; 2] = Node (KOld c g) [] /\ g [4; 2] = [2 * (4 - 1); 2 * (2 - 2)].
Proof. eexists _, _. split; reflexivity. Qed.
