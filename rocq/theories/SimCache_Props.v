(** Theorems about FdfdSimulation.simulate and AdjointFdfdSimulation.simulate:
    C19 (cache), C20 (sharing of arrays), C21 (threads).
    [keq] is the comparison of structures, [solver] the field solver (deterministic,
    it may raise).  For the adjoint simulation a key is the pair (z, J). *)
From Verif Require Import Base SimCache_Model SimCache_Spec SimCache_Proofs SimCache_Proofs2.

(** *** C19 *)
Theorem cache_transparent : forall K F (keq : K -> K -> bool) (solver : K -> res F) n zs,
  (forall a b, keq a b = true -> a = b) -> 1 <= n ->
  map fst (snd (simulate_all keq solver (empty_cache K F n) zs)) = map solver zs.
Proof. intros K F keq solver n zs H. exact (@cache_transparent_pf K F keq solver H n zs). Qed.

Theorem cache_keeps_size : forall K F (keq : K -> K -> bool) (solver : K -> res F) n zs,
  (forall a b, keq a b = true -> a = b) -> 1 <= n ->
  length (fst (simulate_all keq solver (empty_cache K F n) zs)) = n.
Proof. intros K F keq solver n zs H. exact (@cache_size_pf K F keq solver H n zs). Qed.

(** It holds the last n distinct structures by last use, oldest first. *)
Theorem cache_is_lru : forall K F (keq : K -> K -> bool) (solver : K -> res F) n zs,
  (forall a b, keq a b = true <-> a = b) -> 1 <= n ->
  keys (fst (simulate_all keq solver (empty_cache K F n) zs)) = lru keq solver n zs.
Proof. intros K F keq solver n zs H. exact (@cache_lru_pf K F keq solver H n zs). Qed.

(** The i-th call runs the solver exactly when its structure is not among them. *)
Theorem solver_runs_only_on_misses : forall K F (keq : K -> K -> bool) (solver : K -> res F) n zs i z r b,
  (forall a b, keq a b = true <-> a = b) -> 1 <= n ->
  nth_error zs i = Some z ->
  nth_error (snd (simulate_all keq solver (empty_cache K F n) zs)) i = Some (r, b) ->
  b = true <-> ~ In z (lru keq solver n (firstn i zs)).
Proof. intros K F keq solver n zs i z r b H. exact (@solver_calls_pf K F keq solver H n zs i z r b). Qed.

(** A cache of size 0 does not mean "no caching": every successful solve raises. *)
Theorem cache_size_zero_refuted : forall K F (keq : K -> K -> bool) (solver : K -> res F) z f,
  solver z = Ok f -> snd (fst (simulate keq solver (empty_cache K F 0) z)) = Err IndexError.
Proof. exact cache_size_zero_pf. Qed.

(** *** C20 *)
Theorem careful_callers_get_current_fields : forall A (aeq : A -> A -> bool) (solver : A -> A) d n h pre z rest,
  (forall x y, aeq x y = true -> x = y) -> 1 <= n ->
  let w0 := {| a_heap := h; a_cache := repeat None n |} in
  careful aeq solver d [] w0 (pre ++ ASim A z :: rest) ->
  exists f, snd (astep aeq solver d (asteps aeq solver d w0 pre) (ASim A z)) = Some f /\
    read d (a_heap (fst (astep aeq solver d (asteps aeq solver d w0 pre) (ASim A z)))) f
    = solver (read d (a_heap (asteps aeq solver d w0 pre)) z).
Proof. intros A aeq solver d n h pre z rest H. exact (@careful_callers_pf A aeq solver d H n h pre z rest). Qed.

(** Updating the structure in place between two calls gives the old fields. *)
Theorem structure_updated_in_place_refuted : exists (h : list nat) pre z f,
  let solver := fun x => x + 100 in
  let w0 := {| a_heap := h; a_cache := repeat None 1 |} in
  let w := asteps Nat.eqb solver 0 w0 pre in
  let x := astep Nat.eqb solver 0 w (ASim nat z) in
  pre = [ASim nat z; AWrite z 2] /\ snd x = Some f /\
  read 0 (a_heap w) z = 2 /\ read 0 (a_heap (fst x)) f <> solver 2.
Proof. exists [1], [ASim nat 0; AWrite 0 2], 0, 1. repeat split. vm_compute. congruence. Qed.
(** So does scaling the returned fields in place: the next call for the same
    structure returns the scaled ones. *)
Theorem fields_updated_in_place_refuted : exists (h : list nat) pre z f,
  let solver := fun x => x + 100 in
  let w0 := {| a_heap := h; a_cache := repeat None 1 |} in
  let w := asteps Nat.eqb solver 0 w0 pre in
  let x := astep Nat.eqb solver 0 w (ASim nat z) in
  pre = [ASim nat z; AWrite f 7] /\ snd x = Some f /\
  read 0 (a_heap w) z = 1 /\ read 0 (a_heap (fst x)) f <> solver 1.
Proof. exists [1], [ASim nat 0; AWrite 1 7], 0, 1. repeat split. vm_compute. congruence. Qed.

(** *** C21 *)
(** Whatever the interleaving, the completed calls have a sequential order [h] with
    which all results, the cache and the solver calls agree. *)
Theorem concurrent_calls_linearize : forall K F (keq : K -> K -> bool) (solver : K -> res F) n work sched,
  let s := run_schedule keq solver (threads_start F n work) sched in
  exists h, let x := replay keq solver (empty_cache K F n) h in
    (forall t, th_done (sh_threads s t) = results_of t (snd (fst x))) /\
    (forall t, work t = map fst (th_done (sh_threads s t)) ++ th_todo (sh_threads s t)) /\
    (sh_lock s = None -> sh_cache s = fst (fst x) /\ sh_calls s = snd x).
Proof. exact linearizable_pf. Qed.

Theorem concurrent_results : forall K F (keq : K -> K -> bool) (solver : K -> res F) n work sched t z r,
  (forall a b, keq a b = true -> a = b) -> 1 <= n ->
  In (z, r) (th_done (sh_threads (run_schedule keq solver (threads_start F n work) sched) t)) -> r = solver z.
Proof. exact concurrent_results_pf. Qed.

Theorem one_solve_at_a_time : forall K F (keq : K -> K -> bool) (solver : K -> res F) n work sched t1 t2,
  let s := run_schedule keq solver (threads_start F n work) sched in
  th_pc (sh_threads s t1) <> Idle F -> th_pc (sh_threads s t2) <> Idle F -> t1 = t2.
Proof. exact mutual_exclusion_pf. Qed.

Theorem no_deadlock : forall K F (keq : K -> K -> bool) (solver : K -> res F) n work sched,
  let s := run_schedule keq solver (threads_start F n work) sched in
  (exists t, th_todo (sh_threads s t) <> []) -> exists t s', step keq solver s t = Some s'.
Proof. exact no_deadlock_pf. Qed.

(** *** Concrete cases *)
Definition sq (z : nat) : res nat := if Nat.eqb z 9 then Err ValueError else Ok (z * z).
Example lru_case :
  simulate_all Nat.eqb sq (empty_cache nat nat 2) [1; 2; 1; 9; 3; 2; 1]
  = ([Some (2, 4); Some (1, 1)],
     [(Ok 1, true); (Ok 4, true); (Ok 1, false); (Err ValueError, true); (Ok 9, true); (Ok 4, true); (Ok 1, true)])
  /\ lru Nat.eqb sq 2 [1; 2; 1; 9; 3] = [1; 3].
Proof. split; reflexivity. Qed.
Example nat_eqb_is_eq : forall a b, Nat.eqb a b = true <-> a = b.
Proof. exact Nat.eqb_eq. Qed.
Example careful_case :
  careful Nat.eqb (fun x => x + 100) 0 [] {| a_heap := [5; 6]; a_cache := repeat None 2 |}
    [ASim nat 0; ANew 5; AWrite 1 8; ASim nat 1; ASim nat 3].
Proof. vm_compute. intuition lia. Qed.
(** two threads asking for the same structure: one solve, both get the fields *)
Example threads_case :
  let s := run_schedule Nat.eqb sq (threads_start nat 1 (fun t => if Nat.ltb t 2 then [4] else []))
             [0; 1; 0; 1; 0; 1; 0; 1; 0; 0; 0; 1; 1; 1; 1; 1; 1; 1; 1; 0] in
  th_done (sh_threads s 0) = [(4, Ok 16)] /\ th_done (sh_threads s 1) = [(4, Ok 16)] /\
  sh_calls s = [4] /\ sh_lock s = None.
Proof. repeat split. Qed.

Print Assumptions cache_transparent.
Print Assumptions cache_keeps_size.
Print Assumptions cache_is_lru.
Print Assumptions solver_runs_only_on_misses.
Print Assumptions cache_size_zero_refuted.
Print Assumptions careful_callers_get_current_fields.
Print Assumptions structure_updated_in_place_refuted.
Print Assumptions fields_updated_in_place_refuted.
Print Assumptions concurrent_calls_linearize.
Print Assumptions concurrent_results.
Print Assumptions one_solve_at_a_time.
Print Assumptions no_deadlock.
