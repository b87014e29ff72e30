(** Vocabulary for the statements about resuming plans from files. *)
From stdpp Require Import gmap.
From Verif Require Import Base Solver_Model.
Set Implicit Arguments.
Open Scope nat_scope.

Section Spec.
Variables V W E : Type.
Variable vinit : nat -> V.
Variable winit : nat -> W.
Variable truthy : E -> bool.
Variable sem : transf V W -> env V W -> option E -> list (V * E) * V.

(** Continuing from any logged value and event gives the rest of the logs and the
    same final value. *)
Definition resumable (t : transf V W) : Prop := forall e ev l1 v1 e1 l2 v,
  sem t e ev = (l1 ++ (v1, e1) :: l2, v) ->
  sem t {| ptz := <[t_param t := v1]> (ptz e); prm := prm e |} (Some e1) = (l2, v).
(** Either the transformation never logs, or it is resumable and sets no
    parameters. *)
Definition safe_midway (t : transf V W) : Prop :=
  (forall e ev, fst (sem t e ev) = []) \/ (resumable t /\ t_sets t = []).
(** Every parameter a transformation refers to is in the parameter list of this
    or an earlier transformation. *)
Definition parameters_listed (ts : list (transf V W)) : Prop :=
  forall l t r n, ts = l ++ t :: r -> In n (t_reach t) ->
    In n (flat_map (fun t => map fst (t_sets t)) (l ++ [t])).
Definition unique_names (ts : list (transf V W)) : Prop := List.NoDup (map (@t_name V W) ts).

(** The uninterrupted run. *)
Definition full_run (ts : list (transf V W)) := run_from vinit winit truthy sem ts None (@st0 V W).

(** Disks that arise from an empty folder by any number of processes, each resuming
    and crashing after any number of file writes. *)
Inductive crash_history (ts : list (transf V W)) : disk V W E -> Prop :=
| ch_empty : crash_history ts (@empty_disk V W E)
| ch_crash d tr s k : crash_history ts d -> process vinit winit truthy sem ts true d = Ok (tr, s) ->
    crash_history ts (apply_writes d (firstn k tr)).
(** The same for any mixture of plans and of processes that resume or do not. *)
Inductive folder_history : disk V W E -> Prop :=
| fh_empty : folder_history (@empty_disk V W E)
| fh_crash ts b d tr s k : folder_history d -> process vinit winit truthy sem ts b d = Ok (tr, s) ->
    folder_history (apply_writes d (firstn k tr)).

(** numbers of the log files written *)
Fixpoint log_numbers (l : list (write V W E)) : list nat :=
  match l with [] => [] | WLog n _ :: l' => n :: log_numbers l' | WChk _ _ :: l' => log_numbers l' end.
End Spec.
