(** Model of running and resuming an invdes plan from files,
    /repo/spins/invdes/problem_graph/solver.py:16-183 and
    workspace.py:108-137, 229-250, 253-417. *)
From stdpp Require Import gmap.
From Verif Require Import Base.
Set Implicit Arguments.
Open Scope nat_scope.

Section Solver.
Variables V W E : Type. (* values of parametrizations and of parameters, events *)

(** The values held by the parametrization and parameter objects that exist in
    the workspace, by name. *)
Record env := { ptz : gmap nat V; prm : gmap nat W }.

(** A transformation of the plan: its name; its parametrization; its
    [parameter_list] as (parameter, function of the current values) pairs; and the
    parameters reachable from its own description, which are registered when the
    transformation is created. *)
Record transf := { t_name : nat; t_param : nat; t_sets : list (nat * (env -> W)); t_reach : list nat }.

(** Initial values of new objects, truth value of event dictionaries, and what the
    transformation does: the values and events it logs, then the final value.
    Simplification: a transformation changes only its own parametrization. *)
Variable vinit : nat -> V.
Variable winit : nat -> W.
Variable truthy : E -> bool.
Variable sem : transf -> env -> option E -> list (V * E) * V.

(** Files. [c_ptz], [c_prm]: Logger.write_checkpoint, workspace.py:294-325 (all
    registered parametrizations and parameters).  Log files: Logger.write, 327-375
    (monitor data, time stamps and the parameter values, which nothing reads back,
    are left out). *)
Record chk := { c_ptz : gmap nat V; c_prm : gmap nat W }.
Record logrec := { l_trans : nat; l_event : E; l_val : V; l_counter : nat }.
Record disk := { d_chk : gmap nat chk; d_log : gmap nat logrec }.
Definition empty_disk : disk := {| d_chk := ∅; d_log := ∅ |}.
Inductive write := WChk (name : nat) (c : chk) | WLog (n : nat) (r : logrec).
Definition apply_write (d : disk) (w : write) : disk :=
  match w with
  | WChk n c => {| d_chk := <[n := c]> (d_chk d); d_log := d_log d |}
  | WLog n r => {| d_chk := d_chk d; d_log := <[n := r]> (d_log d) |}
  end.
Definition apply_writes (d : disk) (l : list write) : disk := fold_left apply_write l d.

(** Process state: values and the log counter. *)
Record st := { s_env : env; s_cnt : nat }.
Definition st0 : st := {| s_env := {| ptz := ∅; prm := ∅ |}; s_cnt := 0 |}.

(** objects come into being with their initial values (workspace.py:139-203) *)
Definition reg_prm (m : gmap nat W) (n : nat) : gmap nat W :=
  match m !! n with Some _ => m | None => <[n := winit n]> m end.
Definition reg_ptz (m : gmap nat V) (n : nat) : gmap nat V :=
  match m !! n with Some _ => m | None => <[n := vinit n]> m end.
(** [_set_parameters], workspace.py:229-250 ([inverse] is part of the function) *)
Definition set_param (e : env) (x : nat * (env -> W)) : env :=
  let e1 := {| ptz := ptz e; prm := reg_prm (prm e) (fst x) |} in
  {| ptz := ptz e; prm := <[fst x := snd x e1]> (prm e1) |}.
Definition set_params (t : transf) (e : env) : env := fold_left set_param (t_sets t) e.

(** The log files written while the transformation runs. *)
Fixpoint log_writes (name cnt : nat) (l : list (V * E)) : list write :=
  match l with
  | [] => []
  | (v, e) :: l' =>
      WLog (S cnt) {| l_trans := name; l_event := e; l_val := v; l_counter := S cnt |} :: log_writes name (S cnt) l'
  end.
Definition prepare (t : transf) (ev : option E) (e : env) : env :=
  let e1 := {| ptz := reg_ptz (ptz e) (t_param t); prm := fold_left reg_prm (t_reach t) (prm e) |} in
  match ev with
  | Some x => if truthy x then e1 else set_params t e1
  | None => set_params t e1
  end.
(** [Workspace.run] followed by [write_checkpoint], workspace.py:108-137 and
    solver.py:58-61. *)
Definition run_transf (t : transf) (ev : option E) (s : st) : list write * st :=
  let e := prepare t ev (s_env s) in
  let (ls, v) := sem t e ev in
  let e' := {| ptz := <[t_param t := v]> (ptz e); prm := prm e |} in
  (log_writes (t_name t) (s_cnt s) ls ++ [WChk (t_name t) {| c_ptz := ptz e'; c_prm := prm e' |}],
   {| s_env := e'; s_cnt := s_cnt s + length ls |}).
(** The loop of [run_plan], solver.py:54-62: the sequence of file writes and the
    final state. *)
Fixpoint run_from (ts : list transf) (ev : option E) (s : st) : list write * st :=
  match ts with
  | [] => ([], s)
  | t :: ts' => let r1 := run_transf t ev s in
                let r2 := run_from ts' None (snd r1) in
                (fst r1 ++ fst r2, snd r2)
  end.

(** [restore_workspace], solver.py:82-183. *)
Fixpoint find_index (ts : list transf) (d : disk) (i idx : nat) : nat :=
  match ts with
  | [] => idx
  | t :: ts' => find_index ts' d (S i) (match d_chk d !! t_name t with Some _ => S i | None => idx end)
  end.
Fixpoint restore_ptz (ts : list transf) (c : chk) (m : gmap nat V) : res (gmap nat V) :=
  match ts with
  | [] => Ok m
  | t :: ts' => match c_ptz c !! t_param t with
                | Some v => restore_ptz ts' c (<[t_param t := v]> m)
                | None => Err KeyError
                end
  end.
(** names registered by [work._add_node(set_param.parameter)] *)
Definition set_names (ts : list transf) : list nat := flat_map (fun t => map fst (t_sets t)) ts.
(** [for param, value in chkpt["parameters"].items(): work.get_object(param)...] *)
Definition restore_prm (ts : list transf) (c : chk) : res (gmap nat W) :=
  if forallb (fun x => memb (fst x) (set_names ts)) (map_to_list (c_prm c)) then Ok (c_prm c) else Err KeyError.
(** [get_latest_log_step], workspace.py:378-399 *)
Definition latest_step (d : disk) : nat := foldr Nat.max 0 (map fst (map_to_list (d_log d))).
(** [get_latest_log_file], workspace.py:402-417 *)
Definition latest_log (d : disk) : option logrec :=
  match latest_step d with 0 => None | n => d_log d !! n end.

Definition restore (ts : list transf) (d : disk) : res (nat * option E * st) :=
  let idx := find_index ts d 0 0 in
  bind (match idx with
        | 0 => Ok (s_env st0)
        | S j =>
            match nth_error ts j with
            | None => Err IndexError
            | Some t =>
                match d_chk d !! t_name t with
                | None => Err KeyError
                | Some c => bind (restore_ptz (firstn idx ts) c ∅) (fun m =>
                            bind (restore_prm (firstn idx ts) c) (fun p => Ok {| ptz := m; prm := p |}))
                end
            end
        end) (fun e =>
  match nth_error ts idx with
  | None => Ok (idx, None, {| s_env := e; s_cnt := 0 |})
  | Some t =>
      match latest_log d with
      | None => Ok (idx, None, {| s_env := e; s_cnt := 0 |})
      | Some r =>
          if Nat.eqb (l_trans r) (t_name t)
          then Ok (idx, Some (l_event r),
                   {| s_env := {| ptz := <[t_param t := l_val r]> (ptz e); prm := prm e |}; s_cnt := l_counter r |})
          else Ok (idx, None, {| s_env := e; s_cnt := l_counter r |})
      end
  end).

(** A process that runs the plan, with or without resuming: its writes and final
    state. *)
Definition process (ts : list transf) (resume : bool) (d : disk) : res (list write * st) :=
  if resume
  then bind (restore ts d) (fun x => let '(idx, ev, s) := x in Ok (run_from (skipn idx ts) ev s))
  else Ok (run_from ts None st0).
End Solver.
Arguments WChk {V W E}.
Arguments WLog {V W E}.
Arguments log_writes {V W E}.
Arguments st0 {V W}.
Arguments empty_disk {V W E}.
