(** Model of the reading side of optimization logs:
    /repo/spins/invdes/problem_graph/log_tools/loader.py.
    A log file is a row; transformations, events and monitors are numbers (names in the
    code); a monitor value has an arbitrary type [V]; [None] is a missing or null cell. *)
From Coq Require Import ZArith.
From Verif Require Import Base.
Set Implicit Arguments.

Section log.
Variable V : Type.
Record row := mkrow {
  counter : nat;          (* LOG_COUNTER, always written by the logger *)
  trans : nat;            (* LOG_TRANSFORMATION_KEY *)
  event : nat;            (* LOG_TRANSFORMATION_INFO_KEY *)
  iter : option Z;        (* LOG_ITERATION_KEY *)
  mons : nat -> option V  (* monitor_data:<name> *)
}.

(** loader.py:100-101, sort_values(by=[LOG_COUNTER]).  The sorting algorithm of pandas
    is not modelled (it is not stable); counters in a log directory are distinct, so
    every correct sort gives this list. *)
Fixpoint insert (r : row) (l : list row) : list row :=
  match l with
  | [] => [r]
  | x :: l' => if Nat.leb (counter r) (counter x) then r :: l else x :: insert r l'
  end.
(** create_log_data_frame, loader.py:66-103 *)
Fixpoint data_frame (files : list row) : list row :=
  match files with [] => [] | r :: l => insert r (data_frame l) end.

(** Series.unique(): distinct values in order of first appearance *)
Fixpoint unique (l : list nat) : list nat :=
  match l with [] => [] | x :: l' => x :: filter (fun y => negb (Nat.eqb y x)) (unique l') end.

Definition is_some {A} (o : option A) : bool := match o with Some _ => true | None => false end.
Definition somes {A} (l : list (option A)) : list A :=
  flat_map (fun o => match o with Some a => [a] | None => [] end) l.

(** the inner loop over monitor names, loader.py:174-193: the first monitor of the list
    with data; an absent column (lines 176-177, 183, 187) reads as null cells here.
    [rows] are already filtered by event and transformation. *)
Fixpoint first_monitor (rows : list row) (names : list nat) : option (list V * list Z) :=
  match names with
  | [] => None
  | n :: names' =>
      let masked := filter (fun r => is_some (mons r n)) rows in
      let mon_dat := somes (map (fun r => mons r n) masked) in
      let iter_data := somes (map iter masked) in
      match mon_dat with [] => first_monitor rows names' | _ => Some (mon_dat, iter_data) end
  end.
(** get_monitor_data, loader.py:140-194.  On an empty data frame the column lookup of
    line 163 raises.  The result is the OrderedDict as a list. *)
Definition get_monitor_data (df : list row) (names : list nat) (ev : nat)
  : res (list (nat * (list V * list Z))) :=
  match df with
  | [] => Err KeyError
  | _ =>
    let df_event := filter (fun r => Nat.eqb (event r) ev) df in
    Ok (flat_map (fun t =>
          match first_monitor (filter (fun r => Nat.eqb (trans r) t) df_event) names with
          | Some d => [(t, d)]
          | None => []
          end) (unique (map trans df)))
  end.

(** [l[-1]] *)
Definition last_of {A} (l : list A) : res A :=
  match rev l with [] => Err IndexError | x :: _ => Ok x end.
(** the loop of get_joined_scalar_monitors, loader.py:320-333 *)
Fixpoint join (md : list (nat * (list V * list Z))) (data : list V) (changes : list nat) (iters : list Z)
  : res (list V * list nat * list Z) :=
  match md with
  | [] => Ok (data, changes, iters)
  | (_, (d, i)) :: md' =>
      if Nat.ltb 0 (length data) then
        bind (last_of iters) (fun z =>
        join md' (data ++ d) (changes ++ [length data]) (iters ++ map (fun k => Z.add k z) i))
      else join md' (data ++ d) changes (iters ++ i)
  end.
(** get_joined_scalar_monitors, loader.py:300-336; [op] is the elementwise scalar
    operation of process_scalar (339-365, external numpy functions) *)
Definition get_joined_scalar_monitors (df : list row) (names : list nat) (ev : nat) (op : V -> V)
  : res (list V * list nat * list Z) :=
  bind (get_monitor_data df names ev) (fun md =>
  bind (join md [] [] []) (fun '(d, c, i) => Ok (map op d, c, i))).

(** index of the first occurrence, [list.index] *)
Fixpoint index_of (z : Z) (l : list Z) : option nat :=
  match l with
  | [] => None
  | x :: l' => if Z.eqb x z then Some 0 else option_map S (index_of z l')
  end.
Fixpoint assoc {A} (t : nat) (l : list (nat * A)) : option A :=
  match l with [] => None | (k, a) :: l' => if Nat.eqb k t then Some a else assoc t l' end.
(** the inner loop over events, loader.py:240-256; [evs] is already reversed *)
Fixpoint search_events (df : list row) (names : list nat) (it : option Z) (t : nat) (evs : list nat) : res (option V) :=
  match evs with
  | [] => Ok None
  | ev :: evs' =>
      bind (get_monitor_data df names ev) (fun md =>
      match assoc t md with
      | None => search_events df names it t evs'
      | Some (d, is) =>
          match match it with Some z => index_of z is | None => None end with
          | Some k => match nth_error d k with Some v => Ok (Some v) | None => Err IndexError end
          | None => bind (last_of d) (fun v => Ok (Some v))
          end
      end)
  end.
Fixpoint search_trans (df : list row) (names : list nat) (it : option Z) (ts evs : list nat) : res (option V) :=
  match ts with
  | [] => Ok None
  | t :: ts' =>
      bind (search_events df names it t evs) (fun o =>
      match o with Some v => Ok (Some v) | None => search_trans df names it ts' evs end)
  end.
(** get_single_monitor_data, loader.py:197-258.  The result [Ok None] is the empty list of
    line 258.  On an empty data frame the lookups of lines 227 or 235 raise unless both
    names are given, and then get_monitor_data raises. *)
Definition get_single_monitor_data (df : list row) (names : list nat) (t : option nat) (it : option Z) (ev : option nat)
  : res (option V) :=
  match df with
  | [] => Err KeyError
  | _ =>
    let ts := match t with Some t => [t] | None => unique (map trans df) end in
    let evs := match ev with Some e => [e] | None => unique (map event df) end in
    search_trans df names it (rev ts) (rev evs)
  end.
End log.
Arguments mkrow {V} _ _ _ _ _.
