(** Concrete plans over integers, for examples and witnesses. *)
From Verif Require Import Base Plan_Model Plan_Spec.
From Coq Require Import ZArith.
Open Scope nat_scope.

Definition nodeZ := node Z Z.
Definition full (v s : Z) : Z := s.
(** every operation node adds one to the sum of its inputs *)
Fixpoint evalZ (ov : list (nodeZ * Z * bool)) (n : nodeZ) : Z :=
  match n with Node k d ins =>
    match find (fun x => Nat.eqb (nname (fst (fst x))) k) ov with
    | Some x => snd (fst x)
    | None => (1 + fold_right Z.add 0 (map (evalZ ov) ins))%Z
    end end.
Definition evalxZ (ns : list nodeZ) (ov : list (nodeZ * Z * bool)) : res (list Z) := Ok (map (evalZ ov) ns).
Definition dflt (v : Z) (p : bool) : vardecl Z Z := {| d_value := v; d_param := p; d_lower := BScalar _ 0%Z; d_upper := @BNone _ _ |}.
Definition x : nodeZ := Node 1 (Some (dflt 0 false)) [].
Definition y : nodeZ := Node 2 (Some (dflt 7 true)) [].
Definition incx : nodeZ := Node 3 None [x].
Definition addxy : nodeZ := Node 4 None [x; y].
Definition evZ := list nat.
Definition truthyZ (e : evZ) : bool := match e with [] => false | _ => true end.
Definition act_inc : action Z Z evZ :=
  {| a_name := 10; a_inputs := [incx; x]; a_run := set_variable_run evZ x incx; a_resume := None |}.
Definition act_set : action Z Z evZ :=
  {| a_name := 11; a_inputs := [addxy; x; y]; a_run := set_variable_run evZ x y; a_resume := None |}.
Definition act_log : action Z Z evZ :=
  {| a_name := 12; a_inputs := []; a_run := Do (OWriteEvent [1] [x]) (fun r => match r with Ok _ => Ret | Err e => Raise e end); a_resume := None |}.
Definition act_bad : action Z Z evZ := {| a_name := 13; a_inputs := []; a_run := Raise (UserError 3); a_resume := None |}.
Definition ustepsZ := usteps full (-1000)%Z 1000%Z truthyZ evalxZ.
Definition runZ := run full (-1000)%Z 1000%Z evalxZ (E := evZ).
Definition run_withZ := run_with (Ev := evZ) full (-1000)%Z 1000%Z evalxZ.
Definition resumeZ := resume full (-1000)%Z 1000%Z truthyZ evalxZ.
Definition w0 : world Z evZ := {| files := [] |}.
Definition start (l : list (action Z Z evZ)) : st Z Z evZ :=
  fst (ustepsZ (map UAddAction l) (init_plan Z Z evZ true false, w0)).
Definition xval (s : st Z Z evZ) : option Z := aget (var_value (data (fst s))) 1.

(** an action that increments x, reports an event and increments again; it can or cannot continue after the event *)
Definition inc_then (k : prog Z Z evZ) : prog Z Z evZ :=
  Do (OEval [incx]) (fun r => match r with Ok (AVals _ [v]) => Do (OSetValue x v true) (fun r' => match r' with Ok _ => k | Err e => Raise e end) | Ok _ => Raise TypeError | Err e => Raise e end).
Definition act_two (ev : evZ) (knows : bool) : action Z Z evZ :=
  {| a_name := 14; a_inputs := [incx; x];
     a_run := inc_then (Do (OWriteEvent ev [x]) (fun r => match r with Ok _ => inc_then (@Ret _ _ _) | Err e => Raise e end));
     a_resume := if knows then Some (fun _ => inc_then (@Ret _ _ _)) else None |}.
