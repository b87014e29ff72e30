(** Resuming inside an action, from the file written by [write_event]. *)
From Verif Require Import Base Plan_Model Plan_Spec Plan_Proofs Plan_Proofs2 Plan_Proofs3 Plan_Proofs4.
Open Scope nat_scope.
Set Implicit Arguments.

Section PP6.
Variables V Sc Ev : Type.
Variable full_like : V -> Sc -> V.
Variables ninf pinf : Sc.
Variable truthy : Ev -> bool.
Variable evalx : list (node V Sc) -> list (node V Sc * V * bool) -> res (list V).
Notation prog := (prog V Sc Ev).
Notation action := (action V Sc Ev).
Notation st := (st V Sc Ev).
Notation call := (call full_like ninf pinf evalx).
Notation exec := (exec full_like ninf pinf evalx).
Notation run := (run full_like ninf pinf evalx).
Notation run_with := (run_with full_like ninf pinf evalx).
Notation resume := (resume full_like ninf pinf truthy evalx).
Notation srun := (srun full_like ninf pinf evalx).
Notation reaches := (reaches full_like ninf pinf evalx).
Notation inside := (@inside V Sc Ev).
Implicit Types (s : st) (p : plan V Sc Ev).

Lemma reaches_exec (p : prog) s (p' : prog) s' : reaches p s p' s' -> exec p s = exec p' s'.
Proof. induction 1 as [|o k s p' s' _ IH]; [reflexivity|]. cbn [Plan_Model.exec]. destruct (call o s) as [s1 r]. exact IH. Qed.
Lemma reaches_frame (p : prog) s (p' : prog) s' : reaches p s p' s' -> frame s s'.
Proof. induction 1 as [|o k s p' s' _ IH]; [apply frame_refl|]. eapply frame_trans; [apply call_frame|exact IH]. Qed.

(** what resume does with an action, as a plain list of actions *)
Lemma resume_srun p0 w f d cN a code :
  saved p0 = true -> core_tight (data p0) -> same_keys (data p0) cN -> state_vars cN = Ok (f_vars d) ->
  lookup_file (files w) f = Some d -> nth_error (actions p0) (f_ptr d) = Some a ->
  code = match f_event d with
         | Some ev => if truthy ev then match a_resume a with Some g => g ev | None => a_run a end else a_run a
         | None => a_run a
         end ->
  (data (fst (fst (resume (Some f) true (p0, w)))), snd (resume (Some f) true (p0, w))) = srun (with_code a code :: skipn (S (f_ptr d)) (actions p0)) cN.
Proof.
  intros Hsv HT Hk Hs Hw Ha Hc. unfold Plan_Model.resume, read_checkpoint. cbn [fst snd]. rewrite Hw. rewrite (load_state HT Hk Hs).
  cbn [fst snd with_mod with_data with_ptr actions action_ptr action_data]. rewrite Ha. rewrite <- Hc. cbn [Plan_Proofs3.srun with_code a_run].
  set (s1 := (with_mod _ true, w)). assert (Hin : inside s1). { split; [reflexivity|]. cbn. congruence. }
  destruct (@exec_sim V Sc Ev full_like ninf pinf evalx code (canon Ev cN) s1 eq_refl (canon_inside _ _) Hin) as [E1 E2].
  assert (HF := exec_frame full_like ninf pinf evalx code s1).
  destruct (exec code (canon Ev cN)) as [s' r]. destruct (exec code s1) as [s2 r1]. cbn [fst snd] in *. subst r1.
  rewrite E2. destruct r as [u|e]; [|reflexivity].
  assert (Hin1 := frame_inside HF Hin). destruct HF as (F1 & F2 & F3 & F4 & F5). cbn in F1, F2, F3, F4, F5.
  destruct (after_action true s2) as [s3 [u3|e]] eqn:Eaa.
  - destruct (@after_action_ok V Sc Ev s2 s3 u3) as (vs & Hvs & _); [congruence|assumption|]. rewrite Hvs.
    apply after_action_frame in Eaa as (G1 & G2 & G3 & G4 & G5 & G6 & G7 & G8).
    rewrite <- run_srun by (cbn; congruence). cbn [fst with_mod action_ptr actions data].
    rewrite G7, G4, F4, F5, G5. reflexivity.
  - rewrite (@after_action_err V Sc Ev s2 s3 e); [|congruence|assumption|assumption].
    apply after_action_frame in Eaa as (G1 & G2 & G3 & G4 & G5 & G6 & G7). cbn [fst snd]. now rewrite G5.
Qed.

Lemma run_with_srun p l w : saved p = true -> action_ptr p = 0 -> (data (fst (fst (run_with p l w))), snd (run_with p l w)) = srun l (data p).
Proof.
  intros H1 H2. unfold Plan_Spec.run_with. rewrite <- (@run_srun V Sc Ev full_like ninf pinf evalx (with_actions p l, w) H1). cbn [fst with_actions action_ptr actions data]. rewrite H2. reflexivity.
Qed.

(** the file written by an event, and resuming from it *)
Theorem resume_from_event p0 w0 w s1 s2 ev mons v f d a before after :
  saved p0 = true -> action_ptr p0 = 0 -> core_tight (data p0) -> actions p0 = before ++ a :: after ->
  saved (fst s1) = true -> action_ptr (fst s1) = length before -> modifiable (fst s1) = true ->
  call (OWriteEvent ev mons) s1 = (s2, Ok v) ->
  lookup_file (files (snd s2)) (Step (log_counter (fst s2))) = Some d -> lookup_file (files w) f = Some d ->
  same_keys (data p0) (data (fst s2)) ->
  let code := if truthy ev then match a_resume a with Some g => g ev | None => a_run a end else a_run a in
  let rest := run_with (with_data p0 (data (fst s2))) (with_code a code :: after) w0 in
  data (fst (fst (resume (Some f) true (p0, w)))) = data (fst (fst rest)) /\ snd (resume (Some f) true (p0, w)) = snd rest.
Proof.
  intros H1 H2 HT Hact Hsv Hp Hm Hcall Hlook Hw Hk code rest.
  cbn [Plan_Model.call] in Hcall. unfold guarded in Hcall. rewrite Hm in Hcall.
  destruct (write_event_log full_like ninf pinf evalx ev mons s1) as (L1 & L2 & _). rewrite Hcall in L1, L2. cbn [fst snd] in L1, L2.
  destruct (L2 Hsv) as (d' & Hf & D1 & D2 & D3 & D4 & _). rewrite L1 in Hlook. rewrite Hf in Hlook. cbn [lookup_file fname_eqb] in Hlook. rewrite Nat.eqb_refl in Hlook. injection Hlook as ->.
  assert (Ea : nth_error (actions p0) (f_ptr d) = Some a) by (rewrite D1, Hp, Hact, nth_error_app2, Nat.sub_diag by lia; reflexivity).
  assert (R := @resume_srun p0 w f d (data (fst s2)) a code H1 HT Hk D4 Hw Ea ltac:(rewrite D2; reflexivity)).
  assert (Sk : skipn (S (f_ptr d)) (actions p0) = after).
  { rewrite D1, Hp, Hact. replace (S (length before)) with (length (before ++ [a])) by (rewrite app_length; cbn; lia).
    replace (before ++ a :: after) with ((before ++ [a]) ++ after) by (rewrite <- app_assoc; reflexivity). rewrite skipn_app, Nat.sub_diag, skipn_all. reflexivity. }
  rewrite Sk in R. assert (R' := @run_with_srun (with_data p0 (data (fst s2))) (with_code a code :: after) w0 H1 H2). cbn [data with_data] in R'. fold rest in R'. rewrite <- R' in R. injection R as -> ->. auto.
Qed.

(** an action that can take up its work after an event is resumed without a trace *)
Theorem resume_continues p0 w0 w s0 s1 s2 ev mons k v f d a g before after :
  saved p0 = true -> action_ptr p0 = 0 -> core_tight (data p0) -> actions p0 = before ++ a :: after ->
  snd (run_with p0 before w0) = Ok tt ->
  saved (fst s0) = true -> modifiable (fst s0) = true -> actions (fst s0) = actions p0 -> action_ptr (fst s0) = length before ->
  data (fst s0) = data (fst (fst (run_with p0 before w0))) ->
  reaches (a_run a) s0 (Do (OWriteEvent ev mons) k) s1 -> call (OWriteEvent ev mons) s1 = (s2, Ok v) ->
  lookup_file (files (snd s2)) (Step (log_counter (fst s2))) = Some d -> lookup_file (files w) f = Some d ->
  same_keys (data p0) (data (fst s2)) ->
  truthy ev = true -> a_resume a = Some g -> (forall s, exec (g ev) s = exec (k (Ok v)) s) ->
  data (fst (fst (resume (Some f) true (p0, w)))) = data (fst (fst (run_with p0 (actions p0) w0))) /\
  snd (resume (Some f) true (p0, w)) = snd (run_with p0 (actions p0) w0).
Proof.
  intros H1 H2 HT Hact Hb S1 S2 S3 S4 S5 Hr Hcall Hlook Hw Hk Ht Hg Heq.
  destruct (reaches_frame Hr) as (F1 & F2 & F3 & F4 & F5).
  destruct (@resume_from_event p0 w0 w s1 s2 ev mons v f d a before after H1 H2 HT Hact ltac:(congruence) ltac:(congruence) ltac:(congruence) Hcall Hlook Hw Hk) as [-> ->].
  rewrite Ht, Hg. set (a' := with_code a (g ev)).
  assert (R := @run_with_srun (with_data p0 (data (fst s2))) (a' :: after) w0 H1 H2). cbn [data with_data] in R.
  assert (W := @run_with_srun p0 (actions p0) w0 H1 H2). rewrite Hact in W at 3. rewrite srun_app in W.
  assert (B := @run_with_srun p0 before w0 H1 H2). rewrite Hb, <- S5 in B. rewrite <- B in W.
  assert (In0 : inside s0). { split; [exact S2|]. rewrite S3, S4, Hact, nth_error_app2, Nat.sub_diag by lia. cbn. congruence. }
  assert (In1 : inside s1) by (split; congruence || (rewrite F4, F5; apply In0)).
  assert (FF := call_frame full_like ninf pinf evalx (OWriteEvent ev mons) s1). rewrite Hcall in FF. cbn [fst] in FF. assert (In2 := frame_inside FF In1).
  destruct (@exec_sim V Sc Ev full_like ninf pinf evalx (a_run a) (canon Ev (data (fst s0))) s0 eq_refl (canon_inside _ _) In0) as [A1 A2].
  destruct (@exec_sim V Sc Ev full_like ninf pinf evalx (g ev) (canon Ev (data (fst s2))) s2 eq_refl (canon_inside _ _) In2) as [B1 B2].
  assert (X : exec (a_run a) s0 = exec (g ev) s2). { rewrite (reaches_exec Hr). cbn [Plan_Model.exec]. rewrite Hcall. symmetry. apply Heq. }
  rewrite X in A1, A2.
  assert (Q : srun (a :: after) (data (fst s0)) = srun (a' :: after) (data (fst s2))).
  { cbn [Plan_Proofs3.srun with_code a_run a']. destruct (exec (a_run a) (canon Ev (data (fst s0)))) as [t1 r1]. destruct (exec (g ev) (canon Ev (data (fst s2)))) as [t2 r2]. cbn [fst snd] in *.
    rewrite A1, B1, A2, B2. reflexivity. }
  rewrite Q, <- R in W. injection W as -> ->. auto.
Qed.
End PP6.
