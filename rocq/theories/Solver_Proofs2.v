(** Resuming after a crash: at boundaries and in the middle of a transformation. *)
From stdpp Require Import gmap.
From Verif Require Import Base Solver_Model Solver_Spec Solver_Proofs.
Set Implicit Arguments.
Open Scope nat_scope.

Section Solver.
Variables V W E : Type.
Variable vinit : nat -> V.
Variable winit : nat -> W.
Variable truthy : E -> bool.
Variable sem : transf V W -> env V W -> option E -> list (V * E) * V.
Notation transf := (transf V W).
Notation disk := (disk V W E).
Notation write := (write V W E).
Notation st := (st V W).
Notation run_from := (run_from vinit winit truthy sem).
Notation run_transf := (run_transf vinit winit truthy sem).
Notation prepare := (prepare vinit winit truthy).
Notation restore := (@restore V W E).
Notation process := (process vinit winit truthy sem).
Notation full_run := (full_run vinit winit truthy sem).

Lemma find_index_ext : forall ts (d d' : disk) i j, d_chk d = d_chk d' -> find_index ts d i j = find_index ts d' i j.
Proof. induction ts as [|t ts IH]; intros d d' i j H; cbn [find_index]; [reflexivity|]. rewrite H. now apply IH. Qed.

(** the part of restore that reads the checkpoint, then the log *)
Lemma restore_split done rest (d d' : disk) s : at_boundary done d s -> unique_names (done ++ rest) ->
  d_chk d' = d_chk d ->
  restore (done ++ rest) d' =
  match nth_error (done ++ rest) (length done) with
  | None => Ok (length done, None, {| s_env := s_env s; s_cnt := 0 |})
  | Some t =>
      match latest_log d' with
      | None => Ok (length done, None, {| s_env := s_env s; s_cnt := 0 |})
      | Some r =>
          if Nat.eqb (l_trans r) (t_name t)
          then Ok (length done, Some (l_event r),
                   {| s_env := {| ptz := <[t_param t := l_val r]> (ptz (s_env s)); prm := prm (s_env s) |}; s_cnt := l_counter r |})
          else Ok (length done, None, {| s_env := s_env s; s_cnt := l_counter r |})
      end
  end.
Proof.
  intros Hb Hu Hc. destruct (restore_env rest Hb Hu) as [H1 H2]. unfold Solver_Model.restore. cbv zeta.
  rewrite (find_index_ext (done ++ rest) d' d 0 0 Hc), H1, Hc, H2. reflexivity.
Qed.
Lemma nth_error_done (done rest : list transf) : nth_error (done ++ rest) (length done) = nth_error rest 0.
Proof. rewrite nth_error_app2 by lia. now rewrite Nat.sub_diag. Qed.
Lemma skipn_done (done rest : list transf) : skipn (length done) (done ++ rest) = rest.
Proof. rewrite skipn_app, skipn_all, Nat.sub_diag. reflexivity. Qed.
Lemma next_name_fresh done t rest : unique_names (done ++ t :: rest) -> ~ In (t_name t) (map (@t_name V W) done).
Proof.
  unfold unique_names. rewrite map_app. simpl. intros H Hin. apply NoDup_remove_2 in H. apply H.
  rewrite in_app_iff. auto.
Qed.
Lemma restore_boundary done rest (d : disk) s : at_boundary done d s -> unique_names (done ++ rest) ->
  exists s', restore (done ++ rest) d = Ok (length done, None, s') /\ s_env s' = s_env s /\ (rest <> [] -> s' = s).
Proof.
  intros Hb Hu. rewrite (@restore_split done rest d d s Hb Hu eq_refl), nth_error_done. destruct rest as [|t rest].
  - simpl. eexists. split; [reflexivity|]. split; [reflexivity|congruence].
  - simpl. destruct Hb as [bc bl bg br bz bp bn]. unfold latest_log. rewrite (latest_eq vinit winit d bg).
    destruct s as [en cnt]. simpl in *. destruct cnt as [|c].
    + eexists. split; [reflexivity|]. auto.
    + assert (is_Some (d_log d !! S c)) as [r Hr] by (apply bg; lia). rewrite Hr.
      apply br in Hr as [H1 H2]. destruct (Nat.eqb (l_trans r) (t_name t)) eqn:El.
      * apply Nat.eqb_eq in El. rewrite El in H2. now apply next_name_fresh in Hu.
      * eexists. split; [reflexivity|]. rewrite H1. auto.
Qed.
Lemma process_boundary done rest (d : disk) s : at_boundary done d s -> unique_names (done ++ rest) ->
  exists s', process (done ++ rest) true d = Ok (fst (run_from rest None s), s') /\
             s_env s' = s_env (snd (run_from rest None s)).
Proof.
  intros Hb Hu. destruct (restore_boundary rest Hb Hu) as (s' & Hr & He & Hs).
  unfold Solver_Model.process. rewrite Hr. cbn [bind]. rewrite skipn_done. destruct rest as [|t rest].
  - simpl. eauto.
  - rewrite Hs by discriminate. eexists. split; [|reflexivity]. now destruct (run_from (t :: rest) None s).
Qed.

(** B: crash at a boundary *)
Lemma resume_boundary_pf ts i : unique_names ts -> parameters_listed ts ->
  exists tr s, process ts true (apply_writes empty_disk (fst (run_from (firstn i ts) None st0))) = Ok (tr, s) /\
    fst (full_run ts) = fst (run_from (firstn i ts) None st0) ++ tr /\
    s_env s = s_env (snd (full_run ts)).
Proof.
  intros Hu Hp. pose proof (firstn_skipn i ts) as Ets. rewrite <- Ets in Hu, Hp.
  pose proof (@boundary_run V W E vinit winit truthy sem (firstn i ts) [] empty_disk st0
                (boundary0 E vinit winit)) as Hb.
  simpl in Hb. specialize (Hb (unique_names_app _ _ Hu) (parameters_listed_app _ Hp)).
  destruct (process_boundary (skipn i ts) Hb Hu) as (s' & H1 & H2). rewrite Ets in H1.
  eexists _, s'. split; [exact H1|]. unfold Solver_Spec.full_run. split.
  - rewrite <- Ets at 1. rewrite run_from_app0. reflexivity.
  - rewrite H2. rewrite <- Ets at 3. rewrite run_from_app0. reflexivity.
Qed.

(** the middle of a transformation *)
Lemma reg_ptz_insert (m : gmap nat V) n v : <[n := v]> (reg_ptz vinit m n) = <[n := v]> m.
Proof. unfold reg_ptz. destruct (m !! n); [reflexivity|]. apply insert_insert. Qed.
Lemma reg_ptz_in (m : gmap nat V) n v : reg_ptz vinit (<[n := v]> m) n = <[n := v]> m.
Proof. unfold reg_ptz. now rewrite lookup_insert. Qed.
Lemma prepare_no_sets t ev e : t_sets t = [] ->
  prepare t ev e = {| ptz := reg_ptz vinit (ptz e) (t_param t); prm := fold_left (reg_prm winit) (t_reach t) (prm e) |}.
Proof. intros H. unfold Solver_Model.prepare, set_params. rewrite H. simpl. destruct ev as [x|]; [now destruct (truthy x)|reflexivity]. Qed.

Lemma process_midway done t rest (d : disk) s l1 v1 e1 l2 v : at_boundary done d s ->
  unique_names (done ++ t :: rest) -> resumable sem t -> t_sets t = [] ->
  sem t (prepare t None (s_env s)) None = (l1 ++ (v1, e1) :: l2, v) ->
  let L := log_writes (t_name t) (s_cnt s) in
  exists s', process (done ++ t :: rest) true (apply_writes d (L (l1 ++ [(v1, e1)]))) =
      Ok (log_writes (t_name t) (s_cnt s + S (length l1)) l2 ++
          skipn (length (l1 ++ (v1, e1) :: l2)) (fst (run_from (t :: rest) None s)), s') /\
    s_env s' = s_env (snd (run_from (t :: rest) None s)).
Proof.
  intros Hb Hu Hres Hsets Hsem L.
  set (d' := apply_writes d (L (l1 ++ [(v1, e1)]))).
  assert (Hc : d_chk d' = d_chk d) by apply chk_log_writes.
  assert (Hlog : forall n, d_log d' !! n = if decide (s_cnt s < n <= s_cnt s + S (length l1)) then
     match nth_error (l1 ++ [(v1, e1)]) (n - s_cnt s - 1) with
     | Some (v, e) => Some {| l_trans := t_name t; l_event := e; l_val := v; l_counter := n |}
     | None => None end else d_log d !! n).
  { intros n. unfold d', L. rewrite log_log_writes, app_length. simpl. now rewrite Nat.add_1_r. }
  assert (Hlat : latest_step d' = s_cnt s + S (length l1)).
  { apply (latest_eq vinit winit). intros n. rewrite Hlog. destruct (decide (s_cnt s < n <= s_cnt s + S (length l1))) as [H|H].
    - destruct (nth_error (l1 ++ [(v1, e1)]) (n - s_cnt s - 1)) as [[v' e']|] eqn:En.
      + split; [lia|eauto].
      + apply nth_error_None in En. rewrite app_length in En. simpl in En. lia.
    - rewrite (b_log Hb). lia. }
  assert (Hr : latest_log d' = Some {| l_trans := t_name t; l_event := e1; l_val := v1; l_counter := s_cnt s + S (length l1) |}).
  { unfold latest_log. rewrite Hlat. destruct (s_cnt s + S (length l1)) as [|c] eqn:Ec; [lia|]. rewrite <- Ec.
    rewrite Hlog. rewrite decide_True by lia. replace (s_cnt s + S (length l1) - s_cnt s - 1) with (length l1) by lia.
    rewrite nth_error_app2, Nat.sub_diag by lia. reflexivity. }
  unfold Solver_Model.process. rewrite (@restore_split done (t :: rest) d d' s Hb Hu Hc), nth_error_done.
  cbn [nth_error]. rewrite Hr. cbn [l_trans l_event l_val l_counter]. rewrite Nat.eqb_refl. cbn [bind].
  rewrite skipn_done. cbn [Solver_Model.run_from].
  set (s1 := {| s_env := {| ptz := <[t_param t := v1]> (ptz (s_env s)); prm := prm (s_env s) |};
                s_cnt := s_cnt s + S (length l1) |}).
  assert (Hrun : snd (run_transf t (Some e1) s1) = snd (run_transf t None s) /\
    exists cw, fst (run_transf t (Some e1) s1) = log_writes (t_name t) (s_cnt s + S (length l1)) l2 ++ [cw] /\
               fst (run_transf t None s) = L (l1 ++ (v1, e1) :: l2) ++ [cw]).
  { unfold Solver_Model.run_transf. cbv zeta. rewrite Hsem.
    assert (Hp : prepare t (Some e1) (s_env s1) =
       {| ptz := <[t_param t := v1]> (ptz (prepare t None (s_env s))); prm := prm (prepare t None (s_env s)) |}).
    { rewrite !prepare_no_sets by assumption. simpl. f_equal. now rewrite reg_ptz_in, reg_ptz_insert. }
    rewrite Hp, (Hres _ _ _ _ _ _ _ Hsem). cbn [fst snd ptz prm]. rewrite insert_insert. split.
    - f_equal. simpl. rewrite app_length. simpl. lia.
    - eauto. }
  destruct Hrun as (H1 & cw & H2 & H3). rewrite H1, H2, H3. cbn [fst snd].
  eexists. split; [|reflexivity]. f_equal. f_equal. rewrite <- !app_assoc. apply (f_equal (app _)).
  symmetry. rewrite skipn_app. rewrite skipn_all2 by (unfold L; now rewrite log_writes_length).
  unfold L. rewrite log_writes_length, Nat.sub_diag. reflexivity.
Qed.

Lemma split_at {A} (l : list A) k : 0 < k <= length l -> exists l1 x l2, l = l1 ++ x :: l2 /\ k = S (length l1).
Proof.
  intros H. exists (firstn (k - 1) l). destruct (skipn (k - 1) l) as [|x l2] eqn:Es.
  - assert (length (skipn (k - 1) l) = 0) as Hl by now rewrite Es. rewrite skipn_length in Hl. lia.
  - exists x, l2. split; [rewrite <- Es; symmetry; apply firstn_skipn|]. rewrite firstn_length_le by lia. lia.
Qed.

(** A: crash anywhere *)
Lemma process_anywhere : forall todo done (d : disk) s k, at_boundary done d s ->
  unique_names (done ++ todo) -> parameters_listed (done ++ todo) -> (forall t, In t todo -> safe_midway sem t) ->
  exists s', process (done ++ todo) true (apply_writes d (firstn k (fst (run_from todo None s)))) =
      Ok (skipn k (fst (run_from todo None s)), s') /\
    s_env s' = s_env (snd (run_from todo None s)).
Proof.
  induction todo as [|t todo IH]; intros done d s k Hb Hu Hp Hs.
  - destruct (process_boundary [] Hb Hu) as (s' & H1 & H2). exists s'. simpl. rewrite firstn_nil, skipn_nil.
    cbn [apply_writes fold_left]. auto.
  - destruct (sem t (prepare t None (s_env s)) None) as [ls v] eqn:Esem.
    assert (HT : exists cw, fst (run_transf t None s) = log_writes (t_name t) (s_cnt s) ls ++ [cw]).
    { unfold Solver_Model.run_transf. rewrite Esem. cbn [fst]. eauto. }
    destruct HT as [cw HT]. set (T := fst (run_from todo None (snd (run_transf t None s)))).
    assert (HTT : fst (run_from (t :: todo) None s) = log_writes (t_name t) (s_cnt s) ls ++ cw :: T).
    { cbn [Solver_Model.run_from fst]. rewrite HT, <- app_assoc. reflexivity. }
    assert (Hlen : length (log_writes (W:=W) (t_name t) (s_cnt s) ls) = length ls) by apply log_writes_length.
    destruct (le_gt_dec k (length ls)) as [Hk|Hk].
    + destruct k as [|k0].
      { destruct (process_boundary (t :: todo) Hb Hu) as (s' & H1 & H2). exists s'.
        rewrite firstn_O, skipn_O. auto. }
      destruct (Hs t (or_introl eq_refl)) as [Hno|[Hres Hsets]].
      { specialize (Hno (prepare t None (s_env s)) None). rewrite Esem in Hno. simpl in Hno. subst ls. simpl in Hk. lia. }
      destruct (@split_at _ ls (S k0)) as (l1 & [v1 e1] & l2 & -> & Hk'); [lia|].
      destruct (@process_midway done t todo d s l1 v1 e1 l2 v Hb Hu Hres Hsets Esem) as (s' & H1 & H2).
      exists s'. split; [|exact H2]. rewrite Hk'.
      replace (firstn (S (length l1)) (fst (run_from (t :: todo) None s)))
        with (log_writes (W:=W) (t_name t) (s_cnt s) (l1 ++ [(v1, e1)])).
      2:{ rewrite HTT, firstn_app, Hlen, app_length. simpl.
          replace (S (length l1) - (length l1 + S (length l2))) with 0 by lia. rewrite firstn_O, app_nil_r.
          rewrite log_writes_firstn. f_equal.
          rewrite firstn_app. replace (S (length l1) - length l1) with 1 by lia.
          rewrite firstn_all2 by lia. reflexivity. }
      rewrite H1. f_equal. f_equal. rewrite HTT. rewrite skipn_app, Hlen.
      rewrite (skipn_app (S (length l1))). rewrite Hlen.
      rewrite (skipn_all2 (n := length (l1 ++ (v1, e1) :: l2))) by (rewrite Hlen; lia).
      rewrite Nat.sub_diag, skipn_O.
      replace (S (length l1) - length (l1 ++ (v1, e1) :: l2)) with 0 by (rewrite app_length; simpl; lia).
      rewrite skipn_O. simpl app at 2. f_equal.
      replace (l1 ++ (v1, e1) :: l2) with ((l1 ++ [(v1, e1)]) ++ l2) by (now rewrite <- app_assoc).
      rewrite log_writes_app. rewrite skipn_app, log_writes_length, app_length. simpl.
      replace (S (length l1) - (length l1 + 1)) with 0 by lia.
      rewrite skipn_all2 by (rewrite log_writes_length, app_length; simpl; lia). simpl.
      rewrite skipn_O. f_equal. lia.
    + replace (done ++ t :: todo) with ((done ++ [t]) ++ todo) in * by (now rewrite <- app_assoc).
      assert (Hb' : at_boundary (done ++ [t]) (apply_writes d (fst (run_transf t None s))) (snd (run_transf t None s))).
      { apply boundary_step; [assumption| |].
        - rewrite <- app_assoc in Hu. simpl in Hu. eapply next_name_fresh; eassumption.
        - intros n Hn. eapply Hp; [|exact Hn]. rewrite <- app_assoc. reflexivity. }
      destruct (IH (done ++ [t]) _ _ (k - S (length ls)) Hb' Hu Hp) as (s' & H1 & H2).
      { intros; apply Hs. now right. }
      exists s'. rewrite HTT. split.
      * fold T in H1. rewrite firstn_app, skipn_app, Hlen.
        rewrite firstn_all2, skipn_all2 by (rewrite Hlen; lia).
        replace (k - length ls) with (S (k - S (length ls))) by lia. cbn [firstn skipn app].
        rewrite <- H1. f_equal. rewrite HT. rewrite <- apply_writes_app, <- app_assoc. reflexivity.
      * rewrite H2. reflexivity.
Qed.
Lemma crash_history_prefix ts d : unique_names ts -> parameters_listed ts -> (forall t, In t ts -> safe_midway sem t) ->
  crash_history vinit winit truthy sem ts d ->
  exists k, d = apply_writes empty_disk (firstn k (fst (full_run ts))).
Proof.
  intros Hu Hp Hs. induction 1 as [|d tr s k _ [k0 ->] Hpr].
  - exists 0. reflexivity.
  - destruct (@process_anywhere ts [] empty_disk st0 k0 (boundary0 E vinit winit) Hu Hp Hs) as (s' & H1 & _).
    cbn [app] in H1. unfold Solver_Spec.full_run in *. rewrite Hpr in H1. injection H1 as -> _.
    exists (k0 + k). rewrite <- apply_writes_app. f_equal.
    generalize (fst (run_from ts None st0)). intros T. clear.
    revert k0. induction T as [|a T IH]; intros k0; [now rewrite !firstn_nil, skipn_nil, firstn_nil|].
    destruct k0 as [|k0]; [reflexivity|]. cbn [firstn skipn plus app]. f_equal. apply IH.
Qed.
Lemma resume_anywhere_pf ts d : unique_names ts -> parameters_listed ts -> (forall t, In t ts -> safe_midway sem t) ->
  crash_history vinit winit truthy sem ts d ->
  exists tr s, process ts true d = Ok (tr, s) /\ s_env s = s_env (snd (full_run ts)) /\
    apply_writes d tr = apply_writes empty_disk (fst (full_run ts)).
Proof.
  intros Hu Hp Hs H. destruct (crash_history_prefix Hu Hp Hs H) as [k ->].
  destruct (@process_anywhere ts [] empty_disk st0 k (boundary0 E vinit winit) Hu Hp Hs) as (s' & H1 & H2).
  cbn [app] in H1. eexists _, s'. split; [exact H1|]. split; [exact H2|].
  rewrite <- apply_writes_app. unfold Solver_Spec.full_run. now rewrite firstn_skipn.
Qed.

(** *** C18: numbering *)
Lemma log_numbers_app (a b : list write) : log_numbers (a ++ b) = log_numbers a ++ log_numbers b.
Proof. induction a as [|[n c|n r] a IH]; simpl; [reflexivity|assumption|now rewrite IH]. Qed.
Lemma log_numbers_log_writes : forall (l : list (V * E)) name c, log_numbers (log_writes (W:=W) name c l) = List.seq (S c) (length l).
Proof. induction l as [|[v e] l IH]; intros name c; simpl; [reflexivity|]. now rewrite IH. Qed.
Lemma run_transf_numbers t ev s : exists n, log_numbers (fst (run_transf t ev s)) = List.seq (S (s_cnt s)) n /\
  s_cnt (snd (run_transf t ev s)) = s_cnt s + n.
Proof.
  unfold Solver_Model.run_transf. destruct (sem t (prepare t ev (s_env s)) ev) as [ls v]. cbn [fst snd s_cnt].
  exists (length ls). split; [|reflexivity]. rewrite log_numbers_app, log_numbers_log_writes. simpl. apply app_nil_r.
Qed.
Lemma run_from_numbers : forall ts ev s, exists n, log_numbers (fst (run_from ts ev s)) = List.seq (S (s_cnt s)) n /\
  s_cnt (snd (run_from ts ev s)) = s_cnt s + n.
Proof.
  induction ts as [|t ts IH]; intros ev s; cbn [Solver_Model.run_from fst snd].
  - exists 0. simpl. auto.
  - destruct (run_transf_numbers t ev s) as (n & H1 & H2).
    destruct (IH None (snd (run_transf t ev s))) as (m & H3 & H4).
    exists (n + m). rewrite log_numbers_app, H1, H3, H4, H2, seq_app. split; [reflexivity|lia].
Qed.
(** every log file stores its own number, and numbers are positive *)
Definition consistent (d : disk) : Prop := forall n r, d_log d !! n = Some r -> l_counter r = n /\ 0 < n.
Definition good_write (w : write) : Prop := match w with WChk _ _ => True | WLog n r => l_counter r = n /\ 0 < n end.
Lemma consistent_writes : forall l d, consistent d -> Forall good_write l -> consistent (apply_writes d l).
Proof.
  unfold apply_writes. induction l as [|w l IH]; intros d Hd Hl; cbn [fold_left]; [assumption|].
  inversion Hl; subst. apply IH; [|assumption]. destruct w as [n c|n r]; [exact Hd|].
  intros n' r'. simpl. destruct (decide (n' = n)) as [->|Hne].
  - rewrite lookup_insert. intros H. injection H as <-. assumption.
  - rewrite lookup_insert_ne by congruence. apply Hd.
Qed.
Lemma log_writes_good : forall (l : list (V * E)) name c, Forall good_write (log_writes (W:=W) name c l).
Proof. induction l as [|[v e] l IH]; intros name c; simpl; constructor; [split; [reflexivity|lia]|apply IH]. Qed.
Lemma run_from_good : forall ts ev s, Forall good_write (fst (run_from ts ev s)).
Proof.
  induction ts as [|t ts IH]; intros ev s; cbn [Solver_Model.run_from fst]; [constructor|].
  apply Forall_app. split; [|apply IH]. unfold Solver_Model.run_transf.
  destruct (sem t (prepare t ev (s_env s)) ev) as [ls v]. cbn [fst].
  apply Forall_app. split; [apply log_writes_good|]. repeat constructor.
Qed.
Lemma process_good ts b d tr s : process ts b d = Ok (tr, s) -> Forall good_write tr.
Proof.
  unfold Solver_Model.process. destruct b.
  - destruct (restore ts d) as [[[idx ev] s0]|e]; cbn [bind]; [|discriminate]. intros H. injection H as H1.
    pose proof (run_from_good (skipn idx ts) ev s0) as H. rewrite H1 in H. exact H.
  - intros H. injection H as H1. pose proof (run_from_good ts None st0) as H. rewrite H1 in H. exact H.
Qed.
Lemma folder_consistent d : folder_history vinit winit truthy sem d -> consistent d.
Proof.
  induction 1 as [|ts b d tr s k _ IH Hp].
  - intros n r. simpl. rewrite lookup_empty. discriminate.
  - apply consistent_writes; [assumption|]. apply process_good in Hp.
    rewrite <- (firstn_skipn k tr) in Hp. now apply Forall_app in Hp as [Hp _].
Qed.
Lemma restore_counter ts (d : disk) idx ev s : consistent d -> restore ts d = Ok (idx, ev, s) ->
  nth_error ts idx = None \/ s_cnt s = latest_step d.
Proof.
  intros Hd. unfold Solver_Model.restore. cbv zeta.
  match goal with |- bind ?x _ = _ -> _ => destruct x as [e|e]; cbn [bind]; [|discriminate] end.
  destruct (nth_error ts (find_index ts d 0 0)) as [t|] eqn:En.
  - unfold latest_log. destruct (latest_step d) as [|n] eqn:El.
    + intros H. injection H as <- <- <-. auto.
    + destruct (latest_in d) as [H0|[r Hr]]; [lia|]. rewrite El in Hr. rewrite Hr.
      apply Hd in Hr as [H1 _]. destruct Nat.eqb; intros H; injection H as <- <- <-; auto.
  - intros H. injection H as <- <- <-. auto.
Qed.
Lemma resume_numbers_pf ts d tr s : folder_history vinit winit truthy sem d -> process ts true d = Ok (tr, s) ->
  exists n, log_numbers tr = List.seq (S (latest_step d)) n.
Proof.
  intros Hf. unfold Solver_Model.process. destruct (restore ts d) as [[[idx ev] s0]|e] eqn:Er; cbn [bind]; [|discriminate].
  intros H. injection H as H1.
  destruct (restore_counter ts (folder_consistent Hf) Er) as [Hn|Hc].
  - apply nth_error_None in Hn. rewrite skipn_all2 in H1 by assumption. simpl in H1. injection H1 as <- _.
    exists 0. reflexivity.
  - destruct (run_from_numbers (skipn idx ts) ev s0) as (n & Hn & _). rewrite H1 in Hn. exists n. now rewrite <- Hc.
Qed.
Lemma resume_no_overwrite_pf ts d tr s : folder_history vinit winit truthy sem d -> process ts true d = Ok (tr, s) ->
  forall n, In n (log_numbers tr) -> d_log d !! n = None.
Proof.
  intros Hf Hp n Hn. destruct (@resume_numbers_pf ts d tr s Hf Hp) as (m & Hm). rewrite Hm in Hn. apply in_seq in Hn.
  destruct (d_log d !! n) eqn:Ed; [|reflexivity].
  assert (n <= latest_step d) by (apply latest_ub; eauto). lia.
Qed.
(** the latest-log lookup finds what was written last *)
Lemma log_keys_writes : forall l d n, is_Some (d_log (apply_writes d l) !! n) <-> In n (log_numbers l) \/ is_Some (d_log (V:=V) (W:=W) (E:=E) d !! n).
Proof.
  unfold apply_writes. induction l as [|w l IH]; intros d n; cbn [fold_left]; [simpl; tauto|]. rewrite IH.
  destruct w as [m c|m r]; simpl; [tauto|]. rewrite lookup_insert_is_Some'. intuition.
Qed.
Lemma latest_is_last_pf ts d tr s k : folder_history vinit winit truthy sem d -> process ts true d = Ok (tr, s) ->
  latest_step (apply_writes d (firstn k tr)) = List.last (log_numbers (firstn k tr)) (latest_step d).
Proof.
  intros Hf Hp. destruct (@resume_numbers_pf ts d tr s Hf Hp) as (m & Hm).
  assert (Hpre : exists j, log_numbers (firstn k tr) = List.seq (S (latest_step d)) j).
  { rewrite <- (firstn_skipn k tr) in Hm. rewrite log_numbers_app in Hm.
    exists (length (log_numbers (firstn k tr))).
    assert (H : firstn (length (log_numbers (firstn k tr))) (List.seq (S (latest_step d)) m) = log_numbers (firstn k tr)).
    { rewrite <- Hm. rewrite firstn_app, Nat.sub_diag, firstn_all. simpl. apply app_nil_r. }
    assert (Hl : length (log_numbers (firstn k tr)) <= m).
    { rewrite <- (seq_length m (S (latest_step d))), <- Hm, app_length. lia. }
    rewrite <- H at 1. replace m with (length (log_numbers (firstn k tr)) + (m - length (log_numbers (firstn k tr)))) by lia.
    rewrite seq_app, firstn_app, seq_length, Nat.sub_diag. simpl. rewrite app_nil_r.
    rewrite firstn_all2; [reflexivity|]. rewrite seq_length. lia. }
  destruct Hpre as (j & Hj). rewrite Hj.
  assert (Hkeys : forall n, is_Some (d_log (apply_writes d (firstn k tr)) !! n) <->
                    S (latest_step d) <= n < S (latest_step d) + j \/ is_Some (d_log d !! n)).
  { intros n. rewrite log_keys_writes, Hj, in_seq. reflexivity. }
  destruct j as [|j].
  - simpl. unfold latest_step at 1. apply Nat.le_antisymm.
    + destruct (latest_in (apply_writes d (firstn k tr))) as [H|H]; unfold latest_step in H at 1.
      * rewrite H. lia.
      * change (foldr Nat.max 0 (map fst (map_to_list (d_log (apply_writes d (firstn k tr)))))) with
          (latest_step (apply_writes d (firstn k tr))) in *. apply Hkeys in H as [H|H]; [lia|]. now apply latest_ub.
    + change (foldr Nat.max 0 (map fst (map_to_list (d_log (apply_writes d (firstn k tr)))))) with
          (latest_step (apply_writes d (firstn k tr))).
      destruct (latest_in d) as [H|H]; [lia|]. apply (latest_ub vinit winit). apply Hkeys. auto.
  - replace (List.seq (S (latest_step d)) (S j)) with (List.seq (S (latest_step d)) j ++ [S (latest_step d) + j])
      by (rewrite <- seq_S; reflexivity).
    rewrite List.last_last. apply Nat.le_antisymm.
    + destruct (latest_in (apply_writes d (firstn k tr))) as [H|H]; [lia|].
      apply Hkeys in H as [H|H]; [lia|]. apply (latest_ub vinit winit) in H. lia.
    + apply (latest_ub vinit winit). apply Hkeys. left. lia.
Qed.
End Solver.
