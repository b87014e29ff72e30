(** Lemmas about running and resuming plans from files. *)
From stdpp Require Import gmap.
From Verif Require Import Base Solver_Model Solver_Spec.
Set Implicit Arguments.
Open Scope nat_scope.

Section Solver.
Variables V W E : Type.
Variable vinit : nat -> V.
Variable winit : nat -> W.
Variable truthy : E -> bool.
Variable sem : transf V W -> env V W -> option E -> list (V * E) * V.
Notation transf := (transf V W).
Notation disk := (disk V W E).
Notation write := (write V W E).
Notation st := (st V W).
Notation run_from := (run_from vinit winit truthy sem).
Notation run_transf := (run_transf vinit winit truthy sem).
Notation prepare := (prepare vinit winit truthy).
Notation restore := (@restore V W E).
Notation process := (process vinit winit truthy sem).
Notation full_run := (full_run vinit winit truthy sem).

Lemma apply_writes_app (d : disk) l m : apply_writes d (l ++ m) = apply_writes (apply_writes d l) m.
Proof. unfold apply_writes. apply fold_left_app. Qed.
Lemma log_writes_app : forall l1 name c l2, log_writes (W:=W) name c (l1 ++ l2) =
  log_writes name c l1 ++ log_writes (V:=V) (E:=E) name (c + length l1) l2.
Proof.
  induction l1 as [|[v e] l1 IH]; intros name c l2; simpl.
  - now rewrite Nat.add_0_r.
  - rewrite IH. do 3 f_equal. lia.
Qed.
Lemma log_writes_length name c (l : list (V * E)) : length (log_writes (W:=W) name c l) = length l.
Proof. revert c. induction l as [|[v e] l IH]; intros c; simpl; [reflexivity|]. now rewrite IH. Qed.
Lemma log_writes_firstn : forall k name c (l : list (V * E)),
  firstn k (log_writes (W:=W) name c l) = log_writes name c (firstn k l).
Proof. induction k as [|k IH]; intros name c [|[v e] l]; simpl; try reflexivity. now rewrite IH. Qed.

(** *** the latest log *)
Lemma foldr_max_ub l n : In n l -> n <= foldr Nat.max 0 l.
Proof. induction l as [|x l IH]; simpl; [tauto|]. intros [->|H]; [lia|]. apply IH in H. lia. Qed.
Lemma foldr_max_in l : foldr Nat.max 0 l = 0 \/ In (foldr Nat.max 0 l) l.
Proof.
  induction l as [|x l IH]; simpl; [auto|]. destruct (Nat.max_spec x (foldr Nat.max 0 l)) as [[_ ->]|[_ ->]]; auto.
  destruct IH as [->|IH]; auto.
Qed.
Lemma in_log_keys (d : disk) n : In n (map fst (map_to_list (d_log d))) <-> is_Some (d_log d !! n).
Proof.
  rewrite in_map_iff. split.
  - intros ([k r] & <- & H). apply elem_of_list_In, elem_of_map_to_list in H. simpl. eauto.
  - intros [r H]. exists (n, r). split; [reflexivity|]. apply elem_of_list_In, elem_of_map_to_list. assumption.
Qed.
Lemma latest_ub (d : disk) n : is_Some (d_log d !! n) -> n <= latest_step d.
Proof. intros H. apply foldr_max_ub. now apply in_log_keys. Qed.
Lemma latest_in (d : disk) : latest_step d = 0 \/ is_Some (d_log d !! latest_step d).
Proof.
  unfold latest_step. destruct (foldr_max_in (map fst (map_to_list (d_log d)))) as [H|H]; [auto|].
  right. now apply in_log_keys.
Qed.
Lemma latest_eq (d : disk) c : (forall n, is_Some (d_log d !! n) <-> 1 <= n <= c) -> latest_step d = c.
Proof.
  intros H. destruct (latest_in d) as [H0|H0].
  - destruct c as [|c]; [assumption|]. assert (is_Some (d_log d !! S c)) as Hs by (apply H; lia).
    apply latest_ub in Hs. lia.
  - apply H in H0. assert (is_Some (d_log d !! c)) as Hs by (apply H; lia). apply latest_ub in Hs. lia.
Qed.

(** *** disk contents after log writes *)
Lemma chk_log_writes : forall l name c (d : disk), d_chk (apply_writes d (log_writes name c l)) = d_chk d.
Proof.
  induction l as [|[v e] l IH]; intros name c d; simpl; [reflexivity|].
  unfold apply_writes in *. simpl. rewrite IH. reflexivity.
Qed.
Lemma log_log_writes : forall l name c (d : disk) n,
  d_log (apply_writes d (log_writes name c l)) !! n =
  (if decide (c < n <= c + length l) then
     match nth_error l (n - c - 1) with
     | Some (v, e) => Some {| l_trans := name; l_event := e; l_val := v; l_counter := n |}
     | None => None
     end
   else d_log d !! n).
Proof.
  induction l as [|[v e] l IH]; intros name c d n; cbn [log_writes length].
  - unfold apply_writes. simpl. rewrite decide_False by lia. reflexivity.
  - change (apply_writes d (?a :: ?b)) with (apply_writes (apply_write d a) b).
    unfold apply_writes. cbn [fold_left].
    change (fold_left (@apply_write V W E) ?b ?a) with (apply_writes a b).
    rewrite IH. cbn [apply_write d_log]. destruct (decide (n = S c)) as [->|Hn].
    + rewrite decide_False by lia. rewrite lookup_insert. rewrite decide_True by lia.
      replace (S c - c - 1) with 0 by lia. reflexivity.
    + rewrite lookup_insert_ne by congruence. destruct (decide (S c < n <= S c + length l)) as [H|H].
      * rewrite decide_True by lia. replace (n - c - 1) with (S (n - S c - 1)) by lia. reflexivity.
      * rewrite decide_False by lia. reflexivity.
Qed.

(** *** the invariant at transformation boundaries *)
Record at_boundary (done : list transf) (d : disk) (s : st) : Prop := {
  b_chk : forall n, is_Some (d_chk d !! n) <-> In n (map (@t_name V W) done);
  b_last : forall l t, done = l ++ [t] ->
             d_chk d !! t_name t = Some {| c_ptz := ptz (s_env s); c_prm := prm (s_env s) |};
  b_log : forall n, is_Some (d_log d !! n) <-> 1 <= n <= s_cnt s;
  b_rec : forall n r, d_log d !! n = Some r -> l_counter r = n /\ In (l_trans r) (map (@t_name V W) done);
  b_ptz : forall n, is_Some (ptz (s_env s) !! n) <-> In n (map (@t_param V W) done);
  b_prm : forall n, is_Some (prm (s_env s) !! n) -> In n (set_names done);
  b_nil : done = [] -> s_env s = s_env (@st0 V W)
}.
Lemma boundary0 : at_boundary [] (@empty_disk V W E) (@st0 V W).
Proof.
  constructor; simpl.
  - intros n. rewrite lookup_empty. split; [intros [? H]; discriminate|tauto].
  - intros l t H. destruct l; discriminate.
  - intros n. rewrite lookup_empty. split; [intros [? H]; discriminate|lia].
  - intros n r. rewrite lookup_empty. discriminate.
  - intros n. rewrite lookup_empty. split; [intros [? H]; discriminate|tauto].
  - intros n. rewrite lookup_empty. intros [? H]; discriminate.
  - reflexivity.
Qed.
Lemma reg_ptz_some (m : gmap nat V) n k : is_Some (reg_ptz vinit m n !! k) <-> k = n \/ is_Some (m !! k).
Proof.
  unfold reg_ptz. destruct (m !! n) eqn:Hn.
  - split; [auto|]. intros [->|H]; eauto.
  - rewrite lookup_insert_is_Some'. split; intros [->|H]; auto.
Qed.
Lemma reg_prm_some (m : gmap nat W) n k : is_Some (reg_prm winit m n !! k) <-> k = n \/ is_Some (m !! k).
Proof.
  unfold reg_prm. destruct (m !! n) eqn:Hn.
  - split; [auto|]. intros [->|H]; eauto.
  - rewrite lookup_insert_is_Some'. split; intros [->|H]; auto.
Qed.
Lemma reg_prms_some : forall l (m : gmap nat W) k, is_Some (fold_left (reg_prm winit) l m !! k) -> In k l \/ is_Some (m !! k).
Proof.
  induction l as [|n l IH]; intros m k; simpl; [auto|]. intros H. apply IH in H as [H|H]; [auto|].
  apply reg_prm_some in H as [->|H]; auto.
Qed.
Lemma set_params_some : forall l (e : env V W) k,
  (is_Some (prm (fold_left (set_param winit) l e) !! k) -> In k (map fst l) \/ is_Some (prm e !! k)) /\
  ptz (fold_left (set_param winit) l e) = ptz e.
Proof.
  induction l as [|[n f] l IH]; intros e k; cbn [fold_left map]; [auto|].
  destruct (IH (set_param winit e (n, f)) k) as [H1 H2]. split.
  - intros H. apply H1 in H as [H|H]; [simpl; auto|]. cbn [set_param prm fst snd] in H.
    apply lookup_insert_is_Some' in H as [<-|H]; [simpl; auto|]. apply reg_prm_some in H as [->|H]; simpl; auto.
  - rewrite H2. reflexivity.
Qed.
Lemma prepare_some t ev (e : env V W) :
  (forall k, is_Some (ptz (prepare t ev e) !! k) <-> k = t_param t \/ is_Some (ptz e !! k)) /\
  (forall k, is_Some (prm (prepare t ev e) !! k) -> In k (t_reach t) \/ In k (map fst (t_sets t)) \/ is_Some (prm e !! k)).
Proof.
  unfold Solver_Model.prepare, set_params.
  set (e1 := {| ptz := reg_ptz vinit (ptz e) (t_param t); prm := fold_left (reg_prm winit) (t_reach t) (prm e) |}).
  assert (H1 : forall k, is_Some (ptz e1 !! k) <-> k = t_param t \/ is_Some (ptz e !! k)) by (intros; apply reg_ptz_some).
  assert (H2 : forall k, is_Some (prm e1 !! k) -> In k (t_reach t) \/ is_Some (prm e !! k)) by (intros k; apply reg_prms_some).
  assert (H3 : forall k, is_Some (ptz (fold_left (set_param winit) (t_sets t) e1) !! k) <-> k = t_param t \/ is_Some (ptz e !! k)).
  { intros k. rewrite (proj2 (set_params_some (t_sets t) e1 0)). apply H1. }
  assert (H4 : forall k, is_Some (prm (fold_left (set_param winit) (t_sets t) e1) !! k) ->
             In k (t_reach t) \/ In k (map fst (t_sets t)) \/ is_Some (prm e !! k)).
  { intros k H. apply (set_params_some (t_sets t) e1 k) in H as [H|H]; [auto|]. apply H2 in H as [H|H]; auto. }
  destruct ev as [x|]; [destruct (truthy x)|]; split; auto.
  intros k H. apply H2 in H as [H|H]; auto.
Qed.

Lemma run_from_app : forall a b ev s, a <> [] ->
  run_from (a ++ b) ev s = (fst (run_from a ev s) ++ fst (run_from b None (snd (run_from a ev s))),
                            snd (run_from b None (snd (run_from a ev s)))).
Proof.
  induction a as [|t a IH]; intros b ev s H; [congruence|]. cbn [Solver_Model.run_from app].
  destruct a as [|t' a].
  - cbn [Solver_Model.run_from app fst snd]. now rewrite app_nil_r.
  - rewrite IH by discriminate. cbn [fst snd]. now rewrite app_assoc.
Qed.
Lemma run_from_app0 a b s :
  run_from (a ++ b) None s = (fst (run_from a None s) ++ fst (run_from b None (snd (run_from a None s))),
                            snd (run_from b None (snd (run_from a None s)))).
Proof.
  destruct a as [|t a]; [|apply run_from_app; discriminate]. cbn [app Solver_Model.run_from fst snd].
  now destruct (run_from b None s).
Qed.

Lemma set_names_app a b : set_names (a ++ b) = set_names (V:=V) (W:=W) a ++ set_names b.
Proof. unfold set_names. apply flat_map_app. Qed.

(** one more transformation *)
Lemma boundary_step done d s t : at_boundary done d s -> ~ In (t_name t) (map (@t_name V W) done) ->
  (forall n, In n (t_reach t) -> In n (set_names (done ++ [t]))) ->
  at_boundary (done ++ [t]) (apply_writes d (fst (run_transf t None s))) (snd (run_transf t None s)).
Proof.
  intros [bc bl bg br bz bp bn] Hname Hreach. unfold Solver_Model.run_transf.
  pose proof (prepare_some t None (s_env s)) as [P1 P2].
  destruct (sem t (prepare t None (s_env s)) None) as [ls v] eqn:Es. cbn [fst snd s_env s_cnt ptz prm].
  rewrite apply_writes_app. set (d1 := apply_writes d (log_writes (t_name t) (s_cnt s) ls)).
  assert (Hc1 : d_chk d1 = d_chk d) by apply chk_log_writes.
  unfold apply_writes. cbn [fold_left apply_write].
  constructor; cbn [d_chk d_log s_env s_cnt ptz prm].
  - intros n. rewrite Hc1, lookup_insert_is_Some', bc, map_app, in_app_iff. simpl. intuition.
  - intros l t' Hl. apply app_inj_tail in Hl as [<- <-]. now rewrite lookup_insert.
  - intros n. unfold d1. rewrite log_log_writes. destruct (decide (s_cnt s < n <= s_cnt s + length ls)) as [H|H].
    + destruct (nth_error ls (n - s_cnt s - 1)) as [[v' e']|] eqn:En.
      * split; [lia|eauto].
      * apply nth_error_None in En. lia.
    + rewrite bg. lia.
  - intros n r. unfold d1. rewrite log_log_writes, map_app, in_app_iff. simpl.
    destruct (decide (s_cnt s < n <= s_cnt s + length ls)) as [H|H].
    + destruct (nth_error ls (n - s_cnt s - 1)) as [[v' e']|] eqn:En; [|discriminate].
      intros Hr. injection Hr as <-. simpl. auto.
    + intros Hr. apply br in Hr as [H1 H2]. auto.
  - intros n. rewrite lookup_insert_is_Some', P1, bz, map_app, in_app_iff. simpl. intuition.
  - intros n H. rewrite set_names_app, in_app_iff. apply P2 in H as [H|[H|H]].
    + apply Hreach in H. now rewrite set_names_app, in_app_iff in H.
    + right. unfold set_names. simpl. now rewrite app_nil_r.
    + left. auto.
  - intros H. destruct done; discriminate.
Qed.
Lemma boundary_run : forall todo done d s, at_boundary done d s ->
  unique_names (done ++ todo) -> parameters_listed (done ++ todo) ->
  at_boundary (done ++ todo) (apply_writes d (fst (run_from todo None s))) (snd (run_from todo None s)).
Proof.
  induction todo as [|t todo IH]; intros done d s Hb Hu Hp.
  - rewrite app_nil_r. exact Hb.
  - cbn [Solver_Model.run_from fst snd]. rewrite apply_writes_app.
    replace (done ++ t :: todo) with ((done ++ [t]) ++ todo) in * by (now rewrite <- app_assoc).
    apply IH; [|assumption|assumption]. apply boundary_step; [assumption| |].
    + unfold unique_names in Hu. rewrite !map_app in Hu. simpl in Hu. rewrite <- app_assoc in Hu.
      apply NoDup_remove_2 in Hu. intros H. apply Hu. rewrite in_app_iff. auto.
    + intros n Hn. eapply Hp; [|exact Hn]. rewrite <- app_assoc. reflexivity.
Qed.
Lemma unique_names_app (a b : list transf) : unique_names (a ++ b) -> unique_names a.
Proof. unfold unique_names. rewrite map_app. intros H. apply NoDup_ListNoDup in H. apply NoDup_ListNoDup. now apply NoDup_app in H as (H & _ & _). Qed.
Lemma parameters_listed_app (a b : list transf) : parameters_listed (a ++ b) -> parameters_listed a.
Proof. intros H l t r n -> Hn. eapply H; [|exact Hn]. rewrite <- app_assoc. reflexivity. Qed.

Lemma rev_case {A} (l : list A) : l = [] \/ exists m x, l = m ++ [x].
Proof. destruct l as [|a l] using rev_ind; eauto. Qed.
(** *** restoring *)
Lemma find_index_none : forall ts (d : disk) i idx, (forall t, In t ts -> d_chk d !! t_name t = None) ->
  find_index ts d i idx = idx.
Proof.
  induction ts as [|t ts IH]; intros d i idx H; cbn [find_index]; [reflexivity|].
  rewrite H by now left. apply IH. intros; apply H. now right.
Qed.
Lemma find_index_done : forall done rest (d : disk) i idx, (forall t, In t done -> is_Some (d_chk d !! t_name t)) ->
  (forall t, In t rest -> d_chk d !! t_name t = None) ->
  find_index (done ++ rest) d i idx = match done with [] => idx | _ => i + length done end.
Proof.
  induction done as [|t done IH]; intros rest d i idx H H'; cbn [app find_index].
  - now apply find_index_none.
  - destruct (H t (or_introl eq_refl)) as [c Hc]. rewrite Hc. rewrite IH; [|intros; apply H; now right|assumption].
    destruct done; simpl; lia.
Qed.
Lemma restore_ptz_spec : forall ts (c : chk V W) m, (forall t, In t ts -> is_Some (c_ptz c !! t_param t)) ->
  exists m', restore_ptz ts c m = Ok m' /\
    forall n, m' !! n = if memb n (map (@t_param V W) ts) then c_ptz c !! n else m !! n.
Proof.
  induction ts as [|t ts IH]; intros c m H; cbn [restore_ptz].
  - exists m. split; [reflexivity|]. intros n. simpl. reflexivity.
  - destruct (H t (or_introl eq_refl)) as [v Hv]. rewrite Hv.
    destruct (IH c (<[t_param t:=v]> m)) as (m' & E' & Hm'); [intros; apply H; now right|].
    exists m'. split; [assumption|]. intros n. rewrite Hm'. unfold memb. cbn [map existsb].
    fold (memb n (map (@t_param V W) ts)).
    destruct (memb n (map (@t_param V W) ts)) eqn:Hi; [now rewrite orb_true_r|]. rewrite orb_false_r.
    destruct (Nat.eqb n (t_param t)) eqn:Hn.
    + apply Nat.eqb_eq in Hn as ->. now rewrite lookup_insert.
    + apply Nat.eqb_neq in Hn. rewrite lookup_insert_ne by congruence. reflexivity.
Qed.
Lemma restore_env done rest (d : disk) s : at_boundary done d s -> unique_names (done ++ rest) ->
  find_index (done ++ rest) d 0 0 = length done /\
  (match length done with
        | 0 => Ok (s_env (@st0 V W))
        | S j =>
            match nth_error (done ++ rest) j with
            | None => Err IndexError
            | Some t =>
                match d_chk d !! t_name t with
                | None => Err KeyError
                | Some c => bind (restore_ptz (firstn (length done) (done ++ rest)) c ∅) (fun m =>
                            bind (restore_prm (firstn (length done) (done ++ rest)) c) (fun p => Ok {| ptz := m; prm := p |}))
                end
            end
        end) = Ok (s_env s).
Proof.
  intros [bc bl bg br bz bp bn] Hu. split.
  - rewrite find_index_done.
    + destruct done; reflexivity.
    + intros t Ht. apply bc. now apply in_map.
    + intros t Ht. destruct (d_chk d !! t_name t) eqn:Ec; [|reflexivity].
      assert (In (t_name t) (map (@t_name V W) done)) as Hin by (apply bc; eauto).
      unfold unique_names in Hu. rewrite map_app in Hu. exfalso.
      apply in_map_iff in Hin as (t' & En & Ht').
      clear - Hu Ht Ht' En. induction done as [|a done IH]; [destruct Ht'|].
      simpl in Hu. inversion Hu as [|x l Hno Hnd]; subst. destruct Ht' as [->|Ht']; [|now apply IH].
      apply Hno. rewrite in_app_iff. right. rewrite En. now apply in_map.
  - destruct (rev_case done) as [->|(l & t & ->)].
    + simpl. now rewrite bn.
    + rewrite app_length. simpl. rewrite Nat.add_comm. simpl.
      rewrite <- app_assoc. rewrite nth_error_app2, Nat.sub_diag by lia. cbn [app nth_error].
      rewrite (bl l t eq_refl).
      replace (firstn (S (length l)) (l ++ t :: rest)) with (l ++ [t]).
      2:{ replace (l ++ t :: rest) with ((l ++ [t]) ++ rest) by (now rewrite <- app_assoc).
          rewrite firstn_app, app_length. simpl. replace (S (length l) - (length l + 1)) with 0 by lia.
          rewrite firstn_all2 by (rewrite app_length; simpl; lia). now rewrite app_nil_r. }
      set (c := {| c_ptz := ptz (s_env s); c_prm := prm (s_env s) |}).
      destruct (@restore_ptz_spec (l ++ [t]) c ∅) as (m' & Em & Hm).
      { intros t' Ht'. simpl. apply bz. now apply in_map. }
      rewrite Em. cbn [bind].
      assert (m' = ptz (s_env s)) as ->.
      { apply map_eq. intros n. rewrite Hm. destruct (memb n (map (@t_param V W) (l ++ [t]))) eqn:Hi; [reflexivity|].
        apply memb_false in Hi. rewrite lookup_empty. symmetry. apply eq_None_not_Some. rewrite bz. assumption. }
      unfold restore_prm.
      replace (forallb _ _) with true.
      2:{ symmetry. apply forallb_forall. intros [n w] Hn. apply memb_In. apply bp. simpl.
          apply elem_of_list_In, elem_of_map_to_list in Hn. simpl in Hn. eauto. }
      cbn [bind]. unfold c. simpl. destruct (s_env s). reflexivity.
Qed.
End Solver.
