(** The cache of simulation spaces; materials. *)
From Verif Require Import QTac Select_Model Select_Spec Select_Proofs Select_Props Space_Model Space_Spec Space_Proofs.
From Coq Require Import ZArith Qabs Qround Qpower.
Set Implicit Arguments.
Open Scope Q_scope.

Lemma round_sig_red lg w k : round_sig lg w = Ok k -> Qred k = k.
Proof.
  unfold round_sig. destruct (lg w) as [e|]; [|discriminate]. intros [= <-]. unfold round_digits. apply Qred_complete, Qred_correct.
Qed.
Section S.
Variables (lg : Q -> option Z) (grid_bg grid_fg : Q -> res field) (nx ny nz : nat) (sel : seltype).
Notation make := (make grid_bg grid_fg nx ny nz sel).
Notation call := (call lg grid_bg grid_fg nx ny nz sel).
Notation calls := (calls lg grid_bg grid_fg nx ny nz sel).
Notation create := (create lg grid_bg grid_fg nx ny nz sel).
Notation fresh := (fresh lg grid_bg grid_fg nx ny nz sel).
Notation has_space := (has_space lg grid_bg grid_fg nx ny nz sel).
Definition good (s : space) : Prop := forall k i, In (k, i) (cache s) -> Qred k = k /\ exists d, make k = Ok (i, d).
Lemma cached_some l k i : cached l k = Some i -> exists k', In (k', i) l /\ k == k'.
Proof.
  induction l as [|[k' i'] l IH]; cbn; [discriminate|]. destruct (Qeq_bool k k') eqn:E.
  - intros [= <-]. exists k'. split; [now left|now apply Qeq_bool_iff].
  - intros H. destruct (IH H) as (k2 & A & B). eauto.
Qed.
Lemma good_call s w : good s -> fst (call s w) = fresh w /\ good (snd (call s w)).
Proof.
  intros G. unfold Space_Model.call, Space_Spec.fresh. destruct (round_sig lg w) as [k|e] eqn:R; cbn [bind]; [|auto].
  destruct (cached (cache s) k) as [i|] eqn:C.
  - destruct (cached_some _ _ C) as (k' & Hin & E). destruct (G _ _ Hin) as (Rk & d & M).
    apply Qred_complete in E. rewrite (round_sig_red _ _ R), Rk in E. subst k'. cbn. rewrite M. auto.
  - destruct (make k) as [[i d]|e] eqn:M; cbn; [|auto]. split; [reflexivity|]. intros k' i' [[= <- <-]|H]; [|now apply G].
    split; [exact (round_sig_red _ _ R)|eauto].
Qed.
Lemma good_calls ws s : good s -> good (calls s ws).
Proof. revert s. induction ws as [|w ws IH]; intros s G; cbn; [exact G|]. apply IH, good_call, G. Qed.
Lemma calls_app ws ws' s : calls s (ws ++ ws') = calls (calls s ws) ws'.
Proof. apply fold_left_app. Qed.
Lemma create_is s : create true = Ok s -> s = snd (call (Space [] None) 1500) /\ exists i, fst (call (Space [] None) 1500) = Ok i.
Proof. unfold Space_Model.create. cbn [negb]. destruct (call (Space [] None) 1500) as [[i|e] s'] eqn:E; [|discriminate]. intros [= <-]. cbn. eauto. Qed.
Lemma empty_good : good (Space [] None).
Proof. intros k i []. Qed.
Lemma space_good ws s : has_space ws s -> good s /\ s = calls (Space [] None) (1500 :: ws).
Proof.
  intros (s0 & C & ->). destruct (create_is C) as (-> & _). split; [|reflexivity]. apply good_calls, good_call, empty_good.
Qed.
Lemma transparent ws s w : has_space ws s -> fst (call s w) = fresh w.
Proof. intros H. apply good_call. exact (proj1 (space_good H)). Qed.
(** the constructor *)
Lemma create_outcome u : create u = Err ValueError /\ u = false \/ u = true /\
  match fresh 1500 with Ok _ => exists s, create u = Ok s | Err e => create u = Err e end.
Proof.
  destruct u; [right|left; auto]. split; [reflexivity|]. destruct (good_call 1500 empty_good) as [E _]. rewrite <- E.
  unfold Space_Model.create. cbn [negb]. destruct (call (Space [] None) 1500) as [[i|e] s']; cbn; eauto.
Qed.
(** dimensions *)
Definition seen (ws : list Q) (s : space) : Prop :=
  (forall w k i d, In w ws -> round_sig lg w = Ok k -> make k = Ok (i, d) -> exists k' i', In (k', i') (cache s) /\ k' = k) /\
  (forall k i, In (k, i) (cache s) -> exists w d, In w ws /\ round_sig lg w = Ok k /\ make k = Ok (i, d)) /\
  match design_dims s with
  | None => cache s = []
  | Some d => exists w k i, In w ws /\ round_sig lg w = Ok k /\ make k = Ok (i, d)
  end.
Lemma cached_in l k i : In (k, i) l -> exists i', cached l k = Some i'.
Proof.
  induction l as [|[k' i'] l IH]; [intros []|]. intros [H|H]; cbn.
  - injection H as -> ->. rewrite Qeq_bool_refl. eauto.
  - destruct (Qeq_bool k k'); eauto.
Qed.
Lemma seen_call ws s w : seen ws s -> seen (ws ++ [w]) (snd (call s w)).
Proof.
  intros (A & B & D).
  assert (Bw : forall k i, In (k, i) (cache s) -> exists w0 d, In w0 (ws ++ [w]) /\ round_sig lg w0 = Ok k /\ make k = Ok (i, d)).
  { intros k i H. destruct (B k i H) as (w0 & d & H1 & H2). exists w0, d. split; [apply in_app_iff; auto|exact H2]. }
  assert (Dw : match design_dims s with None => cache s = [] | Some d => exists w0 k i, In w0 (ws ++ [w]) /\ round_sig lg w0 = Ok k /\ make k = Ok (i, d) end).
  { destruct (design_dims s) as [d|]; [|exact D]. destruct D as (w0 & k & i & H1 & H2). exists w0, k, i. split; [apply in_app_iff; auto|exact H2]. }
  unfold Space_Model.call. destruct (round_sig lg w) as [k|e] eqn:R.
  2:{ split; [|split; assumption]. cbn. intros w0 k i d H Hr Hm. apply in_app_iff in H as [H|[<-|[]]]; [eauto|congruence]. }
  destruct (cached (cache s) k) as [i|] eqn:C.
  - split; [|split; assumption]. cbn. intros w0 k0 i0 d H Hr Hm. apply in_app_iff in H as [H|[<-|[]]]; [eauto|].
    rewrite R in Hr. injection Hr as <-. destruct (cached_some _ _ C) as (k' & Hin & E). exists k', i. split; [exact Hin|].
    destruct (B _ _ Hin) as (w1 & d1 & _ & R1 & _). apply Qred_complete in E. rewrite (round_sig_red _ _ R), (round_sig_red _ _ R1) in E. congruence.
  - destruct (make k) as [[i d]|e] eqn:M; cbn.
    + split; [|split].
      * intros w0 k0 i0 d0 H Hr Hm. apply in_app_iff in H as [H|[<-|[]]].
        -- destruct (A w0 k0 i0 d0 H Hr Hm) as (k' & i' & H1 & H2). exists k', i'. split; [now right|exact H2].
        -- rewrite R in Hr. injection Hr as <-. exists k, i. split; [now left|reflexivity].
      * intros k0 i0 [[= <- <-]|H]; [|now apply Bw]. exists w, d. split; [apply in_app_iff; right; now left|auto].
      * exists w, k, i. split; [apply in_app_iff; right; now left|auto].
    + split; [|split; assumption]. intros w0 k0 i0 d0 H Hr Hm. apply in_app_iff in H as [H|[<-|[]]]; [eauto|congruence].
Qed.
Lemma seen_calls ws s w0 : seen w0 s -> seen (w0 ++ ws) (calls s ws).
Proof.
  revert s w0. induction ws as [|w ws IH]; intros s w0 H; [now rewrite app_nil_r|].
  change (w :: ws) with ([w] ++ ws). rewrite app_assoc. cbn. apply IH, seen_call, H.
Qed.
Lemma space_seen ws s : has_space ws s -> seen (1500 :: ws) s.
Proof.
  intros H. destruct (space_good H) as (_ & ->). apply (@seen_calls (1500 :: ws) (Space [] None) []).
  split; [intros w k i d []|]. split; [intros k i []|reflexivity].
Qed.
Lemma dims_some ws s : has_space ws s -> exists w k i d, In w (1500 :: ws) /\ round_sig lg w = Ok k /\ make k = Ok (i, d) /\ design_dims s = Some d.
Proof.
  intros H. assert (S := space_seen H). destruct H as (s0 & C & E). destruct S as (A & _ & D). destruct (design_dims s) as [d|] eqn:Es.
  - destruct D as (w & k & i & H1 & H2 & H3). exists w, k, i, d. auto.
  - exfalso. destruct (create_outcome true) as [[X _]|[_ X]]; [congruence|]. unfold Space_Spec.fresh in X.
    destruct (round_sig lg 1500) as [k|e] eqn:R; cbn [bind] in X; [|congruence]. destruct (make k) as [[i d]|e] eqn:M; cbn [bind] in X; [|congruence].
    destruct (A 1500 k i d (or_introl eq_refl) R M) as (k' & i' & Hin & _). rewrite D in Hin. destruct Hin.
Qed.
Lemma dims_new ws s w k i d : has_space ws s -> round_sig lg w = Ok k -> make k = Ok (i, d) ->
  (forall w', In w' (1500 :: ws) -> round_sig lg w' <> Ok k) -> design_dims (snd (call s w)) = Some d.
Proof.
  intros H R M N. destruct (space_seen H) as (_ & B & _). unfold Space_Model.call. rewrite R.
  destruct (cached (cache s) k) as [i'|] eqn:C.
  - exfalso. destruct (cached_some _ _ C) as (k' & Hin & E). destruct (B _ _ Hin) as (w1 & d1 & Hw & R1 & _). apply (N w1 Hw).
    apply Qred_complete in E. rewrite (round_sig_red _ _ R), (round_sig_red _ _ R1) in E. congruence.
  - rewrite M. reflexivity.
Qed.
Lemma call_again ws s w w' k : has_space ws s -> round_sig lg w = Ok k -> In w' (1500 :: ws) -> round_sig lg w' = Ok k -> snd (call s w) = s.
Proof.
  intros H R Hw Rw. destruct (space_seen H) as (A & _ & _). unfold Space_Model.call. rewrite R.
  destruct (cached (cache s) k) as [i'|] eqn:C; [reflexivity|]. destruct (make k) as [[i d]|e] eqn:M; [|reflexivity].
  destruct (A w' k i d Hw Rw M) as (k' & i' & Hin & ->). destruct (cached_in _ _ _ Hin) as (i2 & E). congruence.
Qed.
(** foreground and background *)
Lemma fg_bg ws s w k bg fg i d : has_space ws s -> round_sig lg w = Ok k -> grid_bg k = Ok bg -> grid_fg k = Ok fg -> make k = Ok (i, d) ->
  i_bg i = bg /\ fst (get_fg_and_bg lg grid_bg grid_fg nx ny nz sel s w) = Ok (fun n => vec nx ny nz bg n + apply (i_sel i) (i_cols i) (fun _ => 1) n, vec nx ny nz bg).
Proof.
  intros H R Hb Hf M. assert (T := transparent w H). unfold Space_Spec.fresh in T. rewrite R in T. cbn [bind] in T. rewrite M in T. cbn in T.
  assert (Eb : i_bg i = bg).
  { unfold Space_Model.make in M. rewrite Hb, Hf in M. cbn [bind] in M. destruct sel; try discriminate.
    - destruct (selection_matrix nx ny nz bg fg) as [[s1 d1]|]; cbn in M; [|discriminate]. injection M as <- _. reflexivity.
    - injection M as <- _. reflexivity.
    - destruct (reduced_matrix nx ny nz bg fg) as [[s1 d1]|]; cbn in M; [|discriminate]. injection M as <- _. reflexivity. }
  split; [exact Eb|]. unfold get_fg_and_bg. destruct (call s w) as [r s']. cbn in T. subst r. cbn [bind fst]. rewrite Eb. reflexivity.
Qed.
End S.
Lemma cell_bound nx ny nz comp a b z : (comp < 3)%nat -> (a < nx)%nat -> (b < ny)%nat -> (z < nz)%nat -> (cell nx ny nz comp a b z < 3 * (nx * ny * nz))%nat.
Proof.
  intros H Ha Hb Hz. unfold cell. assert (((z * ny + b) * nx + a < nx * ny * nz)%nat); [|nia].
  assert ((z * ny + b < nz * ny)%nat) by nia. nia.
Qed.
Section F.
Variables (lg : Q -> option Z) (grid_bg grid_fg : Q -> res field) (nx ny nz : nat).
Lemma full_direct ws s w k bg fg : has_space lg grid_bg grid_fg nx ny nz FullDirect ws s -> round_sig lg w = Ok k -> grid_bg k = Ok bg -> grid_fg k = Ok fg ->
  exists f b, fst (get_fg_and_bg lg grid_bg grid_fg nx ny nz FullDirect s w) = Ok (f, b) /\
    forall comp i j l, (comp < 3)%nat -> (i < nx)%nat -> (j < ny)%nat -> (l < nz)%nat ->
      f (cell nx ny nz comp i j l) == fg comp i j l /\ b (cell nx ny nz comp i j l) == bg comp i j l.
Proof.
  intros H R Hb Hf. eexists _, _. split.
  - eapply fg_bg; [exact H|exact R|exact Hb|exact Hf|]. unfold make. rewrite Hb, Hf. reflexivity.
  - intros comp i j l Hc Hi Hj Hl. rewrite (vec_cell bg) by assumption. split; [|reflexivity]. cbn [i_sel i_cols]. unfold apply.
    rewrite (@sumn_single _ (cell nx ny nz comp i j l)).
    + rewrite Nat.eqb_refl, !vec_cell by assumption. ring.
    + now apply cell_bound.
    + intros c _ Hne. destruct (Nat.eqb_spec (cell nx ny nz comp i j l) c); [congruence|ring].
Qed.
Lemma direct_fg ws s w k bg fg sm dm : has_space lg grid_bg grid_fg nx ny nz Direct ws s -> round_sig lg w = Ok k -> grid_bg k = Ok bg -> grid_fg k = Ok fg ->
  selection_matrix nx ny nz bg fg = Ok (sm, dm) ->
  exists f b, fst (get_fg_and_bg lg grid_bg grid_fg nx ny nz Direct s w) = Ok (f, b) /\
    forall comp i j l, (i < nx)%nat -> (j < ny)%nat -> (l < nz)%nat ->
      b (cell nx ny nz comp i j l) == bg comp i j l /\
      (fg comp i j l == bg comp i j l \/ (exists p q, (p < 2)%nat /\ (q < 2)%nat /\ differs nx ny nz bg fg (fst (quadrant nx ny comp i j p q)) (snd (quadrant nx ny comp i j p q))) ->
       f (cell nx ny nz comp i j l) == fg comp i j l).
Proof.
  intros H R Hb Hf S. eexists _, _. split.
  - eapply fg_bg; [exact H|exact R|exact Hb|exact Hf|]. unfold make. rewrite Hb, Hf. cbn [bind]. rewrite S. destruct dm. reflexivity.
  - intros comp i j l Hi Hj Hl. rewrite !(vec_cell bg) by assumption. split; [reflexivity|]. intros D.
    exact (@selection_reaches_foreground nx ny nz bg fg sm dm S comp i j l Hi Hj Hl D).
Qed.
Lemma reduced_fg ws s w k bg fg sm dm x0 y0 x1 y1 : has_space lg grid_bg grid_fg nx ny nz Reduced ws s -> round_sig lg w = Ok k -> grid_bg k = Ok bg -> grid_fg k = Ok fg ->
  reduced_matrix nx ny nz bg fg = Ok (sm, dm) -> design_bounds_yee nx ny nz bg fg = Ok (x0, y0, x1, y1) ->
  exists f b, fst (get_fg_and_bg lg grid_bg grid_fg nx ny nz Reduced s w) = Ok (f, b) /\
    forall comp i j l, (comp < 3)%nat -> (i < nx)%nat -> (j < ny)%nat -> (l < nz)%nat ->
      b (cell nx ny nz comp i j l) == bg comp i j l /\
      ((x0 <= i <= x1 /\ y0 <= j <= y1)%nat -> f (cell nx ny nz comp i j l) == fg comp i j l) /\
      Select_Model.qabs (f (cell nx ny nz comp i j l) - fg comp i j l) <= 1 # 1000000.
Proof.
  intros H R Hb Hf S B. eexists _, _. split.
  - eapply fg_bg; [exact H|exact R|exact Hb|exact Hf|]. unfold make. rewrite Hb, Hf. cbn [bind]. rewrite S. destruct dm. reflexivity.
  - intros comp i j l Hc Hi Hj Hl. destruct (@reduced_reaches_foreground nx ny nz bg fg sm dm x0 y0 x1 y1 S B comp i j l Hc Hi Hj Hl) as [X Y]. rewrite !(vec_cell bg) by assumption. split; [reflexivity|].
    split; [exact X|exact Y].
Qed.
Lemma full_direct_dims ws s : has_space lg grid_bg grid_fg nx ny nz FullDirect ws s -> design_dims s = Some (Dims4 3 nx ny nz).
Proof.
  intros H. destruct (dims_some H) as (w & k & i & d & _ & _ & M & E). rewrite E. unfold make in M.
  destruct (grid_bg k); cbn in M; [|discriminate]. destruct (grid_fg k); cbn in M; [|discriminate]. congruence.
Qed.
End F.
(** *** materials *)
Lemma csq_eq n m n' m' : 0 < n -> 0 < n' -> (ceq (csq (n, m)) (csq (n', m')) <-> n == n' /\ m == m').
Proof.
  intros Hn Hn'. unfold ceq, csq. cbn. split; [|intros [-> ->]; split; ring]. intros [A B].
  assert (C : n * m == n' * m') by lra.
  assert (X : (n + n') * (n - n') * (n * n + m' * m') == 0).
  { assert (Y : n * n * (n * n - n' * n') == n' * n' * m' * m' - n * n * m' * m').
    { assert (Z1 : n * n * m * m == n' * n' * m' * m') by (transitivity ((n * m) * (n * m)); [ring|]; rewrite C; ring).
      assert (Z2 : n * n * (n * n - m * m) == n * n * (n' * n' - m' * m')) by (rewrite A; reflexivity).
      transitivity (n * n * (n * n - m * m) + n * n * m * m - n * n * (n' * n')); [ring|]. rewrite Z1, Z2. ring. }
    transitivity (n * n * (n * n - n' * n') + m' * m' * (n * n - n' * n')); [ring|]. rewrite Y. ring. }
  assert (E : n == n').
  { apply Qmult_integral in X as [X|X]; [|nra]. apply Qmult_integral in X as [X|X]; lra. }
  split; [exact E|]. rewrite E in C. apply (Qmult_inj_l _ _ n'); [lra|exact C].
Qed.
Section Mt.
Variables (table : mname -> Q -> Q * Q) (pchip : list Q -> list Q -> Q -> Q) (read : nat -> option csv).
Lemma mat_error m w : (exists e, drawn_eps table pchip read m w = Err e) <->
  mat_index m = None /\ (mat_name m = Some NOther \/ mat_name m = None /\
    forall f d, mat_file m = Some f -> read f = Some d -> col_wl d = None \/ col_n d = None).
Proof.
  unfold drawn_eps, get_mat_index. destruct (mat_index m) as [z|]; cbn [bind]; [split; [intros (e & H); discriminate|intros [H _]; discriminate]|].
  destruct (mat_name m) as [name|]; cbn [bind].
  { destruct name; cbn [bind]; (split; [intros (e & H); first [discriminate|auto]|intros [_ [H|[H _]]]; first [discriminate|eauto]]). }
  destruct (mat_file m) as [f|]; cbn [bind]; [|split; [intros _; split; [auto|right; split; [auto|intros f d H; discriminate]]|eauto]].
  destruct (read f) as [d|] eqn:R; cbn [bind]; [|split; [intros _; split; [auto|right; split; [auto|intros f' d [= <-] R'; congruence]]|eauto]].
  destruct (col_wl d) as [wl|] eqn:W; [destruct (col_n d) as [n|] eqn:N|]; cbn [bind].
  - split; [intros (e & H); discriminate|]. intros [_ [H|[_ H]]]; [discriminate|]. destruct (H f d eq_refl R); congruence.
  - split; [intros _; split; [auto|right; split; [auto|intros f' d' [= <-] R'; right; congruence]]|eauto].
  - split; [intros _; split; [auto|right; split; [auto|intros f' d' [= <-] R'; left; congruence]]|eauto].
Qed.
Lemma mat_error_kind m w e : drawn_eps table pchip read m w = Err e -> e = ValueError.
Proof.
  unfold drawn_eps, get_mat_index. destruct (mat_index m); cbn [bind]; [discriminate|].
  destruct (mat_name m) as [[]|]; cbn [bind]; try discriminate; [now intros [= <-]|].
  destruct (mat_file m) as [f|]; cbn [bind]; [|now intros [= <-]]. destruct (read f) as [d|]; cbn [bind]; [|now intros [= <-]].
  destruct (col_wl d); [destruct (col_n d)|]; cbn [bind]; now intros [= <-].
Qed.
Lemma named_eps m w name eps : mat_index m = None -> mat_name m = Some name -> drawn_eps table pchip read m w = Ok eps ->
  snd eps == 0 /\ fst eps == fst (refractive_index table name w) * fst (refractive_index table name w) /\ (0 < fst (refractive_index table name w) -> (ceq eps (mat_eps (refractive_index table name w)) <-> snd (refractive_index table name w) == 0)).
Proof.
  intros Hi Hn. unfold drawn_eps, get_mat_index. rewrite Hi, Hn. intros E.
  assert (X : eps = csq (fst (refractive_index table name w), 0)). { destruct name; cbn [bind] in E; congruence. }
  rewrite X. split; [cbn; ring|]. split; [cbn; ring|]. intros P. unfold mat_eps. rewrite (csq_eq 0 (- snd (refractive_index table name w)) P P). split; [intros [_ H]; lra|intros H; split; [reflexivity|lra]].
Qed.
Lemma qn_thousand wl i : (i < length wl)%nat -> qn (map (Qmult 1000) wl) i == 1000 * qn wl i.
Proof. intros H. unfold qn. rewrite (nth_indep (map (Qmult 1000) wl) 0 (1000 * 0)) by (rewrite map_length; lia). now rewrite map_nth. Qed.
Lemma map_incr wl : increasing wl -> increasing (map (Qmult 1000) wl).
Proof.
  intros H i j. rewrite map_length. intros Hi. assert (L := H i j Hi). rewrite !qn_thousand by lia. lra.
Qed.
Lemma file_eps m w f d wl n k i : interpolates pchip -> mat_index m = None -> mat_name m = None -> mat_file m = Some f -> read f = Some d ->
  col_wl d = Some wl -> col_n d = Some n -> col_k d = Some k -> increasing wl -> length n = length wl -> length k = length wl ->
  (i < length wl)%nat -> w == 1000 * qn wl i ->
  exists eps, drawn_eps table pchip read m w = Ok eps /\ ceq eps (mat_eps (qn n i, qn k i)).
Proof.
  intros Hp Hi Hn Hf Hr Hw Hcn Hck Inc Ln Lk Hlt E. unfold drawn_eps, get_mat_index. rewrite Hi, Hn, Hf, Hr, Hw, Hcn, Hck. cbn.
  assert (Eq : w == qn (map (Qmult 1000) wl) i).
  { unfold qn. rewrite (nth_indep (map (Qmult 1000) wl) 0 (1000 * 0)) by (rewrite map_length; lia). rewrite map_nth. exact E. }
  assert (E1 := Hp _ n i w (map_incr Inc)). assert (E2 := Hp _ k i w (map_incr Inc)). rewrite map_length in E1, E2.
  eexists. split; [reflexivity|]. unfold ceq, mat_eps, csq. cbn. rewrite (E1 Ln Hlt Eq), (E2 Lk Hlt Eq). split; ring.
Qed.
Lemma file_no_k m w f d wl n i : interpolates pchip -> mat_index m = None -> mat_name m = None -> mat_file m = Some f -> read f = Some d ->
  col_wl d = Some wl -> col_n d = Some n -> col_k d = None -> increasing wl -> length n = length wl ->
  (i < length wl)%nat -> w == 1000 * qn wl i ->
  exists eps, drawn_eps table pchip read m w = Ok eps /\ ceq eps (qn n i * qn n i, 0).
Proof.
  intros Hp Hi Hn Hf Hr Hw Hcn Hck Inc Ln Hlt E. unfold drawn_eps, get_mat_index. rewrite Hi, Hn, Hf, Hr, Hw, Hcn, Hck. cbn.
  assert (Eq : w == qn (map (Qmult 1000) wl) i).
  { unfold qn. rewrite (nth_indep (map (Qmult 1000) wl) 0 (1000 * 0)) by (rewrite map_length; lia). rewrite map_nth. exact E. }
  assert (E1 := Hp _ n i w (map_incr Inc)). assert (E2 := Hp _ (map (fun _ => 0) wl) i w (map_incr Inc)). rewrite map_length in E1. rewrite !map_length in E2.
  assert (Z : qn (map (fun _ : Q => 0) wl) i == 0).
  { exact (Qeq_sym _ _ (eq_ind_r (fun q => 0 == q) (Qeq_refl 0) (map_nth (fun _ => 0) wl 0 i))). }
  eexists. split; [reflexivity|]. unfold ceq, csq. cbn. rewrite (E1 Ln Hlt Eq), (E2 eq_refl Hlt Eq), Z. split; ring.
Qed.
Lemma index_wins m w z : mat_index m = Some z -> forall w', drawn_eps table pchip read m w = Ok (csq z) /\ drawn_eps table pchip read m w' = drawn_eps table pchip read m w /\ goos_eps (Some m) w = drawn_eps table pchip read m w.
Proof. intros H w'. unfold drawn_eps, get_mat_index, goos_eps. rewrite H. auto. Qed.
Lemma goos_needs m w : match goos_eps m w with
  | Ok eps => exists m', m = Some m' /\ mat_index m' <> None /\ drawn_eps table pchip read m' w = Ok eps
  | Err e => m = None /\ e = AttributeError \/ exists m', m = Some m' /\ mat_index m' = None /\ e = TypeError end.
Proof.
  destruct m as [m|]; cbn; [|auto]. destruct (mat_index m) as [z|] eqn:E; [|right; eauto].
  exists m. split; [reflexivity|]. rewrite E. split; [discriminate|]. unfold drawn_eps, get_mat_index. rewrite E. reflexivity.
Qed.
End Mt.
(** a decimal exponent *)
Definition lg10 (v : Q) : option Z :=
  if Qeq_bool v 0 then None else
  let hi := (Z.log2 (Z.abs (Qnum v)) + 1)%Z in
  let lo := (- (Z.log2 (Zpos (Qden v)) + 1))%Z in
  List.find (fun e => Qle_bool (ten e) (Qabs v)) (map (fun i => hi - Z.of_nat i)%Z (seq 0 (S (Z.to_nat (hi - lo))))).
Lemma two_ten n : (0 <= n)%Z -> inject_Z (2 ^ n) <= ten n.
Proof.
  intros H. unfold ten. change 10 with (inject_Z 10). rewrite <- Zpower_Qpower by exact H. rewrite <- Zle_Qle. apply Z.pow_le_mono_l. lia.
Qed.
Lemma find_desc (f : Z -> bool) hi n : (exists i, (i < n)%nat /\ f (hi - Z.of_nat i)%Z = true) ->
  exists i, (i < n)%nat /\ f (hi - Z.of_nat i)%Z = true /\ List.find f (map (fun i => hi - Z.of_nat i)%Z (seq 0 n)) = Some (hi - Z.of_nat i)%Z /\ forall j, (j < i)%nat -> f (hi - Z.of_nat j)%Z = false.
Proof.
  enough (G : forall n a, (exists i, (a <= i < a + n)%nat /\ f (hi - Z.of_nat i)%Z = true) ->
    exists i, (a <= i < a + n)%nat /\ f (hi - Z.of_nat i)%Z = true /\ List.find f (map (fun i => hi - Z.of_nat i)%Z (seq a n)) = Some (hi - Z.of_nat i)%Z /\ forall j, (a <= j < i)%nat -> f (hi - Z.of_nat j)%Z = false).
  { intros (i & A & B). destruct (G n O) as (i' & A' & B' & C & D); [exists i; split; [lia|exact B]|]. exists i'. repeat split; [lia|exact B'|exact C|intros j Hj; apply D; lia]. }
  clear n. induction n as [|n IH]; intros a (i & A & B); [lia|]. cbn [seq map find]. destruct (f (hi - Z.of_nat a)%Z) eqn:E.
  - exists a. repeat split; [lia|lia|exact E|intros j Hj; lia].
  - destruct (IH (S a)) as (i' & A' & B' & C & D).
    + exists i. split; [|exact B]. destruct (Nat.eq_dec i a) as [->|]; [congruence|lia].
    + exists i'. repeat split; [lia|lia|exact B'|exact C|]. intros j Hj. destruct (Nat.eq_dec j a) as [->|]; [exact E|apply D; lia].
Qed.
Lemma lg10_ok : decimal_exponent lg10.
Proof.
  split.
  - intros v E. unfold lg10. apply Qeq_bool_iff in E. now rewrite E.
  - intros v E. unfold lg10. destruct (Qeq_bool v 0) eqn:Z; [apply Qeq_bool_iff in Z; contradiction|]. clear Z.
    destruct v as [n d]. cbn [Qnum Qden]. set (hi := (Z.log2 (Z.abs n) + 1)%Z). set (lo := (- (Z.log2 (Z.pos d) + 1))%Z).
    assert (Hn : (0 < Z.abs n)%Z). { destruct n; [|lia|lia]. exfalso. apply E. reflexivity. }
    assert (H1 := Z.log2_spec (Z.abs n) Hn). assert (H2 := Z.log2_spec (Z.pos d) eq_refl). assert (N1 := Z.log2_nonneg (Z.abs n)). assert (N2 := Z.log2_nonneg (Z.pos d)).
    assert (Hlo : ten lo <= Qabs (n # d)).
    { assert (T := @two_ten (Z.log2 (Z.pos d) + 1)%Z ltac:(lia)). assert (Dd : inject_Z (Z.pos d) <= ten (Z.log2 (Z.pos d) + 1)).
      { apply Qle_trans with (2 := T). rewrite <- Zle_Qle. replace (Z.log2 (Z.pos d) + 1)%Z with (Z.succ (Z.log2 (Z.pos d))) by lia. lia. }
      assert (X : ten lo * ten (Z.log2 (Z.pos d) + 1) == 1). { rewrite ten_sub. unfold lo. replace (- (Z.log2 (Z.pos d) + 1) + (Z.log2 (Z.pos d) + 1))%Z with 0%Z by lia. reflexivity. }
      assert (P := ten_pos lo). assert (Y : ten lo * inject_Z (Z.pos d) <= 1) by (rewrite <- X; apply Qmult_le_l; assumption).
      assert (V : Qabs (n # d) * inject_Z (Z.pos d) == inject_Z (Z.abs n)). { unfold Qabs, Qeq, Qmult, inject_Z. cbn. lia. }
      assert (W : 1 <= inject_Z (Z.abs n)). { change 1 with (inject_Z 1). rewrite <- Zle_Qle. lia. }
      assert (Dp : 0 < inject_Z (Z.pos d)) by reflexivity. apply (Qmult_le_r _ _ _ Dp). rewrite V. apply Qle_trans with 1; assumption. }
    assert (Hhi : Qabs (n # d) < ten hi).
    { apply Qlt_le_trans with (inject_Z (2 ^ hi)); [|apply two_ten; lia]. unfold hi. replace (Z.log2 (Z.abs n) + 1)%Z with (Z.succ (Z.log2 (Z.abs n))) by lia.
      unfold Qabs, Qlt, inject_Z. cbn. nia. }
    destruct (@find_desc (fun e => Qle_bool (ten e) (Qabs (n # d))) hi (S (Z.to_nat (hi - lo)))) as (i & A & B & C & D).
    { exists (Z.to_nat (hi - lo)). split; [lia|]. replace (hi - Z.of_nat (Z.to_nat (hi - lo)))%Z with lo by lia. now apply Qle_bool_iff. }
    exists (hi - Z.of_nat i)%Z. split; [exact C|]. split; [now apply Qle_bool_iff|].
    destruct i as [|i].
    + apply Qlt_le_trans with (1 := Hhi). apply ten_mono. lia.
    + specialize (D i ltac:(lia)). apply Qnot_le_lt. intros L. replace (hi - Z.of_nat (S i) + 1)%Z with (hi - Z.of_nat i)%Z in L by lia. apply Qle_bool_iff in L. congruence.
Qed.
