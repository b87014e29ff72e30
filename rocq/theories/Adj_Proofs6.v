(** goos: the simulation node. *)
From Coq Require Import Reals Lra Psatz Ring Field.
From Verif Require Obj_Model.
From Verif Require Import Obj_Spec Obj_Proofs.
From Verif Require Import Base CField CField_Proofs LinAlg Maxwell_Model Maxwell_Spec Maxwell_Proofs Maxwell_Proofs2 Maxwell_Proofs3 Maxwell_Proofs4 SimCache_Model SimCache_Spec SimCache_Proofs.
From Verif Require Import Shape_Model GMath_Model GMath_Spec GMath_Proofs GMath_Proofs2 GMath_Proofs3 GMath_Proofs4 GMath_Proofs5 CplxField Adj_Model Adj_Spec Adj_Proofs Adj_Proofs2 Adj_Proofs3 Adj_Proofs4.
Set Implicit Arguments.
Local Open Scope R_scope.
Local Notation at_ := (at_ (K:=CC)).
Local Notation fsum := (fsum (K:=CC)).

Ltac below Hk H := apply (Nat.lt_le_trans _ _ _ Hk); apply Nat.eq_le_incl; symmetry; exact H.

Section Goos.
Variable g : grid CC.
Variable p : nat -> C.
Variable inner : mat CC -> list C -> list C.
Variable omega : R.
Variable sources : list source.
Variable outputs : list output.
Local Notation N := (vlen g).
Local Notation run := (run g flat_phases p inner omega).
Local Notation goos_run := (goos_run g p inner omega false).
Local Notation node_eval := (node_eval g p inner omega false sources outputs).
Local Notation node_evals := (node_evals g p inner omega false sources outputs).
Local Notation node_grad := (node_grad g p inner omega false outputs).
Local Notation current := (current N).
Hypothesis Hsize : fields_of_size N sources outputs.

Lemma goos_run_eq a J eps : goos_run a J eps = run a J eps.
Proof. reflexivity. Qed.
Lemma vadd_length n a b : length a = n -> length b = n -> length (vadd a b) = n.
Proof. intros H1 H2. unfold vadd. rewrite map_length, combine_length. lia. Qed.
Lemma vadd_at n a b k : length a = n -> length b = n -> (k < n)%nat -> at_ (vadd a b) k = cadd (at_ a k) (at_ b k).
Proof.
  intros H1 H2 Hk. unfold vadd. rewrite (combine_nth_map _ _ _ c0 c0) by congruence. rewrite H1. unfold CField.at_ at 1. now rewrite (@map_nth_uniform C) by auto.
Qed.
Definition kept (first : list C) (s : source) : option (list C) := match s with SKept f => Some (f first) | SFresh _ => None end.
Definition kept_out (first : list C) (o : output) : option (list C) := match o with OOverlap f => Some (f first) | _ => None end.
Definition partial (l : list source) (first eps : list C) (k : nat) : C := fold_right cadd c0 (map (fun s => at_ (source_value first eps s) k) l).
(** the modes kept so far: none, or those of [first] *)
Definition kept_so_far (b : bool) (first : list C) (s : source) : option (list C) := if b then kept first s else None.
Lemma before_sources_eq b first eps l : cpx eps = true -> (b = false -> dat eps = first) -> (forall s, In s l -> In s sources) ->
  forall J, length J = N -> exists J', before_sources eps l (map (kept_so_far b first) l) J = (map (kept first) l, Ok J') /\ length J' = N /\
    forall k, (k < N)%nat -> at_ J' k = cadd (at_ J k) (partial l first (dat eps) k).
Proof.
  intros Hc Hb. induction l as [|s l IH]; intros Hin J HJ.
  - exists J. split; [reflexivity|]. split; [exact HJ|]. intros k _. unfold partial. cbn. cr.
  - cbn [map before_sources]. rewrite Hc.
    assert (Hl : length (source_value first (dat eps) s) = N).
    { destruct s as [f|f]; cbn; apply (proj1 Hsize); [left|right]; apply Hin; now left. }
    destruct (IH (fun s' H => Hin s' (or_intror H)) (vadd J (source_value first (dat eps) s)) (@vadd_length N _ _ HJ Hl)) as (J' & E & HlJ & HJ').
    exists J'. split.
    + destruct s as [f|f]; cbn [kept kept_so_far source_value] in *.
      * destruct b; cbn [kept_so_far kept]; [|rewrite (Hb eq_refl) in *]; rewrite E; reflexivity.
      * destruct b; cbn [kept_so_far kept]; rewrite E; reflexivity.
    + split; [exact HlJ|]. intros k Hk. rewrite HJ' by auto. rewrite (@vadd_at N) by auto. unfold partial. cbn [map fold_right]. cr.
Qed.
Lemma current_length l first eps : length (current l first eps) = N.
Proof. unfold Adj_Spec.current. now rewrite map_length, seq_length. Qed.
Lemma current_at l first eps k : (k < N)%nat -> at_ (current l first eps) k = partial l first eps k.
Proof. intros Hk. unfold Adj_Spec.current, CField.at_ at 1. now rewrite (@map_nth_uniform C) by auto. Qed.
Lemma zero_at k n : at_ (repeat c0 n) k = c0.
Proof. unfold CField.at_. change (k0 (c:=CC)) with c0. apply nth_repeat. Qed.
Lemma before_sources_all b first eps : cplx_eps N eps -> (b = false -> dat eps = first) ->
  before_sources eps sources (map (kept_so_far b first) sources) (repeat c0 (size eps)) = (map (kept first) sources, Ok (current sources first (dat eps))).
Proof.
  intros [Hc Hl] Hb. assert (Hs : size eps = N) by exact Hl. rewrite Hs.
  destruct (@before_sources_eq b first eps sources Hc Hb (fun s H => H) (repeat c0 N)) as (J' & E & HlJ & HJ'); [apply repeat_length|].
  rewrite E. f_equal. f_equal. apply (@vec_ext CC); [now rewrite current_length|]. intros k Hk0. assert (Hk : (k < N)%nat) by (rewrite <- HlJ; exact Hk0). clear Hk0. rewrite HJ', current_at, zero_at by auto. cr.
Qed.
Lemma before_outputs_all b first eps : (b = false -> dat eps = first) ->
  before_outputs outputs eps (map (fun o => if b then kept_out first o else None) outputs) = map (kept_out first) outputs.
Proof.
  intros Hb. unfold before_outputs. generalize outputs as l. induction l as [|o l IH]; [reflexivity|]. cbn [map combine fst snd]. rewrite IH. f_equal.
  destruct b; destruct o as [| |f]; cbn; try reflexivity. now rewrite Hb.
Qed.
Lemma outs_eq first eps E : cplx_eps N eps -> length E = N -> forall l, (forall o, In o l -> In o outputs) ->
  mapM (fun om => out_eval g eps E (fst om) (snd om)) (combine l (map (kept_out first) l)) = Ok (map (out_value first (dat eps) E) l).
Proof.
  intros [Hc Hl] HE. induction l as [|o l IH]; intros Hin; [reflexivity|]. cbn [map combine mapM fst snd].
  assert (Ho : out_eval g eps E o (kept_out first o) = Ok (out_value first (dat eps) E o)).
  { destruct o as [| |f]; cbn [out_eval kept_out out_value]; [destruct eps; cbn in *; now subst|reflexivity|].
    assert (Hf : length (f first) = N) by (apply (proj2 Hsize), Hin; now left). f_equal. f_equal. f_equal. symmetry. exact (@cdot_fsum N (f first) E Hf HE). }
  rewrite Ho. cbn [bind]. rewrite IH by (intros o' H; apply Hin; now right). reflexivity.
Qed.
Lemma run_length a J eps E : run a J eps = Ok E -> length E = N.
Proof. unfold Adj_Model.run, solve. intros H. injection H as <-. destruct a; apply (@mv_length CC). Qed.
Lemma run_total a J eps : exists E, run a J eps = Ok E.
Proof. unfold Adj_Model.run, solve. eexists. reflexivity. Qed.

(** the state after the structure [first] and others *)
Definition visited (first : list C) (s : node) (eps : arr) : Prop :=
  n_modes s = map (kept first) sources /\ n_over s = map (kept_out first) outputs /\
  exists E, n_last s = Some (eps, E) /\ cplx_eps N eps /\ run false (current sources first (dat eps)) (dat eps) = Ok E.
Lemma out_evals_visited first s eps : visited first s eps -> forall E, run false (current sources first (dat eps)) (dat eps) = Ok E ->
  out_evals g outputs s = Ok (map (out_value first (dat eps) E) outputs).
Proof.
  intros (_ & Ho & E' & HL & Hc & HE') E HE. rewrite HE in HE'. injection HE' as <-. unfold out_evals. rewrite HL, Ho. apply outs_eq; auto. exact (run_length HE).
Qed.
Lemma eval_first eps : cplx_eps N eps -> forall E, run false (current sources (dat eps) (dat eps)) (dat eps) = Ok E ->
  visited (dat eps) (fst (node_eval (new_node sources outputs) eps)) eps /\
  snd (node_eval (new_node sources outputs) eps) = Ok (map (out_value (dat eps) (dat eps) E) outputs).
Proof.
  intros Hc E HE. unfold Adj_Model.node_eval, new_node. cbn [n_last n_modes n_over].
  pose proof (@before_sources_all false (dat eps) eps Hc (fun _ => eq_refl)) as HB. unfold kept_so_far in HB. rewrite HB.
  pose proof (@before_outputs_all false (dat eps) eps (fun _ => eq_refl)) as HO. cbn beta iota in HO. rewrite HO.
  rewrite goos_run_eq, HE. cbn [fst snd].
  assert (Hv : visited (dat eps) (Node (map (kept (dat eps)) sources) (map (kept_out (dat eps)) outputs) (Some (eps, E))) eps).
  { split; [reflexivity|]. split; [reflexivity|]. exists E. auto. }
  split; [exact Hv|]. now apply out_evals_visited.
Qed.
Lemma arr_same e eps : cplx_eps N e -> cplx_eps N eps -> same (dat e) (dat eps) = true -> e = eps.
Proof. intros [H1 _] [H2 _] H. apply same_spec in H. destruct e, eps. cbn in *. congruence. Qed.
Lemma eval_next first s e eps : visited first s e -> cplx_eps N eps -> forall E, run false (current sources first (dat eps)) (dat eps) = Ok E ->
  visited first (fst (node_eval s eps)) eps /\ snd (node_eval s eps) = Ok (map (out_value first (dat eps) E) outputs).
Proof.
  intros Hv Hc E HE. pose proof Hv as (Hm & Ho & E' & HL & Hc' & HE'). unfold Adj_Model.node_eval. rewrite HL.
  destruct (same (dat e) (dat eps)) eqn:Es.
  - pose proof (arr_same Hc' Hc Es) as <-. split; [exact Hv|]. cbn [snd]. now apply out_evals_visited.
  - rewrite Hm, Ho. pose proof (@before_sources_all true first eps Hc ltac:(discriminate)) as HB. change (map (kept_so_far true first) sources) with (map (kept first) sources) in HB. rewrite HB.
    pose proof (@before_outputs_all true first eps ltac:(discriminate)) as HO. change (map (fun o => if true then kept_out first o else None) outputs) with (map (kept_out first) outputs) in HO. rewrite HO.
    rewrite goos_run_eq, HE. cbn [fst snd].
    assert (Hv' : visited first (Node (map (kept first) sources) (map (kept_out first) outputs) (Some (eps, E))) eps).
    { split; [reflexivity|]. split; [reflexivity|]. exists E. auto. }
    split; [exact Hv'|]. now apply out_evals_visited.
Qed.
Lemma evals_visited first l : Forall (cplx_eps N) l -> forall s e, visited first s e -> exists e', visited first (node_evals s l) e' /\ e' = last l e.
Proof.
  induction l as [|x l IH]; intros Hl s e Hv; [exists e; now split|]. inversion Hl as [|? ? Hx Hl']; subst.
  destruct (run_total false (current sources first (dat x)) (dat x)) as [E HE].
  destruct (eval_next Hv Hx HE) as [Hv' _]. destruct (IH Hl' _ _ Hv') as (e' & He' & ->). exists (last (x :: l) e). split; [|reflexivity].
  cbn [Adj_Model.node_evals fold_left]. replace (last (x :: l) e) with (last l x); [exact He'|]. clear. revert x e. induction l as [|y l IH]; intros x e; [reflexivity|].
  change (last (x :: y :: l) e) with (last (y :: l) e). now rewrite <- (IH y e), <- (IH y x).
Qed.
Lemma history_visited e0 l : Forall (cplx_eps N) (e0 :: l) -> visited (dat e0) (node_evals (new_node sources outputs) (e0 :: l)) (last l e0).
Proof.
  intros H. inversion H as [|? ? H0 Hl]; subst. destruct (run_total false (current sources (dat e0) (dat e0)) (dat e0)) as [E HE].
  destruct (eval_first H0 HE) as [Hv _]. destruct (evals_visited Hl Hv) as (e' & He' & ->). exact He'.
Qed.
Lemma history_pf l eps : Forall (cplx_eps N) l -> cplx_eps N eps ->
  exists E, run false (current sources (dat (hd eps l)) (dat eps)) (dat eps) = Ok E /\
    snd (node_eval (node_evals (new_node sources outputs) l) eps) = Ok (map (out_value (dat (hd eps l)) (dat eps) E) outputs).
Proof.
  intros Hl He. destruct (run_total false (current sources (dat (hd eps l)) (dat eps)) (dat eps)) as [E HE]. exists E. split; [exact HE|].
  destruct l as [|e0 l]; cbn [hd] in *.
  - now apply eval_first.
  - exact (proj2 (eval_next (history_visited Hl) He HE)).
Qed.

(** ** gradient *)
Definition weight (first : list C) (og : output * option (list C)) (k : nat) : C :=
  match og with (OOverlap f, Some [x]) => cmul x (at_ (f first) k) | _ => c0 end.
Definition total (first : list C) (l : list (output * option (list C))) (k : nat) : C := fold_right cadd c0 (map (fun og => weight first og k) l).
Lemma before_adjoint_eq first eps : cpx eps = true -> forall l gs, overlap_weights l gs -> (forall o, In o l -> In o outputs) ->
  forall J, length J = N -> exists J', before_adjoint eps (combine l (map (kept_out first) l)) gs J = Ok J' /\ length J' = N /\
    forall k, (k < N)%nat -> at_ J' k = cadd (at_ J k) (cconj (total first (combine l gs) k)).
Proof.
  intros Hc l gs H. induction H as [|o gv l gs Ho H IH]; intros Hin J HJ.
  - exists J. split; [reflexivity|]. split; [exact HJ|]. intros k _. unfold total. cbn. replace (cconj c0) with c0 by cring. cr.
  - assert (Hin' : forall o, In o l -> In o outputs) by (intros o' H'; apply Hin; now right).
    destruct o as [| |f].
    + subst gv. cbn [map combine before_adjoint kept_out]. destruct (IH Hin' J HJ) as (J' & E & HlJ & HJ'). exists J'. split; [exact E|]. split; [exact HlJ|].
      intros k Hk. rewrite HJ' by auto. unfold total. cbn [map combine fold_right weight]. f_equal. f_equal. cr.
    + subst gv. cbn [map combine before_adjoint kept_out]. destruct (IH Hin' J HJ) as (J' & E & HlJ & HJ'). exists J'. split; [exact E|]. split; [exact HlJ|].
      intros k Hk. rewrite HJ' by auto. unfold total. cbn [map combine fold_right weight]. f_equal. f_equal. cr.
    + destruct Ho as [x ->]. cbn [map combine before_adjoint kept_out]. rewrite Hc.
      assert (Hf : length (f first) = N) by (apply (proj2 Hsize), Hin; now left).
      assert (Hm : length (map (fun y => cconj (cmul (at_ [x] 0) y)) (f first)) = N) by (now rewrite map_length).
      destruct (IH Hin' (vadd J (map (fun y => cconj (cmul (at_ [x] 0) y)) (f first))) (@vadd_length N _ _ HJ Hm)) as (J' & E & HlJ & HJ').
      exists J'. split; [exact E|]. split; [exact HlJ|]. intros k Hk. rewrite HJ' by auto. rewrite (@vadd_at N) by auto. rewrite at_map_c by lia.
      unfold total. cbn [map combine fold_right weight]. change (at_ [x] 0) with x.
      generalize (fold_right cadd c0 (map (fun og => weight first og k) (combine l gs))), (cmul x (at_ (f first) k)), (at_ J k). intros a b c. cring.
Qed.
Lemma weighted_eq first eps E : length E = N -> forall l gs, overlap_weights l gs -> (forall o, In o l -> In o outputs) ->
  weighted gs (map (out_value first eps E) l) = fsum N (fun k => cmul (total first (combine l gs) k) (at_ E k)).
Proof.
  intros HE l gs H. induction H as [|o gv l gs Ho H IH]; intros Hin.
  - cbn. symmetry. apply (@fsum_zero CC N). intros k _. unfold total. cbn. change (creal 0) with c0. cr.
  - assert (Hin' : forall o, In o l -> In o outputs) by (intros o' H'; apply Hin; now right). specialize (IH Hin').
    destruct o as [| |f]; [subst gv; cbn [map combine weighted]; rewrite IH; apply (@fsum_ext CC); intros k _; unfold total; cbn [map fold_right weight]; cr ..|].
    destruct Ho as [x ->]. cbn [map combine weighted out_value dat]. rewrite IH. cbn [cdot].
    assert (Hf : length (f first) = N) by (apply (proj2 Hsize), Hin; now left). rewrite (@cdot_fsum N (f first) E Hf HE).
    transitivity (cadd (fsum N (fun k => cmul x (cmul (at_ (f first) k) (at_ E k)))) (fsum N (fun k => cmul (total first (combine l gs) k) (at_ E k)))).
    + f_equal. symmetry. etransitivity; [exact (@fsum_scale CC N x (fun k => cmul (at_ (f first) k) (at_ E k)))|]. change (creal 0) with c0. change (@kmul CC) with cmul. ring.
    + etransitivity; [symmetry; exact (@fsum_add CC N (fun k => cmul x (cmul (at_ (f first) k) (at_ E k))) (fun k => cmul (total first (combine l gs) k) (at_ E k)))|].
      apply (@fsum_ext CC). intros k _. unfold total. cbn [map fold_right weight]. change (@kadd CC) with cadd. cr.
Qed.
Hypothesis OK : sim_ok g p inner omega.
Lemma current_near first u t0 : (forall f, In (SFresh f) sources -> near t0 (fun t => f (u t) = f (u t0))) ->
  near t0 (fun t => current sources first (u t) = current sources first (u t0)).
Proof.
  intros H. assert (H1 : near t0 (fun t => forall s, In s sources -> source_value first (u t) s = source_value first (u t0) s)).
  { apply near_list. intros [f|f] Hs; cbn; [apply near_all; reflexivity|now apply H]. }
  eapply near_impl; [|exact H1]. cbv beta. intros t Ht. unfold Adj_Spec.current. apply map_ext. intros k. f_equal. apply map_ext_in. intros s Hs. now rewrite Ht.
Qed.
Lemma gradient_pf first s eps gs : visited first s eps -> no_resonance g flat_phases omega (dat eps) -> overlap_weights outputs gs ->
  exists grad, node_grad s eps gs = Ok grad /\ length grad = N /\
    forall u d t0, cmoves N u t0 d -> u t0 = dat eps -> (forall f, In (SFresh f) sources -> near t0 (fun t => f (u t) = f (u t0))) ->
      cderive (fun t => weighted gs (values (snd (node_eval s (mkarr true (u t)))))) t0 (cdot grad d).
Proof.
  intros Hv Hr Hgs. pose proof Hv as (_ & Ho & E & HL & (Hc & Hle) & HE).
  destruct (@before_adjoint_eq first eps Hc outputs gs Hgs (fun o H => H) (repeat c0 N)) as (J & HJ & HlJ & HJat); [apply repeat_length|].
  set (gv := vbuild (K:=CC) N (total first (combine outputs gs))).
  set (gv2 := map (cmul (cmul imag_unit (creal omega))) gv).
  assert (Hgv : length gv = N) by apply (@vbuild_length CC). assert (Hgv2 : length gv2 = N) by (unfold gv2; now rewrite map_length).
  assert (EJ : J = adjoint_current omega gv2).
  { apply (@vec_ext CC); [unfold adjoint_current; etransitivity; [exact HlJ|symmetry; etransitivity; [apply map_length|exact Hgv2]]|]. intros k Hk0. assert (Hk : (k < N)%nat) by (rewrite <- HlJ; exact Hk0). clear Hk0. rewrite HJat, zero_at by auto.
    unfold adjoint_current. rewrite at_map_c by below Hk Hgv2. unfold gv2. rewrite at_map_c by below Hk Hgv. unfold gv. rewrite (@vbuild_at CC) by auto.
    pose proof (cinv_r (@iw_nz g p inner omega OK)) as Hi. fold (iw omega). unfold cdiv. generalize (total first (combine outputs gs) k). intros x.
    replace (cconj (cmul (cmul imag_unit (creal omega)) x)) with (cmul (iw omega) (cconj x)) by (unfold iw, imag_unit; cring).
    transitivity (cmul (cmul (iw omega) (cinv (iw omega))) (cconj x)); [rewrite Hi; cr|cr]. }
  destruct (run_total true J (dat eps)) as [y Hy]. pose proof (run_length Hy) as Hly. pose proof (run_length HE) as HlE.
  set (grad := map (fun de => cmul (cmul (cmul (copp imag_unit) (creal omega)) (cconj (fst de))) (snd de)) (combine y E)).
  assert (Hlg : length grad = N) by (unfold grad; rewrite map_length, combine_length; lia).
  exists grad. split; [|split; [exact Hlg|]].
  - unfold Adj_Model.node_grad. rewrite Ho. assert (Hs : size eps = N) by exact Hle. rewrite Hs, HJ. cbn [bind]. rewrite goos_run_eq, Hy. cbn [bind]. rewrite HL, Hc. reflexivity.
  - intros u d t0 Hu Hu0 Hf. set (J0 := current sources first (dat eps)) in *.
    assert (HJ0 : length J0 = N) by apply current_length.
    rewrite <- Hu0 in Hr, Hy, HE. rewrite EJ in Hy.
    destruct (@fld_pairing g flat_phases p inner omega OK J0 HJ0 u d t0 Hr gv2 y Hgv2 Hy) as [_ HP].
    assert (Hfld0 : fld g flat_phases p inner omega J0 u t0 = E) by (unfold fld; now rewrite HE). rewrite Hfld0 in HP.
    apply (@cd_near (fun t => fsum N (fun k => cmul (at_ gv k) (at_ (fld g flat_phases p inner omega J0 u t) k)))).
    + eapply near_impl; [|exact (near_and (current_near first u Hf) (@fld_near g flat_phases p inner omega OK J0 HJ0 u d t0 Hu Hr))]. cbv beta.
      intros t (Hcur & Hrun & Hlf & _). rewrite Hu0 in Hcur. fold J0 in Hcur.
      assert (Hct : cplx_eps N (mkarr true (u t))) by (split; [reflexivity|apply Hu]).
      destruct (eval_next Hv Hct (E := fld g flat_phases p inner omega J0 u t)) as [_ Hval]; [cbn [dat]; now rewrite Hcur|].
      rewrite Hval. cbn [values dat]. rewrite weighted_eq by auto. apply (@fsum_ext CC). intros k Hk. unfold gv. now rewrite (@vbuild_at CC) by auto.
    + eapply cd_eq; [|apply (@cd_fsum N (fun k t => cmul (at_ gv k) (at_ (fld g flat_phases p inner omega J0 u t) k)) (fun k => cmul (at_ gv k) (at_ (fld' g flat_phases p inner omega J0 u d t0) k)));
        intros k Hk; apply cd_scale; exact (@fld_derive g flat_phases p inner omega OK J0 HJ0 u d t0 Hu Hr k Hk)].
      rewrite (@cdot_fsum N grad d Hlg ltac:(apply Hu)).
      set (w := cmul imag_unit (creal omega)) in *.
      assert (Hw : w <> c0) by (apply iomega_nz, (ok_omega OK)). pose proof (cinv_r Hw) as Hi.
      assert (Lhs : cmul w (fsum N (fun k => cmul (at_ gv k) (at_ (fld' g flat_phases p inner omega J0 u d t0) k))) = fsum N (fun i => cmul (at_ gv2 i) (at_ (fld' g flat_phases p inner omega J0 u d t0) i))).
      { etransitivity; [symmetry; exact (@fsum_scale CC N w (fun k => cmul (at_ gv k) (at_ (fld' g flat_phases p inner omega J0 u d t0) k)))|].
        apply (@fsum_ext CC). intros k Hk. unfold gv2. rewrite at_map_c by below Hk Hgv. cr. }
      assert (Rhs : cmul w (fsum N (fun k => cmul (at_ grad k) (at_ d k))) = fsum N (fun k => cmul (cmul (cconj (at_ y k)) (cmul (creal (omega * omega)) (at_ E k))) (at_ d k))).
      { etransitivity; [symmetry; exact (@fsum_scale CC N w (fun k => cmul (at_ grad k) (at_ d k)))|].
        apply (@fsum_ext CC). intros k Hk. unfold grad. rewrite (combine_nth_map _ _ _ c0 c0) by congruence. rewrite Hly. unfold CField.at_ at 1. rewrite (@map_nth_uniform C) by auto. cbn [fst snd].
        change (nth k y c0) with (at_ y k). change (nth k E c0) with (at_ E k). unfold w. change (@kmul CC) with cmul.
        generalize (at_ y k), (at_ E k), (at_ d k). intros a b e. unfold imag_unit. cring. }
      assert (Eq : cmul w (fsum N (fun k => cmul (at_ gv k) (at_ (fld' g flat_phases p inner omega J0 u d t0) k))) = cmul w (fsum N (fun k => cmul (at_ grad k) (at_ d k)))) by (rewrite Lhs, Rhs; exact HP).
      revert Eq. generalize (fsum N (fun k => cmul (at_ gv k) (at_ (fld' g flat_phases p inner omega J0 u d t0) k))), (fsum N (fun k => cmul (at_ grad k) (at_ d k))). intros a b Eq.
      transitivity (cmul (cinv w) (cmul w a)); [|rewrite Eq].
      * transitivity (cmul (cmul w (cinv w)) a); [rewrite Hi; cr|cr].
      * transitivity (cmul (cmul w (cinv w)) b); [cr|rewrite Hi; cr].
Qed.
End Goos.
