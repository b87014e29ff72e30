(** Concrete graphs of numeric nodes. *)
From Coq Require Import Reals ZArith Relations Lra Psatz Permutation.
From Verif Require Obj_Model.
From Verif Require Import Obj_Spec Obj_Proofs.
From Verif Require Import Base GraphExec_Model GraphExec_Spec GraphExec_Proofs GraphExec_Proofs2 GraphExec_Proofs3 GraphExec_Proofs4 GradHeap_Model HeapChain_Proofs.
From Verif Require Import Shape_Model GMath_Model GMath_Spec GMath_Proofs GMath_Proofs2 GMath_Proofs5 GMath_Proofs6 GMath_Proofs7 GMath_Proofs8 GMath_Proofs9.
Set Implicit Arguments.
Local Open Scope R_scope.

(** a graph with a table of its values *)
Lemma differentiable_table kinds inputs ov vars U T :
  (forall n, In n U -> value_of kinds inputs ov n (T n)) -> (forall n, In n U -> incl (inputs n) U) ->
  (forall n, In n U -> suits (kinds n) (map (fixed inputs vars) (inputs n)) (map T (inputs n)) (T n)) ->
  (forall n, In n U -> size (T n) <> 0%nat) ->
  (forall n, In n U -> unnoticed kinds inputs vars U (passed_on (kinds n) (inputs n) (map T (inputs n)) (T n))) ->
  (forall n n' c, In n U -> In n' U -> In c (inputs n) -> In c (inputs n') -> fixed inputs vars c = true ->
     arrival (kinds n) (T n) (T c) = arrival (kinds n') (T n') (T c)) ->
  differentiable kinds inputs ov vars U.
Proof.
  intros HT Hc Hs Hz Hu Ha.
  assert (Hv : forall n v, In n U -> value_of kinds inputs ov n v -> v = T n) by (intros n v Hn Hv; exact (Den_det _ _ _ _ _ _ Hv _ (HT n Hn))).
  assert (Hi : forall n ivs, In n U -> Forall2 (value_of kinds inputs ov) (inputs n) ivs -> ivs = map T (inputs n)).
  { intros n ivs Hn HF. assert (H : incl (inputs n) U) by now apply Hc. revert H HF. generalize (inputs n) as l. intros l Hl HF.
    induction HF as [|c a l ivs Hca HF IH]; [reflexivity|]. cbn [map]. f_equal; [apply Hv; [apply Hl; now left|exact Hca]|]. apply IH. intros x Hx. apply Hl. now right. }
  split.
  - intros n ivs v Hn HF Hval. rewrite (Hi n ivs Hn HF), (Hv n v Hn Hval). now apply Hs.
  - intros n v Hn Hval. rewrite (Hv n v Hn Hval). now apply Hz.
  - intros n ivs v Hn HF Hval. rewrite (Hi n ivs Hn HF), (Hv n v Hn Hval). now apply Hu.
  - intros c m m' Hf (n & ivs & v & i & a & N1 & N2 & N3 & N4 & N5 & ->) (n' & ivs' & v' & i' & a' & N1' & N2' & N3' & N4' & N5' & ->).
    assert (E := Hi _ _ N1 N2). assert (E' := Hi _ _ N1' N2'). rewrite E in N5. rewrite E' in N5'.
    rewrite (map_nth_error T i _ N4) in N5. rewrite (map_nth_error T i' _ N4') in N5'. injection N5 as <-. injection N5' as <-.
    rewrite (Hv n v N1 N3), (Hv n' v' N1' N3'). apply (Ha n n' c N1 N1' (nth_error_In _ _ N4) (nth_error_In _ _ N4') Hf).
Qed.

Lemma dag_down (inputs : nat -> list nat) : (forall n c, In c (inputs n) -> (c < n)%nat) -> dag inputs.
Proof.
  intros H n Hn. assert (Hlt : forall a b, clos_trans nat (depends inputs) a b -> (b < a)%nat).
  { induction 1 as [x y Hxy|x y z _ IH1 _ IH2]; [now apply H|lia]. }
  apply Hlt in Hn. lia.
Qed.

(** *** x * y + 1, squared and summed up *)
Definition rvec (l : list R) : arr := mkarr false (map creal l).
Definition ex_kinds (n : nat) : kind :=
  match n with
  | 0 => KVar 0 | 1 => KVar 1 | 2 => KProd | 3 => KConst (rvec [1]%R) | 4 => KSum | 5 => KProd | 6 => KConst (rvec [1; 1]%R) | 7 => KDot
  | _ => KConst (rvec [0]%R)
  end%nat.
Definition ex_inputs (n : nat) : list nat := match n with 2 => [0; 1] | 4 => [2; 3] | 5 => [4; 4] | 7 => [5; 6] | _ => [] end%nat.
Definition ex_ov : dict arr := dset (dset dempty 0%nat (rvec [1; 2]%R)) 1%nat (rvec [3; 4]%R).
Definition ex_T (n : nat) : arr :=
  match n with
  | 0 => rvec [1; 2]%R | 1 => rvec [3; 4]%R | 2 => rvec [3; 8]%R | 3 => rvec [1]%R | 4 => rvec [4; 9]%R | 5 => rvec [16; 81]%R | 6 => rvec [1; 1]%R | 7 => rvec [97]%R | _ => rvec [0]%R
  end%nat.
Definition ex_U : list nat := [0; 1; 2; 3; 4; 5; 6; 7]%nat.
Ltac cases8 H := repeat (destruct H as [<-|H]); [..|destruct H].
Ltac inputs_known := repeat (apply Forall2_cons; [assumption|]); apply Forall2_nil.
Ltac still_or_same := repeat (apply Forall2_cons; [first [left; reflexivity | right; split; reflexivity | right; reflexivity]|]); apply Forall2_nil.
Ltac pairs := cbn; unfold rvec; cbn; unfold cadd, cmul, csum; cbn; unfold cadd, cmul, creal; cbn;
  repeat match goal with
  | |- @eq R _ _ => first [reflexivity | lra]
  | |- Ok _ = Ok _ => apply f_equal
  | |- mkarr _ _ = mkarr _ _ => apply f_equal2; [reflexivity|]
  | |- (_ :: _) = (_ :: _) => apply f_equal2
  | |- (_, _) = (_, _) => apply f_equal2
  | |- [] = [] => reflexivity
  end.
Lemma ex_values n : In n ex_U -> value_of ex_kinds ex_inputs ex_ov n (ex_T n).
Proof.
  assert (V0 : value_of ex_kinds ex_inputs ex_ov 0 (ex_T 0)) by now apply Den_override.
  assert (V1 : value_of ex_kinds ex_inputs ex_ov 1 (ex_T 1)) by now apply Den_override.
  assert (V2 : value_of ex_kinds ex_inputs ex_ov 2 (ex_T 2)).
  { eapply (@Den_eval _ _ _ _ _ [ex_T 0; ex_T 1]); [reflexivity|inputs_known|]. pairs. }
  assert (V3 : value_of ex_kinds ex_inputs ex_ov 3 (ex_T 3)) by (eapply (@Den_eval _ _ _ _ _ []); [reflexivity|constructor|reflexivity]).
  assert (V4 : value_of ex_kinds ex_inputs ex_ov 4 (ex_T 4)).
  { eapply (@Den_eval _ _ _ _ _ [ex_T 2; ex_T 3]); [reflexivity|inputs_known|]. pairs. }
  assert (V5 : value_of ex_kinds ex_inputs ex_ov 5 (ex_T 5)).
  { eapply (@Den_eval _ _ _ _ _ [ex_T 4; ex_T 4]); [reflexivity|inputs_known|]. pairs. }
  assert (V6 : value_of ex_kinds ex_inputs ex_ov 6 (ex_T 6)) by (eapply (@Den_eval _ _ _ _ _ []); [reflexivity|constructor|reflexivity]).
  assert (V7 : value_of ex_kinds ex_inputs ex_ov 7 (ex_T 7)).
  { eapply (@Den_eval _ _ _ _ _ [ex_T 5; ex_T 6]); [reflexivity|inputs_known|]. pairs. }
  intros H. cases8 H; assumption.
Qed.
Lemma real_rvec l : proper (rvec l).
Proof. intros _. unfold rvec. cbn. apply Forall_map, Forall_forall. reflexivity. Qed.
Lemma ex_graph : goos_graph ex_kinds ex_inputs ex_ov [0; 1]%nat 7 ex_U.
Proof.
  assert (Hc : forall n, In n ex_U -> incl (ex_inputs n) ex_U) by (intros n H; cases8 H; cbn; intros x Hx; repeat (destruct Hx as [<-|Hx]; [cbn; tauto|]); destruct Hx).
  split.
  - split; [repeat constructor; cbn; intuition discriminate|]. intros n. split.
    + assert (R7 : reachable ex_inputs [7%nat] 7) by (exists 7%nat; split; [now left|apply rt_refl]).
      assert (R6 : reachable ex_inputs [7%nat] 6) by (apply reachable_step with 7%nat; [assumption|cbn; tauto]).
      assert (R5 : reachable ex_inputs [7%nat] 5) by (apply reachable_step with 7%nat; [assumption|cbn; tauto]).
      assert (R4 : reachable ex_inputs [7%nat] 4) by (apply reachable_step with 5%nat; [assumption|cbn; tauto]).
      assert (R3 : reachable ex_inputs [7%nat] 3) by (apply reachable_step with 4%nat; [assumption|cbn; tauto]).
      assert (R2 : reachable ex_inputs [7%nat] 2) by (apply reachable_step with 4%nat; [assumption|cbn; tauto]).
      assert (R1 : reachable ex_inputs [7%nat] 1) by (apply reachable_step with 2%nat; [assumption|cbn; tauto]).
      assert (R0 : reachable ex_inputs [7%nat] 0) by (apply reachable_step with 2%nat; [assumption|cbn; tauto]).
      intros H. cases8 H; assumption.
    + intros (o & [<-|[]] & Hr). apply clos_rt_rtn1 in Hr. induction Hr as [|y z Hyz Hr IH]; [cbn; tauto|]. exact (Hc y IH z Hyz).
  - apply dag_down. intros n c H. do 8 (destruct n as [|n]; [cbn in H; intuition (subst; lia)|]). destruct H.
  - intros n c Hn. exfalso. do 8 (destruct n as [|n]; [discriminate|]). discriminate.
  - intros n. do 8 (destruct n as [|n]; [cbn; exact I || reflexivity|]). reflexivity.
  - intros n H. destruct n as [|[|n]]; [cbn; eauto|cbn; eauto|]. exfalso. apply H. reflexivity.
  - split.
    + intros n a H. destruct n as [|[|n]]; try discriminate; injection H as <-; apply real_rvec.
    + intros n a _ H. do 8 (destruct n as [|n]; [try discriminate; injection H as <-; apply real_rvec|]). injection H as <-. apply real_rvec.
  - intros n h fn gr v _ _ H. do 8 (destruct n as [|n]; [discriminate|]). discriminate.
  - split; [repeat constructor; cbn; intuition discriminate|]. intros x [<-|[<-|[]]]; discriminate.
Qed.
Lemma ex_differentiable : differentiable ex_kinds ex_inputs ex_ov [0; 1]%nat ex_U.
Proof.
  apply differentiable_table with ex_T.
  - exact ex_values.
  - intros n H; cases8 H; cbn; intros x Hx; repeat (destruct Hx as [<-|Hx]; [cbn; tauto|]); destruct Hx.
  - intros n H. cases8 H; cbn; try exact I.
    + still_or_same.
    + still_or_same.
    + still_or_same.
    + eexists _, _. split; [reflexivity|]. split; [reflexivity|]. still_or_same.
  - intros n H. cases8 H; discriminate.
  - intros n H. cases8 H; vm_compute; left; constructor; try constructor.
  - intros n n' c H H' Hn Hn' Hf. cases8 H; cbn in Hn; repeat (destruct Hn as [<-|Hn]; [try discriminate Hf|]); try destruct Hn;
      cases8 H'; cbn in Hn'; repeat (destruct Hn' as [E|Hn']; [try discriminate E; try reflexivity|]); try destruct Hn'.
Qed.
Lemma ex_grad : exists a b c d, goos_grad ex_kinds ex_inputs (fun _ l => l) 20 ex_ov 7 [0; 1]%nat = Ok [[a; b]; [c; d]] /\
  a = creal 24 /\ b = creal 72 /\ c = creal 8 /\ d = creal 36.
Proof. eexists _, _, _, _. split; [vm_compute; reflexivity|]. repeat split; unfold creal; f_equal; lra. Qed.

(** *** x + y + z + y * y *)
Definition sh_kinds (n : nat) : kind := match n with 0 => KVar 0 | 1 => KVar 1 | 2 => KVar 2 | 3 => KProd | _ => KSum end%nat.
Definition sh_inputs (n : nat) : list nat := match n with 3 => [1; 1] | 4 => [0; 1; 2; 3] | _ => [] end%nat.
Definition sh_ov : dict arr := dset (dset (dset dempty 0%nat (rvec [1]%R)) 1%nat (rvec [2]%R)) 2%nat (rvec [3]%R).
Definition sh_U : list nat := [0; 1; 2; 3; 4]%nat.
Definition sh_W (t : R) : dict arr := dset sh_ov 2%nat (rvec [3 + t * 1]%R).
Lemma line_slope a d t0 : derivable_pt_lim (fun t => a + t * d) t0 d.
Proof.
  intros eps Heps. exists (mkposreal 1 Rlt_0_1). intros h Hh _. replace ((a + (t0 + h) * d - (a + t0 * d)) / h - d) with 0 by (field; exact Hh). now rewrite Rabs_R0.
Qed.
Lemma moves_line a d : moves (fun t => rvec [a + t * d]) 0 (rvec [a]) [creal d].
Proof.
  split.
  - unfold rvec. cbn. do 3 f_equal. unfold creal. f_equal. ring.
  - apply near_all. intros t. split; [reflexivity|]. split; [reflexivity|apply real_rvec].
  - reflexivity.
  - intros _. repeat constructor.
  - intros [|j] Hj; [|cbn in Hj; lia]. split; cbn.
    + apply line_slope.
    + apply derivable_pt_lim_const.
Qed.
Lemma real_ov (ov : dict arr) : (forall n a, ov n = Some a -> exists l, a = rvec l) -> forall n a, ov n = Some a -> proper a.
Proof. intros H n a E. destruct (H n a E) as (l & ->). apply real_rvec. Qed.
Lemma sh_graph : goos_graph sh_kinds sh_inputs sh_ov [0; 1; 2]%nat 4 sh_U.
Proof.
  assert (Hc : forall n, In n sh_U -> incl (sh_inputs n) sh_U) by (intros n H; cases8 H; cbn; intros x Hx; repeat (destruct Hx as [<-|Hx]; [cbn; tauto|]); destruct Hx).
  split.
  - split; [repeat constructor; cbn; intuition discriminate|]. intros n. split.
    + assert (R4 : reachable sh_inputs [4%nat] 4) by (exists 4%nat; split; [now left|apply rt_refl]).
      intros H. cases8 H; try exact R4; apply reachable_step with 4%nat; try assumption; cbn; tauto.
    + intros (o & [<-|[]] & Hr). apply clos_rt_rtn1 in Hr. induction Hr as [|y z Hyz Hr IH]; [cbn; tauto|]. exact (Hc y IH z Hyz).
  - apply dag_down. intros n c H. do 5 (destruct n as [|n]; [cbn in H; intuition (subst; lia)|]). destruct H.
  - intros n c Hn. exfalso. do 4 (destruct n as [|n]; [discriminate|]). discriminate.
  - intros n. do 4 (destruct n as [|n]; [cbn; exact I || reflexivity|]). exact I.
  - intros n H. destruct n as [|[|[|n]]]; [cbn; eauto|cbn; eauto|cbn; eauto|]. exfalso. apply H. reflexivity.
  - split.
    + intros n a H. destruct n as [|[|[|n]]]; try discriminate; injection H as <-; apply real_rvec.
    + intros n a _ H. do 4 (destruct n as [|n]; [discriminate|]). discriminate.
  - intros n h fn gr v _ _ H. do 4 (destruct n as [|n]; [discriminate|]). discriminate.
  - split; [repeat constructor; cbn; intuition discriminate|]. intros x [<-|[<-|[<-|[]]]]; discriminate.
Qed.
Lemma sh_varying : varying sh_ov [0; 1; 2]%nat sh_W 0 [[creal 0]; [creal 0]; [creal 1]].
Proof.
  split.
  - apply Forall2_cons; [|apply Forall2_cons; [|apply Forall2_cons; [|constructor]]].
    + exists (rvec [1]), (fun _ => rvec [1]). split; [reflexivity|]. split; [reflexivity|]. apply (moves_const (a := rvec [1])). apply real_rvec.
    + exists (rvec [2]), (fun _ => rvec [2]). split; [reflexivity|]. split; [reflexivity|]. apply (moves_const (a := rvec [2])). apply real_rvec.
    + exists (rvec [3]), (fun t => rvec [3 + t * 1]). split; [reflexivity|]. split; [reflexivity|]. apply moves_line.
  - intros x t Hx. unfold sh_W. apply dset_other. intros ->. apply Hx. cbn. tauto.
Qed.
Lemma shared_refuted_pf : exists kinds inputs ov vars out U fuel gs W t0 ds l,
  goos_graph kinds inputs ov vars out U /\ (1 + length U <= fuel)%nat /\ (exists v, goos_eval kinds inputs (fun _ l => l) fuel ov out = Ok v /\ cpx v = false /\ size v = 1%nat) /\
  goos_grad kinds inputs (fun _ l => l) fuel ov out vars = Ok gs /\ varying ov vars W t0 ds /\
  derivable_pt_lim (fun t => number (goos_eval kinds inputs (fun _ l => l) fuel (W t) out)) t0 l /\ total_rate (flags ov vars) gs ds <> l.
Proof.
  exists sh_kinds, sh_inputs, sh_ov, [0; 1; 2]%nat, 4%nat, sh_U, 10%nat. eexists. exists sh_W, 0, [[creal 0]; [creal 0]; [creal 1]], 1.
  split; [exact sh_graph|]. split; [cbn; lia|]. split; [eexists; split; [vm_compute; reflexivity|split; reflexivity]|].
  split; [vm_compute; reflexivity|]. split; [exact sh_varying|]. split.
  - eapply derive_ext_near with (f := fun t => 10 + t * 1); [|apply line_slope]. apply near_all. intros t. vm_compute. ring.
  - unfold flags, total_rate, rate. cbn. lra.
Qed.

(** *** a number times a vector *)
Definition br_kinds (n : nat) : kind := match n with 0 => KVar 0 | 1 => KConst (rvec [1; 2]%R) | 2 => KProd | 3 => KConst (rvec [1; 1]%R) | _ => KDot end%nat.
Definition br_inputs (n : nat) : list nat := match n with 2 => [0; 1] | 4 => [2; 3] | _ => [] end%nat.
Definition br_ov : dict arr := dset dempty 0%nat (rvec [5]%R).
Lemma broadcast_refuted_pf : exists kinds inputs ov x a out fuel v g, ov x = Some a /\ goos_eval kinds inputs (fun _ l => l) fuel ov out = Ok v /\ cpx v = false /\ size v = 1%nat /\
  goos_grad kinds inputs (fun _ l => l) fuel ov out [x] = Ok [g] /\ length g <> size a.
Proof.
  exists br_kinds, br_inputs, br_ov, 0%nat, (rvec [5]), 4%nat, 10%nat. eexists _, _. split; [reflexivity|]. split; [vm_compute; reflexivity|]. split; [reflexivity|]. split; [reflexivity|].
  split; [vm_compute; reflexivity|]. discriminate.
Qed.

(** *** one constant in products with vectors of different lengths *)
Definition fr_kinds (n : nat) : kind :=
  match n with
  | 0 => KVar 0 | 1 => KVar 1 | 2 => KConst (rvec [2]%R) | 3 => KProd | 4 => KProd | 5 => KConst (rvec [1; 1]%R) | 6 => KConst (rvec [1; 1; 1]%R) | 7 => KDot | 8 => KDot | _ => KSum
  end%nat.
Definition fr_inputs (n : nat) : list nat := match n with 3 => [2; 0] | 4 => [2; 1] | 7 => [3; 5] | 8 => [4; 6] | 9 => [7; 8] | _ => [] end%nat.
Definition fr_ov : dict arr := dset (dset dempty 0%nat (rvec [1; 2]%R)) 1%nat (rvec [1; 2; 3]%R).
Lemma frozen_refuted_pf : exists kinds inputs ov vars out fuel v, goos_eval kinds inputs (fun _ l => l) fuel ov out = Ok v /\ cpx v = false /\ size v = 1%nat /\
  goos_grad kinds inputs (fun _ l => l) fuel ov out vars = Err ValueError.
Proof.
  exists fr_kinds, fr_inputs, fr_ov, [0; 1]%nat, 9%nat, 20%nat. eexists. split; [vm_compute; reflexivity|]. split; [reflexivity|]. split; [reflexivity|]. vm_compute. reflexivity.
Qed.

(** *** a real variable times the imaginary unit *)
Definition im_kinds (n : nat) : kind := match n with 0 => KVar 0 | 1 => KConst (mkarr true [(0, 1)%R]) | 2 => KProd | _ => KAbs end%nat.
Definition im_inputs (n : nat) : list nat := match n with 2 => [0; 1] | 3 => [2] | _ => [] end%nat.
Definition im_ov : dict arr := dset dempty 0%nat (rvec [1]%R).
Definition im_W (t : R) : dict arr := dset im_ov 0%nat (rvec [1 + t * 1]%R).
Lemma im_value t : 0 < 1 + t * 1 -> number (goos_eval im_kinds im_inputs (fun _ l => l) 10 (im_W t) 3) = 1 + t * 1.
Proof.
  intros Ht. cbv -[cabs Rplus Rmult Rminus Ropp IZR]. unfold cabs. cbn [fst snd].
  transitivity (sqrt ((1 + t * 1) * (1 + t * 1))); [f_equal; ring|]. apply sqrt_square. lra.
Qed.
Lemma im_grad : exists g, goos_grad im_kinds im_inputs (fun _ l => l) 10 im_ov 3 [0]%nat = Ok [[g]] /\ fst g = / 2.
Proof.
  cbv -[cabs czero Rplus Rmult Rminus Ropp Rinv IZR cmul cadd creal cscale cconj].
  match goal with |- context [czero ?z] => assert (E : czero z = false) end.
  { apply czero_false. unfold cmul, creal. cbn. intros H. injection H as H1 H2. lra. }
  rewrite E. cbv -[cabs Rplus Rmult Rminus Ropp Rinv IZR cmul cadd creal cscale cconj]. eexists. split; [reflexivity|].
  match goal with |- context [cabs ?z] => assert (Ea : cabs z = 1) end.
  { unfold cabs, cmul, creal. cbn. replace (_ + _) with 1 by ring. apply sqrt_1. }
  rewrite Ea. unfold cmul, creal, cscale, cconj. cbn. field.
Qed.
Lemma complex_refuted_pf : exists kinds inputs ov vars out fuel gs W t0 ds l,
  (exists v, goos_eval kinds inputs (fun _ l => l) fuel ov out = Ok v /\ cpx v = false /\ size v = 1%nat) /\
  goos_grad kinds inputs (fun _ l => l) fuel ov out vars = Ok gs /\ varying ov vars W t0 ds /\
  derivable_pt_lim (fun t => number (goos_eval kinds inputs (fun _ l => l) fuel (W t) out)) t0 l /\ total_rate (flags ov vars) gs ds = l / 2 /\ l <> 0.
Proof.
  destruct im_grad as (g & Hg & Hg2).
  exists im_kinds, im_inputs, im_ov, [0]%nat, 3%nat, 10%nat, [[g]], im_W, 0, [[creal 1]], 1. split; [|split; [exact Hg|split; [|split; [|split; [|lra]]]]].
  - eexists. split; [cbv -[cabs Rplus Rmult Rminus Ropp IZR]; reflexivity|split; reflexivity].
  - split.
    + apply Forall2_cons; [|constructor]. exists (rvec [1]), (fun t => rvec [1 + t * 1]). split; [reflexivity|]. split; [reflexivity|]. apply moves_line.
    + intros x t Hx. unfold im_W. apply dset_other. intros ->. apply Hx. cbn. tauto.
  - eapply derive_ext_near with (f := fun t => 1 + t * 1); [|apply line_slope]. exists 1. split; [lra|]. intros t Ht. symmetry. apply im_value. apply Rabs_def2 in Ht. lra.
  - unfold flags, total_rate, rate. cbn. rewrite Hg2. field.
Qed.

(** *** the main theorem in terms of [eval] *)
Lemma value_from_eval kinds inputs ord fuel ov vars out U v : (forall blk c, Permutation (ord blk c) c) -> (1 + length U <= fuel)%nat ->
  goos_graph kinds inputs ov vars out U -> goos_eval kinds inputs ord fuel ov out = Ok v -> value_of kinds inputs ov out v.
Proof.
  intros Hord Hf HG Hv. apply (@eval_value kinds inputs ord fuel ov vars out U Hord Hf HG ov v) in Hv; [exact Hv| |].
  - intros n Hn. exact (heavy_ov HG n Hn).
  - intros x a Hx. exact (over_leaf HG _ Hx).
Qed.
Lemma goos_gradient_correct_pf kinds inputs ord fuel ov vars out U v0 :
  (forall blk c, Permutation (ord blk c) c) -> (1 + length U <= fuel)%nat ->
  goos_graph kinds inputs ov vars out U -> differentiable kinds inputs ov vars U ->
  goos_eval kinds inputs ord fuel ov out = Ok v0 -> cpx v0 = false -> size v0 = 1%nat ->
  exists gs, goos_grad kinds inputs ord fuel ov out vars = Ok gs /\
    Forall2 (fun x g => exists a, ov x = Some a /\ grad_for a g) vars gs /\
    forall W t0 ds, varying ov vars W t0 ds ->
      near t0 (fun t => exists v, goos_eval kinds inputs ord fuel (W t) out = Ok v) /\
      derivable_pt_lim (fun t => number (goos_eval kinds inputs ord fuel (W t) out)) t0 (total_rate (flags ov vars) gs ds).
Proof.
  intros Hord Hf HG HD Hv Hr H1. exact (goos_grad_correct ord Hord Hf HG HD (value_from_eval ord Hord Hf HG Hv) Hr H1).
Qed.

(** *** partial derivatives *)
Definition bump (a : arr) (j : nat) (t : R) : arr := mkarr false (map (fun i => if Nat.eqb i j then cadd (entry a i) (creal t) else entry a i) (seq 0 (size a))).
Definition unit_at (n j : nat) : list C := map (fun i => if Nat.eqb i j then c1 else c0) (seq 0 n).
Lemma seq_nth_map {A} (f : nat -> A) n d j : (j < n)%nat -> nth j (map f (seq 0 n)) d = f j.
Proof. intros H. rewrite (nth_indep _ d (f 0%nat)) by (rewrite map_length, seq_length; exact H). rewrite map_nth, seq_nth by exact H. reflexivity. Qed.
Lemma bump_entry a j t i : (i < size a)%nat -> entry (bump a j t) i = if Nat.eqb i j then cadd (entry a i) (creal t) else entry a i.
Proof. intros H. unfold entry at 1, bump. cbn [dat]. now rewrite seq_nth_map. Qed.
Lemma bump_size a j t : size (bump a j t) = size a.
Proof. unfold bump, size. cbn. now rewrite map_length, seq_length. Qed.
Lemma bump_moves a j : proper a -> cpx a = false -> moves (bump a j) 0 a (unit_at (size a) j).
Proof.
  intros Hp Hc.
  assert (Hreal : forall i, snd (entry a i) = 0) by exact (proj1 (real_nth _) (Hp Hc)).
  split.
  - destruct a as [ca l]. cbn in Hc. subst ca. unfold bump. f_equal. apply (nth_ext _ _ c0 c0); [now rewrite map_length, seq_length|]. intros i Hi. rewrite map_length, seq_length in Hi.
    rewrite seq_nth_map by exact Hi. unfold entry. cbn [dat]. fold c0. destruct (Nat.eqb i j); [|reflexivity]. fold c0. ring.
  - apply near_all. intros t. split; [now rewrite Hc|]. split; [apply bump_size|]. intros _. apply real_nth. intros i.
    destruct (Nat.lt_ge_cases i (size a)) as [H|H]; [|rewrite nth_overflow; [reflexivity|fold (size (bump a j t)); rewrite bump_size; exact H]].
    change (nth i (dat (bump a j t)) c0) with (entry (bump a j t) i). rewrite bump_entry by exact H. destruct (Nat.eqb i j); [|apply Hreal]. cbn. rewrite Hreal. ring.
  - unfold unit_at. now rewrite map_length, seq_length.
  - intros _. apply Forall_forall. intros z Hz. apply in_map_iff in Hz as (i & <- & _). destruct (Nat.eqb i j); reflexivity.
  - intros i Hi. unfold unit_at. rewrite seq_nth_map by exact Hi. destruct (Nat.eqb i j) eqn:E.
    + split; (eapply derive_ext; [intros t; rewrite bump_entry by exact Hi; rewrite E; cbn; reflexivity|]).
      * eapply derive_ext with (f := fun t => fst (entry a i) + t * 1); [intros t; ring|]. apply line_slope.
      * eapply derive_ext with (f := fun t => snd (entry a i)); [intros t; ring|]. apply derivable_pt_lim_const.
    + split; (eapply derive_ext; [intros t; rewrite bump_entry by exact Hi; rewrite E; reflexivity|]); apply derivable_pt_lim_const.
Qed.
Lemma rate_unit g n j : length g = n -> (j < n)%nat -> rate false g (unit_at n j) = fst (nth j g c0).
Proof.
  intros Hl Hj. rewrite rate_sum by (unfold unit_at; rewrite map_length, seq_length; exact Hl). unfold unit_at at 1. rewrite map_length, seq_length.
  unfold fac, sumj. rewrite (rsum_ext _ (fun i => if Nat.eqb i j then fst (nth i g c0) else 0)).
  - rewrite Rmult_1_l. assert (H : forall k m, rsum (map (fun i => if Nat.eqb i j then fst (nth i g c0) else 0) (seq k m)) = if (Nat.leb k j && Nat.ltb j (k + m))%bool then fst (nth j g c0) else 0).
    { intros k m. revert k. induction m as [|m IH]; intros k; cbn [seq map].
      - unfold rsum. cbn [fold_right]. destruct (Nat.leb_spec k j), (Nat.ltb_spec j (k + 0)); cbn; try reflexivity; lia.
      - unfold rsum. cbn [fold_right]. fold (rsum (map (fun i => if Nat.eqb i j then fst (nth i g c0) else 0) (seq (S k) m))). rewrite IH.
        destruct (Nat.eqb_spec k j) as [->|Hk].
        + destruct (Nat.leb_spec (S j) j); [lia|]. cbn [andb]. rewrite Nat.leb_refl. destruct (Nat.ltb_spec j (j + S m)); [|lia]. cbn. ring.
        + destruct (Nat.leb_spec (S k) j), (Nat.leb_spec k j); try lia; cbn [andb]; destruct (Nat.ltb_spec j (S k + m)), (Nat.ltb_spec j (k + S m)); try lia; ring. }
    rewrite H. cbn [Nat.leb andb Nat.add]. destruct (Nat.ltb_spec j n); [reflexivity|lia].
  - intros i Hi. apply in_seq in Hi. unfold unit_at. rewrite seq_nth_map by lia. destruct (Nat.eqb i j); unfold cmul, c1, c0, creal; cbn; ring.
Qed.
Lemma goos_partials_pf kinds inputs ord fuel ov vars out U v0 gs x a g j :
  (forall blk c, Permutation (ord blk c) c) -> (1 + length U <= fuel)%nat ->
  goos_graph kinds inputs ov vars out U -> differentiable kinds inputs ov vars U ->
  goos_eval kinds inputs ord fuel ov out = Ok v0 -> cpx v0 = false -> size v0 = 1%nat ->
  goos_grad kinds inputs ord fuel ov out vars = Ok gs -> In (x, g) (combine vars gs) ->
  ov x = Some a -> cpx a = false -> (j < size a)%nat ->
  derivable_pt_lim (fun t => number (goos_eval kinds inputs ord fuel
    (dset ov x (mkarr false (map (fun i => if Nat.eqb i j then cadd (entry a i) (creal t) else entry a i) (seq 0 (size a))))) out))
    0 (fst (nth j g (creal 0))).
Proof.
  intros Hord Hf HG HD Hv Hr H1 Hgs Hxg Hx Hc Hj. destruct (@goos_gradient_correct_pf kinds inputs ord fuel ov vars out U v0 Hord Hf HG HD Hv Hr H1) as (gs' & E & HF & HW). rewrite Hgs in E. injection E as <-.
  set (ds := map (fun y => if Nat.eqb y x then unit_at (size a) j else match ov y with Some b => zeros (size b) | None => [] end) vars).
  assert (HV : varying ov vars (fun t => dset ov x (bump a j t)) 0 ds).
  { split.
    - unfold ds. assert (Hsub : forall y, In y vars -> ov y <> None) by exact (proj2 (g_vars HG)). clear ds HF Hxg HW. revert Hsub. generalize vars as l. intros l Hsub. induction l as [|y l IH]; [constructor|]. cbn [map]. apply Forall2_cons.
      + destruct (Nat.eqb_spec y x) as [->|Hne].
        * exists a, (bump a j). split; [exact Hx|]. split; [intros t; apply dset_same|]. apply bump_moves; [|exact Hc]. exact (proj1 (g_proper HG) x a Hx).
        * destruct (ov y) as [b|] eqn:Ey; [|destruct (Hsub y (or_introl eq_refl) Ey)]. exists b, (fun _ => b). split; [reflexivity|]. split; [intros t; now rewrite dset_other by exact Hne|].
          apply moves_const. exact (proj1 (g_proper HG) y b Ey).
      + apply IH. intros z Hz. apply Hsub. now right.
    - intros y t Hy. apply dset_other. intros ->. apply Hy. exact (in_combine_l _ _ _ _ Hxg). }
  destruct (HW _ _ _ HV) as (_ & Hd). replace (fst (nth j g (creal 0))) with (total_rate (flags ov vars) gs ds); [exact Hd|].
  unfold ds, flags. assert (Hnd := proj1 (g_vars HG)). clear Hd HV HW ds Hgs. revert Hnd HF Hxg. generalize vars as l. intros l. revert gs.
  assert (H0 : forall l gs, ~ In x l -> total_rate (map (fun y => match ov y with Some b => cpx b | None => false end) l) gs
     (map (fun y => if Nat.eqb y x then unit_at (size a) j else match ov y with Some b => zeros (size b) | None => [] end) l) = 0).
  { induction l0 as [|y l0 IH]; intros [|g' gs'] Hn; cbn [map total_rate]; try reflexivity. rewrite IH by (intros H; apply Hn; now right).
    destruct (Nat.eqb_spec y x) as [->|_]; [destruct Hn; now left|]. rewrite rate_zero; [ring|]. intros i. destruct (ov y); [apply zeros_nth|]. now destruct i. }
  induction l as [|y l IH]; intros gs Hnd HF Hin; inversion HF as [|? g' ? gs' (b & Hb & Hg') HF']; subst; [destruct Hin|]. inversion Hnd as [|? ? Hny Hnd']; subst.
  cbn [map total_rate]. destruct Hin as [E|Hin].
  - injection E as -> ->. rewrite Hx in Hb. injection Hb as <-. rewrite Nat.eqb_refl, Hx, Hc, H0 by exact Hny. rewrite (@rate_unit g (size a) j (proj1 Hg') Hj). fold c0. ring.
  - rewrite (IH gs' Hnd' HF' Hin). assert (Hne : y <> x) by (intros ->; apply Hny; exact (in_combine_l _ _ _ _ Hin)).
    destruct (Nat.eqb_spec y x) as [->|_]; [congruence|]. rewrite Hb. rewrite rate_zero; [ring|]. apply zeros_nth.
Qed.
