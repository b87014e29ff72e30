(** Simulation spaces per wavelength, and materials. *)
From Verif Require Import QTac Select_Model Select_Spec Space_Model Space_Spec Space_Proofs Space_Proofs2.
From Coq Require Import ZArith Qabs.
Set Implicit Arguments.
Open Scope Q_scope.

Example decimal_exponent_exists : decimal_exponent lg10 /\ lg10 1550 = Some 3%Z /\ lg10 (-5 # 1000) = Some (-3)%Z.
Proof. split; [exact lg10_ok|split; vm_compute; reflexivity]. Qed.
(** C137 *)
Theorem space_wavelength_error lg v : decimal_exponent lg ->
  (v == 0 /\ round_sig lg v = Err (UserError 0)) \/
  (~ v == 0 /\ exists k, round_sig lg v = Ok k /\ Qabs (k - v) <= (1 # 2000000) * Qabs v).
Proof.
  intros H. destruct (Qeq_dec v 0) as [E|E]; [left; split; [exact E|exact (round_sig_zero H E)]|right; split; [exact E|]].
  destruct (round_sig_nonzero H E) as (e & _ & _ & _ & R). eexists. split; [exact R|]. exact (proj1 (round_sig_error H _ R)).
Qed.
Theorem space_wavelength_exact lg v : decimal_exponent lg -> ~ v == 0 -> seven_digits v -> exists k, round_sig lg v = Ok k /\ k == v.
Proof. intros H. exact (@round_sig_exact lg H v). Qed.
Example exact_wavelengths : seven_digits (1550123 # 1000) /\ round_sig lg10 (1550123 # 1000) = Ok (1550123 # 1000) /\
  round_sig lg10 (15501234 # 10000) = Ok (1550123 # 1000) /\ round_sig lg10 (1550123500001 # 1000000000) = Ok (387531 # 250) /\ round_sig lg10 (99999996 # 10) = Ok 10000000.
Proof. split; [exists 1550123%Z, (-3)%Z; split; [lia|reflexivity]|]. repeat split; vm_compute; reflexivity. Qed.
Theorem space_wavelength_idempotent lg v k : decimal_exponent lg -> round_sig lg v = Ok k -> exists k', round_sig lg k = Ok k' /\ k' == k.
Proof. intros H. exact (@round_sig_idem lg H v k). Qed.
Theorem space_wavelength_shared lg a b k l : decimal_exponent lg -> round_sig lg a = Ok k -> round_sig lg b = Ok l -> k == l ->
  Qabs (a - b) <= (1 # 2000000) * (Qabs a + Qabs b).
Proof. intros H. exact (@round_sig_equal lg H a b k l). Qed.
Theorem space_cache_transparent lg grid_bg grid_fg nx ny nz sel ws s w : has_space lg grid_bg grid_fg nx ny nz sel ws s ->
  fst (call lg grid_bg grid_fg nx ny nz sel s w) = fresh lg grid_bg grid_fg nx ny nz sel w.
Proof. exact (@transparent lg grid_bg grid_fg nx ny nz sel ws s w). Qed.
Theorem space_created lg grid_bg grid_fg nx ny nz sel u :
  create lg grid_bg grid_fg nx ny nz sel u = Err ValueError /\ u = false \/ u = true /\
  match fresh lg grid_bg grid_fg nx ny nz sel 1500 with
  | Ok _ => exists s, create lg grid_bg grid_fg nx ny nz sel u = Ok s
  | Err e => create lg grid_bg grid_fg nx ny nz sel u = Err e end.
Proof. exact (@create_outcome lg grid_bg grid_fg nx ny nz sel u). Qed.
Theorem space_dims_of_newest lg grid_bg grid_fg nx ny nz sel ws s w k :
  has_space lg grid_bg grid_fg nx ny nz sel ws s -> round_sig lg w = Ok k ->
  ((exists w', In w' (1500 :: ws) /\ round_sig lg w' = Ok k) -> snd (call lg grid_bg grid_fg nx ny nz sel s w) = s) /\
  ((forall w', In w' (1500 :: ws) -> round_sig lg w' <> Ok k) -> forall i d, make grid_bg grid_fg nx ny nz sel k = Ok (i, d) ->
     design_dims (snd (call lg grid_bg grid_fg nx ny nz sel s w)) = Some d).
Proof.
  intros H R. split.
  - intros (w' & A & B). exact (@call_again lg grid_bg grid_fg nx ny nz sel ws s w w' k H R A B).
  - intros N i d M. exact (@dims_new lg grid_bg grid_fg nx ny nz sel ws s w k i d H R M N).
Qed.
Theorem space_dims_constant lg grid_bg grid_fg nx ny nz sel ws s d : has_space lg grid_bg grid_fg nx ny nz sel ws s ->
  (forall w k i d', In w (1500 :: ws) -> round_sig lg w = Ok k -> make grid_bg grid_fg nx ny nz sel k = Ok (i, d') -> d' = d) -> design_dims s = Some d.
Proof. intros H C. destruct (dims_some H) as (w & k & i & d' & A & B & M & E). rewrite E. f_equal. exact (C w k i d' A B M). Qed.
Theorem space_dims_full lg grid_bg grid_fg nx ny nz ws s : has_space lg grid_bg grid_fg nx ny nz FullDirect ws s -> design_dims s = Some (Dims4 3 nx ny nz).
Proof. exact (@full_direct_dims lg grid_bg grid_fg nx ny nz ws s). Qed.
(** two wavelengths with design areas of different size *)
Definition bg1 (w : Q) : res field := Ok (fun _ _ _ _ => 1).
Definition fg1 (w : Q) : res field := Ok (fun _ a b _ => if Nat.eqb a 1 && (Nat.leb b 1 || qlt 1520 w && Nat.leb b 2) then 12 else 1).
Lemma case_space sel ws : is_ok (fresh lg10 bg1 fg1 4 4 1 sel 1500) = true ->
  has_space lg10 bg1 fg1 4 4 1 sel ws (calls lg10 bg1 fg1 4 4 1 sel (snd (call lg10 bg1 fg1 4 4 1 sel (Space [] None) 1500)) ws).
Proof.
  intros H. destruct (create_outcome lg10 bg1 fg1 4 4 1 sel true) as [[_ X]|[_ X]]; [discriminate|].
  destruct (fresh lg10 bg1 fg1 4 4 1 sel 1500); [|discriminate]. destruct X as (s & C). exists s. split; [exact C|].
  destruct (@create_is lg10 bg1 fg1 4 4 1 sel s C) as (-> & _). reflexivity.
Qed.
Theorem space_dims_stale_refuted : exists lg grid_bg grid_fg nx ny nz ws s w i a b,
  decimal_exponent lg /\ has_space lg grid_bg grid_fg nx ny nz Direct ws s /\ fst (call lg grid_bg grid_fg nx ny nz Direct s w) = Ok i /\
  design_dims (snd (call lg grid_bg grid_fg nx ny nz Direct s w)) = Some (Dims2 a b) /\ (a * b <> i_cols i)%nat.
Proof.
  set (s := calls lg10 bg1 fg1 4 4 1 Direct (snd (call lg10 bg1 fg1 4 4 1 Direct (Space [] None) 1500)) [1550]).
  assert (D : match fst (call lg10 bg1 fg1 4 4 1 Direct s 1500) with Ok i => i_cols i = 3%nat | Err _ => False end) by (vm_compute; reflexivity).
  destruct (fst (call lg10 bg1 fg1 4 4 1 Direct s 1500)) as [i|e] eqn:E; [|contradiction].
  exists lg10, bg1, fg1, 4%nat, 4%nat, 1%nat, [1550], s, 1500, i, 1%nat, 5%nat. split; [exact lg10_ok|]. split; [apply case_space; vm_compute; reflexivity|].
  split; [exact E|]. split; [vm_compute; reflexivity|rewrite D; discriminate].
Qed.
Theorem space_foreground_full lg grid_bg grid_fg nx ny nz ws s w k bg fg : has_space lg grid_bg grid_fg nx ny nz FullDirect ws s ->
  round_sig lg w = Ok k -> grid_bg k = Ok bg -> grid_fg k = Ok fg ->
  exists f b, fst (get_fg_and_bg lg grid_bg grid_fg nx ny nz FullDirect s w) = Ok (f, b) /\
    forall comp i j l, (comp < 3)%nat -> (i < nx)%nat -> (j < ny)%nat -> (l < nz)%nat ->
      f (cell nx ny nz comp i j l) == fg comp i j l /\ b (cell nx ny nz comp i j l) == bg comp i j l.
Proof. exact (@full_direct lg grid_bg grid_fg nx ny nz ws s w k bg fg). Qed.
Theorem space_foreground_direct lg grid_bg grid_fg nx ny nz ws s w k bg fg sm dm : has_space lg grid_bg grid_fg nx ny nz Direct ws s ->
  round_sig lg w = Ok k -> grid_bg k = Ok bg -> grid_fg k = Ok fg -> selection_matrix nx ny nz bg fg = Ok (sm, dm) ->
  exists f b, fst (get_fg_and_bg lg grid_bg grid_fg nx ny nz Direct s w) = Ok (f, b) /\
    forall comp i j l, (i < nx)%nat -> (j < ny)%nat -> (l < nz)%nat ->
      b (cell nx ny nz comp i j l) == bg comp i j l /\
      (fg comp i j l == bg comp i j l \/ (exists p q, (p < 2)%nat /\ (q < 2)%nat /\ differs nx ny nz bg fg (fst (quadrant nx ny comp i j p q)) (snd (quadrant nx ny comp i j p q))) ->
       f (cell nx ny nz comp i j l) == fg comp i j l).
Proof. exact (@direct_fg lg grid_bg grid_fg nx ny nz ws s w k bg fg sm dm). Qed.
Theorem space_foreground_reduced lg grid_bg grid_fg nx ny nz ws s w k bg fg sm dm x0 y0 x1 y1 : has_space lg grid_bg grid_fg nx ny nz Reduced ws s ->
  round_sig lg w = Ok k -> grid_bg k = Ok bg -> grid_fg k = Ok fg -> reduced_matrix nx ny nz bg fg = Ok (sm, dm) -> design_bounds_yee nx ny nz bg fg = Ok (x0, y0, x1, y1) ->
  exists f b, fst (get_fg_and_bg lg grid_bg grid_fg nx ny nz Reduced s w) = Ok (f, b) /\
    forall comp i j l, (comp < 3)%nat -> (i < nx)%nat -> (j < ny)%nat -> (l < nz)%nat ->
      b (cell nx ny nz comp i j l) == bg comp i j l /\
      ((x0 <= i <= x1 /\ y0 <= j <= y1)%nat -> f (cell nx ny nz comp i j l) == fg comp i j l) /\
      Select_Model.qabs (f (cell nx ny nz comp i j l) - fg comp i j l) <= 1 # 1000000.
Proof. exact (@reduced_fg lg grid_bg grid_fg nx ny nz ws s w k bg fg sm dm x0 y0 x1 y1). Qed.
Example space_case : forall sel, sel <> OtherType -> exists s, has_space lg10 bg1 fg1 4 4 1 sel [1550; 1500; 1310] s.
Proof. intros sel H. eexists. apply case_space. destruct sel; try (vm_compute; reflexivity). contradiction. Qed.
Example space_case_fg : is_ok (selection_matrix 4 4 1 (fun _ _ _ _ => 1) (fun _ a b _ => if Nat.eqb a 1 && Nat.leb b 1 then 12 else 1)) = true /\
  is_ok (reduced_matrix 4 4 1 (fun _ _ _ _ => 1) (fun _ a b _ => if Nat.eqb a 1 && Nat.leb b 1 then 12 else 1)) = true /\
  design_bounds_yee 4 4 1 (fun _ _ _ _ => 1) (fun _ a b _ => if Nat.eqb a 1 && Nat.leb b 1 then 12 else 1) = Ok (1, 0, 1, 1)%nat.
Proof. repeat split; vm_compute; reflexivity. Qed.
(** C138 *)
Theorem material_precedence table pchip read m w z : mat_index m = Some z -> forall w',
  (exists eps, drawn_eps table pchip read m w = Ok eps /\ square_of eps z) /\ drawn_eps table pchip read m w' = drawn_eps table pchip read m w /\
  goos_eps (Some m) w = drawn_eps table pchip read m w.
Proof.
  intros H w'. destruct (@index_wins table pchip read m w z H w') as (A & B & C). split; [|split; [exact B|exact C]].
  exists (csq z). split; [exact A|split; reflexivity].
Qed.
Theorem material_errors table pchip read m w :
  ((exists e, drawn_eps table pchip read m w = Err e) <->
   mat_index m = None /\ (mat_name m = Some NOther \/ mat_name m = None /\
     forall f d, mat_file m = Some f -> read f = Some d -> col_wl d = None \/ col_n d = None)) /\
  forall e, drawn_eps table pchip read m w = Err e -> e = ValueError.
Proof. split; [exact (@mat_error table pchip read m w)|exact (@mat_error_kind table pchip read m w)]. Qed.
Theorem material_named_lossless table pchip read m w name eps : mat_index m = None -> mat_name m = Some name -> drawn_eps table pchip read m w = Ok eps ->
  snd eps == 0 /\ fst eps == fst (refractive_index table name w) * fst (refractive_index table name w) /\
  (0 < fst (refractive_index table name w) -> (ceq eps (mat_eps (refractive_index table name w)) <-> snd (refractive_index table name w) == 0)).
Proof. exact (@named_eps table pchip read m w name eps). Qed.
Theorem material_eps nk : square_of (mat_eps nk) (fst nk, - snd nk) /\ mat_eps_real nk == fst (mat_eps nk).
Proof. split; [split; reflexivity|]. unfold mat_eps, mat_eps_real. cbn. ring. Qed.
Theorem material_file table pchip read m w f d wl n i : interpolates pchip -> mat_index m = None -> mat_name m = None -> mat_file m = Some f -> read f = Some d ->
  col_wl d = Some wl -> col_n d = Some n -> increasing wl -> length n = length wl -> (i < length wl)%nat -> w == 1000 * qn wl i ->
  (forall k, col_k d = Some k -> length k = length wl -> exists eps, drawn_eps table pchip read m w = Ok eps /\ square_of eps (qn n i, - qn k i)) /\
  (col_k d = None -> exists eps, drawn_eps table pchip read m w = Ok eps /\ ceq eps (qn n i * qn n i, 0)).
Proof.
  intros Hp Hi Hn Hf Hr Hw Hc Inc Ln Hl E. split.
  - intros k Hk Lk. exact (@file_eps table pchip read m w f d wl n k i Hp Hi Hn Hf Hr Hw Hc Hk Inc Ln Lk Hl E).
  - intros Hk. exact (@file_no_k table pchip read m w f d wl n i Hp Hi Hn Hf Hr Hw Hc Hk Inc Ln Hl E).
Qed.
Theorem material_sign n m n' k' e e' : 0 < n -> 0 < n' -> square_of e (n, m) -> square_of e' (n', - k') -> (ceq e e' <-> n == n' /\ m == - k').
Proof.
  intros H H' [A B] [A' B']. rewrite <- (@csq_eq n m n' (- k') H H'). unfold ceq, csq. cbn in *. rewrite A, B, A', B'. tauto.
Qed.
Theorem material_goos_index_only table pchip read m w : match goos_eps m w with
  | Ok eps => exists m', m = Some m' /\ mat_index m' <> None /\ drawn_eps table pchip read m' w = Ok eps
  | Err e => m = None /\ e = AttributeError \/ exists m', m = Some m' /\ mat_index m' = None /\ e = TypeError end.
Proof. exact (@goos_needs table pchip read m w). Qed.
(** an interpolation: the value at the largest data point not above *)
Fixpoint step (x y : list Q) (w : Q) : Q :=
  match x, y with a :: x', b :: y' => match x' with c :: _ => if qlt w c then b else step x' y' w | [] => b end | _, _ => 0 end.
Lemma step_interpolates : interpolates step.
Proof.
  intros x. induction x as [|a x IH]; intros y i w Inc L Hi E; [cbn in Hi; lia|]. destruct y as [|b y]; [discriminate|]. cbn [step].
  destruct x as [|c x].
  - destruct i; [reflexivity|cbn in Hi; lia].
  - destruct i as [|i].
    + cbn in E. assert (H := Inc 0%nat 1%nat). cbn in H. specialize (H ltac:(lia)). destruct (qlt w c) eqn:Q1; [reflexivity|]. unfold qlt in Q1. rewrite E in Q1.
      destruct (Qle_bool c a) eqn:Q2; [|discriminate]. apply Qle_bool_iff in Q2. lra.
    + assert (Hw : c <= w). { rewrite E. destruct i as [|i]; [apply Qle_refl|]. apply Qlt_le_weak. exact (Inc 1%nat (S (S i)) ltac:(cbn in *; lia)). }
      destruct (qlt w c) eqn:Q1.
      * unfold qlt in Q1. destruct (Qle_bool c w) eqn:Q2; [discriminate|]. apply Qle_bool_iff in Hw. congruence.
      * change (qn (b :: y) (S i)) with (qn y i). apply IH; [exact (increasing_tail Inc)|cbn in *; lia|cbn in *; lia|exact E].
Qed.
Example material_file_case : interpolates step /\
  drawn_eps (fun _ _ => (3, 1)) step (fun _ => Some (Csv (Some [1; 3 # 2]) (Some [2; 3]) (Some [0; 1 # 10]))) (MatSpec None None (Some O)) 1500 = Ok (3 * 3 - - (1 # 10) * - (1 # 10), 2 * (3 * - (1 # 10))).
Proof. split; [exact step_interpolates|reflexivity]. Qed.
Theorem material_named_refuted : exists table m w eps, mat_name m = Some NSi /\ 0 < snd (refractive_index table NSi w) /\
  drawn_eps table step (fun _ => None) m w = Ok eps /\ ~ ceq eps (mat_eps (refractive_index table NSi w)).
Proof.
  exists (fun _ _ => (4, 1 # 10)), (MatSpec None (Some NSi) None), 700. eexists. split; [reflexivity|]. split; [reflexivity|]. split; [reflexivity|].
  intros [_ E]. vm_compute in E. discriminate.
Qed.

Print Assumptions space_wavelength_error. Print Assumptions space_wavelength_exact. Print Assumptions space_wavelength_idempotent.
Print Assumptions space_wavelength_shared. Print Assumptions space_cache_transparent. Print Assumptions space_created.
Print Assumptions space_dims_of_newest. Print Assumptions space_dims_constant. Print Assumptions space_dims_full. Print Assumptions space_dims_stale_refuted.
Print Assumptions space_foreground_full. Print Assumptions space_foreground_direct. Print Assumptions space_foreground_reduced.
Print Assumptions material_precedence. Print Assumptions material_errors. Print Assumptions material_named_lossless. Print Assumptions material_file.
Print Assumptions material_sign.
Print Assumptions material_eps. Print Assumptions material_goos_index_only. Print Assumptions material_named_refuted.
