(** Far fields: the matrices of a plane and of a box *)
From Coq Require Import Reals List ZArith Lra.
From Verif Require Import Base CField CField_Proofs GMath_Model GMath_Proofs CplxField Maxwell_Model Maxwell_Spec Maxwell_Proofs Maxwell_Proofs2 Maxwell_Proofs3 Wg_Model Wg_Model2 Wg_Spec Fs_Model Ov_Model Ov_Spec Ov_Proofs Ov_Proofs2 Ov_Proofs3 Far_Model Far_Spec Far_Proofs Far_Proofs2 Far_Proofs3.
From Verif Require Ff_Model Ff_Proofs5 Fs_Proofs6.
Set Implicit Arguments.
Local Open Scope K_scope.

Section Window.
Variable g : grid CC.
Local Notation n := (cellsn g).
Lemma block_pick l u x y z : block l u x y z = true <-> forall a, (a < 3)%nat -> (l a <= pick a x y z < u a)%nat.
Proof.
  unfold block. rewrite forallb_forall. split; intros H a Ha.
  - assert (I : In a (seq 0 3)) by (apply in_seq; lia). apply H in I. apply andb_prop in I. destruct I as [I J]. apply Nat.leb_le in I. apply Nat.ltb_lt in J. lia.
  - apply in_seq in Ha. specialize (H a ltac:(lia)). apply andb_true_intro. split; [apply Nat.leb_le|apply Nat.ltb_lt]; lia.
Qed.
Lemma cell_selected s e x y z : in_grid g x y z -> block s e x y z = true -> In (x + dim g 0 * (y + dim g 1 * z))%nat (selected_cells g s e).
Proof.
  intros Hi Hb. apply filter_In. split.
  - apply in_seq. split; [lia|]. destruct Hi as (Hx & Hy & Hz). unfold cellsn.
    assert (y + dim g 1 * z < dim g 1 * dim g 2)%nat by nia. nia.
  - rewrite in_slices_block. rewrite !Fs_Proofs6.coord_cell by (auto; lia). exact Hb.
Qed.
Lemma two_in (l : list nat) a b : In a l -> In b l -> a <> b -> (2 <= length l)%nat.
Proof. destruct l as [|x [|y l]]; cbn; intros Ha Hb Hn; [contradiction|exfalso; destruct Ha, Hb; subst; tauto|lia]. Qed.
(** the window has two cells *)
Lemma two_cells s e b : (forall a, (a < 3)%nat -> (s a < e a <= dim g a)%nat) -> (b < 3)%nat -> (S (s b) < e b)%nat -> (2 <= length (selected_cells g s e))%nat.
Proof.
  intros H Hb H2. pose proof (H 0%nat ltac:(lia)). pose proof (H 1%nat ltac:(lia)). pose proof (H 2%nat ltac:(lia)).
  set (c := fun a => if Nat.eqb a b then S (s a) else s a).
  assert (C : forall a, (a < 3)%nat -> (s a <= c a < e a)%nat) by (intros a Ha; unfold c; specialize (H a Ha); destruct (Nat.eqb_spec a b); [subst|]; lia).
  assert (G1 : in_grid g (s 0%nat) (s 1%nat) (s 2%nat)) by (repeat split; lia).
  assert (G2 : in_grid g (c 0%nat) (c 1%nat) (c 2%nat)) by (pose proof (C 0%nat); pose proof (C 1%nat); pose proof (C 2%nat); repeat split; lia).
  apply (@two_in _ (s 0 + dim g 0 * (s 1 + dim g 1 * s 2))%nat (c 0 + dim g 0 * (c 1 + dim g 1 * c 2))%nat).
  - apply cell_selected; [exact G1|]. apply block_pick. intros a Ha. specialize (H a Ha). ax3 a; cbn [pick]; lia.
  - apply cell_selected; [exact G2|]. apply block_pick. intros a Ha. specialize (C a Ha). ax3 a; cbn [pick]; lia.
  - intros E. pose proof (@Fs_Proofs6.coord_cell g _ _ _ b Hb G1) as E1. rewrite E, Fs_Proofs6.coord_cell in E1 by auto.
    assert (c b = s b) by (ax3 b; exact E1). unfold c in *. rewrite Nat.eqb_refl in *. lia.
Qed.
Lemma one_cell s e : (forall a, (a < 3)%nat -> e a = S (s a) /\ (s a < dim g a)%nat) -> length (selected_cells g s e) = 1%nat.
Proof.
  intros H. pose proof (H 0%nat ltac:(lia)). pose proof (H 1%nat ltac:(lia)). pose proof (H 2%nat ltac:(lia)).
  assert (G1 : in_grid g (s 0%nat) (s 1%nat) (s 2%nat)) by (repeat split; lia).
  assert (I : In (s 0 + dim g 0 * (s 1 + dim g 1 * s 2))%nat (selected_cells g s e)).
  { apply cell_selected; [exact G1|]. apply block_pick. intros a Ha. specialize (H a Ha). ax3 a; cbn [pick]; lia. }
  assert (ND : NoDup (selected_cells g s e)) by (apply NoDup_filter, seq_NoDup).
  assert (U : forall t t', In t (selected_cells g s e) -> In t' (selected_cells g s e) -> t = t').
  { assert (Q : forall t, In t (selected_cells g s e) -> (t < n)%nat /\ forall a, (a < 3)%nat -> coord g a t = s a).
    { intros t Ht. apply filter_In in Ht. destruct Ht as [Ht Hs]. apply in_seq in Ht. split; [lia|]. intros a Ha. rewrite in_slices_block in Hs. apply (proj1 (block_pick _ _ _ _ _)) with (a := a) in Hs; [|exact Ha].
      rewrite pick_coord_K in Hs by auto. specialize (H a Ha). lia. }
    intros t t' Ht Ht'. destruct (Q t Ht) as [L C]. destruct (Q t' Ht') as [L' C']. apply (@cell_ext CC g); auto. intros a Ha. now rewrite C, C'. }
  destruct (selected_cells g s e) as [|t [|t' l]]; [contradiction|reflexivity|]. exfalso. inversion ND as [|? ? Hn _]. apply Hn. left. apply U; cbn; auto.
Qed.
End Window.

Section Plane.
Add Field CCf5 : (k_field CC).
Variable g : grid CC.
Variable xyz : nat -> nat -> R.
Local Notation n := (cellsn g).
Local Notation N := (vlen g).
(** the end of the window: one cell along the normal *)
Definition thick (axis : nat) (u : nat -> nat) (a : nat) : nat := if Nat.eqb a axis then S (u a) else u a.
Definition faces (pos width : nat -> R) (l u : nat -> nat) : Prop := forall a, (a < 3)%nat ->
  nearest (xyz a) (dim g a) (pos a - width a / 2) (l a) /\ nearest (xyz a) (dim g a) (pos a + width a / 2) (u a).
Lemma first_is pos width l u a : faces pos width l u -> (a < 3)%nat -> slice_first g xyz pos width a = l a.
Proof. intros H Ha. destruct (H a Ha) as [H1 _]. unfold slice_first. now apply find_ind_nearest. Qed.
Lemma end_is pos width l u axis pol a : faces pos width l u -> (a < 3)%nat -> Z.abs pol = 1%Z -> slice_end g xyz pos width axis pol a = thick axis u a.
Proof.
  intros H Ha Hp. destruct (H a Ha) as [_ H1]. unfold slice_end, thick. rewrite (find_ind_nearest H1). destruct (Nat.eqb a axis); [|lia].
  rewrite Zabs2Nat.abs_nat_spec, Hp. change (Z.to_nat 1) with 1%nat. lia.
Qed.
Lemma block_ext l u l' u' x y z : (forall a, (a < 3)%nat -> l a = l' a) -> (forall a, (a < 3)%nat -> u a = u' a) -> block l u x y z = block l' u' x y z.
Proof. intros H H'. unfold block. cbn [seq forallb]. now rewrite !H, !H' by lia. Qed.
Lemma cells_is pos width l u axis pol : faces pos width l u -> Z.abs pol = 1%Z ->
  selected_cells g (slice_first g xyz pos width) (slice_end g xyz pos width axis pol) = selected_cells g l (thick axis u).
Proof.
  intros H Hp. unfold selected_cells. apply filter_ext. intros t. rewrite !in_slices_block. apply block_ext; intros a Ha; [now apply (@first_is pos width l u)|now apply (@end_is pos width l u)].
Qed.
Lemma flat_axis pos width l u axis : faces pos width l u -> (axis < 3)%nat -> width axis = 0%R -> l axis = u axis.
Proof.
  intros H Ha H0. destruct (H axis Ha) as [H1 H2]. rewrite H0 in H1, H2. replace (pos axis + 0 / 2)%R with (pos axis - 0 / 2)%R in H2 by field. exact (nearest_unique H1 H2).
Qed.
Lemma faces_lt pos width l u a : faces pos width l u -> (a < 3)%nat -> (l a < dim g a /\ u a < dim g a)%nat.
Proof. intros H Ha. destruct (H a Ha) as [[H1 _] [H2 _]]. auto. Qed.
Lemma plane_lemma pts omega pos width pol eps0 mu0 axis l u :
  (axis < 3)%nat -> width axis = 0%R -> (forall a, (a < axis)%nat -> width a <> 0%R) -> Z.abs pol = 1%Z -> omega <> 0%R -> eps0 <> 0%R ->
  (2 <= length pts)%nat -> (forall p, In p pts -> Ff_Model.norm p <> 0%R) -> faces pos width l u ->
  (forall a, (a < 3)%nat -> a <> axis -> (l a < u a)%nat) -> (exists a, (a < 3)%nat /\ a <> axis /\ (S (l a) < u a)%nat) ->
  exists T, make_near2farfield_matrix g xyz pts omega pos width pol eps0 mu0 2 = Ok T /\
    projects g pts T (plane_field g xyz omega mu0 axis pol (block l (thick axis u))).
Proof.
  intros Ha H0 Hw Hp Ho He H2 Hn HF Hlt (b & Hb & Hbn & Hb2).
  set (s := l). set (e := thick axis u). assert (C2 : (2 <= length (selected_cells g s e))%nat).
  { apply (@two_cells g s e b); [|exact Hb|].
    - intros a Hl. pose proof (faces_lt HF Hl). unfold s, e, thick. destruct (Nat.eqb_spec a axis) as [->|Hne].
      + pose proof (flat_axis HF Ha H0). lia.
      + specialize (Hlt a Hl Hne). lia.
    - unfold s, e, thick. destruct (Nat.eqb_spec b axis); [contradiction|exact Hb2]. }
  set (cells := selected_cells g s e) in *.
  destruct (make_fourier_matrix g xyz omega axis pts cells) as [fourier|er] eqn:EF.
  2:{ exfalso. unfold make_fourier_matrix in EF. destruct (Nat.eqb_spec (length pts) 1); [lia|]. destruct (Nat.eqb_spec (length cells) 1); [lia|]. cbn [orb] in EF. destruct (Nat.eqb_spec (length cells) 0); [lia|discriminate]. }
  destruct (spheric_matrix pts Hn) as (S & ES & HS).
  unfold make_near2farfield_matrix. rewrite (axis_of_width width Ha H0 Hw). rewrite (cells_is axis pol HF Hp). fold s e cells. rewrite EF. cbn [bind].
  destruct (Req_EM_T eps0 0); [contradiction|]. rewrite ES. cbn [bind]. eexists. split; [reflexivity|].
  intros E k p Hk. pose proof (nth_error_nth pts k origin Hk) as Ep. assert (Kl : (k < length pts)%nat) by (apply nth_error_Some; congruence).
  set (P := length pts) in *. unfold row_of. match goal with |- context [mmul (3 * P) S ?X] => set (tc := X) end.
  match goal with |- context [mmul (3 * P) (bmat P ?X) (mmul (3 * P) S tc)] => set (M := bmat P X) end.
  assert (CT : forall c, (c < 3)%nat -> act N tc (at_ (vec g E)) (c * P + k) = plane_field g xyz omega mu0 axis pol (block s e) p E c).
  { intros c Hc. rewrite <- Ep. unfold tc. rewrite <- (@cartesian_at g xyz pts omega mu0 eps0 axis pol s e fourier E c k); [reflexivity|exact Ha|exact Hc|exact Kl|exact Ho|exact He|apply Hn; now apply nth_In|exact EF]. }
  destruct (radial_removed (act N (mmul (3 * P) S tc) (at_ (vec g E))) Kl) as (R0 & R1 & R2). fold M in R0, R1, R2.
  destruct (HS (act N tc (at_ (vec g E))) k Kl) as [S1 S2]. fold P in S1, S2. rewrite Ep in S1, S2.
  change (act N (mmul (3 * P) M (mmul (3 * P) S tc)) (at_ (vec g E)) k = 0 /\ act N (mmul (3 * P) M (mmul (3 * P) S tc)) (at_ (vec g E)) (P + k) = along_theta p (plane_field g xyz omega mu0 axis pol (block s e) p E)
    /\ act N (mmul (3 * P) M (mmul (3 * P) S tc)) (at_ (vec g E)) (2 * P + k) = along_phi p (plane_field g xyz omega mu0 axis pol (block s e) p E)).
  rewrite !act_mmul. split; [exact R0|]. split.
  - replace (P + k)%nat with (1 * P + k)%nat by lia. rewrite R1, act_mmul, S1. now apply along_theta_ext.
  - rewrite R2, act_mmul, S2. now apply along_phi_ext.
Qed.
Lemma single_error pts omega pos width pol eps0 mu0 sa axis l u :
  (axis < 3)%nat -> width axis = 0%R -> (forall a, (a < axis)%nat -> width a <> 0%R) -> Z.abs pol = 1%Z -> faces pos width l u ->
  (length pts = 1%nat \/ forall a, (a < 3)%nat -> a <> axis -> u a = S (l a)) ->
  make_near2farfield_matrix g xyz pts omega pos width pol eps0 mu0 sa = Err IndexError.
Proof.
  intros Ha H0 Hw Hp HF Hd. unfold make_near2farfield_matrix. rewrite (axis_of_width width Ha H0 Hw). rewrite (cells_is axis pol HF Hp).
  assert (E : make_fourier_matrix g xyz omega axis pts (selected_cells g l (thick axis u)) = Err IndexError); [|now rewrite E].
  unfold make_fourier_matrix. destruct Hd as [->|Hd]; [reflexivity|]. rewrite (@one_cell g l (thick axis u)).
  - now rewrite orb_true_r.
  - intros a Hl. pose proof (faces_lt HF Hl). unfold thick. destruct (Nat.eqb_spec a axis) as [->|Hne]; [|split; [now apply Hd|lia]]. rewrite (flat_axis HF Ha H0). lia.
Qed.
End Plane.
