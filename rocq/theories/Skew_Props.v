(** Periodic boundaries with sideways shifts: C145, C146. *)
From Coq Require Import Reals Lra ZArith Lia.
From Verif Require Import Base CField CField_Proofs Gauss GMath_Model GMath_Proofs CplxField Maxwell_Model Maxwell_Spec Maxwell_Proofs Maxwell_Proofs2 Maxwell_Proofs4
  Fs_Model Fs_Proofs8 Phc_Spec Wg_Model2 Skew_Model Skew_Spec Skew_Proofs Skew_Proofs2 Skew_Proofs3 Skew_Proofs4.
Set Implicit Arguments.
Local Open Scope R_scope.

(** *** C145: plane waves pass the boundaries *)
(** the derivatives of exp(-i k.r), with the phases which the code computes from the cell sizes *)
Theorem skew_plane_wave dim h k so a : (forall a, (a < 3)%nat -> 0 < h a) -> good_shift dim so -> (a < 3)%nat ->
  let dx := fun a (_ : nat) => h a in let g := real_grid dim dx dx in let ph := bloch_phases dim dx dx so k in
  exists De Dh, deriv_forward_shift g (ue ph) (we ph) so = Ok De /\ deriv_back_shift g (uh ph) (wh ph) so = Ok Dh /\
    mv (cellsn g) (De a) (restrict g (wave k h)) = vscale (forward_factor k h a) (restrict g (wave k h)) /\
    mv (cellsn g) (Dh a) (restrict g (wave k h)) = vscale (back_factor k h a) (restrict g (wave k h)).
Proof.
  intros Hh Hgood Ha dx g ph. exists (pick (Dfw g (ue ph) (we ph) so)), (pick (Dbk g (uh ph) (wh ph) so)).
  pose proof (@good_diagonal CC g so Hgood) as Hd.
  assert (P : forall f : nat -> mat CC, pick f a = f a) by (intros f; ax3 a; reflexivity). rewrite !P.
  split; [now apply forward_ok|]. split; [now apply back_ok|].
  assert (S : forall (x : CC) v t, at_ (vscale x v) t = kmul x (at_ v t)).
  { intros x v t. unfold vscale, at_. replace (k0 : CC) with (kmul x k0) at 1 by (apply c_eq; simpl; ring). apply (map_nth (fun y => kmul x y)). }
  split; (apply vec_ext; [unfold vscale, restrict; rewrite map_length, (@mv_length CC), vbuild_length; reflexivity|]); rewrite (@mv_length CC); intros t Ht; rewrite S.
  - etransitivity; [exact (@forward_wave dim h k so Hgood a t Ha Ht)|]. unfold restrict. rewrite vbuild_at by auto. reflexivity.
  - etransitivity; [exact (@back_wave dim h k so Hgood a t Ha Ht)|]. unfold restrict. rewrite vbuild_at by auto. reflexivity.
Qed.
(** the dispersion relation of the grid, in a homogeneous medium *)
Theorem skew_dispersion dim h k so omega e0 A : (forall a, (a < 3)%nat -> 0 < h a) -> good_shift dim so -> transverse k h A ->
  let dx := fun a (_ : nat) => h a in let g := real_grid dim dx dx in
  exists M, wave_operator dim dx dx k so omega (fun _ => e0) None None None = Ok M /\
  mv (vlen g) M (vec g (wave_field k h A)) = vscale (rl (grid_wavenumber2 k h) - omega * omega * e0)%K (vec g (wave_field k h A)).
Proof. intros Hh Hgood HT. exact (@dispersion_lemma dim h k so Hh Hgood omega e0 A HT). Qed.
Theorem skew_resonance_iff dim h k so omega e0 A M : (forall a, (a < 3)%nat -> 0 < h a) -> good_shift dim so -> transverse k h A ->
  (exists c, (c < 3)%nat /\ A c <> k0) -> (forall a, (a < 3)%nat -> (0 < dim a)%nat) ->
  let dx := fun a (_ : nat) => h a in let g := real_grid dim dx dx in
  wave_operator dim dx dx k so omega (fun _ => e0) None None None = Ok M ->
  (mv (vlen g) M (vec g (wave_field k h A)) = zeros CC (vlen g) <-> (omega * omega * e0)%K = rl (grid_wavenumber2 k h)).
Proof.
  intros Hh Hgood HT (c & Hc & HA) Hpos dx g HM. destruct (@dispersion_lemma dim h k so Hh Hgood omega e0 A HT) as (M' & E & D).
  assert (EM : Ok M' = Ok M) by (etransitivity; [symmetry; exact E|exact HM]). injection EM as ->.
  change (mv (vlen g) M (vec g (wave_field k h A)) = vscale (rl (grid_wavenumber2 k h) - omega * omega * e0)%K (vec g (wave_field k h A))) in D. rewrite D. clear D E HM. set (X := rl (grid_wavenumber2 k h)).
  assert (S : forall (x : CC) v t, at_ (vscale x v) t = kmul x (at_ v t)).
  { intros x v t. unfold vscale, at_. replace (k0 : CC) with (kmul x k0) at 1 by (apply c_eq; simpl; ring). apply (map_nth (fun y => kmul x y)). }
  assert (Hn : (0 < cellsn g)%nat).
  { unfold cellsn, g. cbn [Maxwell_Model.dim real_grid]. pose proof (Hpos 0%nat ltac:(lia)). pose proof (Hpos 1%nat ltac:(lia)). pose proof (Hpos 2%nat ltac:(lia)). nia. }
  split; intros H.
  - apply (f_equal (fun l => at_ l (c * cellsn g + 0))) in H. rewrite S, vec_at in H by auto.
    assert (Z0 : at_ (zeros CC (vlen g)) (c * cellsn g + 0) = (0 : CC)%K) by (unfold at_, zeros; apply nth_repeat). rewrite Z0 in H.
    unfold wave_field in H. match type of H with context [wave k h ?q] => pose proof (@wave_nz h k q) as HW; set (F := wave k h q) in * end.
    set (Y := (omega * omega * e0)%K) in *.
    assert (N1 : (A c * F)%K <> k0) by (apply (@kmul_neq0 CC); auto).
    symmetry. apply (@kmul_cancel CC _ X Y N1). set (B := (A c * F)%K) in *. change ((X - Y) * B = 0)%K in H.
    transitivity ((X - Y) * B + B * Y)%K; [apply c_eq; simpl; ring|]. rewrite H. apply c_eq; simpl; ring.
  - rewrite H. apply vec_ext; [unfold vscale, zeros; rewrite map_length, vec_length, repeat_length; reflexivity|]. intros t Ht. rewrite S.
    assert (Z0 : at_ (zeros CC (vlen g)) t = (0 : CC)%K) by (unfold at_, zeros; apply nth_repeat). rewrite Z0. apply c_eq; simpl; ring.
Qed.
(** a shift along the axis itself is refused *)
Theorem skew_rejected dim de dh k so omega eps mu pec pmc : (exists a, (a < 3)%nat /\ so a a <> 0%Z) ->
  wave_operator dim de dh k so omega eps mu pec pmc = Err ValueError.
Proof.
  intros (a & Ha & Hn). unfold wave_operator, e_full_shift, curl_e_shift.
  destruct (@shift_rejected CC (real_grid dim de dh) (ue (bloch_phases dim de dh so k)) (we (bloch_phases dim de dh so k)) so) as [-> _]; [|reflexivity].
  intros H. now apply Hn, H.
Qed.
(** a shift by more than the grid loses phases *)
Definition far (a b : nat) : Z := match a, b with 2%nat, 0%nat => 2%Z | _, _ => 0%Z end.
Theorem skew_far_refuted : exists dim (h k : nat -> R),
  let dx := fun a (_ : nat) => h a in let g := real_grid dim dx dx in let ph := bloch_phases dim dx dx far k in
  exists De, deriv_forward_shift g (ue ph) (we ph) far = Ok De /\
  mv (cellsn g) (De 2%nat) (restrict g (wave k h)) <> vscale (forward_factor k h 2) (restrict g (wave k h)).
Proof.
  exists (fun _ => 1%nat), (fun _ => 1), (fun a => match a with 0%nat => PI / 2 | _ => 0 end).
  intros dx g ph. exists (pick (Dfw g (ue ph) (we ph) far)). split.
  - apply forward_ok. intros a Ha. ax3 a; reflexivity.
  - intros E. apply (f_equal (fun l => at_ l 0)) in E. revert E. cbn [pick].
    rewrite (@Dfw_at CC g (ue ph) (we ph) far (fun _ => rl 1) ltac:(intros; split; reflexivity) 2%nat _ 0%nat ltac:(lia) ltac:(vm_compute; lia)).
    assert (R0 : at_ (mv (cellsn g) (rotation_matrix g 2 1 (ue ph) (we ph) (far 2)) (restrict g (wave (fun a => match a with 0%nat => PI / 2 | _ => 0 end) (fun _ => 1)))) 0
       = (ue ph 2%nat * ue ph 0%nat * turn (- 0))%K).
    { unfold mv, cellsn, g. cbn. unfold rotation_matrix, bloch_data, shifted_index, far, restrict, wave. cbn.
      replace (- (PI / 2 * (1 * 0) + 0 * (1 * 0) + 0 * (1 * 0))) with (-0) by ring. apply c_eq; simpl; ring. }
    rewrite R0. clear R0. unfold restrict, wave, vscale. cbn.
    unfold forward_factor. replace (- (PI / 2 * (1 * 0) + 0 * (1 * 0) + 0 * (1 * 0))) with (-0) by ring.
    unfold ph, bloch_phases, phase, rsum, dx. cbn.
    replace (- (0 * 1)) with (-0) by ring. rewrite Ropp_0, turn_0.
    match goal with |- context [turn (- ?x)] => replace (turn (- x)) with (-1, 0) end;
    [|rewrite turn_value; match goal with |- context [cos ?y] => replace y with PI by field end; rewrite cos_PI, sin_PI; reflexivity].
    match goal with |- context [turn (- ?x)] => replace (turn (- x)) with (0, -1) end;
    [|rewrite turn_value; match goal with |- context [cos ?y] => replace y with (- (PI / 2)) by field end; rewrite cos_neg, sin_neg, cos_PI2, sin_PI2; f_equal; ring].
    intros E. apply (f_equal fst) in E. simpl in E. lra.
Qed.
(** a cell of 2 x 1 x 3 points whose third period is shifted by one cell along the first axis *)
Definition ex_dim (a : nat) : nat := match a with 0%nat => 2%nat | 1%nat => 1%nat | _ => 3%nat end.
Definition ex_so (a b : nat) : Z := match a, b with 2%nat, 0%nat => 1%Z | _, _ => 0%Z end.
Definition ex_k (a : nat) : R := match a with 0%nat => 1 | 1%nat => 0 | _ => 2 end.
Definition ex_amp (c : nat) : CC := match c with 1%nat => k1 | _ => k0 end.
Example skew_ex : good_shift ex_dim ex_so /\ transverse ex_k (fun _ => 1) ex_amp /\ ex_amp 1 <> k0.
Proof.
  split; [|split].
  - intros a b Ha Hb. destruct a as [|[|[|a]]]; [| | |lia]; destruct b as [|[|[|b]]]; try lia; cbn; (split; [reflexivity|]); (split; [lia|]); intros; try lia; reflexivity.
  - unfold transverse, back_factor, ex_k, ex_amp. replace (0 * 1) with 0 by ring. rewrite turn_0. apply c_eq; simpl; field.
  - exact (@k1_neq_0 CC).
Qed.

(** *** C146: conservation laws with sideways shifts *)
Section General.
Variable K : cfield.
Local Open Scope K_scope.
Theorem skew_rotation_inverse (g : grid K) u w so a d v : inverse_factors u w -> good_shift (dim g) so -> (forall b, (b < 3)%nat -> (0 < dim g b)%nat) ->
  (a < 3)%nat -> (d = 1 \/ d = -1)%Z -> length v = cellsn g ->
  exists A B, rotation_bloch_shift g a d u w (so a) = Ok A /\ rotation_bloch_shift g a (- d) u w (so a) = Ok B /\
  mv (cellsn g) B (mv (cellsn g) A v) = v.
Proof.
  intros Huw Hg Hp Ha Hd Hv. exists (rotation_matrix g a d u w (so a)), (rotation_matrix g a (- d) u w (so a)).
  unfold rotation_bloch_shift. destruct (Hg a a Ha Ha) as (-> & _). split; [reflexivity|]. split; [reflexivity|].
  exact (@rot_inverse K g u w so Huw Hg Hp a d v Ha Hd Hv).
Qed.
Theorem skew_div_curl (g : grid K) u w so v : inverse_factors u w -> good_shift (dim g) so -> uniform_cells g ->
  exists De Dh Ce Ch, deriv_forward_shift g u w so = Ok De /\ deriv_back_shift g u w so = Ok Dh /\
    curl_e_shift g u w so = Ok Ce /\ curl_h_shift g u w so = Ok Ch /\
    divergence g De (mv (vlen g) Ce v) = zeros K (cellsn g) /\ divergence g Dh (mv (vlen g) Ch v) = zeros K (cellsn g).
Proof.
  intros Huw Hg Hu. pose proof (@good_diagonal K g so Hg) as Hd.
  exists (pick (Dfw g u w so)), (pick (Dbk g u w so)), (cross g (pick (Dfw g u w so))), (cross g (pick (Dbk g u w so))).
  unfold curl_e_shift, curl_h_shift. rewrite (@forward_ok K g u w so Hd), (@back_ok K g u w so Hd).
  assert (Huni : forall a i, (a < 3)%nat -> (i < dim g a)%nat -> dxe g a i = dxe g a 0%nat /\ dxh g a i = dxe g a 0%nat).
  { intros a i Ha Hi. destruct (Hu a Ha) as (d & H). destruct (H i Hi) as [-> ->]. destruct (H 0%nat ltac:(lia)) as [-> _]. auto. }
  repeat split; apply div_lemma.
  - exact (@commuting_fw K g u w so Hg Huw (fun a => dxe g a 0%nat) Huni).
  - exact (@commuting_bk K g u w so Hg Huw (fun a => dxe g a 0%nat) Huni).
Qed.
Theorem skew_hermitian (g : grid K) (u w : nat -> K) so omega eps mu pec pmc : inverse_factors u w -> (forall a, (a < 3)%nat -> kconj (u a) = w a) ->
  good_shift (dim g) so -> uniform_cells g -> real_cells g -> nonzero_cells g ->
  kconj omega = omega -> (forall i, (i < vlen g)%nat -> kconj (eps i) = eps i) -> real_opt (vlen g) mu -> nonzero_opt (vlen g) mu ->
  exists M, e_full_shift g (Phases u w u w) so omega eps mu pec pmc = Ok M /\ hermitian (vlen g) M.
Proof.
  intros Huw Hc Hg Hu Hr Hnz Hw He Hmr Hm0. pose proof (@good_diagonal K g so Hg) as Hd. eexists. split.
  - unfold e_full_shift, curl_e_shift, curl_h_shift. cbn [ue we uh wh]. rewrite (@forward_ok K g u w so Hd), (@back_ok K g u w so Hd). reflexivity.
  - set (h := fun a => if Nat.ltb 0 (dim g a) then dxe g a 0%nat else 1).
    assert (Huni : forall a i, (a < 3)%nat -> (i < dim g a)%nat -> dxe g a i = h a /\ dxh g a i = h a).
    { intros a i Ha Hi. unfold h. destruct (Nat.ltb_spec 0 (dim g a)); [|lia]. destruct (Hu a Ha) as (d & H1). destruct (H1 i Hi) as [-> ->].
      destruct (H1 0%nat ltac:(lia)) as [-> _]. auto. }
    apply (@operator_hermitian K g u w so Hg Huw h Huni); auto.
    + intros a Ha. unfold h. destruct (Nat.ltb_spec 0 (dim g a)); [now apply Hr|apply kconj_1].
    + intros a Ha. unfold h. destruct (Nat.ltb_spec 0 (dim g a)); [now apply Hnz|apply k1_neq_0].
Qed.
End General.
(** the divergence of a curl on cells of different sizes, with a shift *)
Definition uneven : grid G := Grid (fun a => match a with 0 => 2 | _ => 1 end)%nat
  (fun a i => match a, i with 0, 1 => gz 2 0 | _, _ => gz 1 0 end)%nat (fun a i => match a, i with 0, 1 => gz 2 0 | _, _ => gz 1 0 end)%nat.
Theorem skew_div_curl_refuted : exists (g : grid G) u w so v De Ce, inverse_factors u w /\ good_shift (dim g) so /\
  deriv_forward_shift g u w so = Ok De /\ curl_e_shift g u w so = Ok Ce /\ divergence g De (mv (vlen g) Ce v) <> zeros G (cellsn g).
Proof.
  exists uneven, (one G), (one G), ex_so, [gz 1 0; gz 2 0; gz 3 0; gz 5 0; gz 7 0; gz 11 0].
  do 2 eexists. split; [intros a; apply geqb_true; vm_compute; reflexivity|]. split.
  { intros a b Ha Hb. destruct a as [|[|[|a]]]; [| | |lia]; destruct b as [|[|[|b]]]; try lia; cbn; (split; [reflexivity|]); (split; [lia|]); intros; try lia; reflexivity. }
  split; [reflexivity|]. split; [reflexivity|].
  intros E. apply (f_equal (fun l => geqb (at_ l 0) (gz 0 0))) in E. vm_compute in E. discriminate.
Qed.
(** the resonances of a medium with positive permittivity have real frequencies *)
Theorem skew_frequencies_real dim h k so omega eps M E : (forall a, (a < 3)%nat -> 0 < h a) -> good_shift dim so ->
  let dx := fun a (_ : nat) => h a in let g := real_grid dim dx dx in
  (forall i, (i < vlen g)%nat -> positive (eps i)) ->
  wave_operator dim dx dx k so omega eps None None None = Ok M -> length E = vlen g -> E <> zeros CC (vlen g) -> mv (vlen g) M E = zeros CC (vlen g) ->
  snd omega = 0.
Proof.
  intros Hh Hgood dx g He HM HE Hz H. destruct (@real_frequency_lemma dim h k so Hh Hgood omega eps M E He HM HE Hz H) as [A B].
  destruct omega as [x y]. simpl in *. destruct (Req_dec y 0) as [->|Hy]; [reflexivity|exfalso]. assert (x * y = 0) by lra.
  destruct (Rmult_integral _ _ H0); [subst x|contradiction]. pose proof (Rsqr_pos_lt y Hy) as Hp. unfold Rsqr in Hp. lra.
Qed.
Example skew_general_ex : inverse_factors (ue (K:=G) (Phases (fun _ => gz 0 (-1)) (fun _ => gz 0 1) (fun _ => gz 0 (-1)) (fun _ => gz 0 1))) (fun _ => gz 0 1)
  /\ kconj (gz 0 (-1) : G) = gz 0 1 /\ uniform_cells (Grid (fun _ => 2%nat) (fun _ _ => gz 3 0) (fun _ _ => gz 3 0) : grid G).
Proof.
  split; [intros a; apply geqb_true; vm_compute; reflexivity|]. split; [apply geqb_true; vm_compute; reflexivity|].
  intros a Ha. exists (gz 3 0). intros i Hi. split; reflexivity.
Qed.
Print Assumptions skew_plane_wave. Print Assumptions skew_dispersion. Print Assumptions skew_resonance_iff. Print Assumptions skew_rejected.
Print Assumptions skew_far_refuted. Print Assumptions skew_rotation_inverse. Print Assumptions skew_div_curl. Print Assumptions skew_hermitian.
Print Assumptions skew_div_curl_refuted. Print Assumptions skew_frequencies_real.
