(** The power of plane wave sources, repeated calls, sources in the first plane. *)
From Coq Require Import Reals ZArith Lra Lia List.
From Verif Require Import Base CField CField_Proofs GMath_Model GMath_Proofs CplxField Maxwell_Model Maxwell_Spec Maxwell_Proofs Maxwell_Proofs2 Maxwell_Proofs3 Maxwell_Proofs4 Wg_Model Wg_Model2 Wg_Spec Wg_Proofs8 Wg_Proofs10 Fs_Model Fs_Spec Fs_Proofs Fs_Proofs2 Fs_Proofs3.
Import ListNotations.
Set Implicit Arguments.
Local Open Scope R_scope.

Lemma rl_mult a b : rl (a * b) = (rl a * rl b)%K.
Proof. unfold rl. apply c_eq; cbn; ring. Qed.
Lemma sum3_scale g (a : CC) (f f' : array CC) : (forall x y z, in_grid g x y z -> f' x y z = (a * f x y z)%K) -> sum3 g f' = (a * sum3 g f)%K.
Proof.
  intros H. unfold sum3. apply fsum_scale_ext. intros x Hx. apply fsum_scale_ext. intros y Hy. apply fsum_scale_ext. intros z Hz. apply H. repeat split; assumption.
Qed.
Lemma vec_scale_at g (a : CC) (F F' : field3 CC) i : (i < vlen g)%nat -> (forall c x y z, (c < 3)%nat -> in_grid g x y z -> F' c x y z = (a * F c x y z)%K) ->
  at_ (vec g F') i = (a * at_ (vec g F) i)%K.
Proof.
  intros Hi H. destruct (@block_ex (cellsn g) i Hi) as (c & t & Hc & Ht & ->). rewrite !vec_at by auto. apply H; auto. repeat split; apply coord_lt; auto; lia.
Qed.
Lemma map_conj_at (v : list CC) i : at_ (map kconj v) i = kconj (at_ v i).
Proof. exact (@at_conj CC v i). Qed.
Lemma cross_scale (a b : CC) (e h e' h' : nat -> CC) r : (forall c, (c < 3)%nat -> e' c = (a * e c)%K) -> (forall c, (c < 3)%nat -> h' c = (b * h c)%K) ->
  cross_product e' h' r = (a * b * cross_product e h r)%K.
Proof.
  intros He Hh. unfold cross_product. pose proof (He 0%nat ltac:(lia)) as E0. pose proof (He 1%nat ltac:(lia)) as E1. pose proof (He 2%nat ltac:(lia)) as E2.
  pose proof (Hh 0%nat ltac:(lia)) as H0. pose proof (Hh 1%nat ltac:(lia)) as H1. pose proof (Hh 2%nat ltac:(lia)) as H2.
  rewrite ?E0, ?E1, ?E2, ?H0, ?H1, ?H2. destruct r as [|[|r]];
  match goal with |- (?p - ?q)%K = _ => idtac end; apply c_eq; cbn; ring.
Qed.
Lemma transmission_scale g E H E' H' axis sl (a : R) : (axis < 3)%nat -> 0 <= a ->
  (forall c x y z, (c < 3)%nat -> in_grid g x y z -> E' c x y z = (rl a * E c x y z)%K) ->
  (forall c x y z, (c < 3)%nat -> in_grid g x y z -> H' c x y z = (rl a * H c x y z)%K) ->
  transmission_chew g E' H' axis sl = bind (transmission_chew g E H axis sl) (fun P => Ok (a * a * P)).
Proof.
  intros Hx Ha HE HH. unfold transmission_chew. destruct (negb (Z.eqb (size sl axis) 1)); [reflexivity|]. cbn [bind]. f_equal.
  transitivity (cabs (rl (a * a) * sum3 g (fun x y z => if in_slices g sl x y z then unvec_or g (mv (vlen g) (poynting_chew_e_cross g (vec g E)) (map kconj (vec g H))) axis x y z else 0%K))%K).
  - f_equal. apply sum3_scale. intros x y z Hg. destruct (in_slices g sl x y z); [|apply c_eq; cbn; ring].
    unfold unvec_or. destruct (@cell_of g x y z Hg) as (Ht & _). set (t := (x + dim g 0 * (y + dim g 1 * z))%nat) in *.
    rewrite !poynting_e_at by auto.
    rewrite (@cross_scale (rl a) (rl a) (fun c => at_ (vec g E) (c * cellsn g + fwd g axis t)) (fun c => at_ (map kconj (vec g H)) (c * cellsn g + t))).
    + rewrite rl_mult. generalize (rl a), (face_area g axis t), (cross_product (fun c => at_ (vec g E) (c * cellsn g + fwd g axis t)) (fun c => at_ (map kconj (vec g H)) (c * cellsn g + t)) axis).
      intros p q r. apply c_eq; cbn; ring.
    + intros c Hc. apply vec_scale_at; [|exact HE]. pose proof (@fwd_lt CC g axis t Ht). unfold vlen. nia.
    + intros c Hc. rewrite !map_conj_at. rewrite (@vec_scale_at g (rl a) H H'); [|unfold vlen; nia|exact HH].
      generalize (at_ (vec g H) (c * cellsn g + t)). intros u. apply c_eq; cbn; ring.
  - generalize (sum3 g (fun x y z => if in_slices g sl x y z then unvec_or g (mv (vlen g) (poynting_chew_e_cross g (vec g E)) (map kconj (vec g H))) axis x y z else 0%K)).
    intros u. unfold cabs. cbn. replace (_ + _) with (((a * a) * (a * a)) * (fst u * fst u + snd u * snd u)) by ring.
    rewrite sqrt_mult by nra. rewrite sqrt_square by nra. reflexivity.
Qed.
Lemma cut_current_ext g eps omega axis sl back k E E' c x y z : (forall c x y z, (c < 3)%nat -> in_grid g x y z -> E c x y z = E' c x y z) ->
  fst (cut_current g eps omega axis sl back k E) c x y z = fst (cut_current g eps omega axis sl back k E') c x y z.
Proof.
  intros H. unfold cut_current. cbn [fst].
  assert (V : vec g (cut_field g axis back (cut_index back (sl axis)) E) = vec g (cut_field g axis back (cut_index back (sl axis)) E')).
  { apply vec_same. intros b x' y' z' Hb Hg. unfold cut_field. destruct (selects _ _ _); auto. }
  rewrite V. reflexivity.
Qed.

(** *** plane wave sources *)
Section Plane.
Variables (g : grid CC) (pos : places) (eps : field3 CC) (omega : R) (axis : nat) (sl : slices) (theta psi pol : R) (back : bool) (border : nat -> Z).
Hypothesis Hx : (axis < 3)%nat.
Local Notation scalar := (plane_wave omega (average g sl (eps 0%nat)) back).
Local Notation F p := (vector_fields g pos eps omega axis sl theta psi pol back p scalar).
Lemma F_scale p : 0 <= p -> forall c x y z, f_E (F p) c x y z = (rl (sqrt p) * f_E (F 1) c x y z)%K /\ f_H (F p) c x y z = (rl (sqrt p) * f_H (F 1) c x y z)%K.
Proof.
  intros Hp c x y z. cbn [vector_fields f_E f_H]. rewrite sqrt_1. split; match goal with |- (?u * ?v)%K = _ => generalize v; generalize u end; intros u v; apply c_eq; cbn; ring.
Qed.
Definition same_source (r r' : res (field3 CC * vec3 * slices)) : Prop :=
  match r, r' with
  | Ok (J, k, s), Ok (J', k', s') => (forall c x y z, J c x y z = J' c x y z) /\ k = k' /\ s = s'
  | Err e, Err e' => e = e'
  | _, _ => False
  end.
Lemma build_power p : 0 < p -> same_source (build_plane_wave_source g pos eps omega axis sl theta psi pol back border p)
                                            (build_plane_wave_source g pos eps omega axis sl theta psi pol back border 1).
Proof.
  intros Hp. unfold build_plane_wave_source. destruct (check_border sl axis border) as [b|e]; [|reflexivity]. cbn [bind].
  set (sP := fun a => ((fst (sl a) + b a)%Z, (snd (sl a) - b a)%Z)).
  assert (Hs : 0 < sqrt p) by (apply sqrt_lt_R0; lra). assert (Hss : sqrt p * sqrt p = p) by (apply sqrt_sqrt; lra).
  rewrite (@transmission_scale g (f_E (F 1)) (f_H (F 1)) (f_E (F p)) (f_H (F p)) axis sP (sqrt p)); auto; try lra;
    try (intros c x y z _ _; destruct (@F_scale p ltac:(lra) c x y z); assumption).
  destruct (transmission_chew g (f_E (F 1)) (f_H (F 1)) axis sP) as [P|e]; [|reflexivity]. cbn [bind]. rewrite Hss.
  destruct (Req_EM_T (p * P) 0) as [e0|e0]; destruct (Req_EM_T P 0) as [e1|e1].
  - reflexivity.
  - exfalso. apply Rmult_integral in e0. lra.
  - exfalso. apply e0. rewrite e1. ring.
  - cbn [same_source]. split; [|split; reflexivity]. intros c x y z.
    match goal with |- fst (cut_current _ _ _ _ _ _ ?k _) _ _ _ _ = _ => change k with (f_k (F 1)) | _ => idtac end.
    apply cut_current_ext. intros c' x' y' z' Hc Hg. destruct (@F_scale p ltac:(lra) c' x' y' z') as [-> _].
    rewrite Rabs_mult, (Rabs_right p) by lra. rewrite sqrt_mult by (try lra; apply Rabs_pos).
    assert (Hq : 0 < sqrt (Rabs P)) by (apply sqrt_lt_R0, Rabs_pos_lt; exact e1).
    generalize (f_E (F 1) c' x' y' z'), (make_mask g sl axis b x' y' z'). intros u m. revert Hs Hq. generalize (sqrt p), (sqrt (Rabs P)). intros v w Hv Hw.
    apply c_eq; cbn; unfold cn2; cbn; field; split; nra.
Qed.
(** what is built: the current of the wave, masked, at an amplitude at which 1 is transmitted *)
Lemma build_plane_unit p J k s : 0 < p -> build_plane_wave_source g pos eps omega axis sl theta psi pol back border p = Ok (J, k, s) ->
  exists (a : R) b, 0 < a /\ check_border sl axis border = Ok b /\
    k = f_k (F 1) /\
    transmission_chew g (fun c x y z => (rl a * f_E (F 1) c x y z)%K) (fun c x y z => (rl a * f_H (F 1) c x y z)%K) axis (fun a => (fst (sl a) + b a, snd (sl a) - b a)%Z) = Ok 1 /\
    forall c x y z, J c x y z = fst (cut_current g eps omega axis sl back k (fun c x y z => (rl (make_mask g sl axis b x y z) * (rl a * f_E (F 1) c x y z))%K)) c x y z.
Proof.
  intros Hp H. pose proof (build_power Hp) as HS. rewrite H in HS.
  destruct (build_plane_wave_source g pos eps omega axis sl theta psi pol back border 1) as [[[J1 k1] s1]|e] eqn:E1; [|contradiction].
  cbn [same_source] in HS. destruct HS as (HJ & -> & ->).
  unfold build_plane_wave_source in E1. cbv zeta in E1. set (F1 := F 1) in *. clearbody F1. destruct (check_border sl axis border) as [b|e]; [|discriminate]. cbn [bind] in E1.
  set (sP := fun a => ((fst (sl a) + b a)%Z, (snd (sl a) - b a)%Z)) in *.
  destruct (transmission_chew g (f_E F1) (f_H F1) axis sP) as [P|e] eqn:EP; [|discriminate]. cbn [bind] in E1.
  destruct (Req_EM_T P 0) as [e0|e0]; [discriminate|].
  assert (HP : 0 < P). { unfold transmission_chew in EP. destruct (negb _); [discriminate|]. injection EP as <-.
    match goal with |- 0 < cabs ?z => pose proof (sqrt_pos (fst z * fst z + snd z * snd z)) as Q end. unfold cabs in *. destruct Q as [Q|Q]; [exact Q|]. exfalso. apply e0. symmetry. exact Q. }
  assert (Hq : 0 < sqrt P) by (apply sqrt_lt_R0; lra). assert (Hqq : sqrt P * sqrt P = P) by (apply sqrt_sqrt; lra).
  exists (/ sqrt P), b. split; [now apply Rinv_0_lt_compat|]. split; [reflexivity|].
  injection E1 as <- <- <-. split; [reflexivity|]. split.
  - rewrite (@transmission_scale g (f_E F1) (f_H F1) _ _ axis sP (/ sqrt P)); auto; [|left; now apply Rinv_0_lt_compat].
    rewrite EP. cbn [bind]. f_equal. rewrite <- Rinv_mult, Hqq. field. lra.
  - intros c x y z. rewrite HJ. apply cut_current_ext. intros c' x' y' z' Hc Hg. rewrite Rabs_right by lra.
    generalize (f_E F1 c' x' y' z'), (make_mask g sl axis b x' y' z'). intros u m. revert Hq. generalize (sqrt P). intros w Hw.
    apply c_eq; cbn; unfold cn2; cbn; field; nra.
Qed.
(** *** the list of slices after the call *)
Lemma slices_after p J k s : build_plane_wave_source g pos eps omega axis sl theta psi pol back border p = Ok (J, k, s) ->
  s = set_slice sl axis (cut_index back (sl axis) - 1, cut_index back (sl axis) + 1)%Z /\ exists b, check_border sl axis border = Ok b.
Proof.
  unfold build_plane_wave_source. intros H. destruct (check_border sl axis border) as [b|e]; [|discriminate]. cbn [bind] in H.
  destruct (transmission_chew g _ _ _ _) as [P|e] in H; [|discriminate]. cbn [bind] in H. destruct (Req_EM_T P 0); [discriminate|].
  injection H as <- <- <-. split; [reflexivity|eauto].
Qed.
End Plane.
Lemma second_call g pos eps omega axis sl theta psi pol back border p J k s : (axis < 3)%nat ->
  build_plane_wave_source g pos eps omega axis sl theta psi pol back border p = Ok (J, k, s) ->
  build_plane_wave_source g pos eps omega axis s theta psi pol back border p = Err ValueError.
Proof.
  intros Hx H. apply slices_after in H. destruct H as (-> & b & Hb). set (i := cut_index back (sl axis)). set (s := set_slice sl axis (i - 1, i + 1)%Z).
  unfold build_plane_wave_source.
  assert (Hs : size s axis = 2%Z) by (unfold size, s, set_slice; rewrite Nat.eqb_refl; cbn; lia).
  assert (Ho : forall a, a <> axis -> size s a = size sl a) by (intros a Ha; unfold size, s, set_slice; destruct (Nat.eqb_spec a axis); [congruence|reflexivity]).
  assert (Hc : exists b', check_border s axis border = Ok b' /\ b' axis = 0%Z).
  { clear -Hb Hs Ho Hx. unfold check_border in *.
    set (o := fun sl a => if Z.ltb (2 * (if Nat.eqb a axis then 0 else border a)) (size sl a) then Ok (if Nat.eqb a axis then 0%Z else border a) else if Z.eqb (size sl a) 1 then Ok 0%Z else Err ValueError).
    change (bind (o sl 0%nat) (fun x => bind (o sl 1%nat) (fun y => bind (o sl 2%nat) (fun z => Ok (fun a => if Z.ltb (2 * match a with 0%nat => x | 1%nat => y | _ => z end) (size sl a) then match a with 0%nat => x | 1%nat => y | _ => z end else 0%Z)))) = Ok b) in Hb.
    change (exists b', bind (o s 0%nat) (fun x => bind (o s 1%nat) (fun y => bind (o s 2%nat) (fun z => Ok (fun a => if Z.ltb (2 * match a with 0%nat => x | 1%nat => y | _ => z end) (size s a) then match a with 0%nat => x | 1%nat => y | _ => z end else 0%Z)))) = Ok b' /\ b' axis = 0%Z).
    assert (OA : o s axis = Ok 0%Z) by (unfold o; rewrite Nat.eqb_refl, Hs; reflexivity).
    assert (OO : forall a, a <> axis -> o s a = o sl a) by (intros a Ha; unfold o; rewrite Ho by auto; reflexivity).
    destruct (o sl 0%nat) as [v0|] eqn:E0; [|discriminate]. cbn [bind] in Hb. destruct (o sl 1%nat) as [v1|] eqn:E1; [|discriminate]. cbn [bind] in Hb.
    destruct (o sl 2%nat) as [v2|] eqn:E2; [|discriminate]. clear Hb.
    idx axis Hx; rewrite OA; rewrite ?(OO 0%nat), ?(OO 1%nat), ?(OO 2%nat) by congruence; rewrite ?E0, ?E1, ?E2; cbn [bind]; eexists; (split; [reflexivity|]); cbn beta iota; rewrite Hs; reflexivity. }
  destruct Hc as (b' & -> & Hb0). cbn [bind]. unfold transmission_chew at 1.
  assert (Hz : Z.eqb (size (fun a => (fst (s a) + b' a, snd (s a) - b' a)%Z) axis) 1 = false).
  { unfold size in *. cbn [fst snd]. rewrite Hb0. apply Z.eqb_neq. lia. }
  rewrite Hz. reflexivity.
Qed.
(** *** a source in the first plane *)
Lemma first_plane g eps omega axis sl back k E c x y z : (axis < 3)%nat -> (2 <= dim g axis)%nat -> in_grid g x y z -> cut_index back (sl axis) = 0%Z ->
  fst (cut_current g eps omega axis sl back k E) c x y z = (0 : CC)%K.
Proof.
  intros Hx Hd Hg Hi. unfold cut_current. rewrite Hi. cbn [fst].
  assert (S : in_slices g (set_slice sl axis (0 - 1, 0 + 1)%Z) x y z = false); [|now rewrite S].
  assert (S1 : forall m i, (2 <= m)%nat -> selects m (0 - 1, 0 + 1)%Z i = false).
  { intros m i Hm. unfold selects, bound. cbn [fst snd]. change (0 - 1 <? 0)%Z with true. change (0 + 1 <? 0)%Z with false. cbn [fst snd].
    destruct (Z.leb_spec (Z.max 0 (0 - 1 + Z.of_nat m)) (Z.of_nat i)), (Z.ltb_spec (Z.of_nat i) (Z.min (0 + 1) (Z.of_nat m))); try reflexivity; lia. }
  unfold in_slices, set_slice. idx axis Hx; cbn [Nat.eqb]; rewrite S1 by auto; rewrite ?Bool.andb_false_r; reflexivity.
Qed.
(** *** Gaussian sources called again with the list of slices *)
Lemma gaussian_slices g pos eps omega w0 center axis sl theta psi pol back power :
  snd (build_gaussian_source g pos eps omega w0 center axis sl theta psi pol back power) = set_slice sl axis (cut_index back (sl axis) - 1, cut_index back (sl axis) + 1)%Z.
Proof. unfold build_gaussian_source, cut_current. reflexivity. Qed.
