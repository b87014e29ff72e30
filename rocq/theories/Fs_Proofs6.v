(** Free space sources: the statements put together, and small instances. *)
From Coq Require Import Reals ZArith Lra Lia List.
From Verif Require Wg_Proofs8.
From Verif Require Import Base CField CField_Proofs GMath_Model GMath_Proofs CplxField Maxwell_Model Maxwell_Spec Maxwell_Proofs Maxwell_Proofs2 Maxwell_Proofs3 Maxwell_Proofs4 Wg_Model Wg_Model2 Wg_Spec Fs_Model Fs_Spec Fs_Proofs Fs_Proofs2 Fs_Proofs3 Fs_Proofs4 Fs_Proofs5.
Import ListNotations.
Set Implicit Arguments.
Local Open Scope R_scope.

Lemma frame_lemma axis back theta psi pol : (axis < 3)%nat ->
  let n := direction axis (sign back) theta psi in let e := polarized axis (sign back) theta psi pol in
  dot n n = 1 /\ dot e e = 1 /\ dot e n = 0 /\ n axis = sign back * cos theta.
Proof.
  intros Hx n e. split; [now apply direction_unit|]. split; [now apply polarized_unit|]. split; [now apply polarized_transverse|].
  unfold n, direction, along. now rewrite Nat.eqb_refl.
Qed.
Lemma straight_lemma axis back : (axis < 3)%nat -> forall a, (a < 3)%nat ->
  direction axis (sign back) 0 0 a = sign back * unit_vec axis a /\ polarized axis (sign back) 0 0 0 a = unit_vec (Nat.modulo (axis + 1) 3) a.
Proof.
  intros Hx a Ha. unfold polarized, direction, cross_prod, along, unit_vec. rewrite sin_0, cos_0.
  idx axis Hx; idx a Ha; cbn [Nat.modulo Nat.divmod Nat.add Nat.sub fst snd Nat.eqb]; split; ring.
Qed.
Lemma plane_field_lemma g pos eps omega axis sl theta psi pol back power : (axis < 3)%nat -> 0 < omega -> 0 < average g sl (eps 0%nat) ->
  let F := vector_fields g pos eps omega axis sl theta psi pol back power (plane_wave omega (average g sl (eps 0%nat)) back) in
  let k := omega * sqrt (average g sl (eps 0%nat)) in
  let n := direction axis (sign back) theta psi in let e := polarized axis (sign back) theta psi pol in
  (forall a, (a < 3)%nat -> f_k F a = k * n a) /\
  (forall c x y z, (c < 3)%nat -> f_E F c x y z = (rl (sqrt power) * (turn (- (k * dot n (place pos c x y z))) * rl (e c)))%K).
Proof.
  intros Hx Ho He F k n e. split.
  - intros a Ha. apply k_field_at; assumption.
  - intros c x y z Hc. unfold F. rewrite E_field_at by assumption. f_equal. f_equal. apply plane_wave_at; assumption.
Qed.
Lemma gaussian_source_lemma g pos eps omega w0 center axis sl theta psi pol back power : (axis < 3)%nat -> 0 < omega -> 0 < average g sl (eps 0%nat) -> 0 < w0 ->
  let '(J, kv, _) := build_gaussian_source g pos eps omega w0 center axis sl theta psi pol back power in
  let k := omega * sqrt (average g sl (eps 0%nat)) in
  let n := direction axis (sign back) theta psi in let e := polarized axis (sign back) theta psi pol in
  (forall a, (a < 3)%nat -> kv a = k * n a) /\
  forall c x y z, J c x y z = fst (cut_current g eps omega axis sl back kv (fun c x y z =>
    rl (sqrt power) * (rl (waist_amplitude (average g sl (eps 0%nat)) w0) * beam k w0 (permuted_center axis center) n (place pos c x y z) * rl (e c)))%K) c x y z.
Proof.
  intros Hx Ho He Hw. unfold build_gaussian_source. 
  set (F := vector_fields g pos eps omega axis sl theta psi pol back power (gaussian_beam w0 center omega (average g sl (eps 0%nat)) back)).
  assert (HE : forall c x y z, (c < 3)%nat -> f_E F c x y z = (rl (sqrt power) * (rl (waist_amplitude (average g sl (eps 0%nat)) w0) * beam (omega * sqrt (average g sl (eps 0%nat))) w0 (permuted_center axis center) (direction axis (sign back) theta psi) (place pos c x y z) * rl (polarized axis (sign back) theta psi pol c)))%K).
  { intros c x y z Hc. unfold F. rewrite E_field_at by assumption. f_equal. f_equal. apply gaussian_at; assumption. }
  assert (HK : forall a, (a < 3)%nat -> f_k F a = omega * sqrt (average g sl (eps 0%nat)) * direction axis (sign back) theta psi a) by (intros a Ha; apply k_field_at; assumption).
  clearbody F. unfold cut_current at 1. split; [exact HK|].
  intros c x y z. exact (@cut_current_ext g eps omega axis sl back (f_k F) (f_E F) _ c x y z (fun c x y z Hc _ => HE c x y z Hc)).
Qed.
Lemma e2h_at (g : grid CC) ph (omega : CC) v i : (i < vlen g)%nat -> at_ (mv (vlen g) (e2h g ph omega None None) v) i = (at_ (mv (vlen g) (curl_e g (ue ph) (we ph)) v) i / (- ki * omega))%K.
Proof.
  intros Hi. unfold e2h. rewrite !mv_at by auto. rewrite (Fdiv_def (k_field CC)).
  etransitivity; [|exact (@fsum_scale_r CC (vlen g) (kinv (- ki * omega)%K) (fun j => (curl_e g (ue ph) (we ph) i j * at_ v j)%K))].
  apply (@fsum_ext CC). intros j _. rewrite (Fdiv_def (k_field CC)). generalize (curl_e g (ue ph) (we ph) i j), (at_ v j), (kinv (- ki * omega)%K). intros a b c. apply c_eq; cbn; ring.
Qed.
Lemma coord_cell (g : grid CC) x y z a : (a < 3)%nat -> in_grid g x y z -> coord g a (x + dim g 0 * (y + dim g 1 * z)) = pick a x y z.
Proof. intros Ha Hg. destruct (@cell_of g x y z Hg) as (_ & H0 & H1 & H2). now apply coord_axis. Qed.
Lemma slope_at (g : grid CC) k w (E : field3 CC) c a x y z : (c < 3)%nat -> (a < 3)%nat -> in_grid g x y z ->
  dcol g (deriv_forward g (ue (bloch_phases g k)) w) (vec g E) a c (x + dim g 0 * (y + dim g 1 * z)) = slope g k (E c) a x y z.
Proof.
  intros Hc Ha Hg. destruct (@cell_of g x y z Hg) as (Ht & H0 & H1 & H2). set (t := (x + dim g 0 * (y + dim g 1 * z))%nat) in *.
  unfold dcol. rewrite deriv_forward_at by auto. rewrite !part_at by auto using fwd_lt. rewrite !vec_at by auto using fwd_lt. rewrite H0, H1, H2.
  unfold slope, ahead, fd. rewrite !coord_fwd by (auto; lia). rewrite H0, H1, H2. rewrite (@coord_axis g a t x y z Ha H0 H1 H2). cbn [bloch_phases ue].
  idx a Ha; reflexivity.
Qed.
Lemma magnetic_at (g : grid CC) omega k (E : field3 CC) c x y z : (c < 3)%nat -> in_grid g x y z ->
  unvec_or g (mv (vlen g) (e2h g (bloch_phases g k) (rl omega) None None) (vec g E)) c x y z = magnetic g omega k E c x y z.
Proof.
  intros Hc Hg. unfold unvec_or. destruct (@cell_of g x y z Hg) as (Ht & _).
  rewrite e2h_at by (unfold vlen; nia). unfold curl_e. rewrite cross_at by auto. unfold magnetic.
  idx c Hc; cbn [Nat.modulo Nat.divmod Nat.add Nat.sub fst snd]; rewrite !slope_at by (auto; lia); reflexivity.
Qed.
(** turning the axes commutes with the curl *)
Lemma H_field g pos eps omega axis sl theta psi pol back power scalar c x y z : (axis < 3)%nat -> (c < 3)%nat -> in_grid g x y z ->
  let F := vector_fields g pos eps omega axis sl theta psi pol back power scalar in
  f_H F c x y z = magnetic g omega (f_k F) (f_E F) c x y z.
Proof.
  intros Hx Hc Hg F. unfold F. cbn [vector_fields f_H]. set (k := fun a => k_turned back theta psi a * omega * sqrt (average g sl (eps 0%nat))).
  set (g' := turned_grid g axis). set (E := turned_E pos axis back theta psi pol scalar).
  assert (Hg' : in_grid g' (pick (order axis 0) x y z) (pick (order axis 1) x y z) (pick (order axis 2) x y z)).
  { destruct Hg as (? & ? & ?). unfold g', turned_grid, in_grid, order. idx axis Hx; cbn; auto. }
  unfold turned_back at 1. rewrite magnetic_at by (auto; unfold reverse_order; apply Nat.mod_upper_bound; lia).
  change (f_k _) with (fun a => k (reverse_order axis a)). change (f_E _) with (fun a x y z => rl (sqrt power) * turned_back axis (E (reverse_order axis a)) x y z)%K.
  clearbody E k. unfold magnetic, slope, ahead, turned_back, g', turned_grid, total_length, dim, dxe. unfold order, reverse_order.
  set (d := (- ki * rl omega)%K : CC). generalize (rl (sqrt power)). intros p. clear F.
  idx axis Hx; idx c Hc; cbn [Nat.modulo Nat.divmod Nat.add Nat.sub fst snd pick];
   rewrite !(Fdiv_def (k_field CC)); repeat match goal with |- context [kinv ?u] => let i := fresh "i" in set (i := kinv u); clearbody i end;
   repeat match goal with |- context [E ?a ?b ?c ?d] => let i := fresh "e" in set (i := E a b c d); clearbody i end;
   repeat match goal with |- context [if ?b then turn ?a else ?c] => let i := fresh "e" in set (i := if b then turn a else c); clearbody i end;
   apply c_eq; cbn; ring.
Qed.
Lemma magnetic_ext (g : grid CC) omega k E E' c x y z : (forall a, (a < 3)%nat -> forall x y z, in_grid g x y z -> E a x y z = E' a x y z) -> in_grid g x y z ->
  magnetic g omega k E c x y z = magnetic g omega k E' c x y z.
Proof.
  intros H Hg. pose proof Hg as (H0 & H1 & H2). unfold magnetic, slope.
  assert (A : forall a u, (a < 3)%nat -> (u < 3)%nat -> ahead g k (E a) u x y z = ahead g k (E' a) u x y z).
  { intros a u Ha Hu. unfold ahead. f_equal. idx u Hu; apply H; auto; unfold in_grid, pick; repeat split; auto; apply Nat.mod_upper_bound; lia. }
  rewrite !A, !H by (auto; apply Nat.mod_upper_bound; lia). reflexivity.
Qed.
Lemma magnetic_scale (g : grid CC) omega k E a c x y z : magnetic g omega k (fun c x y z => rl a * E c x y z)%K c x y z = (rl a * magnetic g omega k E c x y z)%K.
Proof.
  unfold magnetic, slope. set (u := ((c + 1) mod 3)%nat). set (v := ((c + 2) mod 3)%nat). 
  assert (A : forall b f, ahead g k (fun x y z => rl a * f x y z)%K b x y z = (rl a * ahead g k f b x y z)%K).
  { intros b f. unfold ahead. match goal with |- (?t * _)%K = _ => generalize t end. intros t. destruct b as [|[|b]]; match goal with |- context [f ?x ?y ?z] => generalize (f x y z) end; intros w; apply c_eq; cbn; ring. }
  rewrite !A. clear A. generalize (ahead g k (E v) u x y z), (ahead g k (E u) v x y z), (E u x y z), (E v x y z), (rl a). intros p q r s b.
  rewrite !(Fdiv_def (k_field CC)). match goal with |- (((_ * ?i) - (_ * ?j)) * ?l)%K = _ => generalize i j l end. intros i j l. apply c_eq; cbn; ring.
Qed.
Lemma border_axis sl axis border b : (axis < 3)%nat -> check_border sl axis border = Ok b -> b axis = 0%Z.
Proof.
  intros Hx Hb. assert (Q : forall o : res Z, forall f b, bind o f = Ok b -> exists v, o = Ok v /\ f v = Ok (b : nat -> Z)) by (intros [v|] f b0 H; [now exists v|discriminate]).
  unfold check_border in Hb. apply Q in Hb. destruct Hb as (q0 & E0 & Hb). apply Q in Hb. destruct Hb as (q1 & E1 & Hb). apply Q in Hb. destruct Hb as (q2 & E2 & Hb). injection Hb as <-.
  assert (G : forall q, (if (2 * 0 <? size sl axis)%Z then Ok 0%Z else if (size sl axis =? 1)%Z then Ok 0%Z else Err ValueError) = Ok q -> q = 0%Z).
  { intros q. destruct (2 * 0 <? size sl axis)%Z; [intros I; now inversion I|]. destruct (size sl axis =? 1)%Z; [intros I; now inversion I|discriminate]. }
  idx axis Hx; cbn [Nat.eqb] in E0, E1, E2; [apply G in E0; subst|apply G in E1; subst|apply G in E2; subst]; match goal with |- (if ?b then _ else _) = _ => destruct b end; reflexivity.
Qed.
Lemma crossing_lemma g E H axis sl : (axis < 3)%nat -> transmission_chew g E H axis sl = if Z.eqb (size sl axis) 1 then Ok (crossing g E H axis sl) else Err ValueError.
Proof.
  intros Hx. unfold transmission_chew. destruct (Z.eqb (size sl axis) 1); [|reflexivity]. cbn [negb]. f_equal. unfold crossing. f_equal.
  unfold sum3. apply (@fsum_ext CC). intros x Hx0. apply (@fsum_ext CC). intros y Hy. apply (@fsum_ext CC). intros z Hz.
  destruct (in_slices g sl x y z); [|reflexivity]. assert (Hg : in_grid g x y z) by (repeat split; auto).
  unfold unvec_or. destruct (@cell_of g x y z Hg) as (Ht & H0 & H1 & H2). set (t := (x + dim g 0 * (y + dim g 1 * z))%nat) in *.
  rewrite poynting_e_at by auto.
  assert (EE : forall c, (c < 3)%nat -> at_ (vec g E) (c * cellsn g + fwd g axis t) = shifted g axis (E c) x y z).
  { intros c Hc. rewrite vec_at by auto using fwd_lt. rewrite !coord_fwd by (auto; lia). rewrite H0, H1, H2. unfold shifted. idx axis Hx; reflexivity. }
  assert (HH : forall c, (c < 3)%nat -> at_ (map kconj (vec g H)) (c * cellsn g + t) = kconj (H c x y z)).
  { intros c Hc. rewrite map_conj_at, vec_at by auto. now rewrite H0, H1, H2. }
  unfold face_area, face, cross_product, cross_at3.
  idx axis Hx; cbn [Nat.modulo Nat.divmod Nat.add Nat.sub fst snd pick]; rewrite !EE, !HH by lia; rewrite ?H0, ?H1, ?H2; try reflexivity.
  f_equal. generalize (dxe g 0 x), (dxe g 2 z). intros a b. apply c_eq; cbn; ring.
Qed.
Lemma plane_source_lemma g pos eps omega axis sl theta psi pol back border power J kv s : (axis < 3)%nat -> 0 < omega -> 0 < average g sl (eps 0%nat) -> 0 < power ->
  build_plane_wave_source g pos eps omega axis sl theta psi pol back border power = Ok (J, kv, s) ->
  let k := omega * sqrt (average g sl (eps 0%nat)) in
  let n := direction axis (sign back) theta psi in let e := polarized axis (sign back) theta psi pol in
  exists (a : R) (b : nat -> Z), 0 < a /\ check_border sl axis border = Ok b /\ (forall a, (a < 3)%nat -> kv a = k * n a) /\
    let E : field3 CC := fun c x y z => (rl a * (turn (- (k * dot n (place pos c x y z))) * rl (e c)))%K in
    size sl axis = 1%Z /\ crossing g E (magnetic g omega kv E) axis (inner_window sl b) = 1 /\
    forall c x y z, J c x y z = fst (cut_current g eps omega axis sl back kv (fun c x y z => rl (make_mask g sl axis b x y z) * E c x y z)%K) c x y z.
Proof.
  intros Hx Ho He Hp HB k n e. destruct (build_plane_unit _ _ _ _ _ _ _ _ _ _ Hx Hp HB) as (a & b & Ha & Hb & Hk & HT & HJ).
  exists a, b. split; [exact Ha|]. split; [exact Hb|].
  pose proof (@plane_field_lemma g pos eps omega axis sl theta psi pol back 1 Hx Ho He) as (PK & PE). fold k n e in PK, PE.
  split; [intros i Hi; rewrite Hk; now apply PK|]. cbv zeta.
  assert (PH : forall c x y z, (c < 3)%nat -> in_grid g x y z -> f_H (vector_fields g pos eps omega axis sl theta psi pol back 1 (plane_wave omega (average g sl (eps 0%nat)) back)) c x y z
    = magnetic g omega (f_k (vector_fields g pos eps omega axis sl theta psi pol back 1 (plane_wave omega (average g sl (eps 0%nat)) back))) (f_E (vector_fields g pos eps omega axis sl theta psi pol back 1 (plane_wave omega (average g sl (eps 0%nat)) back))) c x y z) by (intros; now apply H_field).
  set (F := vector_fields g pos eps omega axis sl theta psi pol back 1 (plane_wave omega (average g sl (eps 0%nat)) back)) in *. clearbody F.
  assert (PE' : forall c x y z, (c < 3)%nat -> f_E F c x y z = (turn (- (k * dot n (place pos c x y z))) * rl (e c))%K).
  { intros c x y z Hc. rewrite PE by auto. rewrite sqrt_1. generalize (turn (- (k * dot n (place pos c x y z))) * rl (e c))%K. intros u. apply c_eq; cbn; ring. }
  assert (HT' : transmission_chew g (fun c x y z => rl a * (turn (- (k * dot n (place pos c x y z))) * rl (e c)))%K (magnetic g omega kv (fun c x y z => rl a * (turn (- (k * dot n (place pos c x y z))) * rl (e c)))%K) axis (inner_window sl b) = Ok 1).
  { unfold inner_window. rewrite <- HT. rewrite (@transmission_scale g (fun c x y z => rl a * f_E F c x y z)%K (fun c x y z => rl a * f_H F c x y z)%K
      (fun c x y z => rl a * (turn (- (k * dot n (place pos c x y z))) * rl (e c)))%K (magnetic g omega kv (fun c x y z => rl a * (turn (- (k * dot n (place pos c x y z))) * rl (e c)))%K) axis _ 1); auto; try lra.
    + destruct (transmission_chew _ _ _ _ _) as [P|er]; [|reflexivity]. cbn [bind]. f_equal. ring.
    + intros c x y z Hc _. rewrite PE' by auto. generalize (rl a * (turn (- (k * dot n (place pos c x y z))) * rl (e c)))%K. intros u. apply c_eq; cbn; ring.
    + intros c x y z Hc Hg. rewrite PH by auto. rewrite Hk. rewrite magnetic_scale.
      rewrite (@magnetic_ext g omega (f_k F) (fun c x y z => turn (- (k * dot n (place pos c x y z))) * rl (e c))%K (f_E F)) by (auto; intros; now rewrite PE').
      match goal with |- (_ * ?u)%K = _ => generalize u end. intros u. apply c_eq; cbn; ring. }
  rewrite crossing_lemma in HT' by auto. 
  assert (Hb0 : b axis = 0%Z).
  { exact (@border_axis sl axis border b Hx Hb). }
  assert (Hsz : size (inner_window sl b) axis = size sl axis) by (unfold size, inner_window; cbn [fst snd]; lia). rewrite Hsz in HT'.
  destruct (Z.eqb_spec (size sl axis) 1) as [Hsize|]; [|discriminate]. injection HT' as HT'.
  split; [exact Hsize|]. split; [exact HT'|].
  intros c x y z. rewrite HJ. apply cut_current_ext. intros c' x' y' z' Hc _. now rewrite PE'.
Qed.

(** *** a small grid *)
Definition box (n0 n1 n2 : nat) : grid CC := Grid (K := CC) (fun a => match a with 0 => n0 | 1 => n1 | _ => n2 end)%nat (fun _ _ => 1%K) (fun _ _ => 1%K).
Definition even_places : places := fun _ _ i => INR i.
Definition unit_eps : field3 CC := fun _ _ _ _ => (1 : CC)%K.
Definition all_of (g : grid CC) : slices := fun a => (0, Z.of_nat (dim g a))%Z.
(** 1 x 1 x 3 cells, the source in the middle plane *)
Definition tube : grid CC := box 1 1 3.
Definition middle : slices := fun a => match a with 0 | 1 => (0, 1)%Z | _ => (1, 2)%Z end%nat.
Lemma tube_average : average tube middle (unit_eps 0%nat) = 1.
Proof.
  unfold average, sum3, tube, box, in_slices, middle, set_slice, all_of, selects, bound, re. cbn -[Rdiv]. field.
Qed.
Definition tube_wave (power : R) : res (field3 CC * vec3 * slices) :=
  build_plane_wave_source tube even_places unit_eps PI 2 middle 0 0 0 false (fun _ => 0%Z) power.
Lemma turn_pi (n : nat) : turn (- (PI * INR n)) = rl (if Nat.even n then 1 else -1).
Proof.
  unfold turn, cexp. cbn [fst snd]. rewrite exp_0, cos_neg, sin_neg, (Rmult_comm PI).
  assert (H : forall m, cos (INR m * PI) = (if Nat.even m then 1 else -1) /\ sin (INR m * PI) = 0).
  { induction m as [|m [I1 I2]]; [cbn; rewrite Rmult_0_l, cos_0, sin_0; auto|]. rewrite S_INR. replace ((INR m + 1) * PI) with (INR m * PI + PI) by ring.
    rewrite neg_cos, neg_sin, I1, I2, Nat.even_succ, <- Nat.negb_even. destruct (Nat.even m); cbn [negb]; split; ring. }
  destruct (H n) as [-> ->]. apply c_eq; cbn; ring.
Qed.
Lemma tube_E power c z : (c < 3)%nat -> 0 < power ->
  f_E (vector_fields tube even_places unit_eps PI 2 middle 0 0 0 false power (plane_wave PI (average tube middle (unit_eps 0%nat)) false)) c 0%nat 0%nat z
  = rl (sqrt power * (if Nat.even z then 1 else -1) * unit_vec 0 c).
Proof.
  intros Hc Hp. destruct (@plane_field_lemma tube even_places unit_eps PI 2 middle 0 0 0 false power ltac:(lia) PI_RGT_0 ltac:(rewrite tube_average; lra)) as (_ & P).
  rewrite P by auto. rewrite tube_average, sqrt_1. destruct (@straight_lemma 2 false ltac:(lia) c Hc) as (_ & ->).
  replace (- (PI * 1 * dot (direction 2 (sign false) 0 0) (place even_places c 0 0 z))) with (- (PI * INR z)).
  - rewrite turn_pi. cbn [Nat.add Nat.modulo Nat.divmod Nat.sub fst snd]. apply c_eq; cbn; ring.
  - unfold dot, direction, along, place, even_places, sign. cbn [Nat.eqb Nat.add Nat.modulo Nat.divmod Nat.sub fst snd pick INR]. rewrite sin_0, cos_0. ring.
Qed.
Lemma tube_crossing (E H : field3 CC) : (forall z, (z < 3)%nat -> E 1%nat 0%nat 0%nat z = (0 : CC)%K) ->
  crossing tube E H 2 (inner_window middle (fun _ => 0%Z)) = cabs (E 0%nat 0%nat 0%nat 2%nat * kconj (H 1%nat 0%nat 0%nat 1%nat))%K.
Proof.
  intros H1. unfold crossing, sum3. f_equal. cbn -[kconj car CC kmul kadd ksub shifted cross_at3 face]. 
  unfold face, cross_at3, shifted. cbn -[kconj car CC kmul kadd ksub]. rewrite H1 by lia. generalize (kconj (H 1 0 0 1)%nat), (kconj (H 0 0 0 1)%nat), (E 0 0 0 2)%nat. intros a b c. apply c_eq; cbn; ring.
Qed.
Lemma tube_ok power : 0 < power -> exists J kv s, tube_wave power = Ok (J, kv, s).
Proof.
  intros Hp. unfold tube_wave, build_plane_wave_source.
  assert (HC : exists b, check_border middle 2 (fun _ => 0%Z) = Ok b /\ forall a, (a < 3)%nat -> b a = 0%Z).
  { destruct (@border_used middle 2 (fun _ => 0%Z)) as (b & H1 & H2 & H3); [lia|cbn; lia|intros a Ha Hn; idx a Ha; cbn; lia|].
    exists b. split; [exact H1|]. intros a Ha. destruct (Nat.eq_dec a 2) as [->|Hn]; auto. }
  destruct HC as (b & -> & Hb). cbn [bind].
  set (F := vector_fields tube even_places unit_eps PI 2 middle 0 0 0 false power (plane_wave PI (average tube middle (unit_eps 0%nat)) false)).
  assert (HE : forall c z, (c < 3)%nat -> f_E F c 0%nat 0%nat z = rl (sqrt power * (if Nat.even z then 1 else -1) * unit_vec 0 c)) by (intros; now apply tube_E).
  assert (HH : f_H F 1%nat 0%nat 0%nat 1%nat = magnetic tube PI (f_k F) (f_E F) 1%nat 0%nat 0%nat 1%nat) by (apply H_field; [lia|lia|repeat split; cbn; lia]).
  clearbody F. rewrite crossing_lemma by lia.
  replace (size (fun a => ((fst (middle a) + b a)%Z, (snd (middle a) - b a)%Z)) 2) with 1%Z by (unfold size; rewrite Hb by lia; reflexivity). cbn [Z.eqb Pos.eqb bind].
  assert (HP : crossing tube (f_E F) (f_H F) 2 (fun a => ((fst (middle a) + b a)%Z, (snd (middle a) - b a)%Z)) = power * 2 / PI).
  { transitivity (crossing tube (f_E F) (f_H F) 2 (inner_window middle (fun _ => 0%Z))).
    { unfold crossing, in_slices. rewrite !Hb by lia. reflexivity. }
    rewrite tube_crossing.
    - rewrite HH. unfold magnetic, slope, ahead. cbn -[kconj car CC kmul kadd ksub kdiv tube turn total_length]. rewrite !HE by lia.
      unfold tube, box. cbn [dxe Nat.even]. unfold unit_vec. cbn [Nat.eqb]. pose proof PI_RGT_0 as HPI.
      rewrite cabs_mult. assert (CJ : forall u : CC, cabs (kconj u) = cabs u) by (intros u; exact (Wg_Proofs8.cabs_conj u)). rewrite CJ.
      assert (S : sqrt power * sqrt power = power) by (apply sqrt_sqrt; lra). assert (S0 : 0 < sqrt power) by (apply sqrt_lt_R0; lra).
      revert S S0. generalize (sqrt power). intros r S S0.
      match goal with |- cabs ?u * cabs ?v = _ => replace u with (rl r) by (apply c_eq; cbn; ring); replace v with ((ki * rl (2 * r / PI)) : CC)%K end.
      + rewrite cabs_rl by lra. rewrite cabs_mult, cabs_rl. 2:{ apply Rmult_le_pos; [lra|]. left. apply Rinv_0_lt_compat. lra. }
        replace (cabs (ki : CC)) with 1. 2:{ unfold cabs. cbn. replace (0 * 0 + 1 * 1) with 1 by ring. now rewrite sqrt_1. }
        rewrite <- S. field. lra.
      + cbn [dim Nat.eqb Nat.add]. match goal with |- context [turn ?a] => generalize (turn a) end. intros u. apply c_eq; cbn; unfold cn2; cbn; field; lra.
    - intros z Hz. rewrite HE by lia. apply c_eq; cbn; ring. }
  rewrite HP. destruct (Req_EM_T (power * 2 / PI) 0) as [Z|_].
  - exfalso. pose proof PI_RGT_0. assert (0 < power * 2 / PI) by (apply Rmult_lt_0_compat; [lra|now apply Rinv_0_lt_compat]). lra.
  - unfold cut_current. eauto.
Qed.
