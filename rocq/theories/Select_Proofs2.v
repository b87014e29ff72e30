(** The older selection matrices. *)
From Verif Require Import Base QTac Render_Proofs Select_Model Select_Spec Select_Proofs.
From Coq Require Import ZArith Setoid.
Set Implicit Arguments.

Definition i01 (b : bool) : Q := if b then 1 else 0.
Lemma even_axis x a : i01 (Nat.eqb (x / 2) a) == sumn 2 (fun p => i01 (Nat.eqb (2 * a + p) x)).
Proof.
  cbn [sumn]. pose proof (Nat.div_mod x 2 ltac:(lia)) as D. pose proof (Nat.mod_upper_bound x 2 ltac:(lia)) as M. destruct (Nat.eqb_spec (x / 2) a) as [<-|N].
  - destruct (Nat.eqb_spec (2 * (x / 2) + 0) x), (Nat.eqb_spec (2 * (x / 2) + 1) x); try reflexivity; lia.
  - destruct (Nat.eqb_spec (2 * a + 0) x), (Nat.eqb_spec (2 * a + 1) x); try reflexivity; exfalso; apply N; symmetry; apply (Nat.div_unique x 2 a (x - 2 * a)); lia.
Qed.
Lemma idx_even x0 k : (Z.of_nat x0 + Z.of_nat (k / 2))%Z = Z.of_nat ((2 * x0 + k) / 2).
Proof. rewrite (Nat.mul_comm 2 x0), Nat.div_add_l by lia. lia. Qed.
Lemma wrap_small n i : (i < n)%nat -> wrap n (Z.of_nat i) = i.
Proof. intros H. unfold wrap. rewrite Z.mod_small by lia. apply Nat2Z.id. Qed.
Lemma clip_small n i : (i < n)%nat -> clip n (Z.of_nat i) = i.
Proof. intros H. unfold clip. rewrite Z.min_l by lia. rewrite Z.max_r by lia. apply Nat2Z.id. Qed.
Lemma odd_axis n x a : (x < 2 * n)%nat -> (a < n)%nat ->
  i01 (Nat.eqb (wrap n (Z.of_nat ((x + 1) / 2) - 1)) a) == sumn 2 (fun p => i01 (Nat.eqb (right_of (2 * n) (2 * a + p)) x)).
Proof.
  intros Hx Ha. cbn [sumn]. unfold right_of. destruct (Nat.eqb_spec (S (2 * a + 0)) (2 * n)); [lia|].
  assert (E : wrap n (Z.of_nat ((x + 1) / 2) - 1) = if Nat.eqb x 0 then (n - 1)%nat else ((x - 1) / 2)%nat).
  { destruct (Nat.eqb_spec x 0) as [->|Hne].
    - change ((0 + 1) / 2)%nat with 0%nat. unfold wrap. change (Z.of_nat 0 - 1)%Z with (-1)%Z. rewrite <- (Z.mod_unique (-1) (Z.of_nat n) (-1) (Z.of_nat n - 1)) by lia. lia.
    - assert (D : ((x + 1) / 2 = (x - 1) / 2 + 1)%nat) by (replace (x + 1)%nat with (1 * 2 + (x - 1))%nat by lia; rewrite Nat.div_add_l by lia; lia).
      rewrite D. replace (Z.of_nat ((x - 1) / 2 + 1) - 1)%Z with (Z.of_nat ((x - 1) / 2)) by lia. apply wrap_small. apply Nat.div_lt_upper_bound; lia. }
  rewrite E. destruct (Nat.eqb_spec x 0) as [->|Hne].
  - destruct (Nat.eqb_spec (S (2 * a + 1)) (2 * n)), (Nat.eqb_spec (n - 1) a), (Nat.eqb_spec (S (2 * a + 0)) 0), (Nat.eqb_spec (S (2 * a + 1)) 0); cbn [Nat.eqb]; try lia; reflexivity.
  - pose proof (Nat.div_mod (x - 1) 2 ltac:(lia)) as D. pose proof (Nat.mod_upper_bound (x - 1) 2 ltac:(lia)) as M. set (m := ((x - 1) / 2)%nat) in *.
    destruct (Nat.eqb_spec (S (2 * a + 1)) (2 * n)), (Nat.eqb_spec m a), (Nat.eqb_spec (S (2 * a + 0)) x), (Nat.eqb_spec (S (2 * a + 1)) x), (Nat.eqb_spec 0 x); try lia; reflexivity.
Qed.
Lemma i01_and a b : i01 (a && b) == i01 a * i01 b.
Proof. destruct a, b; reflexivity. Qed.
Lemma sumn_prod n m f g : sumn n f * sumn m g == sumn n (fun p => sumn m (fun q => f p * g q)).
Proof. rewrite Qmult_comm, <- sumn_scale. apply sumn_ext. intros p _. rewrite Qmult_comm, <- sumn_scale. reflexivity. Qed.

Section O.
Variables (nx ny nz x0 y0 x1 y1 : nat).
Hypothesis Hx : (x0 <= x1)%nat.
Hypothesis Hy : (y0 <= y1)%nat.
Hypothesis Bx : (x1 < nx)%nat.
Hypothesis By : (y1 < ny)%nat.
Notation w := (ax nx x0 x1).
Notation h := (ay ny y0 y1).
Notation nd := (num_design nx ny x0 y0 x1 y1).
Lemma w_eq : w = (x1 - x0 + 1)%nat. Proof using Hx Bx. clear Hy By. unfold ax, Select_Model.x1. lia. Qed.
Lemma h_eq : h = (y1 - y0 + 1)%nat. Proof using Hy By. clear Hx Bx. unfold ay, Select_Model.y1. lia. Qed.
Lemma area_w : area_x (2 * x0) (2 * x1 + 1) = (2 * w)%nat. Proof. rewrite w_eq. unfold area_x. lia. Qed.
Lemma area_h : area_y (2 * y0) (2 * y1 + 1) = (2 * h)%nat. Proof. rewrite h_eq. unfold area_y. lia. Qed.
Lemma kx_lt k : (2 * x0 + old_x nx x0 x1 k < 2 * nx)%nat.
Proof. unfold old_x. pose proof (Nat.mod_upper_bound k (2 * w)) as M. rewrite w_eq in *. lia. Qed.
Lemma ky_lt k : (k < nd)%nat -> (2 * y0 + old_y nx x0 x1 k < 2 * ny)%nat.
Proof. intros H. unfold num_design in H. unfold old_y. assert (k / (2 * w) < 2 * h)%nat by (apply Nat.div_lt_upper_bound; [rewrite w_eq; lia|lia]). rewrite h_eq in *. lia. Qed.
Lemma old_quad_lt comp a b p q : (a < nx)%nat -> (b < ny)%nat -> (p < 2)%nat -> (q < 2)%nat ->
  (fst (old_quadrant nx ny comp a b p q) < 2 * nx)%nat /\ (snd (old_quadrant nx ny comp a b p q) < 2 * ny)%nat.
Proof.
  assert (R : forall n i, (i < n)%nat -> (right_of n i < n)%nat) by (intros n i H; unfold right_of; destruct (Nat.eqb_spec (S i) n); lia).
  intros Ha Hb Hp Hq. destruct comp as [|[|comp]]; cbn [old_quadrant fst snd]; split; try (apply R; lia); lia.
Qed.
Lemma old_hits comp a b k : (a < nx)%nat -> (b < ny)%nat -> (k < nd)%nat ->
  i01 (Nat.eqb (old_map nx ny x0 y0 x1 comp k) (b * nx + a)) ==
  sum4 (old_quadrant nx ny comp a b) (fun pt => i01 (Nat.eqb (ravel nx pt) (mapping nx (2 * x0) (2 * y0) (2 * x1 + 1) k))).
Proof.
  intros Ha Hb Hk. pose proof (kx_lt k) as Kx. pose proof (ky_lt Hk) as Ky.
  assert (WL : forall n i, (0 < n)%nat -> (wrap n i < n)%nat) by (intros n i H; unfold wrap; pose proof (Z.mod_pos_bound i (Z.of_nat n) ltac:(lia)); lia).
  assert (R : forall pt, (fst pt < 2 * nx)%nat -> (snd pt < 2 * ny)%nat -> i01 (Nat.eqb (ravel nx pt) (mapping nx (2 * x0) (2 * y0) (2 * x1 + 1) k)) == i01 (Nat.eqb (fst pt) (2 * x0 + old_x nx x0 x1 k)) * i01 (Nat.eqb (snd pt) (2 * y0 + old_y nx x0 x1 k))).
  { intros pt P1 P2. unfold ravel, mapping. rewrite area_w. fold (old_x nx x0 x1 k). fold (old_y nx x0 x1 k). rewrite eqb2 by assumption. apply i01_and. }
  unfold sum4. set (X := (2 * x0 + old_x nx x0 x1 k)%nat) in *. set (Y := (2 * y0 + old_y nx x0 x1 k)%nat) in *.
  assert (HX : (X / 2 < nx)%nat) by (apply Nat.div_lt_upper_bound; lia). assert (HY : (Y / 2 < ny)%nat) by (apply Nat.div_lt_upper_bound; lia).
  assert (Ox : (Z.of_nat x0 + Z.of_nat ((old_x nx x0 x1 k + 1) / 2) - 1)%Z = (Z.of_nat ((X + 1) / 2) - 1)%Z) by (rewrite idx_even; unfold X; do 3 f_equal; lia).
  assert (Oy : (Z.of_nat y0 + Z.of_nat ((old_y nx x0 x1 k + 1) / 2) - 1)%Z = (Z.of_nat ((Y + 1) / 2) - 1)%Z) by (rewrite idx_even; unfold Y; do 3 f_equal; lia).
  assert (Fin : forall fx fy : nat -> nat, forall e1 e2, e1 == sumn 2 (fun p => i01 (Nat.eqb (fx p) X)) -> e2 == sumn 2 (fun q => i01 (Nat.eqb (fy q) Y)) -> (forall p q, (p < 2)%nat -> (q < 2)%nat -> old_quadrant nx ny comp a b p q = (fx p, fy q)) ->
    e1 * e2 == sumn 2 (fun p => sumn 2 (fun q => i01 (Nat.eqb (ravel nx (old_quadrant nx ny comp a b p q)) (mapping nx (2 * x0) (2 * y0) (2 * x1 + 1) k))))).
  { intros fx fy e1 e2 E1 E2 Eq. rewrite E1, E2, sumn_prod. apply sumn_ext. intros p Hp. apply sumn_ext. intros q Hq. destruct (@old_quad_lt comp a b p q Ha Hb Hp Hq) as [Q1 Q2]. rewrite R by assumption. rewrite Eq by assumption. reflexivity. }
  replace (b * nx + a)%nat with (a + nx * b)%nat by lia.
  destruct comp as [|[|comp]]; cbn [old_map]; rewrite ?Ox, ?Oy, ?idx_even; fold X; fold Y.
  - rewrite (wrap_small HY). rewrite eqb2 by (try apply WL; lia). rewrite i01_and. apply (Fin (fun p => right_of (2 * nx) (2 * a + p)) (fun q => 2 * b + q)%nat); [now apply odd_axis|apply even_axis|reflexivity].
  - rewrite (wrap_small HX). rewrite eqb2 by lia. rewrite i01_and. apply (Fin (fun p => 2 * a + p)%nat (fun q => right_of (2 * ny) (2 * b + q))); [apply even_axis|now apply odd_axis|reflexivity].
  - rewrite (clip_small HX), (clip_small HY). rewrite eqb2 by lia. rewrite i01_and. apply (Fin (fun p => 2 * a + p)%nat (fun q => 2 * b + q)%nat); [apply even_axis|apply even_axis|reflexivity].
Qed.
Notation ins := (inside (2 * x0) (2 * y0) (2 * x1 + 1) (2 * y1 + 1)).
Lemma old_sum u comp a b : (a < nx)%nat -> (b < ny)%nat ->
  sumn nd (fun k => i01 (Nat.eqb (old_map nx ny x0 y0 x1 comp k) (b * nx + a)) * flat (2 * w) (2 * x0) (2 * y0) u k) ==
  sum4 (old_quadrant nx ny comp a b) (fun pt => if ins pt then u pt else 0).
Proof.
  intros Ha Hb. rewrite (@sumn_ext _ _ (fun k => sumn 2 (fun p => sumn 2 (fun q => if Nat.eqb (ravel nx (old_quadrant nx ny comp a b p q)) (mapping nx (2 * x0) (2 * y0) (2 * x1 + 1) k) then flat (2 * w) (2 * x0) (2 * y0) u k else 0)))).
  - rewrite sumn_swap. unfold sum4. apply sumn_ext. intros p Hp. rewrite sumn_swap. apply sumn_ext. intros q Hq. destruct (@old_quad_lt comp a b p q Ha Hb Hp Hq) as [Q1 Q2].
    rewrite <- (@sum_mapping nx ny (2 * x0) (2 * y0) (2 * x1 + 1) (2 * y1 + 1) ltac:(lia) ltac:(lia) ltac:(lia) ltac:(lia) u _ Q1 Q2). rewrite area_w, area_h. reflexivity.
  - intros k Hk. rewrite old_hits by assumption. unfold sum4. rewrite Qmult_comm, <- sumn_scale. apply sumn_ext. intros p _. rewrite <- sumn_scale. apply sumn_ext. intros q _. unfold i01. destruct (Nat.eqb _ _); ring.
Qed.
Lemma coo_diag n f r k : (k < n)%nat -> coo n f (fun k => k) 1 r k == i01 (Nat.eqb (f k) r).
Proof.
  intros H. unfold coo. rewrite (@sumn_ext n _ (fun j => if Nat.eqb j k then i01 (Nat.eqb (f k) r) else 0)); [now apply sumn_at|].
  intros j _. destruct (Nat.eqb_spec j k) as [->|]; [rewrite andb_true_r; reflexivity|now rewrite andb_false_r].
Qed.
Lemma cell_flat comp a b z : (a < nx)%nat -> (b < ny)%nat -> (z < nz)%nat -> (cell nx ny nz comp a b z / ncell nx ny nz = comp /\ (cell nx ny nz comp a b z mod ncell nx ny nz) mod (nx * ny) = b * nx + a)%nat.
Proof using.
  clear Hx Hy Bx By. intros Ha Hb Hz. destruct (@cell_comp nx ny nz comp a b z Ha Hb Hz) as [-> ->]. split; [reflexivity|]. replace ((z * ny + b) * nx + a)%nat with (z * (nx * ny) + (b * nx + a))%nat by lia. apply divmod_flat. nia.
Qed.
Theorem old_average u comp a b z : (a < nx)%nat -> (b < ny)%nat -> (z < nz)%nat ->
  apply (direct_lattice_old nx ny nz x0 y0 x1 y1) nd (flat (2 * w) (2 * x0) (2 * y0) u) (cell nx ny nz comp a b z) == mean4 (old_quadrant nx ny comp a b) ins u.
Proof.
  intros Ha Hb Hz. unfold apply, direct_lattice_old. destruct (@cell_flat comp a b z Ha Hb Hz) as [-> ->]. unfold normalize, old_flat. set (f := old_map nx ny x0 y0 x1 comp).
  set (C := sumn nd (coo nd f (fun k => k) 1 (b * nx + a)%nat)). unfold mean4. set (N := sum4 _ (fun pt => if ins pt then 1 else 0)).
  assert (EC : C == N).
  { unfold N. rewrite <- (@old_sum (fun _ => 1) comp a b Ha Hb). unfold C. apply sumn_ext. intros k Hk. rewrite coo_diag by exact Hk. unfold flat, f. ring. }
  rewrite (@sumn_ext nd _ (fun k => (if Qeq_bool C 0 then 0 else 1 / C) * (i01 (Nat.eqb (f k) (b * nx + a)) * flat (2 * w) (2 * x0) (2 * y0) u k))) by (intros k Hk; rewrite coo_diag by exact Hk; ring).
  rewrite sumn_scale. unfold f. rewrite old_sum by assumption. destruct (Qeq_bool C 0) eqn:E1.
  - apply Qeq_bool_eq in E1. replace (Qeq_bool N 0) with true by (symmetry; apply Qeq_eq_bool; lra). ring.
  - apply Qeq_bool_neq in E1. replace (Qeq_bool N 0) with false by (symmetry; apply not_true_is_false; intros H; apply Qeq_bool_eq in H; apply E1; lra). rewrite <- EC. field. exact E1.
Qed.
Lemma collapse_lt k : (k < nd)%nat -> (collapse nx x0 x1 k < w * h)%nat.
Proof.
  intros H. unfold collapse. assert (A : (old_x nx x0 x1 k / 2 < w)%nat) by (apply half_lt; unfold old_x; apply Nat.mod_upper_bound; rewrite w_eq; lia).
  assert (B : (old_y nx x0 x1 k / 2 < h)%nat) by (apply half_lt; unfold old_y; unfold num_design in H; apply Nat.div_lt_upper_bound; [rewrite w_eq; lia|exact H]). nia.
Qed.
Theorem reduced_average u comp a b z : (a < nx)%nat -> (b < ny)%nat -> (z < nz)%nat ->
  apply (reduced_lattice nx ny nz x0 y0 x1 y1) (w * h) (flat w x0 y0 u) (cell nx ny nz comp a b z) ==
  mean4 (old_quadrant nx ny comp a b) ins (fun pt => u ((fst pt / 2)%nat, (snd pt / 2)%nat)).
Proof.
  intros Ha Hb Hz. rewrite <- (@old_average _ comp a b z Ha Hb Hz). unfold apply, reduced_lattice, matmul. set (r := cell nx ny nz comp a b z). set (S0 := direct_lattice_old nx ny nz x0 y0 x1 y1).
  rewrite (@sumn_ext (w * h) _ (fun c => sumn nd (fun k => if Nat.eqb c (collapse nx x0 x1 k) then S0 r k * flat w x0 y0 u c else 0))).
  - rewrite sumn_swap. apply sumn_ext. intros k Hk. rewrite sumn_pick by (now apply collapse_lt). unfold flat, collapse, old_x, old_y. cbn [fst snd].
    assert (A : (k mod (2 * w) / 2 < w)%nat) by (apply half_lt; apply Nat.mod_upper_bound; rewrite w_eq; lia).
    replace (k mod (2 * w) / 2 + w * (k / (2 * w) / 2))%nat with (k / (2 * w) / 2 * w + k mod (2 * w) / 2)%nat by lia. destruct (@divmod_flat (k / (2 * w) / 2) (k mod (2 * w) / 2) w A) as [-> ->].
    rewrite (Nat.mul_comm 2 x0), (Nat.mul_comm 2 y0), !Nat.div_add_l by lia. reflexivity.
  - intros c Hc. rewrite Qmult_comm, <- sumn_scale. apply sumn_ext. intros k Hk. rewrite coo_diag by exact Hk. unfold i01. rewrite (Nat.eqb_sym c). destruct (Nat.eqb _ c); ring.
Qed.
End O.
Lemma mean4_range quad ins u : (forall pt, ins pt = true -> 0 <= u pt <= 1) -> 0 <= mean4 quad ins u <= 1.
Proof.
  intros H. unfold mean4. set (n := sum4 quad (fun pt => if ins pt then 1 else 0)). set (s := sum4 quad (fun pt => if ins pt then u pt else 0)).
  assert (O : forall f g, (forall pt, f pt <= g pt) -> sum4 quad f <= sum4 quad g) by (intros f g L; unfold sum4; apply sumn_le; intros p _; apply sumn_le; intros q _; apply L).
  assert (R1 : 0 <= s) by (replace 0 with (sum4 quad (fun _ => 0)) by reflexivity; apply O; intros pt; specialize (H pt); destruct (ins pt); [apply H; reflexivity|lra]).
  assert (R2 : s <= n) by (apply O; intros pt; specialize (H pt); destruct (ins pt); [apply H; reflexivity|lra]).
  destruct (Qeq_bool n 0) eqn:E; [lra|]. apply Qeq_bool_neq in E. assert (P : 0 < n) by (destruct (Qlt_le_dec 0 n); [assumption|exfalso; apply E; lra]). split.
  - apply Qle_shift_div_l; [exact P|lra].
  - apply Qle_shift_div_r; [exact P|lra].
Qed.
Lemma mean4_ones quad ins : mean4 quad ins (fun _ => 1) == if Qeq_bool (sum4 quad (fun pt => if ins pt then 1 else 0)) 0 then 0 else 1.
Proof. unfold mean4. destruct (Qeq_bool _ 0) eqn:E; [reflexivity|]. apply Qeq_bool_neq in E. field. exact E. Qed.
Lemma sum4_pos quad ins p q : (p < 2)%nat -> (q < 2)%nat -> ins (quad p q) = true -> Qeq_bool (sum4 quad (fun pt => if ins pt then 1 else 0)) 0 = false.
Proof.
  intros Hp Hq H. unfold sum4. destruct p as [|[|p]]; try lia; destruct q as [|[|q]]; try lia; cbn [sumn]; rewrite H;
  repeat match goal with |- context [if ins ?t then _ else _] => destruct (ins t) end; reflexivity.
Qed.

Section R.
Variables (nx ny nz : nat) (bg fg : field).
Theorem reduced_spec s dims : reduced_matrix nx ny nz bg fg = Ok (s, dims) ->
  exists x0 y0 x1 y1, design_bounds_yee nx ny nz bg fg = Ok (x0, y0, x1, y1) /\ dims = ((x1 - x0 + 1)%nat, (y1 - y0 + 1)%nat) /\
  forall u comp a b z, (a < nx)%nat -> (b < ny)%nat -> (z < nz)%nat ->
    apply s (fst dims * snd dims) (flat (fst dims) x0 y0 u) (cell nx ny nz comp a b z) ==
    (fg comp a b z - bg comp a b z) * mean4 (old_quadrant nx ny comp a b) (inside (2 * x0) (2 * y0) (2 * x1 + 1) (2 * y1 + 1)) (fun pt => u ((fst pt / 2)%nat, (snd pt / 2)%nat)).
Proof.
  intros E. unfold reduced_matrix in E. destruct (design_bounds_yee nx ny nz bg fg) as [[[[x0 y0] x1] y1]|] eqn:Eb; [|discriminate]. cbn [bind] in E. injection E as <- <-.
  exists x0, y0, x1, y1. destruct (rectangle_spec _ _ _ Eb) as (Rx & Ry & _). split; [reflexivity|]. split; [rewrite w_eq, h_eq by lia; reflexivity|].
  intros u comp a b z Ha Hb Hz. cbn [fst snd]. rewrite <- (@reduced_average nx ny nz x0 y0 x1 y1 ltac:(lia) ltac:(lia) ltac:(lia) ltac:(lia) u comp a b z Ha Hb Hz). unfold apply. rewrite <- sumn_scale. apply sumn_ext. intros c Hc.
  rewrite !vec_cell by assumption. ring.
Qed.
(** all ones: the foreground, up to the tolerance of the design bounds *)
Theorem reduced_foreground s dims x0 y0 x1 y1 : reduced_matrix nx ny nz bg fg = Ok (s, dims) -> design_bounds_yee nx ny nz bg fg = Ok (x0, y0, x1, y1) ->
  forall comp a b z, (comp < 3)%nat -> (a < nx)%nat -> (b < ny)%nat -> (z < nz)%nat ->
    let eps := bg comp a b z + apply s (fst dims * snd dims) (fun _ => 1) (cell nx ny nz comp a b z) in
    (x0 <= a <= x1 /\ y0 <= b <= y1 -> eps == fg comp a b z)%nat /\ qabs (eps - fg comp a b z) <= 1 # 1000000.
Proof.
  intros E Eb comp a b z Hc Ha Hb Hz eps. destruct (reduced_spec E) as (X0 & Y0 & X1 & Y1 & Eb' & _ & N). rewrite Eb in Eb'. injection Eb' as <- <- <- <-.
  destruct (rectangle_spec _ _ _ Eb) as (Rx & Ry & Rin & _).
  specialize (N (fun _ => 1) comp a b z Ha Hb Hz). unfold flat in N at 1. rewrite mean4_ones in N. fold eps in N.
  assert (Ee : eps == bg comp a b z + (fg comp a b z - bg comp a b z) * (if Qeq_bool (sum4 (old_quadrant nx ny comp a b) (fun pt => if inside (2 * x0) (2 * y0) (2 * x1 + 1) (2 * y1 + 1) pt then 1 else 0)) 0 then 0 else 1)) by (unfold eps; rewrite N; reflexivity).
  assert (In : (x0 <= a <= x1 /\ y0 <= b <= y1)%nat -> eps == fg comp a b z).
  { intros (A & B). rewrite Ee. rewrite (@sum4_pos _ _ 0%nat 0%nat) by (try lia; unfold inside; destruct comp as [|[|comp]]; cbn [old_quadrant fst snd]; unfold right_of; try (destruct (Nat.eqb_spec (S (2 * a + 0)) (2 * nx)); [lia|]); try (destruct (Nat.eqb_spec (S (2 * b + 0)) (2 * ny)); [lia|]); rewrite !andb_true_iff, !Nat.leb_le; lia). ring. }
  split; [exact In|]. assert (Qe : forall q q', q == q' -> qabs q == qabs q').
  { intros q q' H. unfold qabs. destruct (Qle_bool 0 q) eqn:A, (Qle_bool 0 q') eqn:B; qhyps; lra. }
  destruct (inside x0 y0 x1 y1 (a, b)) eqn:Ins.
  - unfold inside in Ins. cbn [fst snd] in Ins. rewrite !andb_true_iff, !Nat.leb_le in Ins. rewrite (Qe (eps - fg comp a b z) 0) by (rewrite In by lia; ring). vm_compute. discriminate.
  - assert (M : yee_mark nz bg fg a b = false) by (destruct (yee_mark nz bg fg a b) eqn:M; [rewrite (Rin a b Ha Hb M) in Ins; discriminate|reflexivity]).
    assert (T : sumn 3 (fun comp => qabs (fg comp a b z - bg comp a b z)) <= 1 # 1000000).
    { apply qlt_false. unfold yee_mark in M. apply not_true_is_false. intros Hq. apply not_true_iff_false in M. apply M. apply existsb_exists. exists z. split; [apply in_seq; lia|exact Hq]. }
    assert (L : qabs (fg comp a b z - bg comp a b z) <= 1 # 1000000).
    { cbn [sumn] in T. pose proof (qabs_nonneg (fg 0%nat a b z - bg 0%nat a b z)). pose proof (qabs_nonneg (fg 1%nat a b z - bg 1%nat a b z)). pose proof (qabs_nonneg (fg 2%nat a b z - bg 2%nat a b z)).
      destruct comp as [|[|[|comp]]]; try lia; lra. }
    assert (Sy : forall q, qabs (- q) == qabs q) by (intros q; unfold qabs; destruct (Qle_bool 0 q) eqn:A, (Qle_bool 0 (- q)) eqn:B; qhyps; lra).
    destruct (Qeq_bool _ 0).
    + rewrite (Qe (eps - fg comp a b z) (- (fg comp a b z - bg comp a b z))) by (rewrite Ee; ring). rewrite Sy. exact L.
    + rewrite (Qe (eps - fg comp a b z) 0) by (rewrite Ee; ring). vm_compute. discriminate.
Qed.
End R.

(** *** average_2xFarEdge *)
Section A.
Variables (gx gy gz x0 y0 x1 y1 : nat).
Hypothesis Hx : (x0 <= x1)%nat.
Hypothesis Hy : (y0 <= y1)%nat.
Hypothesis Bx : (x1 < gx)%nat.
Hypothesis By : (y1 < gy)%nat.
Notation w := (dx x0 x1).
Notation h := (dy y0 y1).
Lemma pad_all_ent m i j c : drows m = (h * gx)%nat -> (i < gx)%nat -> (j < gy)%nat ->
  dent (pad_all gx gy x0 y0 x1 y1 m) (j * gx + i)%nat c = if Nat.leb y0 j && Nat.leb j y1 then dent m ((j - y0) * gx + i)%nat c else 0.
Proof.
  intros Hm Hi Hj. unfold pad_all, dv, dzero. cbn [drows dent dcols]. rewrite Hm. unfold dy. destruct (Nat.leb_spec y0 j) as [L|L]; cbn [andb].
  - destruct (Nat.ltb_spec (j * gx + i) (y0 * gx)); [nia|]. destruct (Nat.leb_spec j y1) as [L'|L'].
    + destruct (Nat.ltb_spec (j * gx + i) (y0 * gx + (y1 - y0 + 1) * gx)); [|nia]. f_equal. nia.
    + destruct (Nat.ltb_spec (j * gx + i) (y0 * gx + (y1 - y0 + 1) * gx)); [nia|reflexivity].
  - destruct (Nat.ltb_spec (j * gx + i) (y0 * gx + (y1 - y0 + 1) * gx)); [|reflexivity]. destruct (Nat.ltb_spec (j * gx + i) (y0 * gx)); [reflexivity|nia].
Qed.
Lemma pad_rows_ent m i c : drows m = w -> dent (pad_rows gx x0 x1 m) i c = if Nat.leb x0 i && Nat.leb i x1 then dent m (i - x0)%nat c else 0.
Proof.
  intros Hm. unfold pad_rows, dv, dzero. cbn [drows dent dcols]. rewrite Hm. unfold dx. destruct (Nat.leb_spec x0 i) as [L|L]; cbn [andb].
  - destruct (Nat.ltb_spec i x0); [lia|]. destruct (Nat.leb_spec i x1); destruct (Nat.ltb_spec i (x0 + (x1 - x0 + 1))); try lia; reflexivity.
  - destruct (Nat.ltb_spec i (x0 + (x1 - x0 + 1))); [|lia]. destruct (Nat.ltb_spec i x0); [reflexivity|lia].
Qed.
Lemma pad_rows_rows m : drows m = w -> drows (pad_rows gx x0 x1 m) = gx.
Proof. intros Hm. unfold pad_rows, dv, dzero. cbn [drows]. rewrite Hm. unfold dx. lia. Qed.
Lemma block_ent m i j ic jc : drows m = w -> (i < gx)%nat -> (ic < w)%nat ->
  dent (dblock (pad_rows gx x0 x1 m) h) (j * gx + i)%nat (jc * w + ic)%nat = if Nat.eqb j jc then (if Nat.leb x0 i && Nat.leb i x1 then dent m (i - x0)%nat ic else 0) else 0.
Proof.
  intros Hm Hi Hic. unfold dblock. cbn [dent]. rewrite pad_rows_rows by exact Hm. change (dcols (pad_rows gx x0 x1 m)) with w. destruct (@divmod_flat j i gx Hi) as [-> ->]. destruct (@divmod_flat jc ic w Hic) as [-> ->].
  rewrite pad_rows_ent by exact Hm. reflexivity.
Qed.
Lemma block_rows m : drows m = w -> drows (dblock (pad_rows gx x0 x1 m) h) = (h * gx)%nat.
Proof. intros Hm. unfold dblock. cbn [drows]. now rewrite pad_rows_rows. Qed.
Definition uvec (u : nat -> nat -> Q) (c : nat) : Q := u (c mod w)%nat (c / w)%nat.
Lemma uvec_at u j i : (i < w)%nat -> uvec u (j * w + i)%nat = u i j.
Proof. intros H. unfold uvec. destruct (@divmod_flat j i w H) as [-> ->]. reflexivity. Qed.
Lemma sum_cols (e : nat -> Q) u : sumn (w * h) (fun c => e c * uvec u c) == sumn h (fun jc => sumn w (fun ic => e (jc * w + ic)%nat * u ic jc)).
Proof. rewrite Nat.mul_comm, sumn_mul. apply sumn_ext. intros jc _. apply sumn_ext. intros ic Hic. rewrite uvec_at by exact Hic. reflexivity. Qed.
Lemma row_split comp i j z : (i < gx)%nat -> (j < gy)%nat -> (z < gz)%nat -> (cell gx gy gz comp i j z / (gx * gy * gz) = comp /\ cell gx gy gz comp i j z mod (gx * gy * gz) mod (gx * gy) = j * gx + i)%nat.
Proof. intros Hi Hj Hz. exact (@cell_flat gx gy gz comp i j z Hi Hj Hz). Qed.
Definition in_area (i j : nat) : bool := Nat.leb x0 i && Nat.leb i x1 && (Nat.leb y0 j && Nat.leb j y1).
Lemma w1 : (1 <= w)%nat. Proof. unfold dx. lia. Qed.
Lemma h1 : (1 <= h)%nat. Proof. unfold dy. lia. Qed.
Lemma shift_x_ent i c : (i < w)%nat -> (c < w)%nat -> dent (shift_x x0 x1) i c =
  if Nat.eqb i (w - 1) && Nat.eqb c (w - 1) then 1 else if Nat.eqb i (w - 1) && Nat.eqb c 0 then 0 else if Nat.ltb c (w - 1) then (if Nat.eqb i (1 + c) then 1 else 0) else if Nat.eqb i 0 then 1 else 0.
Proof.
  intros Hi Hc. unfold shift_x, dset, dh, dfrom, dupto, dident. cbn [dent drows dcols]. destruct (Nat.eqb i (w - 1) && Nat.eqb c (w - 1)); [reflexivity|]. destruct (Nat.eqb i (w - 1) && Nat.eqb c 0); [reflexivity|].
  destruct (Nat.ltb_spec c (w - 1)); [reflexivity|]. replace (c - (w - 1))%nat with 0%nat by lia. reflexivity.
Qed.
Lemma far_x_sum (u : nat -> Q) i : (i < w)%nat -> sumn w (fun c => ((if Nat.eqb i c then 1 else 0) + dent (shift_x x0 x1) i c) / 2 * u c) == far_x w (fun i _ => u i) i 0%nat.
Proof.
  intros Hi. pose proof w1 as W.
  assert (S1 : sumn w (fun c => (if Nat.eqb i c then 1 else 0) * u c) == u i).
  { rewrite <- (@sumn_pick w i u Hi) at 1. apply sumn_ext. intros c _. rewrite (Nat.eqb_sym i c). destruct (Nat.eqb c i); ring. }
  assert (PK : forall k, (k < w)%nat -> sumn w (fun c => (if Nat.eqb c k then 1 else 0) * u c) == u k).
  { intros k Hk. rewrite <- (@sumn_pick w k u Hk) at 1. apply sumn_ext. intros c _. destruct (Nat.eqb c k); ring. }
  rewrite (@sumn_ext w _ (fun c => (1 # 2) * ((if Nat.eqb i c then 1 else 0) * u c + dent (shift_x x0 x1) i c * u c))) by (intros c _; field).
  rewrite sumn_scale, sumn_plus, S1. unfold far_x.
  destruct (Nat.eqb_spec w 1) as [W1|W1].
  { rewrite (@sumn_ext w _ (fun c => (if Nat.eqb c 0 then 1 else 0) * u c)); [rewrite PK by lia; replace i with 0%nat by lia; field|]. intros c Hc. rewrite shift_x_ent by lia. replace i with 0%nat by lia. replace c with 0%nat by lia. rewrite W1. reflexivity. }
  destruct (Nat.eqb_spec i 0) as [->|I0].
  { rewrite (@sumn_ext w _ (fun c => (if Nat.eqb c (w - 1) then 1 else 0) * u c)); [rewrite PK by lia; field|]. intros c Hc. rewrite shift_x_ent by lia. destruct (Nat.eqb_spec 0 (w - 1)); [lia|]. cbn [andb].
    destruct (Nat.ltb_spec c (w - 1)), (Nat.eqb_spec c (w - 1)); try lia; cbn [Nat.add Nat.eqb]; reflexivity. }
  destruct (Nat.eqb_spec i (w - 1)) as [->|I1].
  - destruct (Nat.eqb_spec w 2) as [W2|W2].
    + rewrite (@sumn_ext w _ (fun c => (if Nat.eqb c (w - 1) then 1 else 0) * u c)); [rewrite PK by lia; field|]. intros c Hc. rewrite shift_x_ent by lia. rewrite Nat.eqb_refl. cbn [andb].
      destruct (Nat.eqb_spec c (w - 1)); [reflexivity|]. destruct (Nat.eqb_spec c 0); [reflexivity|lia].
    + rewrite (@sumn_ext w _ (fun c => (if Nat.eqb c (w - 1) then 1 else 0) * u c + (if Nat.eqb c (w - 1 - 1) then 1 else 0) * u c)); [rewrite sumn_plus, !PK by lia; field|].
      intros c Hc. rewrite shift_x_ent by lia. rewrite Nat.eqb_refl. cbn [andb].
      destruct (Nat.eqb_spec c (w - 1)), (Nat.eqb_spec c (w - 1 - 1)), (Nat.eqb_spec c 0), (Nat.ltb_spec c (w - 1)), (Nat.eqb_spec (w - 1) (1 + c)), (Nat.eqb_spec (w - 1) 0); try lia; ring.
  - rewrite (@sumn_ext w _ (fun c => (if Nat.eqb c (i - 1) then 1 else 0) * u c)); [rewrite PK by lia; field|]. intros c Hc. rewrite shift_x_ent by lia. destruct (Nat.eqb_spec i (w - 1)); [lia|]. cbn [andb].
    destruct (Nat.ltb_spec c (w - 1)), (Nat.eqb_spec i (1 + c)), (Nat.eqb_spec c (i - 1)), (Nat.eqb_spec i 0); try lia; reflexivity.
Qed.
Theorem far_edge_x u i j z : (i < gx)%nat -> (j < gy)%nat -> (z < gz)%nat ->
  apply (average_far_edge gx gy gz x0 y0 x1 y1) (w * h) (uvec u) (cell gx gy gz 0 i j z) == if in_area i j then far_x w u (i - x0) (j - y0) else 0.
Proof.
  intros Hi Hj Hz. unfold apply, average_far_edge. destruct (@row_split 0 i j z Hi Hj Hz) as [-> ->]. rewrite sum_cols.
  rewrite (@sumn_ext h _ (fun jc => if Nat.eqb jc (j - y0) then (if in_area i j then far_x w (fun i _ => u i jc) (i - x0) 0 else 0) else 0)).
  - unfold in_area. destruct (Nat.leb_spec x0 i), (Nat.leb_spec i x1); cbn [andb]; try (apply sumn_zero; intros c _; destruct (Nat.eqb _ _); reflexivity).
    destruct (Nat.leb_spec y0 j), (Nat.leb_spec j y1); cbn [andb]; try (apply sumn_zero; intros c _; destruct (Nat.eqb _ _); reflexivity). rewrite sumn_pick by (unfold dy; lia). reflexivity.
  - intros jc Hjc. set (m := dhalf (dplus (dident w) (shift_x x0 x1))). assert (Rm : drows m = w) by reflexivity. unfold avg_x. fold m.
    rewrite (@sumn_ext w _ (fun ic => if Nat.eqb jc (j - y0) then (if in_area i j then dent m (i - x0)%nat ic * u ic jc else 0) else 0)).
    2:{ intros ic Hic. rewrite pad_all_ent by (try apply block_rows; assumption). unfold in_area. destruct (Nat.leb y0 j && Nat.leb j y1); [|rewrite andb_false_r; destruct (Nat.eqb _ _); ring].
        rewrite block_ent by assumption. rewrite andb_true_r, Nat.eqb_sym. destruct (Nat.eqb jc (j - y0)), (Nat.leb x0 i && Nat.leb i x1); ring. }
    destruct (Nat.eqb jc (j - y0)); [|apply sumn_zero; reflexivity]. unfold in_area. destruct (Nat.leb_spec x0 i), (Nat.leb_spec i x1); cbn [andb]; try (apply sumn_zero; reflexivity).
    destruct (Nat.leb y0 j && Nat.leb j y1); [|apply sumn_zero; reflexivity]. exact (@far_x_sum (fun ic => u ic jc) (i - x0) ltac:(unfold dx; lia)).
Qed.
Lemma preshift_ent i j ic jc : (i < gx)%nat -> (ic < w)%nat -> dent (preshift gx x0 y0 x1 y1) (j * gx + i)%nat (jc * w + ic)%nat = if Nat.eqb j jc && (Nat.leb x0 i && Nat.leb i x1) && Nat.eqb (i - x0) ic then 1 else 0.
Proof. intros Hi Hic. unfold preshift. rewrite block_ent by (try reflexivity; assumption). destruct (Nat.eqb j jc), (Nat.leb x0 i && Nat.leb i x1); reflexivity. Qed.
Theorem far_edge_z u i j z comp : (2 <= comp)%nat -> (i < gx)%nat -> (j < gy)%nat -> (z < gz)%nat ->
  apply (average_far_edge gx gy gz x0 y0 x1 y1) (w * h) (uvec u) (cell gx gy gz comp i j z) == if in_area i j then u (i - x0)%nat (j - y0)%nat else 0.
Proof.
  intros Hc Hi Hj Hz. unfold apply, average_far_edge. destruct (@row_split comp i j z Hi Hj Hz) as [-> ->]. destruct comp as [|[|comp]]; try lia. rewrite sum_cols. unfold avg_z.
  assert (PR : drows (preshift gx x0 y0 x1 y1) = (h * gx)%nat) by (apply block_rows; reflexivity).
  rewrite (@sumn_ext h _ (fun jc => if Nat.eqb jc (j - y0) then sumn w (fun ic => if Nat.eqb ic (i - x0) then (if in_area i j then u ic jc else 0) else 0) else 0)).
  - unfold in_area. destruct (Nat.leb_spec x0 i), (Nat.leb_spec i x1), (Nat.leb_spec y0 j), (Nat.leb_spec j y1); cbn [andb]; try (apply sumn_zero; intros jc _; destruct (Nat.eqb _ _); [|reflexivity]; apply sumn_zero; intros ic _; destruct (Nat.eqb _ _); reflexivity).
    rewrite (@sumn_pick h (j - y0)) by (unfold dy; lia). rewrite (@sumn_pick w (i - x0)) by (unfold dx; lia). reflexivity.
  - intros jc Hjc. destruct (Nat.eqb jc (j - y0)) eqn:Ej.
    + apply sumn_ext. intros ic Hic. rewrite pad_all_ent by assumption. rewrite preshift_ent by assumption. unfold in_area. rewrite (Nat.eqb_sym (j - y0)), Ej, (Nat.eqb_sym ic).
      destruct (Nat.leb x0 i && Nat.leb i x1), (Nat.leb y0 j && Nat.leb j y1), (Nat.eqb (i - x0) ic); cbn [andb]; ring.
    + apply sumn_zero. intros ic Hic. rewrite pad_all_ent by assumption. rewrite preshift_ent by assumption. rewrite (Nat.eqb_sym (j - y0)), Ej. cbn [andb]. destruct (Nat.leb y0 j && Nat.leb j y1); ring.
Qed.
(** the other pixel that a row of the y component averages with *)
Definition partner (j : nat) : nat := if Nat.leb j 1 then (h - 1)%nat else (j - 1)%nat.
Lemma shift_y_ent i j ic jc : (i < gx)%nat -> (j < h)%nat -> (ic < w)%nat -> (jc < h)%nat ->
  dent (shift_y gx x0 y0 x1 y1) (j * gx + i)%nat (jc * w + ic)%nat == if Nat.eqb jc (partner j) && (Nat.leb x0 i && Nat.leb i x1) && Nat.eqb (i - x0) ic then 1 else 0.
Proof.
  intros Hi Hj Hic Hjc. pose proof w1 as W. pose proof h1 as H1. unfold shift_y. set (P := preshift gx x0 y0 x1 y1). assert (Pc : dcols P = (h * w)%nat) by reflexivity. unfold dh, dfrom, dupto. cbn [dent drows dcols]. rewrite Pc.
  set (B := Nat.leb x0 i && Nat.leb i x1). set (I := Nat.eqb (i - x0) ic).
  assert (Ent : forall jj, dent P (j * gx + i)%nat (jj * w + ic)%nat = if Nat.eqb j jj && B && I then 1 else 0) by (intros jj; apply preshift_ent; assumption).
  replace (h * w - w + Nat.min w (h * w))%nat with (h * w)%nat by nia. unfold partner.
  (* the value of the shifted matrix before corrections *)
  assert (Sh : forall jj, (jj < h)%nat -> (if Nat.ltb (jj * w + ic) (h * w - w) then dent P (j * gx + i)%nat (w + (jj * w + ic))%nat else dent P (j * gx + i)%nat (jj * w + ic - (h * w - w))%nat) = if Nat.eqb j (if Nat.eqb jj (h - 1) then 0%nat else S jj) && B && I then 1 else 0).
  { intros jj Hjj. destruct (Nat.eqb_spec jj (h - 1)) as [->|N].
    - destruct (Nat.ltb_spec ((h - 1) * w + ic) (h * w - w)); [nia|]. replace ((h - 1) * w + ic - (h * w - w))%nat with (0 * w + ic)%nat by nia. apply Ent.
    - destruct (Nat.ltb_spec (jj * w + ic) (h * w - w)); [|nia]. replace (w + (jj * w + ic))%nat with (S jj * w + ic)%nat by lia. apply Ent. }
  assert (Lt : Nat.ltb (jc * w + ic) w = Nat.eqb jc 0) by (destruct (Nat.ltb_spec (jc * w + ic) w), (Nat.eqb_spec jc 0); try reflexivity; nia).
  assert (Ge : Nat.leb (h * w - w) (jc * w + ic) = Nat.eqb jc (h - 1)) by (destruct (Nat.leb_spec (h * w - w) (jc * w + ic)), (Nat.eqb_spec jc (h - 1)); try reflexivity; nia).
  rewrite Lt, Ge. rewrite (Sh jc Hjc).
  assert (Ex : jc = (h - 1)%nat -> (if Nat.ltb (jc * w + ic - (h * w - w)) (h * w - w) then dent P (j * gx + i)%nat (w + (jc * w + ic - (h * w - w)))%nat else dent P (j * gx + i)%nat (jc * w + ic - (h * w - w) - (h * w - w))%nat) = if Nat.eqb j (if Nat.eqb 0 (h - 1) then 0%nat else 1%nat) && B && I then 1 else 0).
  { intros ->. replace ((h - 1) * w + ic - (h * w - w))%nat with (0 * w + ic)%nat by nia. apply (Sh 0%nat). lia. }
  destruct (Nat.eqb_spec jc (h - 1)) as [E|E].
  - rewrite (Ex E). destruct (Nat.eqb_spec 0 (h - 1)) as [H0|H0].
    + replace j with 0%nat by lia. replace jc with 0%nat by lia. cbn [Nat.eqb Nat.leb]. rewrite <- H0. cbn [Nat.eqb]. destruct B, I; reflexivity.
    + destruct (Nat.eqb_spec jc 0); [lia|]. destruct (Nat.leb_spec j 1) as [L|L].
      * rewrite E, Nat.eqb_refl. assert (O : (j = 0 \/ j = 1)%nat) by lia. destruct O as [-> | ->]; cbn [Nat.eqb]; destruct B, I; reflexivity.
      * destruct (Nat.eqb_spec j 0); [lia|]. destruct (Nat.eqb_spec j 1); [lia|]. destruct (Nat.eqb_spec jc (j - 1)); [lia|]. destruct B, I; reflexivity.
  - destruct (Nat.eqb_spec jc 0) as [Z|Z].
    + destruct (Nat.leb_spec j 1); destruct (Nat.eqb_spec jc (h - 1)); try lia; [destruct B, I; reflexivity|]. destruct (Nat.eqb_spec jc (j - 1)); [lia|]. destruct B, I; reflexivity.
    + destruct (Nat.leb_spec j 1).
      * destruct (Nat.eqb_spec jc (h - 1)); [lia|]. destruct (Nat.eqb_spec j (S jc)); [lia|]. destruct B, I; reflexivity.
      * destruct (Nat.eqb_spec j (S jc)), (Nat.eqb_spec jc (j - 1)); try lia; destruct B, I; reflexivity.
Qed.
Theorem far_edge_y u i j z : (i < gx)%nat -> (j < gy)%nat -> (z < gz)%nat ->
  apply (average_far_edge gx gy gz x0 y0 x1 y1) (w * h) (uvec u) (cell gx gy gz 1 i j z) == if in_area i j then far_y h u (i - x0) (j - y0) else 0.
Proof.
  intros Hi Hj Hz. unfold apply, average_far_edge. destruct (@row_split 1 i j z Hi Hj Hz) as [-> ->]. rewrite sum_cols. unfold avg_y.
  assert (PR : drows (dhalf (dplus (preshift gx x0 y0 x1 y1) (shift_y gx x0 y0 x1 y1))) = (h * gx)%nat) by (apply block_rows; reflexivity).
  destruct (Nat.leb y0 j && Nat.leb j y1) eqn:Ej.
  2:{ unfold in_area. rewrite Ej, andb_false_r. apply sumn_zero. intros jc _. apply sumn_zero. intros ic _. rewrite pad_all_ent by assumption. rewrite Ej. ring. }
  assert (J : (y0 <= j <= y1)%nat) by (rewrite andb_true_iff, !Nat.leb_le in Ej; lia). set (j' := (j - y0)%nat). assert (Hj' : (j' < h)%nat) by (unfold j', dy; lia).
  assert (Pl : (partner j' < h)%nat) by (pose proof h1; unfold partner; destruct (Nat.leb_spec j' 1); lia).
  set (B := Nat.leb x0 i && Nat.leb i x1).
  assert (T : forall k, (k < h)%nat -> sumn h (fun jc => sumn w (fun ic => (if Nat.eqb jc k && B && Nat.eqb (i - x0) ic then 1 else 0) * u ic jc)) == if B then u (i - x0)%nat k else 0).
  { intros k Hk. rewrite (@sumn_ext h _ (fun jc => if Nat.eqb jc k then sumn w (fun ic => if Nat.eqb ic (i - x0) then (if B then u ic jc else 0) else 0) else 0)).
    - rewrite sumn_pick by exact Hk. destruct B eqn:EB; [|apply sumn_zero; intros ic _; destruct (Nat.eqb _ _); reflexivity]. apply andb_true_iff in EB as [E1 E2]. apply Nat.leb_le in E1, E2. rewrite (@sumn_pick w (i - x0)) by (unfold dx; lia). reflexivity.
    - intros jc _. destruct (Nat.eqb jc k); [|apply sumn_zero; intros ic _; cbn [andb]; ring]. apply sumn_ext. intros ic _. rewrite (Nat.eqb_sym ic). destruct B, (Nat.eqb (i - x0) ic); cbn [andb]; ring. }
  rewrite (@sumn_ext h _ (fun jc => (1 # 2) * (sumn w (fun ic => (if Nat.eqb jc j' && B && Nat.eqb (i - x0) ic then 1 else 0) * u ic jc) + sumn w (fun ic => (if Nat.eqb jc (partner j') && B && Nat.eqb (i - x0) ic then 1 else 0) * u ic jc)))).
  - rewrite sumn_scale, sumn_plus, !T by assumption. unfold in_area. rewrite Ej. fold B. rewrite andb_true_r. fold j'. unfold far_y, partner. destruct B; [|ring]. destruct (Nat.leb j' 1); field.
  - intros jc Hjc. rewrite <- sumn_plus, <- sumn_scale. apply sumn_ext. intros ic Hic. rewrite pad_all_ent by assumption. rewrite Ej. fold j'. unfold dhalf, dplus. cbn [dent]. rewrite preshift_ent by assumption. rewrite shift_y_ent by assumption. fold B. rewrite (Nat.eqb_sym j' jc). field.
Qed.
End A.
