(** Slopes of the surface; polynomials in two variables. *)
From Coq Require Import Reals Lra Lia.
From Verif Require Import Base Cub_Model Cub_Spec Cub_Proofs Cub_Proofs2 Cub_Proofs4
  Cub_Proofs5 Cub_Proofs6 Cub_Proofs7.
Set Implicit Arguments.
Open Scope R_scope.

Lemma herm_derivable d f0 f1 g0 g1 t : d <> 0 ->
  derivable_pt_lim (herm d f0 f1 g0 g1) t (herm' d f0 f1 g0 g1 t).
Proof.
  intros Hd.
  set (c2 := (3 * (f1 - f0) / d - 2 * g0 - g1) / d).
  set (c3 := (2 * (f0 - f1) / d + g0 + g1) / (d * d)).
  set (p := fun u => f0 + g0 * u + c2 * u ^ 2 + c3 * u ^ 3).
  assert (E : forall u, herm d f0 f1 g0 g1 u = p u).
  { intros u. unfold herm, p, c2, c3. field. exact Hd. }
  assert (E' : herm' d f0 f1 g0 g1 t = 0 + (0 * t + g0 * 1) + (0 * t ^ 2 + c2 * (INR 2 * t ^ 1)) + (0 * t ^ 3 + c3 * (INR 3 * t ^ 2))).
  { unfold herm', c2, c3. cbn [INR]. field. exact Hd. }
  assert (D : derivable_pt_lim p t (herm' d f0 f1 g0 g1 t)).
  { rewrite E'. unfold p.
    apply (derivable_pt_lim_plus (fun u => f0 + g0 * u + c2 * u ^ 2) (fun u => c3 * u ^ 3)).
    - apply (derivable_pt_lim_plus (fun u => f0 + g0 * u) (fun u => c2 * u ^ 2)).
      + apply (derivable_pt_lim_plus (fun _ => f0) (fun u => g0 * u)).
        * apply derivable_pt_lim_const.
        * apply (derivable_pt_lim_mult (fun _ => g0) (fun u => u)).
          -- apply derivable_pt_lim_const.
          -- apply derivable_pt_lim_id.
      + apply (derivable_pt_lim_mult (fun _ => c2) (fun u => u ^ 2)).
        * apply derivable_pt_lim_const.
        * apply derivable_pt_lim_pow.
    - apply (derivable_pt_lim_mult (fun _ => c3) (fun u => u ^ 3)).
      + apply derivable_pt_lim_const.
      + apply derivable_pt_lim_pow. }
  intros eps Heps. destruct (D eps Heps) as [delta H]. exists delta.
  intros h H1 H2. rewrite !E. now apply H.
Qed.

Lemma H1d_derivable per q g c t : incr q -> (S c < length q)%nat ->
  derivable_pt_lim (H1d per q g c) t (H1d' per q g c t).
Proof.
  intros I L. pose proof (gap I L) as G. unfold H1d, H1d'.
  set (d := nthR q (S c) - nthR q c) in *.
  intros eps Heps.
  destruct (@herm_derivable d (g (wrapb per (length q) c)) (g (wrapb per (length q) (S c)))
    (slope per q g c) (slope per q g (S c)) (t - nthR q c) ltac:(lra) eps Heps) as [delta H].
  exists delta. intros h H1 H2.
  replace (t + h - nthR q c) with (t - nthR q c + h) by ring. now apply H.
Qed.

(** a positive number below finitely many *)
Lemma finite_delta (P : nat -> R -> Prop) n :
  (forall c d d', (c < n)%nat -> P c d -> 0 < d' <= d -> P c d') ->
  (forall c, (c < n)%nat -> exists d, 0 < d /\ P c d) ->
  exists d, 0 < d /\ forall c, (c < n)%nat -> P c d.
Proof.
  induction n as [| n IH]; intros M H.
  - exists 1. split; [lra |]. intros; lia.
  - destruct IH as (d & Hd & IH).
    + intros c a b Hc. apply M. lia.
    + intros c Hc. apply H. lia.
    + destruct (H n ltac:(lia)) as (e & He & Pe).
      exists (Rmin d e). pose proof (Rmin_l d e). pose proof (Rmin_r d e).
      assert (0 < Rmin d e) by now apply Rmin_glb_lt.
      split; [assumption |].
      intros c Hc. destruct (Nat.eq_dec c n) as [-> | N].
      * apply (M n e); [lia | exact Pe | lra].
      * apply (M c d); [lia | apply IH; lia | lra].
Qed.

Definition in_cell (q : list R) (c : nat) (t : R) : Prop := nthR q c <= t <= nthR q (S c).

(** close points of the grid share a cell *)
Lemma near_cell q t : incr q -> (2 <= length q)%nat -> inside q t ->
  exists d, 0 < d /\ forall h, Rabs h < d -> inside q (t + h) ->
  exists c, (S c < length q)%nat /\ in_cell q c t /\ in_cell q c (t + h).
Proof.
  intros I L IN. destruct (cell_ok I L IN) as (_ & C & C1 & C2).
  set (c := cellc q t) in *. clearbody c.
  pose proof (gap I C) as G.
  destruct (Rle_lt_or_eq_dec _ _ C1) as [A | A].
  - destruct (Rle_lt_or_eq_dec _ _ C2) as [B | B].
    + exists (Rmin (t - nthR q c) (nthR q (S c) - t)).
      split; [apply Rmin_glb_lt; lra |]. intros h Hh _.
      pose proof (Rmin_l (t - nthR q c) (nthR q (S c) - t)).
      pose proof (Rmin_r (t - nthR q c) (nthR q (S c) - t)).
      apply Rabs_def2 in Hh. exists c. unfold in_cell. repeat split; try assumption; lra.
    + destruct (Nat.eq_dec (S (S c)) (length q)) as [E | E].
      * exists (t - nthR q c). split; [lra |]. intros h Hh [_ Hi]. apply Rabs_def2 in Hh.
        replace (length q - 1)%nat with (S c) in Hi by lia.
        exists c. unfold in_cell. repeat split; try assumption; lra.
      * pose proof (@gap q (S c) I ltac:(lia)) as G2.
        exists (Rmin (t - nthR q c) (nthR q (S (S c)) - nthR q (S c))).
        split; [apply Rmin_glb_lt; lra |]. intros h Hh _.
        pose proof (Rmin_l (t - nthR q c) (nthR q (S (S c)) - nthR q (S c))).
        pose proof (Rmin_r (t - nthR q c) (nthR q (S (S c)) - nthR q (S c))).
        apply Rabs_def2 in Hh. destruct (Rle_dec h 0).
        -- exists c. unfold in_cell. repeat split; try assumption; lra.
        -- exists (S c). unfold in_cell. repeat split; try lia; lra.
  - destruct c as [| k].
    + exists (nthR q 1 - nthR q 0). split; [exact G |]. intros h Hh [Hi _]. apply Rabs_def2 in Hh.
      exists 0%nat. unfold in_cell. repeat split; try assumption; lra.
    + pose proof (@gap q k I ltac:(lia)) as G2.
      exists (Rmin (nthR q (S (S k)) - nthR q (S k)) (nthR q (S k) - nthR q k)).
      split; [apply Rmin_glb_lt; lra |]. intros h Hh _.
      pose proof (Rmin_l (nthR q (S (S k)) - nthR q (S k)) (nthR q (S k) - nthR q k)).
      pose proof (Rmin_r (nthR q (S (S k)) - nthR q (S k)) (nthR q (S k) - nthR q k)).
      apply Rabs_def2 in Hh. destruct (Rle_dec 0 h).
      * exists (S k). unfold in_cell. repeat split; try assumption; lra.
      * exists k. unfold in_cell. repeat split; try lia; lra.
Qed.

Lemma I1_slope per q g t : incr q -> (2 <= length q)%nat -> inside q t ->
  slope_at (nthR q 0) (nthR q (length q - 1)) (I1 per q g) t (I1' per q g t).
Proof.
  intros I L IN eps Heps.
  destruct (@finite_delta (fun c d => in_cell q c t -> forall h, h <> 0 -> Rabs h < d ->
      in_cell q c (t + h) ->
      Rabs ((I1 per q g (t + h) - I1 per q g t) / h - I1' per q g t) < eps)
      (length q - 1)) as (d1 & D1 & Q1).
  - intros c d d' _ H [_ Hd] Ht h Hh Hl Hc. apply H; auto. lra.
  - intros c Hc. destruct (@H1d_derivable per q g c t I ltac:(lia) eps Heps) as [d Hd].
    exists d. split; [apply cond_pos |]. intros Ht h Hh Hl Hth.
    destruct (@I1_on_cell per q g c t I ltac:(lia) Ht) as [-> ->].
    destruct (@I1_on_cell per q g c (t + h) I ltac:(lia) Hth) as [-> _].
    now apply Hd.
  - destruct (near_cell I L IN) as (d2 & D2 & Q2).
    exists (Rmin d1 d2). split; [now apply Rmin_glb_lt |].
    pose proof (Rmin_l d1 d2). pose proof (Rmin_r d1 d2).
    intros h Hh Hl Hth. destruct (Q2 h ltac:(lra) Hth) as (c & Hc & T1 & T2).
    apply (Q1 c ltac:(lia) T1 h Hh ltac:(lra) T2).
Qed.

(** The interpolation along x and the slope in y commute. *)
Lemma surf_slopes xq yq per v x y :
  good (ax0 per) xq -> good (ax1 per) yq -> inside xq x -> inside yq y ->
  slope_at (nthR xq 0) (nthR xq (length xq - 1)) (fun t => surf xq yq per v t y) x
    (surf_x xq yq per v x y) /\
  slope_at (nthR yq 0) (nthR yq (length yq - 1)) (fun t => surf xq yq per v x t) y
    (surf_y xq yq per v x y).
Proof.
  intros Gx Gy Hx Hy. pose proof (good_2 Gx) as Lx. pose proof (good_2 Gy) as Ly.
  destruct Gx as [Ix Gx], Gy as [Iy Gy]. split.
  - apply I1_slope; assumption.
  - (* the operator along x is a fixed combination of the control lines *)
    set (n := n_red (ax0 per) xq).
    assert (Hn : (1 <= n)%nat) by (unfold n, n_red; destruct (ax0 per); lia).
    intros eps Heps.
    destruct (cell_ok Ix Lx Hx) as (_ & Cx & _).
    (* a bound for the operator along x *)
    assert (B : exists M, 0 < M /\ forall (e : R) g, 0 < e -> (forall k, (k < n)%nat -> Rabs (g k) < e) ->
       Rabs (I1 (ax0 per) xq g x) < M * e).
    { set (unit_ k0 := fun k => if Nat.eqb k k0 then 1 else 0 : R).
      assert (F : forall m, (m <= n)%nat ->
        exists M, 0 < M /\ forall (e : R) f, 0 < e -> (forall k, (k < n)%nat -> Rabs (f k) < e) ->
          Rabs (I1 (ax0 per) xq (fun k => if Nat.ltb k m then f k else 0) x) < M * e).
      { intros m. induction m as [| m IH]; intros Hm.
        - exists 1. split; [lra |]. intros e f He Hf.
          destruct (@I1_ext (ax0 per) xq (fun k => if Nat.ltb k 0 then f k else 0) (fun _ => 0) x
            (conj Ix Gx) Hx (fun k _ => eq_refl)) as [-> _].
          destruct (@I1_const (ax0 per) xq 0 x (conj Ix Gx) Hx) as [-> _]. rewrite Rabs_R0. lra.
        - destruct (IH ltac:(lia)) as (M & HM & IHm). clear IH.
          exists (M + (Rabs (I1 (ax0 per) xq (unit_ m) x) + 1)).
          pose proof (Rabs_pos (I1 (ax0 per) xq (unit_ m) x)) as P.
          split; [lra |]. intros e f He Hf.
          destruct (@I1_ext (ax0 per) xq (fun k => if Nat.ltb k (S m) then f k else 0)
            (fun k => 1 * (if Nat.ltb k m then f k else 0) + f m * unit_ m k) x (conj Ix Gx) Hx)
            as [-> _].
          { intros k Hk. unfold unit_. destruct (Nat.ltb_spec k (S m)), (Nat.ltb_spec k m),
              (Nat.eqb_spec k m); try lia; try ring. subst k. ring. }
          destruct (@I1_linear (ax0 per) xq 1 (f m) (fun k => if Nat.ltb k m then f k else 0)
            (unit_ m) x) as [-> _].
          specialize (IHm e f He Hf). specialize (Hf m ltac:(lia)).
          eapply Rle_lt_trans; [apply Rabs_triang |]. rewrite Rmult_1_l, Rabs_mult.
          assert (Rabs (f m) * Rabs (I1 (ax0 per) xq (unit_ m) x)
                  <= e * (Rabs (I1 (ax0 per) xq (unit_ m) x) + 1)).
          { apply Rmult_le_compat; try lra. apply Rabs_pos. }
          lra. }
      destruct (F n (le_n _)) as (M & HM & H).
      exists M. split; [exact HM |]. intros e g He Hg. specialize (H e g He Hg).
      destruct (@I1_ext (ax0 per) xq g (fun k => if Nat.ltb k n then g k else 0) x
        (conj Ix Gx) Hx) as [-> _]; [| exact H].
      intros k Hk. fold n in Hk. destruct (Nat.ltb_spec k n); [reflexivity | lia]. }
    destruct B as (M & HM & B).
    destruct (@finite_delta (fun k d => forall h, h <> 0 -> Rabs h < d -> inside yq (y + h) ->
        Rabs ((I1 (ax1 per) yq (arr per xq v k) (y + h) - I1 (ax1 per) yq (arr per xq v k) y) / h
              - I1' (ax1 per) yq (arr per xq v k) y) < eps / M) n) as (d & Hd & Q).
    + intros c e e' _ H [_ He] h Hh Hl Hi. apply H; auto. lra.
    + intros k _. apply (@I1_slope (ax1 per) yq (arr per xq v k) y Iy Ly Hy (eps / M)).
      apply Rdiv_lt_0_compat; assumption.
    + exists d. split; [exact Hd |]. intros h Hh Hl Hi.
      unfold surf, surf_y.
      set (G1 := fun k => I1 (ax1 per) yq (arr per xq v k) (y + h)).
      set (G0 := fun k => I1 (ax1 per) yq (arr per xq v k) y).
      set (D0 := fun k => I1' (ax1 per) yq (arr per xq v k) y).
      assert (E : (I1 (ax0 per) xq G1 x - I1 (ax0 per) xq G0 x) / h - I1 (ax0 per) xq D0 x
        = I1 (ax0 per) xq (fun k => 1 * (/ h * G1 k + - / h * G0 k) + - (1) * D0 k) x).
      { destruct (@I1_linear (ax0 per) xq 1 (- (1)) (fun k => / h * G1 k + - / h * G0 k) D0 x) as [-> _].
        destruct (@I1_linear (ax0 per) xq (/ h) (- / h) G1 G0 x) as [-> _]. field. exact Hh. }
      rewrite E. replace eps with (M * (eps / M)) by (field; lra). apply B.
      * apply Rdiv_lt_0_compat; assumption.
      * intros k Hk. specialize (Q k Hk h Hh Hl Hi).
        replace (1 * (/ h * G1 k + - / h * G0 k) + - (1) * D0 k) with ((G1 k - G0 k) / h - D0 k)
          by (field; exact Hh). exact Q.
Qed.

(** Polynomials of degree two in each variable *)
Lemma surf_quadratic xq yq v a0 a1 a2 b0 b1 b2 c0 c1 c2 x y :
  let p x y := (a0 + a1 * x + a2 * x ^ 2) + (b0 + b1 * x + b2 * x ^ 2) * y
               + (c0 + c1 * x + c2 * x ^ 2) * y ^ 2 in
  good false xq -> good false yq -> inside xq x -> inside yq y ->
  (forall i j, (i < length xq)%nat -> (j < length yq)%nat ->
     v (i + length xq * j)%nat = p (nthR xq i) (nthR yq j)) ->
  surf xq yq (Two false false) v x y = p x y.
Proof.
  cbv zeta. intros Gx Gy Hx Hy Hv. unfold surf. cbn [ax0 ax1].
  destruct (@I1_ext false xq (fun k => I1 false yq (arr (Two false false) xq v k) y)
    (fun k => (a0 + b0 * y + c0 * y ^ 2) + (a1 + b1 * y + c1 * y ^ 2) * nthR xq k
              + (a2 + b2 * y + c2 * y ^ 2) * nthR xq k ^ 2) x Gx Hx) as [-> _].
  - intros k Hk. unfold n_red in Hk. rewrite Nat.sub_0_r in Hk.
    destruct (@I1_ext false yq (arr (Two false false) xq v k)
      (fun m => (a0 + a1 * nthR xq k + a2 * nthR xq k ^ 2)
                + (b0 + b1 * nthR xq k + b2 * nthR xq k ^ 2) * nthR yq m
                + (c0 + c1 * nthR xq k + c2 * nthR xq k ^ 2) * nthR yq m ^ 2) y Gy Hy) as [-> _].
    + intros m Hm. unfold n_red in Hm. rewrite Nat.sub_0_r in Hm.
      unfold arr. cbn [ax0]. unfold n_red. rewrite Nat.sub_0_r. rewrite Hv by assumption. reflexivity.
    + destruct (@I1_quadratic yq (a0 + a1 * nthR xq k + a2 * nthR xq k ^ 2)
        (b0 + b1 * nthR xq k + b2 * nthR xq k ^ 2) (c0 + c1 * nthR xq k + c2 * nthR xq k ^ 2) y Gy Hy)
        as [-> _]. ring.
  - destruct (@I1_quadratic xq (a0 + b0 * y + c0 * y ^ 2) (a1 + b1 * y + c1 * y ^ 2)
      (a2 + b2 * y + c2 * y ^ 2) x Gx Hx) as [-> _]. ring.
Qed.

Lemma surf_const xq yq per v a x y :
  good (ax0 per) xq -> good (ax1 per) yq -> inside xq x -> inside yq y ->
  (forall r, (r < n_red (ax0 per) xq * n_red (ax1 per) yq)%nat -> v r = a) ->
  surf xq yq per v x y = a.
Proof.
  intros Gx Gy Hx Hy Hv. unfold surf.
  destruct (@I1_ext (ax0 per) xq (fun k => I1 (ax1 per) yq (arr per xq v k) y) (fun _ => a) x Gx Hx)
    as [-> _].
  - intros k Hk.
    destruct (@I1_ext (ax1 per) yq (arr per xq v k) (fun _ => a) y Gy Hy) as [-> _].
    + intros m Hm. unfold arr. apply Hv. now apply flat_lt.
    + now apply I1_const.
  - now apply I1_const.
Qed.
