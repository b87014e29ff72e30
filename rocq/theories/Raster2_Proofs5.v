(** Lemmas about 2D rastering, fifth part: integrals of the crossings of an edge. *)
From Coq Require Import Reals Lra Lia List.
From Coquelicot Require Import Coquelicot.
From Verif Require Import Raster2_Spec.
Open Scope R_scope.

Definition PhiR (x0 x1 x : R) : R := Rmax 0 (Rmin (x1 - x0) (x1 - x)).
Definition EtaR (y0 y1 y : R) : R := Rmax 0 (Rmin (y1 - y0) (y - y0)).
Definition TrapR (x0 x1 y0 y1 : R) (p q : R * R) : R :=
  (EtaR y0 y1 (snd q) - EtaR y0 y1 (snd p)) * (PhiR x0 x1 (fst p) + PhiR x0 x1 (fst q)) / 2.
Definition nosepR (g a b : R) : Prop := (a <= g /\ b <= g) \/ (g <= a /\ g <= b).

Lemma ind_true A B (d : {A} + {B}) : A -> (B -> ~ A) -> ind d = 1.
Proof. unfold ind. destruct d; [reflexivity|]. intros H K. exfalso. now apply K. Qed.
Lemma ind_le_true a b : a <= b -> ind (Rle_dec a b) = 1.
Proof. unfold ind. destruct (Rle_dec a b); intros; lra. Qed.
Lemma ind_le_false a b : b < a -> ind (Rle_dec a b) = 0.
Proof. unfold ind. destruct (Rle_dec a b); intros; lra. Qed.
Lemma ind_lt_true a b : a < b -> ind (Rlt_dec a b) = 1.
Proof. unfold ind. destruct (Rlt_dec a b); intros; lra. Qed.
Lemma ind_lt_false a b : b <= a -> ind (Rlt_dec a b) = 0.
Proof. unfold ind. destruct (Rlt_dec a b); intros; lra. Qed.

Lemma int_const k a b w : w = (b - a) * k -> is_RInt (fun _ : R => k) a b w.
Proof. intros ->. apply (@is_RInt_const R_NormedModule). Qed.
Lemma int_join (f : R -> R) a b c u v w : is_RInt f a b u -> is_RInt f b c v -> w = u + v -> is_RInt f a c w.
Proof. intros H1 H2 ->. exact (is_RInt_Chasles f a b c u v H1 H2). Qed.

Lemma int_ext (f g : R -> R) a b w : a <= b -> (forall x, a < x < b -> f x = g x) -> is_RInt f a b w -> is_RInt g a b w.
Proof. intros Hab H. apply is_RInt_ext. rewrite Rmin_left, Rmax_right by assumption. exact H. Qed.

(** the part of a pixel row right of a point *)
Lemma inner_integral x0 x1 e k : x0 < x1 -> is_RInt (fun x => k * ind (Rlt_dec e x)) x0 x1 (k * PhiR x0 x1 e).
Proof.
  intros Hx. unfold PhiR.
  destruct (Rle_lt_dec e x0) as [H|H].
  - replace (Rmax 0 (Rmin (x1 - x0) (x1 - e))) with (x1 - x0) by (unfold Rmax, Rmin; repeat destruct Rle_dec; lra).
    apply (int_ext (fun _ => k)); [lra| |].
    + intros x [H1 H2]. rewrite ind_lt_true by lra. lra.
    + apply int_const. ring.
  - destruct (Rle_lt_dec x1 e) as [H'|H'].
    + replace (Rmax 0 (Rmin (x1 - x0) (x1 - e))) with 0 by (unfold Rmax, Rmin; repeat destruct Rle_dec; lra).
      apply (int_ext (fun _ => 0)); [lra| |].
      * intros x [H1 H2]. rewrite ind_lt_false by lra. lra.
      * apply int_const. ring.
    + replace (Rmax 0 (Rmin (x1 - x0) (x1 - e))) with (x1 - e) by (unfold Rmax, Rmin; repeat destruct Rle_dec; lra).
      apply (int_join _ x0 e x1 0 (k * (x1 - e))); [| |ring].
      * apply (int_ext (fun _ => 0)); [lra| |apply int_const; ring].
        intros x [H1 H2]. rewrite ind_lt_false by lra. lra.
      * apply (int_ext (fun _ => k)); [lra| |apply int_const; ring].
        intros x [H1 H2]. rewrite ind_lt_true by lra. lra.
Qed.

Section row.
Variables y0 y1 : R.
Hypothesis Hy : y0 < y1.
Definition clampR (s : R) : R := Rmin (Rmax s y0) y1.
Lemma clamp_in s : y0 <= clampR s <= y1.
Proof. unfold clampR, Rmin, Rmax. repeat destruct Rle_dec; lra. Qed.
Lemma clamp_mono s t : s <= t -> clampR s <= clampR t.
Proof. unfold clampR, Rmin, Rmax. repeat destruct Rle_dec; lra. Qed.

Variable f : R -> R.
Hypothesis Hf : forall y, continuous f y.
Lemma f_int a b : ex_RInt f a b.
Proof. apply (@ex_RInt_continuous R_CompleteNormedModule). intros; apply Hf. Qed.
Definition J (s : R) : R := RInt f y0 (clampR s).
Lemma J_diff s t : J t - J s = RInt f (clampR s) (clampR t).
Proof.
  unfold J. rewrite <- (RInt_Chasles f y0 (clampR s) (clampR t)) by apply f_int. unfold plus; simpl. ring.
Qed.
Lemma window_integral s t : s <= t -> is_RInt (fun y => ind (Rle_dec s y) * ind (Rlt_dec y t) * f y) y0 y1 (J t - J s).
Proof.
  intros Hst. rewrite J_diff.
  pose proof (clamp_in s) as Is. pose proof (clamp_in t) as It. pose proof (clamp_mono s t Hst) as M.
  apply (int_join _ y0 (clampR t) y1 (RInt f (clampR s) (clampR t)) 0); [apply (int_join _ y0 (clampR s) (clampR t) 0 (RInt f (clampR s) (clampR t))); [| |symmetry; apply Rplus_0_l]| |symmetry; apply Rplus_0_r].
  - apply (int_ext (fun _ => 0)); [lra| |apply int_const; ring].
    intros y [H1 H2]. rewrite ind_le_false; [ring|].
    revert H2. unfold clampR, Rmin, Rmax. repeat destruct Rle_dec; lra.
  - apply (int_ext f); [lra| |apply (@RInt_correct R_CompleteNormedModule), f_int].
    intros y [H1 H2]. rewrite ind_le_true, ind_lt_true; [ring| |].
    + revert H2. unfold clampR, Rmin, Rmax. repeat destruct Rle_dec; lra.
    + revert H1. unfold clampR, Rmin, Rmax. repeat destruct Rle_dec; lra.
  - apply (int_ext (fun _ => 0)); [lra| |apply int_const; ring].
    intros y [H1 H2]. rewrite (ind_lt_false y t); [ring|].
    revert H1. unfold clampR, Rmin, Rmax. repeat destruct Rle_dec; lra.
Qed.
Lemma affine_integral al be u v : is_RInt (fun y => al * y + be) u v ((v - u) * ((al * u + be) + (al * v + be)) / 2).
Proof.
  replace ((v - u) * ((al * u + be) + (al * v + be)) / 2) with (minus (al * v * v / 2 + be * v) (al * u * u / 2 + be * u))
    by (unfold minus, plus, opp; simpl; field).
  apply (is_RInt_derive (fun y => al * y * y / 2 + be * y) (fun y => al * y + be)).
  - intros x _. auto_derive; [exact I|field].
  - intros x _. apply continuity_pt_filterlim. reg.
Qed.
Lemma trapezoid al be s t : (forall y, Rmin s t <= y <= Rmax s t -> f y = al * y + be) -> nosepR y0 s t -> nosepR y1 s t ->
  J t - J s = (EtaR y0 y1 t - EtaR y0 y1 s) * (f s + f t) / 2.
Proof.
  intros Haff H0 H1. rewrite J_diff.
  assert (E : forall u, EtaR y0 y1 u = clampR u - y0) by (intros u; unfold EtaR, clampR, Rmax, Rmin; repeat destruct Rle_dec; lra).
  assert (Hsame : clampR s = clampR t \/ (clampR s = s /\ clampR t = t)).
  { unfold nosepR in *. unfold clampR, Rmax, Rmin. repeat destruct Rle_dec; lra. }
  rewrite !E. destruct Hsame as [Hs|[Hs Ht]].
  - rewrite Hs, RInt_point. unfold zero; simpl. field.
  - rewrite Hs, Ht. rewrite (Haff s), (Haff t) by (split; unfold Rmax, Rmin; repeat destruct Rle_dec; lra).
    transitivity ((t - s) * ((al * s + be) + (al * t + be)) / 2); [|field].
    apply is_RInt_unique. apply (is_RInt_ext (fun y => al * y + be)); [|apply affine_integral].
    intros y Hy'. symmetry. apply Haff. lra.
Qed.
End row.

Lemma Phi_continuous x0 x1 u v y : continuous (fun y => PhiR x0 x1 (u + v * y)) y.
Proof.
  unfold PhiR. apply continuity_pt_filterlim.
  assert (A : continuity (fun y => x1 - (u + v * y))) by (intros z; reg).
  assert (M : forall f c, continuity f -> continuity (fun y => Rmin c (f y))).
  { intros f c Hf z. apply (continuity_pt_ext (fun y => (c + f y - Rabs (c - f y)) / 2)).
    - intros w. unfold Rmin, Rabs. destruct Rle_dec, Rcase_abs; lra.
    - assert (continuity_pt (fun y => Rabs (c - f y)) z).
      { apply (continuity_pt_comp (fun y => c - f y) Rabs); [|apply Rcontinuity_abs]. apply continuity_pt_minus; [apply continuity_pt_const; intros ? ?; reflexivity|apply Hf]. }
      apply continuity_pt_mult; [|apply continuity_pt_const; intros ? ?; reflexivity].
      apply continuity_pt_minus; [|assumption]. apply continuity_pt_plus; [apply continuity_pt_const; intros ? ?; reflexivity|apply Hf]. }
  assert (M' : forall f c, continuity f -> continuity (fun y => Rmax c (f y))).
  { intros f c Hf z. apply (continuity_pt_ext (fun y => (c + f y + Rabs (c - f y)) / 2)).
    - intros w. unfold Rmax, Rabs. destruct Rle_dec, Rcase_abs; lra.
    - assert (continuity_pt (fun y => Rabs (c - f y)) z).
      { apply (continuity_pt_comp (fun y => c - f y) Rabs); [|apply Rcontinuity_abs]. apply continuity_pt_minus; [apply continuity_pt_const; intros ? ?; reflexivity|apply Hf]. }
      apply continuity_pt_mult; [|apply continuity_pt_const; intros ? ?; reflexivity].
      apply continuity_pt_plus; [|assumption]. apply continuity_pt_plus; [apply continuity_pt_const; intros ? ?; reflexivity|apply Hf]. }
  apply M', M, A.
Qed.
