(** Lemmas about rendering, first part: averages and bounding boxes. *)
From Coq Require Import Reals Lia List QArith Qreals.
From Coquelicot Require Import Coquelicot.
From Verif Require Import QTac Raster2_Model Raster2_Spec Raster2_Proofs5 Raster2_Proofs6 Raster2_Proofs7.
From Coq Require Import Lra.
Open Scope R_scope.

(** *** functions with averages *)
Definition nice (f : R -> R -> R) : Prop := forall x0 x1 y0 y1, x0 < x1 -> y0 < y1 ->
  (forall y, ex_RInt (fun x => f x y) x0 x1) /\ ex_RInt (fun y => RInt (fun x => f x y) x0 x1) y0 y1.
Lemma nice_winding P : nice (winding P).
Proof. intros x0 x1 y0 y1 Hx Hy. split; [intros y; now apply winding_ex_inner|now apply winding_ex_outer]. Qed.
Lemma ex_ext (f g : R -> R) a b : a <= b -> (forall x, a < x < b -> f x = g x) -> ex_RInt f a b -> ex_RInt g a b.
Proof. intros H E [l Hl]. exists l. now apply (int_ext f). Qed.
Lemma RInt_same (f g : R -> R) a b : a <= b -> (forall x, a < x < b -> f x = g x) -> RInt f a b = RInt g a b.
Proof. intros H E. apply RInt_ext. now rewrite Rmin_left, Rmax_right by assumption. Qed.
Lemma correct (f : R -> R) a b : ex_RInt f a b -> is_RInt f a b (RInt f a b).
Proof. apply (@RInt_correct R_CompleteNormedModule). Qed.
Lemma nice_ext f g : (forall x y, f x y = g x y) -> nice f -> nice g.
Proof.
  intros E N x0 x1 y0 y1 Hx Hy. destruct (N x0 x1 y0 y1 Hx Hy) as [A B]. split.
  - intros y. apply (ex_ext (fun x => f x y)); [lra|auto|apply A].
  - apply (ex_ext (fun y => RInt (fun x => f x y) x0 x1)); [lra| |assumption]. intros y _. apply RInt_same; [lra|auto].
Qed.
Lemma nice_const k : nice (fun _ _ => k).
Proof.
  intros x0 x1 y0 y1 Hx Hy. split; [intros y; eexists; now apply int_const|].
  apply (ex_ext (fun _ => (x1 - x0) * k)); [lra| |eexists; now apply int_const]. intros y _. symmetry. apply is_RInt_unique. now apply int_const.
Qed.
Lemma nice_scal k f : nice f -> nice (fun x y => k * f x y).
Proof.
  intros N x0 x1 y0 y1 Hx Hy. destruct (N x0 x1 y0 y1 Hx Hy) as [A B]. split.
  - intros y. eexists. apply int_scal, correct, A.
  - apply (ex_ext (fun y => k * RInt (fun x => f x y) x0 x1)); [lra| |eexists; apply int_scal, correct, B].
    intros y _. symmetry. apply is_RInt_unique. apply int_scal, correct, A.
Qed.
Lemma nice_plus f g : nice f -> nice g -> nice (fun x y => f x y + g x y).
Proof.
  intros N M x0 x1 y0 y1 Hx Hy. destruct (N x0 x1 y0 y1 Hx Hy) as [A B], (M x0 x1 y0 y1 Hx Hy) as [C D]. split.
  - intros y. eexists. apply int_plus; [apply correct, A|apply correct, C].
  - apply (ex_ext (fun y => RInt (fun x => f x y) x0 x1 + RInt (fun x => g x y) x0 x1)); [lra| |eexists; apply int_plus; [apply correct, B|apply correct, D]].
    intros y _. symmetry. apply is_RInt_unique. apply int_plus; [apply correct, A|apply correct, C].
Qed.
Section box.
Variables x0 x1 y0 y1 : R.
Hypothesis Hx : x0 < x1.
Hypothesis Hy : y0 < y1.
Lemma average_ext f g : (forall x y, x0 < x < x1 -> y0 < y < y1 -> f x y = g x y) -> average f x0 x1 y0 y1 = average g x0 x1 y0 y1.
Proof. intros E. unfold average. f_equal. apply RInt_same; [lra|]. intros y Iy. apply RInt_same; [lra|]. auto. Qed.
Lemma average_const k : average (fun _ _ => k) x0 x1 y0 y1 = k.
Proof.
  unfold average. rewrite (RInt_same _ (fun _ => (x1 - x0) * k)); [|lra|intros y _; apply is_RInt_unique; now apply int_const].
  rewrite (is_RInt_unique _ _ _ _ (int_const ((x1 - x0) * k) y0 y1 _ eq_refl)). field. split; lra.
Qed.
Lemma average_mult k f : nice f -> average (fun x y => k * f x y) x0 x1 y0 y1 = k * average f x0 x1 y0 y1.
Proof.
  intros N. destruct (N x0 x1 y0 y1 Hx Hy) as [A B]. unfold average.
  rewrite (RInt_same _ (fun y => k * RInt (fun x => f x y) x0 x1)); [|lra|intros y _; apply is_RInt_unique; apply int_scal, correct, A].
  rewrite (is_RInt_unique _ _ _ _ (int_scal _ k _ _ _ (correct _ _ _ B))). unfold Rdiv. ring.
Qed.
Lemma average_plus f g : nice f -> nice g -> average (fun x y => f x y + g x y) x0 x1 y0 y1 = average f x0 x1 y0 y1 + average g x0 x1 y0 y1.
Proof.
  intros N M. destruct (N x0 x1 y0 y1 Hx Hy) as [A B], (M x0 x1 y0 y1 Hx Hy) as [C D]. unfold average.
  rewrite (RInt_same _ (fun y => RInt (fun x => f x y) x0 x1 + RInt (fun x => g x y) x0 x1)); [|lra|intros y _; apply is_RInt_unique; apply int_plus; [apply correct, A|apply correct, C]].
  rewrite (is_RInt_unique _ _ _ _ (int_plus _ _ _ _ _ _ (correct _ _ _ B) (correct _ _ _ D))). unfold Rdiv. ring.
Qed.
End box.

(** *** simple polygons *)
Lemma enclosed_simple P : simple P -> exists s, forall x y, enclosed P x y = s * winding P x y.
Proof.
  intros (s & Hs & HP). exists s. intros x y. unfold enclosed.
  destruct (HP x y) as [H|H]; destruct Req_EM_T as [Z|Z]; destruct Hs; subst; try rewrite H in *; lra.
Qed.
Lemma nice_enclosed P : simple P -> nice (enclosed P).
Proof.
  intros H. destruct (enclosed_simple P H) as [s E]. apply (nice_ext (fun x y => s * winding P x y)); [intros; symmetry; apply E|].
  apply nice_scal, nice_winding.
Qed.
Lemma enclosed_01 P x y : enclosed P x y = 0 \/ enclosed P x y = 1.
Proof. unfold enclosed. destruct Req_EM_T; auto. Qed.

(** *** outside the bounding box *)
Lemma cyc_telescope (h : R * R -> R) P : cyc (fun a b => h b - h a) P = 0.
Proof.
  destruct P as [|u l]; [reflexivity|]. rewrite cyc_cons.
  assert (H : forall l u z, rwalk (fun a b => h b - h a) u (l ++ [z]) = h z - h u).
  { clear. induction l as [|v l IH]; intros u z; cbn [app rwalk]; [lra|]. rewrite IH. lra. }
  rewrite H. lra.
Qed.
Lemma cyc_ext (f g : R * R -> R * R -> R) P : (forall a b, In a P -> In b P -> f a b = g a b) -> cyc f P = cyc g P.
Proof.
  intros H. unfold cyc. f_equal. apply map_ext_in. intros [a b] Hab. cbn [fst snd].
  destruct (@Raster2_Proofs4.in_cyclic _ P a b Hab) as [Ha Hb]. auto.
Qed.
Lemma net_upwards a b y : upwards b a y - upwards a b y = ind (Rle_dec (snd b) y) - ind (Rle_dec (snd a) y).
Proof. unfold upwards, ind. repeat destruct Rle_dec; repeat destruct Rlt_dec; lra. Qed.
(** an edge passing the height has its crossing between its ends *)
Lemma abscissa_mix a b y : upwards a b y <> 0 -> exists t, 0 <= t <= 1 /\ abscissa a b y = (1 - t) * fst a + t * fst b.
Proof.
  intros H. assert (K : snd a <= y < snd b).
  { unfold upwards, ind in H. destruct Rle_dec, Rlt_dec; lra. }
  exists ((y - snd a) / (snd b - snd a)). split.
  - assert (D : 0 < snd b - snd a) by lra. split.
    + apply Rmult_le_pos; [lra|]. left. now apply Rinv_0_lt_compat.
    + apply (Rmult_le_reg_r _ _ _ D). unfold Rdiv. rewrite Rmult_assoc, Rinv_l by lra. lra.
  - unfold abscissa. field. lra.
Qed.
Lemma crossing_mix a b x y : crossing a b x y = 0 \/ exists t, 0 <= t <= 1 /\ abscissa a b y = (1 - t) * fst a + t * fst b.
Proof.
  unfold crossing. destruct (Req_dec (upwards a b y) 0) as [E|E]; [|right; now apply abscissa_mix].
  destruct (Req_dec (upwards b a y) 0) as [F|F]; [left; rewrite E, F; ring|]. right.
  destruct (abscissa_mix b a y F) as (t & Ht & Et). exists (1 - t). split; [lra|].
  assert (K : snd b <= y < snd a) by (unfold upwards, ind in F; destruct Rle_dec, Rlt_dec; lra).
  replace (abscissa a b y) with (abscissa b a y); [rewrite Et; ring|]. unfold abscissa. field. split; lra.
Qed.
Lemma winding_left P x y : (forall v, In v P -> x <= fst v) -> winding P x y = 0.
Proof.
  intros H. rewrite winding_cyc. rewrite (cyc_ext _ (fun _ _ => 0 - 0)); [apply (cyc_telescope (fun _ => 0))|].
  intros a b Ha Hb. apply H in Ha, Hb. destruct (crossing_mix a b x y) as [E|(t & Ht & Et)]; [rewrite E; ring|].
  unfold crossing. rewrite Et. unfold ind. destruct Rlt_dec as [L|L]; [|ring]. exfalso.
  pose proof (Rmult_le_pos (1 - t) (fst a - x)). pose proof (Rmult_le_pos t (fst b - x)). lra.
Qed.
Lemma winding_right P x y : (forall v, In v P -> fst v < x) -> winding P x y = 0.
Proof.
  intros H. rewrite winding_cyc. rewrite (cyc_ext _ (fun a b => ind (Rle_dec (snd b) y) - ind (Rle_dec (snd a) y))); [apply (cyc_telescope (fun v => ind (Rle_dec (snd v) y)))|].
  intros a b Ha Hb. apply H in Ha, Hb. rewrite <- net_upwards. unfold crossing.
  destruct (Req_dec (upwards b a y - upwards a b y) 0) as [E|E]; [rewrite E; ring|].
  destruct (crossing_mix a b (abscissa a b y + 1) y) as [F|(t & Ht & Et)].
  - exfalso. apply E. unfold crossing, ind in F. destruct Rlt_dec; lra.
  - rewrite Et. unfold ind. destruct Rlt_dec as [L|L]; [ring|]. exfalso. apply L.
    destruct (Req_dec t 0) as [->|T]; [lra|]. pose proof (Rmult_le_pos (1 - t) (x - fst a)). pose proof (Rmult_lt_0_compat t (x - fst b)). lra.
Qed.
Lemma winding_below P x y : (forall v, In v P -> y < snd v) -> winding P x y = 0.
Proof.
  intros H. rewrite winding_cyc. rewrite (cyc_ext _ (fun _ _ => 0 - 0)); [apply (cyc_telescope (fun _ => 0))|].
  intros a b Ha Hb. apply H in Ha, Hb. unfold crossing, upwards, ind. repeat destruct Rle_dec; lra.
Qed.
Lemma winding_above P x y : (forall v, In v P -> snd v <= y) -> winding P x y = 0.
Proof.
  intros H. rewrite winding_cyc. rewrite (cyc_ext _ (fun _ _ => 0 - 0)); [apply (cyc_telescope (fun _ => 0))|].
  intros a b Ha Hb. apply H in Ha, Hb. unfold crossing, upwards, ind. repeat (destruct Rlt_dec; try lra). 
Qed.
Lemma winding_outside P x y : (forall v, In v P -> x <= fst v) \/ (forall v, In v P -> fst v < x) \/ (forall v, In v P -> y < snd v) \/ (forall v, In v P -> snd v <= y) ->
  winding P x y = 0.
Proof. intros [H|[H|[H|H]]]; [now apply winding_left|now apply winding_right|now apply winding_below|now apply winding_above]. Qed.
Lemma enclosed_outside P x y : (forall v, In v P -> x <= fst v) \/ (forall v, In v P -> fst v < x) \/ (forall v, In v P -> y < snd v) \/ (forall v, In v P -> snd v <= y) ->
  enclosed P x y = 0.
Proof. intros H. apply winding_outside in H. unfold enclosed. destruct Req_EM_T; tauto. Qed.
