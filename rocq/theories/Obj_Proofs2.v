(** Partial derivatives of every class of objective. *)
From Verif Require Import Base Obj_Model Obj_Spec Obj_Proofs.
From Coq Require Import Reals ZArith Lra Psatz.
Set Implicit Arguments.
Local Open Scope R_scope.

Lemma dotr_cons x l d ds : dotr (x :: l) (d :: ds) = x * d + dotr l ds.
Proof. reflexivity. Qed.
Lemma dotr_nil_l d : dotr [] d = 0.
Proof. reflexivity. Qed.
Lemma dotr_scale g l : forall d, dotr (map (fun w => g * w) l) d = g * dotr l d.
Proof.
  induction l as [|x l IH]; intros [|d ds]; cbn [map]; try (unfold dotr; cbn; ring).
  rewrite !dotr_cons, IH. ring.
Qed.
Lemma rsum_cons x l : rsum (x :: l) = x + rsum l.
Proof. reflexivity. Qed.
Lemma rsum_scale {A} c (f : A -> R) l : rsum (map (fun x => c * f x) l) = c * rsum (map f l).
Proof. induction l as [|x l IH]; cbn [map rsum fold_right]; [ring|]. unfold rsum in IH. rewrite IH. ring. Qed.
Lemma rsum_plus {A} (f h : A -> R) l : rsum (map (fun x => f x + h x) l) = rsum (map f l) + rsum (map h l).
Proof. induction l as [|x l IH]; cbn [map]; [cbn; ring|]. rewrite !rsum_cons, IH. ring. Qed.
Lemma rsum_ext {A} (f h : A -> R) l : (forall x, In x l -> f x = h x) -> rsum (map f l) = rsum (map h l).
Proof. intros H. f_equal. now apply map_ext_in. Qed.
Lemma rsum_pos {A} (f : A -> R) l : l <> [] -> (forall x, 0 < f x) -> 0 < rsum (map f l).
Proof.
  intros Hl Hf. destruct l as [|x l]; [congruence|]. clear Hl. revert x. induction l as [|y l IH]; intros x.
  - cbn. specialize (Hf x). lra.
  - cbn [map]. rewrite rsum_cons. specialize (IH y). cbn [map] in IH. specialize (Hf x). lra.
Qed.

(** ** Sums and products along curves *)
Section Curves.
Variable t0 : R.
Definition dl (us : list (R -> R)) (ds : list R) : Prop := Forall2 (fun u d => derivable_pt_lim u t0 d) us ds.
Definition at_ (us : list (R -> R)) (t : R) : list R := map (fun u => u t) us.

Lemma derive_rsum us ds : dl us ds -> derivable_pt_lim (fun t => rsum (at_ us t)) t0 (rsum ds).
Proof.
  induction 1 as [|u d us ds Hu _ IH].
  - apply derivable_pt_lim_const.
  - exact (derivable_pt_lim_plus u (fun t => rsum (at_ us t)) t0 d _ Hu IH).
Qed.
Lemma derive_map us ds (f f' : R -> R) : dl us ds ->
  (forall x, derivable_pt_lim f x (f' x)) ->
  derivable_pt_lim (fun t => rsum (map f (at_ us t))) t0 (dotr (map f' (at_ us t0)) ds).
Proof.
  intros H Hf. induction H as [|u d us ds Hu _ IH].
  - apply derivable_pt_lim_const.
  - change (at_ (u :: us) t0) with (u t0 :: at_ us t0). cbn [map]. rewrite dotr_cons.
    refine (derivable_pt_lim_plus (fun t => f (u t)) (fun t => rsum (map f (at_ us t))) t0 _ _ _ IH).
    exact (derivable_pt_lim_comp u f t0 d (f' (u t0)) Hu (Hf (u t0))).
Qed.

(** the products of the other factors *)
Fixpoint others (l : list R) : list R :=
  match l with [] => [] | x :: l' => rprod l' :: map (fun w => x * w) (others l') end.
Lemma prod_grads_others l : forall g, prod_grads l g = map (fun w => g * w) (others l).
Proof.
  induction l as [|x l IH]; intros g; [reflexivity|].
  transitivity (rprod l * g :: map (fun w => x * w) (prod_grads l g)).
  - unfold prod_grads. cbn [length seq map]. f_equal.
    + cbn [firstn skipn]. change (rprod []) with 1. ring.
    + rewrite <- seq_shift, !map_map. apply map_ext. intros i. cbn [firstn].
      change (skipn (S (S i)) (x :: l)) with (skipn (S i) l).
      change (rprod (x :: firstn i l)) with (x * rprod (firstn i l)). ring.
  - rewrite IH. cbn [others map]. f_equal; [ring|]. rewrite !map_map. apply map_ext. intros w. ring.
Qed.
Lemma others_length l : length (others l) = length l.
Proof. induction l; cbn [others length]; [reflexivity|]. now rewrite map_length, IHl. Qed.
Lemma derive_rprod us ds : dl us ds -> derivable_pt_lim (fun t => rprod (at_ us t)) t0 (dotr (others (at_ us t0)) ds).
Proof.
  induction 1 as [|u d us ds Hu _ IH].
  - apply derivable_pt_lim_const.
  - change (at_ (u :: us) t0) with (u t0 :: at_ us t0). cbn [others]. rewrite dotr_cons, dotr_scale.
    eapply derive_eq; [|exact (derivable_pt_lim_mult u (fun t => rprod (at_ us t)) t0 d _ Hu IH)]. cbv beta. ring.
Qed.
End Curves.

Lemma dl_length t0 us ds : dl t0 us ds -> length us = length ds.
Proof. induction 1; cbn; lia. Qed.

(** ** Soft maxima: the subtracted maximum cancels *)
Lemma shifted_sum m l : rsum (map (fun y => exp (y - m)) l) = exp (- m) * rsum (map exp l).
Proof. rewrite <- rsum_scale. apply rsum_ext. intros y _. rewrite <- exp_plus. f_equal. ring. Qed.
Lemma sum_exp_pos l : l <> [] -> 0 < rsum (map exp l).
Proof. intros H. apply rsum_pos; [assumption|apply exp_pos]. Qed.

Lemma lse_value l : l <> [] -> eval_scalar KLse l = Ok (log_sum_exp l).
Proof.
  intros Hl. assert (Hp := sum_exp_pos Hl). destruct l as [|x l']; [congruence|].
  unfold eval_scalar. cbv zeta. f_equal. rewrite shifted_sum.
  rewrite ln_mult; [|apply exp_pos|assumption]. rewrite ln_exp. unfold log_sum_exp. ring.
Qed.
Lemma lse_weights l g : l <> [] -> grad_scalar KLse l g = Ok (map (fun w => g * w) (softmax l)).
Proof.
  intros Hl. assert (Hp := sum_exp_pos Hl). destruct l as [|x l']; [congruence|].
  unfold grad_scalar. cbv zeta. f_equal. set (m := rmax x l'). rewrite shifted_sum.
  unfold softmax. rewrite map_map. apply map_ext. intros y.
  replace (exp (y - m)) with (exp y * exp (- m)) by (rewrite <- exp_plus; f_equal; ring).
  assert (exp (- m) <> 0) by (apply Rgt_not_eq, exp_pos). field. split; lra.
Qed.

(** [sum y e^y / sum e^y] *)
Definition soft_num (l : list R) : R := rsum (map (fun y => y * exp y) l).
Lemma combine_map {A B} (f : A -> B) l : combine l (map f l) = map (fun x => (x, f x)) l.
Proof. induction l; cbn; [reflexivity|]. now rewrite IHl. Qed.
Lemma soft_weights_sum m l : rsum (map (fun yw => fst yw * snd yw) (combine l (map (fun y => exp (y - m)) l)))
  = exp (- m) * soft_num l.
Proof.
  rewrite combine_map, map_map. unfold soft_num. rewrite <- rsum_scale. apply rsum_ext. intros y _. cbn [fst snd].
  replace (exp (y - m)) with (exp (- m) * exp y) by (rewrite <- exp_plus; f_equal; ring). ring.
Qed.
Lemma soft_value l : l <> [] -> eval_scalar KSoft l = Ok (soft_num l / rsum (map exp l)).
Proof.
  intros Hl. assert (Hp := sum_exp_pos Hl). destruct l as [|x l']; [congruence|].
  unfold eval_scalar. cbv zeta. f_equal. rewrite soft_weights_sum, shifted_sum.
  set (m := rmax x l'). assert (exp (- m) <> 0) by (apply Rgt_not_eq, exp_pos). field. split; lra.
Qed.
Definition soft_partials (l : list R) : list R :=
  map (fun y => ((exp y + y * exp y) * rsum (map exp l) - soft_num l * exp y) / (rsum (map exp l) * rsum (map exp l))) l.
Lemma soft_grad l g : l <> [] -> grad_scalar KSoft l g = Ok (map (fun w => g * w) (soft_partials l)).
Proof.
  intros Hl. assert (Hp := sum_exp_pos Hl). destruct l as [|x l']; [congruence|].
  unfold grad_scalar. cbv zeta. f_equal. rewrite soft_weights_sum, shifted_sum.
  set (m := rmax x l'). rewrite combine_map, map_map. unfold soft_partials. rewrite map_map. apply map_ext. intros y. cbn [fst snd].
  replace (exp (y - m)) with (exp (- m) * exp y) by (rewrite <- exp_plus; f_equal; ring).
  assert (exp (- m) <> 0) by (apply Rgt_not_eq, exp_pos). field. split; lra.
Qed.

(** ** Partial derivatives *)
Lemma partials_ext fn fn' xs ws : (forall l, length l = length xs -> fn l = fn' l) ->
  has_partials fn' xs ws -> has_partials fn xs ws.
Proof.
  intros He (Hl & H). split; [assumption|]. intros us ds t0 Hx Hd.
  assert (Hlen : forall t, length (map (fun u => u t) us) = length xs) by (intros t; now rewrite <- Hx, !map_length).
  destruct (H us ds t0 Hx Hd) as (Hn & Hv). split.
  - eapply near_impl; [|exact Hn]. intros t. now rewrite He.
  - eapply derive_ext; [|exact Hv]. intros t. cbn beta. now rewrite He.
Qed.

Lemma partials_unary (phi : R -> res R) fn x s : (forall y, fn [y] = phi y) ->
  near x (fun y => exists r, phi y = Ok r) -> derivable_pt_lim (fun y => real (phi y)) x s ->
  has_partials fn [x] [s].
Proof.
  intros Hf Hn Hd. split; [reflexivity|]. intros us ds t0 Hx HF.
  destruct us as [|u [|u' us]]; try discriminate Hx. inversion Hx; subst x. clear Hx.
  inversion HF as [|? d ? ? Hu HF']; subst. inversion HF'; subst. split.
  - eapply near_impl; [|exact (near_curve Hu Hn)]. intros t Ht. cbn [map]. now rewrite Hf.
  - eapply derive_ext with (fun t => real (phi (u t))); [intros t; cbn [map]; now rewrite Hf|].
    eapply derive_eq; [|exact (derivable_pt_lim_comp u (fun y => real (phi y)) t0 d s Hu Hd)].
    unfold dotr. cbn. ring.
Qed.

Lemma partials_total (f : list R -> R) xs ws : length ws = length xs ->
  (forall t0 us ds, at_ us t0 = xs -> dl t0 us ds -> derivable_pt_lim (fun t => f (at_ us t)) t0 (dotr ws ds)) ->
  has_partials (fun l => Ok (f l)) xs ws.
Proof.
  intros Hl H. split; [assumption|]. intros us ds t0 Hx Hd. split; [apply near_all; intros t; now eexists|].
  cbn [real]. now apply H.
Qed.

Lemma dotr_ones d : dotr (repeat 1 (length d)) d = rsum d.
Proof. induction d as [|x d IH]; cbn [length repeat]; [reflexivity|]. rewrite dotr_cons, IH, rsum_cons. ring. Qed.

Lemma lse_partials xs : xs <> [] -> has_partials (eval_scalar KLse) xs (softmax xs).
Proof.
  intros Hx. eapply partials_ext with (fun l => Ok (log_sum_exp l)).
  { intros l Hl. apply lse_value. intros ->. destruct xs; [congruence|discriminate]. }
  apply partials_total; [unfold softmax; now rewrite map_length|]. intros t0 us ds Ha Hd. unfold log_sum_exp.
  assert (Hp := sum_exp_pos Hx). rewrite <- Ha in Hp.
  eapply derive_eq; [|apply (derivable_pt_lim_comp (fun t => rsum (map exp (at_ us t))) ln t0 (dotr (map exp (at_ us t0)) ds) (/ rsum (map exp (at_ us t0))))].
  - rewrite Ha. rewrite <- dotr_scale. unfold softmax. f_equal. rewrite map_map. apply map_ext. intros y. unfold Rdiv. ring.
  - apply derive_map; [exact Hd|]. intros x. apply derivable_pt_lim_exp.
  - now apply derivable_pt_lim_ln.
Qed.

Lemma dotr_map_minus {A} (f h : A -> R) l : forall d, dotr (map (fun x => f x - h x) l) d = dotr (map f l) d - dotr (map h l) d.
Proof. induction l as [|x l IH]; intros [|d ds]; cbn [map]; try (unfold dotr; cbn; ring). rewrite !dotr_cons, IH. ring. Qed.

Lemma soft_partials_ok xs : xs <> [] -> has_partials (eval_scalar KSoft) xs (soft_partials xs).
Proof.
  intros Hx. eapply partials_ext with (fun l => Ok (soft_num l / rsum (map exp l))).
  { intros l Hl. apply soft_value. intros ->. destruct xs; [congruence|discriminate]. }
  apply partials_total; [unfold soft_partials; now rewrite map_length|]. intros t0 us ds Ha Hd.
  assert (Hp := sum_exp_pos Hx). rewrite <- Ha in Hp.
  assert (Hnum : derivable_pt_lim (fun t => soft_num (at_ us t)) t0 (dotr (map (fun y => exp y + y * exp y) (at_ us t0)) ds)).
  { apply derive_map with (f := fun y => y * exp y); [exact Hd|]. intros x.
    eapply derive_eq; [|exact (derivable_pt_lim_mult (fun y => y) exp x 1 _ (derivable_pt_lim_id x) (derivable_pt_lim_exp x))]. cbv beta. ring. }
  assert (Hden : derivable_pt_lim (fun t => rsum (map exp (at_ us t))) t0 (dotr (map exp (at_ us t0)) ds)).
  { apply derive_map; [exact Hd|]. intros x. apply derivable_pt_lim_exp. }
  eapply derive_eq; [|exact (derivable_pt_lim_div (fun t => soft_num (at_ us t)) (fun t => rsum (map exp (at_ us t))) t0 _ _ Hnum Hden (Rgt_not_eq _ _ Hp))].
  cbv beta. rewrite Ha in *. unfold soft_partials, Rsqr. set (S := rsum (map exp xs)) in *. set (Nm := soft_num xs).
  transitivity (dotr (map (fun w => / (S * S) * w) (map (fun y => S * (exp y + y * exp y) - Nm * exp y) xs)) ds).
  - rewrite dotr_scale, dotr_map_minus.
    rewrite <- (map_map (fun y => exp y + y * exp y) (fun w => S * w)), <- (map_map exp (fun w => Nm * w)), !dotr_scale.
    field. lra.
  - f_equal. rewrite map_map. apply map_ext. intros y. field. lra.
Qed.

(** kinds that compute with numbers *)
Definition arith_kind (k : kind) : Prop :=
  match k with KVar | KConst _ | KParam _ | KSlice _ _ | KOld _ _ => False | _ => True end.
Definition unary_kind (k : kind) : Prop :=
  match k with KPow _ | KAbs | KPlus _ _ | KMin _ _ | KRange _ _ _ | KReal => True | _ => False end.

Lemma kind_partials k xs : arith_kind k -> (unary_kind k -> exists x, xs = [x]) -> smooth_at k xs ->
  exists ws, has_partials (eval_scalar k) xs ws /\ forall g, grad_scalar k xs g = Ok (map (fun w => g * w) ws).
Proof.
  intros Hk Hu Hs. destruct k; try contradiction; cbn [unary_kind] in Hu; cbn [smooth_at] in Hs.
  - exists (repeat 1 (length xs)). split.
    + apply partials_total; [apply repeat_length|]. intros t0 us ds Ha Hd.
      replace (length xs) with (length ds) by (rewrite <- Ha; unfold at_; rewrite map_length; symmetry; eapply dl_length; exact Hd).
      rewrite dotr_ones. now apply derive_rsum.
    + intros g. cbn [grad_scalar]. f_equal. clear. induction xs as [|x l IH]; cbn [length repeat map]; [reflexivity|]. rewrite IH. f_equal. ring.
  - exists (others xs). split.
    + apply partials_total; [apply others_length|]. intros t0 us ds Ha Hd. rewrite <- Ha. now apply derive_rprod.
    + intros g. cbn [grad_scalar]. f_equal. apply prod_grads_others.
  - destruct (Hu I) as (x & ->). cbn [nth] in Hs. destruct (powf_derive Hs) as (s & H1 & H2 & H3).
    exists [p * s]. split; [now apply partials_unary with (phi := fun y => powf y p)|].
    intros g. cbn [grad_scalar first bind]. rewrite H1. cbn [bind map]. do 2 f_equal. ring.
  - destruct (Hu I) as (x & ->). cbn [nth] in Hs. exists [x / Rabs x]. split.
    + apply partials_unary with (phi := fun y => Ok (Rabs y)); [reflexivity|apply near_all; intros y; now eexists|].
      cbn [real]. now apply abs_derive.
    + intros g. cbn [grad_scalar first bind]. destruct (Req_EM_T x 0); [contradiction|reflexivity].
  - destruct (Hu I) as (x & ->). cbn [nth] in Hs. destruct (plus_derive Hs) as (s & H1 & H2 & H3).
    exists [s]. split; [now apply partials_unary with (phi := fun y => plus_term y alpha p)|].
    intros g. cbn [grad_scalar first bind]. now rewrite H1.
  - destruct (Hu I) as (x & ->). cbn [nth] in Hs. destruct (min_derive Hs) as (s & H1 & H2 & H3).
    exists [s]. split; [now apply partials_unary with (phi := fun y => min_term y beta p)|].
    intros g. cbn [grad_scalar first bind]. now rewrite H1.
  - destruct (Hu I) as (x & ->). cbn [nth] in Hs. destruct Hs as (Hb & Ha).
    destruct (plus_derive Ha) as (sa & H1 & H2 & H3). destruct (min_derive Hb) as (sb & G1 & G2 & G3).
    exists [sb + sa]. split.
    + apply partials_unary with (phi := fun y => bind (min_term y beta p) (fun b => bind (plus_term y alpha p) (fun a => Ok (a + b)))); [reflexivity| |].
      * eapply near_impl; [|exact (near_and G2 H2)]. intros y ((b & ->) & (a & ->)). cbn [bind]. now eexists.
      * eapply derive_ext_near with (fun y => real (min_term y beta p) + real (plus_term y alpha p)).
        -- eapply near_impl; [|exact (near_and G2 H2)]. intros y ((b & ->) & (a & ->)). cbn [bind real]. ring.
        -- exact (derivable_pt_lim_plus (fun y => real (min_term y beta p)) (fun y => real (plus_term y alpha p)) x sb sa G3 H3).
    + intros g. cbn [grad_scalar first bind]. rewrite H1. cbn [bind]. rewrite G1. reflexivity.
  - exists (softmax xs). split; [now apply lse_partials|]. intros g. now apply lse_weights.
  - exists (soft_partials xs). split; [now apply soft_partials_ok|]. intros g. now apply soft_grad.
  - destruct (Hu I) as (x & ->). exists [1]. split.
    + apply partials_unary with (phi := fun y => Ok y); [reflexivity|apply near_all; intros y; now eexists|]. cbn [real]. apply derivable_pt_lim_id.
    + intros g. cbn [grad_scalar map]. do 2 f_equal. ring.
  - exact Hs.
Qed.
