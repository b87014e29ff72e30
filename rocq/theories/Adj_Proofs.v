(** Solutions of (M - q diag e) x = b as functions of e. *)
From Coq Require Import Reals Lra Psatz Ring Field.
From Verif Require Obj_Model.
From Verif Require Import Obj_Spec Obj_Proofs.
From Verif Require Import Base CField CField_Proofs LinAlg Shape_Model GMath_Model GMath_Spec GMath_Proofs GMath_Proofs2 GMath_Proofs3 GMath_Proofs4 GMath_Proofs5 CplxField.
Set Implicit Arguments.
Local Open Scope R_scope.

(** ** Sums of real numbers *)
Fixpoint rs (n : nat) (f : nat -> R) : R := match n with O => 0 | S m => rs m f + f m end.
Lemma rs_le n f h : (forall i, (i < n)%nat -> f i <= h i) -> rs n f <= rs n h.
Proof. induction n as [|n IH]; intros H; cbn; [lra|]. pose proof (IH (fun i Hi => H i (Nat.lt_lt_succ_r _ _ Hi))). specialize (H n ltac:(lia)). lra. Qed.
Lemma rs_plus n f h : rs n (fun i => f i + h i) = rs n f + rs n h.
Proof. induction n as [|n IH]; cbn; lra. Qed.
Lemma rs_scale n a f : rs n (fun i => a * f i) = a * rs n f.
Proof. induction n as [|n IH]; cbn; [ring|]. rewrite IH. ring. Qed.
Lemma rs_const n a : rs n (fun _ => a) = INR n * a.
Proof. induction n as [|n IH]; [cbn; ring|]. cbn [rs]. rewrite IH, S_INR. ring. Qed.
Lemma rs_nonneg n f : (forall i, (i < n)%nat -> 0 <= f i) -> 0 <= rs n f.
Proof. intros H. pose proof (rs_le (fun _ => 0) f H) as H1. rewrite rs_const in H1. lra. Qed.
Lemma rs_term n f i : (forall i, (i < n)%nat -> 0 <= f i) -> (i < n)%nat -> f i <= rs n f.
Proof.
  induction n as [|n IH]; intros H Hi; [lia|]. cbn. assert (Hn : 0 <= rs n f) by (apply rs_nonneg; intros; apply H; lia).
  assert (Hf : 0 <= f n) by (apply H; lia).
  destruct (Nat.eq_dec i n) as [->|]; [lra|]. assert (f i <= rs n f) by (apply IH; [intros; apply H|]; lia). lra.
Qed.

(** ** The norm |re| + |im| *)
Definition n1 (z : C) : R := Rabs (fst z) + Rabs (snd z).
Lemma n1_nonneg z : 0 <= n1 z.
Proof. unfold n1. pose proof (Rabs_pos (fst z)). pose proof (Rabs_pos (snd z)). lra. Qed.
Lemma n1_add x y : n1 (cadd x y) <= n1 x + n1 y.
Proof. unfold n1, cadd. cbn. pose proof (Rabs_triang (fst x) (fst y)). pose proof (Rabs_triang (snd x) (snd y)). lra. Qed.
Lemma n1_mul x y : n1 (cmul x y) <= n1 x * n1 y.
Proof.
  unfold n1, cmul. cbn. pose proof (Rabs_triang (fst x * fst y) (- (snd x * snd y))) as H1. pose proof (Rabs_triang (fst x * snd y) (snd x * fst y)) as H2.
  rewrite Rabs_Ropp in H1. rewrite !Rabs_mult in *. unfold Rminus. lra.
Qed.
Lemma n1_zero z : n1 z <= 0 -> z = c0.
Proof.
  unfold n1. intros H. pose proof (Rabs_pos (fst z)). pose proof (Rabs_pos (snd z)).
  apply c_eq; cbn; destruct (Req_dec (fst z) 0) as [E|E]; destruct (Req_dec (snd z) 0) as [E'|E']; try assumption;
  try (apply Rabs_pos_lt in E; lra); apply Rabs_pos_lt in E'; lra.
Qed.
Lemma n1_c0 : n1 c0 = 0.
Proof. unfold n1, c0, creal. cbn. rewrite Rabs_R0. lra. Qed.
Lemma n1_fsum n (f : nat -> C) : n1 (fsum (K:=CC) n f) <= rs n (fun i => n1 (f i)).
Proof.
  induction n as [|n IH]; cbn [fsum rs].
  - change (k0 (c:=CC)) with c0. rewrite n1_c0. lra.
  - change (kadd (c:=CC)) with cadd. pose proof (n1_add (fsum (K:=CC) n f) (f n)). lra.
Qed.
Lemma n1_re z : Rabs (fst z) <= n1 z.
Proof. unfold n1. pose proof (Rabs_pos (snd z)). lra. Qed.
Lemma n1_im z : Rabs (snd z) <= n1 z.
Proof. unfold n1. pose proof (Rabs_pos (fst z)). lra. Qed.

(** ** Derivatives *)
Lemma cd_fsum n (f : nat -> R -> C) (d : nat -> C) t0 : (forall i, (i < n)%nat -> cderive (f i) t0 (d i)) ->
  cderive (fun t => fsum (K:=CC) n (fun i => f i t)) t0 (fsum (K:=CC) n d).
Proof.
  induction n as [|n IH]; intros H; cbn [fsum].
  - apply cd_const.
  - apply (@cd_add (fun t => fsum (K:=CC) n (fun i => f i t)) (f n)); auto.
Qed.
Lemma cd_scale a u t0 d : cderive u t0 d -> cderive (fun t => cmul a (u t)) t0 (cmul a d).
Proof. intros H. eapply cd_eq; [|exact (cd_mul (cd_const a t0) H)]. cbv beta. ring. Qed.
Lemma cd_scale_r a u t0 d : cderive u t0 d -> cderive (fun t => cmul (u t) a) t0 (cmul d a).
Proof. intros H. eapply cd_eq; [|exact (cd_mul H (cd_const a t0))]. cbv beta. ring. Qed.
Lemma cd_flat f h t0 B : f t0 = c0 -> cderive f t0 c0 -> near t0 (fun t => n1 (h t) <= B) -> cderive (fun t => cmul (f t) (h t)) t0 c0.
Proof.
  intros Hf (H1 & H2) Hb.
  assert (Hre : exists B, near t0 (fun t => Rabs (fst (h t)) <= B)) by (exists B; eapply near_impl; [|exact Hb]; cbv beta; intros t Ht; pose proof (n1_re (h t)); lra).
  assert (Him : exists B, near t0 (fun t => Rabs (snd (h t)) <= B)) by (exists B; eapply near_impl; [|exact Hb]; cbv beta; intros t Ht; pose proof (n1_im (h t)); lra).
  assert (Fr : fst (f t0) = 0) by now rewrite Hf. assert (Fi : snd (f t0) = 0) by now rewrite Hf.
  split; unfold cmul; cbn [fst snd c0 creal].
  - eapply derive_eq; [|exact (derivable_pt_lim_minus _ _ _ _ _ (@derive_flat (fun t => fst (f t)) (fun t => fst (h t)) t0 Fr H1 Hre) (@derive_flat (fun t => snd (f t)) (fun t => snd (h t)) t0 Fi H2 Him))]. ring.
  - eapply derive_eq; [|exact (derivable_pt_lim_plus _ _ _ _ _ (@derive_flat (fun t => fst (f t)) (fun t => snd (h t)) t0 Fr H1 Him) (@derive_flat (fun t => snd (f t)) (fun t => fst (h t)) t0 Fi H2 Hre))]. ring.
Qed.
Lemma near_n1 u t0 d del : 0 < del -> cderive u t0 d -> near t0 (fun t => n1 (csub (u t) (u t0)) <= del).
Proof.
  intros Hdel (H1 & H2).
  assert (P : forall f l, derivable_pt_lim f t0 l -> near t0 (fun t => Rabs (f t - f t0) <= del / 2)).
  { intros f l Hf. apply (@near_curve f t0 l (fun y => Rabs (y - f t0) <= del / 2) Hf). exists (del / 2). split; [lra|]. intros y Hy. lra. }
  eapply near_impl; [|exact (near_and (P _ _ H1) (P _ _ H2))]. cbv beta. intros t [A B]. unfold n1, csub, cadd, copp. cbn [fst snd]. unfold Rminus in A, B. lra.
Qed.

(** equations between complex numbers, also when their type is written [CC] *)
Ltac cr := lazymatch goal with |- @eq _ ?a ?b => change (@eq C a b) end; cbv beta;
  change (@kadd CC) with cadd; change (@kmul CC) with cmul; change (@ksub CC) with csub; change (@kopp CC) with copp;
  change (@k0 CC) with c0; change (@k1 CC) with c1; change (car CC) with C; first [ring | symmetry; ring].

Section Perturb.
Variable N : nat.
Variable M : mat CC.
Variable q : C.
Variable inner : mat CC -> list C -> list C.
Hypothesis Hinner : exact_solver (K:=CC) N inner.
Local Notation at_ := (at_ (K:=CC)).
Local Notation fsum := (fsum (K:=CC)).
Definition shifted (e : nat -> C) : mat CC := fun i j => csub (M i j) (cmul q (mdiag (K:=CC) e i j)).
Variable e0 : nat -> C.
Hypothesis H0 : nonsingular (K:=CC) N (shifted e0).
Definition unit (k : nat) : list C := vbuild (K:=CC) N (fun j => if Nat.eqb j k then c1 else c0).
Definition binv (i k : nat) : C := at_ (inner (shifted e0) (unit k)) i.

Lemma mv_c (A : mat CC) v i : (i < N)%nat -> at_ (mv (K:=CC) N A v) i = fsum N (fun j => cmul (A i j) (at_ v j)).
Proof. intros Hi. now rewrite (@mv_at CC). Qed.
Lemma vb_at f i : (i < N)%nat -> at_ (vbuild (K:=CC) N f) i = f i.
Proof. intros Hi. now apply (@vbuild_at CC). Qed.
Lemma fs_scale a f : fsum N (fun i => cmul a (f i)) = cmul a (fsum N f).
Proof. exact (@fsum_scale CC N a f). Qed.
Lemma fs_scale_r a f : fsum N (fun i => cmul (f i) a) = cmul (fsum N f) a.
Proof. exact (@fsum_scale_r CC N a f). Qed.
Lemma fs_add f h : fsum N (fun i => cadd (f i) (h i)) = cadd (fsum N f) (fsum N h).
Proof. exact (@fsum_add CC N f h). Qed.
Lemma fs_sub f h : fsum N (fun i => csub (f i) (h i)) = csub (fsum N f) (fsum N h).
Proof. exact (@fsum_sub CC N f h). Qed.
Lemma fs_ext f h : (forall i, (i < N)%nat -> f i = h i) -> fsum N f = fsum N h.
Proof. exact (@fsum_ext CC N f h). Qed.
Lemma fs_single k f : (k < N)%nat -> (forall i, (i < N)%nat -> i <> k -> f i = c0) -> fsum N f = f k.
Proof. exact (@fsum_single CC N k f). Qed.
Lemma fs_diag e (x : list C) i : (i < N)%nat -> fsum N (fun j => cmul (mdiag (K:=CC) e i j) (at_ x j)) = cmul (e i) (at_ x i).
Proof.
  intros Hi. rewrite (@fs_single i) by (auto; intros j Hj Hn; unfold mdiag; apply Nat.eqb_neq in Hn; rewrite Nat.eqb_sym, Hn; change (k0 (c:=CC)) with c0; cr).
  unfold mdiag. now rewrite Nat.eqb_refl.
Qed.
Lemma binv_right i k : (i < N)%nat -> (k < N)%nat -> fsum N (fun j => cmul (shifted e0 i j) (binv j k)) = if Nat.eqb i k then c1 else c0.
Proof.
  intros Hi Hk. destruct (Hinner (unit k) H0 (@vbuild_length CC _ _)) as [Hl Hx]. apply (f_equal (fun v => at_ v i)) in Hx. rewrite mv_c in Hx by auto.
  unfold binv. rewrite Hx. unfold unit. now apply vb_at.
Qed.
Lemma binv_solves (x : list C) (r : nat -> C) : length x = N -> (forall i, (i < N)%nat -> fsum N (fun j => cmul (shifted e0 i j) (at_ x j)) = r i) ->
  forall i, (i < N)%nat -> at_ x i = fsum N (fun k => cmul (binv i k) (r k)).
Proof.
  intros Hx Hr i Hi. assert (E : x = vbuild (K:=CC) N (fun i => fsum N (fun k => cmul (binv i k) (r k)))).
  { apply (@nonsingular_inj CC N _ _ _ H0); [exact Hx|apply (@vbuild_length CC)|]. apply (@vec_ext CC); [now rewrite !(@mv_length CC)|].
    intros l Hl. rewrite (@mv_length CC) in Hl. rewrite !mv_c by auto. rewrite Hr by auto.
    rewrite (@fs_ext (fun j => cmul (shifted e0 l j) (at_ (vbuild (K:=CC) N (fun i => fsum N (fun k => cmul (binv i k) (r k)))) j)) (fun j => fsum N (fun k => cmul (cmul (shifted e0 l j) (binv j k)) (r k)))).
    2: { intros j Hj. rewrite vb_at by auto. rewrite <- fs_scale. apply fs_ext. intros k Hk. cr. }
    pose proof (@fsum_swap CC N N (fun j k => cmul (cmul (shifted e0 l j) (binv j k)) (r k))) as Hs. change (@kadd CC) with cadd in Hs. rewrite Hs. clear Hs.
    rewrite (@fs_ext _ (fun k => cmul (if Nat.eqb l k then c1 else c0) (r k))).
    2: { intros k Hk. rewrite fs_scale_r, binv_right by auto. reflexivity. }
    rewrite (@fs_single l) by (auto; intros k Hk Hn; apply Nat.eqb_neq in Hn; rewrite Nat.eqb_sym, Hn; cr). rewrite Nat.eqb_refl. cr. }
  rewrite E at 1. now rewrite vb_at.
Qed.
(** the solution for e in terms of the solution for e0 *)
Lemma shifted_mv e (x : list C) i : (i < N)%nat -> fsum N (fun j => cmul (shifted e i j) (at_ x j)) = csub (fsum N (fun j => cmul (M i j) (at_ x j))) (cmul q (cmul (e i) (at_ x i))).
Proof.
  intros Hi. rewrite <- (fs_diag e x Hi), <- fs_scale, <- fs_sub. apply fs_ext. intros j Hj. unfold shifted. cr.
Qed.
Lemma expansion e (x : list C) (b : nat -> C) : length x = N -> (forall i, (i < N)%nat -> fsum N (fun j => cmul (shifted e i j) (at_ x j)) = b i) ->
  forall i, (i < N)%nat -> at_ x i = cadd (fsum N (fun k => cmul (binv i k) (b k)))
     (fsum N (fun k => cmul (cmul (cmul q (binv i k)) (csub (e k) (e0 k))) (at_ x k))).
Proof.
  intros Hx Hb i Hi. rewrite (@binv_solves x (fun i => cadd (b i) (cmul q (cmul (csub (e i) (e0 i)) (at_ x i)))) Hx); [|intros l Hl|exact Hi].
  - rewrite <- fs_add. apply fs_ext. intros k Hk. cr.
  - rewrite <- (Hb l Hl), !shifted_mv by auto. cr.
Qed.

(** ** Bounds *)
Definition vn (x : list C) : R := rs N (fun i => n1 (at_ x i)).
Definition beta : R := rs N (fun i => rs N (fun k => n1 (cmul q (binv i k)))).
Lemma beta_term i k : (i < N)%nat -> (k < N)%nat -> n1 (cmul q (binv i k)) <= beta.
Proof.
  intros Hi Hk. unfold beta. eapply Rle_trans; [|apply (@rs_term N (fun i => rs N (fun k => n1 (cmul q (binv i k)))) i)]; auto.
  - apply (@rs_term N (fun k => n1 (cmul q (binv i k)))); auto. intros; apply n1_nonneg.
  - intros; apply rs_nonneg; intros; apply n1_nonneg.
Qed.
Lemma beta_nonneg : 0 <= beta.
Proof. apply rs_nonneg. intros; apply rs_nonneg; intros; apply n1_nonneg. Qed.
Definition small : R := / (2 * (INR N * beta + 1)).
Lemma small_pos : 0 < small.
Proof. pose proof beta_nonneg. pose proof (pos_INR N). apply Rinv_0_lt_compat. nra. Qed.
Lemma bounded e (x : list C) (b : nat -> C) : length x = N -> (forall k, (k < N)%nat -> n1 (csub (e k) (e0 k)) <= small) ->
  (forall i, (i < N)%nat -> fsum N (fun j => cmul (shifted e i j) (at_ x j)) = b i) ->
  vn x <= 2 * rs N (fun i => n1 (fsum N (fun k => cmul (binv i k) (b k)))).
Proof.
  intros Hx He Hb. set (y := fun i => fsum N (fun k => cmul (binv i k) (b k))).
  assert (H : forall i, (i < N)%nat -> n1 (at_ x i) <= n1 (y i) + beta * small * vn x).
  { intros i Hi. rewrite (expansion e x b Hx Hb Hi). eapply Rle_trans; [apply n1_add|]. apply Rplus_le_compat_l.
    eapply Rle_trans; [apply n1_fsum|]. unfold vn. rewrite <- rs_scale. apply rs_le. intros k Hk.
    eapply Rle_trans; [apply n1_mul|]. apply Rmult_le_compat_r; [apply n1_nonneg|].
    eapply Rle_trans; [apply n1_mul|]. apply Rmult_le_compat; try apply n1_nonneg; [now apply beta_term|now apply He]. }
  assert (H' : vn x <= rs N (fun i => n1 (y i)) + INR N * (beta * small * vn x)).
  { unfold vn at 1. rewrite <- rs_const, <- rs_plus. apply rs_le. exact H. }
  assert (Hs : INR N * beta * small <= 1 / 2).
  { unfold small. pose proof beta_nonneg. pose proof (pos_INR N). assert (0 <= INR N * beta) by nra.
    apply Rmult_le_reg_r with (2 * (INR N * beta + 1)); [lra|]. replace (INR N * beta * / (2 * (INR N * beta + 1)) * (2 * (INR N * beta + 1))) with (INR N * beta) by (field; lra). lra. }
  assert (Hv : 0 <= vn x) by (apply rs_nonneg; intros; apply n1_nonneg).
  change (vn x <= 2 * rs N (fun i => n1 (y i))). pose proof (Rmult_le_compat_r (vn x) _ _ Hv Hs) as Hm.
  replace (INR N * (beta * small * vn x)) with (INR N * beta * small * vn x) in H' by ring. lra.
Qed.
Lemma nonsingular_near e : (forall k, (k < N)%nat -> n1 (csub (e k) (e0 k)) <= small) -> nonsingular (K:=CC) N (shifted e).
Proof.
  intros He v Hv Hz i Hi. change (k0 (c:=CC)) with c0. apply n1_zero.
  assert (H : vn v <= 2 * rs N (fun i => n1 (fsum N (fun k => cmul (binv i k) c0)))).
  { apply (bounded e v (fun _ => c0) Hv He). intros l Hl. rewrite <- mv_c by auto. now apply Hz. }
  assert (Hr : rs N (fun i => n1 (fsum N (fun k => cmul (binv i k) c0))) <= 0).
  { apply Rle_trans with (rs N (fun _ => 0)); [|rewrite rs_const; lra]. apply rs_le. intros l Hl. assert (Z : fsum N (fun k => cmul (binv l k) c0) = c0) by (rewrite fs_scale_r; cr).
    rewrite Z, n1_c0. lra. }
  pose proof (@rs_term N (fun i => n1 (at_ v i)) i ltac:(intros; apply n1_nonneg) Hi) as Ht. cbv beta in Ht. unfold vn in H. lra.
Qed.

(** ** Differentiation along a curve of e *)
Variable e : R -> nat -> C.
Variable d : nat -> C.
Variable t0 : R.
Hypothesis He0 : forall k, (k < N)%nat -> e t0 k = e0 k.
Hypothesis Hd : forall k, (k < N)%nat -> cderive (fun t => e t k) t0 (d k).
Variable b : nat -> C.
Variable x : R -> list C.
Hypothesis Hx : near t0 (fun t => length (x t) = N /\ forall i, (i < N)%nat -> fsum N (fun j => cmul (shifted (e t) i j) (at_ (x t) j)) = b i).
Definition x' (i : nat) : C := fsum N (fun k => cmul (cmul q (binv i k)) (cmul (d k) (at_ (x t0) k))).

Lemma close : near t0 (fun t => forall k, (k < N)%nat -> n1 (csub (e t k) (e0 k)) <= small).
Proof. apply near_below. intros k Hk. rewrite <- (He0 Hk). exact (@near_n1 (fun t => e t k) t0 (d k) small small_pos (Hd Hk)). Qed.
Lemma near_nonsingular : near t0 (fun t => nonsingular (K:=CC) N (shifted (e t))).
Proof. eapply near_impl; [|exact close]. cbv beta. intros t Ht. now apply nonsingular_near. Qed.
Lemma x0_form i : (i < N)%nat -> at_ (x t0) i = fsum N (fun k => cmul (binv i k) (b k)).
Proof.
  intros Hi. destruct (near_at Hx) as [Hl Hb]. rewrite (expansion (e t0) (x t0) b Hl Hb Hi).
  rewrite (@fs_ext (fun k => cmul (cmul (cmul q (binv i k)) (csub (e t0 k) (e0 k))) (at_ (x t0) k)) (fun k => cmul c0 (at_ (x t0) k))) by (intros k Hk; rewrite He0 by auto; cr).
  rewrite fs_scale. cr.
Qed.
Lemma derivative i : (i < N)%nat -> cderive (fun t => at_ (x t) i) t0 (x' i).
Proof.
  intros Hi. pose (D := fun t k => csub (e t k) (e0 k)).
  assert (HD : forall k, (k < N)%nat -> cderive (fun t => D t k) t0 (d k)).
  { intros k Hk. unfold D, csub. eapply cd_eq; [|exact (cd_add (Hd Hk) (cd_const (copp (e0 k)) t0))]. cr. }
  assert (HD0 : forall k, (k < N)%nat -> D t0 k = c0) by (intros k Hk; unfold D; rewrite He0 by auto; cr).
  apply (@cd_near (fun t => cadd (at_ (x t0) i) (fsum N (fun k => cmul (cmul q (binv i k)) (cadd (cmul (D t k) (at_ (x t0) k))
     (fsum N (fun l => cmul (cmul q (binv k l)) (cmul (cmul (D t k) (D t l)) (at_ (x t) l))))))))).
  - eapply near_impl; [|exact Hx]. cbv beta. intros t (Hl & Hb). rewrite (expansion (e t) (x t) b Hl Hb Hi), <- x0_form by auto. f_equal.
    apply fs_ext. intros k Hk. rewrite (expansion (e t) (x t) b Hl Hb Hk), <- x0_form by auto. fold (D t k).
    replace (fsum N (fun l => cmul (cmul q (binv k l)) (cmul (cmul (D t k) (D t l)) (at_ (x t) l)))) with (cmul (D t k) (fsum N (fun l => cmul (cmul (cmul q (binv k l)) (csub (e t l) (e0 l))) (at_ (x t) l)))).
    + cr.
    + rewrite <- fs_scale. apply fs_ext. intros l _. fold (D t l). cr.
  - eapply cd_eq; [|apply (@cd_add (fun _ => at_ (x t0) i)); [apply cd_const|apply (@cd_fsum N (fun k t => cmul (cmul q (binv i k)) (cadd (cmul (D t k) (at_ (x t0) k))
     (fsum N (fun l => cmul (cmul q (binv k l)) (cmul (cmul (D t k) (D t l)) (at_ (x t) l)))))) (fun k => cmul (cmul q (binv i k)) (cmul (d k) (at_ (x t0) k))) t0)]].
    { fold (x' i). cr. }
    intros k Hk. cbv beta. apply cd_scale. eapply cd_eq; [|apply cd_add; [apply cd_scale_r; apply HD; exact Hk|apply (@cd_fsum N (fun l t => cmul (cmul q (binv k l)) (cmul (cmul (D t k) (D t l)) (at_ (x t) l))) (fun _ => c0) t0)]].
    + rewrite (@fs_ext (fun _ => c0) (fun _ => cmul c0 c0)) by (intros; cr). rewrite fs_scale. cr.
    + intros l Hl. eapply cd_eq; [|apply cd_scale; apply (@cd_flat (fun t => cmul (D t k) (D t l)) (fun t => at_ (x t) l) t0 (2 * rs N (fun i => n1 (fsum N (fun k => cmul (binv i k) (b k))))))].
      * cr.
      * rewrite !HD0 by auto. cr.
      * eapply cd_eq; [|exact (cd_mul (HD k Hk) (HD l Hl))]. cbv beta. rewrite !HD0 by auto. cr.
      * eapply near_impl; [|exact (near_and Hx close)]. cbv beta. intros t [[Hlt Hbt] Hct].
        eapply Rle_trans; [|exact (bounded (e t) (x t) b Hlt Hct Hbt)]. apply (@rs_term N (fun i => n1 (at_ (x t) i))); auto. intros; apply n1_nonneg.
Qed.
(** the adjoint solution pairs with the derivative *)
Lemma adjoint_pairing (gv : nat -> C) (y : list C) : length y = N -> (forall i, (i < N)%nat -> at_ (mv (K:=CC) N (mherm (K:=CC) (shifted e0)) y) i = cconj (gv i)) ->
  fsum N (fun i => cmul (gv i) (x' i)) = fsum N (fun k => cmul (cmul (cconj (at_ y k)) (cmul q (at_ (x t0) k))) (d k)).
Proof.
  intros Hy Hg.
  assert (Hb : forall k, (k < N)%nat -> fsum N (fun i => cmul (gv i) (binv i k)) = cconj (at_ y k)).
  { intros k Hk. rewrite (@fs_ext _ (fun i => fsum N (fun j => cmul (cconj (at_ y j)) (cmul (shifted e0 j i) (binv i k))))).
    - pose proof (@fsum_swap CC N N (fun i j => cmul (cconj (at_ y j)) (cmul (shifted e0 j i) (binv i k)))) as Hs. etransitivity; [exact Hs|]. clear Hs.
      rewrite (@fs_ext _ (fun j => cmul (cconj (at_ y j)) (if Nat.eqb j k then c1 else c0))).
      + rewrite (@fs_single k) by (auto; intros i Hi Hn; apply Nat.eqb_neq in Hn; rewrite Hn; cr). rewrite Nat.eqb_refl. cr.
      + intros j Hj. rewrite fs_scale, binv_right by auto. reflexivity.
    - intros i Hi. assert (E : gv i = fsum N (fun j => cmul (cconj (at_ y j)) (shifted e0 j i))).
      { transitivity (cconj (cconj (gv i))); [cring|]. rewrite <- Hg, mv_c by auto. etransitivity; [exact (@kconj_fsum CC N _)|].
        apply fs_ext. intros j Hj. change (kconj (c:=CC)) with cconj. unfold mherm. change (kconj (c:=CC)) with cconj. cring. }
      rewrite E, <- fs_scale_r. apply fs_ext. intros j Hj. cr. }
  unfold x'. rewrite (@fs_ext _ (fun i => fsum N (fun k => cmul (cmul (gv i) (binv i k)) (cmul q (cmul (d k) (at_ (x t0) k)))))).
  2: { intros i Hi. rewrite <- fs_scale. apply fs_ext. intros k Hk. cr. }
  pose proof (@fsum_swap CC N N (fun i k => cmul (cmul (gv i) (binv i k)) (cmul q (cmul (d k) (at_ (x t0) k))))) as Hs. etransitivity; [exact Hs|]. clear Hs.
  apply fs_ext. intros k Hk. rewrite fs_scale_r, Hb by auto. cr.
Qed.
End Perturb.
