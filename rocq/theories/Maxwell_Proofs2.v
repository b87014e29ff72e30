(** Proofs about curls, symmetry and adjoints. *)
From Verif Require Import Base CField CField_Proofs Maxwell_Model Maxwell_Spec Maxwell_Proofs.
From Coq Require Import ZArith.
Set Implicit Arguments.

Ltac ax3 a := destruct a as [|[|[|a]]]; [| | |lia].

Section M.
Variable K : cfield.
Local Open Scope K_scope.
Add Field Kfield : (k_field K).
Variable g : grid K.
Local Notation nx := (dim g 0%nat). Local Notation ny := (dim g 1%nat). Local Notation nz := (dim g 2%nat).
Local Notation n := (cellsn g).
Local Notation N := (vlen g).
Local Notation coord := (coord g).
Local Notation fwd := (fwd g). Local Notation bwd := (bwd g).
Local Notation fd := (fd g). Local Notation bd := (bd g).

Lemma blk_lt c t : (c < 3 -> t < n -> c * n + t < N)%nat.
Proof. unfold vlen. nia. Qed.

(** *** functional curls *)
Lemma fd_one a t : fd (@one K) a t = 1.
Proof. unfold Maxwell_Proofs.fd, one. now destruct (Nat.eqb _ _). Qed.
Lemma bd_one a t : bd (@one K) a t = 1.
Proof. unfold Maxwell_Proofs.bd, one. now destruct (Nat.eqb _ _). Qed.
Lemma part_vec f c : (c < 3)%nat -> part g (vec g f) c = flattenF g (f c).
Proof.
  intros Hc. apply vec_ext.
  - now rewrite part_length, flattenF_length by (auto using vec_length).
  - intros t Ht. rewrite part_length in Ht by (auto using vec_length). rewrite part_at, vec_at, flattenF_at by auto. reflexivity.
Qed.
Lemma de_flat f a t : (a < 3)%nat -> (t < n)%nat ->
  at_ (mv n (deriv_forward g (@one K) (@one K) a) (flattenF g f)) t = de g f a (coord 0 t) (coord 1 t) (coord 2 t).
Proof.
  intros Ha Ht. rewrite deriv_forward_at by auto. rewrite fd_one. rewrite !flattenF_at by auto using fwd_lt.
  unfold de. rewrite !(coord_fwd g Ha) by (auto; lia).
  ax3 a; cbn [Nat.eqb roll_forward pick]; rewrite !(Fdiv_def (k_field K)); ring.
Qed.
Lemma dh_flat f a t : (a < 3)%nat -> (t < n)%nat ->
  at_ (mv n (deriv_back g (@one K) (@one K) a) (flattenF g f)) t = dh g f a (coord 0 t) (coord 1 t) (coord 2 t).
Proof.
  intros Ha Ht. rewrite deriv_back_at by auto. rewrite bd_one. rewrite !flattenF_at by auto using bwd_lt.
  unfold dh. rewrite !(coord_bwd g Ha) by (auto; lia).
  ax3 a; cbn [Nat.eqb roll_back pick]; rewrite !(Fdiv_def (k_field K)); ring.
Qed.
Lemma curl_e_functional_lemma e : mv N (curl_e g (@one K) (@one K)) (vec g e) = vec g (fcurl_e g e).
Proof.
  apply (@vlen_ext K g); [apply mv_length|apply vec_length|]. intros c t Hc Ht. unfold curl_e. rewrite cross_at, vec_at by auto.
  unfold dcol. rewrite !part_vec by lia. unfold fcurl_e, fcurl. ax3 c; rewrite !de_flat by (auto; lia); reflexivity.
Qed.
Lemma curl_h_functional_lemma e : mv N (curl_h g (@one K) (@one K)) (vec g e) = vec g (fcurl_h g e).
Proof.
  apply (@vlen_ext K g); [apply mv_length|apply vec_length|]. intros c t Hc Ht. unfold curl_h. rewrite cross_at, vec_at by auto.
  unfold dcol. rewrite !part_vec by lia. unfold fcurl_h, fcurl. ax3 c; rewrite !dh_flat by (auto; lia); reflexivity.
Qed.

(** *** commuting derivatives *)
Lemma fwd_comm a b t : (a < 3 -> b < 3 -> t < n -> fwd a (fwd b t) = fwd b (fwd a t))%nat.
Proof.
  intros Ha Hb Ht. pose proof (fwd_lt g a Ht). pose proof (fwd_lt g b Ht). apply (cell_ext g); auto using fwd_lt.
  intros c Hc. rewrite !coord_fwd by auto using fwd_lt. destruct (Nat.eqb c a), (Nat.eqb c b); reflexivity.
Qed.
Lemma bwd_comm a b t : (a < 3 -> b < 3 -> t < n -> bwd a (bwd b t) = bwd b (bwd a t))%nat.
Proof.
  intros Ha Hb Ht. pose proof (bwd_lt g a Ht). pose proof (bwd_lt g b Ht). apply (cell_ext g); auto using bwd_lt.
  intros c Hc. rewrite !coord_bwd by auto using bwd_lt. destruct (Nat.eqb c a), (Nat.eqb c b); reflexivity.
Qed.
Lemma coord_fwd_other a b t : (a < 3 -> b < 3 -> t < n -> b <> a -> coord b (fwd a t) = coord b t)%nat.
Proof. intros. rewrite coord_fwd by auto. destruct (Nat.eqb_spec b a); congruence. Qed.
Lemma coord_bwd_other a b t : (a < 3 -> b < 3 -> t < n -> b <> a -> coord b (bwd a t) = coord b t)%nat.
Proof. intros. rewrite coord_bwd by auto. destruct (Nat.eqb_spec b a); congruence. Qed.
Lemma fd_other u a b t : (a < 3 -> b < 3 -> t < n -> b <> a -> fd u b (fwd a t) = fd u b t)%nat.
Proof. intros. unfold Maxwell_Proofs.fd. now rewrite coord_fwd_other. Qed.
Lemma bd_other w a b t : (a < 3 -> b < 3 -> t < n -> b <> a -> bd w b (bwd a t) = bd w b t)%nat.
Proof. intros. unfold Maxwell_Proofs.bd. now rewrite coord_bwd_other. Qed.
Lemma deriv_forward_comm u w a b v t : (a < 3)%nat -> (b < 3)%nat -> (t < n)%nat ->
  at_ (mv n (deriv_forward g u w a) (mv n (deriv_forward g u w b) v)) t = at_ (mv n (deriv_forward g u w b) (mv n (deriv_forward g u w a) v)) t.
Proof.
  intros Ha Hb Ht. destruct (Nat.eq_dec a b) as [->|Hab]; [reflexivity|].
  rewrite !deriv_forward_at by auto using fwd_lt.
  rewrite (coord_fwd_other (a:=a) (b:=b)), (coord_fwd_other (a:=b) (b:=a)), (fd_other u (a:=a) (b:=b)), (fd_other u (a:=b) (b:=a)) by auto.
  rewrite (fwd_comm (a:=a) (b:=b)) by auto. rewrite !(Fdiv_def (k_field K)). ring.
Qed.
Lemma deriv_back_comm u w a b v t : (a < 3)%nat -> (b < 3)%nat -> (t < n)%nat ->
  at_ (mv n (deriv_back g u w a) (mv n (deriv_back g u w b) v)) t = at_ (mv n (deriv_back g u w b) (mv n (deriv_back g u w a) v)) t.
Proof.
  intros Ha Hb Ht. destruct (Nat.eq_dec a b) as [->|Hab]; [reflexivity|].
  rewrite !deriv_back_at by auto using bwd_lt.
  rewrite (coord_bwd_other (a:=a) (b:=b)), (coord_bwd_other (a:=b) (b:=a)), (bd_other w (a:=a) (b:=b)), (bd_other w (a:=b) (b:=a)) by auto.
  rewrite (bwd_comm (a:=a) (b:=b)) by auto. rewrite !(Fdiv_def (k_field K)). ring.
Qed.
Definition commuting (D : nat -> mat K) : Prop := forall a b (v : list K) t, (a < 3)%nat -> (b < 3)%nat -> (t < n)%nat ->
  at_ (mv n (D a) (mv n (D b) v)) t = at_ (mv n (D b) (mv n (D a) v)) t.
Lemma mv_sub_vec (A : mat K) v w t : (t < n)%nat -> at_ (mv n A (vbuild n (fun i => at_ v i - at_ w i))) t = at_ (mv n A v) t - at_ (mv n A w) t.
Proof.
  intros Ht. rewrite !mv_at by auto. rewrite <- fsum_sub. apply fsum_ext. intros j Hj. rewrite vbuild_at by auto. ring.
Qed.
Lemma part_cross D v c : (c < 3)%nat -> part g (mv N (cross g D) v) c =
  match c with
  | 0 => vbuild n (fun i => at_ (mv n (D 1%nat) (part g v 2)) i - at_ (mv n (D 2) (part g v 1)) i)
  | 1 => vbuild n (fun i => at_ (mv n (D 2) (part g v 0)) i - at_ (mv n (D 0%nat) (part g v 2)) i)
  | _ => vbuild n (fun i => at_ (mv n (D 0%nat) (part g v 1)) i - at_ (mv n (D 1%nat) (part g v 0)) i)
  end.
Proof.
  intros Hc. apply vec_ext.
  - rewrite part_length by (auto using mv_length). ax3 c; now rewrite vbuild_length.
  - intros t Ht. rewrite part_length in Ht by (auto using mv_length). rewrite part_at, cross_at by auto. unfold dcol.
    ax3 c; now rewrite vbuild_at.
Qed.
Lemma div_cross D v t : commuting D -> (t < n)%nat ->
  at_ (mv n (D 0%nat) (part g (mv N (cross g D) v) 0)) t + at_ (mv n (D 1%nat) (part g (mv N (cross g D) v) 1)) t
  + at_ (mv n (D 2) (part g (mv N (cross g D) v) 2)) t = 0.
Proof.
  intros HD Ht. rewrite !part_cross by lia. rewrite !mv_sub_vec by auto.
  rewrite (HD 1%nat 0%nat), (HD 2 0%nat), (HD 2 1%nat) by (auto; lia). ring.
Qed.
Lemma part_app3 (x y z : list K) c : length x = n -> length y = n -> length z = n -> (c < 3)%nat ->
  part g (x ++ y ++ z) c = match c with 0 => x | 1 => y | _ => z end.
Proof.
  intros Hx Hy Hz Hc. unfold part. ax3 c.
  - simpl skipn. rewrite firstn_app, Hx, Nat.sub_diag, <- Hx, firstn_all. simpl. now rewrite app_nil_r.
  - rewrite skipn_app. replace (1 * n)%nat with n by lia. rewrite skipn_all2 by lia. rewrite Hx, Nat.sub_diag. simpl skipn. rewrite app_nil_l.
    rewrite firstn_app, Hy, Nat.sub_diag, <- Hy, firstn_all. simpl. now rewrite app_nil_r.
  - rewrite skipn_app. rewrite skipn_all2 by lia. rewrite app_nil_l, skipn_app. rewrite skipn_all2 by lia. rewrite app_nil_l.
    replace (2 * n - length x - length y)%nat with 0%nat by lia. simpl skipn. rewrite <- Hz. apply firstn_all.
Qed.
Lemma zeros_at k t : at_ (zeros K k) t = 0.
Proof. unfold at_, zeros. revert t. induction k as [|k IH]; intros [|t]; simpl; auto. Qed.
Lemma cross_grad D s : commuting D ->
  mv N (cross g D) (mv n (D 0%nat) s ++ mv n (D 1%nat) s ++ mv n (D 2) s) = zeros K N.
Proof.
  intros HD. apply (@vlen_ext K g); [apply mv_length|apply repeat_length|]. intros c t Hc Ht. rewrite zeros_at.
  rewrite cross_at by auto. unfold dcol. rewrite !part_app3 by (auto using mv_length; lia).
  ax3 c; [rewrite (HD 2 1%nat)|rewrite (HD 2 0%nat)|rewrite (HD 1%nat 0%nat)]; try lia; try auto; ring.
Qed.

(** *** the weighted transpose of the curls *)
Definition hweight : field3 K := fun c x y z =>
  match c with
  | 0 => dxh g 0 x * dxe g 1 y * dxe g 2 z
  | 1 => dxe g 0 x * dxh g 1 y * dxe g 2 z
  | _ => dxe g 0 x * dxe g 1 y * dxh g 2 z
  end.
Lemma fwd_eq_bwd a t j : (a < 3 -> t < n -> j < n -> (fwd a t =? j) = (bwd a j =? t))%nat.
Proof.
  intros Ha Ht Hj. destruct (Nat.eqb_spec (fwd a t) j) as [H1|H1], (Nat.eqb_spec (bwd a j) t) as [H2|H2]; auto.
  - exfalso. apply H2. rewrite <- H1. now apply bwd_fwd.
  - exfalso. apply H1. rewrite <- H2. now apply fwd_bwd.
Qed.
Lemma fd_bd (u : nat -> K) a t : (a < 3 -> t < n -> bd u a (fwd a t) = fd u a t)%nat.
Proof.
  intros Ha Ht. unfold Maxwell_Proofs.bd, Maxwell_Proofs.fd. rewrite coord_fwd by auto. rewrite Nat.eqb_refl.
  pose proof (coord_lt g Ha Ht). destruct (Nat.eqb_spec (coord a t + 1) (dim g a)) as [E|E].
  - rewrite E, Nat.mod_same by lia. reflexivity.
  - rewrite Nat.mod_small by lia. destruct (Nat.eqb_spec (coord a t + 1) 0); [lia|reflexivity].
Qed.
Hypothesis Hnz : nonzero_cells g.
(** dx_h(j) D_back(j,t) = - dx_e(t) D_forward(t,j), the factors being exchanged *)
Lemma deriv_transpose u1 w1 u2 w2 a t j : u2 = w1 -> (a < 3)%nat -> (t < n)%nat -> (j < n)%nat ->
  dxh g a (coord a j) * deriv_back g u1 w1 a j t = - (dxe g a (coord a t) * deriv_forward g u2 w2 a t j).
Proof.
  intros -> Ha Ht Hj. rewrite deriv_back_entry, deriv_forward_entry by auto.
  destruct (Hnz (a:=a) (i:=coord a t) Ha (coord_lt g Ha Ht)) as [He _].
  destruct (Hnz (a:=a) (i:=coord a j) Ha (coord_lt g Ha Hj)) as [_ Hh].
  rewrite <- (fwd_eq_bwd Ha Ht Hj). rewrite (Nat.eqb_sym j t).
  destruct (Nat.eqb_spec (fwd a t) j) as [<-|E1].
  - rewrite fd_bd by auto. destruct (Nat.eqb t (fwd a t)); field; auto.
  - destruct (Nat.eqb t j); field; auto.
Qed.
(** a derivative along [a] only links cells that agree on the other axes *)
Lemma deriv_back_zero u w a t j b : (a < 3)%nat -> (b < 3)%nat -> b <> a -> (t < n)%nat -> (j < n)%nat ->
  coord b t <> coord b j -> deriv_back g u w a t j = 0.
Proof.
  intros Ha Hb Hab Ht Hj Hc. rewrite deriv_back_entry by auto.
  destruct (Nat.eqb_spec (bwd a t) j) as [<-|]; [exfalso; apply Hc; symmetry; now apply coord_bwd_other|].
  destruct (Nat.eqb_spec t j) as [<-|]; [congruence|]. rewrite (Fdiv_def (k_field K)). ring.
Qed.
Lemma deriv_forward_zero u w a t j b : (a < 3)%nat -> (b < 3)%nat -> b <> a -> (t < n)%nat -> (j < n)%nat ->
  coord b t <> coord b j -> deriv_forward g u w a t j = 0.
Proof.
  intros Ha Hb Hab Ht Hj Hc. rewrite deriv_forward_entry by auto.
  destruct (Nat.eqb_spec (fwd a t) j) as [<-|]; [exfalso; apply Hc; symmetry; now apply coord_fwd_other|].
  destruct (Nat.eqb_spec t j) as [<-|]; [congruence|]. rewrite (Fdiv_def (k_field K)). ring.
Qed.
Lemma curl_transpose_block u1 w1 u2 w2 a r c t j : u2 = w1 ->
  (a < 3)%nat -> (r < 3)%nat -> (c < 3)%nat -> r <> c -> r <> a -> c <> a -> (t < n)%nat -> (j < n)%nat ->
  dxe g r (coord r t) * dxh g c (coord c t) * dxh g a (coord a t) * deriv_back g u1 w1 a t j =
  - (dxe g r (coord r j) * dxh g c (coord c j) * dxe g a (coord a j) * deriv_forward g u2 w2 a j t).
Proof.
  intros E Ha Hr Hc Hrc Hra Hca Ht Hj.
  destruct (Nat.eq_dec (coord r t) (coord r j)) as [Er|Er];
    [|rewrite (deriv_back_zero _ _ Ha Hr Hra Ht Hj Er), (deriv_forward_zero _ _ Ha Hr Hra Hj Ht) by congruence; ring].
  destruct (Nat.eq_dec (coord c t) (coord c j)) as [Ec|Ec];
    [|rewrite (deriv_back_zero _ _ Ha Hc Hca Ht Hj Ec), (deriv_forward_zero _ _ Ha Hc Hca Hj Ht) by congruence; ring].
  rewrite Er, Ec. pose proof (@deriv_transpose u1 w1 u2 w2 a j t E Ha Hj Ht) as H.
  transitivity (dxe g r (coord r j) * dxh g c (coord c j) * (dxh g a (coord a t) * deriv_back g u1 w1 a t j)); [ring|].
  rewrite H. ring.
Qed.
Lemma curl_transpose u1 w1 u2 w2 i k : u2 = w1 -> (i < N)%nat -> (k < N)%nat ->
  at_ (vec g (p_squared g)) i * curl_h g u1 w1 i k = at_ (vec g hweight) k * curl_e g u2 w2 k i.
Proof.
  intros E Hi Hk. destruct (@block_ex n i Hi) as (r & t & Hr & Ht & ->). destruct (@block_ex n k Hk) as (c & j & Hc & Hj & ->).
  rewrite !vec_at by auto. unfold curl_h, curl_e, cross. rewrite !bmat_at by auto.
  pose proof (fun a Ha Hrc Hra Hca => @curl_transpose_block u1 w1 u2 w2 a r c t j E Ha Hr Hc Hrc Hra Hca Ht Hj) as H.
  ax3 r; ax3 c; unfold p_squared, hweight, mneg; try ring;
  [ pose proof (H 2%nat ltac:(lia) ltac:(lia) ltac:(lia) ltac:(lia)) as H'
  | pose proof (H 1%nat ltac:(lia) ltac:(lia) ltac:(lia) ltac:(lia)) as H'
  | pose proof (H 2%nat ltac:(lia) ltac:(lia) ltac:(lia) ltac:(lia)) as H'
  | pose proof (H 0%nat ltac:(lia) ltac:(lia) ltac:(lia) ltac:(lia)) as H'
  | pose proof (H 1%nat ltac:(lia) ltac:(lia) ltac:(lia) ltac:(lia)) as H'
  | pose proof (H 0%nat ltac:(lia) ltac:(lia) ltac:(lia) ltac:(lia)) as H' ]; clear H.
  - match type of H' with ?L = - ?R => transitivity (- L); [ring|rewrite H'; ring] end.
  - match type of H' with ?L = - ?R => transitivity (L); [ring|rewrite H'; ring] end.
  - match type of H' with ?L = - ?R => transitivity (L); [ring|rewrite H'; ring] end.
  - match type of H' with ?L = - ?R => transitivity (- L); [ring|rewrite H'; ring] end.
  - match type of H' with ?L = - ?R => transitivity (- L); [ring|rewrite H'; ring] end.
  - match type of H' with ?L = - ?R => transitivity (L); [ring|rewrite H'; ring] end.
Qed.

(** *** entries of the wave operators *)
Definition maskv (m : option (nat -> bool)) (i : nat) : K := match m with None => 1 | Some b => if b i then 0 else 1 end.
Definition invv (m : option (nat -> K)) (i : nat) : K := match m with None => 1 | Some m => 1 / m i end.
Definition muv (m : option (nat -> K)) (i : nat) : K := match m with None => 1 | Some m => m i end.
Lemma mask_diag m : mask m = mdiag (maskv m).
Proof. destruct m; reflexivity. Qed.
Lemma e_full_entry ph omega eps mu pec pmc i j : (i < N)%nat -> (j < N)%nat ->
  e_full g ph omega eps mu pec pmc i j =
  maskv pec i * (fsum N (fun k => curl_h g (uh ph) (wh ph) i k * (maskv pmc k * invv mu k) * curl_e g (ue ph) (we ph) k j)
                 - omega * omega * mdiag eps i j) * maskv pec j.
Proof.
  intros Hi Hj. unfold e_full. rewrite !mask_diag.
  assert (Em : match mu with None => meye | Some m => mdiag (fun i => 1 / m i) end = mdiag (invv mu)) by (destruct mu; reflexivity).
  rewrite Em. rewrite mmul_mdiag_r by auto. rewrite mmul_mdiag_l by auto. unfold msub, mscale.
  f_equal. f_equal. f_equal. unfold mmul at 1. apply fsum_ext. intros k Hk. rewrite !mmul_mdiag_r by auto. ring.
Qed.
Lemma e_full_transpose_lemma ph omega eps mu pec pmc i j : (i < N)%nat -> (j < N)%nat ->
  at_ (vec g (p_squared g)) i * e_full g ph omega eps mu pec pmc i j =
  at_ (vec g (p_squared g)) j * e_full g (opposite ph) omega eps mu pec pmc j i.
Proof.
  intros Hi Hj. rewrite !e_full_entry by auto. unfold opposite; cbn [ue we uh wh].
  set (s := at_ (vec g (p_squared g))). set (q := fun k => maskv pmc k * invv mu k).
  assert (E1 : s i * fsum N (fun k => curl_h g (uh ph) (wh ph) i k * (maskv pmc k * invv mu k) * curl_e g (ue ph) (we ph) k j)
             = s j * fsum N (fun k => curl_h g (we ph) (ue ph) j k * (maskv pmc k * invv mu k) * curl_e g (wh ph) (uh ph) k i)).
  { rewrite <- !fsum_scale. apply fsum_ext. intros k Hk.
    pose proof (@curl_transpose (uh ph) (wh ph) (wh ph) (uh ph) i k eq_refl Hi Hk) as H1.
    pose proof (@curl_transpose (we ph) (ue ph) (ue ph) (we ph) j k eq_refl Hj Hk) as H2. fold s in H1, H2.
    transitivity (s i * curl_h g (uh ph) (wh ph) i k * (maskv pmc k * invv mu k) * curl_e g (ue ph) (we ph) k j); [ring|].
    rewrite H1.
    transitivity (s j * curl_h g (we ph) (ue ph) j k * (maskv pmc k * invv mu k) * curl_e g (wh ph) (uh ph) k i); [|ring].
    rewrite H2. ring. }
  assert (E2 : s i * mdiag eps i j = s j * mdiag eps j i).
  { unfold mdiag. rewrite (Nat.eqb_sym j i). destruct (Nat.eqb_spec i j) as [->|]; ring. }
  match goal with |- s i * (_ * (?X - _ * _ * ?Y) * _) = _ =>
    transitivity (maskv pec i * maskv pec j * (s i * X - omega * omega * (s i * Y))); [ring|] end.
  rewrite E1, E2. ring.
Qed.
Lemma p_squared_neq0 i : (i < N)%nat -> at_ (vec g (p_squared g)) i <> 0.
Proof.
  intros Hi. destruct (@block_ex n i Hi) as (r & t & Hr & Ht & ->). rewrite vec_at by auto.
  assert (Hc : forall a, (a < 3)%nat -> dxe g a (coord a t) <> 0 /\ dxh g a (coord a t) <> 0) by (intros a Ha; apply (Hnz Ha), coord_lt; auto).
  destruct (Hc 0%nat ltac:(lia)), (Hc 1%nat ltac:(lia)), (Hc 2%nat ltac:(lia)). ax3 r; unfold p_squared; auto using kmul_neq0.
Qed.
Section Pre.
Variable p : nat -> K.
Hypothesis Hp : is_sqrt g p.
Lemma p_neq0 i : (i < N)%nat -> p i <> 0.
Proof. intros Hi E. apply (p_squared_neq0 Hi). rewrite <- (Hp Hi), E. ring. Qed.
Local Notation preconditioned := (preconditioned g p).
Lemma precond_entry A i j : (i < N)%nat -> (j < N)%nat -> preconditioned A i j = p i * A i j * (1 / p j).
Proof.
  intros Hi Hj. unfold Maxwell_Spec.preconditioned, precond_left, precond_right. rewrite mmul_mdiag_r, mmul_mdiag_l by auto. reflexivity.
Qed.
Lemma precond_transpose_lemma ph omega eps mu pec pmc i j : (i < N)%nat -> (j < N)%nat ->
  preconditioned (e_full g ph omega eps mu pec pmc) i j = preconditioned (e_full g (opposite ph) omega eps mu pec pmc) j i.
Proof.
  intros Hi Hj. rewrite !precond_entry by auto. pose proof (p_neq0 Hi). pose proof (p_neq0 Hj).
  apply (@kmul_cancel K (p i * p j)); [auto using kmul_neq0|].
  transitivity (p i * p i * e_full g ph omega eps mu pec pmc i j); [field; auto|].
  transitivity (p j * p j * e_full g (opposite ph) omega eps mu pec pmc j i); [|field; auto].
  rewrite (Hp Hi), (Hp Hj). now apply e_full_transpose_lemma.
Qed.
Lemma precond_symmetric_lemma ph omega eps mu pec pmc :
  ph = opposite ph -> symmetric N (preconditioned (e_full g ph omega eps mu pec pmc)).
Proof. intros E i j Hi Hj. rewrite E at 2. now apply precond_transpose_lemma. Qed.
(** *** solving with a preconditioner *)
Lemma mherm_diag d i j : mherm (mdiag d) i j = mdiag (fun k => kconj (d k) : K) i j.
Proof. unfold mherm, mdiag. rewrite Nat.eqb_sym. destruct (Nat.eqb_spec i j) as [->|]; auto using kconj_0. Qed.
Lemma solve_forward_lemma inner A0 omega J x :
  length J = N ->
  (forall b, length b = N -> length (inner (preconditioned A0) b) = N /\ mv N (preconditioned A0) (inner (preconditioned A0) b) = b) ->
  solve g inner p A0 omega J false false false = Ok x ->
  length x = N /\ mv N A0 x = vscale (- ki * omega) J.
Proof.
  intros HJ Hin H. unfold solve in H. injection H as <-. change (mmul N (mmul N (precond_left p) A0) (precond_right p)) with (preconditioned A0).
  set (b := mv N (precond_left p) (map (fun x => - ki * omega * x) J)).
  destruct (Hin b) as [Hl Hb]; [apply mv_length|]. set (y := inner (preconditioned A0) b) in *. clearbody y.
  split; [apply mv_length|]. fold (vscale (- ki * omega) J). unfold Maxwell_Spec.preconditioned in Hb. rewrite !mv_mmul in Hb.
  apply vec_ext; [rewrite mv_length; unfold vscale; now rewrite map_length|]. intros i Hi. rewrite mv_length in Hi.
  apply (f_equal (fun v => at_ v i)) in Hb. unfold b, precond_left in Hb. rewrite !mv_mdiag_at in Hb by auto.
  exact (@kmul_cancel K _ _ _ (p_neq0 Hi) Hb).
Qed.
Lemma mherm_mmul (A B : mat K) i j : mherm (mmul N A B) i j = mmul N (mherm B) (mherm A) i j.
Proof. unfold mherm, mmul. rewrite kconj_fsum. apply fsum_ext. intros k Hk. rewrite kconj_mul. ring. Qed.
Lemma solve_adjoint_lemma inner A0 omega J x :
  length J = N ->
  (forall b, length b = N -> length (inner (mherm (preconditioned A0)) b) = N /\ mv N (mherm (preconditioned A0)) (inner (mherm (preconditioned A0)) b) = b) ->
  solve g inner p A0 omega J false false true = Ok x ->
  length x = N /\ mv N (mherm A0) x = vscale (- ki * omega) J.
Proof.
  intros HJ Hin H. unfold solve in H. injection H as <-. change (mmul N (mmul N (precond_left p) A0) (precond_right p)) with (preconditioned A0).
  set (b := mv N (mherm (precond_right p)) (map (fun x => - ki * omega * x) J)).
  destruct (Hin b) as [Hl Hb]; [apply mv_length|]. set (y := inner (mherm (preconditioned A0)) b) in *. clearbody y.
  split; [apply mv_length|]. fold (vscale (- ki * omega) J).
  assert (Hb2 : mv N (mherm (precond_right p)) (mv N (mherm A0) (mv N (mherm (precond_left p)) y)) = b).
  { rewrite <- Hb. unfold Maxwell_Spec.preconditioned.
    rewrite (@mv_ext K N (mherm (mmul N (mmul N (precond_left p) A0) (precond_right p))) (mmul N (mherm (precond_right p)) (mherm (mmul N (precond_left p) A0)))) by (intros; apply mherm_mmul).
    rewrite mv_mmul. f_equal. rewrite (@mv_ext K N (mherm (mmul N (precond_left p) A0)) (mmul N (mherm A0) (mherm (precond_left p)))) by (intros; apply mherm_mmul).
    now rewrite mv_mmul. }
  apply vec_ext; [rewrite mv_length; unfold vscale; now rewrite map_length|]. intros i Hi. rewrite mv_length in Hi.
  apply (f_equal (fun v => at_ v i)) in Hb2. unfold b, precond_right in Hb2.
  rewrite !(@mv_ext K N (mherm (mdiag (fun i => 1 / p i))) (mdiag (fun k => kconj (1 / p k)))) in Hb2 by (intros; apply mherm_diag).
  rewrite !mv_mdiag_at in Hb2 by auto.
  assert (Hn : kconj (1 / p i) <> 0).
  { apply kconj_neq0. intros E. apply (k1_neq_0 K). rewrite <- (@kinv_l K _ (p_neq0 Hi)), E. ring. }
  exact (@kmul_cancel K _ _ _ Hn Hb2).
Qed.
End Pre.
End M.
Arguments invv {K}. Arguments muv {K}.
