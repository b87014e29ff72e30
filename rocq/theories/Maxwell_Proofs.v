(** Lemmas on vectorization, shifts, derivatives and curls. *)
From Verif Require Import Base CField CField_Proofs Maxwell_Model.
From Coq Require Import ZArith.
Set Implicit Arguments.

Lemma flat_map_length_uniform {A} (f : nat -> list A) m k : (forall i, length (f i) = m) -> length (flat_map f (seq 0 k)) = (k * m)%nat.
Proof.
  intros H. generalize 0%nat. induction k as [|k IH]; intros s; simpl; [reflexivity|].
  rewrite app_length, H, IH. reflexivity.
Qed.
Lemma flat_map_nth_uniform {A} (f : nat -> list A) m k (d : A) q r s :
  (forall i, length (f i) = m) -> (q < k)%nat -> (r < m)%nat -> nth (q * m + r) (flat_map f (seq s k)) d = nth r (f (s + q)%nat) d.
Proof.
  intros H. revert q s. induction k as [|k IH]; intros q s Hq Hr; [lia|]. simpl.
  destruct q as [|q]; simpl.
  - rewrite app_nth1 by (rewrite H; auto). now rewrite Nat.add_0_r.
  - rewrite app_nth2 by (rewrite H; lia). rewrite H. replace (m + q * m + r - m)%nat with (q * m + r)%nat by lia.
    rewrite IH by lia. f_equal. f_equal. lia.
Qed.
Lemma map_nth_uniform {A} (f : nat -> A) k (d : A) q : (q < k)%nat -> nth q (map f (seq 0 k)) d = f q.
Proof.
  intros H. rewrite (nth_indep _ d (f 0%nat)) by (rewrite map_length, seq_length; auto).
  now rewrite map_nth, seq_nth.
Qed.

Section M.
Variable K : cfield.
Local Open Scope K_scope.
Add Field Kfield : (k_field K).
Variable g : grid K.
Local Notation nx := (dim g 0%nat). Local Notation ny := (dim g 1%nat). Local Notation nz := (dim g 2%nat).
Local Notation n := (cellsn g).
Local Notation coord := (coord g).

(** *** cell indices *)
Definition idx (x y z : nat) : nat := (x + nx * (y + ny * z))%nat.
Lemma cells_pos t : (t < n)%nat -> (0 < nx /\ 0 < ny /\ 0 < nz)%nat.
Proof. unfold cellsn. intros H. destruct nx, ny, nz; simpl in *; lia. Qed.
Lemma coord_lt a t : (a < 3)%nat -> (t < n)%nat -> (coord a t < dim g a)%nat.
Proof.
  intros Ha Ht. destruct (cells_pos Ht) as (Hx & Hy & Hz). unfold cellsn in Ht.
  destruct a as [|[|[|a]]]; unfold Maxwell_Model.coord; try lia.
  - apply Nat.mod_upper_bound; lia.
  - apply Nat.mod_upper_bound; lia.
  - apply Nat.div_lt_upper_bound; [lia|]. apply Nat.div_lt_upper_bound; [lia|]. lia.
Qed.
Lemma idx_lt x y z : (x < nx -> y < ny -> z < nz -> idx x y z < n)%nat.
Proof. unfold idx, cellsn. intros. assert (y + ny * z + 1 <= ny * nz)%nat by nia. nia. Qed.
Lemma coord_idx x y z : (x < nx -> y < ny -> coord 0 (idx x y z) = x /\ coord 1 (idx x y z) = y /\ coord 2 (idx x y z) = z)%nat.
Proof.
  intros Hx Hy. unfold Maxwell_Model.coord, idx.
  assert (E1 : ((x + nx * (y + ny * z)) mod nx = x)%nat) by (rewrite Nat.mul_comm, Nat.mod_add by lia; now apply Nat.mod_small).
  assert (E2 : ((x + nx * (y + ny * z)) / nx = y + ny * z)%nat) by (rewrite Nat.mul_comm, Nat.div_add, Nat.div_small by lia; lia).
  assert (E3 : ((y + ny * z) mod ny = y)%nat) by (rewrite Nat.mul_comm, Nat.mod_add by lia; now apply Nat.mod_small).
  assert (E4 : ((y + ny * z) / ny = z)%nat) by (rewrite Nat.mul_comm, Nat.div_add, Nat.div_small by lia; lia).
  rewrite E1, E2. auto.
Qed.
Lemma idx_coord t : (t < n)%nat -> idx (coord 0 t) (coord 1 t) (coord 2 t) = t.
Proof.
  intros Ht. destruct (cells_pos Ht) as (Hx & Hy & Hz). unfold Maxwell_Model.coord, idx.
  pose proof (Nat.div_mod t nx ltac:(lia)) as H1. pose proof (Nat.div_mod (t / nx) ny ltac:(lia)) as H2. nia.
Qed.
Lemma cell_ext t s : (t < n)%nat -> (s < n)%nat -> (forall a, (a < 3)%nat -> coord a t = coord a s) -> t = s.
Proof. intros Ht Hs H. rewrite <- (idx_coord Ht), <- (idx_coord Hs). now rewrite !H by lia. Qed.

(** *** vec and unvec *)
Lemma flattenF_length (a : array K) : length (flattenF g a) = n.
Proof.
  unfold flattenF. rewrite (flat_map_length_uniform _ (m := (ny * nx)%nat)).
  - unfold cellsn. lia.
  - intros z. rewrite (flat_map_length_uniform _ (m := nx)); [reflexivity|]. intros y. now rewrite map_length, seq_length.
Qed.
Lemma flattenF_at (a : array K) t : (t < n)%nat -> at_ (flattenF g a) t = a (coord 0 t) (coord 1 t) (coord 2 t).
Proof.
  intros Ht. rewrite <- (idx_coord Ht) at 1. pose proof (@coord_lt 0 t ltac:(lia) Ht). pose proof (@coord_lt 1 t ltac:(lia) Ht).
  pose proof (@coord_lt 2 t ltac:(lia) Ht). unfold at_, flattenF, idx.
  replace (coord 0 t + nx * (coord 1 t + ny * coord 2 t))%nat with (coord 2 t * (ny * nx) + (coord 1 t * nx + coord 0 t))%nat by nia.
  assert (coord 1 t * nx + coord 0 t < ny * nx)%nat by nia.
  rewrite (flat_map_nth_uniform _ (m := (ny * nx)%nat)); [|intros; rewrite (flat_map_length_uniform _ (m := nx)); [reflexivity|intros; now rewrite map_length, seq_length]|auto|auto].
  rewrite (flat_map_nth_uniform _ (m := nx)); [|intros; now rewrite map_length, seq_length|auto|auto].
  now rewrite map_nth_uniform.
Qed.
Lemma vec_length f : length (vec g f) = vlen g.
Proof. unfold vec, vlen. rewrite !app_length, !flattenF_length. lia. Qed.
Lemma vec_at f c t : (c < 3)%nat -> (t < n)%nat -> at_ (vec g f) (c * n + t) = f c (coord 0 t) (coord 1 t) (coord 2 t).
Proof.
  intros Hc Ht. rewrite <- flattenF_at by auto. unfold at_, vec.
  destruct c as [|[|[|c]]]; [| | |lia].
  - rewrite app_nth1 by (rewrite flattenF_length; lia). reflexivity.
  - rewrite app_nth2 by (rewrite flattenF_length; lia). rewrite app_nth1 by (rewrite !flattenF_length; lia).
    f_equal. rewrite flattenF_length. lia.
  - rewrite app_nth2 by (rewrite flattenF_length; lia). rewrite app_nth2 by (rewrite !flattenF_length; lia).
    f_equal. rewrite !flattenF_length. lia.
Qed.
Lemma vlen_ext (v w : list K) : length v = vlen g -> length w = vlen g ->
  (forall c t, (c < 3)%nat -> (t < n)%nat -> at_ v (c * n + t) = at_ w (c * n + t)) -> v = w.
Proof.
  intros Hv Hw H. apply vec_ext; [congruence|]. intros i Hi. rewrite Hv in Hi.
  destruct (@block_ex n i Hi) as (c & t & Hc & Ht & ->). now apply H.
Qed.
Lemma unvec_vec_lemma f : exists f', unvec g (vec g f) = Ok f' /\
  forall c x y z, (c < 3 -> x < nx -> y < ny -> z < nz -> f' c x y z = f c x y z)%nat.
Proof.
  unfold unvec. rewrite vec_length. unfold vlen.
  replace (3 * n)%nat with (n * 3)%nat by lia. rewrite Nat.mod_mul, Nat.div_mul, !Nat.eqb_refl by lia. cbn [negb].
  eexists; split; [reflexivity|]. intros c x y z Hc Hx Hy Hz. cbn beta.
  change (x + nx * (y + ny * z))%nat with (idx x y z). rewrite vec_at by (auto; now apply idx_lt).
  destruct (@coord_idx x y z) as (-> & -> & ->); auto.
Qed.
Lemma vec_unvec_lemma v f : unvec g v = Ok f -> length v = vlen g /\ vec g f = v.
Proof.
  unfold unvec. intros H.
  destruct (Nat.eqb_spec (length v mod 3) 0) as [Hm|]; [|discriminate]. cbn [negb] in H.
  destruct (Nat.eqb_spec (length v / 3) n) as [Hd|]; [|discriminate]. cbn [negb] in H.
  assert (Hl : length v = vlen g) by (unfold vlen; pose proof (Nat.div_mod (length v) 3 ltac:(lia)); lia).
  split; [exact Hl|]. injection H as <-. apply vlen_ext; [apply vec_length|exact Hl|].
  intros c t Hc Ht. rewrite vec_at by auto. change (coord 0 t + nx * (coord 1 t + ny * coord 2 t))%nat with (idx (coord 0 t) (coord 1 t) (coord 2 t)).
  now rewrite idx_coord.
Qed.
Lemma unvec_error_lemma v : length v <> vlen g -> unvec g v = Err ValueError.
Proof.
  intros H. unfold unvec. destruct (Nat.eqb_spec (length v mod 3) 0) as [Hm|]; [|reflexivity]. cbn [negb].
  destruct (Nat.eqb_spec (length v / 3) n) as [Hd|]; [|reflexivity]. exfalso. apply H. unfold vlen.
  pose proof (Nat.div_mod (length v) 3 ltac:(lia)); lia.
Qed.

(** *** shifts *)
Section Rot.
Variables (axis : nat) (d : Z) (so : nat -> Z).
Lemma ravel_wrap_lt p : (0 < nx -> 0 < ny -> 0 < nz -> ravel_wrap g p < n)%nat.
Proof.
  intros Hx Hy Hz. unfold ravel_wrap. apply idx_lt;
  match goal with |- (Z.to_nat (?a mod ?b) < _)%nat => pose proof (Z.mod_pos_bound a b ltac:(lia)); lia end.
Qed.
Lemma coord_ravel p a : (a < 3 -> 0 < nx -> 0 < ny -> 0 < nz -> coord a (ravel_wrap g p) = Z.to_nat (p a mod Z.of_nat (dim g a)))%nat.
Proof.
  intros Ha Hx Hy Hz. unfold ravel_wrap.
  pose proof (Z.mod_pos_bound (p 0%nat) (Z.of_nat nx) ltac:(lia)). pose proof (Z.mod_pos_bound (p 1%nat) (Z.of_nat ny) ltac:(lia)).
  pose proof (Z.mod_pos_bound (p 2%nat) (Z.of_nat nz) ltac:(lia)).
  destruct (@coord_idx (Z.to_nat (p 0%nat mod Z.of_nat nx)) (Z.to_nat (p 1%nat mod Z.of_nat ny)) (Z.to_nat (p 2%nat mod Z.of_nat nz)) ltac:(lia) ltac:(lia)) as (E0 & E1 & E2).
  unfold idx in *. destruct a as [|[|[|a]]]; auto; lia.
Qed.
End Rot.

(** the next and previous cell along an axis *)
Definition fwd (a t : nat) : nat := ravel_wrap g (shifted_index g a 1 no_shift t).
Definition bwd (a t : nat) : nat := ravel_wrap g (shifted_index g a (-1) no_shift t).
Definition fd (u : nat -> K) (a t : nat) : K := if Nat.eqb (coord a t + 1) (dim g a) then u a else 1.
Definition bd (w : nat -> K) (a t : nat) : K := if Nat.eqb (coord a t) 0 then w a else 1.
Lemma shifted_no_shift a d t b : shifted_index g a d no_shift t b = if Nat.eqb b a then (Z.of_nat (coord b t) + d)%Z else Z.of_nat (coord b t).
Proof.
  unfold shifted_index, no_shift. rewrite Nat.eqb_refl.
  repeat match goal with |- context [if ?c then _ else _] => destruct c end; lia.
Qed.
Lemma fwd_lt a t : (t < n)%nat -> (fwd a t < n)%nat.
Proof. intros H. destruct (cells_pos H) as (? & ? & ?). now apply ravel_wrap_lt. Qed.
Lemma bwd_lt a t : (t < n)%nat -> (bwd a t < n)%nat.
Proof. intros H. destruct (cells_pos H) as (? & ? & ?). now apply ravel_wrap_lt. Qed.
Lemma coord_fwd a b t : (a < 3 -> b < 3 -> t < n -> coord b (fwd a t) = if b =? a then (coord b t + 1) mod dim g b else coord b t)%nat.
Proof.
  intros Ha Hb Ht. destruct (cells_pos Ht) as (? & ? & ?). unfold fwd. rewrite coord_ravel, shifted_no_shift by auto.
  pose proof (coord_lt Hb Ht). destruct (Nat.eqb b a).
  - replace (Z.of_nat (coord b t) + 1)%Z with (Z.of_nat (coord b t + 1)) by lia. rewrite <- Nat2Z.inj_mod. lia.
  - rewrite Z.mod_small by lia. lia.
Qed.
Lemma coord_bwd a b t : (a < 3 -> b < 3 -> t < n -> coord b (bwd a t) = if b =? a then (coord b t + dim g b - 1) mod dim g b else coord b t)%nat.
Proof.
  intros Ha Hb Ht. destruct (cells_pos Ht) as (? & ? & ?). unfold bwd. rewrite coord_ravel, shifted_no_shift by auto.
  pose proof (coord_lt Hb Ht). destruct (Nat.eqb b a).
  - replace (Z.of_nat (coord b t) + -1)%Z with (Z.of_nat (coord b t + dim g b - 1) + (-1) * Z.of_nat (dim g b))%Z by lia.
    rewrite Z.mod_add by lia. rewrite <- Nat2Z.inj_mod. lia.
  - rewrite Z.mod_small by lia. lia.
Qed.
Lemma bwd_fwd a t : (a < 3 -> t < n -> bwd a (fwd a t) = t)%nat.
Proof.
  intros Ha Ht. pose proof (fwd_lt a Ht). apply cell_ext; auto using bwd_lt. intros b Hb.
  rewrite coord_bwd, coord_fwd by auto. pose proof (coord_lt Hb Ht) as Hc. destruct (Nat.eqb_spec b a); [|reflexivity].
  destruct (Nat.eq_dec (coord b t + 1) (dim g b)) as [E|E].
  - rewrite E, Nat.mod_same by lia. rewrite Nat.mod_small by lia. lia.
  - rewrite (Nat.mod_small (coord b t + 1)) by lia. replace (coord b t + 1 + dim g b - 1)%nat with (coord b t + 1 * dim g b)%nat by lia.
    rewrite Nat.mod_add by lia. now apply Nat.mod_small.
Qed.
Lemma fwd_bwd a t : (a < 3 -> t < n -> fwd a (bwd a t) = t)%nat.
Proof.
  intros Ha Ht. pose proof (bwd_lt a Ht). apply cell_ext; auto using fwd_lt. intros b Hb.
  rewrite coord_fwd, coord_bwd by auto. pose proof (coord_lt Hb Ht) as Hc. destruct (Nat.eqb_spec b a); [|reflexivity].
  destruct (Nat.eq_dec (coord b t) 0) as [E|E].
  - rewrite E. rewrite (Nat.mod_small (0 + _ - 1)) by lia. replace (0 + dim g b - 1 + 1)%nat with (dim g b) by lia. rewrite Nat.mod_same; lia.
  - replace (coord b t + dim g b - 1)%nat with (coord b t - 1 + 1 * dim g b)%nat by lia. rewrite Nat.mod_add by lia.
    rewrite (Nat.mod_small (coord b t - 1)) by lia. rewrite Nat.mod_small; lia.
Qed.
Lemma bloch_data_fwd (u w : nat -> K) a t : (a < 3 -> t < n -> bloch_data g u w (shifted_index g a 1 no_shift t) = fd u a t)%nat.
Proof.
  intros Ha Ht. unfold bloch_data. rewrite !shifted_no_shift.
  pose proof (@coord_lt 0 t ltac:(lia) Ht) as H0. pose proof (@coord_lt 1 t ltac:(lia) Ht) as H1. pose proof (@coord_lt 2 t ltac:(lia) Ht) as H2.
  assert (Hg : coord a t = match a with 0 => coord 0 t | 1 => coord 1 t | _ => coord 2 t end%nat) by (destruct a as [|[|[|a]]]; [| | |lia]; reflexivity).
  unfold fd. rewrite Hg. clear Hg. generalize dependent (coord 0 t). generalize dependent (coord 1 t). generalize dependent (coord 2 t). intros.
  destruct a as [|[|[|a]]]; [| | |lia]; simpl Nat.eqb; cbv iota;
  repeat match goal with
  | |- context [Z.leb ?x ?y] => destruct (Z.leb_spec x y); try lia
  | |- context [Z.ltb ?x ?y] => destruct (Z.ltb_spec x y); try lia
  | |- context [Nat.eqb ?x ?y] => destruct (Nat.eqb_spec x y); try lia
  end; ring.
Qed.
Lemma bloch_data_bwd (u w : nat -> K) a t : (a < 3 -> t < n -> bloch_data g u w (shifted_index g a (-1) no_shift t) = bd w a t)%nat.
Proof.
  intros Ha Ht. unfold bloch_data. rewrite !shifted_no_shift.
  pose proof (@coord_lt 0 t ltac:(lia) Ht) as H0. pose proof (@coord_lt 1 t ltac:(lia) Ht) as H1. pose proof (@coord_lt 2 t ltac:(lia) Ht) as H2.
  assert (Hg : coord a t = match a with 0 => coord 0 t | 1 => coord 1 t | _ => coord 2 t end%nat) by (destruct a as [|[|[|a]]]; [| | |lia]; reflexivity).
  unfold bd. rewrite Hg. clear Hg. generalize dependent (coord 0 t). generalize dependent (coord 1 t). generalize dependent (coord 2 t). intros.
  destruct a as [|[|[|a]]]; [| | |lia]; simpl Nat.eqb; cbv iota;
  repeat match goal with
  | |- context [Z.leb ?x ?y] => destruct (Z.leb_spec x y); try lia
  | |- context [Z.ltb ?x ?y] => destruct (Z.ltb_spec x y); try lia
  | |- context [Nat.eqb ?x ?y] => destruct (Nat.eqb_spec x y); try lia
  end; ring.
Qed.

(** entries of the derivative matrices *)
Lemma deriv_forward_entry u w a t j : (a < 3)%nat -> (t < n)%nat -> deriv_forward g u w a t j =
  1 / dxe g a (coord a t) * ((if (fwd a t =? j)%nat then fd u a t else 0) - (if (t =? j)%nat then 1 else 0)).
Proof.
  intros Ha Ht. unfold deriv_forward. rewrite mmul_mdiag_l by auto. unfold msub, rotation_matrix, meye, mdiag.
  rewrite bloch_data_fwd by auto. reflexivity.
Qed.
Lemma deriv_back_entry u w a t j : (a < 3)%nat -> (t < n)%nat -> deriv_back g u w a t j =
  - (1) / dxh g a (coord a t) * ((if (bwd a t =? j)%nat then bd w a t else 0) - (if (t =? j)%nat then 1 else 0)).
Proof.
  intros Ha Ht. unfold deriv_back. rewrite mmul_mdiag_l by auto. unfold msub, rotation_matrix, meye, mdiag.
  rewrite bloch_data_bwd by auto. reflexivity.
Qed.
(** their action *)
Lemma mv_pick_at (m : nat) (k : nat -> nat) (c : nat -> K) v t : (t < m)%nat -> (k t < m)%nat ->
  at_ (mv m (fun t j => if Nat.eqb (k t) j then c t else 0) v) t = c t * at_ v (k t).
Proof.
  intros Ht Hk. rewrite mv_at by auto. rewrite (@fsum_single K m (k t)); [|auto|].
  - now rewrite Nat.eqb_refl.
  - intros j _ Hj. destruct (Nat.eqb_spec (k t) j); [congruence|ring].
Qed.
Lemma deriv_forward_at u w a v t : (a < 3)%nat -> (t < n)%nat ->
  at_ (mv n (deriv_forward g u w a) v) t = (fd u a t * at_ v (fwd a t) - at_ v t) / dxe g a (coord a t).
Proof.
  intros Ha Ht. unfold deriv_forward. rewrite mv_mmul, mv_mdiag_at by auto. rewrite mv_msub_at by auto.
  unfold meye. rewrite mv_mdiag_at by auto. unfold rotation_matrix.
  rewrite (@mv_pick_at n (fun t => ravel_wrap g (shifted_index g a 1 no_shift t)) (fun t => bloch_data g u w (shifted_index g a 1 no_shift t)))
    by (auto; now apply fwd_lt).
  rewrite bloch_data_fwd by auto. fold (fwd a t). rewrite !(Fdiv_def (k_field K)). ring.
Qed.
Lemma deriv_back_at u w a v t : (a < 3)%nat -> (t < n)%nat ->
  at_ (mv n (deriv_back g u w a) v) t = (at_ v t - bd w a t * at_ v (bwd a t)) / dxh g a (coord a t).
Proof.
  intros Ha Ht. unfold deriv_back. rewrite mv_mmul, mv_mdiag_at by auto. rewrite mv_msub_at by auto.
  unfold meye. rewrite mv_mdiag_at by auto. unfold rotation_matrix.
  rewrite (@mv_pick_at n (fun t => ravel_wrap g (shifted_index g a (-1) no_shift t)) (fun t => bloch_data g u w (shifted_index g a (-1) no_shift t)))
    by (auto; now apply bwd_lt).
  rewrite bloch_data_bwd by auto. fold (bwd a t). rewrite !(Fdiv_def (k_field K)). ring.
Qed.

(** *** blocks *)
Lemma part_length v c : (c < 3)%nat -> length v = vlen g -> length (part g v c) = n.
Proof. intros Hc Hv. unfold part. rewrite firstn_length, skipn_length, Hv. unfold vlen. nia. Qed.
Lemma part_at v c t : (t < n)%nat -> at_ (part g v c) t = at_ v (c * n + t).
Proof.
  intros Ht. unfold at_, part. generalize (c * n)%nat. intros k.
  rewrite <- (firstn_skipn k v) at 2. destruct (Nat.le_gt_cases k (length v)).
  - rewrite app_nth2 by (rewrite firstn_length; lia). rewrite firstn_length, Nat.min_l by lia.
    replace (k + t - k)%nat with t by lia. rewrite <- (firstn_skipn n (skipn k v)) at 2.
    destruct (Nat.lt_ge_cases t (length (firstn n (skipn k v)))) as [Hl|Hl].
    + now rewrite app_nth1.
    + rewrite nth_overflow by auto. symmetry. rewrite app_nth2 by auto. apply nth_overflow.
      rewrite firstn_length in Hl. rewrite skipn_length. rewrite firstn_length. rewrite skipn_length in *. lia.
  - rewrite skipn_all2 by lia. rewrite firstn_nil, app_nil_r. rewrite (nth_overflow _ _ (n:=k+t)).
    + destruct t; reflexivity.
    + rewrite firstn_length. lia.
Qed.
Lemma bmat_mv_at Bk v r t : (r < 3)%nat -> (t < n)%nat ->
  at_ (mv (vlen g) (bmat n Bk) v) (r * n + t) =
  at_ (mv n (Bk r 0%nat) (part g v 0)) t + at_ (mv n (Bk r 1%nat) (part g v 1)) t + at_ (mv n (Bk r 2%nat) (part g v 2)) t.
Proof.
  intros Hr Ht. rewrite mv_at by (unfold vlen; nia). unfold vlen. rewrite fsum_3. rewrite !mv_at by auto.
  apply f_equal2; [apply f_equal2|]; apply fsum_ext; intros j Hj; rewrite bmat_at, part_at by auto; reflexivity.
Qed.
Lemma mv_zero_at m v t : (t < m)%nat -> at_ (mv m (fun _ _ => (0 : K)) v) t = 0.
Proof. intros. rewrite mv_at by auto. apply fsum_zero. intros. ring. Qed.
Definition dcol (D : nat -> mat K) (v : list K) (a c t : nat) : K := at_ (mv n (D a) (part g v c)) t.
Lemma cross_at D v c t : (c < 3)%nat -> (t < n)%nat ->
  at_ (mv (vlen g) (cross g D) v) (c * n + t) =
  match c with
  | 0 => dcol D v 1 2 t - dcol D v 2 1 t
  | 1 => dcol D v 2 0 t - dcol D v 0 2 t
  | _ => dcol D v 0 1 t - dcol D v 1 0 t
  end.
Proof.
  intros Hc Ht. unfold cross. rewrite bmat_mv_at by auto. unfold dcol.
  destruct c as [|[|[|c]]]; [| | |lia]; rewrite mv_zero_at, mv_mneg_at by auto; ring.
Qed.
End M.
