From Verif Require Import QTac Raster_Model Raster_Spec Raster_Proofs Grid_Model Grid_Proofs Render_Model Render_Spec.
Set Implicit Arguments.
Open Scope Q_scope.

(** *** Kronecker products *)
Definition in_shape (m : list triple) (R C : nat) : Prop := forall t, In t m -> (fst (fst t) < R)%nat /\ (snd (fst t) < C)%nat.
Lemma kron_shape a b Ra Ca Rb Cb : in_shape a Ra Ca -> in_shape b Rb Cb -> in_shape (kron a b Rb Cb) (Ra * Rb) (Ca * Cb).
Proof.
  intros Ha Hb t Ht. unfold kron in Ht. apply in_flat_map in Ht as (x & Hx & Ht). apply in_map_iff in Ht as (y & <- & Hy).
  cbn [fst snd]. destruct (Ha x Hx), (Hb y Hy). split; nia.
Qed.
Lemma eqb_divmod n q r d : (r < d)%nat -> Nat.eqb (q * d + r) n = Nat.eqb q (n / d) && Nat.eqb r (n mod d).
Proof.
  intros H. destruct (Nat.eqb_spec (q * d + r) n) as [<-|Hne].
  - symmetry. apply andb_true_iff. split; apply Nat.eqb_eq.
    + rewrite Nat.div_add_l by lia. rewrite Nat.div_small by assumption. lia.
    + rewrite Nat.add_comm, Nat.mod_add by lia. symmetry. now apply Nat.mod_small.
  - symmetry. apply andb_false_iff. destruct (Nat.eqb_spec q (n / d)); [|now left]. right. apply Nat.eqb_neq.
    intros ->. apply Hne. subst q. rewrite (Nat.div_mod n d) at 3 by lia. lia.
Qed.
Lemma entry_cons r' c' w m r c : entry ((r', c', w) :: m) r c == (if Nat.eqb r' r && Nat.eqb c' c then w else 0) + entry m r c.
Proof. change ((r', c', w) :: m) with ([(r', c', w)] ++ m). now rewrite entry_app, entry_one. Qed.
Lemma entry_kron a b Rb Cb r c : in_shape b Rb Cb ->
  entry (kron a b Rb Cb) r c == entry a (r / Rb) (c / Cb) * entry b (r mod Rb) (c mod Cb).
Proof.
  intros Hb. induction a as [|[[r1 c1] w1] a IH]; [change (kron [] b Rb Cb) with (@nil triple); rewrite !entry_nil; ring|].
  unfold kron in *. cbn [flat_map]. rewrite entry_app, IH, entry_cons. clear IH. cbn [fst snd].
  assert (H : entry (map (fun u => ((r1 * Rb + fst (fst u))%nat, (c1 * Cb + snd (fst u))%nat, w1 * snd u)) b) r c
              == (if Nat.eqb r1 (r / Rb) && Nat.eqb c1 (c / Cb) then w1 else 0) * entry b (r mod Rb) (c mod Cb)).
  { induction b as [|[[r2 c2] w2] b IH]; [cbn [map]; rewrite !entry_nil; ring|].
    cbn [map fst snd]. rewrite !entry_cons, IH by (intros t Ht; apply Hb; now right).
    destruct (Hb (r2, c2, w2)) as [H1 H2]; [now left|]. cbn [fst snd] in H1, H2. rewrite !eqb_divmod by assumption.
    destruct (Nat.eqb r1 (r / Rb)), (Nat.eqb c1 (c / Cb)), (Nat.eqb r2 (r mod Rb)), (Nat.eqb c2 (c mod Cb)); cbn [andb]; ring. }
  rewrite H. ring.
Qed.
(** sums over flattened indices *)
Lemma sumn_add n m f : sumn (n + m) f == sumn n f + sumn m (fun i => f (n + i)%nat).
Proof. induction m as [|m IH]; [rewrite Nat.add_0_r; simpl; ring|]. rewrite Nat.add_succ_r. simpl. rewrite IH. ring. Qed.
Lemma sumn_mul n m f : sumn (n * m) f == sumn n (fun i => sumn m (fun j => f (i * m + j)%nat)).
Proof.
  induction n as [|n IH]; [reflexivity|]. replace (S n * m)%nat with (n * m + m)%nat by lia. rewrite sumn_add, IH. simpl. reflexivity.
Qed.
Lemma divmod_flat q r d : (r < d)%nat -> ((q * d + r) / d = q)%nat /\ ((q * d + r) mod d = r)%nat.
Proof.
  intros H. split.
  - rewrite Nat.div_add_l by lia. rewrite Nat.div_small by assumption. lia.
  - rewrite Nat.add_comm, Nat.mod_add by lia. now apply Nat.mod_small.
Qed.

(** *** the rendering matrix *)
Lemma matrix_1d_shape s g : nondecreasing s -> increasing g -> in_shape (rendering_matrix_1d s g) (cells g) (cells s).
Proof. intros Hs Hg t Ht. now apply rendering_indices_pf. Qed.
Lemma matrix_shape s g : valid_edges s -> valid_grid g -> in_shape (rendering_matrix s g) (size3 g) (size3 s).
Proof.
  intros (S0 & S1 & S2 & _) (G0 & G1 & G2 & _). unfold rendering_matrix, size3.
  apply kron_shape; [apply kron_shape|]; now apply matrix_1d_shape.
Qed.
Lemma matrix_entry s g i j k a b c : valid_edges s -> valid_grid g ->
  (i < cells (ex g))%nat -> (j < cells (ey g))%nat -> (k < cells (ez g))%nat ->
  (a < cells (ex s))%nat -> (b < cells (ey s))%nat -> (c < cells (ez s))%nat ->
  entry (rendering_matrix s g) (flat3 g i j k) (flat3 s a b c)
  == share (ex s) (ex g) i a * share (ey s) (ey g) j b * share (ez s) (ez g) k c.
Proof.
  intros (S0 & S1 & S2 & _) (G0 & G1 & G2 & _) Hi Hj Hk Ha Hb Hc. unfold rendering_matrix, flat3.
  rewrite entry_kron by now apply matrix_1d_shape.
  destruct (@divmod_flat (i * cells (ey g) + j) k (cells (ez g)) Hk) as [-> ->].
  destruct (@divmod_flat (a * cells (ey s) + b) c (cells (ez s)) Hc) as [-> ->].
  rewrite entry_kron by now apply matrix_1d_shape.
  destruct (@divmod_flat i j (cells (ey g)) Hj) as [-> ->]. destruct (@divmod_flat a b (cells (ey s)) Hb) as [-> ->].
  unfold cells in *. rewrite !rendering_entry_pf by assumption. unfold share, covered. reflexivity.
Qed.
Lemma flat3_lt g i j k : (i < cells (ex g))%nat -> (j < cells (ey g))%nat -> (k < cells (ez g))%nat -> (flat3 g i j k < size3 g)%nat.
Proof. intros Hi Hj Hk. unfold flat3, size3. set (X := cells (ex g)) in *. set (Y := cells (ey g)) in *. set (Z := cells (ez g)) in *.
  assert (i * Y + j + 1 <= X * Y)%nat by nia. nia. Qed.
Lemma matrix_row s g i j k v : valid_edges s -> valid_grid g ->
  (i < cells (ex g))%nat -> (j < cells (ey g))%nat -> (k < cells (ez g))%nat ->
  mat_row (rendering_matrix s g) (flat3 g i j k) v ==
  sumn (cells (ex s)) (fun a => sumn (cells (ey s)) (fun b => sumn (cells (ez s)) (fun c =>
    share (ex s) (ex g) i a * share (ey s) (ey g) j b * share (ez s) (ez g) k c * qn v (flat3 s a b c)))).
Proof.
  intros Hs Hg Hi Hj Hk. rewrite (@mat_row_entries _ _ _ (size3 s)) by (intros t Ht; now apply (matrix_shape Hs Hg)).
  unfold size3. rewrite sumn_mul, sumn_mul. apply sumn_ext. intros a Ha. apply sumn_ext. intros b Hb. apply sumn_ext. intros c Hc.
  change ((a * cells (ey s) + b) * cells (ez s) + c)%nat with (flat3 s a b c). now rewrite matrix_entry.
Qed.

(** *** component grids *)
Lemma comp_edges_size g per axis : valid_grid g -> size3 (comp_edges g per axis) = size3 g /\ valid_grid (comp_edges g per axis) /\
  (forall i j k, flat3 (comp_edges g per axis) i j k = flat3 g i j k) /\
  cells (ex (comp_edges g per axis)) = cells (ex g) /\ cells (ey (comp_edges g per axis)) = cells (ey g) /\ cells (ez (comp_edges g per axis)) = cells (ez g).
Proof.
  intros (G0 & G1 & G2 & L0 & L1 & L2). unfold comp_edges. cbv zeta.
  assert (H : forall e a, increasing e -> (2 <= length e)%nat ->
    length (render_edges e per (if Nat.eqb a axis then 0 else 1 # 2)) = length e /\ increasing (render_edges e per (if Nat.eqb a axis then 0 else 1 # 2))).
  { intros e a He Hl. edestruct (@render_edges_pf e per (if Nat.eqb a axis then 0 else 1 # 2) He Hl) as (H1 & H2 & _); [destruct (Nat.eqb a axis); lra..|]. now split. }
  destruct (H _ 0%nat G0 L0), (H _ 1%nat G1 L1), (H _ 2%nat G2 L2).
  unfold size3, flat3, cells, valid_grid. cbn [ex ey ez]. repeat match goal with E : length (render_edges _ _ _) = _ |- _ => rewrite E; clear E end.
  repeat (split; try assumption); reflexivity.
Qed.
Lemma cn_map f n i : (i < n)%nat -> cn (map f (seq 0 n)) i = f i.
Proof.
  intros H. unfold cn. rewrite (nth_indep _ (0, 0) (f 0%nat)) by now rewrite map_length, seq_length. now rewrite map_nth, seq_nth.
Qed.
Lemma eval_component_pf contrast s g per array axis i j k : valid_edges s -> valid_grid g ->
  (i < cells (ex g))%nat -> (j < cells (ey g))%nat -> (k < cells (ez g))%nat ->
  let G := comp_edges g per axis in
  let x := sumn (cells (ex s)) (fun a => sumn (cells (ey s)) (fun b => sumn (cells (ez s)) (fun c =>
    share (ex s) (ex G) i a * share (ey s) (ey G) j b * share (ez s) (ez G) k c * qn array (flat3 s a b c)))) in
  let v := cn (eval_component contrast s g per array axis) (flat3 g i j k) in
  fst v == fst contrast * x /\ snd v == snd contrast * x.
Proof.
  intros Hs Hg Hi Hj Hk G x v. destruct (comp_edges_size per axis Hg) as (E1 & E2 & E3 & E4 & E5 & E6). fold G in E1, E2, E3, E4, E5, E6.
  assert (Hr : mat_row (rendering_matrix s G) (flat3 g i j k) array == x).
  { rewrite <- E3. apply matrix_row; [assumption..|rewrite E4|rewrite E5|rewrite E6]; assumption. }
  unfold v, eval_component. rewrite cn_map by now apply flat3_lt. cbn [fst snd]. fold G. rewrite Hr. split; reflexivity.
Qed.
Lemma sumn_one n s g r : increasing g -> nondecreasing s -> (1 <= length s)%nat -> (r < length g - 1)%nat -> n = cells s ->
  sumn n (share s g r) == covered (qn s 0) (qn s (length s - 1)) g r.
Proof.
  intros Hg Hs Hl Hr ->. unfold share, covered. set (w := qn g (r + 1) - qn g r). unfold Qdiv.
  assert (E : sumn (cells s) (fun c => overlap (qn s c) (qn s (c + 1)) (qn g r) (qn g (r + 1)) * / w)
              == sumn (cells s) (fun c => / w * overlap (qn s c) (qn s (c + 1)) (qn g r) (qn g (r + 1)))).
  { apply sumn_ext. intros. ring. }
  rewrite E, sumn_scale. rewrite overlap_sum; [|assumption|apply increasing_le; [assumption|lia]|unfold cells; lia]. unfold cells. ring.
Qed.
Lemma eval_constant_pf contrast s g per array axis i j k q : valid_edges s -> valid_grid g ->
  (i < cells (ex g))%nat -> (j < cells (ey g))%nat -> (k < cells (ez g))%nat ->
  (forall c, (c < size3 s)%nat -> qn array c == q) ->
  let G := comp_edges g per axis in
  let vol := covered (qn (ex s) 0) (qlast (ex s)) (ex G) i * covered (qn (ey s) 0) (qlast (ey s)) (ey G) j * covered (qn (ez s) 0) (qlast (ez s)) (ez G) k in
  let v := cn (eval_component contrast s g per array axis) (flat3 g i j k) in
  fst v == fst contrast * (q * vol) /\ snd v == snd contrast * (q * vol).
Proof.
  intros Hs Hg Hi Hj Hk Hq G vol v. destruct (@eval_component_pf contrast s g per array axis i j k Hs Hg Hi Hj Hk) as [H1 H2].
  fold G in H1, H2. fold v in H1, H2.
  destruct (comp_edges_size per axis Hg) as (E1 & (G0 & G1 & G2 & L0 & L1 & L2) & E3 & E4 & E5 & E6). fold G in E1, E3, E4, E5, E6, G0, G1, G2, L0, L1, L2.
  destruct Hs as (S0 & S1 & S2 & M0 & M1 & M2).
  match type of H1 with _ == _ * ?x => assert (Hx : x == q * vol); [|rewrite Hx in H1, H2; now split] end.
  transitivity (sumn (cells (ex s)) (fun a => (q * covered (qn (ey s) 0) (qlast (ey s)) (ey G) j * covered (qn (ez s) 0) (qlast (ez s)) (ez G) k) * share (ex s) (ex G) i a)).
  - apply sumn_ext. intros a Ha.
    transitivity (sumn (cells (ey s)) (fun b => (q * share (ex s) (ex G) i a * covered (qn (ez s) 0) (qlast (ez s)) (ez G) k) * share (ey s) (ey G) j b)).
    + apply sumn_ext. intros b Hb.
      transitivity (sumn (cells (ez s)) (fun c => (q * share (ex s) (ex G) i a * share (ey s) (ey G) j b) * share (ez s) (ez G) k c)).
      * apply sumn_ext. intros c Hc. rewrite Hq by now apply flat3_lt. ring.
      * rewrite sumn_scale, sumn_one; try assumption; try reflexivity; [|unfold cells in *; lia]. unfold qlast. ring.
    + rewrite sumn_scale, sumn_one; try assumption; try reflexivity; [|unfold cells in *; lia]. unfold qlast. ring.
  - rewrite sumn_scale, sumn_one; try assumption; try reflexivity; [|unfold cells in *; lia]. unfold vol, qlast. ring.
Qed.

(** *** the gradient *)
Lemma adjoint_triples m R C (x y : nat -> Q) : in_shape m R C ->
  sumn C (fun c => mat_col m c x * y c) == qsum (map (fun t => snd t * x (fst (fst t)) * y (snd (fst t))) m) /\
  sumn R (fun r => x r * qsum (map (fun t => if Nat.eqb (fst (fst t)) r then snd t * y (snd (fst t)) else 0) m))
    == qsum (map (fun t => snd t * x (fst (fst t)) * y (snd (fst t))) m).
Proof.
  induction m as [|[[r c] w] m IH]; intros H.
  - split; apply sumn_zero; intros; unfold mat_col; simpl; ring.
  - destruct IH as [IH1 IH2]; [intros t Ht; apply H; now right|]. destruct (H (r, c, w)) as [Hr Hc]; [now left|]. cbn [fst snd] in Hr, Hc.
    unfold mat_col in *. cbn [map qsum fst snd]. split.
    + rewrite <- IH1. transitivity (sumn C (fun k => (if Nat.eqb c k then w * x r else 0) * y k) +
        sumn C (fun k => qsum (map (fun t => if Nat.eqb (snd (fst t)) k then snd t * x (fst (fst t)) else 0) m) * y k)).
      * rewrite <- sumn_plus. apply sumn_ext. intros; ring.
      * apply Qplus_comp; [|reflexivity]. etransitivity; [apply (@sumn_single C c); [assumption|intros i Hi Hne; cbv beta; destruct (Nat.eqb_spec c i); [congruence|ring]]|]. cbv beta.
        rewrite Nat.eqb_refl. reflexivity.
    + rewrite <- IH2. transitivity (sumn R (fun k => x k * (if Nat.eqb r k then w * y c else 0)) +
        sumn R (fun k => x k * qsum (map (fun t => if Nat.eqb (fst (fst t)) k then snd t * y (snd (fst t)) else 0) m))).
      * rewrite <- sumn_plus. apply sumn_ext. intros; ring.
      * apply Qplus_comp; [|reflexivity]. etransitivity; [apply (@sumn_single R r); [assumption|intros i Hi Hne; cbv beta; destruct (Nat.eqb_spec r i); [congruence|ring]]|]. cbv beta.
        rewrite Nat.eqb_refl. ring.
Qed.
Lemma adjoint_pf m R C x v : in_shape m R C ->
  sumn C (fun c => mat_col m c x * qn v c) == sumn R (fun r => x r * mat_row m r v).
Proof. intros H. destruct (@adjoint_triples m R C x (qn v) H) as [H1 H2]. rewrite H1, <- H2. reflexivity. Qed.

Lemma grad_axis_pf contrast s g per axis gk isc acc v : valid_edges s -> valid_grid g ->
  sumn (size3 s) (fun c => qn (grad_axis contrast s g per axis gk isc acc) c * qn v c) ==
  (if isc then 2 else 1) * (sumn (size3 s) (fun c => qn acc c * qn v c) + pairing (size3 g) gk (eval_component contrast s g per v axis)).
Proof.
  intros Hs Hg. destruct (comp_edges_size per axis Hg) as (E1 & E2 & _). set (G := comp_edges g per axis) in *.
  pose proof (matrix_shape Hs E2) as Hm. rewrite E1 in Hm. set (m := rendering_matrix s G) in *.
  transitivity ((if isc then 2 else 1) * (sumn (size3 s) (fun c => qn acc c * qn v c) +
    (fst contrast * sumn (size3 s) (fun c => mat_col m c (fun r => fst (cn gk r)) * qn v c)
     + - snd contrast * sumn (size3 s) (fun c => mat_col m c (fun r => snd (cn gk r)) * qn v c)))).
  - rewrite <- !sumn_scale, <- !sumn_plus, <- sumn_scale. apply sumn_ext. intros c Hc. unfold grad_axis. fold G. fold m.
    rewrite map_seq_nth by assumption. destruct isc; ring.
  - apply Qmult_comp; [reflexivity|]. apply Qplus_comp; [reflexivity|].
    rewrite (adjoint_pf (fun r => fst (cn gk r)) v Hm), (adjoint_pf (fun r => snd (cn gk r)) v Hm).
    rewrite <- !sumn_scale, <- sumn_plus. unfold pairing. apply sumn_ext. intros r Hr. unfold eval_component. fold G. fold m.
    rewrite cn_map by assumption. cbn [fst snd]. ring.
Qed.
Lemma render_grad_pf contrast s g per grids (isc : bool) v : valid_edges s -> valid_grid g ->
  let W := if isc then 2 else 1 in
  let part axis := pairing (size3 g) (grids axis) (eval_component contrast s g per v axis) in
  sumn (size3 s) (fun c => qn (render_grad contrast s g per grids isc) c * qn v c)
  == W * W * W * part 0%nat + W * W * part 1%nat + W * part 2%nat.
Proof.
  intros Hs Hg W part. unfold render_grad. rewrite !grad_axis_pf by assumption. fold W. fold (part 0%nat) (part 1%nat) (part 2%nat).
  rewrite (@sumn_zero _ (fun c => qn (repeat 0 (size3 s)) c * qn v c)); [ring|].
  intros i Hi. unfold qn at 1. rewrite nth_repeat. ring.
Qed.
Lemma render_grad_real_pf contrast s g per grids v : valid_edges s -> valid_grid g ->
  let part axis := pairing (size3 g) (grids axis) (eval_component contrast s g per v axis) in
  sumn (size3 s) (fun c => qn (render_grad contrast s g per grids false) c * qn v c) == part 0%nat + part 1%nat + part 2%nat.
Proof. intros Hs Hg part. rewrite render_grad_pf by assumption. fold (part 0%nat) (part 1%nat) (part 2%nat). ring. Qed.
Lemma render_grad_complex_pf contrast s g per grids v : valid_edges s -> valid_grid g ->
  let part axis := pairing (size3 g) (grids axis) (eval_component contrast s g per v axis) in
  sumn (size3 s) (fun c => qn (render_grad contrast s g per grids true) c * qn v c)
  == 8 * part 0%nat + 4 * part 1%nat + 2 * part 2%nat.
Proof. intros Hs Hg part. rewrite render_grad_pf by assumption. fold (part 0%nat) (part 1%nat) (part 2%nat). ring. Qed.
