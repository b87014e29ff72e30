(** Overlaps imported from a file: what is sampled, where, and when the file is rejected. *)
From Verif Require Import QTac Grid_Model Grid_Proofs Slice_Proofs2 Imp_Model Imp_Spec Imp_Proofs Imp_Proofs2 Imp_Proofs3.
Set Implicit Arguments.
Open Scope Q_scope.

(** *** C147: the data between the points of the file *)

(** The result has one value per component and cell.  It is zero where the file has no data, and
    in every cell of the file it is the function affine in each coordinate which has the values
    of the file at the corners. *)
Theorem import_interpolates g center m rows field : complete m rows field -> proper_grid g -> consistent rows field ->
  exists E, import_overlap g center m = Ok E /\ length E = 3%nat /\
    (forall i, (i < 3)%nat -> length (nth i E []) = (length (g_edges g 0) - 1)%nat /\
      forall a, (a < length (g_edges g 0) - 1)%nat -> length (nth a (nth i E []) []) = (length (g_edges g 1) - 1)%nat /\
      forall b, (b < length (g_edges g 1) - 1)%nat -> length (nth b (nth a (nth i E []) []) []) = (length (g_edges g 2) - 1)%nat) /\
    forall i p, (i < 3)%nat -> in_grid g p ->
      let l a := placed (rows a) (center a) in
      let w a := first_width (g_edges g a) in
      let x a := position (g_edges g a) (g_shift g i a) (p a) in
      ((exists a, (a < 3)%nat /\ outside (l a) (w a) (x a)) -> entry E i p = (0, 0)) /\
      ((forall a, (a < 3)%nat -> ~ outside (l a) (w a) (x a)) ->
         exists (ci cj : nat -> nat) (lo hi : nat -> Q), forall a, (a < 3)%nat -> cell (l a) (w a) (ci a) (cj a) (lo a) (hi a) /\ lo a <= x a <= hi a) /\
      (forall (ci cj : nat -> nat) (lo hi : nat -> Q) (fr fi : Q -> Q -> Q -> Q),
         (forall a, (a < 3)%nat -> cell (l a) (w a) (ci a) (cj a) (lo a) (hi a) /\ lo a <= x a <= hi a) ->
         multi_affine fr -> multi_affine fi ->
         (forall b0 b1 b2 : bool, ceq (el (field i) [if b0 then cj 0%nat else ci 0%nat; if b1 then cj 1%nat else ci 1%nat; if b2 then cj 2%nat else ci 2%nat])
            (fr (if b0 then hi 0%nat else lo 0%nat) (if b1 then hi 1%nat else lo 1%nat) (if b2 then hi 2%nat else lo 2%nat),
             fi (if b0 then hi 0%nat else lo 0%nat) (if b1 then hi 1%nat else lo 1%nat) (if b2 then hi 2%nat else lo 2%nat))) ->
         ceq (entry E i p) (fr (x 0%nat) (x 1%nat) (x 2%nat), fi (x 0%nat) (x 1%nat) (x 2%nat))).
Proof.
  intros Co Gr Cs. destruct (@import_spec g center m rows field Co Gr) as [[_ HE]|[N _]]; [|contradiction].
  eexists. split; [exact HE|]. split; [reflexivity|]. split.
  - intros i Hi.
    assert (En : nth i [comp_values g center rows field 0; comp_values g center rows field 1; comp_values g center rows field 2] [] = comp_values g center rows field i).
    { assert (X : i = 0%nat \/ i = 1%nat \/ i = 2%nat) by lia. destruct X as [X|[X|X]]; subst i; reflexivity. }
    rewrite En. unfold comp_values. split; [rewrite map_length; apply sample_length|]. intros a Ha.
    assert (M : forall A B (f : A -> B) (s : list A) (k : nat) (da : A) (db : B), (k < length s)%nat -> nth k (map f s) db = f (nth k s da)).
    { intros A B f s k da db Hk. rewrite (nth_indep _ db (f da)) by (rewrite map_length; exact Hk). apply map_nth. }
    rewrite (M _ _ _ _ _ 0) by (rewrite sample_length; exact Ha). split; [rewrite map_length; apply sample_length|]. intros b Hb.
    rewrite (M _ _ _ _ _ 0) by (rewrite sample_length; exact Hb). rewrite map_length. apply sample_length.
  - intros i p Hi Hp. cbn zeta. split; [|split].
    + intros (a & Ha & Ho). exact (@entry_outside g center m rows field Co Gr Cs _ HE i p a Hi Hp Ha Ho).
    + intros Hin. destruct (@inside_cells g center m rows field Co Cs i p Hi Hin) as (ci & cj & lo & hi & K). exists ci, cj, lo, hi. intros a Ha. destruct (K a Ha) as (A & B & _). auto.
    + intros ci cj lo hi fr fi. exact (@entry_affine g center m rows field Co Gr Cs _ HE i p ci cj lo hi fr fi Hi Hp).
Qed.

(** no value is larger or smaller than those of the file *)
Theorem import_bounded g center m rows field E i p lo hi : complete m rows field -> proper_grid g -> import_overlap g center m = Ok E ->
  (i < 3)%nat -> in_grid g p -> lo <= 0 <= hi ->
  (forall a b c, (a < length (nth 0 (rows 0%nat) []))%nat -> (b < length (nth 0 (rows 1%nat) []))%nat -> (c < length (nth 0 (rows 2%nat) []))%nat ->
     lo <= fst (el (field i) [a; b; c]) <= hi /\ lo <= snd (el (field i) [a; b; c]) <= hi) ->
  lo <= fst (entry E i p) <= hi /\ lo <= snd (entry E i p) <= hi.
Proof.
  intros Co Gr HE Hi Hp Z Hd. destruct (@import_spec g center m rows field Co Gr) as [[Cs _]|[_ X]]; [|congruence].
  apply (@entry_bounded g center m rows field Co Gr Cs E HE i p lo hi Hi Hp Z). intros a b c Ha Hb Hc. rewrite placed_length in *. auto.
Qed.

(** a file is accepted exactly if its coordinates increase and its fields have their shape *)
Theorem import_accepts g center m rows field : complete m rows field -> proper_grid g ->
  ((exists E, import_overlap g center m = Ok E) <-> consistent rows field) /\
  (~ consistent rows field -> import_overlap g center m = Err ValueError).
Proof.
  intros Co Gr. destruct (@import_spec g center m rows field Co Gr) as [[Cs HE]|[N HE]].
  - split; [|contradiction]. split; [auto|]. intros _. eauto.
  - split; [|auto]. split; [intros [E H]; congruence|contradiction].
Qed.
(** in particular a field without the last axis, as written by programs which drop axes of length
    one, is rejected although the coordinates say that this axis has one point *)
Theorem import_flat_rejected g center m rows field : complete m rows field -> proper_grid g ->
  (exists i, (i < 3)%nat /\ (length (sh (field i)) < 3)%nat) -> import_overlap g center m = Err ValueError.
Proof.
  intros Co Gr (i & Hi & L). apply (@import_accepts g center m rows field Co Gr). intros Cs. destruct (Cs i Hi) as [_ S]. rewrite S in L. cbn in L. lia.
Qed.

(** *** C148: files with one point along an axis *)

(** on a grid of equal cells at most the plane nearest to the point receives data *)
Theorem import_one_plane g center m rows field E a i p k : complete m rows field -> proper_grid g -> import_overlap g center m = Ok E ->
  (a < 3)%nat -> (i < 3)%nat -> length (nth 0 (rows a) []) = 1%nat -> uniform (g_edges g a) ->
  (S k < length (g_edges g a))%nat ->
  let c := qn (nth 0 (rows a) []) 0 + center a in
  let x := position (g_edges g a) (g_shift g i a) in
  c - first_width (g_edges g a) / 2 < x k -> x k < c + first_width (g_edges g a) / 2 ->
  in_grid g p -> p a <> k -> entry E i p = (0, 0).
Proof.
  intros Co Gr HE Ha Hi L1 U Hk c x X1 X2 Hp Nk. destruct (@import_spec g center m rows field Co Gr) as [[Cs _]|[_ X]]; [|congruence].
  apply (@entry_outside g center m rows field Co Gr Cs E HE i p a Hi Hp Ha).
  unfold outside. rewrite placed_length, L1. cbn [Nat.eqb].
  assert (Ec : qn (placed (rows a) (center a)) 0 == c).
  { unfold placed, c, qn. rewrite (nth_indep _ 0 (0 + center a)) by (rewrite map_length; lia). rewrite (map_nth (fun q => q + center a)). reflexivity. }
  destruct (Gr a Ha) as [Inc Le]. assert (Pa := Hp a Ha).
  assert (D := @uniform_positions (g_edges g a) (g_shift g i a) k (p a) U ltac:(lia) ltac:(lia)). fold x in D. fold (x (p a)).
  assert (W : 0 < first_width (g_edges g a)) by (unfold first_width; assert (Y := Inc 0%nat 1%nat ltac:(lia)); Lqa.lra).
  assert (H2 := halve (first_width (g_edges g a))).
  destruct (Nat.lt_ge_cases (p a) k) as [Lt|Ge].
  - left. assert (Z : inject_Z (Z.of_nat (p a)) - inject_Z (Z.of_nat k) <= - (1)).
    { assert (Y : (Z.of_nat (p a) + 1 <= Z.of_nat k)%Z) by lia. rewrite Zle_Qle, inject_Z_plus in Y. change (inject_Z 1) with 1 in Y. Lqa.lra. }
    assert (M : 0 <= (- (1) - (inject_Z (Z.of_nat (p a)) - inject_Z (Z.of_nat k))) * first_width (g_edges g a)) by (apply Qmult_le_0_compat; Lqa.lra). Lqa.lra.
  - right. assert (Z : 1 <= inject_Z (Z.of_nat (p a)) - inject_Z (Z.of_nat k)).
    { assert (Y : (Z.of_nat k + 1 <= Z.of_nat (p a))%Z) by lia. rewrite Zle_Qle, inject_Z_plus in Y. change (inject_Z 1) with 1 in Y. Lqa.lra. }
    assert (M : 0 <= (inject_Z (Z.of_nat (p a)) - inject_Z (Z.of_nat k) - 1) * first_width (g_edges g a)) by (apply Qmult_le_0_compat; Lqa.lra). Lqa.lra.
Qed.
(** if the point is halfway between two planes both receive the whole data *)
Theorem import_two_planes g center m rows field E a i p q k : complete m rows field -> proper_grid g -> import_overlap g center m = Ok E ->
  (a < 3)%nat -> (i < 3)%nat -> length (nth 0 (rows a) []) = 1%nat -> uniform (g_edges g a) ->
  (S (S k) < length (g_edges g a))%nat ->
  position (g_edges g a) (g_shift g i a) k + first_width (g_edges g a) / 2 == qn (nth 0 (rows a) []) 0 + center a ->
  in_grid g p -> in_grid g q -> (forall b, b <> a -> p b = q b) -> p a = k -> q a = S k ->
  ceq (entry E i p) (entry E i q).
Proof.
  intros Co Gr HE Ha Hi L1 U Hk X Hp Hq Epq Ep Eq. destruct (@import_spec g center m rows field Co Gr) as [[Cs _]|[_ Y]]; [|congruence].
  assert (Ec : qn (placed (rows a) (center a)) 0 == qn (nth 0 (rows a) []) 0 + center a).
  { unfold placed, qn. rewrite (nth_indep _ 0 (0 + center a)) by (rewrite map_length; lia). rewrite (map_nth (fun q => q + center a)). reflexivity. }
  destruct (Gr a Ha) as [Inc Le].
  assert (D := @uniform_positions (g_edges g a) (g_shift g i a) k (S k) U ltac:(lia) ltac:(lia)).
  assert (Z : inject_Z (Z.of_nat (S k)) - inject_Z (Z.of_nat k) == 1) by (rewrite Nat2Z.inj_succ; unfold Z.succ; rewrite inject_Z_plus; change (inject_Z 1) with 1; ring).
  rewrite Z in D. assert (H2 := halve (first_width (g_edges g a))).
  assert (W : 0 < first_width (g_edges g a)) by (unfold first_width; assert (Y := Inc 0%nat 1%nat ltac:(lia)); Lqa.lra).
  apply (@entry_same_plane g center m rows field Co Gr Cs E HE i p q a Hi Hp Hq Ha); [rewrite placed_length; exact L1|exact Epq| |].
  - unfold outside. rewrite placed_length, L1. cbn [Nat.eqb]. rewrite Ep. intros [H|H]; Lqa.lra.
  - unfold outside. rewrite placed_length, L1. cbn [Nat.eqb]. rewrite Eq. intros [H|H]; Lqa.lra.
Qed.

(** *** C149: the positions at which the file is read *)

(** They are those which the grid reports for the component exactly where the component is not
    shifted or the next cell is as wide; the cell after the last is a copy of the first in a
    periodic grid, else of the last. *)
Theorem import_positions g per i a k : proper_grid g -> (a < 3)%nat -> (S k < length (g_edges g a))%nat ->
  let e := g_edges g a in
  (qn (sample_axis g i a) k == qn (shifted_centers e per (g_shift g i a)) k <->
   g_shift g i a == 0 \/
   (if Nat.eqb (S (S k)) (length e) then (if per then qn e 1 - qn e 0 == qn e (S k) - qn e k else True)
    else qn e (S (S k)) - qn e (S k) == qn e (S k) - qn e k)).
Proof.
  intros Gr Ha Hk e. destruct (Gr a Ha) as [Inc Le]. fold e in Inc, Le, Hk.
  rewrite sample_position by (fold e; lia). fold e. unfold position, shifted_centers. rewrite qn_map_seq by lia.
  unfold shifted_edges, shifted_sizes. cbn [andb]. rewrite !qn_map_seq by lia.
  set (s := g_shift g i a).
  assert (D0 : qn (dxyz_with_ghost e per) k == qn e (S k) - qn e k).
  { unfold dxyz_with_ghost, qn at 1. rewrite app_nth1 by (unfold dxyz; rewrite map_length, seq_length; lia). fold (qn (dxyz e) k). apply dxyz_at. lia. }
  assert (D1 : qn (dxyz_with_ghost e per) (S k) == (if Nat.eqb (S (S k)) (length e) then (if per then qn e 1 - qn e 0 else qn e (S k) - qn e k) else qn e (S (S k)) - qn e (S k))).
  { unfold dxyz_with_ghost, qn at 1. assert (Ld : length (dxyz e) = (length e - 1)%nat) by (unfold dxyz; rewrite map_length, seq_length; lia).
    destruct (Nat.eqb_spec (S (S k)) (length e)) as [E|N].
    - rewrite app_nth2 by lia. rewrite Ld. replace (S k - (length e - 1))%nat with 0%nat by lia. cbn [nth]. unfold ghost_size. destruct per; [apply dxyz_at; lia|].
      unfold qlast. rewrite Ld. replace (length e - 1 - 1)%nat with k by lia. apply dxyz_at. lia.
    - rewrite app_nth1 by lia. fold (qn (dxyz e) (S k)). apply dxyz_at. lia. }
  rewrite D0, D1. set (d0 := qn e (S k) - qn e k). set (d1 := if Nat.eqb (S (S k)) (length e) then _ else _).
  assert (Key : forall d1 : Q, (qn e k + qn e (S k)) / 2 + s * d0 == qn e k + d0 * s + (d0 * (1 - s) + d1 * s) / 2 <-> s == 0 \/ d1 == d0).
  { intros d. setoid_replace ((qn e k + qn e (S k)) / 2) with (qn e k + d0 / 2) by (unfold d0; field).
    assert (Q0 : qn e k + d0 / 2 + s * d0 - (qn e k + d0 * s + (d0 * (1 - s) + d * s) / 2) == - (1 # 2) * (s * (d - d0))) by field.
    split.
    - intros H. assert (Z : s * (d - d0) == 0) by Lqa.lra. apply Qmult_integral in Z. destruct Z; [auto|right; Lqa.lra].
    - intros H. assert (Z : s * (d - d0) == 0) by (destruct H as [H|H]; rewrite H; ring). Lqa.lra. }
  rewrite Key. unfold d1. destruct (Nat.eqb (S (S k)) (length e)); [destruct per|]; split; intros [H|H]; auto; right; try reflexivity; exact H.
Qed.

(** *** Examples and refutations *)
(** a grid of unit cells, four along z; Ex, Ey and Ez shifted by half a cell along their axes *)
Definition yee (i a : nat) : Q := if Nat.eqb i a then 1 # 2 else 0.
Definition grid_ex (ez : list Q) : grid3 := Grid3 (fun a => match a with 2%nat => ez | _ => [0; 1; 2; 3] end) yee.
Definition ez4 : list Q := [0; 1; 2; 3; 4].
(** a file with the field x + 2 i y at the points (-2, 2) x (-2, 2), one point along z *)
Definition xy : list Q := [- (2); 2].
Definition field_ex : nd := Nd [2; 2; 1]%nat (fun i => (qn xy (nth 0 i 0%nat), 2 * qn xy (nth 1 i 0%nat))).
Definition file_ex : mat := Mat (fun a => match a with 0%nat => Some [xy] | 1%nat => Some [xy] | 2%nat => Some [[0]] | _ => None end) (fun _ => Some field_ex).
Definition rows_ex (a : nat) : list (list Q) := match a with 2%nat => [[0]] | _ => [xy] end.
(** centred in the grid at z = 3 / 2 (a plane of Ex) or z = 2 (between two planes) *)
Definition at_z (z : Q) (a : nat) : Q := match a with 2%nat => z | _ => 1 end.

Lemma file_ex_complete : complete file_ex rows_ex (fun _ => field_ex).
Proof. intros a Ha. assert (X : a = 0%nat \/ a = 1%nat \/ a = 2%nat) by lia. destruct X as [X|[X|X]]; subst a; repeat split; try discriminate; cbn; lia. Qed.
Lemma file_ex_consistent : consistent rows_ex (fun _ => field_ex).
Proof. intros a Ha. assert (X : a = 0%nat \/ a = 1%nat \/ a = 2%nat) by lia. destruct X as [X|[X|X]]; subst a; (split; [apply ascending_increasing; reflexivity|reflexivity]). Qed.
Lemma grid_ex_proper ez : ascending ez = true -> (2 <= length ez)%nat -> proper_grid (grid_ex ez).
Proof. intros A L a Ha. assert (X : a = 0%nat \/ a = 1%nat \/ a = 2%nat) by lia. destruct X as [X|[X|X]]; subst a; (split; [apply ascending_increasing; assumption || reflexivity|]); cbn; lia. Qed.
Lemma ez4_uniform : uniform ez4.
Proof. intros k Hk. cbn in Hk. do 4 (destruct k as [|k]; [reflexivity|]). lia. Qed.

(** Ex is read half a cell to the right of the cell's centre: x = 1 in the first cell, y = 1/2 *)
Example import_ex : exists E, import_overlap (grid_ex ez4) (at_z (3 # 2)) file_ex = Ok E /\
  ceq (entry E 0 (fun a => match a with 2%nat => 1%nat | _ => 0%nat end)) (0, - (1)) /\
  ceq (entry E 1 (fun a => match a with 2%nat => 1%nat | _ => 0%nat end)) (- (1 # 2), 0) /\
  entry E 0 (fun a => match a with 2%nat => 2%nat | _ => 0%nat end) = (0, 0).
Proof.
  destruct (import_overlap (grid_ex ez4) (at_z (3 # 2)) file_ex) as [E|e] eqn:HE; [|vm_compute in HE; discriminate].
  exists E. split; [reflexivity|]. vm_compute in HE. injection HE as <-. repeat split; vm_compute; reflexivity.
Qed.
(** the claim that one plane receives the data is false halfway between two planes *)
Theorem import_one_plane_refuted : exists g center m rows field E,
  complete m rows field /\ proper_grid g /\ consistent rows field /\ uniform (g_edges g 2%nat) /\ length (nth 0 (rows 2%nat) []) = 1%nat /\ import_overlap g center m = Ok E /\
  ceq (entry E 0 (fun a => match a with 2%nat => 1%nat | _ => 0%nat end)) (0, - (1)) /\
  ceq (entry E 0 (fun a => match a with 2%nat => 2%nat | _ => 0%nat end)) (0, - (1)).
Proof.
  exists (grid_ex ez4), (at_z 2), file_ex, rows_ex, (fun _ => field_ex).
  destruct (import_overlap (grid_ex ez4) (at_z 2) file_ex) as [E|e] eqn:HE; [|vm_compute in HE; discriminate].
  exists E. split; [exact file_ex_complete|]. split; [apply grid_ex_proper; [reflexivity|cbn; lia]|]. split; [exact file_ex_consistent|]. split; [exact ez4_uniform|]. split; [reflexivity|]. split; [reflexivity|].
  vm_compute in HE. injection HE as <-. repeat split; vm_compute; reflexivity.
Qed.
(** and no plane receives data if the first cell of the grid is smaller than those around the point *)
Theorem import_some_plane_refuted : exists g center m rows field E,
  complete m rows field /\ proper_grid g /\ consistent rows field /\ length (nth 0 (rows 2%nat) []) = 1%nat /\
  qn (g_edges g 2%nat) 0 < qn (nth 0 (rows 2%nat) []) 0 + center 2%nat /\ qn (nth 0 (rows 2%nat) []) 0 + center 2%nat < qlast (g_edges g 2%nat) /\
  import_overlap g center m = Ok E /\ forall i p, (i < 3)%nat -> in_grid g p -> entry E i p = (0, 0).
Proof.
  set (ez := [0; 1 # 4; 2; 4]). exists (grid_ex ez), (at_z (3 # 2)), file_ex, rows_ex, (fun _ => field_ex).
  destruct (import_overlap (grid_ex ez) (at_z (3 # 2)) file_ex) as [E|e] eqn:HE; [|vm_compute in HE; discriminate].
  assert (Gr : proper_grid (grid_ex ez)) by (apply grid_ex_proper; [reflexivity|cbn; lia]).
  exists E. split; [exact file_ex_complete|]. split; [exact Gr|]. split; [exact file_ex_consistent|]. split; [reflexivity|]. split; [reflexivity|]. split; [reflexivity|]. split; [reflexivity|].
  intros i p Hi Hp. apply (@entry_outside _ _ _ _ _ file_ex_complete Gr file_ex_consistent E HE i p 2 Hi Hp ltac:(lia)).
  assert (P2 := Hp 2%nat ltac:(lia)). cbn in P2. unfold outside. cbn [rows_ex placed length map nth Nat.eqb].
  assert (X : i = 0%nat \/ i = 1%nat \/ i = 2%nat) by lia. assert (Y : p 2%nat = 0%nat \/ p 2%nat = 1%nat \/ p 2%nat = 2%nat) by lia.
  destruct X as [X|[X|X]]; subst i; destruct Y as [Y|[Y|Y]]; rewrite Y; first [left; vm_compute; reflexivity | right; vm_compute; reflexivity].
Qed.
(** a shifted component next to a wider cell is read at another position than the grid reports *)
Theorem import_positions_refuted : exists g per i a k, proper_grid g /\ (a < 3)%nat /\ (S k < length (g_edges g a))%nat /\
  ~ qn (sample_axis g i a) k == qn (shifted_centers (g_edges g a) per (g_shift g i a)) k.
Proof.
  exists (grid_ex [0; 1 # 4; 2; 4]), false, 2%nat, 2%nat, 0%nat. split; [apply grid_ex_proper; [reflexivity|cbn; lia]|]. split; [lia|]. split; [cbn; lia|]. vm_compute. discriminate.
Qed.
(** the file of the example without its last axis *)
Example import_flat_ex : import_overlap (grid_ex ez4) (at_z 2) (Mat (m_coord file_ex) (fun _ => Some (Nd [2; 2]%nat (el field_ex)))) = Err ValueError.
Proof. reflexivity. Qed.
Example import_two_planes_ex : position (g_edges (grid_ex ez4) 2) (g_shift (grid_ex ez4) 0 2) 1 + first_width (g_edges (grid_ex ez4) 2) / 2 == qn (nth 0 (rows_ex 2) []) 0 + at_z 2 2.
Proof. reflexivity. Qed.

Print Assumptions import_interpolates.
Print Assumptions import_bounded.
Print Assumptions import_accepts.
Print Assumptions import_flat_rejected.
Print Assumptions import_one_plane.
Print Assumptions import_two_planes.
Print Assumptions import_positions.
Print Assumptions import_one_plane_refuted.
Print Assumptions import_some_plane_refuted.
Print Assumptions import_positions_refuted.
