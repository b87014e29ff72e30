(** C37, C67, C68, C69: absorbing layers and grid spacings. *)
From Verif Require Import Base QTac Pml_Model Pml_Spec Pml_Proofs Pml_Proofs2 Pml_Proofs3.
From Coq Require Import ZArith.
Set Implicit Arguments.

(** C37.  On cells of positive real width whose layers do not overlap, every cell keeps its
    real width and gains the imaginary part [width * absorption], where the absorption is
    taken at the cell centre for the first grid and at the lower cell edge for the second;
    cells outside the layers have absorption 0. *)
Theorem scpml_cell_widths : forall (omega : Q) (l : list Z) (r y : nat -> list Q) (d : spacing), ~ omega == 0 ->
  (forall k, (k < 3)%nat -> d 0%nat k = map creal (r k) /\ d 1%nat k = map creal (y k) /\ length (y k) = length (r k) /\
     all_positive (r k) /\ (nlayers l k true + nlayers l k false <= length (r k))%nat) ->
  exists d', apply_scpml d (LSeq l) omega = Ok d' /\
    forall k, (k < 3)%nat ->
      length (d' 0%nat k) = length (r k) /\ length (d' 1%nat k) = length (r k) /\
      forall i, (i < length (r k))%nat ->
        ceq (cn (d' 0%nat k) i) (qn (r k) i, qn (r k) i * absorption omega (r k) (nlayers l k true) (nlayers l k false) i (centre (r k) i)) /\
        ceq (cn (d' 1%nat k) i) (qn (y k) i, qn (y k) i * absorption omega (r k) (nlayers l k true) (nlayers l k false) i (edge (r k) i)).
Proof. exact scpml_lemma. Qed.
Print Assumptions scpml_cell_widths.
Definition ex_d : spacing := fun g k => match k with O => map creal [1; 2; 1; 3] | S O => map creal [2; 2] | _ => map creal [5] end.
Definition ex_l : list Z := [2; 1; 0; 1]%Z.
Definition out_of (r : res spacing) (g k i : nat) : cq := match r with Ok d => cn (d g k) i | Err _ => (0, 0) end.
Example scpml_ex_hyp : forall k, (k < 3)%nat -> all_positive (nth k [[1; 2; 1; 3]; [2; 2]; [5]] []) /\
  (nlayers ex_l k true + nlayers ex_l k false <= length (nth k [[1; 2; 1; 3]; [2; 2]; [5]] []))%nat.
Proof.
  intros k Hk. destruct k as [|[|[|k]]]; [| | |lia]; (split; [|cbn; lia]); intros i Hi; cbn in Hi;
    repeat (destruct i as [|i]; [reflexivity|]); lia.
Qed.
(** the first cell (width 1, layer [0, 3]): depth (3 - 1/2) / 3 = 5/6 *)
Definition ceqb (z w : cq) : bool := Qeq_bool (cre z) (cre w) && Qeq_bool (cim z) (cim w).
Example scpml_ex : ceqb (out_of (apply_scpml ex_d (LSeq ex_l) 2) 0 0 0) (1, -40 * (625 # 1296) / 3 / 2) = true /\
  ceqb (out_of (apply_scpml ex_d (LSeq ex_l) 2) 0 0 2) (1, 0) = true /\ ceqb (out_of (apply_scpml ex_d (LSeq ex_l) 2) 0 0 3) (3, 0) = false.
Proof. vm_compute. auto. Qed.

(** the absorption never amplifies (omega > 0), and grows towards the boundary *)
Theorem scpml_absorption_sign : forall omega r p q i x, 0 < omega -> all_positive r -> (p + q <= length r)%nat -> (i < length r)%nat ->
  absorption omega r p q i x <= 0.
Proof. exact absorption_sign. Qed.
Print Assumptions scpml_absorption_sign.
Theorem scpml_absorption_front : forall omega r p q i j, 0 < omega -> all_positive r -> (p + q <= length r)%nat -> (i < j < p)%nat ->
  absorption omega r p q i (centre r i) < absorption omega r p q j (centre r j) /\
  absorption omega r p q i (edge r i) < absorption omega r p q j (edge r j).
Proof. exact absorption_front. Qed.
Print Assumptions scpml_absorption_front.
Theorem scpml_absorption_back : forall omega r p q i j, 0 < omega -> all_positive r -> (p + q <= length r)%nat ->
  (length r - q <= j)%nat -> (j < i < length r)%nat ->
  absorption omega r p q i (centre r i) < absorption omega r p q j (centre r j) /\
  absorption omega r p q i (edge r i) < absorption omega r p q j (edge r j).
Proof. exact absorption_back. Qed.
Print Assumptions scpml_absorption_back.
Example absorption_ex : absorption 1 [1; 1; 1; 1] 2 2 0 (centre [1; 1; 1; 1] 0) == -20 * (81 # 256) /\
  absorption 1 [1; 1; 1; 1] 2 2 1 (centre [1; 1; 1; 1] 1) == -20 * (1 # 256).
Proof. split; vm_compute; reflexivity. Qed.

(** apply_scpml works exactly when no layer is thicker than its axis, and its only error is
    IndexError; a short list of layers leaves the remaining sides alone ([nlayers] reads 0) *)
Theorem scpml_defined : forall omega l (d : spacing),
  (exists d', apply_scpml d (LSeq l) omega = Ok d') <->
  (forall k front, (k < 3)%nat -> (nlayers l k front <= length (d 0%nat k))%nat).
Proof. exact apply_defined. Qed.
Print Assumptions scpml_defined.
Theorem scpml_error : forall omega p d e, apply_scpml d p omega = Err e -> e = IndexError.
Proof. exact apply_error. Qed.
Print Assumptions scpml_error.
Theorem scpml_integer_layers : forall omega k d, apply_scpml d (LInt k) omega = apply_scpml d (LSeq (repeat k 6)) omega.
Proof. exact apply_int. Qed.
Print Assumptions scpml_integer_layers.
Example scpml_err_ex : apply_scpml ex_d (LInt 2) 1 = Err IndexError.
Proof. reflexivity. Qed.

(** apply_scpml copies: the lists and arrays of the caller keep their contents, whatever
    sharing there is between them, and nothing of the result is shared with them *)
Theorem scpml_leaves_input_alone : forall h d (D : spacing) p omega, contents h d D ->
  match apply_scpml D p omega with
  | Ok D' => exists h' d', happly h d p omega = Ok (h', d') /\ contents h' d' D' /\ unchanged h h' /\ fresh_arrays h h' d'
  | Err e => happly h d p omega = Err e
  end.
Proof. exact happly_lemma. Qed.
Print Assumptions scpml_leaves_input_alone.
(** all six arrays are the same object here *)
Definition ex_h : heap := Heap [map creal [1; 1; 1]] [[0; 0; 0]; [0; 0; 0]]%nat.
Example leaves_ex : contents ex_h (0, 1)%nat (fun _ _ => map creal [1; 1; 1]) /\
  exists h' d', happly ex_h (0, 1)%nat (LInt 1) 1 = Ok (h', d') /\ (length (arrs h') = 19)%nat.
Proof.
  split.
  - intros k Hk. destruct k as [|[|[|k]]]; [| | |lia]; split; reflexivity.
  - eexists _, _. split; [reflexivity|]. vm_compute. reflexivity.
Qed.
(** stretch_with_scpml, in contrast, replaces arrays in the lists of the caller *)
Theorem stretch_leaves_input_refuted : exists h d h', hstretch s_default 1 h d 0 true 1 = Ok h' /\ ~ unchanged h h'.
Proof.
  exists ex_h, (0, 1)%nat. eexists. split; [reflexivity|]. intros [_ H]. specialize (H 0%nat ltac:(cbn; lia)). vm_compute in H. discriminate.
Qed.
Print Assumptions stretch_leaves_input_refuted.
(** overlapping layers (here two cells, both of them in the back layer, one in the front layer) change the real width *)
Theorem scpml_overlap_refuted : exists d : spacing, d 0%nat 0%nat = map creal [1; 1] /\ d 1%nat 0%nat = map creal [1; 1] /\
  exists d', apply_scpml d (LSeq [1; 2]%Z) 1 = Ok d' /\ ~ cre (cn (d' 0%nat 0%nat) 0) == 1.
Proof.
  exists (fun _ _ => map creal [1; 1]). split; [reflexivity|]. split; [reflexivity|]. eexists. split; [vm_compute; reflexivity|]. vm_compute. discriminate.
Qed.
Print Assumptions scpml_overlap_refuted.

(** C67.  uniform_grid_scpml: unit real widths; the two grids carry the absorption that
    apply_scpml gives the other grid, multiplied by the thickness of the layer *)
Theorem uniform_grid_cells : forall omega n t i, ~ omega == 0 -> (0 < t)%nat -> (2 * t <= n)%nat -> (i < n)%nat ->
  let ab := uniform_axis s_default omega n (Z.of_nat t) in
  length (fst ab) = n /\ length (snd ab) = n /\
  ceq (cn (fst ab) i) (1, inject_Z (Z.of_nat t) * absorption omega (repeat 1 n) t t i (edge (repeat 1 n) i)) /\
  ceq (cn (snd ab) i) (1, inject_Z (Z.of_nat t) * absorption omega (repeat 1 n) t t i (centre (repeat 1 n) i)).
Proof. exact uniform_lemma. Qed.
Print Assumptions uniform_grid_cells.
Example uniform_ex : ceqb (cn (fst (uniform_axis s_default 1 6 2)) 1) (1, -40 * (1 # 16)) = true /\ ceqb (cn (fst (uniform_axis s_default 1 6 2)) 3) (1, 0) = true.
Proof. vm_compute. auto. Qed.
(** so the two ways of building the same grid disagree *)
Theorem uniform_equals_stretched_refuted : exists n t d', apply_scpml (fun _ _ => map creal (repeat 1 n)) (LInt (Z.of_nat t)) 1 = Ok d' /\
  (2 * t <= n)%nat /\ ~ ceq (cn (fst (uniform_axis s_default 1 n (Z.of_nat t))) 0) (cn (d' 0%nat 0%nat) 0).
Proof.
  exists 4%nat, 2%nat. eexists. split; [vm_compute; reflexivity|]. split; [lia|]. intros [_ H]. vm_compute in H. discriminate.
Qed.
Print Assumptions uniform_equals_stretched_refuted.

(** C68.  generate_periodic_dx: n points give n - 1 cells in both grids, the second grid
    averages neighbouring cells cyclically, and both grids have the same total length *)
Theorem periodic_dx : forall p, (2 <= length p)%nat -> exists a b, periodic_axis p = Ok (Some (a, b)) /\
  length a = (length p - 1)%nat /\ length b = (length p - 1)%nat /\
  (forall i, (i < length p - 1)%nat -> qn a i == qn p (S i) - qn p i /\
     qn b i == (qn a i + qn a (Nat.modulo (S i) (length p - 1))) / 2) /\
  sumn (length p - 1) (qn a) == qn p (length p - 1) - qn p 0 /\ sumn (length p - 1) (qn b) == qn p (length p - 1) - qn p 0.
Proof. exact periodic_lemma. Qed.
Print Assumptions periodic_dx.
Example periodic_ex : match periodic_axis [0; 1; 3; 7] with
  | Ok (Some (a, b)) => map Qred a = [1; 2; 4] /\ map Qred b = [3 # 2; 3; 5 # 2] | _ => False end.
Proof. vm_compute. auto. Qed.

(** C69.  make_nonuniform_grid terminates without IndexError on an axis with 0 < hi and
    positive mesh sizes; the points increase and end at hi; they are the raw points
    (starting at lo, ending at m, hi <= m < hi + dflt) scaled by hi / m, so no cell exceeds
    the default mesh size nor that of a box that contains its look-up point *)
Theorem nonuniform_grid : forall lo hi dflt grad step boxes,
  lo < hi -> 0 < hi -> 0 < dflt -> 0 <= grad -> 0 < step -> (forall b, In b boxes -> 0 < b_mesh b) ->
  exists fuel xs raw m, (forall fuel', (fuel <= fuel')%nat -> make_axis fuel' lo hi dflt grad step boxes = Ok xs) /\
    increasing xs /\ (2 <= length xs)%nat /\ qn xs (length xs - 1) == hi /\
    hi <= m /\ m < hi + dflt /\ qn xs 0 == lo * hi / m /\
    length raw = length xs /\ qn raw 0 = lo /\ qn raw (length raw - 1) == m /\
    (forall i, (i < length xs)%nat -> qn xs i == qn raw i * hi / m) /\
    (forall i, (S i < length xs)%nat -> let g := qn raw (S i) - qn raw i in
       0 < g /\ g <= dflt /\ qn xs (S i) - qn xs i <= g /\
       (forall b, In b boxes -> in_box b (lookup_point lo hi step (qn raw i)) -> g <= b_mesh b)).
Proof. exact nonuniform_lemma. Qed.
Print Assumptions nonuniform_grid.
Definition ex_box := Box 3 6 1.
Example nonuniform_ex : match make_axis 20 0 12 10 (1 # 20) 1 [ex_box] with
  | Ok xs => map Qred xs = [0; 240 # 269; 480 # 269; 720 # 269; 960 # 269; 1200 # 269; 1440 # 269; 1680 # 269; 2172 # 269; 2688 # 269; 12]
  | Err _ => False end.
Proof. vm_compute. reflexivity. Qed.
(** the first point is not lo unless lo = 0 or the raw points end at hi *)
Theorem nonuniform_first_point_refuted : exists lo hi dflt fuel xs, lo < hi /\ 0 < hi /\ 0 < dflt /\
  make_axis fuel lo hi dflt (1 # 20) 1 [] = Ok xs /\ ~ qn xs 0 == lo.
Proof.
  exists 1, 10, 4, 10%nat. eexists. split; [reflexivity|]. split; [reflexivity|]. split; [reflexivity|].
  split; [vm_compute; reflexivity|]. vm_compute. discriminate.
Qed.
Print Assumptions nonuniform_first_point_refuted.
(** the mesh does not grow gradually: leaving a box, the cell size more than doubles at once *)
Theorem nonuniform_gradual_refuted : exists xs i, make_axis 20 0 12 10 (1 # 20) 1 [ex_box] = Ok xs /\ (S (S i) < length xs)%nat /\
  2 * (qn xs (S i) - qn xs i) < qn xs (S (S i)) - qn xs (S i).
Proof.
  eexists. exists 6%nat. split; [vm_compute; reflexivity|]. split; [vm_compute; lia|]. vm_compute. reflexivity.
Qed.
Print Assumptions nonuniform_gradual_refuted.
