(** C45, C46, C73, C74, C75: gratings. *)
From Verif Require Import Base QTac Grating_Model Grating_Spec Grating_Proofs Grating_Proofs2 Grating_Proofs3 Grating_Proofs4.
From Coq Require Import ZArith.
Set Implicit Arguments.

(** *** C45: feature constraints *)
Theorem grating_constraints_meaning scale mf v len : 0 <= mf -> (2 <= length v)%nat ->
  exists c, feature_constraint scale mf v len = Ok c /\ length c = S (length v) /\ (Forall (fun a => a <= 0) c <-> separated mf (scale * mf) len v).
Proof. exact (@constraints_meaning scale mf v len). Qed.
Theorem grating_constraint_errors scale mf v len : (mf < 0 \/ (length v < 2)%nat) -> feature_constraint scale mf v len = Err ValueError.
Proof. exact (@constraint_errors scale mf v len). Qed.
Theorem grating_constraint_jacobian scale mf v v' len c c' :
  length v' = length v -> feature_constraint scale mf v len = Ok c -> feature_constraint scale mf v' len = Ok c' ->
  length (build_grads (length v)) = length c /\
  forall i, (i < length c)%nat -> length (nth i (build_grads (length v)) []) = length v /\ qn c' i - qn c i == dot (nth i (build_grads (length v)) []) (vsub v' v).
Proof. exact (@constraint_jacobian scale mf v v' len c c'). Qed.
Theorem composite_constraints_meaning scale mf ps : 0 <= mf -> ps <> [] -> Forall (fun p => (2 <= length (fst p))%nat) ps ->
  exists c, composite_constraints scale mf ps = Ok c /\ (Forall (fun a => a <= 0) c <-> Forall (fun p => separated mf (scale * mf) (snd p) (fst p)) ps).
Proof. exact (@composite_meaning scale mf ps). Qed.
Theorem composite_constraint_jacobian scale mf (ps ps' : list (list Q)) lens c c' :
  Forall2 (fun p p' => length p' = length p) ps ps' -> length lens = length ps ->
  composite_constraints scale mf (combine ps lens) = Ok c -> composite_constraints scale mf (combine ps' lens) = Ok c' ->
  length (composite_grads ps) = length c /\ forall i, (i < length c)%nat -> length (nth i (composite_grads ps) []) = length (concat ps) /\
    qn c' i - qn c i == dot (nth i (composite_grads ps) []) (vsub (concat ps') (concat ps)).
Proof. exact (@composite_jacobian scale mf ps ps' lens c c'). Qed.
Example constraint_case :
  exists c, feature_constraint (1 # 2) 2 [1; 3; 6] 8 = Ok c /\ Forall2 Qeq c [0; -1; 0; -1].
Proof. eexists. split; [reflexivity|]. repeat constructor. Qed.
Example constraint_violated : exists c, feature_constraint (1 # 2) 2 [1; 2; 6] 8 = Ok c /\ Forall2 Qeq c [1; -2; 0; -1].
Proof. eexists. split; [reflexivity|]. repeat constructor. Qed.
Example jacobian_case : build_grads 3 = [[1; -1; 0]; [0; 1; -1]; [-1; 0; 0]; [0; 0; 1]] /\
  composite_grads [[1; 3]; [0; 5]] = [[1; -1; 0; 0]; [-1; 0; 0; 0]; [0; 1; 0; 0]; [0; 0; 1; -1]; [0; 0; -1; 0]; [0; 0; 0; 1]].
Proof. split; vm_compute; reflexivity. Qed.

(** the constraint function of edge-parametrized gratings: its values mean what they should *)
Theorem edge_constraint_meaning mf len v : v <> [] -> exists c, edge_loc_eval mf len v = Ok c /\ length c = S (length v) /\
  (Forall (fun a => a <= 0) c <-> (forall i, (S i < length v)%nat -> mf i <= qn v (S i) - qn v i) /\ 0 <= qn v 0 /\ qn v (length v - 1) <= len).
Proof. exact (@edge_loc_meaning mf len v). Qed.
(** its gradient is right, except that the row of "the first edge is not left of the start" has the opposite sign *)
Theorem edge_constraint_jacobian mf len g v v' c c' :
  (2 <= length v)%nat -> length v' = length v -> edge_loc_eval mf len v = Ok c -> edge_loc_eval mf len v' = Ok c' ->
  forall i, (i < length c)%nat -> (if Nat.eqb i (length v - 1) then -(1) else 1) * (g * (qn c' i - qn c i)) == dot (nth i (edge_loc_grad g (length v)) []) (vsub v' v).
Proof. exact (@edge_loc_jacobian mf len g v v' c c'). Qed.
Theorem edge_constraint_gradient_refuted : exists mf len v v' c c' i,
  length v' = length v /\ edge_loc_eval mf len v = Ok c /\ edge_loc_eval mf len v' = Ok c' /\ (i < length c)%nat /\
  ~ qn c' i - qn c i == dot (nth i (edge_loc_grad 1 (length v)) []) (vsub v' v).
Proof. exists (fun _ => 1), 10, [1; 3; 5], [2; 3; 5]. do 2 eexists. exists 2%nat. split; [reflexivity|]. split; [reflexivity|]. split; [reflexivity|]. split; [cbn; lia|]. vm_compute. discriminate. Qed.

(** *** C46: the dynamic program *)
Theorem dp_returns_best (x hx : list Q) (D : nat) (dmin dmax : list Z) (start stop : nat) :
  (1 <= D)%nat -> (forall l, (l < length hx)%nat -> (Z.of_nat D <= zn dmin l)%Z) ->
  (start < length hx)%nat -> (stop < length hx)%nat -> (1 <= length x)%nat -> (length hx <= length dmin)%nat -> (length hx <= length dmax)%nat ->
  (exists es, dp_run x hx D dmin dmax start stop = Ok (in_pixels D es) /\ feasible (length hx) (D * length x) dmin dmax start stop es /\ error x hx D start es < big /\
     forall es', feasible (length hx) (D * length x) dmin dmax start stop es' -> error x hx D start es <= error x hx D start es') \/
  (dp_run x hx D dmin dmax start stop = Ok (in_pixels D [(0%nat, stop)]) /\
     forall es', feasible (length hx) (D * length x) dmin dmax start stop es' -> big <= error x hx D start es').
Proof. exact (fun a b c d e f g => @dp_optimal x hx D dmin dmax start stop a b c d e f g). Qed.
(** a target of eight pixels, two divisions per pixel, features of at least two pixels *)
Example dp_case : exists r, dp_run [1; 1; 0; 0; 0; 1 # 2; 1; 1] [0; 1] 2 [4; 4]%Z [100; 100]%Z 1 1 = Ok r /\
  Forall2 (fun a b => fst a == fst b /\ snd a = snd b) r [(2, 0%nat); (11 # 2, 1%nat)] /\ error [1; 1; 0; 0; 0; 1 # 2; 1; 1] [0; 1] 2 1 [(4, 0); (11, 1)]%nat == 0.
Proof. eexists. split; [vm_compute; reflexivity|]. split; [repeat constructor|vm_compute; reflexivity]. Qed.
(** features smaller than a pixel: the returned edges are not the best ones *)
Theorem dp_subpixel_refuted : exists x hx D dmin dmax start stop es es',
  (1 <= D)%nat /\ (forall l, (l < length hx)%nat -> (1 <= zn dmin l)%Z) /\ dp_run x hx D dmin dmax start stop = Ok (in_pixels D es) /\
  feasible (length hx) (D * length x) dmin dmax start stop es /\ feasible (length hx) (D * length x) dmin dmax start stop es' /\ error x hx D start es' < error x hx D start es.
Proof.
  exists [0], [0; 1 # 2; 1], 3%nat, [1; 1; 1]%Z, [100; 100; 100]%Z, 2%nat, 1%nat, [(0, 0); (1, 2); (2, 0); (3, 1)]%nat, [(0, 0); (3, 1)]%nat.
  split; [lia|]. split; [intros [|[|[|l]]] H; cbn in *; lia|]. split; [vm_compute; reflexivity|].
  split; [split; [cbn; repeat split; lia|exists [(0, 0); (1, 2); (2, 0)]%nat, 3%nat; split; [reflexivity|cbn; lia]]|].
  split; [split; [cbn; repeat split; lia|exists [(0, 0)]%nat, 3%nat; split; [reflexivity|cbn; lia]]|]. vm_compute. reflexivity.
Qed.
(** a flat target is never returned flat: at least one edge is forced *)
Theorem dp_flat_refuted : exists x hx D dmin dmax start es,
  (1 <= D)%nat /\ (forall l, (l < length hx)%nat -> (Z.of_nat D <= zn dmin l)%Z) /\ dp_run x hx D dmin dmax start start = Ok (in_pixels D es) /\
  error x hx D start [] == 0 /\ 0 < error x hx D start es.
Proof.
  exists [0; 0; 0], [0; 1], 1%nat, [1; 1]%Z, [100; 100]%Z, 0%nat, [(0, 1); (1, 0)]%nat.
  split; [lia|]. split; [intros [|[|l]] H; cbn in *; lia|]. split; [vm_compute; reflexivity|]. split; vm_compute; reflexivity.
Qed.
(** a minimum feature that rounds to nothing raises *)
Theorem dp_zero_feature_refuted : exists x hx D dmin dmax start stop, (1 <= D)%nat /\ (forall l, (l < length hx)%nat -> (0 <= zn dmin l)%Z) /\
  (start < length hx)%nat /\ (stop < length hx)%nat /\ dp_run x hx D dmin dmax start stop = Err IndexError.
Proof.
  exists [0; 0], [0; 1], 1%nat, [0; 0]%Z, [100; 100]%Z, 0%nat, 1%nat. split; [lia|]. split; [intros [|[|l]] H; cbn in *; lia|].
  split; [cbn; lia|]. split; [cbn; lia|]. vm_compute. reflexivity.
Qed.

(** *** C73: the discretization action *)
Theorem discretization_is_best target depths minf maxf pixel start stop D :
  0 < pixel -> (1 <= D)%nat -> Forall (fun f => pixel <= f) minf -> (start < length depths)%nat -> (stop < length depths)%nat -> (1 <= length target)%nat ->
  (length depths <= length minf)%nat -> (length depths <= length maxf)%nat ->
  exists es, (forall use_edges, l2d_run target depths minf maxf pixel start stop D use_edges = Ok (l2d_of D pixel minf maxf use_edges es)) /\
  ((realizable (length depths) (D * length target) D pixel minf maxf start stop es /\ error target depths D start es < big /\
    forall es', realizable (length depths) (D * length target) D pixel minf maxf start stop es' -> error target depths D start es <= error target depths D start es') \/
   (es = [(0%nat, stop)] /\ forall es', realizable (length depths) (D * length target) D pixel minf maxf start stop es' -> big <= error target depths D start es')).
Proof. exact (fun a b c d e f g h => @l2d_optimal target depths minf maxf pixel start stop D a b c d e f g h). Qed.
(** the stored widths: they add up to the edges again, and every width but the first obeys the limits of its segment *)
Theorem widths_restore_edges l : Forall2 Qeq (cumsum_from 0 (diffs 0 l)) l.
Proof. exact (@diffs_cumsum l 0 0 (Qeq_refl 0)). Qed.
Theorem widths_obey_features (target depths : list Q) minf maxf pixel start stop D es :
  0 < pixel -> (1 <= D)%nat -> realizable (length depths) (D * length target) D pixel minf maxf start stop es ->
  let w := diffs 0 (positions_of D pixel es) in
  length w = length es /\ 0 <= qn w 0 <= qn maxf start /\
  forall i, (S i < length es)%nat -> qn minf (nth i (map snd es) 0%nat) <= qn w (S i) <= qn maxf (nth i (map snd es) 0%nat).
Proof. exact (fun a b => @realizable_widths target depths minf maxf pixel start stop D a b es). Qed.
Theorem discretization_rejects_small_features target depths minf maxf pixel start stop D use_edges :
  (exists f, In f minf /\ f < pixel) -> l2d_run target depths minf maxf pixel start stop D use_edges = Err ValueError.
Proof. exact (@l2d_small_features target depths minf maxf pixel start stop D use_edges). Qed.
Example discretization_case : exists r, l2d_run [1; 0; 1; 1; 1; 0; 0] [0; 1] [1; 2] [100; 100] 1 1 0 2 true = Ok r /\
  Forall2 Qeq (r_value r) [1; 2; 5] /\ r_levels r = [0; 1; 0]%nat.
Proof. eexists. split; [vm_compute; reflexivity|]. split; [repeat constructor|reflexivity]. Qed.
(** the bounds stored with the widths are those of the segment after, not of the width itself: a
    freshly discretized grating can violate its own bounds, with one feature size for all levels... *)
Theorem stored_bounds_first_refuted : exists target depths mf Mf pixel start stop D r b,
  0 < pixel /\ pixel <= mf /\ l2d_run target depths (map (fun _ => mf) depths) (map (fun _ => Mf) depths) pixel start stop D false = Ok r /\ r_bounds r = Some b /\ qn (r_value r) 0 < fst (nth 0 b (0, 0)).
Proof. exists [0; 1; 1], [0; 1], 1, 100, 1, 1%nat, 1%nat, 1%nat. do 2 eexists. split; [reflexivity|]. split; [discriminate|]. split; [vm_compute; reflexivity|]. split; reflexivity. Qed.
(** ... and with one per level at later widths too *)
Theorem stored_bounds_level_refuted : exists target depths minf maxf pixel start stop D r b,
  0 < pixel /\ Forall (fun f => pixel <= f) minf /\ l2d_run target depths minf maxf pixel start stop D false = Ok r /\ r_bounds r = Some b /\ qn (r_value r) 1 < fst (nth 1 b (0, 0)).
Proof. exists [1; 0; 1; 1; 1], [0; 1], [1; 3], [100; 100], 1, 1%nat, 1%nat, 1%nat. do 2 eexists. split; [reflexivity|]. split; [repeat constructor; discriminate|]. split; [vm_compute; reflexivity|]. split; reflexivity. Qed.

(** *** C74: drawing a multi-level grating *)
Theorem pixelated_is_filled_area fracs ext pix nx nz polarity (use_edges : bool) (vals : list Q) (index : list nat) :
  let edges := if use_edges then vals else cumsum_from 0 vals in
  let depths := map (fun f => inject_Z (Z.of_nat nz) * (1 - f)) (rev fracs) in
  (1 <= nx)%nat -> 0 < pix -> decreases fracs = false -> Forall (fun f => 0 <= f) fracs -> coarse 0 depths ->
  sorted_from 0 edges -> Forall (fun e => e <= ext) edges -> 0 <= ext -> length index = length vals -> Forall (fun l => (l < length fracs)%nat) index ->
  exists s, pixelated fracs ext pix nx nz polarity use_edges vals index = Ok s /\ length s = nx /\
    forall x z, (x < nx)%nat -> (z < nz)%nat -> length (nth x s []) = nz /\
      qn (nth x s []) (if Z.ltb polarity 0 then nz - 1 - z else z)%nat ==
      filled_area (fun l => filled nz (if Nat.ltb l (length fracs) then inject_Z (Z.of_nat nz) * (1 - qn fracs l) else 0)) (inject_Z (Z.of_nat nx)) 0 (length fracs)
        (combine (map (fun e => clip_edge nx (e / pix)) (edges ++ [ext])) (index ++ [length fracs])) x z.
Proof. exact (@pixelated_drawn fracs ext pix nx nz polarity use_edges vals index). Qed.
Theorem pixelated_in_unit_interval fracs ext pix nx nz polarity (use_edges : bool) (vals : list Q) (index : list nat) :
  let edges := if use_edges then vals else cumsum_from 0 vals in
  let depths := map (fun f => inject_Z (Z.of_nat nz) * (1 - f)) (rev fracs) in
  (1 <= nx)%nat -> 0 < pix -> decreases fracs = false -> Forall (fun f => 0 <= f) fracs -> coarse 0 depths ->
  sorted_from 0 edges -> Forall (fun e => e <= ext) edges -> 0 <= ext -> length index = length vals -> Forall (fun l => (l < length fracs)%nat) index ->
  forall s, pixelated fracs ext pix nx nz polarity use_edges vals index = Ok s -> forall x z, (x < nx)%nat -> (z < nz)%nat -> 0 <= qn (nth x s []) z <= 1.
Proof. exact (@pixelated_unit fracs ext pix nx nz polarity use_edges vals index). Qed.
Example pixelated_case : exists s, pixelated [1 # 2; 1] 4 1 4 2 1 true [1 # 2; 5 # 2] [0; 1]%nat = Ok s /\
  Forall2 (Forall2 Qeq) s [[1 # 2; 1]; [0; 1]; [1 # 2; 1]; [1; 1]] /\ coarse 0 (map (fun f => 2 * (1 - f)) (rev [1 # 2; 1])).
Proof. eexists. split; [vm_compute; reflexivity|]. split; [repeat constructor|]. cbn [map rev app coarse]. repeat split; try (vm_compute; discriminate); left; vm_compute; reflexivity. Qed.
(** a level thinner than the rest of its pixel overfills that pixel *)
Theorem pixelated_thin_layer_refuted : exists fracs ext pix nx nz vals index s,
  decreases fracs = false /\ Forall (fun f => 0 <= f /\ f <= 1) fracs /\ sorted_from 0 vals /\ Forall (fun e => e <= ext) vals /\
  pixelated fracs ext pix nx nz 1 true vals index = Ok s /\ exists x z, (x < nx)%nat /\ (z < nz)%nat /\ 1 < qn (nth x s []) z.
Proof.
  exists [13 # 20; 15 # 20], 2, 1, 2%nat, 2%nat, [0; 1], [0; 1]%nat. eexists. split; [vm_compute; reflexivity|]. split; [repeat constructor; discriminate|].
  split; [cbn; repeat split; discriminate|]. split; [repeat constructor; discriminate|]. split; [vm_compute; reflexivity|]. exists 0%nat, 1%nat. split; [lia|]. split; [lia|]. vm_compute. reflexivity.
Qed.
(** the gradient with respect to widths is the adjoint of accumulating them *)
Theorem widths_gradient_adjoint g w : length g = length w -> dot (widths_grad g) w == dot g (cumsum_from 0 w).
Proof. exact (@widths_adjoint g w). Qed.
Example widths_gradient_case : Forall2 Qeq (widths_grad [1; 2; 4]) [7; 6; 4].
Proof. repeat constructor. Qed.

(** *** C75: barcode gratings *)
Theorem barcode_bars_tile pos ext locs heights bars : barcode pos ext locs heights = Ok bars ->
  length bars = (if Nat.eqb (length heights) 1 then length locs - 1 else Nat.min (length locs - 1) (length heights))%nat /\
  forall i, (i < length bars)%nat -> match nth i bars (0, 0, 0) with (c, w, h) =>
    c - w / 2 == pos - ext / 2 + qn locs i * ext /\ c + w / 2 == pos - ext / 2 + qn locs (S i) * ext /\ h = (if Nat.eqb (length heights) 1 then qn heights 0 else qn heights i) end.
Proof. exact (@barcode_tiles pos ext locs heights bars). Qed.
Example barcode_case : exists b, barcode 0 4 [0; 1 # 4; 1] [2; 3; 5] = Ok b /\ length b = 2%nat /\ match nth 1 b (0, 0, 0) with (c, w, h) => c == 1 # 2 /\ w == 3 /\ h = 3 end.
Proof. eexists. split; [vm_compute; reflexivity|]. repeat split. Qed.

Print Assumptions grating_constraints_meaning.
Print Assumptions grating_constraint_errors.
Print Assumptions grating_constraint_jacobian.
Print Assumptions composite_constraints_meaning.
Print Assumptions composite_constraint_jacobian.
Print Assumptions edge_constraint_meaning.
Print Assumptions edge_constraint_jacobian.
Print Assumptions edge_constraint_gradient_refuted.
Print Assumptions dp_returns_best.
Print Assumptions dp_subpixel_refuted.
Print Assumptions dp_flat_refuted.
Print Assumptions dp_zero_feature_refuted.
Print Assumptions discretization_is_best.
Print Assumptions widths_restore_edges.
Print Assumptions widths_obey_features.
Print Assumptions discretization_rejects_small_features.
Print Assumptions stored_bounds_first_refuted.
Print Assumptions stored_bounds_level_refuted.
Print Assumptions pixelated_is_filled_area.
Print Assumptions pixelated_in_unit_interval.
Print Assumptions pixelated_thin_layer_refuted.
Print Assumptions widths_gradient_adjoint.
Print Assumptions barcode_bars_tile.
