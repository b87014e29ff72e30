(** C27 (gradient of rendering) and C60 (rendering of pixelated shapes). *)
From Verif Require Import QTac Raster_Model Raster_Spec Raster_Proofs Grid_Model Render_Model Render_Spec Render_Proofs.
Open Scope Q_scope.

(** *** C60: the value drawn in a grid cell is the permittivity contrast times the
    volume-weighted average of the pixels overlapping that cell (pixels outside count as 0) *)
Theorem rendered_value : forall contrast s g per array axis i j k, valid_edges s -> valid_grid g ->
  (i < cells (ex g))%nat -> (j < cells (ey g))%nat -> (k < cells (ez g))%nat ->
  let G := comp_edges g per axis in
  let x := sumn (cells (ex s)) (fun a => sumn (cells (ey s)) (fun b => sumn (cells (ez s)) (fun c =>
    share (ex s) (ex G) i a * share (ey s) (ey G) j b * share (ez s) (ez G) k c * qn array (flat3 s a b c)))) in
  let v := cn (eval_component contrast s g per array axis) (flat3 g i j k) in
  fst v == fst contrast * x /\ snd v == snd contrast * x.
Proof. exact eval_component_pf. Qed.
(** a uniform shape renders to its value times the covered volume fraction of the cell *)
Theorem rendered_uniform : forall contrast s g per array axis i j k q, valid_edges s -> valid_grid g ->
  (i < cells (ex g))%nat -> (j < cells (ey g))%nat -> (k < cells (ez g))%nat ->
  (forall c, (c < size3 s)%nat -> qn array c == q) ->
  let G := comp_edges g per axis in
  let vol := covered (qn (ex s) 0) (qlast (ex s)) (ex G) i * covered (qn (ey s) 0) (qlast (ey s)) (ey G) j * covered (qn (ez s) 0) (qlast (ez s)) (ez G) k in
  let v := cn (eval_component contrast s g per array axis) (flat3 g i j k) in
  fst v == fst contrast * (q * vol) /\ snd v == snd contrast * (q * vol).
Proof. exact eval_constant_pf. Qed.

(** *** C27: with real data the gradient is the exact adjoint of rendering *)
Theorem render_grad_real : forall contrast s g per grids v, valid_edges s -> valid_grid g ->
  let part axis := pairing (size3 g) (grids axis) (eval_component contrast s g per v axis) in
  sumn (size3 s) (fun c => qn (render_grad contrast s g per grids false) c * qn v c) == part 0%nat + part 1%nat + part 2%nat.
Proof. exact render_grad_real_pf. Qed.
(** with complex data the three components are weighted 8, 4 and 2 instead of 2, 2, 2 *)
Theorem render_grad_complex : forall contrast s g per grids v, valid_edges s -> valid_grid g ->
  let part axis := pairing (size3 g) (grids axis) (eval_component contrast s g per v axis) in
  sumn (size3 s) (fun c => qn (render_grad contrast s g per grids true) c * qn v c)
  == 8 * part 0%nat + 4 * part 1%nat + 2 * part 2%nat.
Proof. exact render_grad_complex_pf. Qed.

Definition unit3 : edges3 := Edges [0; 1] [0; 1] [0; 1].
Lemma inc2 a b : a < b -> increasing [a; b].
Proof. intros H i j [H1 H2]. simpl in H2. destruct j as [|[|j]]; [lia| |lia]. destruct i as [|i]; [exact H|lia]. Qed.
Lemma inc2' a b : a < b -> nondecreasing [a; b].
Proof. intros H i j Hij. now apply (increasing_le (inc2 a b H)). Qed.
Lemma unit3_valid : valid_edges unit3 /\ valid_grid unit3.
Proof. split; (split; [|split; [|split; [|split; [|split]]]]); simpl; try lia; try (apply inc2; lra); apply inc2'; lra. Qed.
Theorem render_grad_complex_refuted : exists contrast s g per grids v, valid_edges s /\ valid_grid g /\
  let part axis := pairing (size3 g) (grids axis) (eval_component contrast s g per v axis) in
  ~ sumn (size3 s) (fun c => qn (render_grad contrast s g per grids true) c * qn v c) == 2 * (part 0%nat + part 1%nat + part 2%nat).
Proof.
  exists (1, 0), unit3, unit3, false, (fun a => if Nat.eqb a 0 then [(1, 0)] else [(0, 0)]), [1].
  split; [apply unit3_valid|]. split; [apply unit3_valid|]. vm_compute. discriminate.
Qed.

(** *** Concrete cases: two pixels on a 2x1x1 grid *)
Definition s211 : edges3 := Edges [0; 1; 2] [0; 1] [0; 1].
Definition g211 : edges3 := Edges [0; 1; 3] [0; 1] [0; 2].
Example s211_valid : valid_edges s211.
Proof.
  unfold valid_edges, s211. cbn [ex ey ez]. split; [|split; [apply inc2'; lra|split; [apply inc2'; lra|simpl; lia]]].
  intros i j [H1 H2]. simpl in H2. destruct j as [|[|[|j]]]; [| | |lia]; destruct i as [|[|[|i]]]; try lia; vm_compute; discriminate.
Qed.
Example g211_valid : valid_grid g211.
Proof.
  unfold valid_grid, g211. cbn [ex ey ez]. split; [|split; [apply inc2; lra|split; [apply inc2; lra|simpl; lia]]].
  intros i j [H1 H2]. simpl in H2. destruct j as [|[|[|j]]]; [lia| | |lia]; destruct i as [|[|i]]; try lia; reflexivity.
Qed.
Example rendered_case : map (fun x => (Qred (fst x), Qred (snd x))) (eval_component (2, 1) s211 g211 false [3; 5] 0%nat) = [(3 # 2, 3 # 4); (5 # 4, 5 # 8)]
 /\ map (fun x => (Qred (fst x), Qred (snd x))) (eval_component (2, 1) s211 g211 false [3; 5] 2%nat) = [(1 # 2, 1 # 4); (13 # 6, 13 # 12)].
Proof. split; reflexivity. Qed.
Example render_grad_case : map Qred (render_grad (2, 0) s211 g211 false (fun _ => [(1, 0); (2, 0)]) false) = [2; 5 # 2].
Proof. reflexivity. Qed.

Print Assumptions rendered_value.
Print Assumptions rendered_uniform.
Print Assumptions render_grad_real.
Print Assumptions render_grad_complex.
Print Assumptions render_grad_complex_refuted.
