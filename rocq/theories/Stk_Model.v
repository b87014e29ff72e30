(** Model of the drawing of layouts: spins/invdes/problem_graph/simspace.py:196-330. *)
From Coq Require Import QArith Qround ZArith List Bool.
From Verif Require Import Base QTac Raster2_Model Grid_Model Layer_Model Slice_Model.
Import ListNotations.
Open Scope Q_scope.

(** np.around: the nearest integer, halves to the even one *)
Definition around (q : Q) : Z :=
  let f := Qfloor (q + (1 # 2)) in
  if Qeq_bool (inject_Z f - q) (1 # 2) && Z.odd f then (f - 1)%Z else f.
(** lines 278, 323: np.around(polygon * NM_PER_UM) *)
Definition to_nm (p : polygon) : polygon := map (fun v => (inject_Z (around (fst v * 1000)), inject_Z (around (snd v * 1000)))) p.

Section Draw.
(** the grid: edges, extrusion axis and number of components *)
Variables (exyz : nat -> list Q) (ext ns : nat).
(** materials and layers of the layout file.  [perm] is the square of _get_mat_index (see
    Space_Model), for materials without loss; [layers] is get_polygons of the file, which is
    empty for a layer that is not there *)
Variables (material_spec layer : Type) (perm : material_spec -> res Q) (layers : layer -> list polygon).
(** an element of the stack *)
Record element := Element { e_layer : layer; e_lo : Q; e_hi : Q; e_bg : material_spec; e_fg : material_spec }.
(** extents.mean() and np.diff(extents)[0], lines 261-262, 269-270, 303-304 *)
Definition mid (lo hi : Q) : Q := (lo + hi) / 2.
Definition diff (lo hi : Q) : Q := hi - lo.
(** lines 274-283, 319-328: the center is zero along the planar axes, the permittivity a scalar *)
Definition draw_polygons (bs : list block) (center thickness eps : Q) (ps : list polygon) : res (list block) :=
  fold_left (fun acc p => bind acc (fun b => draw_polygon b 0 0 center (to_nm p) thickness (repeat (1 * eps) ns))) ps (Ok bs).
(** body of the loop of _draw_gds_on_grid, lines 300-328 *)
Definition draw_element (bs : list block) (e : element) : res (list block) :=
  let center := mid (e_lo e) (e_hi e) in
  let thickness := diff (e_lo e) (e_hi e) in
  bind (perm (e_bg e)) (fun bg => bind (perm (e_fg e)) (fun fg =>
  bind (draw_slab exyz ext ns bs (DInt (Z.of_nat ext)) center thickness (EScalar bg)) (fun bs1 =>
  draw_polygons bs1 center thickness fg (layers (e_layer e))))).
Definition draw_gds (bs : list block) (stack : list element) : res (list block) :=
  fold_left (fun acc e => bind acc (fun b => draw_element b e)) stack (Ok bs).
(** meshes: a slab, polygons of a layer, anything else *)
Inductive mesh := MSlab (lo hi : Q) (m : material_spec) | MGds (l : layer) (lo hi : Q) (m : material_spec) | MOther (m : material_spec).
Definition mesh_material (m : mesh) : material_spec := match m with MSlab _ _ x => x | MGds _ _ _ x => x | MOther x => x end.
(** _draw_mesh_on_grid, lines 242-286 *)
Definition draw_mesh (bs : list block) (m : mesh) : res (list block) :=
  bind (perm (mesh_material m)) (fun eps =>
  match m with
  | MSlab lo hi _ => draw_slab exyz ext ns bs (DInt (Z.of_nat ext)) (mid lo hi) (diff lo hi) (EScalar eps)
  | MGds l lo hi _ => draw_polygons bs (mid lo hi) (diff lo hi) eps (layers l)
  | MOther _ => Err ValueError
  end).
(** the loop of _create_grid, lines 227-229 *)
Definition draw_meshes (bs : list block) (ms : list mesh) : res (list block) :=
  fold_left (fun acc m => bind acc (fun b => draw_mesh b m)) ms (Ok bs).
End Draw.
Arguments Element {material_spec layer}. Arguments e_layer {material_spec layer}. Arguments e_lo {material_spec layer}. Arguments e_hi {material_spec layer}.
Arguments e_bg {material_spec layer}. Arguments e_fg {material_spec layer}.
Arguments MSlab {material_spec layer}. Arguments MGds {material_spec layer}. Arguments MOther {material_spec layer}. Arguments mesh_material {material_spec layer}.
Arguments draw_element exyz ext ns {material_spec layer}. Arguments draw_gds exyz ext ns {material_spec layer}.
Arguments draw_mesh exyz ext ns {material_spec layer}. Arguments draw_meshes exyz ext ns {material_spec layer}.
