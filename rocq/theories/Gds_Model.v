(** Model of GDS import: /repo/spins/gds/parse_gds.py.  Reading the file and flattening
    a cell are gdspy's (external): a cell is given with its polygon sets after
    flattening. *)
From Coq Require Import String Ascii.
From Verif Require Import QTac.
Set Implicit Arguments.
Open Scope Q_scope.

Definition point := (Q * Q)%type.
Definition polygon := list point.
(** gdspy.PolygonSet: polygons with one layer and one datatype number each *)
Record polyset := mkset { polygons : list polygon; layers : list nat; datatypes : list nat }.
Record cell := mkcell { name : string; sets : list polyset }.

(** [cell.name.startswith("$$$")], parse_gds.py:107 *)
Definition hidden (c : cell) : bool := prefix "$$$" (name c).
(** lines 110-115 *)
Definition num_polys (c : cell) : nat := fold_left (fun n s => (n + List.length (polygons s))%nat) (sets c) 0%nat.
(** the loop of lines 105-124; [best] is [max_poly_tlc] *)
Fixpoint scan (cells : list cell) (mx : nat) (best : option cell) : res (nat * option cell) :=
  match cells with
  | [] => Ok (mx, best)
  | c :: cs =>
      if hidden c then scan cs mx best
      else if Nat.eqb mx (num_polys c) then Err ValueError
      else if Nat.ltb mx (num_polys c) then scan cs (num_polys c) (Some c)
      else scan cs mx best
  end.
(** _get_top_level_cell, lines 82-135 *)
Definition get_top_level_cell (cells : list cell) (cell_name : option string) : res cell :=
  match cell_name with
  | None =>
      bind (scan cells 0 None) (fun '(mx, best) =>
      if Nat.ltb 0 mx then match best with Some c => Ok c | None => Err NameError end else Err ValueError)
  | Some s =>
      match find (fun c => String.eqb (name c) s) cells with Some c => Ok c | None => Err ValueError end
  end.

(** _extract_layers, lines 55-80: the dictionary from (layer, datatype) to polygons *)
Definition key := (nat * nat)%type.
Definition key_eqb (a b : key) : bool := Nat.eqb (fst a) (fst b) && Nat.eqb (snd a) (snd b).
Definition layer_map := key -> option (list polygon).
Definition set_key (s : polyset) : res key :=
  match layers s, datatypes s with l :: _, d :: _ => Ok (l, d) | _, _ => Err IndexError end.
Definition add_set (m : layer_map) (s : polyset) : res layer_map :=
  bind (set_key s) (fun k =>
  let old := match m k with Some l => l | None => [] end in
  Ok (fun k' => if key_eqb k' k then Some (old ++ polygons s) else m k')).
Fixpoint extract_layers_loop (ss : list polyset) (m : layer_map) : res layer_map :=
  match ss with [] => Ok m | s :: ss' => bind (add_set m s) (extract_layers_loop ss') end.
Definition extract_layers (c : cell) : res layer_map := extract_layers_loop (sets c) (fun _ => None).
(** get_polygons, lines 188-207 *)
Definition get_polygons (m : layer_map) (k : key) : list polygon := match m k with Some l => l | None => [] end.

(** Box, lines 9-30 *)
Record box := mkbox { xmin : Q; xmax : Q; ymin : Q; ymax : Q }.
Definition box_center (b : box) : point := ((xmin b + xmax b) / 2, (ymin b + ymax b) / 2).
Definition box_extents (b : box) : point := (xmax b - xmin b, ymax b - ymin b).
(** builtin max and min of a nonempty list *)
Definition max_list (x : Q) (l : list Q) : Q := fold_left qmax l x.
Definition min_list (x : Q) (l : list Q) : Q := fold_left qmin l x.
(** get_bounding_box, lines 137-165; an empty polygon is a 1-D array and the column index raises *)
Definition get_bounding_box (p : polygon) : res box :=
  match p with
  | [] => Err IndexError
  | (x, y) :: ps =>
      Ok (mkbox (min_list x (map fst ps) * 1000) (max_list x (map fst ps) * 1000)
                (min_list y (map snd ps) * 1000) (max_list y (map snd ps) * 1000))
  end.
(** get_bounding_boxes, lines 167-186 *)
Definition get_bounding_boxes (m : layer_map) (k : key) : res (list box) :=
  match m k with None => Ok [] | Some ps => mapM get_bounding_box ps end.
