(** Model of the meshes and the integration of far fields of
    /repo/spins/invdes/problem/farfield.py and of the objectives of
    /repo/spins/invdes/problem/ffobjective.py.

    Simplifications.  Numbers are exact reals.  The matrix that projects the fields to the far field
    (make_near2farfield_matrix, make_near2farfield_box_matrix) is given, as a list of rows.  Where
    numpy would produce nan the model has the error [ValueError].  spheric2cart_matrix and
    spheric2spheric_matrix, which read the undefined name x, are left out. *)
From Coq Require Import Reals.
From Verif Require Import Base GMath_Model GMath_Proofs CplxField EmObj_Model.
From Verif Require Obj_Model.
Set Implicit Arguments.
Local Open Scope R_scope.

(** ** Meshes on the sphere *)
Definition vec3 := (R * R * R)%type.
Definition px (p : vec3) : R := fst (fst p).
Definition py (p : vec3) : R := snd (fst p).
Definition pz (p : vec3) : R := snd p.
Definition vadd (a b : vec3) : vec3 := (px a + px b, py a + py b, pz a + pz b).
Definition vsub (a b : vec3) : vec3 := (px a - px b, py a - py b, pz a - pz b).
Definition norm (p : vec3) : R := sqrt (px p * px p + py p * py p + pz p * pz p).
(** p / (np.sum(p**2)**0.5), farfield.py:455-460; p / np.linalg.norm(p), lines 528-533 *)
Definition unit (p : vec3) : res vec3 :=
  if Req_EM_T (norm p) 0 then Err ValueError else Ok (px p / norm p, py p / norm p, pz p / norm p).
(** np.all(points[j] == p) *)
Definition veq (a b : vec3) : bool :=
  (if Req_EM_T (px a) (px b) then true else false) && (if Req_EM_T (py a) (py b) then true else false) && (if Req_EM_T (pz a) (pz b) then true else false).
Fixpoint find_point (p : vec3) (pts : list vec3) : option nat :=
  match pts with [] => None | q :: l => if veq q p then Some 0%nat else option_map S (find_point p l) end.
(** lines 461-485 *)
Definition add_point (pts : list vec3) (p : vec3) : list vec3 * nat :=
  match find_point p pts with Some i => (pts, i) | None => (pts ++ [p], length pts) end.
Definition tri := (nat * nat * nat)%type.
Definition get {A} (l : list A) (i : nat) : res A := match nth_error l i with Some a => Ok a | None => Err IndexError end.
(** the body of the inner loop, lines 453-490 *)
Definition refine_one (pts : list vec3) (t : tri) : res (list vec3 * list tri) :=
  let '(a, b, c) := t in
  bind (get pts a) (fun va => bind (get pts b) (fun vb => bind (get pts c) (fun vc =>
  bind (unit (vadd va vb)) (fun p1 => bind (unit (vadd vb vc)) (fun p2 => bind (unit (vadd vc va)) (fun p3 =>
  let (pts1, i1) := add_point pts p1 in
  let (pts2, i2) := add_point pts1 p2 in
  let (pts3, i3) := add_point pts2 p3 in
  Ok (pts3, [(i1, i2, i3); (a, i1, i3); (b, i1, i2); (c, i3, i2)]))))))).
Fixpoint refine_all (pts : list vec3) (ts : list tri) : res (list vec3 * list tri) :=
  match ts with
  | [] => Ok (pts, [])
  | t :: ts' => bind (refine_one pts t) (fun r => bind (refine_all (fst r) ts') (fun r' => Ok (fst r', snd r ++ snd r')))
  end.
Fixpoint refine (n : nat) (m : list vec3 * list tri) : res (list vec3 * list tri) :=
  match n with O => Ok m | S n' => bind (refine_all (fst m) (snd m)) (refine n') end.
(** make_sphere_point, lines 430-499 *)
Definition make_sphere_point (n : nat) : res (list vec3 * list tri) :=
  refine n ([(1, 0, 0); (0, 1, 0); (-1, 0, 0); (0, -1, 0); (0, 0, 1); (0, 0, -1)],
            [(0, 1, 4); (1, 2, 4); (2, 3, 4); (3, 0, 4); (0, 1, 5); (1, 2, 5); (2, 3, 5); (3, 0, 5)]%nat).
(** make_half_sphere_point, lines 502-566 *)
Definition make_half_sphere_point (n : nat) (polarity : R) : res (list vec3 * list tri) :=
  refine n ([(1, 0, 0); (0, 1, 0); (-1, 0, 0); (0, -1, 0); (0, 0, polarity)],
            [(0, 1, 4); (1, 2, 4); (2, 3, 4); (3, 0, 4)]%nat).

(** ** Integration *)
(** points2triangles_averaging_matrix, lines 722-736: three entries per triangle, the number of
    columns is the largest index plus one *)
Definition columns (ts : list tri) : nat := fold_right Nat.max 0%nat (map (fun t => let '(a, b, c) := t in S (Nat.max a (Nat.max b c))) ts).
Definition average_row (t : tri) (k : nat) : R :=
  let '(a, b, c) := t in
  (if Nat.eqb k a then 1 / 3 else 0) + (if Nat.eqb k b then 1 / 3 else 0) + (if Nat.eqb k c then 1 / 3 else 0).
(** np.angle *)
Definition angle (x y : R) : R :=
  let r := sqrt (x * x + y * y) in
  if Req_EM_T r 0 then 0 else if Rle_dec 0 y then acos (x / r) else - acos (x / r).
(** division by a complex number of modulus one, the angle of the quotient *)
Definition angle_between (a b : R * R) : R :=
  let d := fst b * fst b + snd b * snd b in
  angle ((fst a * fst b + snd a * snd b) / d) ((snd a * fst b - fst a * snd b) / d).
Definition phasor (ph : R) : R * R := (cos ph, sin ph).
Definition ltb (a b : R) : bool := if Rlt_dec a b then true else false.
(** triangle_selection_vector, lines 753-785, for one triangle with corners [a b c] *)
Definition center (a b c : vec3) : vec3 := ((px a + px b + px c) / 3, (py a + py b + py c) / 3, (pz a + pz b + pz c) / 3).
Definition selected (th0 th1 ph0 ph1 : R) (a b c : vec3) : bool :=
  let m := center a b c in
  let th := acos (pz m / norm m) in
  let php := phasor (angle (px m) (py m)) in
  let s_th := ltb th0 th && ltb th th1 in
  let s_ph := if Rle_dec (ph1 - ph0) PI
              then ltb (angle_between php (phasor ph0)) (angle_between (phasor ph1) (phasor ph0)) && ltb 0 (angle_between php (phasor ph0))
              else negb (ltb (angle_between php (phasor ph1)) (angle_between (phasor ph0) (phasor ph1)) && ltb 0 (angle_between php (phasor ph1))) in
  s_th && s_ph.
(** triangle_area_vector, lines 788-800 *)
Definition area (a b c : vec3) : R :=
  let p := vsub b a in let q := vsub c a in
  1 / 2 * sqrt ((py p * pz q - pz p * py q) * (py p * pz q - pz p * py q) +
                (pz p * px q - px p * pz q) * (pz p * px q - px p * pz q) +
                (px p * py q - py p * px q) * (px p * py q - py p * px q)).
(** area_selection_vector, lines 739-750 *)
Definition corners (pts : list vec3) (t : tri) : res (vec3 * vec3 * vec3) :=
  let '(a, b, c) := t in bind (get pts a) (fun va => bind (get pts b) (fun vb => bind (get pts c) (fun vc => Ok (va, vb, vc)))).
Definition area_selection (pts : list vec3) (ts : list tri) (th0 th1 ph0 ph1 : R) : res (list R) :=
  mapM (fun t => bind (corners pts t) (fun v => let '(a, b, c) := v in Ok ((if selected th0 th1 ph0 ph1 a b c then 1 else 0) * area a b c))) ts.
(** area vector @ points2triangles @ [0 1 1], ffobjective.py:173-187; the product needs as many
    columns as there are points *)
Definition power_vector (pts : list vec3) (ts : list tri) (areas : list R) : res (list R) :=
  if Nat.eqb (columns ts) (length pts) then
    let w := map (fun k => Obj_Model.rsum (map (fun at_ => fst at_ * average_row (snd at_) k) (combine areas ts))) (seq 0 (length pts)) in
    Ok (map (fun _ => 0) pts ++ w ++ w)
  else Err ValueError.

(** ** Spherical components *)
(** cart2spheric_matrix, farfield.py:569-616, for one point: the matrix applied to [v] (the
    nested list of lines 594-600 has a scalar among arrays; a numpy that accepts it is assumed) *)
Definition roll (k : nat) (r : R * R * R) : R * R * R :=
  let '(c0, c1, c2) := r in match k with 0%nat => (c0, c1, c2) | 1%nat => (c2, c0, c1) | _ => (c1, c2, c0) end.
Definition dot3 (r v : vec3) : R := px r * px v + py r * py v + pz r * pz v.
Definition cart2spheric (axis : nat) (p v : vec3) : res vec3 :=
  let r := norm p in
  if Req_EM_T r 0 then Err ValueError else
  bind (match axis with
        | 2%nat => Ok (acos (pz p / r), angle (px p) (py p))
        | 1%nat => Ok (acos (py p / r), angle (pz p) (px p))
        | 0%nat => Ok (acos (px p / r), angle (py p) (pz p))
        | _ => Err NameError
        end) (fun tp => let (th, ph) := tp in
  let row r := dot3 (roll (2 - axis) r) v in
  Ok (row (sin th * cos ph, sin th * sin ph, cos th), row (cos th * cos ph, cos th * sin ph, - sin th), row (- sin ph, cos ph, 0))).

(** ** Objectives *)
(** FF_cond *)
Record ff_cond := FfCond { ff_matrix : option (list (list C)); th_bounds : R * R; ph_bounds : R * R }.
Record scatter := Scatter { sc_matrix : option (list (list C)); sc_background : option (list C); sc_scattered : list R; sc_directed : list R }.
(** BasicScatter._compute_objective, ffobjective.py:141-194; the code has n = 4 *)
Definition scatter_new (n : nat) (cond : ff_cond) (background : option (list C)) : res scatter :=
  bind (make_sphere_point n) (fun m => let (pts, ts) := m in
  bind (area_selection pts ts 0 PI (- PI) PI) (fun sa =>
  bind (area_selection pts ts (fst (th_bounds cond)) (snd (th_bounds cond)) (fst (ph_bounds cond)) (snd (ph_bounds cond))) (fun da =>
  bind (power_vector pts ts sa) (fun sv => bind (power_vector pts ts da) (fun dv =>
  Ok (Scatter (ff_matrix cond) background sv dv)))))).
Definition apply_rows (F : list (list C)) (x : list C) : list C := map (fun row => fold_right cadd (creal 0) (map (fun xy => cmul (fst xy) (snd xy)) (combine row x))) F.
Definition weigh (w : list R) (y : list C) : R := Obj_Model.rsum (map (fun wy => fst wy * (cabs (snd wy) ^ 2)) (combine w y)).
(** the fields and the matrix, lines 197-204, 236-241: a background is read from an undefined name *)
Definition far_matrix (s : scatter) : res (list (list C)) :=
  match sc_background s with
  | Some _ => Err NameError
  | None => match sc_matrix s with Some F => Ok F | None => Err AttributeError end
  end.
(** calculate_f, lines 234-255 *)
Definition scatter_f (s : scatter) (x : list C) : res R :=
  bind (far_matrix s) (fun F =>
  let y := apply_rows F x in
  let sp := weigh (sc_scattered s) y in let dp := weigh (sc_directed s) y in
  if Req_EM_T sp 0 then Err ValueError else
  let d := dp / sp in
  Ok ((lt1 d 1 * (1 - d)) ^ 2)).
(** calculate_partial_df_dx, lines 196-232 *)
Definition column (F : list (list C)) (k : nat) : list C := map (fun row => nth k row (creal 0)) F.
Definition weigh_row (w : list R) (y : list C) (F : list (list C)) (n : nat) : list C :=
  map (fun k => fold_right cadd (creal 0) (map (fun wyf => cmul (creal (fst (fst wyf))) (cmul (cconj (snd (fst wyf))) (snd wyf))) (combine (combine w y) (column F k)))) (seq 0 n).
Definition scatter_dx (s : scatter) (x : list C) : res (list C) :=
  bind (far_matrix s) (fun F =>
  let y := apply_rows F x in
  let sp := weigh (sc_scattered s) y in let dp := weigh (sc_directed s) y in
  if Req_EM_T sp 0 then Err ValueError else
  let d := dp / sp in
  let ds := weigh_row (sc_scattered s) y F (length x) in
  let dd := weigh_row (sc_directed s) y F (length x) in
  Ok (map (fun ab => cmul (creal (2 * (lt1 d 1 * (1 - d)) ^ 1)) (cmul (creal (lt1 d 1 * -1)) (cscale (/ (sp ^ 2)) (csub (cscale sp (fst ab)) (cscale dp (snd ab)))))) (combine dd ds))).
Definition scatter_obj (s : scatter) : objective :=
  Objective (fun x _ => scatter_f s x) (fun x _ => scatter_dx s x) (fun _ z => map (fun _ => 0) z).
(** DirectedPower._compute_objective, lines 44-95: farfield.farfield, line 87, does not exist *)
Definition directed_power_new (cond : ff_cond) : res scatter :=
  let (t0, t1) := th_bounds cond in
  bind (if ltb t0 (PI / 2) && ltb t1 (PI / 2) then make_half_sphere_point 4 1
        else if ltb (PI / 2) t0 && ltb (PI / 2) t1 then make_half_sphere_point 4 (-1)
        else make_sphere_point 4) (fun _ => Err AttributeError).
