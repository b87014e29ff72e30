(** Model of /repo/spins/fdfd_tools/grid.py: stretched-coordinate absorbing layers (PML)
    and the construction of grid spacings.  Floats are rationals, complex numbers are
    pairs of rationals. *)
From Verif Require Import Base QTac.
From Coq Require Import ZArith Qround.
Set Implicit Arguments.

(** *** complex numbers *)
Definition cq := (Q * Q)%type.
Definition cre (z : cq) : Q := fst z.
Definition cim (z : cq) : Q := snd z.
(** lowest terms; the value is the same *)
Definition cnorm (x y : Q) : cq := (Qred x, Qred y).
Definition cadd (z w : cq) : cq := cnorm (cre z + cre w) (cim z + cim w).
Definition csub (z w : cq) : cq := cnorm (cre z - cre w) (cim z - cim w).
Definition cmul (z w : cq) : cq := cnorm (cre z * cre w - cim z * cim w) (cre z * cim w + cim z * cre w).
Definition cdiv (z w : cq) : cq :=
  let n := cre w * cre w + cim w * cim w in
  cnorm ((cre z * cre w + cim z * cim w) / n) ((cim z * cre w - cre z * cim w) / n).
Fixpoint cpow (z : cq) (m : nat) : cq := match m with O => (1, 0) | S m' => cmul z (cpow z m') end.
Definition creal (x : Q) : cq := (x, 0).
Definition cn (l : list cq) (i : nat) : cq := nth i l (0, 0).

(** prepare_s_function, lines 15-35 (m a natural number) *)
Definition s_max (ln_R : Q) (m : nat) : Q := (inject_Z (Z.of_nat m) + 1) * ln_R / 2.
Definition s_factor (ln_R : Q) (m : nat) (distance : cq) : cq := cmul (creal (s_max ln_R m)) (cpow distance m).
(** the default s_function *)
Definition s_default : cq -> cq := s_factor (-16) 4.

(** np.hstack((0, a.cumsum())), line 117 *)
Fixpoint positions (acc : cq) (a : list cq) : list cq :=
  match a with [] => [acc] | x :: a' => acc :: positions (cadd acc x) a' end.
(** [dx[slc] *= f(x[slc])] for the cells selected by [sel] *)
Fixpoint scale_sel (i : nat) (sel : nat -> bool) (f : nat -> cq) (l : list cq) : list cq :=
  match l with [] => [] | x :: l' => (if sel i then cmul x (f i) else x) :: scale_sel (S i) sel f l' end.
(** stretch_with_scpml, lines 89-154, for the cell lists [a] = dxes[0][axis] and
    [b] = dxes[1][axis] (already complex; of equal length, otherwise numpy would raise or
    broadcast).  [front]: polarity > 0; [t]: thickness >= 0; [corr]: s_correction, that is
    sqrt(epsilon_effective) * real(omega).  thickness = 0 with polarity <= 0 divides by zero
    in the code; see the theorems. *)
Definition stretch (s : cq -> cq) (corr : Q) (front : bool) (t : nat) (a b : list cq) : res (list cq * list cq) :=
  let n := length a in
  let pos := positions (0, 0) a in
  if Nat.ltb n t then Err IndexError else
  let pos_a i := cdiv (cadd (cn pos i) (cn pos (S i))) (2, 0) in
  let pos_b i := cn pos i in
  let bound := if front then cn pos t else cn pos (n - t) in
  let d := if front then csub bound (cn pos 0) else csub (cn pos n) bound in
  let l_d x := if front then cdiv (csub bound x) (csub bound (cn pos 0)) else cdiv (csub x bound) (csub (cn pos n) bound) in
  let slc i := if front then Nat.ltb i t else if Nat.eqb t 0 then true else Nat.leb (n - t) i in
  let factor x := cadd (1, 0) (cdiv (cdiv (cmul (0, 1) (s (l_d x))) d) (creal corr)) in
  Ok (scale_sel 0 slc (fun i => factor (pos_a i)) a, scale_sel 0 slc (fun i => factor (pos_b i)) b).

(** *** apply_scpml, lines 271-307, on the contents of the six arrays *)
Definition spacing := (nat -> nat -> list cq)%type.      (* grid number, axis *)
Definition set_axis (d : spacing) (axis : nat) (a b : list cq) : spacing := fun g k =>
  if Nat.eqb k axis then (match g with O => a | S O => b | _ => d g k end) else d g k.
Definition stretch_axis (omega : Q) (d : spacing) (axis : nat) (front : bool) (t : nat) : res spacing :=
  bind (stretch s_default omega front t (d 0%nat axis) (d 1%nat axis)) (fun ab => Ok (set_axis d axis (fst ab) (snd ab))).
(** pml_layers: None, an integer, or a sequence; [omega] is real(omega) *)
Inductive layers := LNone | LInt (k : Z) | LSeq (l : list Z).
(** [not pml_layers], then [[k] * 6] *)
Definition layer_list (p : layers) : option (list Z) :=
  match p with
  | LNone => None
  | LInt k => if Z.eqb k 0 then None else Some (repeat k 6)
  | LSeq [] => None
  | LSeq l => Some l
  end.
(** itertools.product(range(3), [1, -1]) *)
Definition sides : list (nat * bool) := [(0, true); (0, false); (1, true); (1, false); (2, true); (2, false)]%nat.
Definition apply_layers (omega : Q) (l : list (Z * (nat * bool))) (d : spacing) : res spacing :=
  fold_left (fun r x => bind r (fun d => if Z.ltb 0 (fst x) then stretch_axis omega d (fst (snd x)) (snd (snd x)) (Z.to_nat (fst x)) else Ok d)) l (Ok d).
Definition apply_scpml (d : spacing) (p : layers) (omega : Q) : res spacing :=
  match layer_list p with None => Ok d | Some l => apply_layers omega (combine l sides) d end.

(** *** the same with Python's objects: arrays and the lists that hold them.
    A grid spacing is a pair of references to lists of array references. *)
Record heap := Heap { arrs : list (list cq); lists : list (list nat) }.
Definition dxes := (nat * nat)%type.
Definition get_arr (h : heap) (l axis : nat) : res (list cq) :=
  match nth_error (lists h) l with
  | None => Err IndexError
  | Some rs => match nth_error rs axis with
               | None => Err IndexError
               | Some r => match nth_error (arrs h) r with None => Err IndexError | Some a => Ok a end
               end
  end.
(** [lists[l][axis] = new array] *)
Definition put_arr (h : heap) (l axis : nat) (a : list cq) : heap :=
  Heap (arrs h ++ [a]) (lset (lists h) l (lset (nth l (lists h) []) axis (length (arrs h)))).
(** stretch_with_scpml: astype copies, the results are stored in the caller's lists *)
Definition hstretch (s : cq -> cq) (corr : Q) (h : heap) (d : dxes) (axis : nat) (front : bool) (t : nat) : res heap :=
  bind (get_arr h (fst d) axis) (fun a =>
  bind (get_arr h (snd d) axis) (fun b =>
  bind (stretch s corr front t a b) (fun ab =>
  Ok (put_arr (put_arr h (fst d) axis (fst ab)) (snd d) axis (snd ab))))).
(** lines 291-293: np.array copies *)
Definition hcopy (h : heap) (d : dxes) : res (heap * dxes) :=
  bind (mapM (get_arr h (fst d)) [0; 1; 2]%nat) (fun a =>
  bind (mapM (get_arr h (snd d)) [0; 1; 2]%nat) (fun b =>
  let k := length (arrs h) in let m := length (lists h) in
  Ok (Heap (arrs h ++ a ++ b) (lists h ++ [[k; k + 1; k + 2]; [k + 3; k + 4; k + 5]]%nat), (m, S m)))).
Definition hlayers (omega : Q) (d : dxes) (l : list (Z * (nat * bool))) (h : heap) : res heap :=
  fold_left (fun r x => bind r (fun h => if Z.ltb 0 (fst x) then hstretch s_default omega h d (fst (snd x)) (snd (snd x)) (Z.to_nat (fst x)) else Ok h)) l (Ok h).
Definition happly (h : heap) (d : dxes) (p : layers) (omega : Q) : res (heap * dxes) :=
  bind (hcopy h d) (fun hd =>
  match layer_list p with
  | None => Ok hd
  | Some l => bind (hlayers omega (snd hd) (combine l sides) (fst hd)) (fun h' => Ok (h', snd hd))
  end).

(** *** uniform_grid_scpml, lines 38-86, one axis (integer thickness) *)
Definition qz (z : Z) : Q := inject_Z z.
Definition norm_dist (u : Q) (n : Z) (t : Z) : Q := (qmax (qz t - u) 0 + qmax (u - (qz n - qz t)) 0) / qz t.
Definition uniform_axis (s : cq -> cq) (corr : Q) (n : nat) (t : Z) : list cq * list cq :=
  let cell u := cadd (1, 0) (cdiv (cmul (0, 1) (s (creal (norm_dist u (Z.of_nat n) t)))) (creal corr)) in
  if Z.ltb 0 t then
    (map (fun i => cell (qz (Z.of_nat i))) (seq 0 n), map (fun i => cell (qz (Z.of_nat i) + (1 # 2))) (seq 0 n))
  else (repeat (1, 0) n, repeat (1, 0) n).

(** *** generate_periodic_dx, lines 157-176, one axis.  [None]: the placeholder inf for a
    single point; p[-1] of an empty array raises IndexError *)
Definition diff (l : list Q) : list Q := map (fun i => qn l (S i) - qn l i) (seq 0 (length l - 1)).
Definition periodic_axis (p : list Q) : res (option (list Q * list Q)) :=
  if Nat.eqb (length p) 1 then Ok None else
  if Nat.eqb (length p) 0 then Err IndexError else
  let shifted := tl p ++ [qn p (length p - 1) + (qn p 1 - qn p 0)] in
  Ok (Some (diff p, diff (map (fun i => (qn p i + qn shifted i) / 2) (seq 0 (length p))))).

(** *** make_nonuniform_grid, lines 179-268, one axis: borders [lo, hi], boxes given by
    centre, size and mesh size.  [dflt] is dx_default[0] for every axis. *)
Record box := Box { b_pos : Q; b_size : Q; b_mesh : Q }.
(** int(...) of a nonnegative number *)
Definition fine_count (lo hi step : Q) : nat := Z.to_nat (Qfloor ((inject_Z (Qceiling hi) - inject_Z (Qfloor lo)) / step)).
(** np.linspace(floor lo, ceil hi, N + 1); for N = 0 the single point floor lo *)
Definition fine_point (lo hi step : Q) (i : nat) : Q :=
  inject_Z (Qfloor lo) + inject_Z (Z.of_nat i) * ((inject_Z (Qceiling hi) - inject_Z (Qfloor lo)) / inject_Z (Z.of_nat (fine_count lo hi step))).
(** MeshBox, lines 225-229 *)
Definition mesh_box (grad : Q) (b : box) (x : Q) : Q :=
  let x0 := b_pos b - b_size b / 2 in
  let xn := b_pos b + b_size b / 2 in
  let d := b_mesh b in
  let d := if qlt x x0 then d + (grad * (x0 - x) + b_mesh b) else d in
  if qlt xn x then d + (grad * (x - xn) + b_mesh b) else d.
(** np.amin over the rows *)
Definition mesh_at (dflt grad : Q) (boxes : list box) (x : Q) : Q :=
  fold_left (fun m b => qmin m (mesh_box grad b x)) boxes dflt.
(** the loop of lines 255-257; the points are collected in reverse order *)
Fixpoint mesh_loop (fuel : nat) (lo hi step : Q) (size : nat -> Q) (last : Q) (acc : list Q) : res (list Q) :=
  if qlt last hi then
    match fuel with
    | O => Err OutOfFuel
    | S f =>
        let i := Qfloor ((last - inject_Z (Qfloor lo)) / step) in
        if Z.ltb (Z.of_nat (fine_count lo hi step)) i then Err IndexError
        else let x := last + size (Z.to_nat i) in mesh_loop f lo hi step size x (acc ++ [x])
    end
  else Ok acc.
Definition make_axis (fuel : nat) (lo hi dflt grad step : Q) (boxes : list box) : res (list Q) :=
  let size i := mesh_at dflt grad boxes (fine_point lo hi step i) in
  bind (mesh_loop fuel lo hi step size lo [lo]) (fun xs =>
  let m := fold_left qmax xs lo in
  Ok (map (fun x => x / m * hi) xs)).
