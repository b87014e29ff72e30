(** Model of vectorization and of the wave operators:
    /repo/spins/fdfd_tools/vectorization.py, operators.py, functional.py, the matrix
    part of /repo/spins/fdfd_solvers/local_matrix_solvers.py:57-83 and the adjoint
    simulation /repo/spins/invdes/problem/simulation.py:188-259.
    Three-dimensional arrays are functions of the indices (read within the shape). *)
From Verif Require Import Base CField.
From Coq Require Import ZArith.
Set Implicit Arguments.

Section Maxwell.
Variable K : cfield.
Local Open Scope K_scope.

(** shape and cell sizes: dxes[0] (for E) and dxes[1] (for H), by axis and index *)
Record grid := Grid { dim : nat -> nat; dxe : nat -> nat -> K; dxh : nat -> nat -> K }.
Definition array := nat -> nat -> nat -> K.
Definition field3 := nat -> array.      (* component, then indices *)
Section OnGrid.
Variable g : grid.
Local Notation nx := (dim g 0). Local Notation ny := (dim g 1). Local Notation nz := (dim g 2).
(** np.prod(shape) *)
Definition cellsn : nat := (nx * ny * nz)%nat.

(** *** vectorization.py *)
(** a.flatten(order='F') *)
Definition flattenF (a : array) : list K :=
  flat_map (fun z => flat_map (fun y => map (fun x => a x y z) (seq 0 nx)) (seq 0 ny)) (seq 0 nz).
(** lines 13-25 (None is not modelled) *)
Definition vec (f : field3) : list K := flattenF (f 0%nat) ++ flattenF (f 1%nat) ++ flattenF (f 2%nat).
(** lines 28-43: np.split(v, 3) and reshape(shape, order='F') raise ValueError *)
Definition unvec (v : list K) : res field3 :=
  if negb (Nat.eqb (Nat.modulo (length v) 3) 0) then Err ValueError else
  if negb (Nat.eqb (Nat.div (length v) 3) cellsn) then Err ValueError else
  Ok (fun c x y z => at_ v (c * cellsn + (x + nx * (y + ny * z)))).

(** *** operators.py *)
(** indices along each axis of the t-th cell in Fortran order *)
Definition coord (a t : nat) : nat :=
  match a with
  | 0 => Nat.modulo t nx
  | 1 => Nat.modulo (Nat.div t nx) ny
  | _ => Nat.div (Nat.div t nx) ny
  end.
(** np.ravel_multi_index(ind, shape, mode='wrap', order='F') *)
Definition ravel_wrap (p : nat -> Z) : nat :=
  let w a := Z.to_nat (p a mod Z.of_nat (dim g a)) in (w 0 + nx * (w 1 + ny * w 2))%nat.
(** rotation_bloch_shift, lines 603-654.  The factors u a = exp(-i phase[a]) and
    w a = exp(i phase[a]) are arguments; [so] is shift_orthogonal for this axis. *)
Definition shifted_index (axis : nat) (d : Z) (so : nat -> Z) (t : nat) : nat -> Z :=
  let p0 a := Z.of_nat (coord a t) in
  let p1 a := if Nat.eqb a axis then (p0 a + d)%Z else p0 a in
  let p2 a := if Z.leb (Z.of_nat (dim g axis)) (p1 axis) then (p1 a + so a)%Z else p1 a in
  fun a => if Z.ltb (p2 axis) 0 then (p2 a - so a)%Z else p2 a.
Definition bloch_data (u w : nat -> K) (p : nat -> Z) : K :=
  let m a := (if Z.leb (Z.of_nat (dim g a)) (p a) then u a else 1) * (if Z.ltb (p a) 0 then w a else 1) in
  m 0%nat * m 1%nat * m 2%nat.
Definition rotation_matrix (axis : nat) (d : Z) (u w : nat -> K) (so : nat -> Z) : mat K :=
  fun t j => if Nat.eqb (ravel_wrap (shifted_index axis d so t)) j then bloch_data u w (shifted_index axis d so t) else 0.
Definition rotation_bloch_shift (axis : nat) (d : Z) (u w : nat -> K) (so : nat -> Z) : res (mat K) :=
  if Z.eqb (so axis) 0 then Ok (rotation_matrix axis d u w so) else Err ValueError.
(** lines 657-728, with the default shift_orthogonal = 0.  The phase factors are computed
    from the cell sizes by the code; here they are arguments. *)
Definition no_shift : nat -> Z := fun _ => 0%Z.
Definition deriv_forward (u w : nat -> K) (a : nat) : mat K :=
  mmul cellsn (mdiag (fun t => 1 / dxe g a (coord a t))) (msub (rotation_matrix a 1 u w no_shift) meye).
Definition deriv_back (u w : nat -> K) (a : nat) : mat K :=
  mmul cellsn (mdiag (fun t => - (1) / dxh g a (coord a t))) (msub (rotation_matrix a (-1) u w no_shift) meye).
(** lines 417-428 *)
Definition cross (B : nat -> mat K) : mat K :=
  bmat cellsn (fun r c => match r, c with
    | 0, 1 => mneg (B 2) | 0, 2 => B 1
    | 1, 0 => B 2 | 1, 2 => mneg (B 0)
    | 2, 0 => mneg (B 1) | 2, 1 => B 0
    | _, _ => fun _ _ => k0
    end)%nat.
(** lines 241-276; separate phase factors because the code computes them from dxes[0]
    and dxes[1] *)
Definition curl_e (u w : nat -> K) : mat K := cross (deriv_forward u w).
Definition curl_h (u w : nat -> K) : mat K := cross (deriv_back u w).
Definition vlen : nat := (3 * cellsn)%nat.
(** np.where(mask, 0, 1) or the identity *)
Definition mask (m : option (nat -> bool)) : mat K :=
  match m with None => meye | Some b => mdiag (fun i => if b i then 0 else 1) end.
(** phase factors (forward, backward) for curl_e and for curl_h *)
Record phases := Phases { ue : nat -> K; we : nat -> K; uh : nat -> K; wh : nat -> K }.
(** lines 44-98 *)
Definition e_full (ph : phases) (omega : K) (eps : nat -> K) (mu : option (nat -> K)) (pec pmc : option (nat -> bool)) : mat K :=
  let mm := mmul vlen in
  let pe := mask pec in let pm := mask pmc in
  let m_div := match mu with None => meye | Some m => mdiag (fun i => 1 / m i) end in
  let op := mm (mm (mm (curl_h (uh ph) (wh ph)) pm) m_div) (curl_e (ue ph) (we ph)) in
  mm (mm pe (msub op (mscale (omega * omega) (mdiag eps)))) pe.
(** lines 101-125: the vector p_squared *)
Definition p_squared : field3 := fun c x y z =>
  match c with
  | 0 => dxe g 0 x * dxh g 1 y * dxh g 2 z
  | 1 => dxh g 0 x * dxe g 1 y * dxh g 2 z
  | _ => dxh g 0 x * dxh g 1 y * dxe g 2 z
  end.
(** np.sqrt: a vector whose squares are given *)
Definition is_sqrt (p : nat -> K) : Prop := forall i, (i < vlen)%nat -> p i * p i = at_ (vec p_squared) i.
Definition precond_left (p : nat -> K) : mat K := mdiag p.
Definition precond_right (p : nat -> K) : mat K := mdiag (fun i => 1 / p i).
(** h_full, lines 128-180 *)
Definition h_full (ph : phases) (omega : K) (eps : nat -> K) (mu : option (nat -> K)) (pec pmc : option (nat -> bool)) : mat K :=
  let mm := mmul vlen in
  let pe := mask pec in let pm := mask pmc in
  let e_div := mdiag (fun i => 1 / eps i) in
  let m := match mu with None => meye | Some m => mdiag m end in
  let op := mm (mm (mm (curl_e (ue ph) (we ph)) pe) e_div) (curl_h (uh ph) (wh ph)) in
  mm (mm pm (msub op (mscale (omega * omega) m))) pm.
(** eh_full, lines 183-238: without mu the product of a sparse matrix and a number raises *)
Definition eh_full (ph : phases) (omega : K) (eps : nat -> K) (mu : option (nat -> K)) (pec pmc : option (nat -> bool)) : res (mat K) :=
  let mm := mmul vlen in
  let pe := mask pec in let pm := mask pmc in
  match mu with
  | None => Err ValueError
  | Some m =>
      let iwe := mm (mm pe (mscale (ki * omega) (mdiag eps))) pe in
      let iwm := mm (mm pm (mscale (ki * omega) (mdiag m))) pm in
      let a1 := mm (mm pe (curl_h (uh ph) (wh ph))) pm in
      let a2 := mm (mm pm (curl_e (ue ph) (we ph))) pe in
      Ok (bmat vlen (fun r c => match r, c with 0, 0 => mneg iwe | 0, _ => a1 | _, 0 => a2 | _, _ => iwm end)%nat)
  end.
(** e2h, lines 279-316; h2e, 319-350; m2j, 353-372 *)
Definition e2h (ph : phases) (omega : K) (mu : option (nat -> K)) (pmc : option (nat -> bool)) : mat K :=
  let op := fun i j => curl_e (ue ph) (we ph) i j / (- ki * omega) in
  let op := match mu with None => op | Some m => mmul vlen (mdiag (fun i => 1 / m i)) op end in
  match pmc with None => op | Some b => mmul vlen (mask (Some b)) op end.
Definition h2e (ph : phases) (omega : K) (eps : nat -> K) : mat K :=
  mmul vlen (mdiag (fun i => 1 / (ki * omega * eps i))) (curl_h (uh ph) (wh ph)).
Definition m2j (ph : phases) (omega : K) (mu : option (nat -> K)) : mat K :=
  let op := fun i j => curl_h (uh ph) (wh ph) i j / (ki * omega) in
  match mu with None => op | Some m => mmul vlen op (mdiag (fun i => 1 / m i)) end.

(** poynting_chew_e_cross and poynting_chew_h_cross; np.split of the vector is [part] *)
Definition part (v : list K) (c : nat) : list K := firstn cellsn (skipn (c * cellsn) v).
Definition shift_op (a : nat) : mat K := rotation_matrix a 1 (fun _ => 1) (fun _ => 1) no_shift.
Definition area : mat K := bmat cellsn (fun r c =>
  if Nat.eqb r c then
    match r with
    | 0 => mmul cellsn (mdiag (fun t => dxe g 1 (coord 1 t))) (mdiag (fun t => dxe g 2 (coord 2 t)))
    | 1 => mmul cellsn (mdiag (fun t => dxe g 0 (coord 0 t))) (mdiag (fun t => dxe g 2 (coord 2 t)))
    | _ => mmul cellsn (mdiag (fun t => dxe g 0 (coord 0 t))) (mdiag (fun t => dxe g 1 (coord 1 t)))
    end%nat
  else fun _ _ => 0).
Definition poynting_chew_e_cross (e : list K) : mat K :=
  let d r c := mdiag (at_ (mv cellsn (shift_op r) (part e c))) in
  mmul vlen area (bmat cellsn (fun r c => match r, c with
    | 0, 1 => mneg (d 0 2) | 0, 2 => d 0 1
    | 1, 0 => d 1 2 | 1, 2 => mneg (d 1 0)
    | 2, 0 => mneg (d 2 1) | 2, 1 => d 2 0
    | _, _ => fun _ _ => k0
    end)%nat).
Definition poynting_chew_h_cross (h : list K) : mat K :=
  let d r c := mmul cellsn (mdiag (at_ (part h c))) (shift_op r) in
  mmul vlen area (bmat cellsn (fun r c => match r, c with
    | 0, 1 => mneg (d 0 2) | 0, 2 => d 0 1
    | 1, 0 => d 1 2 | 1, 2 => mneg (d 1 0)
    | 2, 0 => mneg (d 2 1) | 2, 1 => d 2 0
    | _, _ => fun _ _ => k0
    end)%nat).

(** *** functional.py *)
(** np.roll by one along an axis *)
Definition roll_back (f : array) (ax : nat) : array := fun x y z =>      (* np.roll(f, 1) *)
  match ax with
  | 0 => f (Nat.modulo (x + nx - 1) nx) y z
  | 1 => f x (Nat.modulo (y + ny - 1) ny) z
  | _ => f x y (Nat.modulo (z + nz - 1) nz)
  end%nat.
Definition roll_forward (f : array) (ax : nat) : array := fun x y z =>   (* np.roll(f, -1) *)
  match ax with
  | 0 => f (Nat.modulo (x + 1) nx) y z
  | 1 => f x (Nat.modulo (y + 1) ny) z
  | _ => f x y (Nat.modulo (z + 1) nz)
  end%nat.
Definition pick (ax x y z : nat) : nat := match ax with 0 => x | 1 => y | _ => z end%nat.
Definition dh (f : array) (ax : nat) : array := fun x y z => (f x y z - roll_back f ax x y z) / dxh g ax (pick ax x y z).
Definition de (f : array) (ax : nat) : array := fun x y z => (roll_forward f ax x y z - f x y z) / dxe g ax (pick ax x y z).
Definition fcurl (d : array -> nat -> array) (f : field3) : field3 := fun c x y z =>
  match c with
  | 0 => d (f 2) 1%nat x y z - d (f 1%nat) 2 x y z
  | 1 => d (f 0%nat) 2 x y z - d (f 2) 0%nat x y z
  | _ => d (f 1%nat) 0%nat x y z - d (f 0%nat) 1%nat x y z
  end.
Definition fcurl_h : field3 -> field3 := fcurl dh.    (* lines 18-38 *)
Definition fcurl_e : field3 -> field3 := fcurl de.    (* lines 41-61 *)
(** lines 64-93 *)
Definition fe_full (omega : K) (eps : field3) (mu : option field3) (e : field3) : field3 :=
  match mu with
  | None => fun c x y z => fcurl_h (fcurl_e e) c x y z - omega * omega * eps c x y z * e c x y z
  | Some m => fun c x y z => fcurl_h (fun c x y z => m c x y z * fcurl_e e c x y z) c x y z - omega * omega * eps c x y z * e c x y z
  end.
(** eh_full, lines 96-127 *)
Definition feh_full (omega : K) (eps : field3) (mu : option field3) (e h : field3) : field3 * field3 :=
  (fun c x y z => fcurl_h h c x y z - ki * omega * eps c x y z * e c x y z,
   fun c x y z => fcurl_e e c x y z + ki * omega * (match mu with None => 1 | Some m => m c x y z end) * h c x y z).
(** e2h, lines 130-157 *)
Definition fe2h (omega : K) (mu : option field3) (e : field3) : field3 := fun c x y z =>
  fcurl_e e c x y z / (- ki * omega * (match mu with None => 1 | Some m => m c x y z end)).

(** *** solving *)
(** LocalMatrixSolver.solve, local_matrix_solvers.py:47-83, after apply_scpml (line 57):
    [symmetry] and [pemc] tell whether the argument is given and has a nonzero entry,
    [inner] is solve_matrix_equation, [A0] the wave operator and [p] the square roots of
    e_full_preconditioners *)
Definition solve (inner : mat K -> list K -> list K) (p : nat -> K) (A0 : mat K) (omega : K) (J : list K)
    (symmetry pemc adjoint : bool) : res (list K) :=
  if symmetry then Err NotImplementedError else
  if pemc then Err NotImplementedError else
  let b0 := map (fun x => - ki * omega * x) J in
  let pl := precond_left p in let pr := precond_right p in
  let A := mmul vlen (mmul vlen pl A0) pr in
  Ok (if adjoint then mv vlen (mherm pl) (inner (mherm A) (mv vlen (mherm pr) b0))
      else mv vlen pr (inner A (mv vlen pl b0))).
End OnGrid.

(** AdjointFdfdSimulation._run_solver, simulation.py:227-259: the conjugated problem, the
    scaled source and the scaled result *)
Definition conj_grid (g : grid) : grid := Grid (dim g) (fun a i => kconj (dxe g a i)) (fun a i => kconj (dxh g a i)).
Definition adjoint_scale (g : grid) : list K := map kconj (vec (conj_grid g) (p_squared (conj_grid g))).
Definition adjoint_source (g : grid) (J : list K) : list K :=
  vbuild (vlen g) (fun i => at_ J i / at_ (adjoint_scale g) i).
Definition adjoint_result (g : grid) (v : list K) : list K :=
  vbuild (vlen g) (fun i => at_ v i * at_ (adjoint_scale g) i).
Definition conj_fun (f : nat -> K) : nat -> K := fun i => kconj (f i).
End Maxwell.
Arguments precond_left {K}. Arguments precond_right {K}. Arguments mask {K}. Arguments Phases {K}. Arguments conj_fun {K}. Arguments Grid {K}.
