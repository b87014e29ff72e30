(** Model of the overlap with a waveguide mode:
    /repo/spins/fdfd_tools/operators.py:450-477 (avgf, avgb), 731-799 (poynting_e_cross,
    poynting_h_cross) and /repo/spins/fdfd_solvers/waveguide_mode.py:478-547
    (compute_overlap_e), 933-1010 (build_overlap).
    As in Wg_Model.v the polarity is [back], slices are given by their first indices [st] and
    lengths [len], slices[axis] selects the one index st axis, and the eigenvector with the root
    of its eigenvalue is an argument.  Numbers are exact. *)
From Coq Require Import Reals List.
From Verif Require Import Base CField GMath_Model CplxField Maxwell_Model Wg_Model Wg_Model2 Fs_Model.
Set Implicit Arguments.

Section Cross.
Variable K : cfield.
Local Open Scope K_scope.
Variable g : grid K.
Definition madd (A B : mat K) : mat K := fun i j => A i j + B i j.
(** avgf, avgb, lines 450-477 *)
Definition avgf (a : nat) : mat K := mscale (1 / two K) (madd meye (shift_op g a)).
Definition avgb (a : nat) : mat K := mscale (1 / two K) (madd meye (rotation_matrix g a (-1) (fun _ => 1) (fun _ => 1) no_shift)).
(** sparse.diags of a component times the cell sizes along its axis, and of cell sizes *)
Definition diag_e (e : list K) (c : nat) : mat K := mdiag (fun t => at_ (part g e c) t * dxe g c (coord g c t)).
Definition diag_h (h : list K) (c : nat) : mat K := mdiag (fun t => at_ (part g h c) t * dxh g c (coord g c t)).
Definition dag (c : nat) : mat K := mdiag (fun t => dxe g c (coord g c t)).
Definition dbg (c : nat) : mat K := mdiag (fun t => dxh g c (coord g c t)).
(** poynting_e_cross, lines 731-767 *)
Definition poynting_e_cross (e : list K) : mat K :=
  let mm := mmul (cellsn g) in
  let p f c o := mm (mm (mm (avgf f) (diag_e e c)) (avgb c)) (dbg o) in
  bmat (cellsn g) (fun r c => match r, c with
    | 0, 1 => mneg (p 0 2 1) | 0, 2 => p 0 1 2
    | 1, 0 => p 1 2 0 | 1, 2 => mneg (p 1 0 2)
    | 2, 0 => mneg (p 2 1 0) | 2, 1 => p 2 0 1
    | _, _ => fun _ _ => k0
    end)%nat.
(** poynting_h_cross, lines 770-799 *)
Definition poynting_h_cross (h : list K) : mat K :=
  let mm := mmul (cellsn g) in
  let p b c f o := mm (mm (mm (avgb b) (diag_h h c)) (avgf f)) (dag o) in
  bmat (cellsn g) (fun r c => match r, c with
    | 0, 1 => mneg (p 1 2 0 1) | 0, 2 => p 2 1 0 2
    | 1, 0 => p 0 2 1 0 | 1, 2 => mneg (p 2 0 1 2)
    | 2, 0 => mneg (p 0 1 2 0) | 2, 1 => p 1 0 2 1
    | _, _ => fun _ _ => k0
    end)%nat.
(** the vector dn @ ds @ (-h_cross + e_cross @ e2h), lines 523-539.  [window] is where domain is 1 *)
Definition inside (st len : nat -> nat) (x y z : nat) : bool :=
  forallb (fun k => Nat.leb (st k) (pick k x y z) && Nat.ltb (pick k x y z) (st k + len k)) (seq 0 3).
Definition overlap_row (axis : nat) (st len : nat -> nat) (omega : K) (mu : option (field3 K)) (E H : field3 K) : list K :=
  let N := vlen g in
  let domain : field3 K := fun _ x y z => if inside st len x y z then 1 else 0 in
  let dn i := if Nat.eqb (Nat.div i (cellsn g)) axis then 1 else 0 in
  let ones : nat -> K := fun _ => 1 in
  let to_h := e2h g (Phases ones ones ones ones) omega (option_map (fun m => at_ (vec g m)) mu) None in
  let M := madd (mneg (poynting_h_cross (vec g H))) (mmul N (poynting_e_cross (vec g E)) to_h) in
  vbuild N (fun j => fsum N (fun i => dn i * at_ (vec g domain) i * M i j)).
End Cross.

Local Open Scope R_scope.
(** np.real(dxes[..][axis]).cumsum() *)
Definition cumsum (d : nat -> CC) (l : nat) : R := fold_right Rplus 0 (map (fun i => re (d i)) (seq 0 (S l))).
Definition at_plane (axis s : nat) (f : array CC) : array CC := fun x y z =>
  match axis with 0 => f s y z | 1 => f x s z | _ => f x y s end%nat.
(** Ee and He, lines 509-520; [a] is a_E or a_H *)
Definition continue_field (axis : nat) (back : bool) (s : nat) (k : CC) (a : nat -> R) (F : field3 CC) : field3 CC := fun c x y z =>
  (cexp (- polarity CC back * ki * k * rl (a (pick axis x y z) - a s)) * at_plane axis s (F c) x y z)%K.
Definition vdot (g : grid CC) (v w : list CC) : CC := fsum (vlen g) (fun i => at_ v i * at_ w i)%K.
(** compute_overlap_e, lines 478-547; if norm_factor is zero the code divides by it and returns
    nan: an error here *)
Definition compute_overlap_e (g : grid CC) (axis : nat) (back : bool) (st len : nat -> nat) (omega k : CC) (mu : option (field3 CC)) (E H : field3 CC) : res (field3 CC) :=
  let s := st axis in
  let Ee := continue_field axis back s k (cumsum (dxe g axis)) E in
  let He := continue_field axis back s k (cumsum (dxh g axis)) H in
  let o := overlap_row g axis st len omega mu Ee He in
  let norm := cabs (vdot g o (vec g Ee)) in
  if Req_EM_T norm 0 then Err ZeroDivisionError else
  Ok (unvec_or g (map (fun v => v / rl norm)%K o)).
(** build_overlap, lines 933-1010; mu = None is the constant 1 *)
Definition build_overlap (g : grid CC) (axis : nat) (back : bool) (st len : nat -> nat) (omega : CC) (eps : field3 CC) (mu : option (field3 CC)) (power : R)
    (v : array CC * array CC) (beta : CC) : res (field3 CC) :=
  let m : field3 CC := match mu with Some m => m | None => fun _ _ _ _ => (1 : CC)%K end in
  let g2 := plane g axis st len in
  let eps2 := in_plane axis st eps in let mu2 := in_plane axis st m in
  bind (norm_factor g2 (v2e g2 omega eps2 mu2 beta v) (v2h g2 mu2 beta v)) (fun nf =>
  let k := corrected_solvers beta in
  let (E, H) := solve_waveguide_mode cexp g axis back st len omega eps m v beta nf k in
  let phase := field_phase g E in
  bind (compute_overlap_e g axis back st len omega k mu (fun c x y z => (E c x y z / phase)%K) (fun c x y z => (H c x y z / phase)%K)) (fun C =>
  Ok (fun c x y z => (C c x y z * rl (sqrt power))%K))).
