(** Model of the directions (gridlock/direction.py), of the monitors of optimization plans
    (invdes/problem_graph/creator_monitor.py), of dipole sources (fdfd_solvers/dipole.py) and of the
    dipole, plane wave and simulation nodes of plans (invdes/problem_graph/creator_em.py:67-147,
    208-254, 434-478).  Edge coordinates and positions are exact rationals, the other numbers real or
    complex; rounding is not modelled. *)
From Coq Require Import QArith Reals ZArith List.
From Verif Require Import Base CField GMath_Model CplxField QTac Grid_Model Maxwell_Model Wg_Model Wg_Model2 Fs_Model.
Set Implicit Arguments.
Local Open Scope R_scope.

(** *** gridlock/direction.py *)
(** np.linalg.norm *)
Definition norm (v : list R) : R := sqrt (fold_right Rplus 0 (map (fun x => x * x) v)).
(** np.argwhere(abs(vec) > delta).flatten(), lines 51-53 and 60 *)
Definition delta (v : list R) : R := 1 / 1000000 * norm v.
Definition above (v : list R) : list nat :=
  filter (fun i => if Rlt_dec (delta v) (Rabs (nth i v 0)) then true else false) (seq 0 (length v)).
(** axisvec2axis, lines 36-62, of a list or an array.  (A tuple raises TypeError in abs.) *)
Definition axisvec2axis (v : list R) : res nat :=
  match above v with
  | [i] => Ok i
  | _ => Err ValueError
  end.
(** np.sign *)
Definition npsign (x : R) : Z := if Rlt_dec 0 x then 1%Z else if Rlt_dec x 0 then (-1)%Z else 0%Z.
(** axisvec2polarity, lines 17-33 *)
Definition axisvec2polarity (v : list R) : res Z := bind (axisvec2axis v) (fun a => Ok (npsign (nth a v 0))).

(** *** positions: grid.pos2ind(r, which_shifts=None), grid.py:269-319.  The bounds of all three axes
    are checked first; a vector that does not have three entries raises GridError. *)
Definition edges := nat -> list Q.
Definition pos2ind3 (e : edges) (r : list Q) : res (nat -> nat) :=
  match r with
  | [x; y; z] => bind (pos2ind (e 0%nat) x) (fun i => bind (pos2ind (e 1%nat) y) (fun j => bind (pos2ind (e 2%nat) z) (fun k =>
      Ok (fun a => match a with 0 => i | 1 => j | _ => k end%nat))))
  | _ => Err GridError
  end.

(** *** creator_monitor.py *)
(** SimpleMonitor.eval, lines 45-46: the first input *)
Definition simple_monitor (A : Type) (inputs : list A) : res A := match inputs with x :: _ => Ok x | [] => Err IndexError end.
(** FieldMonitor.__init__, lines 59-85: the axis and the index of the slice.  None and the empty list
    are both false in a condition. *)
Definition given (A : Type) (o : option (list A)) : list A := match o with Some l => l | None => [] end.
Definition field_monitor (e : edges) (point : option (list Q)) (normal : option (list R)) : res (option (nat * nat)) :=
  match given point, given normal with
  | _ :: _, _ :: _ =>
      bind (axisvec2axis (given normal)) (fun a => bind (pos2ind3 e (given point)) (fun i =>
      if Nat.ltb a 3 then Ok (Some (a, i a)) else Err IndexError))
  | _, _ => Ok None
  end.
(** a field with the shape of its components *)
Record data := Data { shape_of : nat -> nat; value_at : field3 CC }.
(** lines 87-104 *)
Definition monitor_eval (g : grid CC) (sl : option (nat * nat)) (v : list CC) : res data :=
  bind (unvec g v) (fun f => Ok
    match sl with
    | None => Data (dim g) f
    | Some (a, ind) => Data (fun b => if Nat.eqb b a then 1%nat else dim g b)
        (fun c x y z => f c (if Nat.eqb a 0 then x + ind else x)%nat (if Nat.eqb a 1 then y + ind else y)%nat (if Nat.eqb a 2 then z + ind else z)%nat)
    end).

(** *** dipole.py:9-35.  Complex powers of the frequency and of the size of the cell are not
    modelled: both are real here.  (The square root of a negative power is nan in the program and
    zero here; a phase of zero divides by zero.) *)
Definition dipole_constant : R := 2661928208866846 / 100000000000000000.
Definition j_norm (omega dx power : R) : R := sqrt power / sqrt (dipole_constant * (omega * omega * (dx * dx * dx))).
(** a list index of Python *)
Definition pyaxis (a : Z) : res nat := if Z.leb 0 a && Z.ltb a 3 then Ok (Z.to_nat a) else if Z.leb (-3) a && Z.ltb a 0 then Ok (Z.to_nat (a + 3)) else Err IndexError.
Definition build_dipole_source (omega : R) (dx : nat -> nat -> R) (eps : field3 CC) (position : nat -> nat) (axis : Z) (power : R) (phase : CC) : res (field3 CC) :=
  bind (pyaxis axis) (fun a =>
  let d := dx a (position a) in
  let eps_source := eps a (position 0%nat) (position 1%nat) (position 2%nat) in
  let j : CC := (1 / eps_source * rl (j_norm omega d power) * phase / rl (cabs phase))%K in
  Ok (fun c x y z => if Nat.eqb c a && Nat.eqb x (position 0%nat) && Nat.eqb y (position 1%nat) && Nat.eqb z (position 2%nat) then j else 0%K)).
(** creator_em.py:208-254, without normalize_by_sim (Fs_Model) *)
Definition dipole_call (e : edges) (dx : nat -> nat -> R) (eps : field3 CC) (wlen : R) (position : list Q) (axis : Z) (power : R) (phase : option R) : res (field3 CC) :=
  let ph := match phase with Some p => p | None => 0 end in
  bind (pos2ind3 e position) (fun i => build_dipole_source (2 * PI / wlen) dx eps i axis power (turn ph)).

(** *** the plane wave node, creator_em.py:67-147, without normalize_by_sim *)
Record wave := Wave {
  w_center : nat -> Q; w_extents : nat -> Q; w_normal : list R; w_theta : R; w_psi : R; w_pol : R;
  w_border : option (Q * Q); w_power : R; w_overwrite : bool }.
(** [int(b // dx)] and border.append(0) *)
Definition border_cells (dx : Q) (b : option (Q * Q)) : nat -> Z := fun a =>
  match b with
  | Some (bx, by_) => match a with 0 => Qround.Qfloor (bx / dx) | 1 => Qround.Qfloor (by_ / dx) | _ => 0%Z end%nat
  | None => 0%Z
  end.
(** grid_utils.create_region_slices *)
Definition region_slices (e : edges) (center extents : nat -> Q) : res slices :=
  let one a := bind (region_slice (e a) (center a) (extents a)) (fun p => Ok (Z.of_nat (fst p), Z.of_nat (snd p))) in
  bind (one 0%nat) (fun x => bind (one 1%nat) (fun y => bind (one 2%nat) (fun z => Ok (fun a => match a with 0 => x | 1 => y | _ => z end%nat)))).
(** pml_layers: x-, x+, y-, y+, z-, z+ *)
Definition pml := nat -> Z.
Definition without_pml (p : pml) (k : vec3) : vec3 := fun a => if Z.eqb (p (2 * a)%nat) 0 && Z.eqb (p (2 * a + 1)%nat) 0 then k a else 0.
Definition plane_wave_call (e : edges) (dx : Q) (p : pml) (g : grid CC) (pos : places) (eps : field3 CC) (wlen : R) (w : wave) : res (field3 CC * option vec3) :=
  bind (axisvec2axis (w_normal w)) (fun axis =>
  bind (axisvec2polarity (w_normal w)) (fun s =>
  bind (region_slices e (w_center w) (w_extents w)) (fun sl =>
  bind (build_plane_wave_source g pos eps (2 * PI / wlen) axis sl (w_theta w) (w_psi w) (w_pol w) (Z.eqb s (-1)) (border_cells dx (w_border w)) (w_power w)) (fun r =>
  let k := without_pml p (snd (fst r)) in
  Ok (fst (fst r), if w_overwrite w then Some k else None))))).

(** *** create_fdfd_simulation, lines 456-478: the Bloch vector of the simulation.  params.get returns
    None for a Bloch vector that was not set; None means zero to the solvers. *)
Definition simulation_bloch (user : option vec3) (source : field3 CC * option vec3) : vec3 :=
  match snd source with
  | Some k => k
  | None => match user with Some k => k | None => fun _ => 0 end
  end.
