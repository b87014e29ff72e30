(** Vocabulary of the statements about free space sources. *)
From Coq Require Import Reals ZArith.
From Verif Require Import Base CField GMath_Model CplxField Maxwell_Model Wg_Model Wg_Model2 Fs_Model.
Set Implicit Arguments.
Local Open Scope R_scope.

Definition dot (u v : vec3) : R := u 0%nat * v 0%nat + u 1%nat * v 1%nat + u 2%nat * v 2%nat.
Definition cross_prod (u v : vec3) : vec3 := fun a =>
  match a with
  | O => u 1%nat * v 2%nat - u 2%nat * v 1%nat
  | 1%nat => u 2%nat * v 0%nat - u 0%nat * v 2%nat
  | _ => u 0%nat * v 1%nat - u 1%nat * v 0%nat
  end.
Definition unit_vec (b : nat) : vec3 := fun a => if Nat.eqb a b then 1 else 0.
(** The directions that belong to the normal of the source plane: the axis itself and the two
    that follow it in the cyclic order x, y, z, x.  [along axis u v w] has the components u and v
    along these two and w along the axis. *)
Definition along (axis : nat) (u v w : R) : vec3 := fun a =>
  if Nat.eqb a axis then w else if Nat.eqb a (Nat.modulo (axis + 1) 3) then u else v.
(** direction of propagation of a beam with angles theta and psi; [s] is 1 or -1 *)
Definition direction (axis : nat) (s theta psi : R) : vec3 := along axis (sin theta * sin psi) (- s * sin theta * cos psi) (s * cos theta).
(** the direction of the electric field: turned by psi about the normal, then by the polarization
    angle about the direction of propagation *)
Definition polarized (axis : nat) (s theta psi pol : R) : vec3 := fun a =>
  let e1 := along axis (cos psi) (s * sin psi) 0 in
  cos pol * e1 a + sin pol * cross_prod (direction axis s theta psi) e1 a.
(** the place of component c of the electric field in cell (x, y, z) *)
Definition place (pos : places) (c x y z : nat) : vec3 := fun a => pos c a (pick a x y z).
Definition cscale_by (r : R) (v : vec3) : vec3 := fun a => r * v a.
Definition minus3 (u v : vec3) : vec3 := fun a => u a - v a.
(** The fundamental Gaussian beam of waist w0 around the point q in the direction n (a unit
    vector), with wave number k, as a function of the place: with zeta the distance from the
    waist along n and rho the distance from the beam axis,
      exp(-i k zeta) / (1 - i xi) * exp(- rho^2 / (w0^2 (1 - i xi))),  xi = zeta / (k w0^2 / 2) *)
Definition beam (k w0 : R) (q n p : vec3) : CC :=
  let d := minus3 p q in
  let zeta := dot d n in
  let rho2 := dot d d - zeta * zeta in
  let xi := zeta / (k * (w0 * w0) / 2) in
  (turn (- (k * zeta)) * (1 / (1 - ki * rl xi)) * cexp (- rl (rho2 / (w0 * w0)) / (1 - ki * rl xi)))%K.
(** a list of slices selects the whole grid across the axis *)
Definition whole_section (g : grid CC) (axis : nat) (sl : slices) : Prop := forall a, (a < 3)%nat -> a <> axis -> sl a = (0, Z.of_nat (dim g a))%Z.
(** the point whose coordinate along the axis is the third entry of the list, and whose
    coordinates along the two axes that follow are the first and the second entry *)
Definition permuted_center (axis : nat) (center : vec3) : vec3 := along axis (center 0%nat) (center 1%nat) (center 2%nat).
(** amplitude of a Gaussian beam of unit power in its waist *)
Definition waist_amplitude (eps_val w0 : R) : R := sqrt (/ sqrt eps_val) * 2 / (sqrt PI * w0).
(** the point at distance zeta from q along n and rho across, in the direction m *)
Definition beside (q n m : vec3) (zeta rho : R) : vec3 := fun a => q a + zeta * n a + rho * m a.
(** the same result: equal currents, wave vectors and slices, or the same error *)
Definition same_result (r r' : res (field3 CC * vec3 * slices)) : Prop :=
  match r, r' with
  | Ok (J, k, s), Ok (J', k', s') => (forall c x y z, J c x y z = J' c x y z) /\ k = k' /\ s = s'
  | Err e, Err e' => e = e'
  | _, _ => False
  end.
(** a solver is linear for real factors *)
Definition scaled_vec (a : R) (v : list CC) : list CC := map (fun x => x * rl a)%K v.
Definition linear (solve : list CC -> list CC -> list CC) : Prop := forall eps J a, solve eps (scaled_vec a J) = scaled_vec a (solve eps J).
(** the power that a source emits in the uniform medium whose permittivity is the average that
    normalize_source_by_sim takes *)
Definition emits (g : grid CC) (solve : list CC -> list CC -> list CC) (eps s : field3 CC) : R :=
  emitted g s (solve (vec g (fun _ _ _ _ => eps_average g s eps)) (vec g s)).
(** the value in the next cell along the axis a; beyond the last cell that of the first one, times
    the Bloch phase over the length of the grid *)
Definition ahead (g : grid CC) (k : vec3) (f : array CC) (a : nat) : array CC := fun x y z =>
  let next := Nat.modulo (pick a x y z + 1) (dim g a) in
  ((if Nat.eqb (pick a x y z + 1) (dim g a) then turn (- (k a * total_length (dxe g) (dim g) a)) else 1)
   * match a with O => f next y z | 1%nat => f x next z | _ => f x y next end)%K.
Definition slope (g : grid CC) (k : vec3) (f : array CC) (a : nat) : array CC := fun x y z =>
  ((ahead g k f a x y z - f x y z) / dxe g a (pick a x y z))%K.
(** the magnetic field of an electric field: curl E = - i omega H with differences for
    derivatives *)
Definition magnetic (g : grid CC) (omega : R) (k : vec3) (E : field3 CC) : field3 CC := fun c x y z =>
  let u := Nat.modulo (c + 1) 3 in let v := Nat.modulo (c + 2) 3 in
  ((slope g k (E v) u x y z - slope g k (E u) v x y z) / (- ki * rl omega))%K.
(** the value in the cell before, likewise *)
Definition behind (g : grid CC) (k : vec3) (f : array CC) (a : nat) : array CC := fun x y z =>
  let last := Nat.modulo (pick a x y z + dim g a - 1) (dim g a) in
  ((if Nat.eqb (pick a x y z) 0 then turn (k a * total_length (dxh g) (dim g) a) else 1)
   * match a with O => f last y z | 1%nat => f x last z | _ => f x y last end)%K.
Definition slope_back (g : grid CC) (k : vec3) (f : array CC) (a : nat) : array CC := fun x y z =>
  ((f x y z - behind g k f a x y z) / dxh g a (pick a x y z))%K.
Definition curl_with (d : array CC -> nat -> array CC) (E : field3 CC) : field3 CC := fun c x y z =>
  let u := Nat.modulo (c + 1) 3 in let v := Nat.modulo (c + 2) 3 in (d (E v) u x y z - d (E u) v x y z)%K.
(** the left hand side of the wave equation curl curl E - omega^2 eps E = - i omega J that
    simulations solve, for the Bloch vector k *)
Definition wave_operator (g : grid CC) (eps : field3 CC) (omega : R) (k : vec3) (E : field3 CC) : field3 CC := fun c x y z =>
  (curl_with (slope_back g k) (curl_with (slope g k) E) c x y z - rl (omega * omega) * eps c x y z * E c x y z)%K.
(** the power that crosses a window, as the code counts it: the sum of component [axis] of
    E x conj H times the area, with E taken one cell further; without the factor 1/2 *)
Definition shifted (g : grid CC) (a : nat) (f : array CC) : array CC := fun x y z =>
  let next := Nat.modulo (pick a x y z + 1) (dim g a) in
  match a with O => f next y z | 1%nat => f x next z | _ => f x y next end.
Definition cross_at3 (u v : nat -> CC) (c : nat) : CC :=
  let i := Nat.modulo (c + 1) 3 in let j := Nat.modulo (c + 2) 3 in (u i * v j - u j * v i)%K.
Definition face (g : grid CC) (a x y z : nat) : CC :=
  let i := Nat.modulo (a + 1) 3 in let j := Nat.modulo (a + 2) 3 in (dxe g i (pick i x y z) * dxe g j (pick j x y z))%K.
Definition crossing (g : grid CC) (E H : field3 CC) (axis : nat) (window : slices) : R :=
  cabs (sum3 g (fun x y z => if in_slices g window x y z
                             then face g axis x y z * cross_at3 (fun c => shifted g axis (E c) x y z) (fun c => kconj (H c x y z)) axis
                             else 0))%K.
(** a window without its border *)
Definition inner_window (sl : slices) (b : nat -> Z) : slices := fun a => (fst (sl a) + b a, snd (sl a) - b a)%Z.
(** all cells have the size h *)
Definition even_grid (g : grid CC) (h : R) : Prop := forall a i, dxe g a i = rl h /\ dxh g a i = rl h.
(** the list of slices after n calls of build_gaussian_source with it *)
Fixpoint calls g pos eps omega w0 center axis theta psi pol back power (n : nat) (sl : slices) : slices :=
  match n with O => sl | S n => snd (build_gaussian_source g pos eps omega w0 center axis (calls g pos eps omega w0 center axis theta psi pol back power n sl) theta psi pol back power) end.
