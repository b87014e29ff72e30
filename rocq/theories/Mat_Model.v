(** Model of the refractive index of the named materials with tables:
    /repo/spins/material/material.py:6-42 (reverse_arr, interpolate_using_wavelengths,
    interpolate_using_energy), 51-59 (eps_real, eps), and refractive_index of SiO2, Si, Si3N4 (tables in
    Mat_Data.v).
    scipy.interpolate.pchip_interpolate is not part of the repository; it is modelled after its
    documentation and source (PchipInterpolator._find_derivatives, _edge_case; cubic Hermite polynomials).
    Numbers are exact; one wavelength instead of an array. *)
From Verif Require Import QTac Mat_Data.
From Verif Require Space_Model.
From Coq Require Qabs.
Set Implicit Arguments.

Section Pchip.
Variables xs ys : list Q.
Local Notation n := (length xs).
Definition x_ (i : nat) : Q := nth i xs 0.
Definition y_ (i : nat) : Q := nth i ys 0.
Definition h_ (i : nat) : Q := x_ (S i) - x_ i.
Definition m_ (i : nat) : Q := (y_ (S i) - y_ i) / h_ i.
Definition same_sign (a b : Q) : bool := match a ?= 0, b ?= 0 with Eq, Eq | Lt, Lt | Gt, Gt => true | _, _ => false end.
(** _edge_case(h0, h1, m0, m1) *)
Definition edge (h0 h1 m0 m1 : Q) : Q :=
  let d := ((2 * h0 + h1) * m0 - h0 * m1) / (h0 + h1) in
  if negb (same_sign d m0) then 0 else
  if negb (same_sign m0 m1) && qlt (3 * Qabs.Qabs m0) (Qabs.Qabs d) then 3 * m0 else d.
(** the weighted harmonic mean of the slopes before and after an inner point *)
Definition inner (h0 h1 m0 m1 : Q) : Q :=
  if negb (same_sign m0 m1) || Qeq_bool m0 0 || Qeq_bool m1 0 then 0 else
  let w1 := 2 * h1 + h0 in let w2 := h1 + 2 * h0 in
  (w1 + w2) / (w1 / m0 + w2 / m1).
(** _find_derivatives *)
Definition d_ (i : nat) : Q :=
  if Nat.eqb n 2 then m_ 0 else
  if Nat.eqb i 0 then edge (h_ 0) (h_ 1) (m_ 0) (m_ 1) else
  if Nat.eqb i (n - 1) then edge (h_ (n - 2)) (h_ (n - 3)) (m_ (n - 2)) (m_ (n - 3)) else
  inner (h_ (i - 1)) (h_ i) (m_ (i - 1)) (m_ i).
(** the cubic polynomial of the interval i *)
Definition piece (i : nat) (x : Q) : Q :=
  let t := (x - x_ i) / h_ i in
  y_ i * ((1 + 2 * t) * (1 - t) * (1 - t)) + h_ i * d_ i * (t * (1 - t) * (1 - t)) +
  y_ (S i) * (t * t * (3 - 2 * t)) + h_ i * d_ (S i) * (t * t * (t - 1)).
(** the interval of a point; the first and the last are also used outside of the data *)
Fixpoint interval (l : list Q) (x : Q) : nat :=
  match l with
  | _ :: ((b :: _ :: _) as l') => if qlt x b then 0%nat else S (interval l' x)
  | _ => 0%nat
  end.
Definition increasing : bool := forallb (fun i => qlt (x_ i) (x_ (S i))) (seq 0 (n - 1)).
(** the constructor refuses data that are not strictly increasing, arrays of different lengths and fewer than two points *)
Definition pchip (x : Q) : res Q :=
  if negb (Nat.eqb n (length ys)) || Nat.ltb n 2 || negb increasing then Err ValueError else Ok (piece (interval xs x) x).
End Pchip.

(** interpolate_using_wavelengths, lines 10-22 *)
Definition interpolate_using_wavelengths (wavelength : Q) (wlens n k : list Q) : res (Q * Q) :=
  bind (pchip wlens n wavelength) (fun n' => bind (pchip wlens k wavelength) (fun k' => Ok (n', k'))).
(** interpolate_using_energy, lines 25-42: the constants of lines 35-36; numpy gives inf for the wavelength 0, here an error *)
Definition hc : Q := (4135667516 # 1000000000000000000000000) * 299792458.
Definition photon_energy (wavelength : Q) : Q := hc / (wavelength * (1 # 1000000000)).
Definition interpolate_using_energy (wavelength : Q) (n k En Ek : list Q) : res (Q * Q) :=
  if Qeq_bool wavelength 0 then Err ZeroDivisionError else
  bind (pchip (rev En) (rev n) (photon_energy wavelength)) (fun n' =>
  bind (pchip (rev Ek) (rev k) (photon_energy wavelength)) (fun k' => Ok (n', k'))).
Inductive tabled := TSiO2 | TSi | TSi3N4.
Definition table_index (m : tabled) (wavelength : Q) : res (Q * Q) :=
  match m with
  | TSiO2 => interpolate_using_energy wavelength SiO2_n SiO2_k SiO2_En SiO2_Ek
  | TSi => interpolate_using_energy wavelength Si_n Si_k Si_En Si_Ek
  | TSi3N4 => interpolate_using_energy wavelength Si3N4_n Si3N4_k Si3N4_eV Si3N4_eV
  end.
(** Material.eps, lines 56-59 *)
Definition table_eps (m : tabled) (wavelength : Q) : res Space_Model.cnum :=
  bind (table_index m wavelength) (fun nk => Ok (Space_Model.mat_eps nk)).
