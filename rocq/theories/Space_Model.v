(** Model of the simulation space of the problem graph and of its materials:
    /repo/spins/invdes/problem_graph/simspace.py; materials of
    /repo/spins/material/material.py and /repo/spins/goos/material.py.
    Numbers are exact rationals. *)
From Verif Require Import QTac Select_Model.
From Coq Require Import ZArith Qround.
Set Implicit Arguments.
Open Scope Q_scope.

(** *** _round, simspace.py:158-170 *)
(** Python's round to an integer: the nearest one, the even one of two *)
Definition round_even (x : Q) : Z :=
  let f := Qfloor x in
  let r := x - inject_Z f in
  if qlt r (1 # 2) then f else
  if qlt (1 # 2) r then (f + 1)%Z else
  if Z.even f then f else (f + 1)%Z.
Definition ten (n : Z) : Q := Qpower 10 n.
(** round(value, n), as a reduced fraction *)
Definition round_digits (v : Q) (n : Z) : Q := Qred (inject_Z (round_even (v * ten n)) / ten n).
(** [lg v] is int(np.floor(np.log10(abs(v)))), None for zero, where int(-inf) raises OverflowError;
    UserError 0 stands for that *)
Definition round_sig (lg : Q -> option Z) (v : Q) : res Q :=
  match lg v with
  | Some e => Ok (round_digits v (- e + 6))
  | None => Err (UserError 0)
  end.

(** *** SimulationSpace, lines 37-149 *)
(** the type of selection matrix *)
Inductive seltype := Direct | FullDirect | Reduced | OtherType.
(** design_dims: of the design area, or the shape of the grids *)
Inductive dims := Dims2 (w h : nat) | Dims4 (n nx ny nz : nat).
Record instance := Inst { i_bg : field; i_sel : mat; i_cols : nat }.
Section Space.
Variable lg : Q -> option Z.
(** _create_grid of the background and of the foreground at a wavelength, lines 196-238 *)
Variables (grid_bg grid_fg : Q -> res field).
Variables (nx ny nz : nat) (sel : seltype).
(** lines 112-147: the new instance, and the design dimensions it sets *)
Definition make (w : Q) : res (instance * dims) :=
  bind (grid_bg w) (fun bg =>
  bind (grid_fg w) (fun fg =>
  match sel with
  | Direct => bind (selection_matrix nx ny nz bg fg) (fun sd =>
      let '(s, d) := sd in Ok (Inst bg s (fst d * snd d), Dims2 (fst d) (snd d)))
  | FullDirect =>
      Ok (Inst bg (fun r c => if Nat.eqb r c then vec nx ny nz fg r - vec nx ny nz bg r else 0) (3 * (nx * ny * nz)),
          Dims4 3 nx ny nz)
  | Reduced => bind (reduced_matrix nx ny nz bg fg) (fun sd =>
      let '(s, d) := sd in Ok (Inst bg s (fst d * snd d), Dims2 (fst d) (snd d)))
  | OtherType => Err NotImplementedError
  end)).
(** the cache, and the attribute _design_dims if it is set *)
Record space := Space { cache : list (Q * instance); design_dims : option dims }.
Fixpoint cached (l : list (Q * instance)) (w : Q) : option instance :=
  match l with [] => None | (w', i) :: r => if Qeq_bool w w' then Some i else cached r w end.
(** __call__, lines 96-149 *)
Definition call (s : space) (w : Q) : res instance * space :=
  match round_sig lg w with
  | Err e => (Err e, s)
  | Ok k =>
      match cached (cache s) k with
      | Some i => (Ok i, s)
      | None =>
          match make k with
          | Ok (i, d) => (Ok i, Space ((k, i) :: cache s) (Some d))
          | Err e => (Err e, s)
          end
      end
  end.
(** __init__, lines 40-66: [uniform] tells whether mesh.type is uniform *)
Definition create (uniform : bool) : res space :=
  if negb uniform then Err ValueError else
  match call (Space [] None) 1500 with
  | (Ok _, s) => Ok s
  | (Err e, _) => Err e
  end.
(** calls one after the other; exceptions are caught by the caller *)
Definition calls (s : space) (ws : list Q) : space := fold_left (fun s w => snd (call s w)) ws s.
(** get_fg_and_bg, lines 402-424, before the reshaping: the vectors of foreground and background *)
Definition get_fg_and_bg (s : space) (w : Q) : res ((nat -> Q) * (nat -> Q)) * space :=
  let '(r, s') := call s w in
  (bind r (fun i =>
     let bg := vec nx ny nz (i_bg i) in
     Ok (fun n => bg n + apply (i_sel i) (i_cols i) (fun _ => 1) n, bg)), s').
End Space.

(** *** materials *)
(** complex numbers: real and imaginary part *)
Definition cnum := (Q * Q)%type.
Definition csq (z : cnum) : cnum := (fst z * fst z - snd z * snd z, 2 * (fst z * snd z)).
(** the names of lines 354-363; [NOther] is any other string *)
Inductive mname := NAir | NSiO2 | NSi | NSi3N4 | NOther.
(** the columns of a csv file, line 378; each may be missing *)
Record csv := Csv { col_wl : option (list Q); col_n : option (list Q); col_k : option (list Q) }.
(** optplan.Material: index, mat_name, mat_file *)
Record matspec := MatSpec { mat_index : option cnum; mat_name : option mname; mat_file : option nat }.
Section Materials.
(** the tables of material.py, n and k at a wavelength; scipy's pchip_interpolate(x, y, at);
    reading of a csv file, None if there is no such file *)
Variable table : mname -> Q -> Q * Q.
Variable pchip : list Q -> list Q -> Q -> Q.
Variable read : nat -> option csv.
(** material.py:10-22, 77-79: CustomMaterial *)
Definition custom_index (wl n k : list Q) (w : Q) : Q * Q := (pchip wl n w, pchip wl k w).
(** Air, material.py:82-85; the other materials have tables *)
Definition refractive_index (m : mname) (w : Q) : Q * Q := match m with NAir => (1, 0) | _ => table m w end.
(** Material.eps, material.py:56-59, and eps_real, 51-54 *)
Definition mat_eps (nk : Q * Q) : cnum := csq (fst nk, - snd nk).
Definition mat_eps_real (nk : Q * Q) : Q := fst nk * fst nk - snd nk * snd nk.
(** _get_mat_index, simspace.py:331-399 *)
Definition get_mat_index (m : matspec) (w : Q) : res cnum :=
  match mat_index m with
  | Some z => Ok z
  | None =>
      match mat_name m with
      | Some NOther => Err ValueError
      | Some name => Ok (fst (refractive_index name w), 0)
      | None =>
          match mat_file m with
          | Some f =>
              match read f with
              | None => Err ValueError
              | Some d =>
                  match col_wl d, col_n d with
                  | None, _ | _, None => Err ValueError
                  | Some wl, Some n =>
                      let k := match col_k d with Some k => k | None => map (fun _ => 0) wl end in
                      let '(n', k') := custom_index (map (Qmult 1000) wl) n k w in
                      Ok (n', - k')
                  end
              end
          | None => Err ValueError
          end
      end
  end.
(** the permittivity drawn, e.g. lines 204, 221, 255, 313 *)
Definition drawn_eps (m : matspec) (w : Q) : res cnum := bind (get_mat_index m w) (fun z => Ok (csq z)).
(** goos/material.py:21-39: get_material keeps the index only; permittivity squares it, and
    None ** 2 raises TypeError, None.permittivity AttributeError *)
Definition goos_eps (m : option matspec) (w : Q) : res cnum :=
  match m with
  | None => Err AttributeError
  | Some m => match mat_index m with Some z => Ok (csq z) | None => Err TypeError end
  end.
End Materials.
