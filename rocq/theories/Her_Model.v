(** Model of HermiteParam, spins/invdes/parametrization/parametrization.py:332-473, with the
    methods it has from Parametrization (lines 16-117).

    The matrices made by cubic_utils (geometry matrix, its reverse, the matrix of derivatives,
    the interpolation) are arguments; see Cub_Model for the ones of CubicParam.  Numbers are
    real; bounds are two numbers. *)
From Coq Require Import Reals List.
From Verif Require Import Base.
Import ListNotations.
Open Scope R_scope.

(** a matrix by its entries; a row times a vector *)
Definition matrix := nat -> nat -> R.
Fixpoint dot (c : nat) (row : nat -> R) (v : list R) : R :=
  match v with [] => 0 | x :: r => row c * x + dot (S c) row r end.
Definition times (rows : nat) (A : matrix) (v : list R) : list R := map (fun i => dot 0 (A i) v) (seq 0 rows).

(** a number or an array *)
Inductive value := Scalar (c : R) | Array (l : list R).
Record hparam := HParam {
  h_cols : nat; h_rows : nat;      (* shape of geometry_matrix *)
  h_reverse : matrix;              (* reverse_geometry_matrix, h_cols x h_rows *)
  h_fine : nat; h_vec2f : matrix;  (* vec2f, h_fine x h_cols *)
  h_vector : list R; h_k : R; h_lower : R; h_upper : R }.
Definition set_vector (p : hparam) (v : list R) : hparam :=
  HParam (h_cols p) (h_rows p) (h_reverse p) (h_fine p) (h_vec2f p) v (h_k p) (h_lower p) (h_upper p).
(** lines 440-441 *)
Definition set_k (p : hparam) (k : R) : hparam :=
  HParam (h_cols p) (h_rows p) (h_reverse p) (h_fine p) (h_vec2f p) (h_vector p) k (h_lower p) (h_upper p).
(** lines 352-428, __init__; [der] is derivative_matrix with [dcols] columns and [rows] rows.
    k is 4 at first (line 370); bounds that are given replace the two others (lines 423-428) *)
Definition hermite_param (init : value) (cols rows dcols fine : nat) (reverse der vec2f : matrix) (lower upper : R) (bounds : option (R * R)) : res hparam :=
  bind (match init with
        | Scalar c => Ok (repeat c cols)
        | Array l =>
            if Nat.eqb (length l) cols then Ok l
            else if Nat.eqb (length l) rows then Ok (times cols reverse l)
            else if Nat.eqb (length l) dcols then Ok (times cols reverse (times rows der l))
            else Err ValueError
        end) (fun v =>
  let (lo, up) := match bounds with Some b => b | None => (lower, upper) end in
  Ok (HParam cols rows reverse fine vec2f v 4 lo up)).
(** lines 430-432 *)
Definition get_structure (p : hparam) : list R :=
  map (fun z => 1 / (1 + exp (- h_k p * (2 * z - 1)))) (times (h_fine p) (h_vec2f p) (h_vector p)).
(** lines 434-438: entry (i, j) of the gradient *)
Definition gradient (p : hparam) : matrix := fun i j =>
  let z := nth i (times (h_fine p) (h_vec2f p) (h_vector p)) 0 in
  2 * h_k p * exp (- h_k p * (2 * z - 1)) / (1 + exp (- h_k p * (2 * z - 1))) ^ 2 * h_vec2f p i j.
(** lines 443-444, np.clip *)
Definition project (p : hparam) : hparam := set_vector p (map (fun t => Rmin (Rmax t (h_lower p)) (h_upper p)) (h_vector p)).
(** lines 446-447 and 77-92 *)
Definition to_vector (p : hparam) : list R := h_vector p.
(** lines 449-462 *)
Definition decode (p : hparam) (x : value) : res hparam :=
  match x with
  | Scalar c => Ok (set_vector p (repeat c (h_cols p)))
  | Array l =>
      if Nat.eqb (length l) (h_cols p) then Ok (set_vector p l)
      else if Nat.eqb (length l) (h_rows p) then Ok (set_vector p (times (h_cols p) (h_reverse p) l))
      else Err ValueError
  end.
(** lines 94-97 *)
Definition from_vector (p : hparam) (x : value) : res hparam := bind (decode p x) (fun q => Ok (project q)).
(** lines 464-472: the dictionary with vector and sigmoid_strength *)
Definition serialize (p : hparam) : list R * R := (to_vector p, h_k p).
Definition deserialize (p : hparam) (s : list R * R) : res hparam := bind (from_vector p (Array (fst s))) (fun q => Ok (set_k q (snd s))).
(** lines 58-65: not overridden, so there are no bounds for optimizers *)
Definition get_bounds (p : hparam) : option (list R * list R) := None.
