(** Vocabulary of the statements about the wave operators. *)
From Verif Require Import Base CField Maxwell_Model.
From Coq Require Import ZArith.
Set Implicit Arguments.

Section Spec.
Variable K : cfield.
Local Open Scope K_scope.
(** no Bloch vector: all phase factors are 1 *)
Definition one (_ : nat) : K := 1.
Definition no_bloch : phases K := Phases one one one one.
(** the phase factors of the opposite Bloch vector, the two cell lists being exchanged;
    when both lists have the same total length this is the opposite Bloch vector *)
Definition opposite (ph : phases K) : phases K := Phases (wh ph) (uh ph) (we ph) (ue ph).
Definition conj_phases (ph : phases K) : phases K :=
  Phases (conj_fun (ue ph)) (conj_fun (we ph)) (conj_fun (uh ph)) (conj_fun (wh ph)).
(** the factors of the two boundaries are inverse to each other *)
Definition inverse_factors (u w : nat -> K) : Prop := forall a, u a * w a = 1.
(** no cell has size zero *)
Definition nonzero_cells (g : grid K) : Prop :=
  forall a i, (a < 3)%nat -> (i < dim g a)%nat -> dxe g a i <> 0 /\ dxh g a i <> 0.
Definition real_cells (g : grid K) : Prop :=
  forall a i, (a < 3)%nat -> (i < dim g a)%nat -> kconj (dxe g a i) = dxe g a i /\ kconj (dxh g a i) = dxh g a i.
Definition nonzero_opt (N : nat) (mu : option (nat -> K)) : Prop :=
  match mu with None => True | Some m => forall i, (i < N)%nat -> m i <> 0 end.
Definition real_opt (N : nat) (mu : option (nat -> K)) : Prop :=
  match mu with None => True | Some m => forall i, (i < N)%nat -> kconj (m i) = m i end.
(** matrices are read within their size *)
Definition meq (N : nat) (A B : mat K) : Prop := forall i j, (i < N)%nat -> (j < N)%nat -> A i j = B i j.
Definition symmetric (N : nat) (A : mat K) : Prop := forall i j, (i < N)%nat -> (j < N)%nat -> A i j = A j i.
Definition hermitian (N : nat) (A : mat K) : Prop := forall i j, (i < N)%nat -> (j < N)%nat -> A i j = kconj (A j i).
Definition vscale (a : K) (v : list K) : list K := map (fun x => a * x) v.
Definition vsub (v w : list K) : list K := map (fun p => fst p - snd p) (combine v w).
Definition vneg (v : list K) : list K := map kopp v.
Definition vconj (v : list K) : list K := map kconj v.
Definition zeros (N : nat) : list K := repeat 0 N.
(** values of a function on the whole lattice, on the cells of the grid *)
Definition lattice := (nat -> Z) -> K.
Definition step (a : nat) (d : Z) (p : nat -> Z) : nat -> Z := fun b => if Nat.eqb b a then (p b + d)%Z else p b.
Definition cell (g : grid K) (t : nat) : nat -> Z := fun a => Z.of_nat (coord g a t).
Definition restrict (g : grid K) (F : lattice) : list K := vbuild (cellsn g) (fun t => F (cell g t)).
(** only the three axes matter *)
Definition extensional (F : lattice) : Prop := forall p q, (forall a, (a < 3)%nat -> p a = q a) -> F p = F q.
(** F beyond the period along [axis] is u times F shifted sideways by [so]; F is
    quasi-periodic along the other axes *)
Definition quasi_periodic (g : grid K) (u : nat -> K) (axis : nat) (so : nat -> Z) (F : lattice) : Prop :=
  (forall p, F (step axis (Z.of_nat (dim g axis)) p) = u axis * F (fun b => (p b + so b)%Z)) /\
  (forall b p, (b < 3)%nat -> b <> axis -> F (step b (Z.of_nat (dim g b)) p) = u b * F p).
(** P_left A P_right *)
Definition preconditioned (g : grid K) (p : nat -> K) (A : mat K) : mat K :=
  mmul (vlen g) (mmul (vlen g) (precond_left p) A) (precond_right p).
Definition conj_opt (mu : option (nat -> K)) : option (nat -> K) := option_map conj_fun mu.
(** the cell before and after t along an axis, periodically *)
Definition moved (g : grid K) (a t k : nat) : nat :=
  let c b := (if Nat.eqb b a then (coord g b t + k) mod dim g b else coord g b t)%nat in
  (c 0 + dim g 0 * (c 1 + dim g 1 * c 2))%nat.
Definition next_cell (g : grid K) (a t : nat) : nat := moved g a t 1.
Definition prev_cell (g : grid K) (a t : nat) : nat := moved g a t (dim g a - 1).
(** component r of a x b *)
Definition cross_product (x y : nat -> K) (r : nat) : K :=
  match r with
  | 0 => x 1%nat * y 2%nat - x 2%nat * y 1%nat
  | 1 => x 2%nat * y 0%nat - x 0%nat * y 2%nat
  | _ => x 0%nat * y 1%nat - x 1%nat * y 0%nat
  end.
Definition face_area (g : grid K) (r t : nat) : K :=
  match r with
  | 0 => dxe g 1 (coord g 1 t) * dxe g 2 (coord g 2 t)
  | 1 => dxe g 0 (coord g 0 t) * dxe g 2 (coord g 2 t)
  | _ => dxe g 0 (coord g 0 t) * dxe g 1 (coord g 1 t)
  end.
Definition volume (g : grid K) (t : nat) : K := dxe g 0 (coord g 0 t) * dxe g 1 (coord g 1 t) * dxe g 2 (coord g 2 t).
(** value of component c at cell t of a vectorized field *)
Definition comp (g : grid K) (v : list K) (c t : nat) : K := at_ v (c * cellsn g + t).
(** H . curl E - E . curl H at a cell *)
Definition power_density (g : grid K) (e h : list K) (t : nat) : K :=
  fsum 3 (fun c => comp g (mv (vlen g) (curl_e g one one) e) c t * comp g h c t
                 - comp g e c t * comp g (mv (vlen g) (curl_h g one one) h) c t).
(** divergence formed with a list of derivative matrices *)
Definition divergence (g : grid K) (D : nat -> mat K) (v : list K) : list K :=
  vbuild (cellsn g) (fun t => fsum 3 (fun a => at_ (mv (cellsn g) (D a) (part g v a)) t)).
Definition gradient (g : grid K) (D : nat -> mat K) (v : list K) : list K :=
  mv (cellsn g) (D 0%nat) v ++ mv (cellsn g) (D 1%nat) v ++ mv (cellsn g) (D 2%nat) v.
End Spec.
Arguments vscale {K}. Arguments vsub {K}. Arguments vneg {K}. Arguments vconj {K}. Arguments meq {K}. Arguments symmetric {K}. Arguments hermitian {K}. Arguments nonzero_opt {K}. Arguments real_opt {K}. Arguments inverse_factors {K}. Arguments step : clear implicits.
Arguments preconditioned {K}. Arguments conj_opt {K}. Arguments cross_product {K}.
