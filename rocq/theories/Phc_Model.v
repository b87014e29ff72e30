(** Model of the photonic-crystal mode solver,
    /repo/spins/fdfd_solvers/phc_mode_solver.py. *)
From Verif Require Import Base CField Maxwell_Model.
Set Implicit Arguments.

(** the argument op_type *)
Inductive op_kind := Efield | Hfield | OtherKind.

Section Phc.
Variable K : cfield.
Variable g : grid K.
(** the phase factors that operators.curl_e and curl_h compute from bloch_vec and dxes;
    shift_orthogonal is zero *)
Variable ph : phases K.
Local Open Scope K_scope.
Local Notation N := (vlen g).
Local Notation mm := (mmul N).

(** efield_operator, lines 11-45; [s] is np.sqrt(epsilon).  mu is not used (line 24). *)
Definition eps_norm (s : nat -> K) : mat K := mdiag (fun i => 1 / s i).
Definition efield_operator (s : nat -> K) : mat K :=
  mm (mm (mm (eps_norm s) (curl_h g (uh ph) (wh ph))) (curl_e g (ue ph) (we ph))) (eps_norm s).
(** hfield_operator, lines 48-81; the two identity matrices it also returns are not used *)
Definition hfield_operator (eps : nat -> K) : mat K :=
  mm (mm (curl_e g (ue ph) (we ph)) (mdiag (fun i => 1 / eps i))) (curl_h g (uh ph) (wh ph)).

(** mode_solver, lines 84-158.  [eigs op k v0] is scipy.sparse.linalg.eigs with
    sigma = omega_appx ** 2: pairs of an eigenvalue and a column of the array of vectors.
    [ksqrt] is np.sqrt, [sim] the result of the FDFD simulation of lines 112-126.  The
    result pairs each frequency with its row of the transposed array. *)
Definition mode_solver (eigs : mat K -> nat -> option (list K) -> res (list (K * list K))) (ksqrt : K -> K)
    (sim : res (list K)) (num_modes : nat) (eps mu : nat -> K) (op_type : op_kind) (set_init_cond : bool)
    (init_vec : option (list K)) : res (list (K * list K)) :=
  let s i := ksqrt (eps i) in
  bind (match op_type with
        | Efield => Ok (efield_operator s)
        | Hfield => Ok (hfield_operator eps)
        | OtherKind => Err ValueError
        end) (fun op =>
  bind (match init_vec, set_init_cond with
        | None, true =>
            bind sim (fun E =>
            let v0 := match op_type with
                      | Efield => mv N (mdiag s) E
                      | _ => mv N (e2h g ph 1 (Some mu) None) E
                      end in
            eigs op num_modes (Some v0))
        | Some v, _ => eigs op 1%nat (Some v)
        | None, false => eigs op num_modes None
        end) (fun pairs =>
  let omega := map (fun p => ksqrt (fst p)) pairs in
  match op_type with
  | Efield =>
      if Nat.eqb (length pairs) 1 then Ok (combine omega (map (fun p => mv N (eps_norm s) (snd p)) pairs))
      (* line 156: the loop runs over the N rows of the array, vectors with one entry per
         mode; a row of another length than N cannot be multiplied, and a list has no
         transpose *)
      else if Nat.eqb N 0 || Nat.eqb (length pairs) N then Err AttributeError
      else Err ValueError
  | _ => Ok (combine omega (map snd pairs))
  end)).
End Phc.
Arguments eps_norm {K}.
