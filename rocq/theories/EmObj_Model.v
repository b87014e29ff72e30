(** Model of the objectives of /repo/spins/invdes/problem/emobjective.py (EmObjective, Overlap,
    BasicOverlapObjective, PhaseOverlapObjective) over the simulation and the adjoint simulation of
    /repo/spins/invdes/problem/simulation.py.

    Simplifications.  Numbers are exact; the solver is LocalMatrixSolver.solve (model [solve] of
    Maxwell_Model.v) with mu, pec and pmc None, no symmetry, and a real frequency.  [conj_phases
    (opposite ph)] are the phase factors that the same Bloch vector gives for the conjugated cell
    sizes, the total lengths of the two lists of cells being equal.  Where numpy would produce nan
    the model has the error [ValueError].  The vectors of the overlap modes are given ([wg] is what
    the waveguide solver returns). *)
From Coq Require Import Reals.
From Verif Require Import Base CField Maxwell_Model Maxwell_Spec SimCache_Model GMath_Model GMath_Proofs CplxField.
From Verif Require Obj_Model Adj_Model.
Set Implicit Arguments.
Local Open Scope R_scope.

(** np.array_equal for real arrays *)
Fixpoint samer (a b : list R) : bool :=
  match a, b with
  | [], [] => true
  | x :: a', y :: b' => (if Req_EM_T x y then true else false) && samer a' b'
  | _, _ => false
  end.

(** An objective: calculate_f, calculate_partial_df_dx, calculate_partial_df_dz (emobjective.py:61-68;
    the last is 0 for all objectives of the file) *)
Record objective := Objective {
  o_f : list C -> list R -> res R;
  o_dx : list C -> list R -> res (list C);
  o_dz : list C -> list R -> list R }.

Section Em.
Variable g : grid CC.
Variable ph : phases CC.
Variables p pc : nat -> C.   (* square roots of the preconditioners: of the cells and of the conjugated cells *)
Variable inner : mat CC -> list C -> list C.
Variable omega : R.
Variable src : list C.       (* fdfd_tools.vec(self.J) *)
Variable bg : list C.        (* fdfd_tools.vec(self.base_epsilon) *)
Variable S : nat -> nat -> C.  (* selection_matrix, with [n] columns *)
Variable n : nat.
Local Notation N := (vlen g).

(** FdfdSimulation.get_epsilon, simulation.py:69-73 *)
Definition get_epsilon (z : list R) : res (list C) :=
  if Nat.eqb (length z) n then
    Ok (vbuild (K:=CC) N (fun k => cadd (at_ (K:=CC) bg k) (fsum (K:=CC) n (fun i => cmul (S k i) (creal (nth i z 0))))))
  else Err ValueError.
(** FdfdSimulation._run_solver, simulation.py:113-133 *)
Definition run_fields (z : list R) : res (list C) :=
  bind (get_epsilon z) (fun eps => Adj_Model.run g ph p inner omega false src eps).
(** AdjointFdfdSimulation._run_solver, simulation.py:188-259 *)
Definition run_adjoint_sim (z : list R) (J : list C) : res (list C) :=
  bind (get_epsilon z) (fun eps =>
  bind (solve (conj_grid g) inner pc
          (e_full (conj_grid g) (conj_phases (opposite ph)) (kconj (c:=CC) (creal omega)) (conj_fun (K:=CC) (at_ (K:=CC) eps)) None None None)
          (kconj (c:=CC) (creal omega)) (adjoint_source g J) false false false)
       (fun v => Ok (adjoint_result g v))).

(** the two caches (simulation.py:63, 148) and a history of simulations *)
Record sim := mkSim { s_cache : cache (list R) (list C); s_adj : cache (list R * list C) (list C) }.
Definition new_sim (cache_size : nat) : sim := mkSim (empty_cache _ _ cache_size) (empty_cache _ _ cache_size).
(** FdfdSimulation.simulate, simulation.py:75-111 *)
Definition sim_fields (s : sim) (z : list R) : sim * res (list C) :=
  let '(c, r, _) := simulate samer run_fields (s_cache s) z in (mkSim c (s_adj s), r).
(** AdjointFdfdSimulation.simulate, simulation.py:151-186 *)
Definition sim_adjoint (s : sim) (z : list R) (J : list C) : sim * res (list C) :=
  let '(c, r, _) := simulate (fun k k' => samer (fst k) (fst k') && Adj_Model.same (snd k) (snd k'))
                             (fun k => run_adjoint_sim (fst k) (snd k)) (s_adj s) (z, J) in
  (mkSim (s_cache s) c, r).
Inductive call := CFields (z : list R) | CAdjoint (z : list R) (J : list C).
Definition do_call (s : sim) (c : call) : sim :=
  match c with CFields z => fst (sim_fields s z) | CAdjoint z J => fst (sim_adjoint s z J) end.
Definition do_calls (s : sim) (l : list call) : sim := fold_left do_call l s.

(** calculate_objective_function, emobjective.py:56-59; [z] is param.get_structure() *)
Definition em_value (o : objective) (s : sim) (z : list R) : sim * res R :=
  let (s1, r) := sim_fields s z in (s1, bind r (fun E => o_f o E z)).
(** calculate_df_dz, lines 43-54: 2 Re(d^H B) with B = omega^2 diag(E) S *)
Definition df_dz (d E : list C) : list R :=
  map (fun i => 2 * fst (fsum (K:=CC) N (fun k => cmul (cconj (at_ (K:=CC) d k)) (cmul (cmul (creal (omega * omega)) (at_ (K:=CC) E k)) (S k i))))) (seq 0 n).
(** calculate_gradient, lines 31-41; [jac] is param.calculate_gradient(), with [m] columns *)
Definition pull_back (m : nat) (jac : list (list R)) (v : list R) : list R :=
  map (fun j => Obj_Model.rsum (map (fun rv => nth j (fst rv) 0 * snd rv) (combine jac v))) (seq 0 m).
Definition em_gradient (o : objective) (s : sim) (z : list R) (m : nat) (jac : list (list R)) : sim * res (list R) :=
  let (s1, r1) := sim_fields s z in
  match r1 with
  | Err e => (s1, Err e)
  | Ok E =>
      match o_dx o E z with
      | Err e => (s1, Err e)
      | Ok px =>
          let (s2, r2) := sim_adjoint s1 z (Adj_Model.adjoint_current omega px) in
          (s2, bind r2 (fun d =>
                 Ok (pull_back m jac (map (fun xy => fst xy + snd xy) (combine (df_dz d E) (o_dz o E z))))))
      end
  end.

(** ** Overlap modes *)
(** out['type']: wgmode, arbitrary, or anything else *)
Inductive mode_type := Wgmode | Arbitrary | Other.
(** the dictionary [out]; [wg] is the overlap vector computed by the waveguide solver *)
Record mode := Mode { m_type : mode_type; m_wg : res (list C); m_overlap : option (list C);
                      m_power : option (list R); m_trans : option C }.
Definition lookup {A} (o : option A) : res A := match o with Some a => Ok a | None => Err KeyError end.
(** C.H @ x where the column of C is the conjugated vector: the sum of products *)
Definition project (c x : list C) : C := fsum (K:=CC) N (fun k => cmul (at_ (K:=CC) c k) (at_ (K:=CC) x k)).

(** Overlap._compute_objective, lines 114-151: the vector and the transmission *)
Definition overlap_new (out : mode) : res (list C * C) :=
  bind (match m_type out with Wgmode => m_wg out | Arbitrary => lookup (m_overlap out) | Other => Err (UserError 0) end)
       (fun c => Ok (c, match m_trans out with Some t => t | None => c0 end)).
(** Overlap.calculate_f, lines 163-168, and calculate_partial_df_dx, lines 153-161 *)
Definition overlap_obj (ct : list C * C) : objective :=
  let (c, T) := ct in
  Objective (fun x _ => Ok (cabs (csub (project c x) T)))
            (fun x _ => let e := csub (project c x) T in
                        if czero e then Err ValueError
                        else Ok (map (cmul (cmul (creal (1 / 2)) (cscale (/ cabs e) (cconj e)))) c))
            (fun _ z => map (fun _ => 0) z).
(** get_overlap_norm2, lines 177-185 *)
Definition overlap_norm2 (c x : list C) : R := cabs (project c x) ^ 2.

(** np.min and np.max of a nonempty list; np.sqrt of a negative number is nan *)
Definition list_min (l : list R) : res R := match l with [] => Err ValueError | a :: l' => Ok (fold_left Rmin l' a) end.
Definition list_max (l : list R) : res R := match l with [] => Err ValueError | a :: l' => Ok (fold_left Rmax l' a) end.
Definition np_sqrt (x : R) : res R := if Rle_dec 0 x then Ok (sqrt x) else Err ValueError.
(** BasicOverlapObjective._compute_objective, lines 215-261: for every mode the vector, alpha and
    beta; the error branch reads an attribute of the dictionary *)
Definition basic_mode (out : mode) : res (list C * (R * R)) :=
  bind (match m_type out with Wgmode => m_wg out | Arbitrary => lookup (m_overlap out) | Other => Err AttributeError end) (fun c =>
  bind (lookup (m_power out)) (fun pw =>
  bind (list_min pw) (fun lo => bind (np_sqrt lo) (fun a =>
  bind (list_max pw) (fun hi => bind (np_sqrt hi) (fun b => Ok (c, (a, b)))))))).
Fixpoint mapM {A B} (f : A -> res B) (l : list A) : res (list B) :=
  match l with [] => Ok [] | a :: l' => bind (f a) (fun b => bind (mapM f l') (fun bs => Ok (b :: bs))) end.
(** comparisons as numbers *)
Definition lt1 (a b : R) : R := if Rlt_dec a b then 1 else 0.
(** calculate_f, lines 283-291, with the exponent [Nat.succ q] *)
Definition basic_f (q : nat) (ms : list (list C * (R * R))) (x : list C) : R :=
  Obj_Model.rsum (map (fun m => let '(c, (a, b)) := m in let ov := cabs (project c x) in
    (lt1 ov a * (a - ov) + lt1 b ov * (ov - b)) ^ (Datatypes.S q)) ms).
(** calculate_partial_df_dx, lines 263-281 *)
Definition basic_coef (q : nat) (x : list C) (m : list C * (R * R)) : res C :=
  let '(c, (a, b)) := m in
  let cx := project c x in let ov := cabs cx in
  let f0 := lt1 ov a * (ov - a) + lt1 b ov * (b - ov) in
  if czero cx then Err ValueError
  else Ok (cmul (creal (INR (Datatypes.S q) * f0 ^ q)) (cmul (creal ((lt1 ov a - lt1 b ov) * (1 / 2))) (cscale (/ ov) (cconj cx)))).
Definition sum_rows {A} (coefs : list C) (ms : list (list C * A)) : list C :=
  vbuild (K:=CC) N (fun k => fold_right cadd c0 (map (fun cm => cmul (fst cm) (at_ (K:=CC) (fst (snd cm)) k)) (combine coefs ms))).
Definition basic_obj (q : nat) (ms : list (list C * (R * R))) : objective :=
  Objective (fun x _ => Ok (basic_f q ms x))
            (fun x _ => bind (mapM (basic_coef q x) ms) (fun cs => Ok (sum_rows cs ms)))
            (fun _ z => map (fun _ => 0) z).

(** PhaseOverlapObjective._compute_objective, lines 340-381: the vector of an arbitrary mode is
    conjugated, out['transmission'] must be given *)
Definition phase_mode (out : mode) : res (list C * C) :=
  bind (match m_type out with Wgmode => m_wg out | Arbitrary => bind (lookup (m_overlap out)) (fun v => Ok (map cconj v)) | Other => Err AttributeError end) (fun c =>
  bind (lookup (m_trans out)) (fun t => Ok (c, t))).
(** calculate_f, lines 401-407, and calculate_partial_df_dx, lines 383-399 *)
Definition phase_f (ms : list (list C * C)) (x : list C) : R :=
  Obj_Model.rsum (map (fun m => cabs (csub (project (fst m) x) (snd m)) ^ 2) ms).
Definition phase_coef (x : list C) (m : list C * C) : res C :=
  let e := csub (project (fst m) x) (snd m) in
  if czero e then Err ValueError
  else Ok (cmul (creal (2 * cabs e ^ 1)) (cmul (creal (1 / 2)) (cscale (/ cabs e) (cconj e)))).
Definition phase_obj (ms : list (list C * C)) : objective :=
  Objective (fun x _ => Ok (phase_f ms x))
            (fun x _ => bind (mapM (phase_coef x) ms) (fun cs => Ok (sum_rows cs ms)))
            (fun _ z => map (fun _ => 0) z).
End Em.
