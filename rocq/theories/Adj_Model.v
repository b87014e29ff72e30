(** Model of the electromagnetic simulation nodes and of their adjoint gradients:
    /repo/spins/invdes/problem_graph/creator_em.py (FdfdSimulation, Epsilon, OverlapFunction,
    DiffEpsilon), functions/poynting.py, AbsoluteValue of /repo/spins/invdes/problem/objective.py and
    SimulateNode with its sources and outputs of /repo/spins/goos_sim/maxwell/simulate.py.

    Simplifications.  Numbers are exact complex numbers.  The solver is LocalMatrixSolver.solve
    (model [solve] of Maxwell_Model.v); [g] are the cell sizes after apply_scpml, which do not depend
    on the permittivity; [inner] is the matrix solver.  Vectors are lists of complex numbers with the
    flag of their dtype where the code looks at it ([arr]).  Arrays are values: the caches keep copies.
    Where numpy would produce nan the model has the error [ValueError]. *)
From Coq Require Import Reals.
From Verif Require Import Base CField Maxwell_Model SimCache_Model GMath_Model GMath_Proofs CplxField.
From Verif Require Obj_Model.
Set Implicit Arguments.
Local Open Scope R_scope.

(** np.array_equal *)
Fixpoint same (a b : list C) : bool :=
  match a, b with
  | [], [] => true
  | x :: a', y :: b' => ceq x y && same a' b'
  | _, _ => false
  end.
(** all phase factors 1: no Bloch vector, or the zero vector *)
Definition flat_phases : phases CC := Phases (K:=CC) (fun _ => c1) (fun _ => c1) (fun _ => c1) (fun _ => c1).

Section Sim.
Variable g : grid CC.
Variable ph : phases CC.
Variable p : nat -> C.       (* square roots of the preconditioner *)
Variable inner : mat CC -> list C -> list C.
Variable omega : R.          (* 2 pi / wlen *)
Local Notation N := (vlen g).

(** [solver.solve(omega, dxes, epsilon, mu=None, J, pml_layers, bloch_vec, adjoint)] *)
Definition wave (eps : list C) : mat CC := e_full g ph (creal omega) (at_ (K:=CC) eps) None None None.
Definition run (adjoint : bool) (J eps : list C) : res (list C) :=
  solve g inner p (wave eps) (creal omega) J false false adjoint.

(** ** FdfdSimulation, creator_em.py:257-428 *)
Record fsim := FSim { fs_cache : cache (list C) (list C); fs_adj : cache (list C * list C) (list C) }.
(** lines 296-297 *)
Definition new_sim (cache_size : nat) : fsim := FSim (empty_cache _ _ cache_size) (empty_cache _ _ cache_size).
Variable src : list C.       (* fdfd_tools.vec(self._source) *)
(** _simulate, lines 335-379; the loop is that of SimCache_Model.v *)
Definition sim_fields (s : fsim) (eps : list C) : fsim * res (list C) :=
  let '(c, r, _) := simulate same (run false src) (fs_cache s) eps in (FSim c (fs_adj s), r).
(** _simulate_adjoint, lines 381-428 *)
Definition sim_adjoint (s : fsim) (eps J : list C) : fsim * res (list C) :=
  let '(c, r, _) := simulate (fun k k' => same (fst k) (fst k') && same (snd k) (snd k'))
                             (fun k => run true (snd k) (fst k)) (fs_adj s) (eps, J) in
  (FSim (fs_cache s) c, r).
(** [np.conj(grad_val) / (-1j * omega)] *)
Definition adjoint_current (gv : list C) : list C :=
  map (fun x => cdiv (cconj x) (cmul (copp imag_unit) (creal omega))) gv.
(** eval, lines 299-309 *)
Definition sim_eval (s : fsim) (eps : arr) : fsim * res (list C) := sim_fields s (dat eps).
(** grad, lines 311-333: [np.conj(np.transpose(d)) @ B] with B diagonal *)
Definition sim_grad (s : fsim) (eps : arr) (gv : list C) : fsim * res (list C) :=
  let (s1, r1) := sim_fields s (dat eps) in
  match r1 with
  | Err e => (s1, Err e)
  | Ok E =>
      let (s2, r2) := sim_adjoint s1 (dat eps) (adjoint_current gv) in
      match r2 with
      | Err e => (s2, Err e)
      | Ok d =>
          let total := map (fun de => cmul (cconj (fst de)) (cmul (creal (omega * omega)) (snd de))) (combine d E) in
          (s2, Ok (if cpx eps then total else map (fun z => creal (fst z)) total))
      end
  end.
(** a history of calls *)
Inductive call := CEval (eps : arr) | CGrad (eps : arr) (gv : list C).
Definition do_call (s : fsim) (c : call) : fsim :=
  match c with CEval eps => fst (sim_eval s eps) | CGrad eps gv => fst (sim_grad s eps gv) end.
Definition do_calls (s : fsim) (l : list call) : fsim := fold_left do_call l s.

(** ** Epsilon, creator_em.py:481-539: [bg] is vec(eps_bg.grids), [S] the selection matrix with [n]
    columns, [cplx] whether the sum has complex dtype *)
Section Epsilon.
Variable cplx : bool.
Variable bg : list C.
Variable S : nat -> nat -> C.
Variable n : nat.
(** eval, lines 507-517 *)
Definition eps_eval (z : list R) : res arr :=
  if Nat.eqb (length z) n then
    Ok (mkarr cplx (vbuild (K:=CC) N (fun k => cadd (at_ (K:=CC) bg k) (fsum (K:=CC) n (fun i => cmul (S k i) (creal (nth i z 0)))))))
  else Err ValueError.
(** grad, lines 519-539: [np.real(np.squeeze(np.asarray(grad_val @ S)))]; the loss of the axis for
    n = 1 is left out *)
Definition eps_grad (gv : list C) : list R :=
  map (fun i => fst (fsum (K:=CC) N (fun k => cmul (at_ (K:=CC) gv k) (S k i)))) (seq 0 n).

(** ** OverlapFunction, creator_em.py:671-709 *)
Definition overlap_eval (c E : list C) : C := fsum (K:=CC) N (fun k => cmul (at_ (K:=CC) c k) (at_ (K:=CC) E k)).
Definition overlap_grad (c : list C) (gv : C) : list C := map (cmul gv) c.
(** ** AbsoluteValue, objective.py:653-670, for a complex number *)
Definition abs_eval (x : C) : R := cabs x.
Definition abs_grad (x : C) (gv : R) : res C :=
  if czero x then Err ValueError else Ok (cmul (creal gv) (cscale (/ cabs x) (cconj x))).
(** ** DiffEpsilon, creator_em.py:726-774; [ref] is what the callable returns *)
Definition diff_eval (ref eps : list C) : R :=
  Obj_Model.rsum (map (fun xy => cabs (csub (fst xy) (snd xy)) ^ 2) (combine eps ref)).
Definition diff_grad (ref eps : list C) (gv : R) : list C :=
  map (fun xy => cmul (creal gv) (cmul (creal 2) (cconj (csub (fst xy) (snd xy))))) (combine eps ref).
(** ** PowerTransmissionFunction, poynting.py:35-112: [gd] are the cell sizes without PML, [plane]
    the positions where the filter vector is 1 *)
Section Power.
Variable gd : grid CC.
Variable plane : nat -> bool.
Variable polarity : R.
Definition filter_at (i : nat) : C := if plane i then c1 else c0.
Definition hfield (E : list C) : list C := mv (K:=CC) (vlen gd) (e2h gd flat_phases (creal omega) None None) E.
(** eval, lines 88-95 *)
Definition power_eval (E : list C) : R :=
  let S := mv (K:=CC) (vlen gd) (poynting_chew_e_cross gd E) (map cconj (hfield E)) in
  polarity * Obj_Model.rsum (map (fun i => (1 / 2 * fst (at_ (K:=CC) S i)) * fst (filter_at i)) (seq 0 (vlen gd))).
(** grad, lines 97-112 *)
Definition power_grad (E : list C) (gv : R) : list C :=
  let ex : mat CC := fun i j => cconj (poynting_chew_e_cross gd E i j) in
  let hx : mat CC := fun i j => cconj (poynting_chew_h_cross gd (hfield E) i j) in
  let ce := curl_e gd (fun _ => c1) (fun _ => c1) in
  let mat := fun i j => cmul (creal (- (1 / 4)))
     (cadd (mmul (K:=CC) (vlen gd) (fun i j => cmul (cdiv c1 (cmul imag_unit (creal omega))) (ex i j)) ce i j) (hx i j)) in
  vbuild (K:=CC) (vlen gd) (fun j => fsum (K:=CC) (vlen gd) (fun i => cmul (cmul (creal (gv * polarity)) (filter_at i)) (mat i j))).
End Power.

(** ** The graphs parametrization -> Epsilon -> FdfdSimulation -> Overlap -> abs and
    parametrization -> Epsilon -> FdfdSimulation -> PowerTransmission, evaluated forwards and
    differentiated backwards with the incoming gradient [gv] (the sweep itself is C79) *)
Definition abs_overlap_value (c : list C) (s : fsim) (z : list R) : fsim * res R :=
  match eps_eval z with
  | Err e => (s, Err e)
  | Ok eps => let (s1, r) := sim_eval s eps in (s1, bind r (fun E => Ok (abs_eval (overlap_eval c E))))
  end.
Definition abs_overlap_gradient (c : list C) (s : fsim) (z : list R) (gv : R) : fsim * res (list R) :=
  match eps_eval z with
  | Err e => (s, Err e)
  | Ok eps =>
      let (s1, r) := sim_eval s eps in
      match r with
      | Err e => (s1, Err e)
      | Ok E => match abs_grad (overlap_eval c E) gv with
                | Err e => (s1, Err e)
                | Ok go => let (s2, r2) := sim_grad s1 eps (overlap_grad c go) in (s2, bind r2 (fun ge => Ok (eps_grad ge)))
                end
      end
  end.
Definition power_value gd plane pol (s : fsim) (z : list R) : fsim * res R :=
  match eps_eval z with
  | Err e => (s, Err e)
  | Ok eps => let (s1, r) := sim_eval s eps in (s1, bind r (fun E => Ok (power_eval gd plane pol E)))
  end.
Definition power_gradient gd plane pol (s : fsim) (z : list R) (gv : R) : fsim * res (list R) :=
  match eps_eval z with
  | Err e => (s, Err e)
  | Ok eps =>
      let (s1, r) := sim_eval s eps in
      match r with
      | Err e => (s1, Err e)
      | Ok E => let (s2, r2) := sim_grad s1 eps (power_grad gd plane pol E gv) in (s2, bind r2 (fun ge => Ok (eps_grad ge)))
      end
  end.
Definition diff_value (ref : list C) (z : list R) : res R := bind (eps_eval z) (fun eps => Ok (diff_eval ref (dat eps))).
Definition diff_gradient (ref : list C) (z : list R) (gv : R) : res (list R) :=
  bind (eps_eval z) (fun eps => Ok (eps_grad (diff_grad ref (dat eps) gv))).
End Epsilon.
End Sim.

(** ** goos: SimulateNode, simulate.py:441-575 *)
(** WaveguideModeSource and DipoleSource keep what they computed for the first structure
    (lines 120-203); GaussianSource computes it for every structure (50-118) *)
Inductive source := SKept (mode : list C -> list C) | SFresh (beam : list C -> list C).
(** Epsilon, ElectricField, WaveguideModeOverlap (lines 239-341); the overlap vector is kept as well *)
Inductive output := OEps | OField | OOverlap (mode : list C -> list C).

Section Goos.
Variable g : grid CC.
Variable p : nat -> C.
Variable inner : mat CC -> list C -> list C.
Variable omega : R.
Variable symmetry : bool.    (* some reflection_symmetry is nonzero *)
Variable sources : list source.
Variable outputs : list output.
Local Notation N := (vlen g).
Definition goos_run (adjoint : bool) (J eps : list C) : res (list C) :=
  solve g inner p (wave g flat_phases omega eps) (creal omega) J symmetry false adjoint.

(** [_wg_mode] / [_J] of the sources, [_wg_overlap] of the outputs, [_last_eps] and
    [_last_results.fields] *)
Record node := Node { n_modes : list (option (list C)); n_over : list (option (list C)); n_last : option (arr * list C) }.
Definition new_node : node := Node (map (fun _ => None) sources) (map (fun _ => None) outputs) None.

Definition vadd (a b : list C) : list C := map (fun xy => cadd (fst xy) (snd xy)) (combine a b).
(** [src.before_sim(sim)] for all sources: [sim.source += ...] of a complex array raises if the
    permittivity, and hence the array of zeros, is real *)
Fixpoint before_sources (eps : arr) (l : list source) (modes : list (option (list C))) (J : list C)
    : list (option (list C)) * res (list C) :=
  match l, modes with
  | x :: l', m :: modes' =>
      let '(m', v) := match x with
                      | SKept f => let v := match m with Some v => v | None => f (dat eps) end in (Some v, v)
                      | SFresh f => (m, f (dat eps))
                      end in
      if cpx eps then let (r, rJ) := before_sources eps l' modes' (vadd J v) in (m' :: r, rJ)
      else (m' :: modes', Err TypeError)
  | _, _ => (modes, Ok J)
  end.
(** [out.before_sim(sim)] *)
Definition before_output (eps : arr) (o : output) (m : option (list C)) : option (list C) :=
  match o, m with OOverlap f, None => Some (f (dat eps)) | _, _ => m end.
Definition before_outputs (eps : arr) (ms : list (option (list C))) : list (option (list C)) :=
  map (fun om => before_output eps (fst om) (snd om)) (combine outputs ms).
(** [out.eval(self._last_results)] *)
Definition out_eval (eps : arr) (E : list C) (o : output) (m : option (list C)) : res arr :=
  match o with
  | OEps => Ok eps
  | OField => Ok (mkarr true E)
  | OOverlap _ => match m with
                  | None => Err TypeError
                  | Some w => Ok (mkarr true [fsum (K:=CC) N (fun k => cmul (at_ (K:=CC) w k) (at_ (K:=CC) E k))])
                  end
  end.
Definition out_evals (s : node) : res (list arr) :=
  match n_last s with
  | None => Err AttributeError
  | Some (eps, E) => mapM (fun om => out_eval eps E (fst om) (snd om)) (combine outputs (n_over s))
  end.
(** eval, lines 493-538 *)
Definition node_eval (s : node) (eps : arr) : node * res (list arr) :=
  let unchanged := match n_last s with Some (e, _) => same (dat e) (dat eps) | None => false end in
  if unchanged then (s, out_evals s)
  else
    let (ms, rJ) := before_sources eps sources (n_modes s) (repeat c0 (size eps)) in
    match rJ with
    | Err e => (Node ms (n_over s) (n_last s), Err e)
    | Ok J =>
        let ov := before_outputs eps (n_over s) in
        match goos_run false J (dat eps) with
        | Err e => (Node ms ov (n_last s), Err e)
        | Ok E => let s' := Node ms ov (Some (eps, E)) in (s', out_evals s')
        end
    end.
(** [out.before_adjoint_sim(sim, g)]: the gradient of an overlap has one entry *)
Fixpoint before_adjoint (eps : arr) (l : list (output * option (list C))) (gs : list (option (list C))) (J : list C) : res (list C) :=
  match l, gs with
  | (o, m) :: l', gv :: gs' =>
      match o, gv with
      | OOverlap _, None => Err AttributeError
      | OOverlap _, Some gv =>
          match m with
          | None => Err TypeError
          | Some w => if cpx eps then before_adjoint eps l' gs' (vadd J (map (fun x => cconj (cmul (at_ (K:=CC) gv 0) x)) w)) else Err TypeError
          end
      | _, None => before_adjoint eps l' gs' J
      | _, Some _ => Err TypeError      (* raise NotImplemented(...) *)
      end
  | _, _ => Ok J
  end.
(** grad, lines 540-575 *)
Definition node_grad (s : node) (eps : arr) (gs : list (option (list C))) : res (list C) :=
  bind (before_adjoint eps (combine outputs (n_over s)) gs (repeat c0 (size eps))) (fun J =>
  bind (goos_run true J (dat eps)) (fun d =>
  match n_last s with
  | None => Err AttributeError
  | Some (_, E) =>
      let grad := map (fun de => cmul (cmul (cmul (copp imag_unit) (creal omega)) (cconj (fst de))) (snd de)) (combine d E) in
      Ok (if cpx eps then grad else map (fun z => creal (2 * fst z)) grad)
  end)).
(** a history of evaluations *)
Definition node_evals (s : node) (l : list arr) : node := fold_left (fun s eps => fst (node_eval s eps)) l s.
End Goos.
