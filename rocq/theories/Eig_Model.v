(** Model of the eigenfrequency simulation of goos, SimulateEigNode and EigenValue of
    /repo/spins/goos_sim/maxwell/simulate.py:654-871.

    Simplifications.  Numbers are exact.  Arrays are the vectors made by fdfd_tools.vec.  The solver
    is a parameter: for permittivity and source (its initial guess) the first eigenvector and
    frequency.  Sources keep no state (that of waveguide mode sources is modelled in Adj_Model.v). *)
From Coq Require Import Reals.
From Verif Require Import Base CField Maxwell_Model GMath_Model GMath_Proofs CplxField.
From Verif Require Adj_Model.
Set Implicit Arguments.
Local Open Scope R_scope.

(** the argument solver *)
Inductive solver_name := MaxwellEig | LocalDirectEig | OtherSolver.
(** the argument bloch_vector: None, a list, or an array *)
Inductive bloch_arg := BNone | BList (l : list R) | BArray (l : list R).
(** lines 702-710 with _create_solver, lines 578-608, which knows no local_direct_eig *)
Definition choose_solver (s : solver_name) : res unit :=
  match s with MaxwellEig => Ok tt | LocalDirectEig => Err ValueError | OtherSolver => Err ValueError end.
(** lines 712-715: the truth of an array of several numbers raises ValueError *)
Definition choose_bloch (b : bloch_arg) : res (list R) :=
  match b with
  | BNone | BList [] | BArray [] => Ok [0; 0; 0]
  | BList l => Ok l
  | BArray [x] => if Req_EM_T x 0 then Ok [0; 0; 0] else Ok [x]
  | BArray _ => Err ValueError
  end.
(** the constructor, as far as its arguments solver and bloch_vector go, lines 671-730 *)
Definition create (s : solver_name) (b : bloch_arg) : res (list R) := bind (choose_solver s) (fun _ => choose_bloch b).

(** outputs: of EigenValue, ElectricField, Epsilon, lines 242-288, 868-871, and overlaps with a mode
    that is computed from the first permittivity only, lines 310-342 *)
Inductive output := OEig | OField | OEps | OOverlap (f : list C -> list C).
(** the value of an output: a number, an array *)
Inductive value := VNum (x : R) | VArr (l : list C).
(** the gradients of the outputs: None, or array_grad *)
Definition grads := list (option (list R)).

Section Node.
Variable N : nat.                                    (* number of entries of the fields *)
Variable sources : list (list C -> res (list C)).    (* what before_sim adds to the source *)
Variable outputs : list output.
Variable solve : list C -> list C -> res (list C * C).

(** the state: _last_eps with the fields and the frequency, lines 727-729; the modes of overlaps *)
Record node := Node { n_last : option (list C * (list C * R)); n_over : list (option (list C)) }.
Definition fresh : node := Node None (map (fun _ => None) outputs).

(** domega_deps, lines 819-821 *)
Definition cpower (v : list C) : C := fsum (K:=CC) N (fun k => cmul (cconj (at_ (K:=CC) v k)) (at_ (K:=CC) v k)).
Definition domega (eps v : list C) (omega : R) (k : nat) : R :=
  fst (cmul (cmul (cmul (cmul (creal (- omega / 2)) (cinv (cpower v))) (cconj (at_ (K:=CC) v k))) (cinv (at_ (K:=CC) eps k))) (at_ (K:=CC) v k)).

Definition hit (s : node) (eps : list C) : bool := match n_last s with Some (e, _) => Adj_Model.same e eps | None => false end.
Definition add_sources (eps : list C) : res (list C) :=
  fold_left (fun acc f => bind acc (fun J => bind (f eps) (fun v => Ok (map (fun xy => cadd (fst xy) (snd xy)) (combine J v)))))
            sources (Ok (repeat c0 N)).
Definition before_outputs (eps : list C) (ms : list (option (list C))) : list (option (list C)) :=
  map (fun om => match fst om, snd om with OOverlap f, None => Some (f eps) | _, m => m end) (combine outputs ms).
Definition out_eval (eps v : list C) (omega : R) (o : output) (m : option (list C)) : res value :=
  match o with
  | OEig => Ok (VNum omega)
  | OField => Ok (VArr v)
  | OEps => Ok (VArr eps)
  | OOverlap _ => match m with
                  | None => Err TypeError
                  | Some w => Ok (VArr [fsum (K:=CC) N (fun k => cmul (at_ (K:=CC) w k) (at_ (K:=CC) v k))])
                  end
  end.
Definition out_evals (s : node) : res (list value) :=
  match n_last s with
  | None => Err AttributeError
  | Some (eps, (v, omega)) => mapM (fun om => out_eval eps v omega (fst om) (snd om)) (combine outputs (n_over s))
  end.
(** eval, lines 731-775; the real part of the frequency is kept *)
Definition node_eval (s : node) (eps : list C) : node * res (list value) :=
  if hit s eps then (s, out_evals s) else
  match add_sources eps with
  | Err e => (s, Err e)
  | Ok J =>
      let ov := before_outputs eps (n_over s) in
      match solve eps J with
      | Err e => (Node (n_last s) ov, Err e)
      | Ok (v, w) => let s' := Node (Some (eps, (v, fst w))) ov in (s', out_evals s')
      end
  end.
Definition node_evals (s : node) (l : list (list C)) : node := fold_left (fun s eps => fst (node_eval s eps)) l s.
(** the loop of lines 824-826: the gradient of the last output EigenValue; df_domega may stay unbound *)
Fixpoint df_domega (outs : list output) (gs : grads) (acc : option R) : res (option R) :=
  match outs, gs with
  | OEig :: outs', gv :: gs' =>
      match gv with
      | None => Err AttributeError
      | Some [] => Err IndexError
      | Some (d :: _) => df_domega outs' gs' (Some d)
      end
  | _ :: outs', _ :: gs' => df_domega outs' gs' acc
  | _, _ => Ok acc
  end.
Definition finish (eps v : list C) (omega : R) (gs : grads) : res (list R) :=
  bind (df_domega outputs gs None) (fun o =>
  match o with
  | None => Err NameError                        (* UnboundLocalError *)
  | Some d => Ok (map (fun k => d * domega eps v omega k) (seq 0 N))
  end).
(** grad, lines 777-828: if the permittivity is not the one of the last evaluation, before_adjoint_sim is
    called without its second argument *)
Definition node_grad (s : node) (eps : list C) (gs : grads) : node * res (list R) :=
  match n_last s, hit s eps with
  | Some (e, (v, omega)), true => (s, finish e v omega gs)
  | _, _ =>
      match outputs with
      | _ :: _ => (s, Err TypeError)
      | [] =>
          match solve eps (repeat c0 N) with
          | Err e => (s, Err e)
          | Ok (v, w) => (Node (Some (eps, (v, fst w))) (n_over s), finish eps v (fst w) gs)
          end
      end
  end.
End Node.
