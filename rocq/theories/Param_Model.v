(** Model of the parametrizations of /repo/spins/invdes/parametrization
    (DirectParam, CompositeParam, GratingParam) and of the slack reformulation
    /repo/spins/invdes/problem/slack_optimization_problem.py.
    Vectors are lists of exact rationals.  Methods that mutate the object return the
    new object; when an exception escapes half-way the partially updated object is not
    represented.  Sharing of numpy arrays between object and caller is not modelled. *)
From Coq Require Import Qround.
From Verif Require Import QTac Raster_Model Grid_Model.
Set Implicit Arguments.
Open Scope Q_scope.

(** [[f x for x in l]], with the recursion arranged for nested types *)
Section MapR.
Variables (A B C : Type).
Variable f : A -> res B.
Fixpoint mapR (l : list A) : res (list B) :=
  match l with [] => Ok [] | x :: xs => bind (f x) (fun y => bind (mapR xs) (fun ys => Ok (y :: ys))) end.
(** for x, c in zip(l, cs): x.g(c); objects beyond the shorter list stay as they are *)
Variable g : A -> C -> res A.
Fixpoint zipR (l : list A) (cs : list C) : res (list A) :=
  match l, cs with
  | x :: xs, c :: cs' => bind (g x c) (fun y => bind (zipR xs cs') (fun ys => Ok (y :: ys)))
  | _, _ => Ok l
  end.
End MapR.

(** how a sequence of bounds is stored; matters for [+] in SlackParam.get_bounds *)
Inductive seqkind := KTuple | KList | KArray.
Definition bounds := (seqkind * list (option Q))%type.

Inductive param : Type :=
| Direct (vector : list Q) (lower upper : bounds)
| Grating (edges : list Q) (num_pixels : nat) (inverted : bool)
| Composite (params : list param) (param_sizes ext_vec_sizes : list nat)
| Slack (p : param) (num_slack : nat) (slack_variables : list Q).

(** *** numpy helpers *)
(** np.sort *)
Fixpoint qinsert (x : Q) (l : list Q) : list Q :=
  match l with [] => [x] | y :: l' => if Qle_bool x y then x :: l else y :: qinsert x l' end.
Fixpoint qsort (l : list Q) : list Q := match l with [] => [] | x :: l' => qinsert x (qsort l') end.
(** np.hstack of one-dimensional arrays *)
Definition hstack {A} (l : list (list A)) : res (list A) := match l with [] => Err ValueError | _ => Ok (concat l) end.
(** length of the broadcast of two one-dimensional arrays *)
Definition bcast_len (a b : nat) : res nat :=
  if Nat.eqb a b then Ok a else if Nat.eqb a 1 then Ok b else if Nat.eqb b 1 then Ok a else Err ValueError.
Definition bcast_nth {A} (l : list A) (d : A) (i : nat) : A := if Nat.eqb (length l) 1 then nth 0 l d else nth i l d.
(** np.clip of one number; [None] stands for an infinite bound *)
Definition clip1 (x : Q) (lo hi : option Q) : Q :=
  let y := match lo with Some l => qmax l x | None => x end in
  match hi with Some h => qmin y h | None => y end.
(** np.clip(v, lo, hi) *)
Definition clip (v : list Q) (lo hi : list (option Q)) : res (list Q) :=
  bind (bcast_len (length v) (length lo)) (fun n =>
  bind (bcast_len n (length hi)) (fun m =>
  Ok (map (fun i => clip1 (bcast_nth v 0 i) (bcast_nth lo None i) (bcast_nth hi None i)) (seq 0 m)))).

(** *** DirectParam, parametrization.py:118-169 *)
Inductive bound_arg := BNone | BNum (q : Q) | BSeq (k : seqkind) (l : list (option Q)).
Definition expand_bound (n : nat) (b : bound_arg) : bounds :=     (* lines 134-142 *)
  match b with
  | BNone => (KTuple, repeat None n)
  | BNum q => (KTuple, repeat (Some q) n)
  | BSeq k l => (k, l)
  end.
(** lines 124-142; [bounds = None] is a falsy argument *)
Definition direct_init (v : list Q) (bounds : option (bound_arg * bound_arg)) : param :=
  match bounds with
  | Some (lo, hi) => Direct v (expand_bound (length v) lo) (expand_bound (length v) hi)
  | None => Direct v (expand_bound (length v) BNone) (expand_bound (length v) BNone)
  end.

(** *** GratingParam, grating_parametrization.py *)
(** lines 42-74 *)
Definition grating_init (v : list Q) (npix : nat) (inverted : bool) : res param :=
  if Nat.eqb (Nat.modulo (length v) 2) 1 then Err ValueError else Ok (Grating (qsort v) npix inverted).
(** self._x_coords, line 72 *)
Definition x_coords (npix : nat) : list Q := map qnat (seq 0 (npix + 1)).
(** edges[0::2] and edges[1::2] *)
Fixpoint evens (l : list Q) : list Q := match l with [] => [] | x :: l' => x :: odds l' end
with odds (l : list Q) : list Q := match l with [] => [] | _ :: l' => evens l' end.
Definition vadd (a b : list Q) : list Q := map (fun i => qn a i + qn b i) (seq 0 (length a)).
(** lines 100-104: the loop over teeth given as (width, center) *)
Fixpoint render_teeth (npix : nat) (acc : list Q) (teeth : list (Q * Q)) : res (list Q) :=
  match teeth with
  | [] => Ok acc
  | (w, c) :: ts => bind (raster_1D [c - (1 # 2) * w; c + (1 # 2) * w] (x_coords npix)) (fun r => render_teeth npix (vadd acc r) ts)
  end.
(** get_structure, lines 76-108; subtracting arrays of different lengths broadcasts or raises *)
Definition teeth_of (edges : list Q) : res (list (Q * Q)) :=
  let r := odds edges in let l := evens edges in
  bind (bcast_len (length r) (length l)) (fun n =>
  Ok (map (fun i => (bcast_nth r 0 i - bcast_nth l 0 i, (1 # 2) * (bcast_nth r 0 i + bcast_nth l 0 i))) (seq 0 n))).
Definition grating_structure (edges : list Q) (npix : nat) (inverted : bool) : res (list Q) :=
  bind (teeth_of edges) (fun teeth =>
  bind (render_teeth npix (repeat 0 npix) teeth) (fun vals =>
  Ok (if inverted then map (fun x => 1 - x) vals else vals))).
(** _jacobian_vec_prod, lines 155-174; [i] is edge_index *)
Fixpoint jac_vec_prod (npix : nat) (inverted : bool) (i : nat) (edges vec : list Q) (acc : list Q) : list Q :=
  match edges, vec with
  | edge :: edges', x :: vec' =>
      let dir := if Nat.eqb (Nat.modulo i 2) 0 then 1 else -(1) in
      let dir := if inverted then - dir else dir in
      let acc' := if Qle_bool 0 edge && qlt edge (qnat npix)
                  then let k := Z.to_nat (Qfloor edge) in lset acc k (qn acc k - dir * x) else acc in
      jac_vec_prod npix inverted (S i) edges' vec' acc'
  | _, _ => acc
  end.
Definition unit_vec (n j : nat) : list Q := lset (repeat 0 n) j 1.
(** lines 180-185: [mat[i][j]] *)
Definition grating_jac (edges : list Q) (npix : nat) (inverted : bool) (i j : nat) : Q :=
  qn (jac_vec_prod npix inverted 0 edges (unit_vec (length edges) j) (repeat 0 npix)) i.

(** *** methods *)
(** _split_vector, composite_parametrization.py:33-54 (np.split clips its slices and the
    last piece takes what is left) *)
Fixpoint split_vector (v : list Q) (sizes : list nat) : list (list Q) :=
  match sizes with
  | [] => [v]
  | [_] => [v]
  | s :: rest => firstn s v :: split_vector (skipn s v) rest
  end.
Fixpoint get_structure (p : param) : res (list Q) :=
  match p with
  | Direct v _ _ => Ok v                                              (* parametrization.py:144 *)
  | Grating e n inv => grating_structure e n inv
  | Composite ps _ _ => bind (mapR get_structure ps) hstack           (* composite:95-104 *)
  | Slack p _ _ => get_structure p                                    (* slack:72-73 *)
  end.
Fixpoint encode (p : param) : res (list Q) :=
  match p with
  | Direct v _ _ => Ok v
  | Grating e _ _ => Ok e
  | Composite ps _ _ => bind (mapR encode ps) hstack                  (* composite:153-160 *)
  | Slack p _ s => bind (encode p) (fun v => Ok (v ++ s))             (* slack:93-94 *)
  end.
(** to_vector: parametrization.py:76-92 for all but CompositeParam (composite:206-218) *)
Fixpoint to_vector (p : param) : res (list Q) :=
  match p with
  | Composite ps _ _ => bind (mapR to_vector ps) hstack
  | _ => encode p
  end.
(** vector[:-n], vector[-n:] for n > 0 *)
Definition drop_last (v : list Q) (n : nat) : list Q := firstn (length v - n) v.
Definition take_last (v : list Q) (n : nat) : list Q := skipn (length v - n) v.
Fixpoint decode (p : param) (v : list Q) : res param :=
  match p with
  | Direct _ lo hi => Ok (Direct v lo hi)                             (* no length check *)
  | Grating _ n inv => Ok (Grating (qsort v) n inv)
  | Composite ps sz es => bind (zipR decode ps (split_vector v sz)) (fun ps' => Ok (Composite ps' sz es))
  | Slack p n s =>                                                    (* slack:96-101 *)
      if Nat.ltb 0 n then bind (decode p (drop_last v n)) (fun p' => Ok (Slack p' n (take_last v n)))
      else bind (decode p v) (fun p' => Ok (Slack p' n s))
  end.
Fixpoint project (p : param) : res param :=
  match p with
  | Direct v lo hi => bind (clip v (snd lo) (snd hi)) (fun v' => Ok (Direct v' lo hi))  (* parametrization.py:147-156 *)
  | Grating _ _ _ => Ok p                                             (* parametrization.py:46-54 *)
  | Composite ps sz es => bind (mapR project ps) (fun ps' => Ok (Composite ps' sz es))
  | Slack p n s => bind (project p) (fun p' => Ok (Slack p' n s))     (* slack:69-70 *)
  end.
Fixpoint from_vector (p : param) (v : list Q) : res param :=
  match p with
  | Composite ps sz es => bind (zipR from_vector ps (split_vector v es)) (fun ps' => Ok (Composite ps' sz es))
  | _ => bind (decode p v) project                                    (* parametrization.py:94-97 *)
  end.
(** CompositeParam.__init__, composite:59-93: records sizes, and calls get_structure *)
Definition composite_init (ps : list param) : res param :=
  bind (mapR encode ps) (fun vs =>
  bind (mapR to_vector ps) (fun es =>
  bind (mapR get_structure ps) (fun _ =>
  Ok (Composite ps (map (@length Q) vs) (map (@length Q) es))))).
(** SlackParam.__init__, slack:59-67 *)
Definition slack_init (p : param) (n : nat) : param := Slack p n (repeat 0 n).

(** param_bounds[i] + n * (x,) in SlackParam.get_bounds.  Tuples are concatenated; a list
    raises TypeError; an array is added elementwise: shapes are broadcast first, then
    [x + y] fails when one of them is None *)
Definition plus_tuple (b : bounds) (n : nat) (x : option Q) : res bounds :=
  match fst b with
  | KTuple => Ok (KTuple, snd b ++ repeat x n)
  | KList => Err TypeError
  | KArray =>
      bind (bcast_len (length (snd b)) n) (fun m =>
      bind (mapR (fun i => match bcast_nth (snd b) None i, x with
                           | Some a, Some c => Ok (Some (a + c))
                           | _, _ => Err TypeError
                           end) (seq 0 m)) (fun l => Ok (KArray, l)))
  end.
(** get_bounds; [Ok None] is Python's None *)
Fixpoint get_bounds (p : param) : res (option (bounds * bounds)) :=
  match p with
  | Direct _ lo hi => Ok (Some (lo, hi))
  | Grating _ _ _ => Ok None
  | Composite ps sz _ =>                                              (* composite:178-204 *)
      bind (mapR get_bounds ps) (fun bs =>
      let bs := map (fun bn => match bn with
                               | (Some (lo, hi), _) => (snd lo, snd hi)
                               | (None, n) => (repeat None n, repeat None n)
                               end) (combine bs sz) in
      bind (hstack (map fst bs)) (fun lo =>
      bind (hstack (map snd bs)) (fun hi => Ok (Some ((KArray, lo), (KArray, hi))))))
  | Slack p n _ =>                                                    (* slack:78-85 *)
      bind (get_bounds p) (fun b =>
      bind (match b with
            | Some b => Ok b
            | None => bind (to_vector p) (fun v => Ok ((KTuple, repeat None (length v)), (KTuple, repeat None (length v))))
            end) (fun b =>
      bind (plus_tuple (fst b) n (Some 0)) (fun lo =>
      bind (plus_tuple (snd b) n None) (fun hi => Ok (Some (lo, hi))))))
  end.

(** *** serialization *)
(** the dictionaries produced by serialize; the list of [DComposite] is indexed by the
    number in the key param_i *)
Inductive data :=
| DVector (v : list Q)
| DGrating (v : list Q) (inverted : bool)
| DComposite (l : list data)
| DSlack (num_slack : nat) (slack : list Q) (wrapped : data).
Fixpoint serialize (p : param) : res data :=
  match p with
  | Direct v _ _ => bind (to_vector p) (fun v => Ok (DVector v))      (* parametrization.py:99-107 *)
  | Grating _ _ inv => bind (to_vector p) (fun v => Ok (DGrating v inv))  (* grating:199-202 *)
  | Composite ps _ _ => bind (mapR serialize ps) (fun l => Ok (DComposite l))  (* composite:234-244 *)
  | Slack p n s => bind (serialize p) (fun d => Ok (DSlack n s d))    (* slack:103-108 *)
  end.
(** for key, data in items: self._params[ind].deserialize(data); keys in increasing order *)
Section DeserAll.
Variable A B : Type.
Variable f : A -> B -> res A.
Fixpoint deser_all (l : list A) (ds : list B) : res (list A) :=
  match l, ds with
  | _, [] => Ok l
  | [], _ :: _ => Err IndexError
  | x :: xs, d :: ds' => bind (f x d) (fun y => bind (deser_all xs ds') (fun ys => Ok (y :: ys)))
  end.
End DeserAll.
Fixpoint deserialize (p : param) (d : data) : res param :=
  match p with
  | Direct _ _ _ =>                                                   (* parametrization.py:109-115 *)
      match d with DVector v | DGrating v _ => from_vector p v | _ => Err KeyError end
  | Grating _ n _ =>                                                  (* grating:204-210 *)
      match d with
      | DVector v => bind (from_vector p v) (fun p' => match p' with Grating e n _ => Ok (Grating e n false) | _ => Ok p' end)
      | DGrating v inv => bind (from_vector p v) (fun p' => match p' with Grating e n _ => Ok (Grating e n inv) | _ => Ok p' end)
      | _ => Err KeyError
      end
  | Composite ps sz es =>                                             (* composite:246-256 *)
      match d with
      | DComposite l => bind (deser_all deserialize ps l) (fun ps' => Ok (Composite ps' sz es))
      | _ => Err ValueError                                           (* int() of a key that is not a number *)
      end
  | Slack p _ _ =>                                                    (* slack:110-113 *)
      match d with
      | DSlack n s w => bind (deserialize p w) (fun p' => Ok (Slack p' n s))
      | _ => Err KeyError
      end
  end.

(** *** the Jacobian as an operator: [p.calculate_gradient() @ v] *)
Fixpoint jac_apply (p : param) (v : list Q) : res (list Q) :=
  match p with
  | Direct x _ _ => if Nat.eqb (length v) (length x) then Ok v else Err ValueError   (* sparse.eye *)
  | Grating e n inv =>
      if Nat.eqb (length v) (length e)
      then Ok (map (fun i => sumn (length e) (fun j => grating_jac e n inv i j * qn v j)) (seq 0 n)) else Err ValueError
  | Composite ps sz _ =>                                              (* composite:106-151 *)
      if Nat.eqb (length v) (list_sum sz) then
        bind ((fix go ps vs := match ps, vs with
               | p :: ps', x :: vs' => bind (jac_apply p x) (fun y => bind (go ps' vs') (fun ys => Ok (y :: ys)))
               | _, _ => Ok []
               end) ps (split_vector v sz)) hstack
      else Err ValueError
  | Slack p _ _ => jac_apply p v                                      (* slack:75-76 *)
  end.

(** *** slack problems, slack:28-53, 116-160 *)
(** an OptimizationFunction: value and gradient as functions of the parametrization *)
Record ofun := OFun { value : param -> res Q; gradient : param -> res (list Q) }.
Record problem := Problem { objective : ofun; cons_eq : list ofun; cons_ineq : list ofun }.
Definition get_param (p : param) : res param := match p with Slack q _ _ => Ok q | _ => Err AttributeError end.
Definition get_slack_variable (p : param) (i : nat) : res Q :=
  match p with Slack _ _ s => if Nat.ltb i (length s) then Ok (qn s i) else Err IndexError | _ => Err AttributeError end.
Definition slack_remover (f : ofun) (n : nat) : ofun :=
  OFun (fun p => bind (get_param p) (value f))
       (fun p => bind (get_param p) (fun q => bind (gradient f q) (fun g => Ok (g ++ repeat 0 n)))).
(** gradient[-num_slack + i] = 1 on an array of length [m]; negative indices count from the end *)
Definition set_from_end (l : list Q) (n i : nat) (x : Q) : res (list Q) :=
  if Nat.ltb i n then (if Nat.leb (n - i) (length l) then Ok (lset l (length l - (n - i)) x) else Err IndexError)
  else if Nat.ltb (i - n) (length l) then Ok (lset l (i - n) x) else Err IndexError.
Definition slack_variable (n i : nat) : ofun :=
  OFun (fun p => get_slack_variable p i)
       (fun p => bind (to_vector p) (fun v => set_from_end (repeat 0 (length v)) n i 1)).
(** the sum of two functions, objective.py:505-557, on gradients of equal length *)
Definition ofun_add (f g : ofun) : ofun :=
  OFun (fun p => bind (value f p) (fun a => bind (value g p) (fun b => Ok (a + b))))
       (fun p => bind (gradient f p) (fun a => bind (gradient g p) (fun b => Ok (vadd a b)))).
Definition slack_problem (pr : problem) : problem :=
  let n := length (cons_ineq pr) in
  Problem (slack_remover (objective pr) n)
          (map (fun f => slack_remover f n) (cons_eq pr) ++
           map (fun fi => ofun_add (slack_remover (snd fi) n) (slack_variable n (fst fi)))
               (combine (seq 0 n) (cons_ineq pr)))
          [].
Definition build_param (pr : problem) (p : param) : param := slack_init p (length (cons_ineq pr)).
