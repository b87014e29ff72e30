(** Model of the client of the external Maxwell solver, /repo/spins/fdfd_solvers/maxwell.py.

    Simplifications.  Numbers are elements of a field with conjugation.  A three-dimensional array is
    its shape with a function of the index.  vec and unvec at the start and end of solve are left out:
    fields are triples of arrays.  apply_scpml comes before (the cell sizes are those it returns); the
    Bloch phases exp(i length bloch_vec) are an argument.  The server is a function from the request to
    the arrays it stores.  Files of numbers hold the numbers exactly. *)
From Verif Require Import Base CField.
Set Implicit Arguments.

Inductive axis := AX | AY | AZ.
Definition axis_eqb (a b : axis) : bool := match a, b with AX, AX | AY, AY | AZ, AZ => true | _, _ => false end.
(** an index, a shape *)
Definition idx := (nat * nat * nat)%type.
Definition get (a : axis) (p : idx) : nat := match a with AX => fst (fst p) | AY => snd (fst p) | AZ => snd p end.
Definition set (a : axis) (i : nat) (p : idx) : idx :=
  match a with AX => (i, snd (fst p), snd p) | AY => (fst (fst p), i, snd p) | AZ => (fst p, i) end.
Definition build (f : axis -> nat) : idx := (f AX, f AY, f AZ).

(** entries of the argument symmetry: 1, 2, or another number *)
Inductive sym := SNone | SOne | STwo.
Definition active (s : sym) : bool := match s with SNone => false | _ => true end.

Section Solver.
Variable K : cfield.

Record arr := Arr { shape : idx; val : idx -> K }.
Definition field : Type := arr * arr * arr.
Definition comp (c : axis) (E : field) : arr := match c with AX => fst (fst E) | AY => snd (fst E) | AZ => snd E end.
Definition fmap (f : axis -> arr -> arr) (E : field) : field := (f AX (comp AX E), f AY (comp AY E), f AZ (comp AZ E)).

(** ** numpy *)
(** np.flip(x, a); x[1:] along a; -x; np.concatenate((x, y), axis=a) *)
Definition flip (a : axis) (x : arr) : arr := Arr (shape x) (fun p => val x (set a (get a (shape x) - 1 - get a p) p)).
Definition tail1 (a : axis) (x : arr) : arr := Arr (set a (get a (shape x) - 1) (shape x)) (fun p => val x (set a (get a p + 1) p)).
Definition neg (x : arr) : arr := Arr (shape x) (fun p => kopp (val x p)).
Definition same_off (a : axis) (m n : idx) : bool :=
  forallb (fun b => axis_eqb a b || (get b m =? get b n)) [AX; AY; AZ].
Definition cat (a : axis) (x y : arr) : res arr :=
  if same_off a (shape x) (shape y) then
    let n := get a (shape x) in
    Ok (Arr (set a (n + get a (shape y)) (shape x)) (fun p => if get a p <? n then val x p else val y (set a (get a p - n) p)))
  else Err ValueError.
Definition cat3 (a : axis) (x y z : arr) : res arr := bind (cat a x y) (fun xy => cat a xy z).
(** np.expand_dims(np.zeros_like(x[0] along a), a) *)
Definition dummy (a : axis) (x : arr) : res arr :=
  if get a (shape x) =? 0 then Err IndexError else Ok (Arr (set a 1 (shape x)) (fun _ => k0)).
(** x[slices], slices that start at o *)
Definition from (o : idx) (x : arr) : arr :=
  Arr (build (fun a => get a (shape x) - get a o)) (fun p => val x (build (fun a => get a p + get a o))).
(** np.multiply(x, y): shapes are equal or 1 on each axis *)
Definition fits (m n : nat) : bool := (m =? n) || (m =? 1) || (n =? 1).
Definition clip (n i : nat) : nat := if n =? 1 then 0 else i.
Definition multiply (x y : arr) : res arr :=
  if forallb (fun a => fits (get a (shape x)) (get a (shape y))) [AX; AY; AZ] then
    Ok (Arr (build (fun a => if get a (shape x) =? 1 then get a (shape y) else get a (shape x)))
            (fun p => kmul (val x (build (fun a => clip (get a (shape x)) (get a p)))) (val y (build (fun a => clip (get a (shape y)) (get a p))))))
  else Err ValueError.

(** ** apply_symmetry, lines 315-358: one component c for one axis a; the three blocks are the same
    but for the axis *)
Definition unfold_comp (a : axis) (s : sym) (d : arr) (c : axis) (x : arr) : res arr :=
  match s with
  | SNone => Ok x
  | SOne => if axis_eqb c a then cat a (flip a x) x else cat3 a d (neg (flip a (tail1 a x))) x
  | STwo => if axis_eqb c a then cat a (neg (flip a x)) x else cat3 a d (flip a (tail1 a x)) x
  end.
Definition unfold_axis (a : axis) (s : sym) (E : field) : res field :=
  bind (dummy a (comp AY E)) (fun d =>
  bind (unfold_comp a s d AX (comp AX E)) (fun x => bind (unfold_comp a s d AY (comp AY E)) (fun y =>
  bind (unfold_comp a s d AZ (comp AZ E)) (fun z => Ok (x, y, z))))).
Definition apply_symmetry (s : axis -> sym) (E : field) : res field :=
  bind (unfold_axis AX (s AX) E) (fun E => bind (unfold_axis AY (s AY) E) (unfold_axis AZ (s AZ))).

(** ** the request *)
Inductive solver_kind := CG | BiCGSTAB | Lgmres | JacobiDavidson.
Record request := Request {
  rq_omega : K; rq_shape : idx; rq_neig : nat; rq_bloch : axis -> K; rq_pemc : axis -> nat * nat; rq_solver : nat;
  rq_sd : axis -> nat -> K; rq_sp : axis -> nat -> K;             (* dxes[0], dxes[1] *)
  rq_eps : field; rq_J : field; rq_mu : field; rq_E0 : field }.
(** arguments of solve; the shape is that of the solver object *)
Record args := Args {
  omega : K; dx0 : axis -> nat -> K; dx1 : axis -> nat -> K; eps : field; src : field; mu : option field; e0 : option field;
  pemc : option (axis -> nat * nat); phase : option (axis -> K); symmetry : axis -> sym; adjoint : bool; info : bool; neig : nat }.
Variable is_one : K -> bool.
Variable n : idx.
Variable kind : solver_kind.

(** slices, lines 151-173 *)
Definition start (s : axis -> sym) : idx := build (fun a => if active (s a) then get a n / 2 else 0).
Definition sent_shape (s : axis -> sym) : idx := build (fun a => get a n - get a (start s)).
(** pemc after lines 152-169; the array of the caller, if given, is overwritten *)
Definition set_pemc (s : axis -> sym) (p : axis -> nat * nat) : axis -> nat * nat :=
  fun a => match s a with SNone => p a | SOne => (1, 1) | STwo => (2, 2) end.
(** lines 218-228 *)
Definition solver_number (bloch : axis -> K) : nat :=
  match kind with
  | CG => if forallb (fun a => is_one (bloch a)) [AX; AY; AZ] then 0 else 1
  | BiCGSTAB => 1 | Lgmres => 2 | JacobiDavidson => 3
  end.
(** s[k], lines 188-201: the cell sizes are conjugated already *)
Definition volume (m : idx) (d0 d1 : axis -> nat -> K) (c : axis) : arr :=
  Arr m (fun p => kmul (kmul (if axis_eqb c AX then d0 AX (get AX p) else d1 AX (get AX p)) (if axis_eqb c AY then d0 AY (get AY p) else d1 AY (get AY p)))
                       (if axis_eqb c AZ then d0 AZ (get AZ p) else d1 AZ (get AZ p))).
Definition amap (f : K -> K) (x : arr) : arr := Arr (shape x) (fun p => f (val x p)).
Definition full (c : K) : arr := Arr n (fun _ => c).
Definition slice (s : axis -> sym) (E : field) : field := fmap (fun _ => from (start s)) E.
Definition sliced_cells (s : axis -> sym) (d : axis -> nat -> K) : axis -> nat -> K := fun a i => d a (i + get a (start s)).
(** what is written for the server, lines 124-258 *)
Definition make_request (q : args) : request :=
  let s := symmetry q in
  let bloch := match phase q with None => fun _ => k1 | Some b => b end in
  let p := set_pemc s (match pemc q with None => fun _ => (0, 0) | Some p => p end) in
  let d0 := sliced_cells s (dx0 q) in let d1 := sliced_cells s (dx1 q) in
  let e := slice s (eps q) in
  let j := slice s (src q) in
  let m := slice s (match mu q with None => (full k1, full k1, full k1) | Some m => m end) in
  let i := slice s (match e0 q with None => (full k0, full k0, full k0) | Some e => e end) in
  if adjoint q then
    let d0' := fun a i => kconj (d0 a i) in let d1' := fun a i => kconj (d1 a i) in
    Request (kconj (omega q)) (sent_shape s) (neig q) bloch p (solver_number bloch) d0' d1'
      (fmap (fun _ => amap kconj) e)
      (fmap (fun c x => Arr (shape x) (fun t => kdiv (val x t) (kconj (val (volume (sent_shape s) d0' d1' c) t)))) j)
      (fmap (fun _ => amap kconj) m) i
  else Request (omega q) (sent_shape s) (neig q) bloch p (solver_number bloch) d0 d1 e j m i.

(** ** files, lines 295-308 and 361-415 *)
Inductive file := FE (c : axis) (imag : bool) | FQ (i : nat) (c : axis) (imag : bool) | Fq (imag : bool) | FTime | FStatus.
Definition parts : list (axis * bool) := list_prod [AX; AY; AZ] [false; true].
Definition downloaded (k : nat) : list file :=
  match kind with
  | JacobiDavidson => flat_map (fun cq => map (fun i => FQ i (fst cq) (snd cq)) (seq 0 k)) parts ++ [Fq false; Fq true]
  | _ => map (fun cq => FE (fst cq) (snd cq)) parts
  end.
Definition file_eqb (f g : file) : bool :=
  match f, g with
  | FE c q, FE c' q' => axis_eqb c c' && Bool.eqb q q'
  | FQ i c q, FQ i' c' q' => (i =? i') && axis_eqb c c' && Bool.eqb q q'
  | Fq q, Fq q' => Bool.eqb q q'
  | FTime, FTime | FStatus, FStatus => true
  | _, _ => false
  end.
(** opening a file that is not there: FileNotFoundError, or KeyError with older h5py *)
Definition NotFound : err := UserError 0.
Definition open_files (k : nat) (l : list file) : res unit :=
  if forallb (fun f => existsb (file_eqb f) (downloaded k)) l then Ok tt else Err NotFound.

(** what the server stores: fields (one, or one for each mode) and the squares of the frequencies *)
Record answer := Answer { an_field : nat -> field; an_q : nat -> K }.
Inductive result := RField (E : field) | RModes (l : list (field * K)).
Variable root : K -> K.                               (* q**(0.5) *)

(** lines 392-393 for driven problems *)
Definition undo (q : request) (E : field) : res field :=
  let s := fun c => amap kconj (volume (rq_shape q) (rq_sd q) (rq_sp q) c) in
  bind (multiply (comp AX E) (s AX)) (fun x => bind (multiply (comp AY E) (s AY)) (fun y =>
  bind (multiply (comp AZ E) (s AZ)) (fun z => Ok (x, y, z)))).
(** solve; the array pemc of the caller afterwards, the request, the result.  For modes with adjoint, lines
    392-393 index the list of modes; with three modes or more they mix them up, which is not
    represented (UserError 1). *)
Definition solve (server : request -> answer) (q : args) : option (axis -> nat * nat) * request * res result :=
  let rq := make_request q in
  let pemc' := match pemc q with None => None | Some p => Some (set_pemc (symmetry q) p) end in
  let an := server rq in
  let r :=
    match kind with
    | JacobiDavidson =>
        bind (open_files (neig q) (flat_map (fun i => map (fun cq => FQ i (fst cq) (snd cq)) parts) (seq 0 (neig q)))) (fun _ =>
        bind (mapM (fun i => apply_symmetry (symmetry q) (an_field an i)) (seq 0 (neig q))) (fun E =>
        bind (if adjoint q then (if neig q <? 3 then Err IndexError else Err (UserError 1)) else Ok tt) (fun _ =>
        if info q then bind (open_files (neig q) [FTime; FStatus]) (fun _ => Err TypeError) else
        bind (open_files (neig q) [Fq false; Fq true]) (fun _ =>
        Ok (RModes (combine E (map (fun i => root (an_q an i)) (seq 0 (neig q)))))))))
    | _ =>
        bind (open_files (neig q) (map (fun cq => FE (fst cq) (snd cq)) parts)) (fun _ =>
        bind (apply_symmetry (symmetry q) (an_field an 0)) (fun E =>
        bind (if adjoint q then undo rq E else Ok E) (fun E =>
        if info q then bind (open_files (neig q) [FTime; FStatus]) (fun _ => Ok (RField E)) else Ok (RField E))))
    end in
  (pemc', rq, r).
End Solver.

(** ** transfer, lines 20-56, 279-293 *)
Section Transfer.
Variable byte : Type.
(** upload_files for one file.  Each attempt is a call of requests.post: requests reads the file object
    from its position to the end to build the body, then connects.  true: the server stores the body;
    false: ConnectionError.  The result is what the server stored. *)
Fixpoint upload (content : list byte) (pos : nat) (attempts : list bool) : res (list byte) :=
  match attempts with
  | [] => Err OutOfFuel
  | ok :: rest => let body := skipn pos content in if ok then Ok body else upload content (length content) rest
  end.
(** the server's files after upload_files *)
Fixpoint upload_files (l : list (nat * list byte)) (attempts : nat -> list bool) (store : dict (list byte)) : res (dict (list byte)) :=
  match l with
  | [] => Ok store
  | (name, content) :: rest => bind (upload content 0 (attempts name)) (fun body => upload_files rest attempts (dset store name body))
  end.
(** download_files for one file: each attempt gives the content of the response or ConnectionError; the
    status is not looked at *)
Fixpoint download (attempts : list (option (list byte))) : res (list byte) :=
  match attempts with
  | [] => Err OutOfFuel
  | Some c :: _ => Ok c
  | None :: rest => download rest
  end.
(** the loop of lines 279-293: each round asks for request and, if it is not there, for finished; None is
    ConnectionError.  The result is the number of rounds before the one that ends the loop. *)
Fixpoint wait (rounds : list (option bool * option bool)) : res nat :=
  match rounds with
  | [] => Err OutOfFuel
  | (Some false, Some true) :: _ => Ok 0
  | _ :: rest => bind (wait rest) (fun k => Ok (S k))
  end.
End Transfer.
