(** Model of the simulation cache, /repo/spins/invdes/problem/simulation.py:62-111
    (and 147-186 for the adjoint, whose key is the pair of structure and source). *)
From Verif Require Import Base.
Set Implicit Arguments.

Section Cache.
Variables K F : Type.            (* structures, fields *)
Variable keq : K -> K -> bool.   (* np.array_equal *)
Variable solver : K -> res F.    (* _run_solver; deterministic, may raise *)

Definition cache := list (option (K * F)).
Definition empty_cache (n : nat) : cache := repeat None n.

(** The search loop, lines 94-104: the fields found and the list without the hit
    entry. *)
Fixpoint search (z : K) (c : cache) : option (F * cache) :=
  match c with
  | [] => None
  | e :: c' =>
      match e with
      | Some (z', f) =>
          if keq z z' then Some (f, c')
          else match search z c' with Some (f', r) => Some (f', e :: r) | None => None end
      | None => match search z c' with Some (f', r) => Some (f', e :: r) | None => None end
      end
  end.
(** [del self.cache[0]] *)
Definition del0 (c : cache) : res cache := match c with [] => Err IndexError | _ :: c' => Ok c' end.

(** [simulate]: new cache, result, and whether the solver was run. *)
Definition simulate (c : cache) (z : K) : cache * res F * bool :=
  match search z c with
  | Some (f, c') => (c' ++ [Some (z, f)], Ok f, false)
  | None =>
      match solver z with
      | Err e => (c, Err e, true)
      | Ok f => match del0 c with
                | Err e => (c, Err e, true)
                | Ok c' => (c' ++ [Some (z, f)], Ok f, true)
                end
      end
  end.
(** A history of calls: final cache, and result and solver use of each call. *)
Fixpoint simulate_all (c : cache) (zs : list K) : cache * list (res F * bool) :=
  match zs with
  | [] => (c, [])
  | z :: zs' =>
      let '(c1, r, b) := simulate c z in
      let (c2, rs) := simulate_all c1 zs' in (c2, (r, b) :: rs)
  end.

(** *** Threads.
    Every thread performs a list of calls.  The steps of one call are: acquire the
    lock, look at one cache entry at a time, run the solver, delete entry 0,
    append, release (an exception releases the lock as well).  Any thread may take
    the next step. *)
Inductive pc :=
| Idle
| Probe (i : nat)          (* about to look at entry i *)
| Solve                    (* search failed *)
| Evict (f : F)            (* solver returned f *)
| Append (f : F)
| Release (r : res F).
Record thread := { th_todo : list K; th_pc : pc; th_done : list (K * res F) }.
(** [sh_calls]: the structures the solver was run for, in order. *)
Record shared := { sh_cache : cache; sh_lock : option nat; sh_threads : nat -> thread; sh_calls : list K }.
Definition upd (ts : nat -> thread) (t : nat) (x : thread) : nat -> thread :=
  fun t' => if Nat.eqb t' t then x else ts t'.
Definition del_at (i : nat) (c : cache) : cache := firstn i c ++ skipn (S i) c.

Definition step (s : shared) (t : nat) : option shared :=
  let th := sh_threads s t in
  match th_todo th with
  | [] => None
  | z :: rest =>
      let go_calls cs c l p := Some {| sh_cache := c; sh_lock := l; sh_calls := cs;
                              sh_threads := upd (sh_threads s) t {| th_todo := th_todo th; th_pc := p; th_done := th_done th |} |} in
      let go := go_calls (sh_calls s) in
      match th_pc th with
      | Idle => match sh_lock s with None => go (sh_cache s) (Some t) (Probe 0) | Some _ => None end
      | Probe i =>
          match nth_error (sh_cache s) i with
          | None => go (sh_cache s) (sh_lock s) Solve
          | Some None => go (sh_cache s) (sh_lock s) (Probe (S i))
          | Some (Some (z', f)) =>
              if keq z z' then go (del_at i (sh_cache s)) (sh_lock s) (Append f)
              else go (sh_cache s) (sh_lock s) (Probe (S i))
          end
      | Solve => match solver z with
                 | Ok f => go_calls (sh_calls s ++ [z]) (sh_cache s) (sh_lock s) (Evict f)
                 | Err e => go_calls (sh_calls s ++ [z]) (sh_cache s) (sh_lock s) (Release (Err e))
                 end
      | Evict f => match del0 (sh_cache s) with
                   | Ok c => go c (sh_lock s) (Append f)
                   | Err e => go (sh_cache s) (sh_lock s) (Release (Err e))
                   end
      | Append f => go (sh_cache s ++ [Some (z, f)]) (sh_lock s) (Release (Ok f))
      | Release r =>
          Some {| sh_cache := sh_cache s; sh_lock := None; sh_calls := sh_calls s;
                  sh_threads := upd (sh_threads s) t {| th_todo := rest; th_pc := Idle; th_done := th_done th ++ [(z, r)] |} |}
      end
  end.
(** A schedule names the thread that steps next; blocked threads do nothing. *)
Fixpoint run_schedule (s : shared) (sched : list nat) : shared :=
  match sched with
  | [] => s
  | t :: l => run_schedule (match step s t with Some s' => s' | None => s end) l
  end.
Definition threads_start (n : nat) (work : nat -> list K) : shared :=
  {| sh_cache := empty_cache n; sh_lock := None; sh_calls := [];
     sh_threads := fun t => {| th_todo := work t; th_pc := Idle; th_done := [] |} |}.
End Cache.

(** *** Arrays passed by reference.
    [simulate] stores the array object it is given and returns the array object it
    caches.  Arrays live in a heap; a key is an address, and is compared by the
    current contents. *)
Section Heap.
Variable A : Type.                (* contents of arrays *)
Variable aeq : A -> A -> bool.
Variable solver : A -> A.         (* contents of the fields for contents of the structure *)
Definition heap := list A.        (* address = position *)
Definition read (d : A) (h : heap) (a : nat) : A := nth a h d.
Variable dflt : A.

Definition acache := list (option (nat * nat)).  (* addresses of structure and fields *)
Fixpoint asearch (h : heap) (z : nat) (c : acache) : option (nat * acache) :=
  match c with
  | [] => None
  | Some (z', f) :: c' =>
      if aeq (read dflt h z) (read dflt h z') then Some (f, c')
      else match asearch h z c' with Some (f', r) => Some (f', Some (z', f) :: r) | None => None end
  | None :: c' => match asearch h z c' with Some (f', r) => Some (f', None :: r) | None => None end
  end.
(** operations of the caller: simulate the structure at an address; write new
    contents into an array it holds; make a new array *)
Inductive aop := ASim (z : nat) | AWrite (a : nat) (x : A) | ANew (x : A).
Record aworld := { a_heap : heap; a_cache : acache }.
Definition write_at (h : heap) (a : nat) (x : A) : heap :=
  if Nat.ltb a (length h) then firstn a h ++ x :: skipn (S a) h else h.
(** result: the address returned (fields of ASim, new array of ANew) *)
Definition astep (w : aworld) (o : aop) : aworld * option nat :=
  match o with
  | ASim z =>
      match asearch (a_heap w) z (a_cache w) with
      | Some (f, c') => ({| a_heap := a_heap w; a_cache := c' ++ [Some (z, f)] |}, Some f)
      | None =>
          let f := length (a_heap w) in
          match a_cache w with
          | [] => (w, None)
          | _ :: c' => ({| a_heap := a_heap w ++ [solver (read dflt (a_heap w) z)];
                           a_cache := c' ++ [Some (z, f)] |}, Some f)
          end
      end
  | AWrite a x => ({| a_heap := write_at (a_heap w) a x; a_cache := a_cache w |}, None)
  | ANew x => ({| a_heap := a_heap w ++ [x]; a_cache := a_cache w |}, Some (length (a_heap w)))
  end.
Fixpoint asteps (w : aworld) (l : list aop) : aworld :=
  match l with [] => w | o :: l' => asteps (fst (astep w o)) l' end.
End Heap.
