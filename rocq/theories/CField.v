(** Fields with a conjugation and an imaginary unit, finite sums, vectors and matrices.
    The wave operators are stated over any such field; the complex numbers are one.
    Vectors are lists, matrices are functions of row and column: the sparse storage of
    scipy is not represented. *)
From Verif Require Import Base.
From Coq Require Export Field Ring.
From Coq Require Import Setoid.

Record cfield := CField {
  car :> Type;
  k0 : car; k1 : car;
  kadd : car -> car -> car; kmul : car -> car -> car; ksub : car -> car -> car; kopp : car -> car;
  kdiv : car -> car -> car; kinv : car -> car;
  kconj : car -> car;
  ki : car;
  k_field : field_theory k0 k1 kadd kmul ksub kopp kdiv kinv eq;
  kconj_add : forall x y, kconj (kadd x y) = kadd (kconj x) (kconj y);
  kconj_mul : forall x y, kconj (kmul x y) = kmul (kconj x) (kconj y);
  kconj_conj : forall x, kconj (kconj x) = x;
  ki_sq : kmul ki ki = kopp k1;
  kconj_i : kconj ki = kopp ki
}.
Arguments k0 {_}. Arguments k1 {_}. Arguments kadd {_}. Arguments kmul {_}. Arguments ksub {_}. Arguments kopp {_}.
Arguments kdiv {_}. Arguments kinv {_}. Arguments kconj {_}. Arguments ki {_}.
Declare Scope K_scope.
Delimit Scope K_scope with K.
Notation "x + y" := (kadd x y) : K_scope.
Notation "x * y" := (kmul x y) : K_scope.
Notation "x - y" := (ksub x y) : K_scope.
Notation "- x" := (kopp x) : K_scope.
Notation "x / y" := (kdiv x y) : K_scope.
Notation "0" := k0 : K_scope.
Notation "1" := k1 : K_scope.

Section Sums.
Variable K : cfield.
Local Open Scope K_scope.
(** f 0 + ... + f (n-1) *)
Fixpoint fsum (n : nat) (f : nat -> K) : K := match n with O => 0 | S n' => fsum n' f + f n' end.
Definition mat := nat -> nat -> K.
(** v[i]; indices beyond the end do not occur *)
Definition at_ (v : list K) (i : nat) : K := nth i v 0.
Definition vbuild (n : nat) (f : nat -> K) : list K := map f (seq 0 n).
(** A @ v, A @ B for n x n matrices; diagonal matrices; A.H *)
Definition mv (n : nat) (A : mat) (v : list K) : list K := vbuild n (fun i => fsum n (fun j => A i j * at_ v j)).
Definition mmul (n : nat) (A B : mat) : mat := fun i j => fsum n (fun k => A i k * B k j).
Definition mdiag (d : nat -> K) : mat := fun i j => if Nat.eqb i j then d i else 0.
Definition meye : mat := mdiag (fun _ => 1).
Definition msub (A B : mat) : mat := fun i j => A i j - B i j.
Definition mneg (A : mat) : mat := fun i j => - A i j.
Definition mscale (a : K) (A : mat) : mat := fun i j => a * A i j.
Definition mherm (A : mat) : mat := fun i j => kconj (A j i).
(** sparse.bmat of blocks of size n x n *)
Definition bmat (n : nat) (B : nat -> nat -> mat) : mat := fun i j => B (Nat.div i n) (Nat.div j n) (Nat.modulo i n) (Nat.modulo j n).
End Sums.
Arguments fsum {K}. Arguments at_ {K}. Arguments vbuild {K}. Arguments mv {K}. Arguments mmul {K}. Arguments mdiag {K}.
Arguments meye {K}. Arguments msub {K}. Arguments mneg {K}. Arguments mscale {K}. Arguments mherm {K}. Arguments bmat {K}.
