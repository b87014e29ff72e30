(** What rastering should compute. *)
From Verif Require Import QTac.
Open Scope Q_scope.
(** length of the intersection of [a,b] and [l,r] *)
Definition overlap (a b l r : Q) : Q := qmax 0 (qmin b r - qmax a l).
(** fraction of the j-th cell of a grid covered by [a,b] *)
Definition covered (a b : Q) (g : list Q) (j : nat) : Q :=
  overlap a b (qn g j) (qn g (j + 1)) / (qn g (j + 1) - qn g j).
