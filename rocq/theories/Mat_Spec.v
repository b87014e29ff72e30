(** What a shape preserving interpolation does. *)
From Verif Require Import QTac.
Set Implicit Arguments.
Definition in_between (a b v : Q) : Prop := a <= v <= b \/ b <= v <= a.
Definition strictly_increasing (xs : list Q) : Prop := forall i, (S i < length xs)%nat -> nth i xs 0 < nth (S i) xs 0.
