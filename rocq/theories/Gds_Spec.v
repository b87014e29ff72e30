(** Vocabulary for the choice of the top cell. *)
From Verif Require Import QTac Gds_Model.
Set Implicit Arguments.
Local Open Scope nat_scope.

Definition visible (c : cell) : Prop := hidden c = false.
(** largest number of polygons of the visible cells, 0 if there is none *)
Definition largest (cs : list cell) : nat := list_max (map num_polys (filter (fun c => negb (hidden c)) cs)).
(** no visible cell has exactly the largest count of the cells before it (0 for the first) *)
Definition no_tie (cs : list cell) : Prop :=
  forall a c b, cs = a ++ c :: b -> visible c -> num_polys c <> largest a.

