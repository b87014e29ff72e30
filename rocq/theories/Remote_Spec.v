(** Vocabulary of the statements about the client of the external solver. *)
From Verif Require Import Base CField Remote_Model.
Set Implicit Arguments.

Definition inside (n p : idx) : Prop := forall a, get a p < get a n.
Section Spec.
Variable K : cfield.
Definition arr_eq (x y : arr K) : Prop := shape x = shape y /\ forall p, inside (shape x) p -> val x p = val y p.
Definition field_eq (E F : field K) : Prop := forall c, arr_eq (comp c E) (comp c F).
Definition has_shape (n : idx) (E : field K) : Prop := forall c, shape (comp c E) = n.
(** symmetry 1 keeps the component along the axis and reverses the others, symmetry 2 the opposite *)
Definition sign (s : sym) (along : bool) (v : K) : K := match s, along with SOne, true | STwo, false => v | SOne, false | STwo, true => kopp v | SNone, _ => v end.
(** Reflection at the middle of the axis a, of m cells.  The component along a is at the cell centers of
    that axis: cell i goes to m-1-i.  The others are at the lower edges: edge i goes to m-i and edge 0 (to which
    none corresponds) is zero.  Unless strict, the values on the plane of reflection are free. *)
Definition mirrored (strict : bool) (a : axis) (s : sym) (c : axis) (x : arr K) : Prop :=
  active s = true ->
  let m := get a (shape x) in
  if axis_eqb c a then forall p, inside (shape x) p -> val x (set a (m - 1 - get a p) p) = sign s true (val x p)
  else forall p, inside (shape x) p ->
    (get a p = 0 -> val x p = k0) /\
    (0 < get a p -> strict = true \/ 2 * get a p <> m -> val x (set a (m - get a p) p) = sign s false (val x p)).
Definition symmetric (strict : bool) (s : axis -> sym) (E : field K) : Prop := forall a c, mirrored strict a (s a) c (comp c E).
(** the part of a field from the index o on *)
Definition part (o : idx) (E : field K) : field K := fmap (fun _ x => from o x) E.
End Spec.
Definition driven (k : solver_kind) : Prop := k <> JacobiDavidson.
