(** What rendering in three dimensions should compute. *)
From Verif Require Import QTac Raster_Spec.
From Verif Require Import Render_Model.
Open Scope Q_scope.
(** fraction of grid cell [r] covered by shape cell [c], along one axis *)
Definition share (s g : list Q) (r c : nat) : Q := covered (qn s c) (qn s (c + 1)) g r.
Definition valid_edges (s : edges3) : Prop := nondecreasing (ex s) /\ nondecreasing (ey s) /\ nondecreasing (ez s) /\
  (1 <= length (ex s))%nat /\ (1 <= length (ey s))%nat /\ (1 <= length (ez s))%nat.
Definition valid_grid (g : edges3) : Prop := increasing (ex g) /\ increasing (ey g) /\ increasing (ez g) /\
  (2 <= length (ex g))%nat /\ (2 <= length (ey g))%nat /\ (2 <= length (ez g))%nat.
(** real part of the bilinear product of a cotangent and a tangent *)
Definition pairing (n : nat) (g e : list cplx) : Q :=
  sumn n (fun r => fst (cn g r) * fst (cn e r) - snd (cn g r) * snd (cn e r)).
