(** Vocabulary for simulation spaces and materials. *)
From Verif Require Import QTac Select_Model Space_Model.
From Coq Require Import ZArith Qabs.
Set Implicit Arguments.
Open Scope Q_scope.

(** the decimal exponent: none for zero, otherwise the power of ten below *)
Definition decimal_exponent (lg : Q -> option Z) : Prop :=
  (forall v, v == 0 -> lg v = None) /\
  (forall v, ~ v == 0 -> exists e, lg v = Some e /\ ten e <= Qabs v /\ Qabs v < ten (e + 1)).
(** a number with at most seven significant digits *)
Definition seven_digits (v : Q) : Prop := exists (m e : Z), (Z.abs m < 10000000)%Z /\ v == inject_Z m * ten e.
(** what the space gives at a wavelength, without cache *)
Definition fresh lg grid_bg grid_fg nx ny nz sel (w : Q) : res instance :=
  bind (round_sig lg w) (fun k => bind (make grid_bg grid_fg nx ny nz sel k) (fun r => Ok (fst r))).
(** spaces a program can have *)
Definition has_space lg grid_bg grid_fg nx ny nz sel (ws : list Q) (s : space) : Prop :=
  exists s0, create lg grid_bg grid_fg nx ny nz sel true = Ok s0 /\ s = calls lg grid_bg grid_fg nx ny nz sel s0 ws.
(** interpolation goes through its data *)
Definition interpolates (pchip : list Q -> list Q -> Q -> Q) : Prop :=
  forall x y i w, increasing x -> length y = length x -> (i < length x)%nat -> w == qn x i -> pchip x y w == qn y i.
Definition ceq (a b : cnum) : Prop := fst a == fst b /\ snd a == snd b.
(** the first is the square of the second *)
Definition square_of (e z : cnum) : Prop := fst e == fst z * fst z - snd z * snd z /\ snd e == 2 * (fst z * snd z).
