(** Vocabulary for the statements about gratings. *)
From Verif Require Import Base QTac Grating_Model.
From Coq Require Import ZArith Qround.
Set Implicit Arguments.

(** A grating on a grid with [D] divisions per pixel: a list of edges (position in divisions, level
    after the edge); the level before the first edge is [start]. *)
Definition level_at (start : nat) (es : list (nat * nat)) (t : nat) : nat :=
  fold_left (fun cur e => if Nat.leb (fst e) t then snd e else cur) es start.
(** average depth over pixel [p] *)
Definition pixel_depth (hx : list Q) (D start : nat) (es : list (nat * nat)) (p : nat) : Q :=
  sumn D (fun q => qn hx (level_at start es (p * D + q))) / inject_Z (Z.of_nat D).
(** squared error against the target *)
Definition error (x hx : list Q) (D start : nat) (es : list (nat * nat)) : Q :=
  sumn (length x) (fun p => (qn x p - pixel_depth hx D start es p) * (qn x p - pixel_depth hx D start es p)).
(** consecutive edges: the level changes, and the segment between them respects the limits of its level *)
Fixpoint gaps (ndep last : nat) (dmin dmax : list Z) (k cur : nat) (es : list (nat * nat)) : Prop :=
  match es with
  | [] => True
  | (k', l) :: es' => l <> cur /\ (l < ndep)%nat /\ (k' <= last)%nat /\
      (zn dmin cur <= Z.of_nat k' - Z.of_nat k <= zn dmax cur)%Z /\ gaps ndep last dmin dmax k' l es'
  end.
(** a grating on [0, last] from level [start] to level [stop]: the first and last segments only
    respect the maximum *)
Definition feasible (ndep last : nat) (dmin dmax : list Z) (start stop : nat) (es : list (nat * nat)) : Prop :=
  match es with
  | [] => False
  | (k, l) :: es' => (k <= last)%nat /\ (Z.of_nat k <= zn dmax start)%Z /\ l <> start /\ (l < ndep)%nat /\ gaps ndep last dmin dmax k l es'
  end /\
  exists pre k, es = pre ++ [(k, stop)] /\ (Z.of_nat last - Z.of_nat k <= zn dmax stop)%Z.
(** edges in pixels *)
Definition in_pixels (D : nat) (es : list (nat * nat)) : list (Q * nat) :=
  map (fun e => (inject_Z (Z.of_nat (fst e)) / inject_Z (Z.of_nat D), snd e)) es.

(** inner product *)
Definition dot (a b : list Q) : Q := sumn (length a) (fun i => qn a i * qn b i).
Definition vsub (a b : list Q) : list Q := map (fun p => fst p - snd p) (combine a b).
(** edges at least [mf] apart and a margin away from the ends of [0, len] *)
Definition separated (mf margin len : Q) (v : list Q) : Prop :=
  (forall i, (S i < length v)%nat -> mf <= qn v (S i) - qn v i) /\ margin <= qn v 0 /\ qn v (length v - 1) <= len - margin.

(** A grating drawn on a plane: segments between consecutive edges, each with a level.  [depth l]:
    how deep the segments of level [l] are etched; the area of the unit cell (x, z) that is filled.
    The grating starts at [pos] with level [cur] and continues to [len]. *)
From Verif Require Import Raster_Spec.
Definition cell_overlap (a b : Q) (i : nat) : Q := overlap a b (inject_Z (Z.of_nat i)) (inject_Z (Z.of_nat i) + 1).
Fixpoint filled_area (height : nat -> nat -> Q) (len pos : Q) (cur : nat) (es : list (Q * nat)) (x z : nat) : Q :=
  match es with
  | [] => cell_overlap pos len x * height cur z
  | (e, l) :: es' => cell_overlap pos e x * height cur z + filled_area height len e l es' x z
  end.
(** filled part of cell [z] below an etch of depth [d] *)
Definition filled (nz : nat) (d : Q) (z : nat) : Q := cell_overlap d (inject_Z (Z.of_nat nz)) z.
(** no layer starts inside a pixel and ends before that pixel does (in particular every layer
    of at least one pixel is fine); and no layer ends less than the code's tolerance into a pixel *)
Fixpoint coarse (d : Q) (depths : list Q) : Prop :=
  match depths with
  | [] => True
  | e :: ds => d <= e /\ (d == inject_Z (Qfloor d) \/ inject_Z (Qfloor d) + 1 <= e) /\
      (e == inject_Z (Qfloor e) \/ inject_Z (Qfloor e) + tiny < e) /\ coarse e ds
  end.
Fixpoint sorted_from (a : Q) (es : list Q) : Prop := match es with [] => True | e :: es' => a <= e /\ sorted_from e es' end.

(** Gratings with feature sizes in user units: [pixel] the size of a pixel of [D] divisions. *)
Definition size (D : nat) (pixel : Q) (k k' : nat) : Q :=
  (inject_Z (Z.of_nat k') - inject_Z (Z.of_nat k)) / inject_Z (Z.of_nat D) * pixel.
Fixpoint size_gaps (ndep last D : nat) (pixel : Q) (minf maxf : list Q) (k cur : nat) (es : list (nat * nat)) : Prop :=
  match es with
  | [] => True
  | (k', l) :: es' => l <> cur /\ (l < ndep)%nat /\ (k' <= last)%nat /\
      (qn minf cur <= size D pixel k k' /\ size D pixel k k' <= qn maxf cur) /\ size_gaps ndep last D pixel minf maxf k' l es'
  end.
Definition realizable (ndep last D : nat) (pixel : Q) (minf maxf : list Q) (start stop : nat) (es : list (nat * nat)) : Prop :=
  match es with
  | [] => False
  | (k, l) :: es' => (k <= last)%nat /\ size D pixel 0 k <= qn maxf start /\ l <> start /\ (l < ndep)%nat /\ size_gaps ndep last D pixel minf maxf k l es'
  end /\
  exists pre k, es = pre ++ [(k, stop)] /\ size D pixel k last <= qn maxf stop.

(** What the discretization stores for the edges [es] (grid positions, level after the edge). *)
Definition positions_of (D : nat) (pixel : Q) (es : list (nat * nat)) : list Q := map (fun e => inject_Z (Z.of_nat (fst e)) / inject_Z (Z.of_nat D) * pixel) es.
Definition stored_bounds (minf maxf : list Q) (es : list (nat * nat)) : list (Q * Q) := map (fun e => (qn minf (snd e), qn maxf (snd e))) es.
Definition l2d_of (D : nat) (pixel : Q) (minf maxf : list Q) (use_edges : bool) (es : list (nat * nat)) : l2d_result :=
  if use_edges then L2d (positions_of D pixel es) None (map snd es) else L2d (diffs 0 (positions_of D pixel es)) (Some (stored_bounds minf maxf es)) (map snd es).
