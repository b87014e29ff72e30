(** Model of the GDS export: /repo/spins/gds/gen_gds.py:12-116.  gdspy is external: [region] is its
    polygon sets, [polygon_of] makes one from vertices (gdspy.Polygon), [inside] tests a point
    (gdspy.inside), [not_of] is gdspy.boolean(..., "not"), whose operand and result may be None.
    Writing the file is not modelled: the result is the content of the cell POLYGONS. *)
From Verif Require Import QTac.
Set Implicit Arguments.

Definition point := (Q * Q)%type.
(** lines 34-36: nanometers to microns *)
Definition microns (poly : list point) : list point := map (fun v => (fst v / 1000, snd v / 1000)%Q) poly.

Section Gds.
Variable region : Type.
Variable polygon_of : list point -> region.
Variable inside : point -> region -> bool.
Variable not_of : option region -> list region -> option region.

(** [test_points] and [gds_polygons], lines 31-40 *)
Definition state := list (point * region).
Definition start (polys : list (list point)) : res state :=
  mapM (fun poly => match poly with [] => Err IndexError | v :: _ => Ok (v, polygon_of poly) end) (map microns polys).
(** [containment_mx[i, j]], lines 44-50 and 94-99 *)
Definition entry (l : state) (i j : nat) : Z :=
  (match nth_error l i, nth_error l j with
   | Some (_, r), Some (t, _) => if inside t r then 1 else 0
   | _, _ => 0
   end - if Nat.eqb i j then 1 else 0)%Z.
Definition zsum (l : list Z) : Z := fold_right Z.add 0%Z l.
(** [overlap_list[i]], lines 52 and 100 *)
Definition overlap (l : state) (i : nat) : Z := zsum (map (entry l i) (seq 0 (length l))).
(** [target_polys], lines 70 and 102 *)
Definition targets (l : state) (num : nat) : list nat := filter (fun i => Z.eqb (overlap l i) (Z.of_nat num)) (seq 0 (length l)).
(** [containment_list], line 76 *)
Definition contained (l : state) (i : nat) : list nat := filter (fun j => negb (Z.eqb (entry l i j) 0)) (seq 0 (length l)).
(** lines 75-92, the body of the loop over the targets; [acc] is [gds_polygons] *)
Definition reduce (l : state) (acc : nat -> option region) (i : nat) : res (nat -> option region) :=
  bind (mapM (fun j => match acc j with Some r => Ok r | None => Err AttributeError end) (contained l i)) (fun rs =>
  Ok (fun k => if memb k (contained l i) then None else if Nat.eqb k i then not_of (acc i) rs else acc k)).
Fixpoint reduce_all (l : state) (acc : nat -> option region) (ts : list nat) : res (nat -> option region) :=
  match ts with
  | [] => Ok acc
  | i :: ts' => bind (reduce l acc i) (fun acc' => reduce_all l acc' ts')
  end.
(** deletion of the entries that are None, lines 89-92 *)
Definition survivors (l : state) (acc : nat -> option region) : state :=
  flat_map (fun k => match nth_error l k, acc k with Some (t, _), Some r => [(t, r)] | _, _ => [] end) (seq 0 (length l)).
(** lines 73-102 *)
Definition pass (l : state) (num : nat) : res state :=
  bind (reduce_all l (fun k => option_map snd (nth_error l k)) (rev (targets l num))) (fun acc => Ok (survivors l acc)).
(** the loop of lines 71-102 *)
Fixpoint rounds (fuel num : nat) (l : state) : res state :=
  match targets l num with
  | [] => Ok l
  | _ => match fuel with O => Err OutOfFuel | S f => bind (pass l num) (rounds f num) end
  end.
(** the loop of lines 54-102 *)
Fixpoint deembed (fuel num : nat) (l : state) : res state :=
  if Z.eqb (zsum (map (overlap l) (seq 0 (length l)))) 0 then Ok l
  else match fuel with O => Err OutOfFuel | S f => bind (rounds f (S num) l) (deembed f (S num)) end.
(** gen_gds, lines 12-116; [extra] is [extra_structures] (None as the empty list) *)
Definition gen_gds (fuel : nat) (polys extra : list (list point)) (deemb : bool) : res (list region) :=
  bind (start polys) (fun l =>
  bind (if deemb then deembed fuel 0 l else Ok l) (fun l' =>
  Ok (map snd l' ++ map polygon_of extra))).
End Gds.
