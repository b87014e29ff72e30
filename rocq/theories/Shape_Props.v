(** C51 (groups of shapes) and C52 (index slices). *)
From Coq Require Import ZArith Sorted.
From Verif Require Import Base Shape_Model Shape_Spec Shape_Proofs.

(** *** C51 *)
Theorem group_order : forall A G (inputs : list (flow A)) out st, group_eval G inputs = (out, st) ->
  exists srt, out = map fst srt /\ Permutation srt (shapes (Arr inputs)) /\
  StronglySorted (fun x y => (snd x <= snd y)%Z) srt /\
  forall z, filter (fun x => Z.eqb (snd x) z) srt = filter (fun x => Z.eqb (snd x) z) (shapes (Arr inputs)).
Proof. exact group_eval_pf. Qed.
Theorem group_gradient : forall A G (inputs : list (flow A)) out skel es (gs : list G),
  group_eval G inputs = (out, (skel, es)) -> length gs = length out ->
  let t := group_grad gs es skel in
  same_nesting (Arr inputs) t /\
  exists paths, length paths = length out /\ NoDup paths /\
   (forall q a p, shape_at (Arr inputs) q a p -> In q paths) /\
   forall k q, nth_error paths k = Some q ->
     exists a p g, nth_error out k = Some a /\ shape_at (Arr inputs) q a p /\ nth_error gs k = Some g /\ grad_at t q = Some g.
Proof. exact group_gradient_pf. Qed.
Definition nested : list (flow nat) := [Single 10 2%Z; Arr [Single 11 1%Z; Arr []; Single 12 2%Z]; Single 13 (-1)%Z].
Example group_case : exists st, group_eval nat nested = ([13; 11; 10; 12], st) /\
  group_grad [0; 1; 2; 3] (snd st) (fst st) = GArr [GSingle 2; GArr [GSingle 1; GArr []; GSingle 3]; GSingle 0].
Proof. eexists. split; reflexivity. Qed.

(** *** C52 *)
Theorem slice_index : forall n x, (x <> 0)%Z -> (x <> -1)%Z ->
  selected n (make_slice (At x) n) =
  if Z.leb (- Z.of_nat n) x && Z.ltb x (Z.of_nat n) then [Z.to_nat (if Z.ltb x 0 then x + Z.of_nat n else x)] else [].
Proof. exact selected_index. Qed.
Theorem slice_center : forall n, selected n (make_slice Center n) = if Nat.eqb n 0 then [] else [Nat.div n 2].
Proof. exact selected_center. Qed.
Theorem slice_not_given : forall n, selected n (make_slice NoArg n) = seq 0 n.
Proof. reflexivity. Qed.
(** index 0 leaves the axis whole, index -1 selects nothing *)
Theorem slice_zero_refuted : forall n, selected n (make_slice (At 0) n) = seq 0 n.
Proof. reflexivity. Qed.
Theorem slice_minus_one_refuted : forall n, selected n (make_slice (At (-1)) n) = [].
Proof.
  intros n. unfold selected, make_slice, bound. simpl (Z.eqb _ _). cbv iota. simpl (Z.ltb _ _). cbv iota.
  change (-1 + 1)%Z with 0%Z. simpl. reflexivity.
Qed.
Example slice_cases : selected 5 (make_slice (At 3) 5) = [3] /\ selected 5 (make_slice (At (-2)) 5) = [3] /\
  selected 5 (make_slice Center 5) = [2] /\ selected 1 (make_slice Center 1) = [0] /\ selected 5 (make_slice (At 0) 5) = [0; 1; 2; 3; 4].
Proof. repeat split; reflexivity. Qed.

Print Assumptions group_order.
Print Assumptions group_gradient.
Print Assumptions slice_index.
Print Assumptions slice_center.
Print Assumptions slice_not_given.
Print Assumptions slice_zero_refuted.
Print Assumptions slice_minus_one_refuted.
