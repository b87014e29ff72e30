(** Export of polygons to GDS (C89).  Vocabulary: GenGds_Spec.v. *)
From Verif Require Import QTac GenGds_Model GenGds_Spec GenGds_Proofs GenGds_Proofs2 GenGds_Proofs3.

(** For contours of which outer ones contain at least as many others directly as inner ones do, the
    export ends and its polygons cover once the points inside an odd number of contours, and no others. *)
Theorem gen_gds_even_odd region (polygon_of : list (Q * Q) -> region) inside not_of polys extra :
  exact_not inside not_of -> Forall (fun p => p <> []) polys ->
  contours inside (map (outline polygon_of) polys) -> outer_have_more inside (map (outline polygon_of) polys) ->
  forall fuel, (2 * length polys + 1 <= fuel)%nat ->
  exists rs, gen_gds polygon_of inside not_of fuel polys extra true = Ok (rs ++ map polygon_of extra) /\
    forall x, depth inside x rs = if Nat.odd (depth inside x (map (fun p => snd (outline polygon_of p)) polys)) then 1%nat else 0%nat.
Proof. intros Hn. exact (@gen_gds_pf region inside not_of Hn polygon_of polys extra). Qed.
(** Without the removal of embedded polygons everything is written; extra structures keep their
    numbers, which the file takes as microns. *)
Theorem gen_gds_plain region (polygon_of : list (Q * Q) -> region) inside not_of fuel polys extra :
  Forall (fun p => p <> []) polys ->
  gen_gds polygon_of inside not_of fuel polys extra false = Ok (map (fun p => polygon_of (in_microns p)) polys ++ map polygon_of extra).
Proof. intros H. unfold gen_gds. rewrite (start_spec polygon_of H). cbn [bind]. now rewrite map_map. Qed.
Theorem gen_gds_no_vertices region (polygon_of : list (Q * Q) -> region) inside not_of fuel polys extra deemb :
  In [] polys -> gen_gds polygon_of inside not_of fuel polys extra deemb = Err IndexError.
Proof.
  intros H. unfold gen_gds. assert (E : start polygon_of polys = Err IndexError); [|now rewrite E].
  unfold start. induction polys as [|p l IH]; [contradiction|]. cbn [map mapM]. destruct p as [|v p]; [reflexivity|]. cbn [microns map bind].
  destruct H as [H|H]; [discriminate|]. now rewrite (IH H).
Qed.

(** ** Rectangles, given by their corners counterclockwise from the lower left *)
Definition box (a c x : Q * Q) : bool := Qle_bool (fst a) (fst x) && Qle_bool (fst x) (fst c) && Qle_bool (snd a) (snd x) && Qle_bool (snd x) (snd c).
Definition rect_of (p : list (Q * Q)) : (Q * Q) -> bool := match p with [a; _; c; _] => box a c | _ => fun _ => false end.
Definition at_point (x : Q * Q) (r : (Q * Q) -> bool) : bool := r x.
Definition minus (r : option ((Q * Q) -> bool)) (l : list ((Q * Q) -> bool)) : option ((Q * Q) -> bool) :=
  match r with Some f => Some (fun x => f x && negb (existsb (at_point x) l)) | None => None end.
Lemma minus_exact : exact_not at_point minus.
Proof. intros r l _. eexists. split; [reflexivity|]. reflexivity. Qed.
(** a square of the given corner and side, in nanometers *)
Definition square (x y s : Q) : list (Q * Q) := [(x, y); (x + s, y); (x + s, y + s); (x, y + s)].
Lemma box_within a c a' c' : Qle_bool (fst a) (fst a') && Qle_bool (snd a) (snd a') && Qle_bool (fst c') (fst c) && Qle_bool (snd c') (snd c) && qlt (fst a) (fst a') = true ->
  within at_point (a, box a c) (a', box a' c').
Proof.
  rewrite !andb_true_iff, !Qle_bool_iff, qlt_true. intros ((((H1 & H2) & H3) & H4) & H5). split; unfold at_point, box; cbn [fst snd].
  - intros x. rewrite !andb_true_iff, !Qle_bool_iff. intros (((K1 & K2) & K3) & K4). repeat split; lra.
  - assert (E : Qle_bool (fst a') (fst a) = false) by now apply Qle_bool_false. now rewrite E.
Qed.
Lemma box_apart a c a' c' : qlt (fst c) (fst a') = true -> apart at_point (a, box a c) (a', box a' c').
Proof.
  rewrite qlt_true. intros H x. unfold at_point, box. cbn [fst snd]. rewrite !andb_true_iff, !Qle_bool_iff. intros (((K1 & K2) & K3) & K4).
  assert (E : Qle_bool (fst a') (fst x) = false) by (apply Qle_bool_false; lra). now rewrite E.
Qed.
Ltac squares := split; [repeat (constructor; [reflexivity|]); constructor|
  repeat (constructor; [repeat (constructor; [first [left; apply box_within; reflexivity | right; left; apply box_within; reflexivity | right; right; apply box_apart; reflexivity]|]); constructor|]); constructor].
Lemma more_dec l : forallb (fun a => forallb (fun b => implb (holds at_point a b && negb (Nat.eqb (length (direct at_point l b)) 0)) (Nat.leb (length (direct at_point l b)) (length (direct at_point l a)))) l) l = true -> outer_have_more at_point l.
Proof.
  rewrite forallb_forall. intros H a b Ha Hb H1 H2. specialize (H a Ha). rewrite forallb_forall in H. specialize (H b Hb). rewrite H1 in H. cbn [andb] in H.
  destruct (direct at_point l b); [congruence|]. cbn [length Nat.eqb negb implb] in H. now apply Nat.leb_le in H.
Qed.
(** a ring with an island in its hole, and a square beside it *)
Definition rings : list (list (Q * Q)) := [square 0 0 9000; square 2000 2000 1000; square 1000 1000 5000; square 20000 0 1000].
Example gen_gds_rings : contours at_point (map (outline rect_of) rings) /\ outer_have_more at_point (map (outline rect_of) rings) /\
  exists rs, gen_gds rect_of at_point minus 20 rings [] true = Ok rs /\ length rs = 2%nat /\
    map (fun x => depth at_point x rs) [(1#2, 1#2); (1#1, 4#1); (5#2, 5#2); (41#2, 1#2); (15#1, 1#2)] = [1; 0; 1; 1; 0]%nat.
Proof. split; [squares|]. split; [apply more_dec; reflexivity|]. eexists. split; [vm_compute; reflexivity|]. split; reflexivity. Qed.

(** ** Where outer contours have fewer polygons directly inside *)
(** a ring with two holes in its island: the export never ends *)
Definition two_holes : list (list (Q * Q)) := [square 0 0 9000; square 1000 1000 7000; square 2000 2000 1000; square 5000 5000 1000].
Definition stuck_state : state ((Q * Q) -> bool) :=
  [outline rect_of (square 0 0 9000);
   (fst (outline rect_of (square 1000 1000 7000)), fun x => rect_of (in_microns (square 1000 1000 7000)) x && negb (existsb (at_point x) [rect_of (in_microns (square 2000 2000 1000)); rect_of (in_microns (square 5000 5000 1000))]))].
Lemma stuck : forall f num, (2 <= num)%nat -> deembed at_point minus f num stuck_state = Err OutOfFuel.
Proof.
  intros f. induction f as [|f IH]; intros num Hn; [reflexivity|]. cbn [deembed].
  match goal with |- context [Z.eqb ?z 0] => replace z with 1%Z by (vm_compute; reflexivity) end. change (Z.eqb 1 0) with false. cbv iota.
  match goal with |- context [rounds at_point minus f (S num) ?l] => assert (E : rounds at_point minus f (S num) l = Ok l) end; [|rewrite E; cbn [bind]; apply IH; lia].
  match goal with |- context [rounds at_point minus f (S num) ?l] => assert (T : targets at_point l (S num) = []) end; [|destruct f; cbn [rounds]; rewrite T; reflexivity].
  unfold targets. match goal with |- context [filter _ (seq 0 ?n)] => change (seq 0 n) with [0; 1]%nat end. cbn [filter].
  match goal with |- context [Z.eqb (overlap at_point ?l 0) _] => replace (overlap at_point l 0) with 1%Z by (vm_compute; reflexivity); replace (overlap at_point l 1) with 0%Z by (vm_compute; reflexivity) end.
  replace (Z.eqb 1 (Z.of_nat (S num))) with false by (symmetry; apply Z.eqb_neq; lia). replace (Z.eqb 0 (Z.of_nat (S num))) with false by (symmetry; apply Z.eqb_neq; lia). reflexivity.
Qed.
Theorem gen_gds_ends_refuted : exists (polygon_of : list (Q * Q) -> (Q * Q) -> bool) inside not_of polys,
  exact_not inside not_of /\ Forall (fun p => p <> []) polys /\ contours inside (map (outline polygon_of) polys) /\
  forall fuel, gen_gds polygon_of inside not_of fuel polys [] true = Err OutOfFuel.
Proof.
  exists rect_of, at_point, minus, two_holes. split; [exact minus_exact|]. split; [repeat constructor; discriminate|]. split; [squares|].
  intros fuel. unfold gen_gds. rewrite start_spec by (repeat constructor; discriminate). cbn [bind].
  match goal with |- bind ?r _ = _ => assert (E : r = Err OutOfFuel); [|now rewrite E] end.
  destruct fuel as [|[|[|f]]]; [reflexivity|reflexivity|reflexivity|].
  assert (R1 : rounds at_point minus (S (S f)) 1 (map (outline rect_of) two_holes) = Ok (map (outline rect_of) two_holes)) by (vm_compute; reflexivity).
  assert (R2 : rounds at_point minus (S f) 2 (map (outline rect_of) two_holes) = Ok stuck_state) by (destruct f; vm_compute; reflexivity).
  change (bind (rounds at_point minus (S (S f)) 1 (map (outline rect_of) two_holes)) (deembed at_point minus (S (S f)) 1) = Err OutOfFuel). rewrite R1. cbn [bind].
  change (bind (rounds at_point minus (S f) 2 (map (outline rect_of) two_holes)) (deembed at_point minus (S f) 2) = Err OutOfFuel). rewrite R2. cbn [bind].
  apply stuck. lia.
Qed.
(** once more surrounded: the export loses the innermost ring *)
Definition lost_ring : list (list (Q * Q)) := [square 0 0 11000; square 1000 1000 9000; square 2000 2000 7000; square 3000 3000 1000; square 6000 6000 1000].
Theorem gen_gds_even_odd_refuted : exists (polygon_of : list (Q * Q) -> (Q * Q) -> bool) inside not_of polys fuel rs x,
  exact_not inside not_of /\ Forall (fun p => p <> []) polys /\ contours inside (map (outline polygon_of) polys) /\
  gen_gds polygon_of inside not_of fuel polys [] true = Ok rs /\
  Nat.odd (depth inside x (map (fun p => snd (outline polygon_of p)) polys)) = true /\ depth inside x rs = 0%nat.
Proof.
  exists rect_of, at_point, minus, lost_ring, 20%nat. eexists. exists (5#2, 5#2). split; [exact minus_exact|]. split; [repeat constructor; discriminate|]. split; [squares|].
  split; [vm_compute; reflexivity|]. split; reflexivity.
Qed.

Print Assumptions gen_gds_even_odd.
Print Assumptions gen_gds_plain.
Print Assumptions gen_gds_no_vertices.
Print Assumptions gen_gds_ends_refuted.
Print Assumptions gen_gds_even_odd_refuted.
