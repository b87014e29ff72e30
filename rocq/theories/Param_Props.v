(** C22 (composite parametrizations), C23 (slack variables), C24 (grating structures),
    C39 (projection), C61 (gradient of grating structures). *)
From Coq Require Import Qround Qabs Permutation.
From Verif Require Import QTac Raster_Model Raster_Spec Grid_Model Param_Model Param_Spec Param_Proofs Param_Proofs2.
Open Scope Q_scope.

(** *** Constructed objects are well formed *)
Theorem direct_constructed : forall v b,
  match b with Some (lo, hi) => fits (length v) lo /\ fits (length v) hi | None => True end -> wf (direct_init v b).
Proof. exact direct_init_wf_pf. Qed.
Theorem grating_constructed : forall v n inv,
  (Nat.even (length v) = true -> exists p, grating_init v n inv = Ok p /\ wf p) /\
  (Nat.even (length v) = false -> grating_init v n inv = Err ValueError).
Proof. exact grating_init_pf. Qed.
Theorem composite_constructed : forall ps, ps <> [] -> Forall wf ps -> Forall (fun p => exists z, get_structure p = Ok z) ps ->
  exists p, composite_init ps = Ok p /\ wf p /\ p = Composite ps (map psize ps) (map psize ps).
Proof. exact composite_init_pf. Qed.

(** *** C22 *)
(** decode (encode ()) restores any parametrization, composite or not *)
Theorem decode_encode : forall p v, wf p -> encode p = Ok v -> decode p v = Ok p.
Proof. exact decode_encode_pf. Qed.
(** any vector of the right length is accepted; its entries are those of the new object
    (gratings may reorder them) and the configuration is kept *)
Theorem decode_total : forall p v, wf p -> length v = psize p ->
  exists p', decode p v = Ok p' /\ wf p' /\ same_config p p' /\ exists v', encode p' = Ok v' /\ Permutation v v'.
Proof. exact decode_ok_pf. Qed.
(** from_vector(to_vector()) leaves exactly the projection of the object *)
Theorem from_to_vector : forall p v, wf p -> to_vector p = Ok v -> from_vector p v = project p.
Proof. exact from_to_vector_pf. Qed.
(** the vector is cut at the component boundaries *)
Theorem composite_split : forall ps sz es vs, wf (Composite ps sz es) -> map (@length Q) vs = map psize ps ->
  decode (Composite ps sz es) (concat vs) = bind (zipR decode ps vs) (fun ps' => Ok (Composite ps' sz es)) /\
  from_vector (Composite ps sz es) (concat vs) = bind (zipR from_vector ps vs) (fun ps' => Ok (Composite ps' sz es)).
Proof. exact composite_decode_pf. Qed.
(** structure, Jacobian and bounds follow the same order *)
Theorem composite_structure : forall ps sz es zs, ps <> [] -> Forall2 (fun p z => get_structure p = Ok z) ps zs ->
  get_structure (Composite ps sz es) = Ok (concat zs).
Proof. exact composite_structure_pf. Qed.
Theorem composite_jacobian : forall ps sz es vs ys, wf (Composite ps sz es) -> map (@length Q) vs = map psize ps ->
  Forall2 (fun pv y => jac_apply (fst pv) (snd pv) = Ok y) (combine ps vs) ys ->
  jac_apply (Composite ps sz es) (concat vs) = Ok (concat ys).
Proof. exact composite_jac_pf. Qed.
Theorem composite_bounds : forall ps sz es bs, wf (Composite ps sz es) -> Forall2 (fun p b => get_bounds p = Ok b) ps bs ->
  let parts := map (fun pb => eff_bounds (psize (fst pb)) (snd pb)) (combine ps bs) in
  get_bounds (Composite ps sz es) = Ok (Some ((KArray, concat (map fst parts)), (KArray, concat (map snd parts)))).
Proof. exact composite_bounds_pf. Qed.
(** bounds exist for every parameter, and a projected object satisfies them *)
Theorem bounds_respected : forall p, wf p -> slack_free p ->
  exists b, get_bounds p = Ok b /\ length (fst (eff_bounds (psize p) b)) = psize p /\ length (snd (eff_bounds (psize p) b)) = psize p /\
  forall p' v', bounds_consistent p -> project p = Ok p' -> encode p' = Ok v' ->
    forall i, (i < psize p)%nat -> above (on (fst (eff_bounds (psize p) b)) i) (qn v' i) /\ below (qn v' i) (on (snd (eff_bounds (psize p) b)) i).
Proof. exact get_bounds_ok_pf. Qed.
(** loading saved data into an object of the same layout gives the projection of the saved one *)
Theorem deserialize_serialize : forall p q d, wf p -> same_layout p q -> serialize p = Ok d -> deserialize q d = project p.
Proof. exact deserialize_serialize_pf. Qed.
Theorem serialize_total : forall p, wf p -> exists d, serialize p = Ok d.
Proof. exact serialize_ok_pf. Qed.

(** *** C39 *)
Theorem direct_projection : forall v lo hi, wf (Direct v lo hi) -> bounds_consistent (Direct v lo hi) ->
  exists v', project (Direct v lo hi) = Ok (Direct v' lo hi) /\ length v' = length v /\
  (forall i, (i < length v)%nat -> above (on (snd lo) i) (qn v' i) /\ below (qn v' i) (on (snd hi) i)) /\
  (forall i, (i < length v)%nat -> above (on (snd lo) i) (qn v i) -> below (qn v i) (on (snd hi) i) -> qn v' i = qn v i) /\
  (forall i y, (i < length v)%nat -> above (on (snd lo) i) y -> below y (on (snd hi) i) -> Qabs (qn v' i - qn v i) <= Qabs (y - qn v i)) /\
  project (Direct v' lo hi) = Ok (Direct v' lo hi).
Proof. exact direct_project_pf. Qed.
Theorem projection_total : forall p, wf p -> exists p', project p = Ok p' /\ wf p' /\ same_config p p'.
Proof. exact project_ok_pf. Qed.
Theorem projection_idempotent : forall p p', wf p -> bounds_consistent p -> project p = Ok p' -> project p' = Ok p'.
Proof. exact project_idem_pf. Qed.

(** *** C24 *)
Theorem grating_area_fraction : forall e n inv, (1 <= n)%nat -> wf (Grating e n inv) ->
  exists z, get_structure (Grating e n inv) = Ok z /\ length z = n /\
  forall j, (j < n)%nat -> let c := teeth_cover e (qnat j) (qnat j + 1) in qn z j == if inv then 1 - c else c.
Proof. exact grating_structure_pf. Qed.
Theorem grating_range_total : forall e n inv z, (1 <= n)%nat -> wf (Grating e n inv) -> get_structure (Grating e n inv) = Ok z ->
  (forall j, (j < n)%nat -> 0 <= qn z j /\ qn z j <= 1) /\
  qsum z == (if inv then qnat n - teeth_cover e 0 (qnat n) else teeth_cover e 0 (qnat n)).
Proof. exact grating_range_pf. Qed.
Theorem grating_complement : forall e n z z', (1 <= n)%nat -> wf (Grating e n false) ->
  get_structure (Grating e n false) = Ok z -> get_structure (Grating e n true) = Ok z' ->
  forall j, (j < n)%nat -> qn z j + qn z' j == 1.
Proof. exact grating_inverted_pf. Qed.
Theorem grating_no_pixels : forall e inv, wf (Grating e 0 inv) -> e <> [] -> get_structure (Grating e 0 inv) = Err ValueError.
Proof. exact grating_no_pixels_pf. Qed.

(** *** C61: the gradient is the exact one-sided derivative: moving edge j to the right by t,
    not past the next edge or pixel boundary, changes pixel i by exactly t * J[i][j] *)
Theorem grating_derivative : forall e npix inv j t i z z', (i < npix)%nat -> (j < length e)%nat -> 0 <= t ->
  wf (Grating e npix inv) -> nondecreasing (lset e j (qn e j + t)) -> qn e j + t <= inject_Z (Qfloor (qn e j)) + 1 ->
  get_structure (Grating e npix inv) = Ok z -> get_structure (Grating (lset e j (qn e j + t)) npix inv) = Ok z' ->
  qn z' i - qn z i == t * grating_jac e npix inv i j.
Proof. exact grating_derivative_pf. Qed.
(** to the left of an edge lying on a pixel boundary the derivative is a different one *)
Theorem grating_derivative_left_refuted : exists e npix j t i z z', (i < npix)%nat /\ (j < length e)%nat /\ t < 0 /\
  wf (Grating e npix false) /\ nondecreasing (lset e j (qn e j + t)) /\
  get_structure (Grating e npix false) = Ok z /\ get_structure (Grating (lset e j (qn e j + t)) npix false) = Ok z' /\
  ~ qn z' i - qn z i == t * grating_jac e npix false i j.
Proof.
  assert (ND : forall a b, a <= b -> nondecreasing [a; b]).
  { intros a b H i j [H1 H2]. simpl in H2. destruct i as [|[|i]], j as [|[|j]]; try lia; cbn; lra. }
  exists [0; 1], 2%nat, 1%nat, (-(1 # 2)), 0%nat. do 2 eexists.
  split; [lia|]. split; [simpl; lia|]. split; [reflexivity|]. split; [split; [apply ND; lra|reflexivity]|].
  split; [cbn [lset qn nth]; apply ND; unfold qn; cbn [nth]; lra|].
  split; [vm_compute; reflexivity|]. split; [vm_compute; reflexivity|]. vm_compute. discriminate.
Qed.

(** *** C23 *)
(** with as many nonnegative slack values as inequalities, both problems have the same
    feasible objective values *)
Theorem slack_equivalent : forall pr v, (exists p, feasible pr p /\ value (objective pr) p = Ok v) <->
  (exists p s, length s = length (cons_ineq pr) /\ (forall i, (i < length s)%nat -> 0 <= qn s i) /\
     feasible (slack_problem pr) (Slack p (length s) s) /\ value (objective (slack_problem pr)) (Slack p (length s) s) = Ok v).
Proof. exact slack_equivalent_pf. Qed.
(** value and gradient of the equality replacing inequality i *)
Theorem slack_constraint_gradient : forall pr i g p s gr, nth_error (cons_ineq pr) i = Some g -> wf p -> length s = length (cons_ineq pr) ->
  gradient g p = Ok gr -> length gr = psize p ->
  exists f gr', In f (cons_eq (slack_problem pr)) /\ gradient f (Slack p (length s) s) = Ok gr' /\ length gr' = (psize p + length s)%nat /\
    (forall x, value f (Slack p (length s) s) = Ok x <-> exists h, value g p = Ok h /\ x = h + qn s i) /\
    (forall k, (k < psize p)%nat -> qn gr' k == qn gr k) /\
    (forall k, (k < length s)%nat -> qn gr' (psize p + k) == if Nat.eqb k i then 1 else 0).
Proof. exact slack_gradient_pf. Qed.
(** bounds of a direct parametrization with slack variables *)
Theorem slack_bounds : forall v lo hi n s, wf (Slack (Direct v (KTuple, lo) (KTuple, hi)) n s) ->
  get_bounds (Slack (Direct v (KTuple, lo) (KTuple, hi)) n s) = Ok (Some ((KTuple, lo ++ repeat (Some 0) n), (KTuple, hi ++ repeat None n))).
Proof. exact slack_bounds_tuple_pf. Qed.
(** a composite parametrization with slack variables has no bounds: get_bounds raises *)
Theorem slack_bounds_composite_fail : forall ps sz es n s, wf (Composite ps sz es) -> slack_free (Composite ps sz es) ->
  (1 <= psize (Composite ps sz es))%nat -> (1 <= n)%nat -> is_ok (get_bounds (Slack (Composite ps sz es) n s)) = false.
Proof. exact slack_bounds_composite_pf. Qed.

(** *** Concrete cases *)
Definition x_minus (c : Q) : ofun :=     (* first parameter minus c *)
  OFun (fun p => bind (encode p) (fun v => Ok (qn v 0 - c))) (fun p => bind (encode p) (fun v => Ok (unit_vec (length v) 0))).
Definition prob1 : problem := Problem (x_minus 0) [] [x_minus 5].   (* x <= 5 *)
Definition dir1 (x : Q) : param := direct_init [x] (Some (BNum 0, BNum 10)).
(** projection does not touch slack variables: a projected point can satisfy every equality
    of the slack problem with a negative slack although the inequality is violated *)
Theorem slack_negative_refuted : exists pr p s, length s = length (cons_ineq pr) /\ wf (Slack p (length s) s) /\
  project (Slack p (length s) s) = Ok (Slack p (length s) s) /\
  feasible (slack_problem pr) (Slack p (length s) s) /\ ~ feasible pr p.
Proof.
  exists prob1, (dir1 7), [-(2)]. split; [reflexivity|]. split; [split; [reflexivity|split; reflexivity]|].
  split; [reflexivity|]. split.
  - split; [|intros f []]. intros f [<-|[]]. eexists. split; [vm_compute; reflexivity|reflexivity].
  - intros [_ H]. destruct (H (x_minus 5) ltac:(now left)) as (x & E & Hx). vm_compute in E. injection E as <-. revert Hx. vm_compute. intros C. now apply C.
Qed.
Example slack_case : feasible prob1 (dir1 3) /\ feasible (slack_problem prob1) (Slack (dir1 3) 1 [2]).
Proof.
  split; (split; [intros f Hf|intros f Hf]); simpl in Hf; destruct Hf as [<-|[]] || destruct Hf.
  - eexists. split; [vm_compute; reflexivity|]. vm_compute. discriminate.
  - eexists. split; [vm_compute; reflexivity|]. reflexivity.
Qed.
Example slack_grad_case : exists f, In f (cons_eq (slack_problem prob1)) /\ gradient f (Slack (dir1 3) 1 [2]) = Ok [1; 1].
Proof. eexists. split; [left; reflexivity|]. vm_compute. reflexivity. Qed.
Example project_case : project (direct_init [-(1); 5; 12] (Some (BNum 0, BNum 10))) = Ok (direct_init [0; 5; 10] (Some (BNum 0, BNum 10))).
Proof. reflexivity. Qed.
(** teeth [1/2,2] and [9/4,5] on a three pixel grid *)
Definition teeth1 : list Q := [1 # 2; 2; 9 # 4; 5].
Example teeth1_wf : wf (Grating teeth1 3 false).
Proof. split; [|reflexivity]. intros i j [H1 H2]. simpl in H2. destruct i as [|[|[|[|i]]]], j as [|[|[|[|j]]]]; try lia; vm_compute; discriminate. Qed.
Example teeth1_structure : exists z, get_structure (Grating teeth1 3 false) = Ok z /\ qn z 0 == 1 # 2 /\ qn z 1 == 1 /\ qn z 2 == 3 # 4.
Proof. eexists. split; [vm_compute; reflexivity|]. repeat split; reflexivity. Qed.
Example teeth1_jac : grating_jac teeth1 3 false 0 0 == -(1) /\ grating_jac teeth1 3 false 2 1 == 1 /\ grating_jac teeth1 3 false 2 3 == 0.
Proof. repeat split; reflexivity. Qed.
Definition comp1 : param := Composite [direct_init [1; 20] (Some (BNum 0, BNum 10)); Grating teeth1 3 false] [2; 4]%nat [2; 4]%nat.
Example comp1_case : wf comp1 /\ bounds_consistent comp1 /\ slack_free comp1 /\
  encode comp1 = Ok [1; 20; 1 # 2; 2; 9 # 4; 5] /\
  get_bounds comp1 = Ok (Some ((KArray, [Some 0; Some 0; None; None; None; None]), (KArray, [Some 10; Some 10; None; None; None; None]))) /\
  from_vector comp1 [1; 20; 3; 2; 1; 0] = Ok (Composite [direct_init [1; 10] (Some (BNum 0, BNum 10)); Grating [0; 1; 2; 3] 3 false] [2; 4]%nat [2; 4]%nat) /\
  is_ok (get_bounds (slack_init comp1 1)) = false.
Proof.
  split; [|split; [|repeat split; reflexivity]].
  - split; [discriminate|]. split; [reflexivity|]. split; [reflexivity|]. split; [split; reflexivity|]. split; [apply teeth1_wf|exact I].
  - split; [|split; exact I]. intros i. destruct i as [|[|[|i]]]; cbn; try exact I; lra.
Qed.

Print Assumptions decode_encode.
Print Assumptions decode_total.
Print Assumptions from_to_vector.
Print Assumptions composite_split.
Print Assumptions composite_structure.
Print Assumptions composite_jacobian.
Print Assumptions composite_bounds.
Print Assumptions bounds_respected.
Print Assumptions deserialize_serialize.
Print Assumptions direct_projection.
Print Assumptions projection_total.
Print Assumptions projection_idempotent.
Print Assumptions grating_area_fraction.
Print Assumptions grating_range_total.
Print Assumptions grating_complement.
Print Assumptions grating_no_pixels.
Print Assumptions grating_derivative.
Print Assumptions grating_derivative_left_refuted.
Print Assumptions slack_equivalent.
Print Assumptions slack_constraint_gradient.
Print Assumptions slack_bounds.
Print Assumptions slack_bounds_composite_fail.
Print Assumptions slack_negative_refuted.
