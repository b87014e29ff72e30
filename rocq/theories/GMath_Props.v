(** C84: gradients of the numeric functions of goos; C85: arithmetic with them; C104: their values. *)
From Coq Require Import Reals ZArith Permutation Lra Lia.
From Verif Require Import Base GraphExec_Spec Shape_Model GMath_Model GMath_Spec GMathOp_Spec.
From Verif Require GMath_Proofs8 GMath_Proofs9 GMath_Proofs10 GMathOp_Proofs GMath_Proofs11.
Set Implicit Arguments.
Local Open Scope R_scope.

(** ** C84 *)
(** Where a real number is computed and all functions involved can be differentiated, [eval_grad]
    returns for every variable an array of the form of its value, and along every motion of the
    variables these arrays give the rate of change of what [eval] returns. *)
Theorem goos_gradient_correct : forall kinds inputs ord fuel ov vars out U v0,
  (forall blk c, Permutation (ord blk c) c) -> (1 + length U <= fuel)%nat ->
  goos_graph kinds inputs ov vars out U -> differentiable kinds inputs ov vars U ->
  goos_eval kinds inputs ord fuel ov out = Ok v0 -> cpx v0 = false -> size v0 = 1%nat ->
  exists gs, goos_grad kinds inputs ord fuel ov out vars = Ok gs /\
    Forall2 (fun x g => exists a, ov x = Some a /\ grad_for a g) vars gs /\
    forall W t0 ds, varying ov vars W t0 ds ->
      near t0 (fun t => exists v, goos_eval kinds inputs ord fuel (W t) out = Ok v) /\
      derivable_pt_lim (fun t => number (goos_eval kinds inputs ord fuel (W t) out)) t0 (total_rate (flags ov vars) gs ds).
Proof. exact GMath_Proofs10.goos_gradient_correct_pf. Qed.
(** every returned entry is a partial derivative *)
Theorem goos_partial_derivatives : forall kinds inputs ord fuel ov vars out U v0 gs x a g j,
  (forall blk c, Permutation (ord blk c) c) -> (1 + length U <= fuel)%nat ->
  goos_graph kinds inputs ov vars out U -> differentiable kinds inputs ov vars U ->
  goos_eval kinds inputs ord fuel ov out = Ok v0 -> cpx v0 = false -> size v0 = 1%nat ->
  goos_grad kinds inputs ord fuel ov out vars = Ok gs -> In (x, g) (combine vars gs) ->
  ov x = Some a -> cpx a = false -> (j < size a)%nat ->
  derivable_pt_lim (fun t => number (goos_eval kinds inputs ord fuel
    (dset ov x (mkarr false (map (fun i => if Nat.eqb i j then cadd (entry a i) (creal t) else entry a i) (seq 0 (size a))))) out))
    0 (fst (nth j g (creal 0))).
Proof. exact GMath_Proofs10.goos_partials_pf. Qed.
(** the gradient of z in x + y + z + y * y: the sum hands one array to all of them and y * y is added to it *)
Theorem goos_gradient_shared_refuted : exists kinds inputs ov vars out U fuel gs W t0 ds l,
  goos_graph kinds inputs ov vars out U /\ (1 + length U <= fuel)%nat /\ (exists v, goos_eval kinds inputs (fun _ l => l) fuel ov out = Ok v /\ cpx v = false /\ size v = 1%nat) /\
  goos_grad kinds inputs (fun _ l => l) fuel ov out vars = Ok gs /\ varying ov vars W t0 ds /\
  derivable_pt_lim (fun t => number (goos_eval kinds inputs (fun _ l => l) fuel (W t) out)) t0 l /\ total_rate (flags ov vars) gs ds <> l.
Proof. exact GMath_Proofs10.shared_refuted_pf. Qed.
(** a single number times a vector: its gradient has the length of the vector *)
Theorem goos_gradient_broadcast_refuted : exists kinds inputs ov x a out fuel v g, ov x = Some a /\ goos_eval kinds inputs (fun _ l => l) fuel ov out = Ok v /\ cpx v = false /\ size v = 1%nat /\
  goos_grad kinds inputs (fun _ l => l) fuel ov out [x] = Ok [g] /\ length g <> size a.
Proof. exact GMath_Proofs10.broadcast_refuted_pf. Qed.
(** one constant multiplied with vectors of two lengths *)
Theorem goos_gradient_constant_refuted : exists kinds inputs ov vars out fuel v, goos_eval kinds inputs (fun _ l => l) fuel ov out = Ok v /\ cpx v = false /\ size v = 1%nat /\
  goos_grad kinds inputs (fun _ l => l) fuel ov out vars = Err ValueError.
Proof. exact GMath_Proofs10.frozen_refuted_pf. Qed.
(** |i x| for a real variable: half the derivative *)
Theorem goos_gradient_complex_refuted : exists kinds inputs ov vars out fuel gs W t0 ds l,
  (exists v, goos_eval kinds inputs (fun _ l => l) fuel ov out = Ok v /\ cpx v = false /\ size v = 1%nat) /\
  goos_grad kinds inputs (fun _ l => l) fuel ov out vars = Ok gs /\ varying ov vars W t0 ds /\
  derivable_pt_lim (fun t => number (goos_eval kinds inputs (fun _ l => l) fuel (W t) out)) t0 l /\ total_rate (flags ov vars) gs ds = l / 2 /\ l <> 0.
Proof. exact GMath_Proofs10.complex_refuted_pf. Qed.

(** the sum of (x * y + 1) * (x * y + 1) at x = (1, 2), y = (3, 4) *)
Example goos_gradient_case :
  goos_graph GMath_Proofs10.ex_kinds GMath_Proofs10.ex_inputs GMath_Proofs10.ex_ov [0; 1]%nat 7 GMath_Proofs10.ex_U /\
  differentiable GMath_Proofs10.ex_kinds GMath_Proofs10.ex_inputs GMath_Proofs10.ex_ov [0; 1]%nat GMath_Proofs10.ex_U /\
  exists a b c d, goos_grad GMath_Proofs10.ex_kinds GMath_Proofs10.ex_inputs (fun _ l => l) 20 GMath_Proofs10.ex_ov 7 [0; 1]%nat = Ok [[a; b]; [c; d]] /\
  a = creal 24 /\ b = creal 72 /\ c = creal 8 /\ d = creal 36.
Proof. split; [exact GMath_Proofs10.ex_graph|]. split; [exact GMath_Proofs10.ex_differentiable|]. exact GMath_Proofs10.ex_grad. Qed.
Example goos_gradient_case_value : exists z, goos_eval GMath_Proofs10.ex_kinds GMath_Proofs10.ex_inputs (fun _ l => l) 20 GMath_Proofs10.ex_ov 7 = Ok (mkarr false [z]) /\ z = creal 97.
Proof. eexists. split; [vm_compute; reflexivity|]. unfold creal. f_equal; lra. Qed.

(** ** C85 *)
(** Whatever the operators rearrange: where a formula has a value, it is that of the operation, entry
    by entry, and arrays of reals give arrays of reals. *)
Theorem goos_add : forall env x y z a b c, py_add x y = Ok z -> value env x = Ok a -> value env y = Ok b -> value env z = Ok c ->
  entrywise cadd a b c /\ (cpx a = false -> cpx b = false -> cpx c = false).
Proof. exact GMathOp_Proofs.add_value. Qed.
Theorem goos_mul : forall env x y z a b c, py_mul x y = Ok z -> value env x = Ok a -> value env y = Ok b -> value env z = Ok c ->
  entrywise cmul a b c /\ (cpx a = false -> cpx b = false -> cpx c = false).
Proof. exact GMathOp_Proofs.mul_value. Qed.
Theorem goos_neg : forall env x z a c, py_neg x = Ok z -> value env x = Ok a -> value env z = Ok c ->
  size c = size a /\ forall j, (j < size a)%nat -> entry c j = cscale (-1) (entry a j).
Proof. exact GMathOp_Proofs.neg_value. Qed.
Theorem goos_sub : forall env x y z a b c, py_sub x y = Ok z -> value env x = Ok a -> value env y = Ok b -> value env z = Ok c ->
  entrywise csub a b c.
Proof. exact GMathOp_Proofs.sub_value. Qed.
Theorem goos_div : forall env x y z a b c, py_div x y = Ok z -> value env x = Ok a -> value env y = Ok b -> proper b -> value env z = Ok c ->
  entrywise cdiv a b c /\ forall j, (j < size b)%nat -> entry b j <> creal 0.
Proof. exact GMathOp_Proofs.div_value. Qed.
Theorem goos_pow : forall env x z n a c, py_pow x (INR n) = Ok z -> value env x = Ok a -> proper a -> value env z = Ok c ->
  size c = size a /\ cpx c = cpx a /\ forall j, (j < size a)%nat -> entry c j = cpow (entry a j) n.
Proof. exact GMathOp_Proofs.pow_value. Qed.
(** A sum has a value exactly if the terms of both sides together are of one size or at most one of
    them is a vector; likewise a product. *)
Theorem goos_add_evaluates : forall env x y z vs vs', py_add x y = Ok z -> (forall c, x <> PNum (creal 0) c /\ y <> PNum (creal 0) c) ->
  mapM (evaluate env) (summands x) = Ok vs -> mapM (evaluate env) (summands y) = Ok vs' -> vs ++ vs' <> [] -> Forall (fun a => size a <> 0%nat) (vs ++ vs') ->
  (exists c, value env z = Ok c) <-> mixable (vs ++ vs').
Proof. exact GMathOp_Proofs.add_evaluates. Qed.
Theorem goos_mul_evaluates : forall env x y z vs vs', py_mul x y = Ok z -> (forall c, x <> PNum (creal 1) c /\ y <> PNum (creal 1) c) ->
  mapM (evaluate env) (factors x) = Ok vs -> mapM (evaluate env) (factors y) = Ok vs' -> vs ++ vs' <> [] -> Forall (fun a => size a <> 0%nat) (vs ++ vs') ->
  (exists c, value env z = Ok c) <-> mixable (vs ++ vs').
Proof. exact GMathOp_Proofs.mul_evaluates. Qed.
(** x + y and x * y of two vectors have values; x + y + 1, 2 * (x * y), -(x * y) and 1 - x * y raise ValueError *)
Theorem goos_flattening_refuted : exists env x y s p, py_add x y = Ok s /\ py_mul x y = Ok p /\
    (exists c, value env s = Ok c) /\ (exists c, value env p = Ok c) /\
    (exists z, py_add s (PNum (creal 1) false) = Ok z /\ value env z = Err ValueError) /\
    (exists z, py_mul (PNum (creal 2) false) p = Ok z /\ value env z = Err ValueError) /\
    (exists z, py_neg p = Ok z /\ value env z = Err ValueError) /\
    (exists z, py_sub (PNum (creal 1) false) p = Ok z /\ value env z = Err ValueError).
Proof. exists GMathOp_Proofs.pair_env. exact GMathOp_Proofs.flattening_pf. Qed.

(** 2 * x + y of the vectors (1, 2) and (3, 4) is (5, 8) *)
Example goos_arithmetic_case : exists p z c d, py_mul (PNum (creal 2) false) (PObj GMathOp_Proofs.va) = Ok p /\
  py_add p (PObj GMathOp_Proofs.vb) = Ok z /\ value GMathOp_Proofs.pair_env z = Ok (mkarr false [c; d]) /\ c = creal 5 /\ d = creal 8.
Proof. exact GMathOp_Proofs.arithmetic_case. Qed.
(** (1, 2) / (3, 4) *)
Example goos_quotient_case : exists z c d, py_div (PObj GMathOp_Proofs.va) (PObj GMathOp_Proofs.vb) = Ok z /\
  value GMathOp_Proofs.pair_env z = Ok (mkarr false [c; d]) /\ c = creal (1 / 3) /\ d = creal (1 / 2).
Proof. exact GMathOp_Proofs.quotient_case. Qed.

(** ** C104 *)
(** an index, an index from the end, an index outside; the middle; a range; everything; anything else *)
Theorem goos_slices : forall a,
  (forall i, (0 <= i < Z.of_nat (size a))%Z -> keval (KSlice (SAt i)) [a] = Ok (mkarr (cpx a) [entry a (Z.to_nat i)])) /\
  (forall i, (- Z.of_nat (size a) <= i < -1)%Z -> keval (KSlice (SAt i)) [a] = Ok (mkarr (cpx a) [entry a (Z.to_nat (Z.of_nat (size a) + i))])) /\
  (forall i, (Z.of_nat (size a) <= i \/ i < - Z.of_nat (size a))%Z -> keval (KSlice (SAt i)) [a] = Ok (mkarr (cpx a) [])) /\
  (size a <> 0%nat -> keval (KSlice SCenter) [a] = Ok (mkarr (cpx a) [entry a (Nat.div (size a) 2)])) /\
  (forall lo hi, (lo <= hi <= size a)%nat ->
    keval (KSlice (SFromTo (Z.of_nat lo) (Z.of_nat hi))) [a] = Ok (mkarr (cpx a) (firstn (hi - lo) (skipn lo (dat a))))) /\
  keval (KSlice SNone) [a] = Ok a /\ keval (KSlice SOther) [a] = Err ValueError.
Proof. exact GMath_Proofs11.slices_pf. Qed.
(** the index -1 selects nothing *)
Theorem goos_slice_last_refuted : forall a, keval (KSlice (SAt (-1))) [a] = Ok (mkarr (cpx a) []).
Proof. exact GMath_Proofs11.slice_last. Qed.
Theorem goos_max : forall ivs v, keval KMax ivs = Ok v ->
  cpx v = false /\ Forall (fun a => size a = size v) ivs /\ forall j, (j < size v)%nat ->
  snd (entry v j) = 0 /\ (exists a, In a ivs /\ fst (entry v j) = fst (entry a j)) /\
  forall a, In a ivs -> fst (entry a j) <= fst (entry v j).
Proof. exact GMath_Proofs11.max_pf. Qed.
Theorem goos_max_shapes : forall ivs, keval KMax ivs = Err ValueError <-> ivs = [] \/ exists a b, In a ivs /\ In b ivs /\ size a <> size b.
Proof. exact GMath_Proofs11.max_fails. Qed.
Theorem goos_norm : forall p a v, (1 <= p)%nat -> keval (KNorm p) [a] = Ok v ->
  exists r, v = mkarr false [creal r] /\ 0 <= r /\ r ^ p = rsum (map (fun z => cabs z ^ p) (dat a)).
Proof. exact GMath_Proofs11.norm_pf. Qed.
Theorem goos_abs : forall a v, keval KAbs [a] = Ok v -> cpx v = false /\ size v = size a /\ forall j, (j < size a)%nat ->
  snd (entry v j) = 0 /\ 0 <= fst (entry v j) /\ cmul (entry v j) (entry v j) = cmul (entry a j) (cconj (entry a j)).
Proof. exact GMath_Proofs11.abs_pf. Qed.
Theorem goos_dot : forall a b v, size a = size b -> keval KDot [a; b] = Ok v ->
  v = mkarr (cpx a || cpx b) [csum (map (fun j => cmul (entry a j) (entry b j)) (seq 0 (size a)))].
Proof. exact GMath_Proofs11.dot_pf. Qed.
Theorem goos_sigmoid : forall a v, keval KSig [a] = Ok v -> cpx a = false /\ cpx v = false /\ size v = size a /\ forall j, (j < size a)%nat ->
  snd (entry v j) = 0 /\ fst (entry v j) * (1 + exp (- fst (entry a j))) = 1.
Proof. exact GMath_Proofs11.sigmoid_pf. Qed.
Theorem goos_conj : forall a v, keval KConj [a] = Ok v -> cpx v = cpx a /\ size v = size a /\ forall j, (j < size a)%nat ->
  fst (entry v j) = fst (entry a j) /\ snd (entry v j) = - snd (entry a j).
Proof. exact GMath_Proofs11.conj_pf. Qed.
(** three entries: the middle, the last by -1 and by index; the maximum of (1, 5) and (4, 2); the norm of (3, 4) *)
Example goos_values_case : let a := mkarr true [(1, 2); (3, 4); (5, 6)] in
  keval (KSlice SCenter) [a] = Ok (mkarr true [(3, 4)]) /\ keval (KSlice (SAt (-1))) [a] = Ok (mkarr true []) /\
  keval (KSlice (SAt (-2))) [a] = Ok (mkarr true [(3, 4)]) /\ keval (KSlice (SFromTo 1 3)) [a] = Ok (mkarr true [(3, 4); (5, 6)]) /\
  exists v w u, keval KMax [mkarr false [creal 1; creal 5]; mkarr false [creal 4; creal 2]] = Ok v /\ size v = 2%nat /\
    keval (KNorm 2) [mkarr false [creal 3; creal 4]] = Ok w /\ keval KDot [a; a] = Ok u.
Proof. cbv zeta. do 4 (split; [reflexivity|]). do 3 eexists. repeat split; reflexivity. Qed.

Print Assumptions goos_gradient_correct.
Print Assumptions goos_partial_derivatives.
Print Assumptions goos_gradient_shared_refuted.
Print Assumptions goos_gradient_broadcast_refuted.
Print Assumptions goos_gradient_constant_refuted.
Print Assumptions goos_gradient_complex_refuted.
Print Assumptions goos_add.
Print Assumptions goos_mul.
Print Assumptions goos_neg.
Print Assumptions goos_sub.
Print Assumptions goos_div.
Print Assumptions goos_pow.
Print Assumptions goos_add_evaluates.
Print Assumptions goos_mul_evaluates.
Print Assumptions goos_flattening_refuted.
Print Assumptions goos_slices.
Print Assumptions goos_slice_last_refuted.
Print Assumptions goos_max.
Print Assumptions goos_max_shapes.
Print Assumptions goos_norm.
Print Assumptions goos_abs.
Print Assumptions goos_dot.
Print Assumptions goos_sigmoid.
Print Assumptions goos_conj.
