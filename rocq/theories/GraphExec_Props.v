(** Properties of the computational-graph executor (C01 - C05). *)
From Verif Require Import Base GraphExec_Model GraphExec_Spec GraphExec_Proofs GraphExec_Proofs2 GraphExec_Proofs3
  GraphExec_Proofs4 GradHeap_Model GradHeap_Proofs.
From Coq Require Import ZArith Relations.
Open Scope nat_scope.

(** ** C01.  The schedule contains every node reachable from the requested
    outputs exactly once, consumers before their inputs (it is traversed
    backwards for values, forwards for gradients), for every grouping [heavy] of
    expensive nodes and every iteration order [ord] of the set of them. *)
Theorem schedule_topological : forall inputs heavy ord outs U fuel,
  (forall h b, Permutation (ord h b) b) ->
  universe inputs outs U -> dag inputs -> length outs + length U <= fuel ->
  exists g sched,
    build_graph inputs fuel outs = Ok g /\ top_sort g heavy ord = Ok sched /\
    NoDup sched /\ (forall n, In n sched <-> reachable inputs outs n) /\
    (forall n c, In n sched -> In c (inputs n) -> before sched n c).
Proof. exact (fun inputs heavy ord outs U fuel Ho Hu Hd Hf => @schedule_correct unit inputs (fun _ _ => Ok tt) heavy ord Ho outs U Hu Hd fuel Hf). Qed.
Print Assumptions schedule_topological.

(** A diamond with a repeated edge: 0 -> 1,2; 1 -> 3,3; 2 -> 3,4. *)
Definition diamond (n : nat) : list nat :=
  match n with 0 => [1; 2] | 1 => [3; 3] | 2 => [3; 4] | _ => [] end.
Example diamond_ok : universe diamond [0] [0;1;2;3;4] /\ dag diamond.
Proof.
  split.
  - split; [intros x [<-|[]]; simpl; auto|].
    intros n [<-|[<-|[<-|[<-|[<-|[]]]]]] c Hc; simpl in *; tauto.
  - apply dag_by_order. intros [|[|[|n]]] c; simpl; intros H; decompose [or] H; subst; try lia; contradiction.
Qed.
Example diamond_sched :
  bind (build_graph diamond 6 [0]) (fun g => top_sort g (fun n => Nat.eqb n 2 || Nat.eqb n 3) (fun _ b => rev b)) = Ok [0; 1; 2; 4; 3].
Proof. vm_compute. reflexivity. Qed.

(** ** C02.  [eval_fun] succeeds and returns the recursive meaning of every
    requested node. *)
Theorem eval_fun_denotation : forall V inputs (f : nat -> list V -> res V) heavy ord outs U fuel ov,
  (forall h b, Permutation (ord h b) b) ->
  universe inputs outs U -> dag inputs -> length outs + length U <= fuel ->
  (forall n, heavy n = true -> ov n = None) ->
  (forall n, reachable inputs outs n -> exists v, Den inputs f ov n v) ->
  heavy_independent inputs heavy ->
  exists vs, eval_fun inputs heavy f ord fuel outs ov = Ok vs /\ Forall2 (Den inputs f ov) outs vs.
Proof. exact (fun V inputs f heavy ord outs U fuel ov Ho Hu Hd Hf Hov Hden Hi =>
  @eval_fun_complete V inputs f heavy ord Ho outs U Hu Hd fuel Hf ov Hov Hden Hi). Qed.
Print Assumptions eval_fun_denotation.

(** Whatever the dependencies among expensive nodes: a returned value is the
    meaning (it may fail, but it is never wrong). *)
Theorem eval_fun_never_wrong : forall V inputs (f : nat -> list V -> res V) heavy ord outs U fuel ov vs,
  (forall h b, Permutation (ord h b) b) ->
  universe inputs outs U -> dag inputs -> length outs + length U <= fuel ->
  (forall n, heavy n = true -> ov n = None) ->
  eval_fun inputs heavy f ord fuel outs ov = Ok vs -> Forall2 (Den inputs f ov) outs vs.
Proof. exact (fun V inputs f heavy ord outs U fuel ov vs Ho Hu Hd Hf Hov He =>
  @eval_fun_sound V inputs f heavy ord Ho outs U Hu Hd fuel Hf ov Hov vs He). Qed.
Print Assumptions eval_fun_never_wrong.

Theorem denotation_unique : forall V inputs (f : nat -> list V -> res V) ov n v w,
  Den inputs f ov n v -> Den inputs f ov n w -> v = w.
Proof. exact (fun V inputs f ov n v w H1 H2 => @Den_det V inputs f ov n v H1 w H2). Qed.
Print Assumptions denotation_unique.

(** Example: node n computes n + sum of inputs; node 3 overridden by 100;
    node 1 expensive; the outputs share subgraphs. *)
Definition plus_nodes (n : nat) (vs : list Z) : res Z := Ok (fold_left Z.add vs (Z.of_nat n)).
Example diamond_eval :
  eval_fun diamond (fun n => Nat.eqb n 1) plus_nodes (fun _ b => b) 10 [0; 2; 0] (dset dempty 3 100%Z)
  = Ok [307; 106; 307]%Z.
Proof. vm_compute. reflexivity. Qed.
Example diamond_hyps :
  heavy_independent diamond (fun n => Nat.eqb n 1) /\
  (forall n, Nat.eqb n 1 = true -> dset dempty 3 100%Z n = None) /\
  Den diamond plus_nodes (dset dempty 3 100%Z) 0 307%Z.
Proof.
  split; [|split].
  - intros n c Hn Hc. apply Nat.eqb_eq in Hn. subst n. simpl in Hc. decompose [or] Hc; subst; try reflexivity; contradiction.
  - intros n Hn. apply Nat.eqb_eq in Hn. now subst.
  - eapply Den_eval with (ivs := [201; 106]%Z); [reflexivity| |reflexivity].
    constructor; [|constructor; [|constructor]].
    + eapply Den_eval with (ivs := [100; 100]%Z); [reflexivity| |reflexivity].
      repeat constructor; now apply Den_override.
    + eapply Den_eval with (ivs := [100; 4]%Z); [reflexivity| |reflexivity].
      constructor; [now apply Den_override|]. constructor; [|constructor].
      eapply Den_eval with (ivs := []); [reflexivity|constructor|reflexivity].
Qed.

(** ** C03.  One expensive node feeding another: evaluation fails with KeyError
    for every pair of node functions and every set order, although the graph is
    a DAG whose output has a meaning.  (The positive half, independent blocks, is
    [eval_fun_denotation].) *)
Theorem dependent_heavy_nodes_refuted :
  exists inputs : nat -> list nat, dag inputs /\
  (forall V (f : nat -> list V -> res V) v1 v0, f 1 [] = Ok v1 -> f 0 [v1] = Ok v0 -> Den inputs f dempty 0 v0) /\
  (forall V (f : nat -> list V -> res V) ord fuel, (forall h b, Permutation (ord h b) b) -> 3 <= fuel ->
     eval_fun inputs (fun _ => true) f ord fuel [0] dempty = Err KeyError).
Proof.
  exact (ex_intro _ chain (conj
    (dag_by_order chain (fun n c => match n with 0 => fun H => match H with or_introl e => match e with eq_refl => le_n 1 end | or_intror F => match F with end end | S _ => fun F => match F with end end))
    (conj chain_den chain_keyerror))).
Qed.
Print Assumptions dependent_heavy_nodes_refuted.

(** An override for an expensive node that lands in the middle of a block is
    ignored: the node is evaluated again. *)
Theorem heavy_override_ignored_refuted :
  forall V (f : nat -> list V -> res V) ord fuel w v0 v1,
  (forall h b, ord h b = b) -> 4 <= fuel -> f 0 [] = Ok v0 -> f 1 [] = Ok v1 ->
  eval_fun (fun _ => []) (fun _ => true) f ord fuel [0; 1] (dset dempty 0 w) = Ok [v0; v1].
Proof. exact override_ignored. Qed.
Print Assumptions heavy_override_ignored_refuted.
Example override_ignored_case :
  eval_fun (fun _ => []) (fun _ => true) (fun n _ => Ok (Z.of_nat n)) (fun _ b => b) 4 [0; 1] (dset dempty 0 7%Z) = Ok [0; 1]%Z.
Proof. vm_compute. reflexivity. Qed.

(** ** C04.  [eval_grad] succeeds, returns one gradient per variable, and these
    gradients are the transpose of the (forward-mode) derivative of the
    objective: for every assignment [t] of tangents obeying the chain rule,
    [sum_x <grad_x, t x> = <seed, t out>].  A variable the objective does not
    depend on gets the zero gradient. *)
Theorem eval_grad_chain_rule :
  forall V G T K inputs (f : nat -> list V -> res V) ov heavy
    (pb : nat -> list V -> G -> res (list (option G))) gadd gzero gzero_like
    (kplus : K -> K -> K) kzero (pair : G -> T -> K) jvp ord out U fuel vars seed,
  comm_monoid kplus kzero ->
  (forall a b u, pair (gadd a b) u = kplus (pair a u) (pair b u)) ->
  (forall v u, pair (gzero_like v) u = kzero) ->
  (forall h b, Permutation (ord h b) b) ->
  universe inputs [out] U -> dag inputs -> 1 + length U <= fuel ->
  (forall n, heavy n = true -> ov n = None) ->
  (forall n, reachable inputs [out] n -> exists v, Den inputs f ov n v) ->
  heavy_independent inputs heavy ->
  (forall n, reachable inputs [out] n -> pullback_ok inputs f ov heavy pb gzero kplus kzero pair jvp n) ->
  NoDup vars -> (forall x, In x vars -> inputs x = []) -> (forall x, In x vars -> ov x <> None) ->
  exists gs,
    eval_grad inputs heavy f pb gadd gzero gzero_like seed ord fuel out vars ov = Ok gs /\
    length gs = length vars /\
    (forall t, tangent inputs f ov jvp t ->
       (forall n x, reachable inputs [out] n -> inputs n = [] -> ~ In n vars -> pair x (t n) = kzero) ->
       sum_pair kplus kzero pair gs (map t vars) = pair seed (t out)) /\
    (forall x gx, In (x, gx) (combine vars gs) -> ~ reachable inputs [out] x ->
       exists v, ov x = Some v /\ gx = gzero_like v).
Proof.
  exact (fun V G T K inputs f ov heavy pb gadd gzero gzl kplus kzero pair jvp ord out U fuel vars seed
    Hm Hp Hz Ho Hu Hd Hf Hov Hden Hi Hpb Hn Hl Hvo =>
    eval_grad_spec V G T K inputs f ov heavy pb gadd gzero gzl kplus kzero pair jvp Hm Hp Hz ord Ho out U Hu Hd fuel Hf
      Hov Hden Hi Hpb vars Hn Hl Hvo seed).
Qed.
Print Assumptions eval_grad_chain_rule.

(** Example: objective (x + 3 y)^2 written as product of a shared expensive node
    with itself, variables x = 2, y = 3, z unused.  x=5, y=7: value 26^2. *)
Definition sq_inputs (n : nat) : list nat := match n with 0 => [1; 1] | 1 => [2; 3] | _ => [] end.
Definition sq_f (n : nat) (vs : list Z) : res Z :=
  match n, vs with
  | 0, [a; b] => Ok (a * b)%Z
  | 1, [a; b] => Ok (a + 3 * b)%Z
  | _, _ => Err TypeError
  end.
Definition sq_pb (n : nat) (vs : list Z) (g : Z) : res (list (option Z)) :=
  match n, vs with
  | 0, [a; b] => Ok [Some (g * b); Some (g * a)]%Z
  | 1, [a; b] => Ok [Some g; Some (3 * g)]%Z
  | _, _ => Ok [Some 0%Z]
  end.
Definition sq_jvp (n : nat) (vs ts : list Z) : Z :=
  match n, vs, ts with
  | 0, [a; b], [u; w] => (u * b + a * w)%Z
  | 1, _, [u; w] => (u + 3 * w)%Z
  | _, _, _ => 0%Z
  end.
Definition sq_ov : dict Z := dset (dset (dset dempty 2 5%Z) 3 7%Z) 4 9%Z.
Example sq_grad :
  eval_grad sq_inputs (fun n => Nat.eqb n 1) sq_f sq_pb Z.add (fun _ => 0%Z) (fun _ => 0%Z) 1%Z (fun _ b => b) 5 0 [3; 2; 4] sq_ov
  = Ok [156; 52; 0]%Z.
Proof. vm_compute. reflexivity. Qed.
Example sq_hyps :
  universe sq_inputs [0] [0;1;2;3] /\ dag sq_inputs /\ heavy_independent sq_inputs (fun n => Nat.eqb n 1) /\
  (forall n, reachable sq_inputs [0] n ->
     pullback_ok sq_inputs sq_f sq_ov (fun n => Nat.eqb n 1) sq_pb (fun _ => 0%Z) Z.add 0%Z Z.mul sq_jvp n) /\
  (exists t, tangent sq_inputs sq_f sq_ov sq_jvp t /\ t 2 = 1%Z /\ t 3 = 10%Z /\ t 0 <> 0%Z).
Proof.
  assert (D2 : Den sq_inputs sq_f sq_ov 2 5%Z) by now apply Den_override.
  assert (D3 : Den sq_inputs sq_f sq_ov 3 7%Z) by now apply Den_override.
  assert (D1 : Den sq_inputs sq_f sq_ov 1 26%Z).
  { eapply Den_eval with (ivs := [5; 7]%Z); [reflexivity| |reflexivity]. now repeat constructor. }
  split.
  { split; [intros x [<-|[]]; simpl; auto|].
    intros n [<-|[<-|[<-|[<-|[]]]]] c Hc; simpl in *; tauto. }
  split.
  { apply dag_by_order. intros [|[|n]] c; simpl; intros H; decompose [or] H; subst; try lia; contradiction. }
  split.
  { intros n c Hn Hc. apply Nat.eqb_eq in Hn. subst n. simpl in Hc. decompose [or] Hc; subst; try reflexivity; contradiction. }
  split.
  { intros n _ ivs gv HF. destruct n as [|[|n]].
    - simpl in HF. inversion HF as [|? a ? l1 Ha HF1]; subst. inversion HF1 as [|? b ? l2 Hb HF2]; subst. inversion HF2; subst.
      eexists. split; [reflexivity|]. split; [intros _; repeat constructor; discriminate|].
      intros _. split; [reflexivity|]. intros [|u [|w [|]]] Hts; try discriminate. cbn [sum_pair fill sq_jvp]. ring.
    - simpl in HF. inversion HF as [|? a ? l1 Ha HF1]; subst. inversion HF1 as [|? b ? l2 Hb HF2]; subst. inversion HF2; subst.
      eexists. split; [reflexivity|]. split; [intros _; repeat constructor; discriminate|].
      intros _. split; [reflexivity|]. intros [|u [|w [|]]] Hts; try discriminate. cbn [sum_pair fill sq_jvp]. ring.
    - simpl in HF. inversion HF; subst. eexists. split; [reflexivity|].
      split; [intros _; repeat constructor; discriminate|]. intros H. exfalso. now apply H. }
  exists (fun n => match n with 0 => (31 * 26 + 26 * 31)%Z | 1 => 31%Z | 2 => 1%Z | 3 => 10%Z | _ => 0%Z end).
  split; [|split; [reflexivity|split; [reflexivity|discriminate]]].
  intros n ivs Hne HF. destruct n as [|[|n]].
  - assert (ivs = [26; 26]%Z) as ->; [|reflexivity].
    apply (Den_det_list _ _ _ _ _ _ HF); repeat (apply Forall2_cons || apply Forall2_nil); assumption.
  - assert (ivs = [5; 7]%Z) as ->; [|reflexivity].
    apply (Den_det_list _ _ _ _ _ _ HF); repeat (apply Forall2_cons || apply Forall2_nil); assumption.
  - exfalso. now apply Hne.
Qed.

(** The documented shorthand "return None for no gradient" does not work for
    expensive nodes: an expensive objective using it raises NameError. *)
Theorem heavy_none_gradient_refuted :
  forall V G (f : nat -> list V -> res V) pb (gadd : G -> G -> G) gzero gzl seed ord fuel v1 v0 ov,
  (forall h b, Permutation (ord h b) b) -> 3 <= fuel ->
  ov 0 = None -> ov 1 = Some v1 -> f 0 [v1] = Ok v0 -> pb 0 [v1] seed = Ok [None] ->
  eval_grad chain (fun n => Nat.eqb n 0) f pb gadd gzero gzl seed ord fuel 0 [1] ov = Err NameError.
Proof. exact heavy_none_nameerror. Qed.
Print Assumptions heavy_none_gradient_refuted.
Example heavy_none_case :
  eval_grad chain (fun n => Nat.eqb n 0) (fun _ _ => Ok 3%Z) (fun _ _ _ => Ok [None]) Z.add (fun _ => 0%Z) (fun _ => 0%Z) 1%Z
    (fun _ b => b) 3 0 [1] (dset dempty 1 2%Z) = Err NameError.
Proof. vm_compute. reflexivity. Qed.

(** ** C05.  When every [grad] method allocates new arrays, in-place
    accumulation computes exactly what pure accumulation computes (same
    gradients, same exceptions), for every graph, schedule and block structure. *)
Theorem inplace_accumulation_fresh :
  forall V A g heavy (gadd : A -> A -> A) (gzero : V -> A) pb vals sched out seed,
  match hbackward g heavy gadd (fresh_pb pb) vals sched out seed,
        backward g heavy (fun n ivs a => bind (pb n ivs a) (fun gs => Ok (map Some gs))) gadd gzero vals sched out seed with
  | Ok ((h, nx), hg), Ok gr => forall n, gr n = option_map h (hg n)
  | Err e, Err e' => e = e'
  | _, _ => False
  end.
Proof. exact hbackward_refines. Qed.
Print Assumptions inplace_accumulation_fresh.

Example fresh_case :
  let pb := fun (n : nat) (ivs : list unit) (a : Z) => Ok (if Nat.eqb n 0 then [a; a; a; a] else []) in
  hgrad_of Z (hbackward (graph_of sum_repeat [0;1;2;3]) (fun _ => false) Z.add (fresh_pb pb) uvals [0;1;2;3] 0 1%Z) 3 = Some 1%Z.
Proof. vm_compute. reflexivity. Qed.

(** [Sum.grad] hands one array to several inputs.  In x + y + z + y, with any
    incoming gradient [a], the gradient computed for z is [a + a] instead of
    [a]; in x + y + z + h(y) it is [a + h'(y) a]. *)
Theorem sum_aliasing_refuted :
  forall A (gadd : A -> A -> A) (d : A -> A) (seed : A),
  (let r := hbackward (graph_of sum_repeat [0;1;2;3]) (fun _ => false) gadd (sum_hpb A d) uvals [0;1;2;3] 0 seed in
   hgrad_of A r 1 = Some seed /\ hgrad_of A r 2 = Some (gadd seed seed) /\ hgrad_of A r 3 = Some (gadd seed seed)) /\
  (let r := hbackward (graph_of sum_nested [0;1;2;3;4]) (fun _ => false) gadd (sum_hpb A d) uvals [0;1;3;4;2] 0 seed in
   hgrad_of A r 1 = Some seed /\ hgrad_of A r 2 = Some (gadd seed (d seed)) /\ hgrad_of A r 3 = Some (gadd seed (d seed))).
Proof. exact (fun A gadd d seed => conj (sum_repeat_grads A gadd d seed) (sum_nested_grads A gadd d seed)). Qed.
Print Assumptions sum_aliasing_refuted.
(** The schedule used above is one the scheduler produces. *)
Example sum_nested_schedule :
  bind (build_graph sum_nested 6 [0]) (fun g => top_sort g (fun _ => false) (fun _ b => b)) = Ok [0; 1; 3; 4; 2].
Proof. vm_compute. reflexivity. Qed.
