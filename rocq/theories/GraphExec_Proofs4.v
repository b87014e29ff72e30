(** Witnesses for the graph executor. *)
From Verif Require Import Base GraphExec_Model GraphExec_Spec GraphExec_Proofs GraphExec_Proofs2 GraphExec_Proofs3
  GradHeap_Model GradHeap_Proofs.
From Coq Require Import ZArith Relations.
Open Scope nat_scope.

Lemma dag_by_order (inputs : nat -> list nat) :
  (forall n c, In c (inputs n) -> (n < c)%nat) -> dag inputs.
Proof.
  intros H n Hn. assert (Hlt : forall a b, clos_trans nat (depends inputs) a b -> (a < b)%nat).
  { induction 1 as [x y Hxy|x y z _ IH1 _ IH2]; [now apply H|lia]. }
  apply Hlt in Hn. lia.
Qed.

Lemma perm1 (l : list nat) n : Permutation l [n] -> l = [n].
Proof. intros H. symmetry in H. now apply Permutation_length_1_inv in H. Qed.

(** Node 0 takes node 1 as its only input. *)
Definition chain (n : nat) : list nat := match n with 0 => [1] | _ => [] end.

Lemma chain_keyerror V (f : nat -> list V -> res V) ord fuel :
  (forall h b, Permutation (ord h b) b) -> (3 <= fuel)%nat ->
  eval_fun chain (fun _ => true) f ord fuel [0] dempty = Err KeyError.
Proof.
  intros Ho Hf. destruct fuel as [|[|[|fuel]]]; try lia.
  assert (H0 : forall h, ord h [0] = [0]) by (intros h; apply perm1, Ho).
  assert (H1 : forall h, ord h [1] = [1]) by (intros h; apply perm1, Ho).
  unfold eval_fun, build_graph. cbn. unfold top_sort. cbn. rewrite H0. cbn. rewrite H1. cbn. reflexivity.
Qed.

Lemma chain_den V (f : nat -> list V -> res V) v1 v0 : f 1 [] = Ok v1 -> f 0 [v1] = Ok v0 -> Den chain f dempty 0 v0.
Proof.
  intros H1 H0. eapply Den_eval with (ivs := [v1]); [reflexivity| |assumption].
  constructor; [|constructor]. eapply Den_eval with (ivs := []); [reflexivity|constructor|assumption].
Qed.

(** Two independent expensive outputs, the first of which is overridden. *)
Lemma override_ignored V (f : nat -> list V -> res V) ord fuel w v0 v1 :
  (forall h b, ord h b = b) -> (4 <= fuel)%nat -> f 0 [] = Ok v0 -> f 1 [] = Ok v1 ->
  eval_fun (fun _ => []) (fun _ => true) f ord fuel [0; 1] (dset dempty 0 w) = Ok [v0; v1].
Proof.
  intros Ho Hf H0 H1. destruct fuel as [|[|[|[|fuel]]]]; try lia.
  unfold eval_fun, build_graph. cbn. unfold top_sort. cbn. rewrite Ho. cbn. rewrite H1. cbn. rewrite H0. reflexivity.
Qed.

(** An expensive objective whose gradient contains a [None] entry. *)
Lemma heavy_none_nameerror V G (f : nat -> list V -> res V) pb (gadd : G -> G -> G) gzero gzl seed ord fuel v1 v0 ov :
  (forall h b, Permutation (ord h b) b) -> (3 <= fuel)%nat ->
  ov 0 = None -> ov 1 = Some v1 -> f 0 [v1] = Ok v0 -> pb 0 [v1] seed = Ok [None] ->
  eval_grad chain (fun n => Nat.eqb n 0) f pb gadd gzero gzl seed ord fuel 0 [1] ov = Err NameError.
Proof.
  intros Ho Hf Hov0 Hov1 Hf0 Hpb. destruct fuel as [|[|[|fuel]]]; try lia.
  assert (H0 : forall h, ord h [0] = [0]) by (intros h; apply perm1, Ho).
  assert (H1 : forall h, ord h [] = []) by (intros h; now apply Permutation_nil, Permutation_sym, Ho).
  unfold eval_grad, build_graph. cbn. unfold top_sort. cbn. rewrite H0. cbn.
  rewrite H1. cbn. unfold eval_fun_vals. cbn.
  unfold dmem. rewrite Hov1, Hov0. unfold eval_block. cbn. unfold get_inputs. cbn. unfold dget. rewrite Hov1. cbn.
  rewrite Hf0. cbn. unfold backward. cbn. unfold grad_light, grad_block, get_inputs. cbn. unfold dget, dset. cbn.
  rewrite Hov1. cbn. rewrite Hpb. reflexivity.
Qed.

(** *** Sum.grad on the heap *)
Section SumHeap.
Variable A : Type.
Variable gadd : A -> A -> A.
(** node 0 = Sum([1, 2, 3, 2]), nodes 1..3 variables: x + y + z + y. *)
Definition sum_repeat (n : nat) : list nat := match n with 0 => [1; 2; 3; 2] | _ => [] end.
(** node 0 = Sum([1, 2, 3, 4]), node 4 = h(2): x + y + z + h(y). *)
Definition sum_nested (n : nat) : list nat := match n with 0 => [1; 2; 3; 4] | 4 => [2] | _ => [] end.
(** [Sum.grad] at node 0, a fresh array with value [d a] at node 4. *)
Definition sum_hpb (d : A -> A) (n : nat) (ivs : list unit) (l : nat) (m : mem A) : res (list nat * mem A) :=
  match n with
  | 0 => Ok (sum_grad 4 l m)
  | 4 => Ok ([snd m], (hupd (fst m) (snd m) (d (fst m l)), S (snd m)))
  | _ => Ok ([], m)
  end.
Definition graph_of (inputs : nat -> list nat) (l : list nat) : graph := map (fun n => (n, inputs n)) l.
Definition hgrad_of (r : res (mem A * dict nat)) (n : nat) : option A :=
  match r with Ok ((h, _), hg) => option_map h (hg n) | Err _ => None end.
Definition uvals : dict unit := fun _ => Some tt.

Lemma sum_repeat_grads d seed :
  let r := hbackward (graph_of sum_repeat [0;1;2;3]) (fun _ => false) gadd (sum_hpb d) uvals [0;1;2;3] 0 seed in
  hgrad_of r 1 = Some seed /\ hgrad_of r 2 = Some (gadd seed seed) /\ hgrad_of r 3 = Some (gadd seed seed).
Proof. cbn. repeat split. Qed.

Lemma sum_nested_grads d seed :
  let r := hbackward (graph_of sum_nested [0;1;2;3;4]) (fun _ => false) gadd (sum_hpb d) uvals [0;1;3;4;2] 0 seed in
  hgrad_of r 1 = Some seed /\ hgrad_of r 2 = Some (gadd seed (d seed)) /\ hgrad_of r 3 = Some (gadd seed (d seed)).
Proof. cbn. repeat split. Qed.
End SumHeap.
