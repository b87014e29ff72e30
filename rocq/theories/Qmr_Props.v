(** Theorems about the generic solver (C162, C163). *)
From Verif Require Import Base CField CField_Proofs Gauss Maxwell_Model Maxwell_Spec Maxwell_Props Qmr_Model Qmr_Spec Qmr_Proofs.
From Coq Require Import List Arith ZArith Lia.
Import ListNotations.

(** *** C162: generic *)
(** with a matrix solver that solves what can be solved, the result solves the problem
    whenever it has a solution at all *)
Theorem generic_forward (K : cfield) (g : grid K) (p : nat -> K) inner omega J eps mu pec pmc :
  nonzero_cells g -> is_sqrt g p -> exact_for (vlen g) inner (preconditioned g p (operator g omega eps mu pec pmc)) ->
  (exists x, solution g (operator g omega eps mu pec pmc) omega J x) ->
  solution g (operator g omega eps mu pec pmc) omega J (generic g inner p omega J eps mu pec pmc false).
Proof. intros Hnz Hp Hin [x Hx]. exact (generic_forward_lemma K g Hnz p Hp inner omega J eps mu pec pmc x Hin Hx). Qed.
Theorem generic_adjoint (K : cfield) (g : grid K) (p : nat -> K) inner omega J eps mu pec pmc :
  nonzero_cells g -> is_sqrt g p -> exact_for (vlen g) inner (mherm (preconditioned g p (operator g omega eps mu pec pmc))) ->
  (exists x, solution g (mherm (operator g omega eps mu pec pmc)) omega J x) ->
  solution g (mherm (operator g omega eps mu pec pmc)) omega J (generic g inner p omega J eps mu pec pmc true).
Proof. intros Hnz Hp Hin [x Hx]. exact (generic_adjoint_lemma K g Hnz p Hp inner omega J eps mu pec pmc x Hin Hx). Qed.
(** with current inside of a perfect conductor there is no solution, for any matrix solver *)
Theorem generic_pec_source (K : cfield) (g : grid K) (p : nat -> K) inner omega J eps mu b pmc i :
  (i < vlen g)%nat -> b i = true -> omega <> k0 -> at_ J i <> k0 ->
  ~ solution g (operator g omega eps mu (Some b) pmc) omega J (generic g inner p omega J eps mu (Some b) pmc false) /\
  ~ solution g (mherm (operator g omega eps mu (Some b) pmc)) omega J (generic g inner p omega J eps mu (Some b) pmc true).
Proof.
  intros Hi Hb Ho HJ. split; [exact (proj1 (pec_source_lemma K g omega J eps mu b pmc i _ Hi Hb Ho HJ))|exact (proj2 (pec_source_lemma K g omega J eps mu b pmc i _ Hi Hb Ho HJ))].
Qed.
(** the field inside of a perfect conductor is not determined: it can be replaced by any other *)
Theorem generic_pec_field (K : cfield) (g : grid K) omega J eps mu b pmc x y :
  length y = vlen g -> (forall i, (i < vlen g)%nat -> b i = false -> at_ x i = at_ y i) ->
  solution g (operator g omega eps mu (Some b) pmc) omega J x -> solution g (operator g omega eps mu (Some b) pmc) omega J y.
Proof. exact (pec_field_lemma K g omega J eps mu b pmc x y). Qed.

(** an example: one cell, a conductor at the first component *)
Definition ex_pec (i : nat) : bool := Nat.eqb i 0.
Definition ex_eps1 (i : nat) : G := gz (Z.of_nat i + 1) 0.
Definition ex_J : list G := [gz 0 0; gz 4 0; gz 6 0].
Definition ex_x : list G := [gz 5 0; gz 0 1; gz 0 1].
Example generic_ex1 : exact_for 3 ex_inner (preconditioned ex_cell (fun _ => gz 1 0) (operator ex_cell (gz 2 0) ex_eps1 None None None)).
Proof. intros y Hy. apply solver_ex. apply mv_length. Qed.
Ltac glist := unfold vbuild; cbn [seq map]; repeat (apply f_equal2; [apply geqb_true; vm_compute; reflexivity|]); reflexivity.
Example generic_ex2 : solution ex_cell (operator ex_cell (gz 2 0) ex_eps1 None (Some ex_pec) None) (gz 2 0) ex_J ex_x.
Proof. split; [reflexivity|]. change (vlen ex_cell) with 3%nat. unfold mv, vscale, ex_J. glist. Qed.
Example generic_ex3 : solution ex_cell (operator ex_cell (gz 2 0) ex_eps1 None (Some ex_pec) None) (gz 2 0) ex_J [gz 0 0; gz 0 1; gz 0 1].
Proof.
  apply (generic_pec_field G ex_cell (gz 2 0) ex_J ex_eps1 None ex_pec None ex_x); [reflexivity| |exact generic_ex2].
  intros i Hi Hb. destruct i as [|[|[|i]]]; [discriminate|reflexivity|reflexivity|]. change (S (S (S i)) < 3)%nat in Hi. lia.
Qed.
Example generic_ex4 : solution ex_cell (operator ex_cell (gz 2 0) ex_eps1 None None None) (gz 2 0) ex_J
  (generic ex_cell ex_inner (fun _ => gz 1 0) (gz 2 0) ex_J ex_eps1 None None None false).
Proof.
  apply generic_forward; [| |exact generic_ex1|].
  - intros a Ha i Hi. split; apply geqb_false; reflexivity.
  - intros i Hi. apply geqb_true. change (vlen ex_cell) with 3%nat in Hi. destruct i as [|[|[|i]]]; [| | |lia]; vm_compute; reflexivity.
  - exists [gz 0 0; gz 0 1; gz 0 1]. split; [reflexivity|]. change (vlen ex_cell) with 3%nat. unfold mv, vscale, ex_J. glist.
Qed.
Example generic_ex5 : ~ solution ex_cell (operator ex_cell (gz 2 0) ex_eps1 None (Some ex_pec) None) (gz 2 0) [gz 1 0; gz 4 0; gz 6 0]
  (generic ex_cell ex_inner (fun _ => gz 1 0) (gz 2 0) [gz 1 0; gz 4 0; gz 6 0] ex_eps1 None (Some ex_pec) None false).
Proof.
  apply (generic_pec_source G ex_cell (fun _ => gz 1 0) ex_inner (gz 2 0) [gz 1 0; gz 4 0; gz 6 0] ex_eps1 None ex_pec None 0).
  - change (0 < 3)%nat. lia.
  - reflexivity.
  - apply geqb_false. reflexivity.
  - apply geqb_false. reflexivity.
Qed.

(** *** C163: the reports of _scipy_qmr *)
(** without a callback the result of qmr is returned and every hundredth iteration reported *)
Theorem qmr_reports (V : Type) limit (xs : list V) (x : V) : limit <> 0 ->
  let (s, r) := scipy_qmr limit false xs x in
  r = Ok x /\ every_hundredth xs (printed s) /\ in_order (printed s) /\ user_calls s = [].
Proof. intros H. destruct limit as [|l]; [congruence|]. exact (report_lemma V l xs x). Qed.
(** with one, whatever the recursion limit, the first iteration ends in RecursionError and the
    user's function is never called *)
Theorem qmr_callback (V : Type) limit (xs : list V) (x : V) : xs <> [] ->
  snd (scipy_qmr limit true xs x) = Err RuntimeError /\ user_calls (fst (scipy_qmr limit true xs x)) = [].
Proof. exact (callback_lemma V limit xs x). Qed.
(** so the callback does not see the iterates *)
Theorem qmr_callback_refuted : exists (V : Type) (xs : list V) (x : V),
  forall limit, ~ (snd (scipy_qmr limit true xs x) = Ok x /\ user_calls (fst (scipy_qmr limit true xs x)) = xs).
Proof.
  exists nat, [1], 1. intros limit [H _]. rewrite (proj1 (callback_lemma nat limit [1] 1 ltac:(discriminate))) in H. discriminate.
Qed.
Example qmr_ex : printed (fst (scipy_qmr 1000 false (seq 0 250) 7)) = [(100, 99); (200, 199)] /\
  scipy_qmr 30 true (seq 0 250) 7 = (QState 30 [] [], Err RuntimeError) /\ scipy_qmr 30 true [] 7 = (QState 0 [] [], Ok 7).
Proof. vm_compute. auto. Qed.

Print Assumptions generic_forward. Print Assumptions generic_adjoint. Print Assumptions generic_pec_source. Print Assumptions generic_pec_field.
Print Assumptions qmr_reports. Print Assumptions qmr_callback. Print Assumptions qmr_callback_refuted.
