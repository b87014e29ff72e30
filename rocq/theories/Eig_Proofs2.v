(** The simulation node: its states, its errors. *)
From Coq Require Import Reals Lra Lia.
From Verif Require Import Base CField GMath_Model GMath_Proofs CplxField Maxwell_Model Maxwell_Spec Adj_Proofs3 Eig_Model Eig_Spec.
From Verif Require Adj_Model.
Set Implicit Arguments.
Local Open Scope R_scope.

Lemma df_no_eig : forall outs gs acc, (forall j, nth_error outs j <> Some OEig) -> df_domega outs gs acc = Ok acc.
Proof.
  induction outs as [|o outs IH]; intros gs acc H; [reflexivity|].
  assert (T : forall j, nth_error outs j <> Some OEig) by (intros j; exact (H (S j))).
  destruct o; [exfalso; apply (H 0%nat); reflexivity| | |]; (destruct gs as [|gv gs]; [reflexivity|cbn; apply IH, T]).
Qed.
Lemma df_last_eig : forall outs gs acc k d r, last_eig outs k -> grads_fit outs gs -> nth_error gs k = Some (Some (d :: r)) -> df_domega outs gs acc = Ok (Some d).
Proof.
  induction outs as [|o outs IH]; intros gs acc k d r [Hk Hl] [Len Fit] Hg; [destruct k; discriminate|].
  destruct gs as [|gv gs]; [discriminate|].
  destruct k as [|k].
  - cbn in Hk, Hg. injection Hk as ->. injection Hg as ->. cbn. apply df_no_eig. intros j. apply (Hl (S j)). lia.
  - assert (R : forall a, df_domega outs gs a = Ok (Some d)).
    { intros a. apply (IH gs a k d r); [split; [exact Hk|intros j Hj; apply (Hl (S j)); lia]|split; [cbn in Len; lia|intros j Hj; exact (Fit (S j) Hj)]|exact Hg]. }
    destruct o; cbn [df_domega]; [|apply R|apply R|apply R].
    destruct (Fit 0%nat eq_refl) as (d' & r' & E). cbn in E. injection E as ->. apply R.
Qed.
Lemma df_none_grad : forall outs gs acc k, nth_error outs k = Some OEig -> nth_error gs k = Some None ->
  (forall j, (j < k)%nat -> nth_error outs j <> Some OEig) -> df_domega outs gs acc = Err AttributeError.
Proof.
  induction outs as [|o outs IH]; intros gs acc k Hk Hg Hf; [destruct k; discriminate|]. destruct gs as [|gv gs]; [destruct k; discriminate|].
  destruct k as [|k]; cbn in Hk, Hg.
  - injection Hk as ->. injection Hg as ->. reflexivity.
  - assert (R : forall a, df_domega outs gs a = Err AttributeError) by (intros a; apply (IH gs a k Hk Hg); intros j Hj; apply (Hf (S j)); lia).
    destruct o; cbn [df_domega]; [exfalso; apply (Hf 0%nat); [lia|reflexivity]|apply R|apply R|apply R].
Qed.

Section Node.
Variable N : nat.
Variable sources : list (list C -> res (list C)).
Variable outputs : list output.
Variable solve : list C -> list C -> res (list C * C).
Local Notation node_eval := (node_eval N sources outputs solve).
Local Notation node_evals := (node_evals N sources outputs solve).
Local Notation node_grad := (node_grad N outputs solve).
Local Notation fresh := (fresh outputs).

(** the state remembers a solution *)
Definition remembers (s : node) : Prop :=
  length (n_over s) = length outputs /\
  forall e v om, n_last s = Some (e, (v, om)) -> exists J w, add_sources N sources e = Ok J /\ solve e J = Ok (v, w) /\ om = fst w.
Lemma before_length eps ms : length ms = length outputs -> length (before_outputs outputs eps ms) = length outputs.
Proof. intros H. unfold before_outputs. rewrite map_length, combine_length. lia. Qed.
Lemma fresh_remembers : remembers fresh.
Proof. split; [apply map_length|discriminate]. Qed.
Lemma eval_remembers s eps : remembers s -> remembers (fst (node_eval s eps)).
Proof.
  intros [L H]. unfold Eig_Model.node_eval. destruct (hit s eps); [now split|]. destruct (add_sources N sources eps) as [J|] eqn:EJ; [|now split].
  destruct (solve eps J) as [[v w]|] eqn:ES; cbn [fst]; split; cbn [n_over n_last]; try (apply before_length; exact L); [|exact H].
  intros e v' om E. injection E as <- <- <-. now exists J, w.
Qed.
Lemma evals_remember l : forall s, remembers s -> remembers (node_evals s l).
Proof. induction l as [|e l IH]; intros s H; [exact H|]. apply IH, eval_remembers, H. Qed.
Lemma eval_last s eps vals : remembers s -> snd (node_eval s eps) = Ok vals ->
  exists J v w, add_sources N sources eps = Ok J /\ solve eps J = Ok (v, w) /\ n_last (fst (node_eval s eps)) = Some (eps, (v, fst w)).
Proof.
  intros [L H]. unfold Eig_Model.node_eval. destruct (hit s eps) eqn:Eh.
  - intros _. unfold hit in Eh. destruct (n_last s) as [[e [v om]]|] eqn:El; [|discriminate]. apply same_spec in Eh. subst e.
    destruct (H _ _ _ eq_refl) as (J & w & A & B & ->). exists J, v, w. cbn [fst]. now rewrite El.
  - destruct (add_sources N sources eps) as [J|]; [|discriminate]. destruct (solve eps J) as [[v w]|] eqn:ES; [|discriminate]. intros _. exists J, v, w. now repeat split.
Qed.
Lemma hit_last s eps x : n_last s = Some (eps, x) -> hit s eps = true.
Proof. intros H. unfold hit. rewrite H. apply same_refl. Qed.
Lemma grad_after_eval s eps vals k d r gs : remembers s -> snd (node_eval s eps) = Ok vals ->
  last_eig outputs k -> grads_fit outputs gs -> nth_error gs k = Some (Some (d :: r)) ->
  exists J v w, add_sources N sources eps = Ok J /\ solve eps J = Ok (v, w) /\
    let s' := fst (node_eval s eps) in node_grad s' eps gs = (s', Ok (map (fun i => d * domega N eps v (fst w) i) (seq 0 N))).
Proof.
  intros Hr He Hk Hf Hd. destruct (eval_last _ Hr He) as (J & v & w & A & B & L). exists J, v, w. split; [exact A|]. split; [exact B|]. intros s'. subst s'.
  unfold Eig_Model.node_grad. rewrite (hit_last _ L), L. unfold finish. now rewrite (@df_last_eig outputs gs None k d r Hk Hf Hd).
Qed.
Lemma grad_other_eps s eps gs : hit s eps = false -> outputs <> [] -> node_grad s eps gs = (s, Err TypeError).
Proof. intros H Ho. unfold Eig_Model.node_grad. rewrite H. destruct outputs; [congruence|]. destruct (n_last s) as [[? [? ?]]|]; reflexivity. Qed.
Lemma not_hit s eps : remembers s -> (forall x, n_last s <> Some (eps, x)) -> hit s eps = false.
Proof.
  intros _ H. unfold hit. destruct (n_last s) as [[e x]|] eqn:E; [|reflexivity]. destruct (Adj_Model.same e eps) eqn:S; [|reflexivity].
  apply same_spec in S. subst. exfalso. now apply (H x).
Qed.
Lemma grad_no_eig s eps vals gs : remembers s -> snd (node_eval s eps) = Ok vals -> no_eig outputs ->
  node_grad (fst (node_eval s eps)) eps gs = (fst (node_eval s eps), Err NameError).
Proof.
  intros Hr He Hn. destruct (eval_last _ Hr He) as (J & v & w & A & B & L). unfold Eig_Model.node_grad. rewrite (hit_last _ L), L. unfold finish.
  rewrite df_no_eig; [reflexivity|]. intros j Hj. apply Hn. eapply nth_error_In; eassumption.
Qed.
Lemma grad_none s eps vals gs k : remembers s -> snd (node_eval s eps) = Ok vals -> nth_error outputs k = Some OEig -> nth_error gs k = Some None ->
  (forall j, (j < k)%nat -> nth_error outputs j <> Some OEig) ->
  node_grad (fst (node_eval s eps)) eps gs = (fst (node_eval s eps), Err AttributeError).
Proof.
  intros Hr He Hk Hg Hf. destruct (eval_last _ Hr He) as (J & v & w & A & B & L). unfold Eig_Model.node_grad. rewrite (hit_last _ L), L. unfold finish.
  now rewrite (@df_none_grad outputs gs None k Hk Hg Hf).
Qed.

(** values of outputs without state *)
Lemma stateless_evals eps v om : Forall stateless outputs -> forall ms ms', length ms = length outputs -> length ms' = length outputs ->
  mapM (fun om0 => out_eval N eps v om (fst om0) (snd om0)) (combine outputs ms) = mapM (fun om0 => out_eval N eps v om (fst om0) (snd om0)) (combine outputs ms').
Proof.
  induction outputs as [|o outs IH]; intros F ms ms' L L'; [reflexivity|]. inversion F; subst. destruct ms as [|m ms]; [discriminate|]. destruct ms' as [|m' ms']; [discriminate|].
  cbn [combine mapM fst snd]. rewrite (IH H2 ms ms') by (cbn in *; lia). destruct o; [reflexivity|reflexivity|reflexivity|contradiction].
Qed.
Definition pure_eval (eps : list C) : res (list value) :=
  bind (add_sources N sources eps) (fun J => bind (solve eps J) (fun vw =>
  mapM (fun om => out_eval N eps (fst vw) (fst (snd vw)) (fst om) (snd om)) (combine outputs (map (fun _ => None) outputs)))).
Lemma eval_pure s eps : Forall stateless outputs -> remembers s -> snd (node_eval s eps) = pure_eval eps.
Proof.
  intros F [L H]. unfold Eig_Model.node_eval, pure_eval. destruct (hit s eps) eqn:Eh.
  - unfold hit in Eh. destruct (n_last s) as [[e [v om]]|] eqn:El; [|discriminate]. apply same_spec in Eh. subst e.
    destruct (H _ _ _ eq_refl) as (J & w & A & B & ->). rewrite A. cbn [bind]. rewrite B. cbn [bind fst snd]. unfold out_evals. rewrite El.
    apply stateless_evals; [exact F|exact L|apply map_length].
  - destruct (add_sources N sources eps) as [J|]; [|reflexivity]. cbn [bind]. destruct (solve eps J) as [[v w]|]; [|reflexivity]. cbn [bind fst snd]. unfold out_evals. cbn [n_last n_over].
    apply stateless_evals; [exact F|apply before_length, L|apply map_length].
Qed.
Lemma out_nth s eps vals k : remembers s -> snd (node_eval s eps) = Ok vals -> nth_error outputs k = Some OEig ->
  exists J v w, add_sources N sources eps = Ok J /\ solve eps J = Ok (v, w) /\ nth_error vals k = Some (VNum (fst w)).
Proof.
  intros Hr He Hk. destruct (eval_last _ Hr He) as (J & v & w & A & B & L). exists J, v, w. split; [exact A|]. split; [exact B|].
  assert (Hr' := eval_remembers eps Hr). destruct Hr' as [L' _].
  assert (O : out_evals N outputs (fst (node_eval s eps)) = Ok vals).
  { revert He. unfold Eig_Model.node_eval. destruct (hit s eps); [auto|]. destruct (add_sources N sources eps) as [J0|]; [|discriminate]. destruct (solve eps J0) as [[? ?]|]; [auto|discriminate]. }
  unfold out_evals in O. rewrite L in O. revert O Hk L'. generalize (n_over (fst (node_eval s eps))). clear. revert vals k.
  induction outputs as [|o outs IH]; intros vals k ms O Hk L'; [destruct k; discriminate|]. destruct ms as [|m ms]; [discriminate|].
  cbn [combine mapM fst snd] in O. destruct (out_eval N eps v (fst w) o m) as [x|] eqn:Ex; [|discriminate]. cbn [bind] in O.
  destruct (mapM _ (combine outs ms)) as [xs|] eqn:Exs; [|discriminate]. cbn [bind] in O. injection O as <-.
  destruct k as [|k]; cbn in Hk |- *; [injection Hk as ->; cbn in Ex; now injection Ex as <-|]. apply (IH xs k ms Exs Hk). now injection L'.
Qed.
End Node.
