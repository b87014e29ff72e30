(** solve and the transfer of files. *)
From Verif Require Import Base CField CField_Proofs Remote_Model Remote_Spec Remote_Proofs.
Set Implicit Arguments.

Lemma axis_eqb_refl a : axis_eqb a a = true.
Proof. destruct a; reflexivity. Qed.
Lemma in_parts c q : In (c, q) parts.
Proof. destruct c, q; cbn; tauto. Qed.
Lemma file_eqb_refl f : file_eqb f f = true.
Proof. destruct f; cbn; rewrite ?Nat.eqb_refl, ?axis_eqb_refl, ?Bool.eqb_reflx; reflexivity. Qed.
Lemma open_ok kind k l : (forall f, In f l -> In f (downloaded kind k)) -> open_files kind k l = Ok tt.
Proof.
  intros H. unfold open_files. replace (forallb _ l) with true; [reflexivity|]. symmetry. apply forallb_forall. intros f Hf. apply existsb_exists. exists f. split; [now apply H|apply file_eqb_refl].
Qed.
Lemma open_driven kind k : driven kind -> open_files kind k (map (fun cq => FE (fst cq) (snd cq)) parts) = Ok tt.
Proof. intros H. apply open_ok. intros f Hf. destruct kind; [exact Hf..|now elim H]. Qed.
Lemma open_modes k : open_files JacobiDavidson k (flat_map (fun i => map (fun cq => FQ i (fst cq) (snd cq)) parts) (seq 0 k)) = Ok tt.
Proof.
  apply open_ok. intros f Hf. cbn [downloaded]. apply in_or_app. left. apply in_flat_map in Hf as (i & Hi & Hf). apply in_map_iff in Hf as (cq & <- & Hc).
  apply in_flat_map. exists cq. split; [exact Hc|]. apply in_map_iff. now exists i.
Qed.
Lemma open_q k : open_files JacobiDavidson k [Fq false; Fq true] = Ok tt.
Proof. apply open_ok. intros f Hf. cbn [downloaded]. apply in_or_app. now right. Qed.
Lemma open_info kind k : open_files kind k [FTime; FStatus] = Err NotFound.
Proof.
  unfold open_files. replace (forallb _ _) with false; [reflexivity|]. symmetry. cbn [forallb]. replace (existsb (file_eqb FTime) (downloaded kind k)) with false; [reflexivity|].
  symmetry. apply not_true_is_false. intros H. apply existsb_exists in H as (f & Hf & E). destruct f; try discriminate. destruct kind; cbn [downloaded] in Hf.
  4:{ apply in_app_or in Hf as [Hf|[Hf|[Hf|[]]]]; [|discriminate..]. apply in_flat_map in Hf as (cq & _ & Hf). apply in_map_iff in Hf as (i & Hf & _). discriminate. }
  all: apply in_map_iff in Hf as (cq & Hf & _); discriminate.
Qed.

Section Proofs.
Variable K : cfield.
Variable is_one : K -> bool.
Variable n : idx.
Variable kind : solver_kind.
Variable root : K -> K.
Variable server : request K -> answer K.
Local Notation solve := (solve is_one n kind root server).
Local Notation rq q := (make_request is_one n kind q).
Hypothesis Hn : forall a, 0 < get a n.

Lemma solve_driven q : driven kind -> snd (solve q) =
  bind (apply_symmetry (symmetry q) (an_field (server (rq q)) 0)) (fun E =>
  bind (if adjoint q then undo (rq q) E else Ok E) (fun E => if info q then Err NotFound else Ok (RField E))).
Proof.
  intros Hk. unfold Remote_Model.solve. cbn [snd]. rewrite open_info.
  assert (O := open_driven (neig q) Hk). destruct kind; [rewrite O; reflexivity..|now elim Hk].
Qed.
Lemma sent_pos s a : 0 < get a (sent_shape n s).
Proof.
  unfold sent_shape, start. rewrite !get_build. specialize (Hn a). destruct (active (s a)); [|lia]. assert (get a n / 2 < get a n) by (apply Nat.div_lt; lia). lia.
Qed.
Lemma rq_shape_sent q : rq_shape (rq q) = sent_shape n (symmetry q).
Proof. unfold make_request. now destruct (adjoint q). Qed.

Lemma multiply_ok (x y : arr K) : (forall a, get a (shape x) = get a (shape y) \/ get a (shape y) = 1) -> exists r, multiply x y = Ok r.
Proof.
  intros H. unfold multiply. replace (forallb _ _) with true; [eauto|]. symmetry. apply forallb_axes. intros a. unfold fits. destruct (H a) as [->| ->]; rewrite Nat.eqb_refl; rewrite ?orb_true_r; reflexivity.
Qed.
Lemma multiply_fails (x y : arr K) a : get a (shape x) <> get a (shape y) -> get a (shape x) <> 1 -> get a (shape y) <> 1 -> multiply x y = Err ValueError.
Proof.
  intros A B C. unfold multiply. replace (forallb _ _) with false; [reflexivity|]. symmetry. apply not_true_is_false. intros H. assert (H' := proj1 (forallb_axes _) H a). cbn beta in H'.
  unfold fits in H'. apply Nat.eqb_neq in A, B, C. now rewrite A, B, C in H'.
Qed.
Lemma multiply_same (x y : arr K) : shape x = shape y -> exists r, multiply x y = Ok r /\ shape r = shape x /\ forall p, inside (shape x) p -> val r p = kmul (val x p) (val y p).
Proof.
  intros S. unfold multiply. rewrite <- S. replace (forallb _ _) with true.
  2:{ symmetry. apply forallb_axes. intros a. unfold fits. now rewrite Nat.eqb_refl. }
  eexists. split; [reflexivity|]. cbn [shape val]. split.
  - apply idx_eq. intros a. rewrite get_build. now destruct (_ =? 1).
  - intros p Hp. assert (E : build (fun a => clip (get a (shape x)) (get a p)) = p).
    { apply idx_eq. intros a. rewrite get_build. unfold clip. destruct (Nat.eqb_spec (get a (shape x)) 1) as [H|H]; [|reflexivity]. specialize (Hp a). lia. }
    now rewrite E.
Qed.
End Proofs.

Section Transfer.
Variable byte : Type.
Lemma upload_late (content : list byte) k rest : upload content (length content) (repeat false k ++ true :: rest) = Ok [].
Proof. induction k as [|k IH]; cbn; [now rewrite skipn_all|exact IH]. Qed.
Lemma upload_spec (content : list byte) k rest : upload content 0 (repeat false k ++ true :: rest) = Ok (match k with 0 => content | _ => [] end).
Proof. destruct k as [|k]; [reflexivity|]. cbn [repeat app upload]. apply upload_late. Qed.
Lemma download_spec (c : list byte) k rest : download (repeat None k ++ Some c :: rest) = Ok c.
Proof. induction k as [|k IH]; [reflexivity|exact IH]. Qed.
Lemma upload_files_keep (l : list (nat * list byte)) attempts : forall store r name, ~ In name (map fst l) -> upload_files l attempts store = Ok r -> r name = store name.
Proof.
  induction l as [|[nm c] l IH]; intros store r name Hn H; [cbn in H; congruence|]. cbn in H. destruct (upload c 0 (attempts nm)) as [b|]; [|discriminate]. cbn [bind] in H.
  cbn in Hn. specialize (IH (dset store nm b) r name ltac:(tauto) H). rewrite IH. apply dset_other. intros ->. tauto.
Qed.
Lemma wait_spec : forall rounds k, wait rounds = Ok k <->
  nth_error rounds k = Some (Some false, Some true) /\ forall j, j < k -> nth_error rounds j <> Some (Some false, Some true).
Proof.
  induction rounds as [|r rounds IH]; intros k.
  - split; [discriminate|]. intros [H _]. destruct k; discriminate.
  - assert (D : r = (Some false, Some true) \/ r <> (Some false, Some true)).
    { destruct r as [[[]|] [[]|]]; try (left; reflexivity); right; discriminate. }
    destruct D as [->|D].
    + cbn [wait]. split; [intros [= <-]; split; [reflexivity|lia]|]. intros [H1 H2]. destruct k as [|k]; [reflexivity|]. exfalso. apply (H2 0); [lia|reflexivity].
    + assert (W : wait (r :: rounds) = bind (wait rounds) (fun k => Ok (S k))) by (destruct r as [[[]|] [[]|]]; try reflexivity; now elim D).
      rewrite W. split.
      * destruct (wait rounds) as [k'|] eqn:E; [|discriminate]. intros [= <-]. destruct (proj1 (IH k') eq_refl) as [A B]. split; [exact A|]. intros [|j] Hj; [intros [= X]; now apply D|apply B; lia].
      * intros [A B]. destruct k as [|k]; [injection A as A; now elim D|]. rewrite (proj2 (IH k)); [reflexivity|]. split; [exact A|]. intros j Hj. apply (B (S j)). lia.
Qed.
End Transfer.
