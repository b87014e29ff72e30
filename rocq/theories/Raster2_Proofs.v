(** Lemmas about 2D rastering, first part: the sum over the expanded polygon equals the
    sum over the edges of the polygon cut at all grid lines.  Everything is rational. *)
From Coq Require Import Sorted.
From Verif Require Import QTac Raster2_Model.
Set Implicit Arguments.
Open Scope Q_scope.

(** *** Paths *)
Section path.
Variable A : Type.
Fixpoint chain (P : A -> A -> Prop) (u : A) (l : list A) : Prop :=
  match l with [] => True | v :: l' => P u v /\ chain P v l' end.
Fixpoint walk (f : A -> A -> Q) (u : A) (l : list A) : Q :=
  match l with [] => 0 | v :: l' => f u v + walk f v l' end.
Definition cchain (P : A -> A -> Prop) (l : list A) : Prop := match l with [] => True | u :: l' => chain P u (l' ++ [u]) end.
Definition cwalk (f : A -> A -> Q) (l : list A) : Q := match l with [] => 0 | u :: l' => walk f u (l' ++ [u]) end.

Lemma chain_app P u l v l' : chain P u (l ++ v :: l') <-> chain P u (l ++ [v]) /\ chain P v l'.
Proof. revert u. induction l as [|x l IH]; intros u; simpl; [tauto|]. rewrite IH. tauto. Qed.
Lemma walk_app f u l v l' : walk f u (l ++ v :: l') == walk f u (l ++ [v]) + walk f v l'.
Proof. revert u. induction l as [|x l IH]; intros u; simpl; [ring|]. rewrite IH. ring. Qed.
Lemma cchain_rotate P a v b : cchain P (a ++ v :: b) <-> cchain P (v :: b ++ a).
Proof.
  destruct a as [|u a]; simpl; [rewrite app_nil_r; tauto|].
  rewrite <- !app_assoc. simpl. rewrite (chain_app P u), (chain_app P v b u (a ++ [v])). tauto.
Qed.
Lemma cwalk_rotate f a v b : cwalk f (a ++ v :: b) == cwalk f (v :: b ++ a).
Proof.
  destruct a as [|u a]; simpl; [rewrite app_nil_r; reflexivity|].
  rewrite <- !app_assoc. simpl. rewrite (walk_app f u), (walk_app f v b u (a ++ [v])). ring.
Qed.
Lemma chain_impl (P R : A -> A -> Prop) u l : (forall x y, In x (u :: l) -> In y l -> P x y -> R x y) -> chain P u l -> chain R u l.
Proof.
  revert u. induction l as [|v l IH]; intros u H; simpl; [tauto|]. intros [H1 H2]. split.
  - apply H; simpl; auto.
  - apply IH; [|assumption]. intros x y Hx Hy. apply H; simpl in *; tauto.
Qed.
Lemma walk_ext_chain (P : A -> A -> Prop) f g u l : (forall x y, P x y -> f x y == g x y) -> chain P u l -> walk f u l == walk g u l.
Proof. intros H. revert u. induction l as [|v l IH]; intros u; simpl; [reflexivity|]. intros [H1 H2]. rewrite IH, H by assumption. reflexivity. Qed.
Lemma cwalk_ext_chain (P : A -> A -> Prop) f g l : (forall x y, P x y -> f x y == g x y) -> cchain P l -> cwalk f l == cwalk g l.
Proof. destruct l as [|u l]; simpl; [reflexivity|]. apply walk_ext_chain. Qed.
Lemma chain_true u l : chain (fun _ _ => True) u l.
Proof. revert u. induction l; simpl; auto. Qed.
End path.
Lemma chain_map A B (h : A -> B) P u l : chain P (h u) (map h l) <-> chain (fun x y => P (h x) (h y)) u l.
Proof. revert u. induction l as [|v l IH]; intros u; simpl; [tauto|]. rewrite IH. tauto. Qed.
Lemma walk_map A B (h : A -> B) f u l : walk f (h u) (map h l) = walk (fun x y => f (h x) (h y)) u l.
Proof. revert u. induction l as [|v l IH]; intros u; simpl; [reflexivity|]. now rewrite IH. Qed.
Lemma cchain_map A B (h : A -> B) P l : cchain P (map h l) <-> cchain (fun x y => P (h x) (h y)) l.
Proof. destruct l as [|u l]; simpl; [tauto|]. change [h u] with (map h [u]). rewrite <- map_app. apply chain_map. Qed.
Lemma cwalk_map A B (h : A -> B) f l : cwalk f (map h l) = cwalk (fun x y => f (h x) (h y)) l.
Proof. destruct l as [|u l]; simpl; [reflexivity|]. change [h u] with (map h [u]). rewrite <- map_app. apply walk_map. Qed.

(** sum over the cyclic pairs *)
Lemma sum_combine A (f : A -> A -> Q) : forall l u z, qsum (map (fun pq => f (fst pq) (snd pq)) (combine (u :: l) (l ++ [z]))) == walk f u (l ++ [z]).
Proof. induction l as [|v l IH]; intros u z; [simpl; ring|]. specialize (IH v z). cbn [combine app map qsum walk fst snd] in *. rewrite IH. ring. Qed.
Lemma sum_cyclic A (f : A -> A -> Q) l : qsum (map (fun pq => f (fst pq) (snd pq)) (cyclic l)) == cwalk f l.
Proof. destruct l as [|u l]; [reflexivity|]. unfold cyclic, cwalk. cbn [tl firstn]. apply sum_combine. Qed.

(** *** The functional of one pixel *)
Definition nosep (g a b : Q) : Prop := ~ (a < g < b) /\ ~ (b < g < a).
Lemma nosep_cases g a b : nosep g a b -> (a <= g /\ b <= g) \/ (g <= a /\ g <= b).
Proof.
  intros [H1 H2]. destruct (Qlt_le_dec a g), (Qlt_le_dec b g).
  - left; split; lra.
  - left. split; [lra|]. apply Qnot_lt_le. intros H. apply H1. split; lra.
  - left. split; [|lra]. apply Qnot_lt_le. intros H. apply H2. split; lra.
  - right; split; lra.
Qed.
Lemma nosep_intro g a b : (a <= g /\ b <= g) \/ (g <= a /\ g <= b) -> nosep g a b.
Proof. intros H. split; intros K; lra. Qed.

Section pixel.
Variables x0 x1 y0 y1 : Q.
Hypothesis Hx : x0 < x1.
Hypothesis Hy : y0 < y1.
(** length of the part of [x0, x1] right of x; length of the part of [y0, y1] below y *)
Definition phi (x : Q) : Q := qmax 0 (qmin (x1 - x0) (x1 - x)).
Definition eta (y : Q) : Q := qmax 0 (qmin (y1 - y0) (y - y0)).
Definition trap (p q : pt) : Q := (eta (snd q) - eta (snd p)) * (phi (fst p) + phi (fst q)) * (1 # 2).
Lemma phi_ext a b : a == b -> phi a == phi b.
Proof. clear Hx Hy. intros H. unfold phi. qlra. Qed.
Lemma eta_ext a b : a == b -> eta a == eta b.
Proof. clear Hx Hy. intros H. unfold eta. qlra. Qed.
Lemma phi_mid a b : nosep x0 a b -> nosep x1 a b -> phi ((a + b) * (1 # 2)) == (phi a + phi b) * (1 # 2).
Proof.
  intros H0 H1. apply nosep_cases in H0, H1. unfold phi.
  destruct H0 as [[? ?]|[? ?]], H1 as [[? ?]|[? ?]]; qlra.
Qed.
Definition seg_in_row (p q : pt) : bool :=
  Qle_bool y0 ((snd p + snd q) * (1 # 2)) && qlt ((snd p + snd q) * (1 # 2)) y1.
Definition seg_value (p q : pt) : Q :=
  if seg_in_row p q then (snd q - snd p) * phi ((fst p + fst q) * (1 # 2)) else 0.
Lemma eta_row p q : nosep y0 (snd p) (snd q) -> nosep y1 (snd p) (snd q) ->
  eta (snd q) - eta (snd p) == if seg_in_row p q then snd q - snd p else 0.
Proof.
  intros H0 H1. apply nosep_cases in H0, H1. unfold eta, seg_in_row.
  destruct (Qle_bool y0 ((snd p + snd q) * (1 # 2))) eqn:E1; destruct (qlt ((snd p + snd q) * (1 # 2)) y1) eqn:E2; cbn [andb]; qhyps;
  destruct H0 as [[? ?]|[? ?]], H1 as [[? ?]|[? ?]]; qlra.
Qed.
Definition same_cell (p q : pt) : Prop :=
  nosep x0 (fst p) (fst q) /\ nosep x1 (fst p) (fst q) /\ nosep y0 (snd p) (snd q) /\ nosep y1 (snd p) (snd q).
Lemma seg_trap p q : same_cell p q -> seg_value p q == trap p q.
Proof.
  intros (H1 & H2 & H3 & H4). unfold seg_value, trap. rewrite (eta_row p q H3 H4).
  destruct (seg_in_row p q); [|ring]. rewrite phi_mid by assumption. ring.
Qed.
Lemma trap_ext p q p' q' : fst p == fst p' -> snd p == snd p' -> fst q == fst q' -> snd q == snd q' -> trap p q == trap p' q'.
Proof.
  intros H1 H2 H3 H4. unfold trap. rewrite (phi_ext H1), (phi_ext H3), (eta_ext H2), (eta_ext H4). reflexivity.
Qed.
Lemma trap_same p q : snd p == snd q -> trap p q == 0.
Proof. intros H. unfold trap. rewrite (eta_ext H). ring. Qed.
Lemma phi_clip lo hi x : lo <= x0 -> x1 <= hi -> phi (clip lo hi x) == phi x.
Proof. intros H1 H2. unfold phi, clip. qlra. Qed.
Lemma eta_clip lo hi y : lo <= y0 -> y1 <= hi -> eta (clip lo hi y) == eta y.
Proof. intros H1 H2. unfold eta, clip. qlra. Qed.
Lemma nosep_clip lo hi g a b : lo <= g -> g <= hi -> nosep g a b -> nosep g (clip lo hi a) (clip lo hi b).
Proof. clear Hx Hy. intros H1 H2 H. apply nosep_intro. apply nosep_cases in H. unfold clip. destruct H as [[? ?]|[? ?]]; [left|right]; split; qlra. Qed.
End pixel.
