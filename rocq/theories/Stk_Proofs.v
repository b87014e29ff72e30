(** Proofs about the drawing of layouts. *)
From Coq Require Import Reals QArith Qround Qreals ZArith List Bool.
From Verif Require Import Base QTac Raster2_Model Raster2_Spec Grid_Model Layer_Model Layer_Spec Layer_Proofs8 Layer_Props Slice_Model Slice_Spec Slice_Proofs2 Stk_Model Stk_Spec.
From Coq Require Import Lia Lra Lqa.
Import ListNotations.
Open Scope R_scope.

Lemma Q2R_half : Q2R (1 # 2) = 1 / 2.
Proof. unfold Q2R. cbn. Lra.lra. Qed.
Lemma Q2R_Z z : Q2R (inject_Z z) = IZR z.
Proof. unfold Q2R, inject_Z. cbn. Lra.lra. Qed.
Lemma around_nearest q : nearest q (around q).
Proof.
  unfold around, nearest. set (f := Qfloor (q + (1 # 2))).
  assert (H1 := Qfloor_le (q + (1 # 2))). assert (H2 := Qlt_floor (q + (1 # 2))). fold f in H1, H2.
  apply Qle_Rle in H1. apply Qlt_Rlt in H2. rewrite Q2R_Z, Q2R_plus, Q2R_half in H1. rewrite Q2R_Z, Q2R_plus, Q2R_half, plus_IZR in H2. change (IZR 1) with 1 in H2.
  destruct (Qeq_bool (inject_Z f - q) (1 # 2)) eqn:E.
  - apply Qeq_bool_iff, Qeq_eqR in E. rewrite Q2R_minus, Q2R_Z, Q2R_half in E. destruct (Z.odd f) eqn:O; cbn [andb].
    + rewrite minus_IZR. change (IZR 1) with 1. split; [unfold Rabs; destruct (Rcase_abs _); Lra.lra|]. intros _.
      rewrite Z.even_sub. rewrite <- Z.negb_odd, O. reflexivity.
    + split; [unfold Rabs; destruct (Rcase_abs _); Lra.lra|]. intros _. now rewrite <- Z.negb_odd, O.
  - cbn [andb]. assert (NE : IZR f - Q2R q <> 1 / 2).
    { intros X. assert (X2 : (inject_Z f - q == 1 # 2)%Q) by (apply eqR_Qeq; now rewrite Q2R_minus, Q2R_Z, Q2R_half). apply Qeq_bool_iff in X2. congruence. }
    split; [unfold Rabs; destruct (Rcase_abs _); Lra.lra|]. intros X. exfalso. revert X. unfold Rabs. destruct (Rcase_abs _); Lra.lra.
Qed.
Lemma mid_diff lo hi : Q2R (mid lo hi) - Q2R (diff lo hi) / 2 = Q2R lo /\ Q2R (mid lo hi) + Q2R (diff lo hi) / 2 = Q2R hi.
Proof.
  unfold mid, diff. assert (E : Q2R ((lo + hi) / 2) = (Q2R lo + Q2R hi) / 2).
  { unfold Qdiv. rewrite Q2R_mult, Q2R_plus. assert (Q2R (/ 2) = / 2) as -> by (unfold Q2R; cbn; Lra.lra). reflexivity. }
  rewrite E, Q2R_minus. Lra.lra.
Qed.
Lemma repeat_at q ns n : (n < ns)%nat -> Q2R (qn (repeat (1 * q)%Q ns) n) = Q2R q.
Proof.
  intros H. assert (E : qn (repeat (1 * q)%Q ns) n = (1 * q)%Q).
  { unfold qn. apply nth_indep with (d' := (1 * q)%Q) in H as _ || idtac. revert n H. induction ns as [|k IH]; intros n H; [lia|]. destruct n; cbn [repeat nth]; [reflexivity|]. apply IH. lia. }
  rewrite E. apply Qeq_eqR. ring.
Qed.
Lemma enclosed_0 ps x y : enclosed ps (x - Q2R 0) (y - Q2R 0) = enclosed ps x y.
Proof. assert (Q2R 0 = 0) as -> by (unfold Q2R; cbn; Lra.lra). now rewrite !Rminus_0_r. Qed.
Lemma to_nm_length p : length (to_nm p) = length p.
Proof. apply map_length. Qed.

Section L.
Variables (exyz : nat -> list Q) (ext ns : nat).
Hypothesis G : grid3 exyz ext.
Local Notation shown n bg bs p := (drawn ext n bg bs p).
(** a list of polygons *)
Lemma polygons_drawn lo hi eps ps bs : ((lo < hi)%Q \/ ps = []) -> polygons_ok ps ->
  exists bs', draw_polygons ns bs (mid lo hi) (diff lo hi) eps ps = Ok bs' /\
  forall n bg p, (n < ns)%nat -> off lo hi (p ext) ->
    let x := p (fst (across ext)) in let y := p (snd (across ext)) in
    (inside lo hi (p ext) /\ in_polygons ps x y -> shown n bg bs' p = Q2R eps) /\
    (~ (inside lo hi (p ext) /\ in_polygons ps x y) -> shown n bg bs' p = shown n bg bs p).
Proof.
  revert bs. induction ps as [|q ps IH] using rev_ind; intros bs Hlh Hok.
  - exists bs. split; [reflexivity|]. intros n bg p Hn Ho x y. split; [|reflexivity]. intros [_ (q & [] & _)].
  - assert (Hlt : (lo < hi)%Q) by (destruct Hlh as [H|H]; [exact H|destruct ps; discriminate]).
    destruct (IH bs (or_introl Hlt)) as (b1 & E1 & S1); [intros r Hr; apply Hok, in_or_app; now left|].
    assert (Hd : (0 < diff lo hi)%Q) by (unfold diff; Lqa.lra).
    assert (Hq : (3 <= length (to_nm q))%nat) by (rewrite to_nm_length; apply Hok, in_or_app; right; now left).
    destruct (draw_polygon_pf b1 0 0 (mid lo hi) (to_nm q) (diff lo hi) (repeat (1 * eps)%Q ns) Hq Hd) as (b & E & Eb & C).
    exists (b1 ++ [b]). unfold draw_polygons in *. rewrite fold_left_app, E1. cbn [fold_left bind]. split; [exact E|].
    intros n bg p Hn Ho. set (x := p (fst (across ext))). set (y := p (snd (across ext))). destruct (mid_diff lo hi) as [M1 M2].
    assert (C' : contains b x y (p ext) <-> inside lo hi (p ext) /\ enclosed (map ptR (to_nm q)) x y = 1).
    { rewrite C, enclosed_0, M1, M2. unfold inside. destruct Ho. split; intros [A B]; repeat split; try assumption; Lra.lra. }
    destruct (S1 n bg p Hn Ho) as [SA SB]. fold x y in SA, SB. unfold drawn in *. rewrite material_last. fold x y.
    destruct (contains_dec b x y (p ext)) as [Y|N].
    + rewrite Eb, repeat_at by exact Hn. apply C' in Y. split; [reflexivity|]. intros X. exfalso. apply X. split; [tauto|]. exists q. split; [apply in_or_app; right; now left|tauto].
    + split.
      * intros [HI (r & Hr & Er)]. apply SA. split; [exact HI|]. exists r. split; [|exact Er]. apply in_app_or in Hr. destruct Hr as [Hr|[<-|[]]]; [exact Hr|]. exfalso. apply N, C'. auto.
      * intros X. apply SB. intros [HI (r & Hr & Er)]. apply X. split; [exact HI|]. exists r. split; [apply in_or_app; now left|exact Er].
Qed.
(** a slab *)
Lemma slab_drawn lo hi eps bs : (lo < hi)%Q ->
  exists bs', draw_slab exyz ext ns bs (DInt (Z.of_nat ext)) (mid lo hi) (diff lo hi) (EScalar eps) = Ok bs' /\
  forall n bg p, (n < ns)%nat -> in_plane exyz ext p -> off lo hi (p ext) ->
    (inside lo hi (p ext) -> shown n bg bs' p = Q2R eps) /\ (~ inside lo hi (p ext) -> shown n bg bs' p = shown n bg bs p).
Proof.
  intros Hlt. assert (Hd : (0 < diff lo hi)%Q) by (unfold diff; Lqa.lra). destruct G as [He Ga].
  assert (Hs : slab_dir (DInt (Z.of_nat ext)) = Ok ext).
  { unfold slab_dir. assert (Z.leb 0 (Z.of_nat ext) && Z.ltb (Z.of_nat ext) 3 = true) as ->; [|now rewrite Nat2Z.id].
    apply andb_true_intro. split; [apply Z.leb_le|apply Z.ltb_lt]; lia. }
  destruct (@slab_covers exyz ext ns G bs (DInt (Z.of_nat ext)) ext (mid lo hi) (diff lo hi) (EScalar eps) (repeat (1 * eps)%Q ns) Hs He eq_refl Hd) as (b & E & Eb & _ & C).
  exists (bs ++ [b]). split; [exact E|]. intros n bg p Hn Hp Ho. destruct (mid_diff lo hi) as [M1 M2].
  assert (C' : covers ext b p <-> inside lo hi (p ext)).
  { rewrite (C (fun _ => false) p).
    - unfold inside. destruct Ho. unfold Rabs. destruct (Rcase_abs _); split; intros; Lra.lra.
    - intros a Ha Hne. split; [now left|]. right. now apply Hp.
    - destruct Ho. unfold Rabs. destruct (Rcase_abs _); Lra.lra. }
  unfold drawn. rewrite material_last. unfold covers in C'. destruct (contains_dec b _ _ _) as [Y|N].
  - rewrite Eb, repeat_at by exact Hn. split; [reflexivity|]. tauto.
  - split; [tauto|reflexivity].
Qed.
Lemma slab_refused lo hi eps bs : ~ (lo < hi)%Q ->
  draw_slab exyz ext ns bs (DInt (Z.of_nat ext)) (mid lo hi) (diff lo hi) (EScalar eps) = Err GridError.
Proof.
  intros H. destruct G as [He _]. unfold draw_slab, slab_dir.
  assert (Z.leb 0 (Z.of_nat ext) && Z.ltb (Z.of_nat ext) 3 = true) as -> by (apply andb_true_intro; split; [apply Z.leb_le|apply Z.ltb_lt]; lia).
  cbn [bind eps_list]. rewrite Nat2Z.id. unfold cuboid3, draw_cuboid, draw_polygon. cbn [length Nat.leb]. rewrite Nat.eqb_refl.
  assert (Qle_bool (diff lo hi) 0 = true) as ->; [|reflexivity]. apply Qle_bool_iff. unfold diff. Lqa.lra.
Qed.
Lemma fold_err {A B : Type} (f : B -> A -> res B) l e : fold_left (fun acc x => bind acc (fun b => f b x)) l (Err e) = Err e.
Proof. induction l as [|a l IH]; [reflexivity|]. exact IH. Qed.
Lemma polygons_refused lo hi eps ps bs : (~ (lo < hi)%Q /\ ps <> []) \/ ~ polygons_ok ps ->
  draw_polygons ns bs (mid lo hi) (diff lo hi) eps ps = Err GridError.
Proof.
  revert bs. induction ps as [|q ps IH]; intros bs H.
  - exfalso. destruct H as [[_ H]|H]; [congruence|]. apply H. intros p [].
  - unfold draw_polygons in *. cbn [fold_left bind]. unfold draw_polygon at 2. rewrite to_nm_length.
    destruct (Nat.leb (length q) 2) eqn:L; [apply fold_err|]. destruct (Qle_bool (diff lo hi) 0) eqn:D; [apply fold_err|].
    apply IH. right. destruct H as [[H _]|H].
    + exfalso. apply H. assert (X : ~ (diff lo hi <= 0)%Q) by (intros X; apply Qle_bool_iff in X; congruence). unfold diff in X. apply Qnot_le_lt in X. Lqa.lra.
    + intros X. apply H. intros p [<-|Hp]; [apply Nat.leb_gt in L; lia|now apply X].
Qed.
Variables (material_spec layer : Type) (perm : material_spec -> res Q) (layers : layer -> list polygon).
Local Notation element := (element material_spec layer).
Local Notation mesh := (mesh material_spec layer).
Local Notation known := (element_known _ _ perm).
Local Notation has := (has_perm _ perm).
Lemma element_drawn (e : element) bs : known e -> element_ok _ _ layers e ->
  exists bs', draw_element exyz ext ns perm layers bs e = Ok bs' /\
  forall n bg p, (n < ns)%nat -> in_plane exyz ext p -> off (e_lo e) (e_hi e) (p ext) ->
    (inside (e_lo e) (e_hi e) (p ext) -> element_shows _ _ perm layers e (p (fst (across ext))) (p (snd (across ext))) (shown n bg bs' p)) /\
    (~ inside (e_lo e) (e_hi e) (p ext) -> shown n bg bs' p = shown n bg bs p).
Proof.
  intros [[qb Eb] [qf Ef]] [Hlt Hps]. unfold draw_element. rewrite Eb, Ef. cbn [bind].
  destruct (slab_drawn (e_lo e) (e_hi e) qb bs Hlt) as (b1 & E1 & S1). rewrite E1. cbn [bind].
  destruct (polygons_drawn (e_lo e) (e_hi e) qf (layers (e_layer e)) b1 (or_introl Hlt) Hps) as (b2 & E2 & S2). exists b2. split; [exact E2|].
  intros n bg p Hn Hp Ho. destruct (S1 n bg p Hn Hp Ho) as [A1 B1]. destruct (S2 n bg p Hn Ho) as [A2 B2]. split.
  - intros HI. unfold element_shows.
    assert (D : in_polygons (layers (e_layer e)) (p (fst (across ext))) (p (snd (across ext))) \/ ~ in_polygons (layers (e_layer e)) (p (fst (across ext))) (p (snd (across ext)))).
    { unfold in_polygons. clear - layers. induction (layers (e_layer e)) as [|q l [IH|IH]].
      - right. intros (r & [] & _).
      - left. destruct IH as (r & Hr & Er). exists r. split; [now right|exact Er].
      - destruct (Req_EM_T (enclosed (map ptR (to_nm q)) (p (fst (across ext))) (p (snd (across ext)))) 1) as [E|E].
        + left. exists q. split; [now left|exact E].
        + right. intros (r & [<-|Hr] & Er); [contradiction|]. apply IH. eauto. }
    destruct D as [D|D]; [left|right]; (split; [exact D|]).
    + exists qf. split; [exact Ef|]. apply A2. auto.
    + exists qb. split; [exact Eb|]. rewrite B2 by tauto. now apply A1.
  - intros HI. rewrite B2 by tauto. now apply B1.
Qed.
Lemma element_refused (e : element) bs : known e -> ~ element_ok _ _ layers e -> draw_element exyz ext ns perm layers bs e = Err GridError.
Proof.
  intros [[qb Eb] [qf Ef]] H. unfold draw_element. rewrite Eb, Ef. cbn [bind].
  destruct (Qlt_le_dec (e_lo e) (e_hi e)) as [L|L].
  - destruct (slab_drawn (e_lo e) (e_hi e) qb bs L) as (b1 & E1 & _). rewrite E1. cbn [bind]. apply polygons_refused. right. intros X. apply H. split; assumption.
  - rewrite slab_refused by (apply Qle_not_lt; exact L). reflexivity.
Qed.
Lemma in_dec_inside lo hi z : inside lo hi z \/ ~ inside lo hi z.
Proof. unfold inside. destruct (Rlt_dec (Q2R lo) z), (Rlt_dec z (Q2R hi)); tauto. Qed.
Lemma gds_drawn stack bs : (forall e, In e stack -> known e) -> (forall e, In e stack -> element_ok _ _ layers e) ->
  exists bs', draw_gds exyz ext ns perm layers bs stack = Ok bs' /\
  forall n bg p, (n < ns)%nat -> in_plane exyz ext p -> (forall e, In e stack -> off (e_lo e) (e_hi e) (p ext)) ->
    stack_shows _ _ perm layers stack (shown n bg bs p) (p (fst (across ext))) (p (snd (across ext))) (p ext) (shown n bg bs' p).
Proof.
  revert bs. induction stack as [|e stack IH]; intros bs Hkn Hok.
  - exists bs. split; [reflexivity|]. intros. right. split; [intros ? []|reflexivity].
  - destruct (element_drawn e bs (Hkn e (or_introl eq_refl)) (Hok e (or_introl eq_refl))) as (b1 & E1 & S1). destruct (IH b1) as (b2 & E2 & S2); [intros; apply Hkn; now right|intros; apply Hok; now right|].
    exists b2. unfold draw_gds in *. cbn [fold_left bind]. rewrite E1. split; [exact E2|]. intros n bg p Hn Hp Ho.
    destruct (S1 n bg p Hn Hp (Ho e (or_introl eq_refl))) as [A B].
    destruct (S2 n bg p Hn Hp ltac:(intros; apply Ho; now right)) as [(pre & e0 & post & -> & X)|[N Em]].
    + left. exists (e :: pre), e0, post. split; [reflexivity|exact X].
    + destruct (in_dec_inside (e_lo e) (e_hi e) (p ext)) as [I|I].
      * left. exists [], e, stack. split; [reflexivity|]. split; [exact I|]. split; [exact N|]. rewrite Em. now apply A.
      * right. split; [intros e' [<-|H']; auto|]. rewrite Em. now apply B.
Qed.
Lemma gds_refused_lemma stack bs : (forall e, In e stack -> known e) -> (exists e, In e stack /\ ~ element_ok _ _ layers e) -> draw_gds exyz ext ns perm layers bs stack = Err GridError.
Proof.
  revert bs. induction stack as [|e stack IH]; intros bs Hkn (e0 & H & N); [destruct H|]. unfold draw_gds in *. cbn [fold_left bind].
  destruct (draw_element exyz ext ns perm layers bs e) as [b|er] eqn:E.
  - apply IH; [intros; apply Hkn; now right|]. destruct H as [->|H]; [|eauto]. rewrite (element_refused e0 bs (Hkn e0 (or_introl eq_refl)) N) in E. discriminate.
  - rewrite fold_err. f_equal. 
    assert (X : ~ element_ok _ _ layers e) by (intros X; destruct (element_drawn e bs (Hkn e (or_introl eq_refl)) X) as (b' & E' & _); congruence).
    rewrite (element_refused e bs (Hkn e (or_introl eq_refl)) X) in E. congruence.
Qed.
Lemma in_dec_polygons ps x y : in_polygons ps x y \/ ~ in_polygons ps x y.
Proof.
  unfold in_polygons. induction ps as [|q l [IH|IH]].
  - right. intros (r & [] & _).
  - left. destruct IH as (r & Hr & Er). exists r. split; [now right|exact Er].
  - destruct (Req_EM_T (enclosed (map ptR (to_nm q)) x y) 1) as [E|E].
    + left. exists q. split; [now left|exact E].
    + right. intros (r & [<-|Hr] & Er); [contradiction|]. apply IH. eauto.
Qed.
Lemma mesh_drawn (k : mesh) bs : has (mesh_material k) -> mesh_ok _ _ layers k ->
  exists bs' q, draw_mesh exyz ext ns perm layers bs k = Ok bs' /\ perm (mesh_material k) = Ok q /\
  forall n bg p, (n < ns)%nat -> in_plane exyz ext p -> mesh_off _ _ k (p ext) ->
    let c := mesh_contains _ _ layers k (p (fst (across ext))) (p (snd (across ext))) (p ext) in
    (c \/ ~ c) /\ (c -> shown n bg bs' p = Q2R q) /\ (~ c -> shown n bg bs' p = shown n bg bs p).
Proof.
  intros [q E] H. unfold draw_mesh. rewrite E. cbn [bind]. destruct k as [lo hi m|l lo hi m|m]; cbn [mesh_ok] in H.
  - destruct (slab_drawn lo hi q bs H) as (b & Eb & S). exists b, q. split; [exact Eb|]. split; [reflexivity|]. intros n bg p Hn Hp Ho.
    split; [apply in_dec_inside|exact (S n bg p Hn Hp Ho)].
  - destruct H as [H1 H2]. destruct (polygons_drawn lo hi q (layers l) bs H1 H2) as (b & Eb & S). exists b, q. split; [exact Eb|]. split; [reflexivity|]. intros n bg p Hn Hp Ho.
    split; [|exact (S n bg p Hn Ho)]. cbn [mesh_contains].
    destruct (in_dec_inside lo hi (p ext)), (in_dec_polygons (layers l) (p (fst (across ext))) (p (snd (across ext)))); tauto.
  - destruct H.
Qed.
Lemma meshes_drawn ms bs : (forall k, In k ms -> has (mesh_material k)) -> (forall k, In k ms -> mesh_ok _ _ layers k) ->
  exists bs', draw_meshes exyz ext ns perm layers bs ms = Ok bs' /\
  forall n bg p, (n < ns)%nat -> in_plane exyz ext p -> (forall k, In k ms -> mesh_off _ _ k (p ext)) ->
    meshes_show _ _ perm layers ms (shown n bg bs p) (p (fst (across ext))) (p (snd (across ext))) (p ext) (shown n bg bs' p).
Proof.
  revert bs. induction ms as [|k ms IH]; intros bs Hkn Hok.
  - exists bs. split; [reflexivity|]. intros. right. split; [intros ? []|reflexivity].
  - destruct (mesh_drawn k bs (Hkn k (or_introl eq_refl)) (Hok k (or_introl eq_refl))) as (b1 & q & E1 & Eq & S1). destruct (IH b1) as (b2 & E2 & S2); [intros; apply Hkn; now right|intros; apply Hok; now right|].
    exists b2. unfold draw_meshes in *. cbn [fold_left bind]. rewrite E1. split; [exact E2|]. intros n bg p Hn Hp Ho.
    destruct (S1 n bg p Hn Hp (Ho k (or_introl eq_refl))) as (D & A & B).
    destruct (S2 n bg p Hn Hp ltac:(intros; apply Ho; now right)) as [(pre & k0 & post & q0 & -> & X)|[N Em]].
    + left. exists (k :: pre), k0, post, q0. split; [reflexivity|exact X].
    + destruct D as [I|I].
      * left. exists [], k, ms, q. split; [reflexivity|]. split; [exact I|]. split; [exact N|]. split; [exact Eq|]. rewrite Em. now apply A.
      * right. split; [intros e' [<-|H']; auto|]. rewrite Em. now apply B.
Qed.
Lemma mesh_refused (k : mesh) bs : has (mesh_material k) -> ~ mesh_ok _ _ layers k ->
  draw_mesh exyz ext ns perm layers bs k = Err (match k with MOther _ => ValueError | _ => GridError end).
Proof.
  intros [q E] H. unfold draw_mesh. rewrite E. cbn [bind]. destruct k as [lo hi m|l lo hi m|m]; cbn [mesh_ok] in H.
  - now apply slab_refused.
  - apply polygons_refused. destruct (Qlt_le_dec lo hi) as [L|L].
    + right. intros X. apply H. split; [now left|exact X].
    + destruct (layers l) as [|p ps] eqn:El; [right; intros X; apply H; split; [now right|exact X]|]. left. split; [now apply Qle_not_lt|discriminate].
  - reflexivity.
Qed.
Lemma meshes_refused_lemma pre k post : (forall k', In k' (pre ++ [k]) -> has (mesh_material k')) -> (forall k', In k' pre -> mesh_ok _ _ layers k') -> ~ mesh_ok _ _ layers k ->
  forall bs, draw_meshes exyz ext ns perm layers bs (pre ++ k :: post) = Err (match k with MOther _ => ValueError | _ => GridError end).
Proof.
  intros Hkn Hok N bs. destruct (meshes_drawn pre bs) as (b & E & _); [intros; apply Hkn, in_or_app; now left|exact Hok|].
  unfold draw_meshes in *. rewrite fold_left_app, E. cbn [fold_left bind]. rewrite mesh_refused; [apply fold_err|apply Hkn, in_or_app; right; now left|exact N].
Qed.
Lemma gds_unknown_lemma pre e post er : (forall e', In e' pre -> known e' /\ element_ok _ _ layers e') -> (perm (e_bg e) = Err er \/ has (e_bg e) /\ perm (e_fg e) = Err er) ->
  forall bs, draw_gds exyz ext ns perm layers bs (pre ++ e :: post) = Err er.
Proof.
  intros Hp He bs. destruct (gds_drawn pre bs) as (b & E & _); [intros; now apply Hp|intros; now apply Hp|].
  unfold draw_gds in *. rewrite fold_left_app, E. cbn [fold_left bind]. unfold draw_element at 2. destruct He as [He|[[q Hq] He]].
  - rewrite He. cbn [bind]. apply fold_err.
  - rewrite Hq, He. cbn [bind]. apply fold_err.
Qed.
End L.

(** *** rendered cells *)
Definition point (ext : nat) (x y z : R) (a : nat) : R := if Nat.eqb a ext then z else if Nat.eqb a (fst (across ext)) then x else y.
Lemma point_axes ext x y z : (ext < 3)%nat -> point ext x y z (fst (across ext)) = x /\ point ext x y z (snd (across ext)) = y /\ point ext x y z ext = z.
Proof. intros H. destruct ext as [|[|[|e]]]; [| | |lia]; cbn; auto. Qed.
Lemma point_plane exyz ext x y z : (ext < 3)%nat -> within (exyz (fst (across ext))) x -> within (exyz (snd (across ext))) y -> in_plane exyz ext (point ext x y z).
Proof. intros H Hx Hy a Ha Hn. destruct ext as [|[|[|e]]]; [| | |lia]; destruct a as [|[|[|a]]]; try lia; assumption. Qed.
Lemma cell_lemma boolean_not good cs exyz ext ns bs r n c v i j k m :
  (ext < 3)%nat -> clipper_ok boolean_not good -> (forall c, In c cs -> component_ok c) ->
  (forall b, In b bs -> good (b_poly b) /\ (length cs <= length (b_eps b))%nat) ->
  render boolean_not cs ns bs false = Ok r -> nth_error cs n = Some c -> nth_error r n = Some v -> in_grid c i j k -> cell_in_plane exyz ext c i j k ->
  (forall p, in_plane exyz ext p -> in_open_cell c i j k (p (fst (across ext))) (p (snd (across ext))) (p ext) -> drawn ext n (Q2R (c_bg c i j k)) bs p = Q2R m) ->
  (v i j k == m)%Q.
Proof.
  intros He CL CS H E Hc Hv Hg Hp Hm. eapply (render_uniform boolean_not good cs ns bs r n c v i j k m); try eassumption.
  intros x y z e Hx Hy Hz. assert (O : in_open_cell c i j k x y z) by (repeat split; apply Hx || apply Hy || apply Hz).
  destruct (Hp x y z O) as [Wx Wy]. destruct (point_axes ext x y z He) as (E1 & E2 & E3).
  specialize (Hm (point ext x y z) (point_plane exyz ext x y z He Wx Wy)). unfold drawn in Hm. rewrite E1, E2, E3 in Hm. now apply Hm.
Qed.
