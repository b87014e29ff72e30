(** A simulation on two cells, solved in closed form. *)
From Coq Require Import Reals Lra Psatz Ring Field.
From Verif Require Obj_Model.
From Verif Require Import Obj_Spec Obj_Proofs.
From Verif Require Import Base CField CField_Proofs LinAlg Maxwell_Model Maxwell_Spec Maxwell_Proofs Maxwell_Proofs2 Maxwell_Proofs3 Maxwell_Proofs4 SimCache_Model SimCache_Spec SimCache_Proofs.
From Verif Require Import Shape_Model GMath_Model GMath_Spec GMath_Proofs GMath_Proofs2 GMath_Proofs3 GMath_Proofs4 GMath_Proofs5 CplxField Adj_Model Adj_Spec Adj_Proofs Adj_Proofs2 Adj_Proofs3 Adj_Proofs4 Adj_Proofs5.
Local Open Scope R_scope.
Local Notation at_ := (at_ (K:=CC)).
Definition cells2 : grid CC := Grid (K:=CC) (fun a => match a with 0%nat => 2%nat | _ => 1%nat end) (fun _ _ => c1) (fun _ _ => c1).

Ltac small := repeat match goal with x : C |- _ => destruct x | x : car CC |- _ => destruct x end.
Ltac entries := intros i Hi; destruct i as [|[|[|[|[|[|i]]]]]]; [..|cbn in Hi; lia].
Lemma inv1 : / (R1 * R1 + R0 * R0) = R1.
Proof. change R1 with 1; change R0 with 0. field. Qed.
Lemma curl_e2 (x0 x1 x2 x3 x4 x5 : C) : mv (K:=CC) (vlen cells2) (curl_e cells2 (fun _ => c1) (fun _ => c1)) [x0;x1;x2;x3;x4;x5] =
  [c0; c0; csub x4 x5; csub x5 x4; csub x3 x2; csub x2 x3].
Proof.
  apply (@vec_ext CC); [reflexivity|]. entries; small.
  all: vm_compute. all: rewrite inv1; change R1 with 1; change R0 with 0. 
  all: apply c_eq; cbn [fst snd]; ring.
Qed.
Lemma curl_h2 (x0 x1 x2 x3 x4 x5 : C) : mv (K:=CC) (vlen cells2) (curl_h cells2 (fun _ => c1) (fun _ => c1)) [x0;x1;x2;x3;x4;x5] =
  [c0; c0; csub x5 x4; csub x4 x5; csub x2 x3; csub x3 x2].
Proof.
  apply (@vec_ext CC); [reflexivity|]. entries; small.
  all: vm_compute. all: rewrite inv1; change R1 with 1; change R0 with 0. 
  all: apply c_eq; cbn [fst snd]; ring.
Qed.
Lemma pmul_one (d : nat -> C) (v : list C) : length v = 6%nat -> (forall i, d i = c1) -> pmul (K:=CC) cells2 d v = v.
Proof.
  intros Hv Hd. apply (@vec_ext CC); [etransitivity; [apply (@pmul_length CC)|symmetry; exact Hv]|]. intros i Hi.
  rewrite (@pmul_length CC) in Hi. rewrite (@pmul_at CC) by exact Hi. rewrite Hd. cr.
Qed.
Lemma wave2 e0 e1 e2 e3 e4 e5 x0 x1 x2 x3 x4 x5 :
  mv (K:=CC) (vlen cells2) (wave cells2 flat_phases 1 [e0;e1;e2;e3;e4;e5]) [x0;x1;x2;x3;x4;x5] =
  [copp (cmul e0 x0); copp (cmul e1 x1);
   csub (cmul (csub (creal 2) e2) x2) (cmul (creal 2) x3); csub (cmul (csub (creal 2) e3) x3) (cmul (creal 2) x2);
   csub (cmul (csub (creal 2) e4) x4) (cmul (creal 2) x5); csub (cmul (csub (creal 2) e5) x5) (cmul (creal 2) x4)].
Proof.

  apply (@vec_ext CC); [reflexivity|]. intros i Hi. change (i < 6)%nat in Hi.
  unfold wave. rewrite (@mv_e_full CC cells2 flat_phases) by exact Hi. cbn [ue we uh wh flat_phases].
  rewrite (@pmul_one (maskv CC None) [x0;x1;x2;x3;x4;x5]) by reflexivity. rewrite curl_e2.
  rewrite (@pmul_one (invv (K:=CC) None)) by reflexivity. rewrite (@pmul_one (maskv CC None)) by reflexivity. rewrite curl_h2.
  destruct i as [|[|[|[|[|[|i]]]]]]; [..|lia]; small; cbn; apply c_eq; cbn; ring.
Qed.

Lemma no_resonance2 e0 e1 e2 e3 e4 e5 : e0 <> c0 -> e1 <> c0 -> csub (cmul (csub (creal 2) e2) (csub (creal 2) e3)) (creal 4) <> c0 ->
  csub (cmul (csub (creal 2) e4) (csub (creal 2) e5)) (creal 4) <> c0 -> no_resonance cells2 flat_phases 1 [e0;e1;e2;e3;e4;e5].
Proof.
  intros H0 H1 H2 H3 v Hv Hz. change (length v = 6%nat) in Hv.
  destruct v as [|y0 [|y1 [|y2 [|y3 [|y4 [|y5 [|]]]]]]]; try discriminate. clear Hv.
  rewrite wave2 in Hz.
  assert (Two : creal 2 <> c0) by (intros E; apply (f_equal fst) in E; cbn in E; lra).
  assert (Sys : forall a b x y : C, csub (cmul (csub (creal 2) a) (csub (creal 2) b)) (creal 4) <> c0 ->
     csub (cmul (csub (creal 2) a) x) (cmul (creal 2) y) = c0 -> csub (cmul (csub (creal 2) b) y) (cmul (creal 2) x) = c0 -> x = c0 /\ y = c0).
  { intros a b x y Hd Ha Hb.
    assert (Hx : cmul (csub (cmul (csub (creal 2) a) (csub (creal 2) b)) (creal 4)) x = c0).
    { transitivity (cadd (cmul (csub (creal 2) b) (csub (cmul (csub (creal 2) a) x) (cmul (creal 2) y))) (cmul (creal 2) (csub (cmul (csub (creal 2) b) y) (cmul (creal 2) x)))).
      - replace (creal 4) with (cmul (creal 2) (creal 2)) by cring. ring.
      - rewrite Ha, Hb. ring. }
    assert (Z : forall u w : C, u <> c0 -> cmul u w = c0 -> w = c0).
    { intros u w Hu E. transitivity (cmul (cinv u) (cmul u w)); [transitivity (cmul (cmul u (cinv u)) w); [rewrite (cinv_r Hu); ring|ring]|]. rewrite E. ring. }
    assert (Ex : x = c0) by exact (Z _ _ Hd Hx). split; [exact Ex|]. subst x. apply (Z (creal 2) y Two).
    transitivity (copp (csub (cmul (csub (creal 2) a) c0) (cmul (creal 2) y))); [ring|]. rewrite Ha. ring. }
  assert (Z : forall u w : C, u <> c0 -> copp (cmul u w) = c0 -> w = c0).
  { intros u w Hu E. transitivity (copp (cmul (cinv u) (copp (cmul u w)))); [transitivity (cmul (cmul u (cinv u)) w); [rewrite (cinv_r Hu); ring|ring]|]. rewrite E. ring. }
  change (forall i, (i < 6)%nat -> at_ [copp (cmul e0 y0); copp (cmul e1 y1);
     csub (cmul (csub (creal 2) e2) y2) (cmul (creal 2) y3); csub (cmul (csub (creal 2) e3) y3) (cmul (creal 2) y2);
     csub (cmul (csub (creal 2) e4) y4) (cmul (creal 2) y5); csub (cmul (csub (creal 2) e5) y5) (cmul (creal 2) y4)] i = c0) in Hz.
  pose proof (Z _ _ H0 (Hz 0%nat ltac:(lia))) as E0. pose proof (Z _ _ H1 (Hz 1%nat ltac:(lia))) as E1.
  destruct (Sys _ _ _ _ H2 (Hz 2%nat ltac:(lia)) (Hz 3%nat ltac:(lia))) as [E2 E3].
  destruct (Sys _ _ _ _ H3 (Hz 4%nat ltac:(lia)) (Hz 5%nat ltac:(lia))) as [E4 E5]. subst.
  intros i Hi. destruct i as [|[|[|[|[|[|i]]]]]]; try reflexivity. change (S (S (S (S (S (S i)))))  < 6)%nat in Hi. lia.
Qed.

(** ** the simulation *)
Definition solver2 : mat CC -> list C -> list C := elimination (K:=CC) czero 6.
Definition one_p (_ : nat) : C := c1.
Lemma sim_ok2 : sim_ok cells2 one_p solver2 1.
Proof.
  constructor.
  - intros a i _ _. split; exact c1_nz.
  - intros i Hi. change (i < 6)%nat in Hi. destruct i as [|[|[|[|[|[|i]]]]]]; [..|lia]; vm_compute; apply c_eq; cbn; change R1 with 1; change R0 with 0; field.
  - lra.
  - apply (@elimination_exact CC czero). intros x. split; intros H; [now apply czero_spec|]. now apply czero_spec.
Qed.
Definition src2 : list C := [c0; c0; imag_unit; creal (-1); c0; c0].
Definition bg2 : list C := [c1; c1; c0; c0; c1; c1].
Definition sel2 (k i : nat) : C := if Nat.eqb k (i + 2) then c1 else c0.
Lemma eps2 x y : eps_of cells2 bg2 sel2 2 [x; y] = [c1; c1; creal x; creal y; c1; c1].
Proof. unfold eps_of. cbn -[cadd cmul]. repeat f_equal; small; cbn; apply c_eq; cbn; ring. Qed.
Lemma sel2_real k i : snd (sel2 k i) = 0.
Proof. unfold sel2. destruct (Nat.eqb k (i + 2)); reflexivity. Qed.
Section Closed.
Variables x y : R.
Let a := 2 - x.
Let b := 2 - y.
Let det := a * b - 4.
Hypothesis Hdet : det <> 0.
Lemma no_res_xy : no_resonance cells2 flat_phases 1 [c1; c1; creal x; creal y; c1; c1].
Proof.
  apply no_resonance2; try exact c1_nz.
  - intros E. apply Hdet. apply (f_equal fst) in E. cbn in E. unfold det, a, b. lra.
  - intros E. apply (f_equal fst) in E. cbn in E. lra.
Qed.
Definition E2 : list C := [c0; c0; (b / det, 2 / det); (2 / det, a / det); c0; c0].
Lemma run2 : run cells2 flat_phases one_p solver2 1 false src2 [c1; c1; creal x; creal y; c1; c1] = Ok E2.
Proof.
  destruct (@run_forward cells2 flat_phases one_p solver2 1 sim_ok2 _ src2 no_res_xy eq_refl) as (e & He & Hl & Hm). rewrite He. f_equal.
  apply (@nonsingular_inj CC (vlen cells2) (wave cells2 flat_phases 1 [c1; c1; creal x; creal y; c1; c1]) e E2 no_res_xy Hl eq_refl).
  etransitivity; [exact Hm|]. symmetry. unfold E2. etransitivity; [apply wave2|].
  apply (@vec_ext CC); [reflexivity|]. entries; cbn; apply c_eq; cbn; try ring; unfold det, a, b in *; field; exact Hdet.
Qed.
Definition plane2 (i : nat) : bool := Nat.eqb i 0.
Lemma power2 : power_eval 1 cells2 plane2 1 E2 = - (1 / 2) / det.
Proof.
  unfold power_eval. change (seq 0 (vlen cells2)) with [0;1;2;3;4;5]%nat. cbn [map Obj_Model.rsum fold_right].
  unfold filter_at, plane2. cbn [Nat.eqb].
  assert (P : at_ (mv (K:=CC) (vlen cells2) (poynting_chew_e_cross cells2 E2) (map cconj (hfield 1 cells2 E2))) 0 =
     csub (cmul (2 / det, a / det) (cconj (at_ (hfield 1 cells2 E2) 4))) (cmul c0 (cconj (at_ (hfield 1 cells2 E2) 2)))).
  { etransitivity; [exact (@poynting_e_at CC cells2 E2 (map cconj (hfield 1 cells2 E2)) 0 0 ltac:(lia) ltac:(cbn; lia))|].
    rewrite !conj_at || idtac. change (cmul (cmul c1 c1) (csub (cmul (at_ E2 3) (at_ (map cconj (hfield 1 cells2 E2)) 4)) (cmul (at_ E2 5) (at_ (map cconj (hfield 1 cells2 E2)) 2))) =
      csub (cmul (2 / det, a / det) (cconj (at_ (hfield 1 cells2 E2) 4))) (cmul c0 (cconj (at_ (hfield 1 cells2 E2) 2)))).
    rewrite !conj_at. change (at_ E2 3) with (2 / det, a / det). change (at_ E2 5) with c0. cr. }
  assert (H4 : at_ (hfield 1 cells2 E2) 4 = cmul imag_unit (csub (2 / det, a / det) (b / det, 2 / det))).
  { pose proof (@curl_h_at cells2 1 ltac:(lra) E2 4 ltac:(cbn; lia)) as H. unfold E2 in H at 1. rewrite curl_e2 in H.
    change (at_ _ 4) with (csub (2 / det, a / det) (b / det, 2 / det)) in H at 1. rewrite H. unfold imag_unit. cring. }
  revert P. generalize (mv (K:=CC) (vlen cells2) (poynting_chew_e_cross cells2 E2) (map cconj (hfield 1 cells2 E2))). intros S P.
  rewrite P, H4. clear P. generalize (at_ S 1), (at_ S 2), (at_ S 3), (at_ S 4), (at_ S 5), (at_ (hfield 1 cells2 E2) 2). intros s1 s2 s3 s4 s5 h. unfold cmul, csub, cadd, copp, cconj, imag_unit, c0, c1, creal. cbn [fst snd]. unfold det, a, b in *.
  field. exact Hdet.
Qed.
End Closed.
