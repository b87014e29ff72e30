(** uniform grids with absorbing layers, periodic grids, non-uniform grids. *)
From Verif Require Import Base QTac Pml_Model Pml_Spec Pml_Proofs Pml_Proofs2.
From Verif Require Grid_Proofs.
From Coq Require Import ZArith Qround Setoid.
Set Implicit Arguments.

(** *** uniform_grid_scpml *)
Lemma ones_qn n i : (i < n)%nat -> qn (repeat 1 n) i = 1.
Proof. revert i. induction n as [|n IH]; intros i H; [lia|]. destruct i as [|i]; [reflexivity|]. apply IH. lia. Qed.
Lemma ones_edge n i : (i <= n)%nat -> edge (repeat 1 n) i == qz (Z.of_nat i).
Proof.
  intros H. unfold edge. induction i as [|i IH]; [reflexivity|]. cbn [sumn]. rewrite IH by lia. rewrite ones_qn by lia.
  unfold qz. rewrite Nat2Z.inj_succ. unfold Z.succ. rewrite inject_Z_plus. reflexivity.
Qed.
Lemma qz_le a b : (a <= b)%Z -> qz a <= qz b.
Proof. intros H. unfold qz. now rewrite <- Zle_Qle. Qed.
Lemma qz_plus a b : qz (a + b) == qz a + qz b.
Proof. unfold qz. now rewrite inject_Z_plus. Qed.
Lemma qpow_ext x y m : x == y -> qpow x m == qpow y m.
Proof. intros H. induction m as [|m IH]; [reflexivity|]. cbn [qpow]. now rewrite IH, H. Qed.
Lemma cell_real corr x : ~ corr == 0 ->
  ceq (cadd (1, 0) (cdiv (cmul (0, 1) (s_default (creal x))) (creal corr))) (1, -40 * qpow x 4 / corr).
Proof.
  intros Hc. rewrite (@s_default_real (creal x) x (reflexivity _)). set (s := -40 * qpow x 4).
  split; cunf; field; auto.
Qed.
Lemma norm_absorption om n t i u : ~ om == 0 -> (0 < t)%nat -> (2 * t <= n)%nat -> (i < n)%nat ->
  qz (Z.of_nat i) <= u -> u < qz (Z.of_nat i) + 1 ->
  -40 * qpow (norm_dist u (Z.of_nat n) (Z.of_nat t)) 4 / om == qz (Z.of_nat t) * absorption om (repeat 1 n) t t i u.
Proof.
  intros Ho Ht Hn Hi Hu1 Hu2. assert (HT : 0 < qz (Z.of_nat t)). { change 0 with (qz 0). unfold qz. rewrite <- Zlt_Qlt. lia. }
  unfold absorption. rewrite repeat_length. unfold norm_dist.
  assert (EN : edge (repeat 1 n) (n - t) == qz (Z.of_nat n) - qz (Z.of_nat t)).
  { rewrite ones_edge by lia. rewrite Nat2Z.inj_sub by lia. unfold Z.sub, qz. rewrite inject_Z_plus, inject_Z_opp. ring. }
  assert (HN : qz (Z.of_nat t) + qz (Z.of_nat t) <= qz (Z.of_nat n)). { rewrite <- qz_plus. apply qz_le. lia. }
  destruct (Nat.ltb_spec i t) as [Hit|Hit].
  - assert (H1 : qz (Z.of_nat i) + 1 <= qz (Z.of_nat t)). { change 1 with (qz 1). rewrite <- qz_plus. apply qz_le. lia. }
    assert (E : (qmax (qz (Z.of_nat t) - u) 0 + qmax (u - (qz (Z.of_nat n) - qz (Z.of_nat t))) 0) / qz (Z.of_nat t) == (edge (repeat 1 n) t - u) / edge (repeat 1 n) t).
    { rewrite ones_edge by lia. assert (qmax (qz (Z.of_nat t) - u) 0 == qz (Z.of_nat t) - u) as -> by (qcase; qhyps; lra).
      assert (qmax (u - (qz (Z.of_nat n) - qz (Z.of_nat t))) 0 == 0) as -> by (qcase; qhyps; lra). field. lra. }
    rewrite (qpow_ext 4 E). generalize (qpow ((edge (repeat 1 n) t - u) / edge (repeat 1 n) t) 4). intros w. rewrite (@ones_edge n t) by lia. field. split; solve [exact Ho|lra].
  - assert (H1 : qz (Z.of_nat t) <= qz (Z.of_nat i)) by (apply qz_le; lia).
    assert (E1 : qmax (qz (Z.of_nat t) - u) 0 == 0) by (qcase; qhyps; lra).
    destruct (Nat.leb_spec (n - t) i) as [Hb|Hb].
    + assert (H2 : qz (Z.of_nat n) - qz (Z.of_nat t) <= u).
      { assert (qz (Z.of_nat n) <= qz (Z.of_nat i) + qz (Z.of_nat t)); [rewrite <- qz_plus; apply qz_le; lia|lra]. }
      assert (EL : edge (repeat 1 n) n - edge (repeat 1 n) (n - t) == qz (Z.of_nat t)) by (rewrite EN, ones_edge by lia; ring).
      assert (E : (qmax (qz (Z.of_nat t) - u) 0 + qmax (u - (qz (Z.of_nat n) - qz (Z.of_nat t))) 0) / qz (Z.of_nat t) == (u - edge (repeat 1 n) (n - t)) / (edge (repeat 1 n) n - edge (repeat 1 n) (n - t))).
      { rewrite EL, E1, EN. assert (qmax (u - (qz (Z.of_nat n) - qz (Z.of_nat t))) 0 == u - (qz (Z.of_nat n) - qz (Z.of_nat t))) as -> by (qcase; qhyps; lra). field. lra. }
      rewrite (qpow_ext 4 E). cbv zeta. match goal with |- context [qpow ?a 4] => generalize (qpow a 4) end. intros w. rewrite EL. field. split; solve [exact Ho|lra].
    + assert (H2 : u <= qz (Z.of_nat n) - qz (Z.of_nat t)).
      { assert (qz (Z.of_nat i) + 1 + qz (Z.of_nat t) <= qz (Z.of_nat n)); [change 1 with (qz 1); rewrite <- !qz_plus; apply qz_le; lia|lra]. }
      assert (E : (qmax (qz (Z.of_nat t) - u) 0 + qmax (u - (qz (Z.of_nat n) - qz (Z.of_nat t))) 0) / qz (Z.of_nat t) == 0).
      { rewrite E1. assert (qmax (u - (qz (Z.of_nat n) - qz (Z.of_nat t))) 0 == 0) as -> by (qcase; qhyps; lra). field. lra. }
      rewrite (qpow_ext 4 E). cbn [qpow]. field. exact Ho.
Qed.
Lemma cn_map_seq (f : nat -> cq) n i : (i < n)%nat -> cn (map f (seq 0 n)) i = f i.
Proof.
  intros H. unfold cn. rewrite (nth_indep _ (0, 0) (f 0%nat)) by (now rewrite map_length, seq_length).
  rewrite map_nth, seq_nth by lia. reflexivity.
Qed.
Lemma uniform_lemma om n t i : ~ om == 0 -> (0 < t)%nat -> (2 * t <= n)%nat -> (i < n)%nat ->
  let ab := uniform_axis s_default om n (Z.of_nat t) in
  length (fst ab) = n /\ length (snd ab) = n /\
  ceq (cn (fst ab) i) (1, qz (Z.of_nat t) * absorption om (repeat 1 n) t t i (edge (repeat 1 n) i)) /\
  ceq (cn (snd ab) i) (1, qz (Z.of_nat t) * absorption om (repeat 1 n) t t i (centre (repeat 1 n) i)).
Proof.
  intros Ho Ht Hn Hi. unfold uniform_axis. destruct (Z.ltb_spec 0 (Z.of_nat t)); [|lia]. cbn [fst snd].
  rewrite !map_length, !seq_length. split; [reflexivity|]. split; [reflexivity|]. rewrite !cn_map_seq by lia.
  assert (Abs : forall u v, u == v -> absorption om (repeat 1 n) t t i u == absorption om (repeat 1 n) t t i v).
  { intros u v E. unfold absorption.
    destruct (Nat.ltb i t); [now rewrite (@qpow_ext ((edge (repeat 1 n) t - u) / edge (repeat 1 n) t) ((edge (repeat 1 n) t - v) / edge (repeat 1 n) t) 4) by now rewrite E|].
    destruct (Nat.leb (length (repeat 1 n) - t) i); [|reflexivity]. cbv zeta.
    rewrite (@qpow_ext ((u - edge (repeat 1 n) (length (repeat 1 n) - t)) / (edge (repeat 1 n) (length (repeat 1 n)) - edge (repeat 1 n) (length (repeat 1 n) - t)))
       ((v - edge (repeat 1 n) (length (repeat 1 n) - t)) / (edge (repeat 1 n) (length (repeat 1 n)) - edge (repeat 1 n) (length (repeat 1 n) - t))) 4) by now rewrite E. reflexivity. }
  split; rewrite cell_real by exact Ho; split; cbn [cre cim fst snd]; try reflexivity.
  - rewrite (@norm_absorption om n t i) by (auto; lra). rewrite (Abs _ _ (@ones_edge n i ltac:(lia))). reflexivity.
  - rewrite (@norm_absorption om n t i) by (auto; lra). rewrite (Abs (centre (repeat 1 n) i) (qz (Z.of_nat i) + (1 # 2))); [reflexivity|].
    unfold centre. rewrite !ones_edge by lia. rewrite Nat2Z.inj_succ. unfold Z.succ. rewrite qz_plus. change (qz 1) with 1. field.
Qed.

(** *** generate_periodic_dx *)
Lemma diff_length l : length (diff l) = (length l - 1)%nat.
Proof. unfold diff. now rewrite map_length, seq_length. Qed.
Lemma diff_nth l i : (i < length l - 1)%nat -> qn (diff l) i = qn l (S i) - qn l i.
Proof. intros H. unfold diff. now rewrite Grid_Proofs.map_seq_nth. Qed.
Lemma tl_qn (l : list Q) i : qn (tl l) i = qn l (S i).
Proof. destruct l; [destruct i; reflexivity|reflexivity]. Qed.
Lemma sumn_diff n (f : nat -> Q) : sumn n (fun i => f (S i) - f i) == f n - f 0%nat.
Proof. induction n as [|n IH]; cbn [sumn]; [ring|]. rewrite IH. ring. Qed.
Lemma periodic_lemma p : (2 <= length p)%nat -> exists a b, periodic_axis p = Ok (Some (a, b)) /\
  length a = (length p - 1)%nat /\ length b = (length p - 1)%nat /\
  (forall i, (i < length p - 1)%nat -> qn a i == qn p (S i) - qn p i /\
     qn b i == (qn a i + qn a (Nat.modulo (S i) (length p - 1))) / 2) /\
  sumn (length p - 1) (qn a) == qn p (length p - 1) - qn p 0 /\ sumn (length p - 1) (qn b) == qn p (length p - 1) - qn p 0.
Proof.
  intros Hp. unfold periodic_axis. destruct (Nat.eqb_spec (length p) 1) as [?|_]; [lia|]. destruct (Nat.eqb_spec (length p) 0) as [?|_]; [lia|].
  set (n := length p) in *. eexists _, _. split; [reflexivity|]. rewrite !diff_length, map_length, seq_length. fold n.
  split; [reflexivity|]. split; [reflexivity|].
  set (sh := tl p ++ [qn p (n - 1) + (qn p 1 - qn p 0)]).
  assert (Lt : length (tl p) = (n - 1)%nat) by (unfold n; destruct p; simpl; lia).
  assert (S1 : forall i, (i < n - 1)%nat -> qn sh i = qn p (S i)).
  { intros i Hi. unfold sh, qn. rewrite app_nth1 by lia. apply tl_qn. }
  assert (S2 : qn sh (n - 1) = qn p (n - 1) + (qn p 1 - qn p 0)).
  { unfold sh, qn. rewrite app_nth2 by lia. now rewrite Lt, Nat.sub_diag. }
  set (m := map (fun i => (qn p i + qn sh i) / 2) (seq 0 n)).
  assert (Lm : length m = n) by (unfold m; now rewrite map_length, seq_length).
  assert (Mn : forall i, (i < n)%nat -> qn m i = (qn p i + qn sh i) / 2) by (intros; unfold m; now rewrite Grid_Proofs.map_seq_nth).
  assert (Ha : forall i, (i < n - 1)%nat -> qn (diff p) i = qn p (S i) - qn p i) by (intros; apply diff_nth; fold n; lia).
  assert (Hb : forall i, (i < n - 1)%nat -> qn (diff m) i = qn m (S i) - qn m i) by (intros; apply diff_nth; lia).
  split; [|split].
  - intros i Hi. rewrite Ha, Hb by lia. split; [reflexivity|]. rewrite !Mn by lia. rewrite (S1 i) by lia.
    destruct (Nat.eq_dec (S i) (n - 1)) as [E|E].
    + rewrite E, Nat.mod_same by lia. rewrite Ha by lia. rewrite S2. field.
    + rewrite Nat.mod_small by lia. rewrite Ha, S1 by lia. field.
  - rewrite (@sumn_ext (n - 1) _ (fun i => qn p (S i) - qn p i)); [apply sumn_diff|]. intros i Hi. now rewrite Ha.
  - rewrite (@sumn_ext (n - 1) _ (fun i => qn m (S i) - qn m i)).
    + rewrite sumn_diff. rewrite !Mn by lia. rewrite S2, S1 by lia. field.
    + intros i Hi. now rewrite Hb.
Qed.

(** *** make_nonuniform_grid *)
Lemma fold_qmin_le grad x boxes : forall acc, fold_left (fun m b => qmin m (mesh_box grad b x)) boxes acc <= acc /\
  forall b, In b boxes -> fold_left (fun m b => qmin m (mesh_box grad b x)) boxes acc <= mesh_box grad b x.
Proof.
  induction boxes as [|b boxes IH]; intros acc; cbn [fold_left]; [split; [lra|intros b []]|].
  destruct (IH (qmin acc (mesh_box grad b x))) as [H1 H2]. set (F := fold_left _ boxes _) in *.
  split; [qcase; qhyps; lra|]. intros b' [<-|Hb]; [clear H2; clearbody F; qcase; qhyps; lra|]. now apply H2.
Qed.
Lemma fold_qmin_ge grad x boxes d : (forall b, In b boxes -> d <= mesh_box grad b x) -> forall acc, d <= acc ->
  d <= fold_left (fun m b => qmin m (mesh_box grad b x)) boxes acc.
Proof.
  intros Hb. induction boxes as [|b boxes IH]; intros acc Ha; cbn [fold_left]; [exact Ha|].
  apply IH; [intros b' Hb'; apply Hb; now right|]. specialize (Hb b (or_introl eq_refl)). qcase; lra.
Qed.
Lemma mesh_box_ge grad b x : 0 <= grad -> 0 < b_mesh b -> b_mesh b <= mesh_box grad b x.
Proof.
  intros Hg Hm. unfold mesh_box.
  destruct (qlt x (b_pos b - b_size b / 2)) eqn:E1; destruct (qlt (b_pos b + b_size b / 2) x) eqn:E2; qhyps; nra.
Qed.
Lemma mesh_box_in grad b x : in_box b x -> mesh_box grad b x = b_mesh b.
Proof.
  intros [H1 H2]. unfold mesh_box. assert (qlt x (b_pos b - b_size b / 2) = false) as -> by now apply qlt_false.
  assert (qlt (b_pos b + b_size b / 2) x = false) as -> by now apply qlt_false. reflexivity.
Qed.
Fixpoint least (d : Q) (boxes : list box) : Q := match boxes with [] => d | b :: l => qmin (b_mesh b) (least d l) end.
Lemma least_le d boxes : least d boxes <= d /\ forall b, In b boxes -> least d boxes <= b_mesh b.
Proof.
  induction boxes as [|b l [I1 I2]]; cbn [least]; [split; [lra|intros b []]|].
  split; [qcase; qhyps; lra|]. intros b' [<-|Hb]; [|specialize (I2 b' Hb)]; qcase; qhyps; lra.
Qed.
Lemma least_pos d boxes : 0 < d -> (forall b, In b boxes -> 0 < b_mesh b) -> 0 < least d boxes.
Proof.
  intros Hd. induction boxes as [|b l IH]; intros H; cbn [least]; [exact Hd|].
  pose proof (H b (or_introl eq_refl)). assert (0 < least d l) by (apply IH; intros b' Hb'; apply H; now right). qcase; lra.
Qed.
Lemma mesh_at_bounds dflt grad boxes x : 0 < dflt -> 0 <= grad -> (forall b, In b boxes -> 0 < b_mesh b) ->
  least dflt boxes <= mesh_at dflt grad boxes x <= dflt /\ forall b, In b boxes -> in_box b x -> mesh_at dflt grad boxes x <= b_mesh b.
Proof.
  intros Hd Hg Hb. unfold mesh_at. destruct (fold_qmin_le grad x boxes dflt) as [H1 H2]. split; [split; [|exact H1]|].
  - apply fold_qmin_ge; [|apply least_le]. intros b Hin. pose proof (@mesh_box_ge grad b x Hg (Hb b Hin)). destruct (least_le dflt boxes) as [_ L]. specialize (L b Hin). lra.
  - intros b Hin Hx. specialize (H2 b Hin). now rewrite (@mesh_box_in grad b x Hx) in H2.
Qed.

Section Loop.
Variables (lo hi step : Q) (size : nat -> Q) (dl : Q).
Hypothesis Hstep : 0 < step.
Hypothesis Hdl : 0 < dl.
Hypothesis Hsize : forall i, dl <= size i.
Definition at_point (x : Q) : Q := size (Z.to_nat (Qfloor ((x - inject_Z (Qfloor lo)) / step))).
Lemma index_ok x : lo <= x -> x < hi -> (Qfloor ((x - inject_Z (Qfloor lo)) / step) <= Z.of_nat (fine_count lo hi step))%Z.
Proof.
  intros H1 H2. unfold fine_count. assert (Hi : 0 < / step) by now apply Qinv_lt_0_compat.
  assert (H : (Qfloor ((x - inject_Z (Qfloor lo)) / step) <= Qfloor ((inject_Z (Qceiling hi) - inject_Z (Qfloor lo)) / step))%Z).
  { apply Qfloor_resp_le. pose proof (Grid_Proofs.Qceiling_bounds hi). unfold Qdiv. apply Qmult_le_compat_r; lra. }
  lia.
Qed.
Definition good (l : list Q) : Prop := qn l 0 = lo /\ (1 <= length l)%nat /\
  (forall i, (S i < length l)%nat -> qn l i < hi /\ qn l (S i) == qn l i + at_point (qn l i)).
Lemma loop_lemma : forall fuel acc, good acc -> lo <= qn acc (length acc - 1) -> hi - qn acc (length acc - 1) <= inject_Z (Z.of_nat fuel) * dl ->
  exists xs, good xs /\ hi <= qn xs (length xs - 1) /\ forall fuel', (fuel <= fuel')%nat -> mesh_loop fuel' lo hi step size (qn acc (length acc - 1)) acc = Ok xs.
Proof.
  induction fuel as [|fuel IH]; intros acc Hg Hlo Hf; set (x := qn acc (length acc - 1)) in *.
  - assert (hi <= x). { change (inject_Z (Z.of_nat 0)) with 0 in Hf. lra. }
    exists acc. split; [exact Hg|]. split; [exact H|]. intros f' _. unfold mesh_loop.
    assert (E : qlt x hi = false) by now apply qlt_false. destruct f'; now rewrite E.
  - destruct (qlt x hi) eqn:E.
    + apply qlt_true in E. set (y := x + at_point x). set (acc' := acc ++ [y]).
      assert (L' : length acc' = S (length acc)) by (unfold acc'; rewrite app_length; simpl; lia).
      assert (Y : qn acc' (length acc' - 1) = y).
      { rewrite L'. replace (S (length acc) - 1)%nat with (length acc) by lia. unfold acc', qn. rewrite app_nth2 by lia. now rewrite Nat.sub_diag. }
      assert (A : forall i, (i < length acc)%nat -> qn acc' i = qn acc i) by (intros i Hi; unfold acc', qn; now rewrite app_nth1 by lia).
      destruct Hg as (G1 & G2 & G3). assert (Hy : x + dl <= y) by (unfold y, at_point; pose proof (Hsize (Z.to_nat (Qfloor ((x - inject_Z (Qfloor lo)) / step)))); lra).
      assert (Gg : good acc').
      { split; [rewrite A by lia; exact G1|]. split; [lia|]. intros i Hi. rewrite L' in Hi. destruct (Nat.eq_dec (S i) (length acc)) as [Ei|Ei].
        - rewrite (A i) by lia. assert (Ex : qn acc i = x) by (unfold x; f_equal; lia). rewrite Ex. split; [exact E|].
          assert (Ey : qn acc' (S i) = y) by (rewrite <- Y; f_equal; lia). rewrite Ey. reflexivity.
        - rewrite !A by lia. apply G3. lia. }
      destruct (IH acc' Gg) as (xs & X1 & X2 & X3).
      * rewrite Y. lra.
      * rewrite Y. rewrite Nat2Z.inj_succ in Hf. unfold Z.succ in Hf. rewrite inject_Z_plus in Hf. change (inject_Z 1) with 1 in Hf. lra.
      * exists xs. split; [exact X1|]. split; [exact X2|]. intros f' Hf'. destruct f' as [|f']; [lia|]. cbn [mesh_loop].
        assert (E' : qlt x hi = true) by now apply qlt_true. rewrite E'.
        destruct (Z.ltb_spec (Z.of_nat (fine_count lo hi step)) (Qfloor ((x - inject_Z (Qfloor lo)) / step))) as [H|_].
        { pose proof (index_ok Hlo E). lia. }
        fold (at_point x). fold y. fold acc'. rewrite Y in X3. apply X3. lia.
    + pose proof E as E0. apply qlt_false in E. exists acc. split; [exact Hg|]. split; [exact E|]. intros f' _. destruct f'; cbn [mesh_loop]; now rewrite E0.
Qed.
Lemma good_increasing l : good l -> increasing l.
Proof.
  intros (_ & _ & H) i j Hij. induction j as [|j IH]; [lia|]. destruct (H j) as [_ E]; [lia|]. pose proof (Hsize (Z.to_nat (Qfloor ((qn l j - inject_Z (Qfloor lo)) / step)))).
  unfold at_point in E. destruct (Nat.eq_dec i j) as [->|]; [lra|]. assert (qn l i < qn l j) by (apply IH; lia). lra.
Qed.
End Loop.
Lemma fold_qmax_last : forall l acc, increasing l -> (1 <= length l)%nat -> acc <= qn l 0 -> fold_left qmax l acc == qn l (length l - 1).
Proof.
  induction l as [|x l IH]; intros acc Hi Hl Ha; [simpl in Hl; lia|]. cbn [fold_left]. change (qn (x :: l) 0) with x in Ha.
  destruct l as [|y l].
  - cbn. qcase; qhyps; lra.
  - rewrite IH; [|now apply increasing_tail in Hi|simpl; lia|].
    + cbn [length]. rewrite !Nat.sub_succ, !Nat.sub_0_r. reflexivity.
    + pose proof (@increasing_head x (y :: l) 0 Hi ltac:(simpl; lia)). change (qn (y :: l) 0) with y in *. qcase; qhyps; lra.
Qed.
Lemma nonuniform_lemma lo hi dflt grad step boxes : lo < hi -> 0 < hi -> 0 < dflt -> 0 <= grad -> 0 < step -> (forall b, In b boxes -> 0 < b_mesh b) ->
  exists fuel xs raw m, (forall fuel', (fuel <= fuel')%nat -> make_axis fuel' lo hi dflt grad step boxes = Ok xs) /\
    increasing xs /\ (2 <= length xs)%nat /\ qn xs (length xs - 1) == hi /\
    hi <= m /\ m < hi + dflt /\ qn xs 0 == lo * hi / m /\
    length raw = length xs /\ qn raw 0 = lo /\ qn raw (length raw - 1) == m /\
    (forall i, (i < length xs)%nat -> qn xs i == qn raw i * hi / m) /\
    (forall i, (S i < length xs)%nat -> let g := qn raw (S i) - qn raw i in
       0 < g /\ g <= dflt /\ qn xs (S i) - qn xs i <= g /\
       (forall b, In b boxes -> in_box b (lookup_point lo hi step (qn raw i)) -> g <= b_mesh b)).
Proof.
  intros Hlh Hh Hd Hg Hs Hb. set (size := fun i => mesh_at dflt grad boxes (fine_point lo hi step i)). set (dl := least dflt boxes).
  assert (Hdl : 0 < dl) by now apply least_pos.
  assert (Hsize : forall i, dl <= size i) by (intros i; apply (@mesh_at_bounds dflt grad boxes (fine_point lo hi step i) Hd Hg Hb)).
  set (fuel := Z.to_nat (Qceiling ((hi - lo) / dl))).
  assert (Hf : hi - lo <= inject_Z (Z.of_nat fuel) * dl).
  { pose proof (Grid_Proofs.Qceiling_bounds ((hi - lo) / dl)) as [_ B].
    assert (H : (hi - lo) / dl <= inject_Z (Z.of_nat fuel)).
    { unfold fuel. eapply Qle_trans; [exact B|]. rewrite <- Zle_Qle. lia. }
    assert (E : (hi - lo) / dl * dl == hi - lo) by (field; lra). rewrite <- E. apply Qmult_le_compat_r; [exact H|lra]. }
  assert (G0 : good lo hi step size [lo]). { split; [reflexivity|]. split; [simpl; lia|]. intros i Hi. simpl in Hi. lia. }
  destruct (@loop_lemma lo hi step size dl Hs Hdl Hsize fuel [lo] G0) as (raw & R1 & R2 & R3); [cbn; lra|exact Hf|].
  pose proof (good_increasing Hdl Hsize R1) as Hinc. destruct R1 as (Q0 & Q1 & Q2).
  set (m := fold_left qmax raw lo). assert (Em : m == qn raw (length raw - 1)) by (apply fold_qmax_last; auto; rewrite Q0; lra).
  assert (L2 : (2 <= length raw)%nat).
  { destruct (Nat.le_gt_cases 2 (length raw)) as [H|H]; [exact H|]. exfalso. assert (length raw = 1%nat) as Er by lia. rewrite Er in R2. simpl in R2. rewrite Q0 in R2. lra. }
  assert (Hm : hi <= m) by (rewrite Em; exact R2). assert (Hm0 : 0 < m) by lra. assert (Hi0 : 0 < / m) by now apply Qinv_lt_0_compat.
  assert (Hr : 0 < hi / m <= 1).
  { unfold Qdiv. split; [nra|]. assert (E : m * / m == 1) by (field; lra). rewrite <- E. apply Qmult_le_compat_r; lra. }
  assert (Hxs : forall i, (i < length raw)%nat -> qn (map (fun x => x / m * hi) raw) i == qn raw i * (hi / m)).
  { intros i Hi. rewrite Grid_Proofs.map_qn by lia. field. lra. }
  assert (Sz : forall i, (S i < length raw)%nat -> qn raw (S i) - qn raw i == mesh_at dflt grad boxes (lookup_point lo hi step (qn raw i))).
  { intros i Hi. destruct (Q2 i Hi) as [_ E]. rewrite E. unfold at_point, size, lookup_point. ring. }
  exists fuel, (map (fun x => x / m * hi) raw), raw, m. rewrite map_length.
  split. { intros f' Hf'. unfold make_axis. fold size. specialize (R3 f' Hf'). cbn in R3. rewrite R3. reflexivity. }
  split. { intros i j Hij. rewrite map_length in Hij. rewrite !Hxs by lia. apply Qmult_lt_compat_r; [lra|]. apply Hinc. lia. }
  split; [exact L2|]. split. { rewrite Hxs by lia. rewrite <- Em. field. lra. }
  split; [exact Hm|]. split.
  { rewrite Em. set (k := (length raw - 2)%nat). assert (Hk : (S k < length raw)%nat) by (unfold k; lia).
    pose proof (Sz k Hk) as E. destruct (Q2 k Hk) as [B _]. replace (length raw - 1)%nat with (S k) by (unfold k; lia).
    destruct (@mesh_at_bounds dflt grad boxes (lookup_point lo hi step (qn raw k)) Hd Hg Hb) as [[_ H] _]. lra. }
  split. { rewrite Hxs by lia. rewrite Q0. field. lra. }
  split; [reflexivity|]. split; [exact Q0|]. split; [symmetry; exact Em|].
  split. { intros i Hi. rewrite Hxs by lia. field. lra. }
  intros i Hi. pose proof (Sz i Hi) as E. cbv zeta. destruct (@mesh_at_bounds dflt grad boxes (lookup_point lo hi step (qn raw i)) Hd Hg Hb) as [[B1 B2] B3].
  fold dl in B1. assert (Hgap : 0 < qn raw (S i) - qn raw i) by lra. split; [exact Hgap|]. split; [lra|]. split.
  - rewrite !Hxs by lia. assert (qn raw (S i) * (hi / m) - qn raw i * (hi / m) == (qn raw (S i) - qn raw i) * (hi / m)) as -> by ring. nra.
  - intros b Hin Hbx. specialize (B3 b Hin Hbx). lra.
Qed.
