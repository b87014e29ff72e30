(** Unfolding of symmetric fields. *)
From Verif Require Import Base CField CField_Proofs Remote_Model Remote_Spec.
Set Implicit Arguments.

Lemma axis_eqb_spec a b : reflect (a = b) (axis_eqb a b).
Proof. destruct a, b; cbn; constructor; congruence. Qed.
Lemma get_set a i p : get a (set a i p) = i.
Proof. destruct a; reflexivity. Qed.
Lemma get_set_other a b i p : a <> b -> get b (set a i p) = get b p.
Proof. destruct a, b; intros H; try reflexivity; congruence. Qed.
Lemma set_set a i j p : set a i (set a j p) = set a i p.
Proof. destruct a, p as [[x y] z]; reflexivity. Qed.
Lemma set_get a p : set a (get a p) p = p.
Proof. destruct a, p as [[x y] z]; reflexivity. Qed.
Lemma set_swap a b i j p : a <> b -> set a i (set b j p) = set b j (set a i p).
Proof. destruct a, b, p as [[x y] z]; intros H; try reflexivity; congruence. Qed.
Lemma get_build a f : get a (build f) = f a.
Proof. destruct a; reflexivity. Qed.
Lemma idx_eq p q : (forall a, get a p = get a q) -> p = q.
Proof. intros H. destruct p as [[x y] z], q as [[x' y'] z']. assert (A := H AX). assert (B := H AY). assert (C := H AZ). cbn in *. congruence. Qed.
Lemma forallb_axes f : forallb f [AX; AY; AZ] = true <-> forall a, f a = true.
Proof.
  cbn. rewrite !andb_true_iff. split; [intros (A & B & C & _) []; assumption|]. intros H. repeat split; apply H.
Qed.
Lemma forallb_axes_false f : forallb f [AX; AY; AZ] = false -> exists a, f a = false.
Proof. cbn. destruct (f AX) eqn:A; [|eauto]. destruct (f AY) eqn:B; [|eauto]. destruct (f AZ) eqn:C; [discriminate|eauto]. Qed.
Lemma comp_fmap (K : cfield) f c (E : field K) : comp c (fmap f E) = f c (comp c E).
Proof. destruct c; reflexivity. Qed.

Section Proofs.
Variable K : cfield.
Local Notation arr := (arr K).
Local Notation field := (field K).
Add Field Kf : (k_field K).

Lemma same_off_set a i j m : same_off a (set a i m) (set a j m) = true.
Proof.
  unfold same_off. apply forallb_axes. intros b. destruct (axis_eqb_spec a b) as [->|H]; [reflexivity|]. cbn. rewrite !get_set_other by exact H. apply Nat.eqb_refl.
Qed.
Lemma same_off_l a i m : same_off a (set a i m) m = true.
Proof. rewrite <- (set_get a m) at 2. apply same_off_set. Qed.
Lemma same_off_r a i m : same_off a m (set a i m) = true.
Proof. rewrite <- (set_get a m) at 1. apply same_off_set. Qed.
Lemma same_off_refl a m : same_off a m m = true.
Proof. rewrite <- (set_get a m). apply same_off_set. Qed.

(** value of the unfolded component *)
Definition uval (a : axis) (s : sym) (c : axis) (x : arr) (p : idx) : K :=
  let i := get a p in let h := get a (shape x) in
  if axis_eqb c a then (if i <? h then sign K s true (val x (set a (h - 1 - i) p)) else val x (set a (i - h) p))
  else if i =? 0 then k0 else if i <? h then sign K s false (val x (set a (h - i) p)) else val x (set a (i - h) p).
Definition ushape (a : axis) (s : sym) (m : idx) : idx := if active s then set a (2 * get a m) m else m.

Lemma unfold_comp_spec a s c (x d : arr) : 0 < get a (shape x) -> shape d = set a 1 (shape x) -> (forall p, val d p = k0) ->
  exists r, unfold_comp a s d c x = Ok r /\ shape r = ushape a s (shape x) /\
    forall p, val r p = if active s then uval a s c x p else val x p.
Proof.
  intros Hh Hd Hz. set (h := get a (shape x)) in *.
  assert (Three : forall y, shape y = set a (h - 1) (shape x) ->
    exists r, cat3 a d y x = Ok r /\ shape r = set a (2 * h) (shape x) /\
      forall p, val r p = if get a p =? 0 then k0 else if get a p <? h then val y (set a (get a p - 1) p) else val x (set a (get a p - h) p)).
  { intros y Hy. unfold cat3, cat. rewrite Hd, Hy, same_off_set. cbn [bind shape]. rewrite !get_set, set_set, same_off_l. eexists. split; [reflexivity|]. cbn [shape val].
    rewrite ?get_set, ?set_set. split; [rewrite ?set_set; f_equal; fold h; lia|]. intros p. replace (1 + (h - 1)) with h by lia.
    destruct (Nat.ltb_spec (get a p) h) as [Hl|Hl].
    - destruct (Nat.ltb_spec (get a p) 1), (Nat.eqb_spec (get a p) 0); try lia; [apply Hz|reflexivity].
    - destruct (Nat.eqb_spec (get a p) 0); [lia|reflexivity]. }
  assert (Two : forall y, shape y = shape x -> exists r, cat a y x = Ok r /\ shape r = set a (2 * h) (shape x) /\
      forall p, val r p = if get a p <? h then val y p else val x (set a (get a p - h) p)).
  { intros y Hy. unfold cat. rewrite Hy, same_off_refl. eexists. split; [reflexivity|]. cbn [shape val]. rewrite ?Hy. fold h. split; [f_equal; lia|reflexivity]. }
  assert (T1 : shape (flip a (tail1 a x)) = set a (h - 1) (shape x)) by reflexivity.
  assert (V1 : forall p, 0 < get a p -> get a p < h -> val (flip a (tail1 a x)) (set a (get a p - 1) p) = val x (set a (h - get a p) p)).
  { intros p H1 H2. cbn. rewrite !get_set, !set_set. fold h. f_equal. f_equal. lia. }
  unfold unfold_comp, ushape, uval. fold h. destruct s; cbn [active].
  - exists x. now repeat split.
  - destruct (axis_eqb c a).
    + destruct (Two (flip a x) eq_refl) as (r & E & S & V). exists r. split; [exact E|]. split; [exact S|]. intros p. rewrite V. destruct (_ <? _); reflexivity.
    + destruct (Three (neg (flip a (tail1 a x))) T1) as (r & E & S & V). exists r. split; [exact E|]. split; [exact S|]. intros p. rewrite V.
      destruct (Nat.eqb_spec (get a p) 0); [reflexivity|]. destruct (Nat.ltb_spec (get a p) h); [|reflexivity].
      change (val (neg (flip a (tail1 a x))) (set a (get a p - 1) p)) with (kopp (val (flip a (tail1 a x)) (set a (get a p - 1) p))). rewrite V1 by lia. reflexivity.
  - destruct (axis_eqb c a).
    + destruct (Two (neg (flip a x)) eq_refl) as (r & E & S & V). exists r. split; [exact E|]. split; [exact S|]. intros p. rewrite V. destruct (_ <? _); reflexivity.
    + destruct (Three (flip a (tail1 a x)) T1) as (r & E & S & V). exists r. split; [exact E|]. split; [exact S|]. intros p. rewrite V.
      destruct (Nat.eqb_spec (get a p) 0); [reflexivity|]. destruct (Nat.ltb_spec (get a p) h); [|reflexivity]. rewrite V1 by lia. reflexivity.
Qed.
Lemma unfold_axis_spec a s (E : field) m : has_shape m E -> 0 < get a m ->
  exists E', unfold_axis a s E = Ok E' /\ has_shape (ushape a s m) E' /\
    forall c p, val (comp c E') p = if active s then uval a s c (comp c E) p else val (comp c E) p.
Proof.
  intros Hs Hm. unfold unfold_axis, dummy. rewrite (Hs AY). destruct (Nat.eqb_spec (get a m) 0); [lia|]. cbn [bind].
  set (d := Arr K (set a 1 m) (fun _ => k0)).
  assert (U : forall c, exists r, unfold_comp a s d c (comp c E) = Ok r /\ shape r = ushape a s m /\ forall p, val r p = if active s then uval a s c (comp c E) p else val (comp c E) p).
  { intros c. destruct (@unfold_comp_spec a s c (comp c E) d) as (r & A & B & C); rewrite ?(Hs c); auto. exists r. rewrite (Hs c) in B. now repeat split. }
  destruct (U AX) as (x & Ex & Sx & Vx), (U AY) as (y & Ey & Sy & Vy), (U AZ) as (z & Ez & Sz & Vz).
  cbn [comp] in *. rewrite Ex, Ey. cbn [bind]. rewrite Ez. exists (x, y, z). split; [reflexivity|]. split; intros []; cbn [comp fst snd]; assumption.
Qed.

(** ** fields that are symmetric *)
Lemma inside_set n a i p : inside n p -> i < get a n -> inside n (set a i p).
Proof. intros H Hi b. destruct (axis_eqb_spec a b) as [->|Hb]; [now rewrite get_set|rewrite get_set_other by exact Hb; apply H]. Qed.
Definition shift (o p : idx) : idx := build (fun a => get a p + get a o).
Lemma shift_set a i o p : shift o (set a i p) = set a (i + get a o) (shift o p).
Proof.
  apply idx_eq. intros b. unfold shift. rewrite get_build. destruct (axis_eqb_spec a b) as [->|Hb]; [now rewrite !get_set|]. now rewrite !get_set_other, get_build by exact Hb.
Qed.
Lemma sign_sign s b v : sign K s b (sign K s b v) = v.
Proof. destruct s, b; cbn; try reflexivity; ring. Qed.
Lemma sign_0 s b : sign K s b k0 = k0.
Proof. destruct s, b; cbn; try reflexivity; ring. Qed.

Lemma unfold_axis_part a s (E F : field) n o : has_shape n F -> inside n o -> (forall b, 0 < get b n) ->
  get a o = (if active s then get a n / 2 else 0) -> (active s = true -> Nat.even (get a n) = true) ->
  (forall c, mirrored true a s c (comp c F)) ->
  (forall c, arr_eq (comp c E) (from o (comp c F))) ->
  exists E', unfold_axis a s E = Ok E' /\ forall c, arr_eq (comp c E') (from (set a 0 o) (comp c F)).
Proof.
  intros HF Ho Hp Ha Hev Hm HE. set (m := build (fun b => get b n - get b o)).
  assert (Sm : has_shape m E). { intros c. destruct (HE c) as [S _]. rewrite S. unfold from, m. cbn [shape]. now rewrite (HF c). }
  assert (Pm : 0 < get a m). { unfold m. rewrite get_build. specialize (Ho a). lia. }
  destruct (@unfold_axis_spec a s E m Sm Pm) as (E' & Eq & S' & V). exists E'. split; [exact Eq|]. intros c. destruct (HE c) as [_ HV].
  assert (Sh : shape (from (set a 0 o) (comp c F)) = ushape a s m).
  { unfold from. cbn [shape]. rewrite (HF c). unfold ushape. apply idx_eq. intros b. rewrite get_build. unfold m. destruct (active s) eqn:As.
    - destruct (axis_eqb_spec a b) as [->|Hb]; [rewrite !get_set, get_build, Ha|rewrite !get_set_other, get_build by exact Hb; reflexivity].
      assert (Hk0 := Hev eq_refl). apply Nat.even_spec in Hk0 as [k Hk]. rewrite Hk. replace (2 * k / 2) with k by (rewrite Nat.mul_comm, Nat.div_mul; lia). lia.
    - rewrite get_build. destruct (axis_eqb_spec a b) as [->|Hb]; [rewrite get_set, Ha; reflexivity|rewrite get_set_other by exact Hb; reflexivity]. }
  split; [rewrite (S' c); symmetry; exact Sh|]. intros p Hin. rewrite (S' c) in Hin. rewrite V.
  assert (From : forall o p, val (from o (comp c F)) p = val (comp c F) (shift o p)) by reflexivity. rewrite From.
  assert (HV' : forall p, inside m p -> val (comp c E) p = val (comp c F) (shift o p)). { intros q Hq. rewrite <- From. apply HV. rewrite (Sm c). exact Hq. }
  destruct (active s) eqn:As.
  - unfold ushape in Hin. rewrite As in Hin. specialize (Hev eq_refl). apply Nat.even_spec in Hev as [k Hk].
    assert (Hk2 : get a n / 2 = k) by (rewrite Hk, Nat.mul_comm, Nat.div_mul; lia). rewrite Hk2 in Ha.
    assert (Gm : get a m = k) by (unfold m; rewrite get_build; lia). rewrite Gm in Hin.
    assert (I2 : get a p < 2 * k) by (specialize (Hin a); rewrite get_set in Hin; exact Hin).
    assert (Im : forall i, i < k -> inside m (set a i p)).
    { intros i Hi b. specialize (Hin b). destruct (axis_eqb_spec a b) as [->|Hb]; [rewrite get_set; lia|rewrite get_set_other in * by exact Hb; exact Hin]. }
    set (q := shift (set a 0 o) p).
    assert (Gq : get a q = get a p) by (unfold q, shift; rewrite get_build, get_set; lia).
    assert (Sq : forall i, shift o (set a i p) = set a (i + k) q).
    { intros i. rewrite shift_set, Ha. apply idx_eq. intros b. destruct (axis_eqb_spec a b) as [->|Hb]; [now rewrite !get_set|]. rewrite !get_set_other by exact Hb. unfold q, shift. rewrite !get_build, get_set_other by exact Hb. reflexivity. }
    assert (Iq : inside n q).
    { intros b. destruct (axis_eqb_spec a b) as [->|Hb]; [rewrite Gq; lia|]. unfold q, shift. rewrite get_build, get_set_other by exact Hb. specialize (Hin b). rewrite get_set_other in Hin by exact Hb. unfold m in Hin. rewrite get_build in Hin. lia. }
    assert (M := Hm c As). cbv zeta in M. rewrite (HF c), Hk in M. unfold uval. rewrite (Sm c), Gm.
    assert (Up : k <= get a p -> val (comp c E) (set a (get a p - k) p) = val (comp c F) q).
    { intros H. rewrite HV' by (apply Im; lia). rewrite Sq. f_equal. replace (get a p - k + k) with (get a q) by lia. apply set_get. }
    destruct (axis_eqb c a).
    + destruct (Nat.ltb_spec (get a p) k) as [H|H]; [|now apply Up]. rewrite HV', Sq by (apply Im; lia).
      specialize (M q Iq). rewrite Gq in M. replace (k - 1 - get a p + k) with (2 * k - 1 - get a p) by lia. rewrite M. apply sign_sign.
    + specialize (M q Iq) as [M0 M1]. rewrite Gq in *. destruct (Nat.eqb_spec (get a p) 0) as [Z|Z]; [symmetry; now apply M0|].
      destruct (Nat.ltb_spec (get a p) k) as [H|H]; [|now apply Up]. rewrite HV', Sq by (apply Im; lia).
      replace (k - get a p + k) with (2 * k - get a p) by lia. rewrite M1; [apply sign_sign|lia|now left].
  - unfold ushape in Hin. rewrite As in Hin. rewrite HV' by exact Hin. f_equal. f_equal. rewrite <- (set_get a o) at 1. now rewrite Ha.
Qed.
Lemma unfold_symmetric (s : axis -> sym) (E F : field) n : has_shape n F -> (forall b, 0 < get b n) ->
  (forall a, active (s a) = true -> Nat.even (get a n) = true) -> symmetric true s F ->
  field_eq E (part (start n s) F) -> exists E', apply_symmetry s E = Ok E' /\ field_eq E' F.
Proof.
  intros HF Hp Hev Hm HE. set (o := start n s) in *.
  assert (Io : inside n o). { intros b. unfold o, start. rewrite get_build. specialize (Hp b). destruct (active (s b)); [apply Nat.div_lt; lia|lia]. }
  assert (Go : forall b, get b o = if active (s b) then get b n / 2 else 0) by (intros b; unfold o, start; apply get_build).
  assert (H0 : forall c, arr_eq (comp c E) (from o (comp c F))). { intros c. specialize (HE c). unfold part in HE. rewrite comp_fmap in HE. exact HE. }
  destruct (@unfold_axis_part AX (s AX) E F n o HF Io Hp (Go AX) (Hev AX) (Hm AX) H0) as (E1 & Q1 & H1).
  assert (I1 : inside n (set AX 0 o)) by (apply inside_set; [exact Io|apply Hp]).
  destruct (@unfold_axis_part AY (s AY) E1 F n _ HF I1 Hp (Go AY) (Hev AY) (Hm AY) H1) as (E2 & Q2 & H2).
  assert (I2 : inside n (set AY 0 (set AX 0 o))) by (apply inside_set; [exact I1|apply Hp]).
  destruct (@unfold_axis_part AZ (s AZ) E2 F n _ HF I2 Hp (Go AZ) (Hev AZ) (Hm AZ) H2) as (E3 & Q3 & H3).
  exists E3. split; [unfold apply_symmetry; rewrite Q1; cbn [bind]; rewrite Q2; exact Q3|].
  intros c. destruct (H3 c) as [S V]. change (set AZ 0 (set AY 0 (set AX 0 o))) with (0, 0, 0) in *.
  assert (Sc : shape (from (0, 0, 0) (comp c F)) = shape (comp c F)). { unfold from. cbn [shape]. apply idx_eq. intros b. rewrite get_build. destruct b; cbn; lia. }
  split; [congruence|]. intros p Hin. rewrite (V p Hin). unfold from. cbn [val]. f_equal. apply idx_eq. intros b. rewrite get_build. destruct b; cbn; lia.
Qed.

(** ** any field *)
Lemma mirrored_new a s (E E' : field) m c : has_shape m E -> has_shape (ushape a s m) E' -> 0 < get a m ->
  (forall c p, val (comp c E') p = if active s then uval a s c (comp c E) p else val (comp c E) p) -> mirrored false a s c (comp c E').
Proof.
  intros HE HE' Hp V As. cbv zeta. rewrite (HE' c). unfold ushape. rewrite As, get_set. set (h := get a m) in *.
  destruct (axis_eqb c a) eqn:Ec; intros p Hin; assert (Hi := Hin a); rewrite get_set in Hi.
  - rewrite !V, As. unfold uval. rewrite Ec, (HE c), get_set. fold h.
    destruct (Nat.ltb_spec (get a p) h); destruct (Nat.ltb_spec (2 * h - 1 - get a p) h); try lia.
    + rewrite sign_sign, set_set. f_equal. f_equal. lia.
    + rewrite set_set. f_equal. f_equal. f_equal. lia.
  - rewrite !V, As. unfold uval. rewrite Ec, (HE c), get_set. fold h. split.
    + intros ->. reflexivity.
    + intros H0 [?|Hn]; [discriminate|]. destruct (Nat.eqb_spec (get a p) 0); [lia|]. destruct (Nat.eqb_spec (2 * h - get a p) 0); [lia|].
      destruct (Nat.ltb_spec (get a p) h); destruct (Nat.ltb_spec (2 * h - get a p) h); try lia.
      * rewrite sign_sign, set_set. f_equal. f_equal. lia.
      * rewrite set_set. f_equal. f_equal. f_equal. lia.
Qed.
Lemma mirrored_keep b sb a s (E E' : field) m c : a <> b -> has_shape m E -> has_shape (ushape a s m) E' -> 0 < get a m ->
  (forall c p, val (comp c E') p = if active s then uval a s c (comp c E) p else val (comp c E) p) ->
  mirrored false b sb c (comp c E) -> mirrored false b sb c (comp c E').
Proof.
  intros Hab HE HE' Hp V M Ab. specialize (M Ab). cbv zeta in *. rewrite (HE' c). rewrite (HE c) in M.
  assert (Gb : get b (ushape a s m) = get b m) by (unfold ushape; destruct (active s); [apply get_set_other, Hab|reflexivity]). rewrite Gb.
  destruct (active s) eqn:As.
  2:{ assert (U : ushape a s m = m) by (unfold ushape; now rewrite As). rewrite U in *. destruct (axis_eqb c b); intros p Hin; rewrite !V; exact (M p Hin). }
  assert (U : ushape a s m = set a (2 * get a m) m) by (unfold ushape; now rewrite As). rewrite U in *.
  assert (In : forall p i, inside (set a (2 * get a m) m) p -> i < get a m -> inside m (set a i p)).
  { intros p i H Hi d. specialize (H d). destruct (axis_eqb_spec a d) as [->|Hd]; [now rewrite get_set|rewrite get_set_other in * by exact Hd; exact H]. }
  assert (Gs : forall i p, get b (set a i p) = get b p) by (intros; apply get_set_other, Hab).
  assert (Ga : forall i p, get a (set b i p) = get a p) by (intros; apply get_set_other; congruence).
  destruct (axis_eqb c b) eqn:Ec.
  - intros p Hin. assert (Hi := Hin a). rewrite get_set in Hi. rewrite !V. unfold uval. rewrite (HE c), Ga.
    assert (Q : forall i, i < get a m -> val (comp c E) (set a i (set b (get b m - 1 - get b p) p)) = sign K sb true (val (comp c E) (set a i p))).
    { intros i Hlt. rewrite set_swap by exact Hab. specialize (M (set a i p) (In p i Hin Hlt)). rewrite Gs in M. exact M. }
    assert (W : forall t v, sign K s t (sign K sb true v) = sign K sb true (sign K s t v)) by (intros; destruct s, sb, t; cbn; try reflexivity; ring).
    destruct (axis_eqb c a); [|destruct (Nat.eqb_spec (get a p) 0); [symmetry; apply sign_0|]]; destruct (Nat.ltb_spec (get a p) (get a m)); rewrite Q by lia; auto.
  - intros p Hin. assert (Hi := Hin a). rewrite get_set in Hi. split.
    + intros H0. rewrite V. unfold uval. rewrite (HE c).
      assert (Q : forall i, i < get a m -> val (comp c E) (set a i p) = k0). { intros i Hlt. destruct (M (set a i p) (In p i Hin Hlt)) as [M0 _]. rewrite Gs in M0. apply M0, H0. }
      destruct (axis_eqb c a); [|destruct (Nat.eqb_spec (get a p) 0); [reflexivity|]]; destruct (Nat.ltb_spec (get a p) (get a m)); rewrite Q by lia; auto using sign_0.
    + intros H0 Hn. rewrite !V. unfold uval. rewrite (HE c), Ga.
      assert (Q : forall i, i < get a m -> val (comp c E) (set a i (set b (get b m - get b p) p)) = sign K sb false (val (comp c E) (set a i p))).
      { intros i Hlt. rewrite set_swap by exact Hab. destruct (M (set a i p) (In p i Hin Hlt)) as [_ M1]. rewrite Gs in M1. now apply M1. }
      assert (W : forall t v, sign K s t (sign K sb false v) = sign K sb false (sign K s t v)) by (intros; destruct s, sb, t; cbn; try reflexivity; ring).
      destruct (axis_eqb c a); [|destruct (Nat.eqb_spec (get a p) 0); [symmetry; apply sign_0|]]; destruct (Nat.ltb_spec (get a p) (get a m)); rewrite Q by lia; auto.
Qed.
Lemma part_keep a s (E E' : field) m c p : has_shape m E -> inside m p -> 
  (forall c p, val (comp c E') p = if active s then uval a s c (comp c E) p else val (comp c E) p) ->
  val (comp c E') (if active s then set a (get a p + get a m) p else p) = val (comp c E) p.
Proof.
  intros HE Hin V. rewrite V. destruct (active s) eqn:As; [|reflexivity]. unfold uval. rewrite (HE c), !get_set, !set_set. assert (Hi := Hin a).
  destruct (Nat.ltb_spec (get a p + get a m) (get a m)); [lia|]. destruct (Nat.eqb_spec (get a p + get a m) 0); [lia|].
  replace (get a p + get a m - get a m) with (get a p) by lia. rewrite set_get. now destruct (axis_eqb c a).
Qed.
Lemma ushape_pos a s m : (forall b, 0 < get b m) -> forall b, 0 < get b (ushape a s m).
Proof.
  intros H b. unfold ushape. destruct (active s); [|apply H]. destruct (axis_eqb_spec a b) as [->|Hb]; [rewrite get_set; specialize (H b); lia|rewrite get_set_other by exact Hb; apply H].
Qed.
Lemma inside_step a s m p : inside m p -> inside (ushape a s m) (if active s then set a (get a p + get a m) p else p).
Proof.
  intros H b. unfold ushape. destruct (active s); [|apply H]. destruct (axis_eqb_spec a b) as [->|Hb]; [rewrite !get_set; specialize (H b); lia|rewrite !get_set_other by exact Hb; apply H].
Qed.
Lemma unfold_any (s : axis -> sym) (E : field) m : has_shape m E -> (forall b, 0 < get b m) ->
  exists R, apply_symmetry s E = Ok R /\ has_shape (build (fun a => if active (s a) then 2 * get a m else get a m)) R /\
    symmetric false s R /\ field_eq (part (build (fun a => if active (s a) then get a m else 0)) R) E.
Proof.
  intros HE Hp.
  destruct (@unfold_axis_spec AX (s AX) E m HE (Hp AX)) as (E1 & Q1 & S1 & V1). set (m1 := ushape AX (s AX) m) in *.
  assert (P1 : forall b, 0 < get b m1) by (apply ushape_pos, Hp).
  destruct (@unfold_axis_spec AY (s AY) E1 m1 S1 (P1 AY)) as (E2 & Q2 & S2 & V2). set (m2 := ushape AY (s AY) m1) in *.
  assert (P2 : forall b, 0 < get b m2) by (apply ushape_pos, P1).
  destruct (@unfold_axis_spec AZ (s AZ) E2 m2 S2 (P2 AZ)) as (R & Q3 & S3 & V3).
  assert (G1 : get AY m1 = get AY m) by (unfold m1, ushape; now destruct (active _)).
  assert (G2 : get AZ m2 = get AZ m) by (unfold m2, m1, ushape; destruct (active (s AX)), (active (s AY)); reflexivity).
  assert (Gr : ushape AZ (s AZ) m2 = build (fun a => if active (s a) then 2 * get a m else get a m)).
  { unfold m2, m1, ushape, build. destruct m as [[x y] z]. destruct (active (s AX)), (active (s AY)), (active (s AZ)); reflexivity. }
  exists R. split; [unfold apply_symmetry; rewrite Q1; cbn [bind]; rewrite Q2; exact Q3|]. split; [now rewrite <- Gr|]. split.
  - intros [] c.
    + apply (@mirrored_keep AX (s AX) AZ (s AZ) E2 R m2 c ltac:(discriminate) S2 S3 (P2 AZ) V3). apply (@mirrored_keep AX (s AX) AY (s AY) E1 E2 m1 c ltac:(discriminate) S1 S2 (P1 AY) V2).
      exact (@mirrored_new AX (s AX) E E1 m c HE S1 (Hp AX) V1).
    + apply (@mirrored_keep AY (s AY) AZ (s AZ) E2 R m2 c ltac:(discriminate) S2 S3 (P2 AZ) V3). exact (@mirrored_new AY (s AY) E1 E2 m1 c S1 S2 (P1 AY) V2).
    + exact (@mirrored_new AZ (s AZ) E2 R m2 c S2 S3 (P2 AZ) V3).
  - intros c. unfold part. rewrite comp_fmap. split.
    + unfold from. cbn [shape]. rewrite (S3 c), Gr, (HE c). apply idx_eq. intros b. rewrite !get_build. destruct (active (s b)); lia.
    + intros p Hin. assert (Hin' : inside m p).
      { intros b. specialize (Hin b). unfold from in Hin. cbn [shape] in Hin. rewrite (S3 c), Gr, !get_build in Hin. destruct (active (s b)); lia. }
      unfold from. cbn [val].
      set (p1 := if active (s AX) then set AX (get AX p + get AX m) p else p).
      assert (I1 : inside m1 p1) by (apply inside_step, Hin').
      set (p2 := if active (s AY) then set AY (get AY p1 + get AY m1) p1 else p1).
      assert (I2 : inside m2 p2) by (apply inside_step, I1).
      rewrite <- (@part_keep AX (s AX) E E1 m c p HE Hin' V1). fold p1. rewrite <- (@part_keep AY (s AY) E1 E2 m1 c p1 S1 I1 V2). fold p2. rewrite <- (@part_keep AZ (s AZ) E2 R m2 c p2 S2 I2 V3).
      f_equal. rewrite G2. unfold p2. rewrite G1. unfold p1. destruct p as [[x y] z]. unfold build. destruct (active (s AX)), (active (s AY)), (active (s AZ)); cbn; f_equal; try f_equal; lia.
Qed.
End Proofs.
