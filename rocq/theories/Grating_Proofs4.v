(** Drawing gratings on a grid. *)
From Verif Require Import Base QTac Raster_Spec Raster_Proofs Grid_Model Grid_Proofs Grating_Model Grating_Spec.
From Coq Require Import ZArith Qround Setoid.
Set Implicit Arguments.

Notation cov := cell_overlap.
Lemma qn_map_seq f n i : (i < n)%nat -> qn (map f (seq 0 n)) i = f i.
Proof. apply map_seq_nth. Qed.
Lemma floor_nat q : 0 <= q -> inject_Z (Z.of_nat (ifloor q)) <= q /\ q < inject_Z (Z.of_nat (ifloor q)) + 1.
Proof.
  intros H. unfold ifloor. assert (0 <= Qfloor q)%Z by (change 0%Z with (Qfloor 0); now apply Qfloor_resp_le). rewrite Z2Nat.id by assumption. apply Qfloor_bounds.
Qed.
Lemma floor_id q : 0 <= q -> inject_Z (Z.of_nat (ifloor q)) == inject_Z (Qfloor q).
Proof. intros H. unfold ifloor. assert (0 <= Qfloor q)%Z by (change 0%Z with (Qfloor 0); now apply Qfloor_resp_le). now rewrite Z2Nat.id by assumption. Qed.
Lemma nat_le a b : (a <= b)%nat -> inject_Z (Z.of_nat a) <= inject_Z (Z.of_nat b).
Proof. intros H. rewrite <- Zle_Qle. lia. Qed.
Lemma nat_lt a b : (a < b)%nat -> inject_Z (Z.of_nat a) + 1 <= inject_Z (Z.of_nat b).
Proof. intros H. change 1 with (inject_Z 1). rewrite <- inject_Z_plus, <- Zle_Qle. lia. Qed.
Lemma nat_lt_inv a b : inject_Z (Z.of_nat a) < inject_Z (Z.of_nat b) -> (a < b)%nat.
Proof. intros H. rewrite <- Zlt_Qlt in H. lia. Qed.
Lemma floor_lt q n : 0 <= q -> q < inject_Z (Z.of_nat n) -> (ifloor q < n)%nat.
Proof. intros H H1. destruct (floor_nat H) as [H2 _]. apply nat_lt_inv. lra. Qed.
Lemma floor_le a b : a <= b -> (ifloor a <= ifloor b)%nat.
Proof. intros H. unfold ifloor. pose proof (Qfloor_resp_le _ _ H). lia. Qed.

(** overlap of [a,b] with a cell *)
Lemma cov_before a b x : b <= inject_Z (Z.of_nat x) -> a <= b -> cov a b x == 0.
Proof. intros. unfold cell_overlap, overlap. qlra. Qed.
Lemma cov_after a b x : inject_Z (Z.of_nat x) + 1 <= a -> a <= b -> cov a b x == 0.
Proof. intros. unfold cell_overlap, overlap. qlra. Qed.
Lemma cov_full a b x : a <= inject_Z (Z.of_nat x) -> inject_Z (Z.of_nat x) + 1 <= b -> cov a b x == 1.
Proof. intros. unfold cell_overlap, overlap. qlra. Qed.
Lemma cov_add a b c x : a <= b -> b <= c -> cov a b x + cov b c x == cov a c x.
Proof. intros. unfold cell_overlap. apply overlap_add; lra. Qed.
Lemma cov_same a x : cov a a x == 0.
Proof. unfold cell_overlap, overlap. qlra. Qed.
Lemma cov_ext a a' b b' x : a == a' -> b == b' -> cov a b x == cov a' b' x.
Proof. intros. unfold cell_overlap, overlap. qlra. Qed.
Lemma cov_bounds a b x : 0 <= cov a b x <= 1.
Proof. unfold cell_overlap, overlap. qlra. Qed.

(** *** one hole *)
Lemma dig_spec v a b : 0 <= a -> a <= b -> b < inject_Z (Z.of_nat (length v)) -> (forall x, (ifloor a < x < length v)%nat -> qn v x == 1) ->
  exists v', dig v a b = Ok v' /\ length v' = length v /\ forall x, (x < length v)%nat -> qn v' x == qn v x - cov a b x.
Proof.
  intros Ha Hab Hb Hv. unfold dig. assert (Hb0 : 0 <= b) by lra. destruct (floor_nat Ha) as [A1 A2]. destruct (floor_nat Hb0) as [B1 B2].
  assert (Fa : frac a == a - inject_Z (Z.of_nat (ifloor a))) by (unfold frac; rewrite (floor_id Ha); reflexivity).
  assert (Fb : frac b == b - inject_Z (Z.of_nat (ifloor b))) by (unfold frac; rewrite (floor_id Hb0); reflexivity).
  pose proof (floor_le Hab) as Hse. pose proof (@floor_lt b (length v) Hb0 Hb) as He. set (s := ifloor a) in *. set (e := ifloor b) in *.
  set (v1 := zero_range (S s) e v). assert (L1 : length v1 = length v) by (unfold v1, zero_range; now rewrite map_length, seq_length).
  assert (N1 : forall x, (x < length v)%nat -> qn v1 x = if Nat.leb (S s) x && Nat.ltb x e then 0 else qn v x) by (intros x Hx; unfold v1, zero_range; now rewrite qn_map_seq).
  destruct (Nat.eqb_spec s e) as [E|E].
  - destruct (Nat.ltb_spec s (length v1)) as [L|L]; [|lia]. eexists. split; [reflexivity|]. split; [now rewrite lset_length|]. intros x Hx. unfold qn at 1. rewrite lset_nth by exact L. fold (qn v1 x).
    destruct (Nat.eqb_spec x s) as [->|Hxs].
    + rewrite N1 by exact Hx. destruct (Nat.leb_spec (S s) s); [lia|]. cbn [andb]. rewrite <- E in *. unfold cell_overlap, overlap. qlra.
    + rewrite N1 by exact Hx. replace (Nat.leb (S s) x && Nat.ltb x e) with false.
      * destruct (lt_dec x s) as [H|H]; [pose proof (nat_lt H); rewrite cov_after by lra; ring|]. assert (Hl : (s < x)%nat) by lia. pose proof (nat_lt Hl). rewrite <- E in *. rewrite cov_before by lra. ring.
      * symmetry. apply andb_false_iff. destruct (Nat.leb_spec (S s) x); [right; apply Nat.ltb_ge; lia|now left].
  - assert (Hlt : (s < e)%nat) by lia. unfold lset_or. destruct (Nat.ltb_spec s (length v1)) as [L|L]; [|lia]. cbn [bind]. rewrite lset_length.
    destruct (Nat.ltb_spec e (length v1)) as [L'|L']; [|lia]. eexists. split; [reflexivity|]. split; [now rewrite !lset_length|]. intros x Hx.
    unfold qn at 1. rewrite lset_nth by (rewrite lset_length; exact L'). unfold qn at 1. rewrite !lset_nth by exact L. fold (qn v1 x) (qn v1 e) (qn v1 s).
    pose proof (nat_lt Hlt) as Q1.
    destruct (Nat.eqb_spec x e) as [->|Hxe].
    + destruct (Nat.eqb_spec e s); [lia|]. rewrite N1 by lia. destruct (Nat.ltb_spec e e); [lia|]. rewrite andb_false_r. rewrite Fb. unfold cell_overlap, overlap. qlra.
    + destruct (Nat.eqb_spec x s) as [->|Hxs].
      * rewrite N1 by lia. destruct (Nat.leb_spec (S s) s); [lia|]. cbn [andb]. rewrite Fa. unfold cell_overlap, overlap. qlra.
      * rewrite N1 by lia. destruct (Nat.leb_spec (S s) x) as [H1|H1]; cbn [andb].
        -- destruct (Nat.ltb_spec x e) as [H2|H2].
           ++ assert (G1 : (s < x)%nat) by lia. pose proof (nat_lt G1). pose proof (nat_lt H2). rewrite Hv by lia. rewrite cov_full by lra. ring.
           ++ assert (G1 : (e < x)%nat) by lia. pose proof (nat_lt G1). rewrite cov_before by lra. ring.
        -- assert (G1 : (x < s)%nat) by lia. pose proof (nat_lt G1). rewrite cov_after by lra. ring.
Qed.

(** *** a level: the holes are the segments whose level is at most [k] *)
Fixpoint holes (k : nat) (pos : Q) (cur : nat) (es : list (Q * nat)) (x : nat) : Q :=
  match es with
  | [] => 0
  | (e, l) :: es' => (if Nat.leb cur k then cov pos e x else 0) + holes k e l es' x
  end.
Definition last_level (cur : nat) (es : list (Q * nat)) : nat := snd (List.last es (0, cur)).
Lemma last_level_cons cur e l es : last_level cur ((e, l) :: es) = last_level l es.
Proof. unfold last_level. destruct es as [|p es]; [reflexivity|]. revert p e. induction es as [|q es IH]; intros p e; [reflexivity|]. apply (IH q (fst p)). Qed.
Lemma crossing l cur k : Nat.leb (Nat.min l cur) k && Nat.ltb k (Nat.max l cur) = xorb (Nat.leb l k) (Nat.leb cur k).
Proof. destruct (Nat.leb_spec l k), (Nat.leb_spec cur k), (Nat.leb_spec (Nat.min l cur) k), (Nat.ltb_spec k (Nat.max l cur)); cbn; try reflexivity; lia. Qed.
Lemma raster_level k nx : forall es pos cur v, 0 <= pos -> sorted_from pos (map fst es) -> Forall (fun e => fst e < inject_Z (Z.of_nat nx)) es -> pos < inject_Z (Z.of_nat nx) ->
  (k < last_level cur es)%nat -> length v = nx ->
  ((k < cur)%nat -> (forall x, (ifloor pos < x < nx)%nat -> qn v x == 1) ->
    exists v', raster_holes (level_edges k cur es) v = Ok v' /\ length v' = nx /\ forall x, (x < nx)%nat -> qn v' x == qn v x - holes k pos cur es x) /\
  ((cur <= k)%nat -> forall a, 0 <= a -> a <= pos -> (forall x, (ifloor a < x < nx)%nat -> qn v x == 1) ->
    exists v', raster_holes (a :: level_edges k cur es) v = Ok v' /\ length v' = nx /\ forall x, (x < nx)%nat -> qn v' x == qn v x - cov a pos x - holes k pos cur es x).
Proof.
  induction es as [|[e l] es IH]; intros pos cur v Hpos Hs Hb Hpn Hl Lv.
  - unfold last_level in Hl. cbn [List.last snd] in Hl. split; [|intros; lia]. intros _ _. exists v. split; [reflexivity|]. split; [exact Lv|]. intros x Hx. cbn [holes]. ring.
  - cbn [map fst] in Hs. destruct Hs as [He Hs]. inversion Hb as [|p ps Hbe Hb']. subst p ps. cbn [fst] in Hbe. rewrite last_level_cons in Hl.
    assert (He0 : 0 <= e) by lra. cbn [level_edges holes]. rewrite crossing. split.
    + intros Hc Hv. destruct (Nat.leb_spec cur k); [lia|]. rewrite xorb_false_r. assert (Hv' : forall x, (ifloor e < x < nx)%nat -> qn v x == 1) by (intros x Hx; apply Hv; pose proof (floor_le He); lia).
      destruct (IH e l v He0 Hs Hb' Hbe Hl Lv) as [I1 I2]. destruct (Nat.leb_spec l k) as [Hlk|Hlk]; cbn [app].
      * destruct (I2 Hlk e He0 (Qle_refl e) Hv') as (v' & E & L' & N'). exists v'. split; [exact E|]. split; [exact L'|]. intros x Hx. rewrite (N' x Hx). rewrite cov_same. ring.
      * destruct (I1 Hlk Hv') as (v' & E & L' & N'). exists v'. split; [exact E|]. split; [exact L'|]. intros x Hx. rewrite (N' x Hx). ring.
    + intros Hc a Ha Hap Hv. destruct (Nat.leb_spec cur k); [|lia]. rewrite xorb_true_r. destruct (Nat.leb_spec l k) as [Hlk|Hlk]; cbn [negb app].
      * destruct (IH e l v He0 Hs Hb' Hbe Hl Lv) as [_ I2]. destruct (I2 Hlk a Ha ltac:(lra) Hv) as (v' & E & L' & N'). exists v'. split; [exact E|]. split; [exact L'|].
        intros x Hx. rewrite (N' x Hx). rewrite <- (cov_add x Hap He). ring.
      * assert (Hae : a <= e) by lra. destruct (@dig_spec v a e Ha Hae) as (v1 & E1 & L1 & N1); [rewrite Lv; exact Hbe|rewrite Lv; exact Hv|].
        assert (Hv1 : forall x, (ifloor e < x < nx)%nat -> qn v1 x == 1).
        { intros x Hx. rewrite (N1 x) by lia. pose proof (floor_le Hae). rewrite (Hv x) by lia. destruct (floor_nat He0) as [F1 F2]. assert (G : (ifloor e < x)%nat) by lia. pose proof (nat_lt G). rewrite cov_before by lra. ring. }
        destruct (IH e l v1 He0 Hs Hb' Hbe Hl ltac:(lia)) as [I1 _]. destruct (I1 Hlk Hv1) as (v' & E & L' & N'). exists v'.
        cbn [raster_holes]. rewrite E1. cbn [bind]. split; [exact E|]. split; [exact L'|]. intros x Hx. rewrite (N' x Hx), (N1 x) by lia. rewrite <- (cov_add x Hap He). ring.
Qed.
Lemma raster_1d_spec k nx nlev es : (1 <= nx)%nat -> (k < nlev)%nat -> sorted_from 0 (map fst es) -> Forall (fun e => fst e < inject_Z (Z.of_nat nx)) es -> (k < last_level nlev es)%nat ->
  exists v, raster_1d nx (level_edges k nlev es) = Ok v /\ length v = nx /\ forall x, (x < nx)%nat -> qn v x == 1 - holes k 0 nlev es x.
Proof.
  intros Hn Hk Hs Hb Hl. assert (P0 : 0 < inject_Z (Z.of_nat nx)) by (change 0 with (inject_Z 0); rewrite <- Zlt_Qlt; lia).
  assert (R : forall x, (x < nx)%nat -> qn (repeat 1 nx) x = 1).
  { intros x Hx. unfold qn. clear -Hx. revert x Hx. induction nx as [|n IH]; intros [|x] Hx; cbn; try lia; [reflexivity|]. apply IH. lia. }
  destruct (@raster_level k nx es 0 nlev (repeat 1 nx) ltac:(lra) Hs Hb P0 Hl (repeat_length _ _)) as [I1 _].
  destruct (I1 Hk) as (v & E & L & N); [intros x Hx; rewrite R by lia; reflexivity|]. exists v. split; [exact E|]. split; [exact L|]. intros x Hx. rewrite (N x Hx), (R x Hx). reflexivity.
Qed.

(** *** one column *)
Notation qz n := (inject_Z (Z.of_nat n)).
Lemma floor_uniq q z : inject_Z z <= q -> q < inject_Z z + 1 -> Qfloor q = z.
Proof.
  intros H1 H2. pose proof (Qfloor_bounds q) as [F1 F2]. assert (A : inject_Z z < inject_Z (Qfloor q + 1)) by (rewrite inject_Z_plus; change (inject_Z 1) with 1; lra).
  assert (B : inject_Z (Qfloor q) < inject_Z (z + 1)) by (rewrite inject_Z_plus; change (inject_Z 1) with 1; lra). rewrite <- Zlt_Qlt in A, B. lia.
Qed.
Lemma trunc_sub t e p : 0 <= e -> qz p <= e -> t == e - qz p -> trunc t = (Z.of_nat (ifloor e) - Z.of_nat p)%Z.
Proof.
  intros H0 H Ht. unfold trunc. replace (Qle_bool 0 t) with true by (symmetry; apply Qle_bool_iff; lra). destruct (floor_nat H0) as [F1 F2].
  apply floor_uniq; unfold Z.sub; rewrite inject_Z_plus, inject_Z_opp; lra.
Qed.
Lemma floor_ge p e : qz p <= e -> (p <= ifloor e)%nat.
Proof. intros H. unfold ifloor. assert (Z.of_nat p <= Qfloor e)%Z; [|lia]. rewrite <- (Qfloor_Z (Z.of_nat p)). now apply Qfloor_resp_le. Qed.
Lemma abs_tiny p : 0 <= p -> qlt tiny (qabs p) = qlt tiny p.
Proof. intros H. unfold qabs. now replace (Qle_bool 0 p) with true by (symmetry; now apply Qle_bool_iff). Qed.
Definition whole (q : Q) : Prop := q == inject_Z (Qfloor q).
Definition clear_of (q : Q) : Prop := whole q \/ inject_Z (Qfloor q) + tiny < q.
Lemma tiny_test q p : 0 <= q -> clear_of q -> p == q - qz (ifloor q) -> (qlt tiny (qabs p) = false /\ whole q /\ p == 0) \/ (qlt tiny (qabs p) = true /\ qz (ifloor q) + tiny < q).
Proof.
  intros H0 Hc Hp. destruct (floor_nat H0) as [F1 F2]. pose proof (floor_id H0) as Fi. rewrite abs_tiny by lra. unfold clear_of, tiny in *. destruct Hc as [W|W].
  - left. assert (p == 0) by (unfold whole in W; lra). split; [apply qlt_false; lra|]. split; [exact W|assumption].
  - right. split; [apply qlt_true; lra|lra].
Qed.
Lemma add_at_spec v i a : (i < length v)%nat -> exists v', add_at v i a = Ok v' /\ length v' = length v /\ forall z, qn v' z == qn v z + (if Nat.eqb z i then a else 0).
Proof.
  intros H. unfold add_at, lset_or. destruct (Nat.ltb_spec i (length v)); [|lia]. eexists. split; [reflexivity|]. split; [apply lset_length|]. intros z. unfold qn at 1. rewrite lset_nth by exact H. fold (qn v z).
  destruct (Nat.eqb_spec z i) as [->|]; [reflexivity|ring].
Qed.
(** from a pixel boundary *)
Lemma phase2 (nz p : nat) (e r todo : Q) (v : list Q) : 0 <= e -> qz p <= e -> e <= qz nz -> clear_of e -> todo == e - qz p -> length v = nz -> (forall z, (p <= z < nz)%nat -> qn v z == 0) ->
  exists v' part,
    (bind (if Z.ltb 0 (trunc todo) then bind (set_slice v p (Z.to_nat (trunc todo)) r) (fun v => Ok (v, (p + Z.to_nat (trunc todo))%nat)) else Ok (v, p)) (fun s2 =>
     let '(v, zi) := s2 in
     bind (if qlt tiny (qabs (todo - inject_Z (trunc todo))) then add_at v zi (r * (todo - inject_Z (trunc todo))) else Ok v) (fun v => Ok (v, zi, todo - inject_Z (trunc todo))))) = Ok (v', ifloor e, part)
    /\ part == e - qz (ifloor e) /\ length v' = nz /\ forall z, (z < nz)%nat -> qn v' z == qn v z + r * cov (qz p) e z.
Proof.
  intros H0 Hp Hn Hc Ht Lv Hv. rewrite (trunc_sub p H0 Hp Ht). pose proof (floor_ge p Hp) as Hf. destruct (floor_nat H0) as [F1 F2].
  set (f := ifloor e) in *. replace (Z.of_nat f - Z.of_nat p)%Z with (Z.of_nat (f - p)) by lia. rewrite Nat2Z.id.
  assert (Hfn : (f <= nz)%nat) by (destruct (le_lt_dec f nz) as [G|G]; [exact G|]; pose proof (nat_lt G); lra).
  set (v1 := map (fun z => if Nat.leb p z && Nat.ltb z f then r else qn v z) (seq 0 nz)).
  assert (E1 : exists v1', (if Z.ltb 0 (Z.of_nat (f - p)) then bind (set_slice v p (f - p) r) (fun v => Ok (v, (p + (f - p))%nat)) else Ok (v, p)) = Ok (v1', f) /\ length v1' = nz /\
    forall z, (z < nz)%nat -> qn v1' z == if Nat.leb p z && Nat.ltb z f then r else qn v z).
  { destruct (Z.ltb_spec 0 (Z.of_nat (f - p))) as [G|G].
    - unfold set_slice. replace (p + (f - p))%nat with f by lia. rewrite Lv. destruct (Nat.leb_spec f nz); [|lia]. cbn [orb bind].
      eexists. split; [reflexivity|]. split; [now rewrite map_length, seq_length|]. intros z Hz. rewrite qn_map_seq by exact Hz. reflexivity.
    - assert (f = p) by lia. exists v. split; [congruence|]. split; [exact Lv|]. intros z Hz. destruct (Nat.leb_spec p z), (Nat.ltb_spec z f); cbn [andb]; try reflexivity. lia. }
  clear v1. destruct E1 as (v1 & E1 & L1 & N1). rewrite E1. cbn [bind].
  set (part := todo - inject_Z (Z.of_nat (f - p))). assert (Hpart : part == e - qz f).
  { unfold part. rewrite Nat2Z.inj_sub by exact Hf. unfold Z.sub. rewrite inject_Z_plus, inject_Z_opp. rewrite Ht. ring. }
  clearbody part.
  destruct (tiny_test H0 Hc Hpart) as [(-> & W & Z0)|(-> & W)]; cbn [bind].
  - exists v1, part. split; [reflexivity|]. split; [exact Hpart|]. split; [exact L1|]. intros z Hz. rewrite (N1 z Hz).
    destruct (Nat.leb_spec p z) as [G|G]; cbn [andb].
    + destruct (Nat.ltb_spec z f) as [G'|G'].
      * rewrite (Hv z) by lia. pose proof (nat_le G). pose proof (nat_lt G'). rewrite cov_full by lra. ring.
      * pose proof (nat_le G'). rewrite cov_before by lra. ring.
    + pose proof (nat_lt G). rewrite cov_after by lra. ring.
  - unfold tiny in W. change (ifloor e) with f in W. assert (G0 : (f < length v1)%nat) by (rewrite L1; apply nat_lt_inv; lra). destruct (@add_at_spec v1 f (r * part) G0) as (v2 & -> & L2 & N2). cbn [bind].
    exists v2, part. split; [reflexivity|]. split; [exact Hpart|]. split; [lia|]. intros z Hz. rewrite (N2 z), (N1 z Hz).
    destruct (Nat.eqb_spec z f) as [->|Hzf].
    + destruct (Nat.ltb_spec f f); [lia|]. rewrite andb_false_r. pose proof (nat_le Hf). rewrite Hpart. setoid_replace (cov (qz p) e f) with (e - qz f); [ring|]. unfold cell_overlap, overlap. qlra.
    + destruct (Nat.leb_spec p z) as [G|G]; cbn [andb].
      * destruct (Nat.ltb_spec z f) as [G'|G'].
        -- rewrite (Hv z) by lia. pose proof (nat_le G). pose proof (nat_lt G'). rewrite cov_full by lra. ring.
        -- assert (G2 : (f < z)%nat) by lia. pose proof (nat_lt G2). rewrite cov_before by lra. ring.
      * pose proof (nat_lt G). rewrite cov_after by lra. ring.
Qed.
Lemma layer_step_spec (nz : nat) (first : bool) (d e r t part : Q) (v : list Q) : 0 <= d -> d <= e -> e <= qz nz -> (whole d \/ inject_Z (Qfloor d) + 1 <= e) -> clear_of d -> clear_of e ->
  (first = true -> d == 0) -> t == e - d -> part == d - qz (ifloor d) -> length v = nz -> (forall z, (z < nz)%nat -> d <= qz z -> qn v z == 0) ->
  exists v' part', layer_step first (v, ifloor d, part) (r, t) = Ok (v', ifloor e, part') /\ part' == e - qz (ifloor e) /\ length v' = nz /\
    forall z, (z < nz)%nat -> qn v' z == qn v z + r * cov d e z.
Proof.
  intros H0 Hde Hn Hw Hcd Hce Hf Ht Hp Lv Hv. assert (He0 : 0 <= e) by lra. destruct (floor_nat H0) as [F1 F2]. pose proof (floor_id H0) as Fi.
  unfold layer_step. destruct (tiny_test H0 Hcd Hp) as [(T & W & Z0)|(T & W)]; rewrite T.
  - rewrite andb_false_r. cbn [bind]. assert (Dq : d == qz (ifloor d)) by (unfold whole in W; lra).
    destruct (@phase2 nz (ifloor d) e r t v He0 ltac:(lra) Hn Hce ltac:(lra) Lv) as (v' & part' & E & P & L & N).
    + intros z Hz. apply Hv; [lia|]. assert (G : (ifloor d <= z)%nat) by lia. pose proof (nat_le G). lra.
    + exists v', part'. split; [exact E|]. split; [exact P|]. split; [exact L|]. intros z Hz. rewrite (N z Hz). rewrite (@cov_ext (qz (ifloor d)) d e e z) by (try reflexivity; lra). reflexivity.
  - destruct Hw as [Hw|Hw]; [exfalso; unfold whole, tiny in *; lra|]. destruct first; [exfalso; specialize (Hf eq_refl); unfold tiny in W; pose proof (nat_le (Nat.le_0_l (ifloor d))) as Z0; change (qz 0) with 0 in Z0; lra|].
    cbn [negb andb]. rewrite <- Fi in Hw. assert (G0 : (ifloor d < length v)%nat) by (rewrite Lv; apply nat_lt_inv; lra).
    destruct (@add_at_spec v (ifloor d) (r * (1 - part)) G0) as (v1 & -> & L1 & N1). cbn [bind].
    assert (Qs : qz (S (ifloor d)) == qz (ifloor d) + 1) by (rewrite Nat2Z.inj_succ; unfold Z.succ; rewrite inject_Z_plus; reflexivity).
    assert (Cz : forall z, (if Nat.eqb z (ifloor d) then r * (1 - part) else 0) == r * cov d (qz (S (ifloor d))) z).
    { intros z. destruct (Nat.eqb_spec z (ifloor d)) as [->|Hz].
      - rewrite Hp. setoid_replace (cov d (qz (S (ifloor d))) (ifloor d)) with (qz (ifloor d) + 1 - d); [ring|]. unfold cell_overlap, overlap. qlra.
      - destruct (le_lt_dec z (ifloor d)) as [G|G].
        + assert (G' : (z < ifloor d)%nat) by lia. pose proof (nat_lt G'). rewrite cov_after by lra. ring.
        + pose proof (nat_lt G). rewrite cov_before by lra. ring. }
    destruct (@phase2 nz (S (ifloor d)) e r (t - (1 - part)) v1 He0 ltac:(lra) Hn Hce ltac:(lra) ltac:(lia)) as (v' & part' & E & P & L & N).
    + intros z Hz. rewrite (N1 z). destruct (Nat.eqb_spec z (ifloor d)); [lia|]. rewrite Hv; [ring|lia|]. assert (G : (ifloor d < z)%nat) by lia. pose proof (nat_lt G). lra.
    + exists v', part'. split; [exact E|]. split; [exact P|]. split; [exact L|]. intros z Hz. rewrite (N z Hz), (N1 z), (Cz z).
      rewrite <- (@cov_add d (qz (S (ifloor d))) e z) by lra. ring.
Qed.
Lemma last_shift (e : Q) ds d : List.last (e :: ds) d = List.last ds e.
Proof. revert e d. induction ds as [|a ds IH]; intros e d; [reflexivity|]. transitivity (List.last (a :: ds) d); [reflexivity|]. rewrite (IH a d). symmetry. apply (IH a e). Qed.
Lemma coarse_last : forall ds e, coarse e ds -> e <= List.last ds e.
Proof. induction ds as [|a ds IH]; intros e H; [apply Qle_refl|]. destruct H as (H & _ & _ & H'). specialize (IH a H'). rewrite last_shift. lra. Qed.
Fixpoint stack (d : Q) (rs ds : list Q) (z : nat) : Q :=
  match rs, ds with r :: rs', e :: ds' => r * cov d e z + stack e rs' ds' z | _, _ => 0 end.
Lemma layers_run_spec nz : forall ds rs d first part v, length rs = length ds -> 0 <= d -> clear_of d -> coarse d ds -> List.last ds d <= qz nz -> (first = true -> d == 0) -> part == d - qz (ifloor d) -> length v = nz ->
  (forall z, (z < nz)%nat -> d <= qz z -> qn v z == 0) ->
  exists v' part', layers_run first (v, ifloor d, part) (combine rs (diffs d ds)) = Ok (v', ifloor (List.last ds d), part') /\ part' == List.last ds d - qz (ifloor (List.last ds d)) /\ length v' = nz /\
    clear_of (List.last ds d) /\ d <= List.last ds d /\
    forall z, (z < nz)%nat -> qn v' z == qn v z + stack d rs ds z.
Proof.
  induction ds as [|e ds IH]; intros rs d first part v Hl H0 Hcd Hco Hlast Hf Hp Lv Hv.
  - destruct rs; [|discriminate]. exists v, part. cbn [layers_run combine diffs List.last]. repeat (split; [first [reflexivity|assumption]|]). split; [apply Qle_refl|]. intros z Hz. cbn [stack]. ring.
  - destruct rs as [|r rs]; [discriminate|]. injection Hl as Hl. cbn [coarse] in Hco. destruct Hco as (Hde & Hw & Hce & Hco).
    pose proof (last_shift e ds d) as El.
    rewrite El in *. pose proof (coarse_last ds e Hco) as Hm. destruct (@layer_step_spec nz first d e r (e - d) part v H0 Hde ltac:(lra) Hw Hcd Hce Hf (Qeq_refl _) Hp Lv Hv) as (v1 & part1 & E1 & P1 & L1 & N1).
    cbn [diffs combine layers_run]. rewrite E1. cbn [bind].
    destruct (IH rs e false part1 v1 Hl ltac:(lra) Hce Hco Hlast ltac:(discriminate) P1 L1) as (v' & part' & E & P & L & C & Hle & N).
    + intros z Hz Hez. rewrite (N1 z Hz), (Hv z Hz) by lra. rewrite cov_before by lra. ring.
    + exists v', part'. split; [exact E|]. split; [exact P|]. split; [exact L|]. split; [exact C|]. split; [lra|]. intros z Hz. rewrite (N z Hz), (N1 z Hz). cbn [stack]. ring.
Qed.
Lemma repeat0 n z : qn (repeat 0 n) z = 0.
Proof. unfold qn. revert z. induction n as [|n IH]; intros [|z]; cbn; try reflexivity. apply IH. Qed.
Lemma stack_above z : forall ds rs d, coarse d ds -> List.last ds d <= qz z -> stack d rs ds z == 0.
Proof.
  induction ds as [|e ds IH]; intros rs d Hco Hd; [destruct rs; reflexivity|]. destruct rs as [|r rs]; [reflexivity|].
  destruct Hco as (H1 & _ & _ & Hco). cbn [stack]. rewrite last_shift in Hd. rewrite (IH rs e Hco Hd). pose proof (coarse_last ds e Hco). rewrite cov_before by lra. ring.
Qed.
Lemma column_spec nz rs ds : length rs = length ds -> coarse 0 ds -> List.last ds 0 <= qz nz ->
  exists v, column nz (combine rs (diffs 0 ds)) = Ok v /\ length v = nz /\ forall z, (z < nz)%nat -> qn v z == stack 0 rs ds z + cov (List.last ds 0) (qz nz) z.
Proof.
  intros Hl Hco Hlast.
  destruct (@layers_run_spec nz ds rs 0 true 0 (repeat 0 nz) Hl (Qle_refl 0) ltac:(left; reflexivity) Hco Hlast ltac:(reflexivity) ltac:(reflexivity) (repeat_length _ _)) as (v & part & E & P & L & C & Hle & N).
  { intros z _ _. rewrite repeat0. reflexivity. }
  unfold column. change 0%nat with (ifloor 0) at 1. rewrite E. cbn [bind]. set (D := List.last ds 0) in *. destruct (floor_nat Hle) as [F1 F2].
  assert (N' : forall z, (z < nz)%nat -> qn v z == stack 0 rs ds z) by (intros z Hz; rewrite (N z Hz), repeat0; ring).
  assert (St : forall z, (z < nz)%nat -> D <= qz z -> stack 0 rs ds z == 0).
  { intros z Hz Hd. exact (@stack_above z ds rs 0 Hco Hd). }
  destruct (tiny_test Hle C P) as [(-> & W & Z0)|(-> & W)]; cbn [bind].
  - eexists. split; [reflexivity|]. split; [rewrite map_length, seq_length; exact L|]. intros z Hz. rewrite qn_map_seq by lia. pose proof (floor_id Hle) as Fi. unfold whole in W.
    destruct (Nat.leb_spec (ifloor D) z) as [G|G].
    + pose proof (nat_le G). rewrite (St z Hz) by lra. pose proof (nat_lt Hz). rewrite cov_full by lra. ring.
    + pose proof (nat_lt G). rewrite (N' z Hz). rewrite cov_after by lra. ring.
  - unfold tiny in W. assert (G0 : (ifloor D < length v)%nat) by (rewrite L; apply nat_lt_inv; lra). destruct (@add_at_spec v (ifloor D) (1 - part) G0) as (v1 & -> & L1 & N1). cbn [bind].
    eexists. split; [reflexivity|]. split; [rewrite map_length, seq_length; lia|]. intros z Hz. rewrite qn_map_seq by lia.
    destruct (Nat.leb_spec (S (ifloor D)) z) as [G|G].
    + assert (G' : (ifloor D < z)%nat) by lia. pose proof (nat_lt G'). rewrite (St z Hz) by lra. pose proof (nat_lt Hz). rewrite cov_full by lra. ring.
    + rewrite (N1 z), (N' z Hz). destruct (Nat.eqb_spec z (ifloor D)) as [->|G'].
      * pose proof (nat_lt Hz). rewrite P. setoid_replace (cov D (qz nz) (ifloor D)) with (1 - (D - qz (ifloor D))); [ring|]. unfold cell_overlap, overlap. qlra.
      * assert (G2 : (z < ifloor D)%nat) by lia. pose proof (nat_lt G2). rewrite cov_after by lra. ring.
Qed.

(** *** from layers to segments *)
Lemma stack_sumn z : forall rs ds d, length rs = length ds -> stack d rs ds z == sumn (length ds) (fun i => qn rs i * cov (qn (d :: ds) i) (qn (d :: ds) (S i)) z).
Proof.
  induction rs as [|r rs IH]; intros [|e ds] d H; try discriminate; [reflexivity|]. injection H as H. cbn [stack length].
  rewrite (IH ds e H). clear IH. symmetry.
  assert (S0 : forall n (g : nat -> Q), sumn (S n) g == g 0%nat + sumn n (fun i => g (S i))).
  { induction n as [|n IHn]; intros g; [cbn; ring|]. change (sumn (S (S n)) g) with (sumn (S n) g + g (S n)). rewrite (IHn g). cbn [sumn]. ring. }
  rewrite S0. reflexivity.
Qed.
Definition ind (k l : nat) : Q := if Nat.leb l k then 0 else 1.
Lemma holes_keep k len z x : forall es pos cur, sorted_from pos (map fst es) -> Forall (fun e => fst e <= len) es -> pos <= len -> (k < last_level cur es)%nat ->
  cov pos len x == holes k pos cur es x + filled_area (fun l _ => ind k l) len pos cur es x z.
Proof.
  induction es as [|[e l] es IH]; intros pos cur Hs Hb Hp Hl.
  - unfold last_level in Hl. cbn [List.last snd] in Hl. cbn [holes filled_area]. unfold ind. destruct (Nat.leb_spec cur k); [lia|]. ring.
  - cbn [map fst] in Hs. destruct Hs as [He Hs]. inversion Hb as [|p ps Hbe Hb']. subst p ps. cbn [fst] in Hbe. rewrite last_level_cons in Hl.
    cbn [holes filled_area]. rewrite <- (@cov_add pos e len x) by assumption. rewrite (IH e l Hs Hb' Hbe Hl). unfold ind at 2. destruct (Nat.leb cur k); ring.
Qed.
Lemma area_linear n (h : nat -> nat -> Q) (c : nat -> Q) c0 len x z : forall es pos cur,
  filled_area (fun l _ => sumn n (fun i => h i l * c i) + c0) len pos cur es x z ==
  sumn n (fun i => filled_area (fun l _ => h i l) len pos cur es x z * c i) + filled_area (fun _ _ => 1) len pos cur es x z * c0.
Proof.
  induction es as [|[e l] es IH]; intros pos cur; cbn [filled_area].
  - assert (E : sumn n (fun i => cov pos len x * h i cur * c i) == cov pos len x * sumn n (fun i => h i cur * c i)) by (rewrite <- sumn_scale; apply sumn_ext; intros; ring).
    rewrite E. ring.
  - rewrite IH. rewrite (@sumn_ext n (fun i => (cov pos e x * h i cur + filled_area (fun l0 _ => h i l0) len e l es x z) * c i) (fun i => cov pos e x * (h i cur * c i) + filled_area (fun l0 _ => h i l0) len e l es x z * c i)) by (intros; ring).
    rewrite sumn_plus, sumn_scale. ring.
Qed.
Lemma area_ext (h h' : nat -> nat -> Q) len x z : forall es pos cur, (h cur z == h' cur z) -> Forall (fun e => h (snd e) z == h' (snd e) z) es ->
  filled_area h len pos cur es x z == filled_area h' len pos cur es x z.
Proof.
  induction es as [|[e l] es IH]; intros pos cur H F; cbn [filled_area]; [now rewrite H|]. inversion F as [|p ps Fe F']. subst p ps. rewrite H, (IH e l Fe F'). reflexivity.
Qed.
Lemma area_one len x z : forall es pos cur, sorted_from pos (map fst es) -> Forall (fun e => fst e <= len) es -> pos <= len -> filled_area (fun _ _ => 1) len pos cur es x z == cov pos len x.
Proof.
  induction es as [|[e l] es IH]; intros pos cur Hs Hb Hp; cbn [filled_area]; [ring|]. destruct Hs as [He Hs]. inversion Hb as [|p ps Hbe Hb']. subst p ps.
  rewrite (IH e l Hs Hb' Hbe). cbn [fst] in *. rewrite <- (@cov_add pos e len x) by assumption. ring.
Qed.
Lemma area_bounds h len x z : (forall l, 0 <= h l z <= 1) -> forall es pos cur, sorted_from pos (map fst es) -> Forall (fun e => fst e <= len) es -> pos <= len ->
  0 <= filled_area h len pos cur es x z <= cov pos len x.
Proof.
  intros Hh. induction es as [|[e l] es IH]; intros pos cur Hs Hb Hp; cbn [filled_area].
  - pose proof (cov_bounds pos len x). specialize (Hh cur). split; nra.
  - destruct Hs as [He Hs]. inversion Hb as [|p ps Hbe Hb']. subst p ps. specialize (IH e l Hs Hb' Hbe). cbn [fst] in *.
    pose proof (@cov_add pos e len x He Hbe) as A. pose proof (cov_bounds pos e x). specialize (Hh cur). split; nra.
Qed.
Lemma telescope nz z (D : nat -> Q) j : forall n, (j <= n)%nat -> (forall i, (i < n)%nat -> D i <= D (S i)) -> D n <= qz nz ->
  sumn n (fun i => (if Nat.ltb i j then 0 else 1) * cov (D i) (D (S i)) z) + cov (D n) (qz nz) z == cov (D j) (qz nz) z.
Proof.
  induction n as [|n IH]; intros Hj Hm Hn.
  - assert (j = 0)%nat as -> by lia. cbn [sumn]. ring.
  - cbn [sumn]. destruct (Nat.ltb_spec n j) as [L|L].
    + assert (j = S n) as -> by lia. rewrite sumn_zero; [ring|]. intros i Hi. destruct (Nat.ltb_spec i (S n)); [ring|lia].
    + rewrite <- (IH L ltac:(intros; apply Hm; lia) ltac:(specialize (Hm n ltac:(lia)); lra)).
      rewrite <- (@cov_add (D n) (D (S n)) (qz nz) z ltac:(apply Hm; lia) Hn). ring.
Qed.
(** how deep level [l] is etched *)
Definition depth_of (ds : list Q) (l : nat) : Q := qn (0 :: ds) (length ds - l).
Lemma coarse_mono : forall ds d i, coarse d ds -> (i < length ds)%nat -> qn (d :: ds) i <= qn (d :: ds) (S i).
Proof.
  induction ds as [|e ds IH]; intros d i H Hi; [cbn in Hi; lia|]. destruct H as (H & _ & _ & H'). destruct i as [|i]; [exact H|]. apply (IH e i H'). cbn in Hi. lia.
Qed.
Lemma last_qn ds d : List.last ds d = qn (d :: ds) (length ds).
Proof. revert d. induction ds as [|e ds IH]; intros d; [reflexivity|]. rewrite last_shift, IH. reflexivity. Qed.
Lemma mapM_ok {A B} (f : A -> res B) (P : A -> B -> Prop) : forall l, (forall a, In a l -> exists b, f a = Ok b /\ P a b) -> exists bs, mapM f l = Ok bs /\ Forall2 P l bs.
Proof.
  induction l as [|a l IH]; intros H; [exists []; split; [reflexivity|constructor]|]. destruct (H a (or_introl eq_refl)) as (b & E & Pb). destruct IH as (bs & Es & F); [intros a' Ha; apply H; now right|].
  exists (b :: bs). cbn [mapM]. rewrite E. cbn [bind]. rewrite Es. split; [reflexivity|]. now constructor.
Qed.
Lemma Forall2_nth {A B} (P : A -> B -> Prop) l l' da db i : Forall2 P l l' -> (i < length l)%nat -> P (nth i l da) (nth i l' db).
Proof. intros H. revert i. induction H as [|a b l l' H F IH]; intros [|i] Hi; cbn in *; try lia; [exact H|]. apply IH. lia. Qed.

Lemma Forall2_len {A B} (P : A -> B -> Prop) l l' : Forall2 P l l' -> length l = length l'.
Proof. induction 1; cbn; congruence. Qed.
Theorem structure_drawn nx nz ds es : (1 <= nx)%nat -> coarse 0 ds -> List.last ds 0 <= qz nz ->
  sorted_from 0 (map fst es) -> Forall (fun e => fst e < qz nx) es -> Forall (fun e => (snd e <= length ds)%nat) es -> last_level (length ds) es = length ds ->
  exists s, get_structure nx nz ds es = Ok s /\ length s = nx /\
    forall x z, (x < nx)%nat -> (z < nz)%nat -> length (nth x s []) = nz /\
      qn (nth x s []) z == filled_area (fun l => filled nz (depth_of ds l)) (qz nx) 0 (length ds) es x z.
Proof.
  intros Hnx Hco Hlast Hs Hb Hlv Hll. set (nlev := length ds) in *. unfold get_structure. fold nlev.
  assert (Ex : existsb (fun e => Nat.ltb nlev (snd e)) es = false).
  { clear -Hlv. induction Hlv as [|e es H F IH]; [reflexivity|]. cbn [existsb]. rewrite IH. destruct (Nat.ltb_spec nlev (snd e)); [lia|reflexivity]. }
  rewrite Ex.
  assert (Lr : exists rasters, mapM (raster_1d nx) (level_vecs nlev es) = Ok rasters /\ length rasters = nlev /\
     forall i x, (i < nlev)%nat -> (x < nx)%nat -> qn (nth i rasters []) x == 1 - holes (nlev - 1 - i) 0 nlev es x).
  { destruct (@mapM_ok _ _ (raster_1d nx) (fun edges v => forall k, (k < nlev)%nat -> edges = level_edges k nlev es -> forall x, (x < nx)%nat -> qn v x == 1 - holes k 0 nlev es x) (level_vecs nlev es)) as (rs & E & F).
    - intros edges Hin. unfold level_vecs in Hin. rewrite <- in_rev in Hin. apply in_map_iff in Hin. destruct Hin as (k & <- & Hk). apply in_seq in Hk.
      destruct (@raster_1d_spec k nx nlev es Hnx ltac:(lia) Hs Hb ltac:(lia)) as (v & Ev & Lv & Nv). exists v. split; [exact Ev|]. intros k' Hk' Ee x Hx.
      destruct (@raster_1d_spec k' nx nlev es Hnx Hk' Hs Hb ltac:(lia)) as (v' & Ev' & _ & Nv'). rewrite <- Ee, Ev in Ev'. injection Ev' as <-. exact (Nv' x Hx).
    - exists rs. assert (Ll : length (level_vecs nlev es) = nlev) by (unfold level_vecs; now rewrite rev_length, map_length, seq_length).
      split; [exact E|]. split; [apply Forall2_len in F; lia|]. intros i x Hi Hx.
      apply (Forall2_nth [] [] (i := i) F ltac:(lia) (nlev - 1 - i)%nat ltac:(lia)); [|exact Hx].
      unfold level_vecs. rewrite rev_nth by (rewrite map_length, seq_length; lia). rewrite map_length, seq_length.
      rewrite (nth_indep _ [] (level_edges 0 nlev es)) by (rewrite map_length, seq_length; lia). rewrite (map_nth (fun k => level_edges k nlev es)), seq_nth by lia. f_equal. lia. }
  destruct Lr as (rasters & Er & Ln & Nr). rewrite Er. cbn [bind].
  destruct (@mapM_ok _ _ (fun x => column nz (combine (map (fun v => qn v x) rasters) (diffs 0 ds)))
    (fun x c => length c = nz /\ forall z, (z < nz)%nat -> qn c z == stack 0 (map (fun v => qn v x) rasters) ds z + cov (List.last ds 0) (qz nz) z) (seq 0 nx)) as (s & Es & F).
  { intros x _. destruct (@column_spec nz (map (fun v => qn v x) rasters) ds) as (c & Ec & Lc & Nc); [rewrite map_length; exact Ln|exact Hco|exact Hlast|]. eauto. }
  exists s. split; [exact Es|]. split; [apply Forall2_len in F; rewrite seq_length in F; lia|]. intros x z Hx Hz.
  pose proof (Forall2_nth 0%nat [] (i := x) F ltac:(rewrite seq_length; exact Hx)) as [Lc Nc]. rewrite seq_nth in Nc by exact Hx. cbn [Nat.add] in Nc. split; [exact Lc|].
  rewrite (Nc z Hz). rewrite stack_sumn by (rewrite map_length; exact Ln). fold nlev.
  assert (Pn : 0 <= qz nx) by (change 0 with (inject_Z 0); rewrite <- Zle_Qle; lia).
  assert (Hb' : Forall (fun e : Q * nat => fst e <= qz nx) es) by (eapply Forall_impl; [|exact Hb]; cbn; intros; lra).
  assert (C1 : cov 0 (qz nx) x == 1) by (pose proof (nat_lt Hx); pose proof (nat_le (Nat.le_0_l x)) as G; change (qz 0) with 0 in G; apply cov_full; lra).
  rewrite (@sumn_ext nlev _ (fun i => filled_area (fun l _ => ind (nlev - 1 - i) l) (qz nx) 0 nlev es x z * cov (qn (0 :: ds) i) (qn (0 :: ds) (S i)) z)).
  2: { intros i Hi. assert (Eq : qn (map (fun v => qn v x) rasters) i == filled_area (fun l _ => ind (nlev - 1 - i) l) (qz nx) 0 nlev es x z).
       { unfold qn at 1. rewrite (nth_indep _ 0 (qn [] x)) by (rewrite map_length; lia). rewrite (map_nth (fun v => qn v x)). rewrite (Nr i x Hi Hx).
         pose proof (@holes_keep (nlev - 1 - i) (qz nx) z x es 0 nlev Hs Hb' Pn ltac:(lia)) as K. rewrite C1 in K. lra. }
       rewrite Eq. reflexivity. }
  assert (A1 : cov (List.last ds 0) (qz nz) z == filled_area (fun _ _ => 1) (qz nx) 0 nlev es x z * cov (List.last ds 0) (qz nz) z) by (rewrite (area_one x z _ Hs Hb' Pn), C1; ring).
  rewrite A1.
  rewrite <- (@area_linear nlev (fun i l => ind (nlev - 1 - i) l) (fun i => cov (qn (0 :: ds) i) (qn (0 :: ds) (S i)) z) (cov (List.last ds 0) (qz nz) z)).
  assert (Te : forall l, (l <= nlev)%nat -> sumn nlev (fun i => ind (nlev - 1 - i) l * cov (qn (0 :: ds) i) (qn (0 :: ds) (S i)) z) + cov (List.last ds 0) (qz nz) z == filled nz (depth_of ds l) z).
  { intros l Hl. unfold filled, depth_of. fold nlev. rewrite last_qn. fold nlev.
    rewrite <- (@telescope nz z (qn (0 :: ds)) (nlev - l)%nat nlev ltac:(lia) (fun i Hi => @coarse_mono ds 0 i Hco Hi)) by (rewrite <- last_qn; exact Hlast).
    apply Qplus_inj_r. apply sumn_ext. intros i Hi. unfold ind. destruct (Nat.leb_spec l (nlev - 1 - i)), (Nat.ltb_spec i (nlev - l)); try reflexivity; lia. }
  apply area_ext; [apply Te; lia|]. clear -Hlv Te. induction Hlv as [|e es H F IH]; constructor; [apply Te; exact H|exact IH].
Qed.

(** *** PixelatedGrating *)
Lemma clip_mono nx a b : a <= b -> clip_edge nx a <= clip_edge nx b.
Proof. intros. unfold clip_edge. qlra. Qed.
Lemma clip_lt nx a : clip_edge nx a < qz nx.
Proof. unfold clip_edge. qlra. Qed.
Lemma clip_zero nx : (1 <= nx)%nat -> clip_edge nx 0 == 0.
Proof. intros H. pose proof (nat_lt (a := 0) (b := nx) ltac:(lia)) as G. change (qz 0) with 0 in G. unfold clip_edge. qlra. Qed.
Lemma sorted_map f : (forall a b, a <= b -> f a <= f b) -> forall l a, sorted_from a l -> sorted_from (f a) (map f l).
Proof. intros Hf. induction l as [|b l IH]; intros a H; [exact I|]. destruct H as [H H']. split; [now apply Hf|]. now apply IH. Qed.
Lemma sorted_app : forall l a b, sorted_from a l -> (forall e, In e l -> e <= b) -> a <= b -> sorted_from a (l ++ [b]).
Proof. induction l as [|c l IH]; intros a b H Hb Ha; cbn; [auto|]. destruct H as [H H']. split; [exact H|]. apply IH; [exact H'| |apply Hb; now left]. intros e He. apply Hb. now right. Qed.
Lemma combine_fst {A B} (l : list A) (l' : list B) : length l = length l' -> map fst (combine l l') = l.
Proof. revert l'. induction l as [|a l IH]; intros [|b l'] H; try discriminate; [reflexivity|]. cbn. now rewrite IH by (now injection H). Qed.
Lemma combine_snd {A B} (l : list A) (l' : list B) : length l = length l' -> map snd (combine l l') = l'.
Proof. revert l'. induction l as [|a l IH]; intros [|b l'] H; try discriminate; [reflexivity|]. cbn. now rewrite IH by (now injection H). Qed.
Lemma last_map_snd : forall (es : list (Q * nat)) c, last_level c es = List.last (map snd es) c.
Proof. induction es as [|[e l] es IH]; intros c; [reflexivity|]. rewrite last_level_cons, IH. cbn [map snd]. clear. generalize (map snd es) as t. intros t. revert l c. induction t as [|a t IH]; intros l c; [reflexivity|]. transitivity (List.last (a :: t) c); [|reflexivity]. rewrite <- (IH a c). symmetry. apply (IH a l). Qed.
Lemma cumsum_length : forall l a, length (cumsum_from a l) = length l.
Proof. induction l as [|b l IH]; intros a; [reflexivity|]. cbn. now rewrite IH. Qed.
Lemma depth_rev nz fracs l : (l <= length fracs)%nat ->
  depth_of (map (fun f => qz nz * (1 - f)) (rev fracs)) l = if Nat.ltb l (length fracs) then qz nz * (1 - qn fracs l) else 0.
Proof.
  intros H. unfold depth_of. rewrite map_length, rev_length. destruct (Nat.ltb_spec l (length fracs)) as [L|L].
  - replace (length fracs - l)%nat with (S (length fracs - S l)) by lia. change (qn (0 :: ?t) (S ?i)) with (qn t i). unfold qn.
    rewrite (nth_indep _ 0 ((fun f => qz nz * (1 - f)) 0)) by (rewrite map_length, rev_length; lia). rewrite (map_nth (fun f => qz nz * (1 - f))). rewrite rev_nth by lia.
    replace (length fracs - S (length fracs - S l))%nat with l by lia. reflexivity.
  - replace (length fracs - l)%nat with 0%nat by lia. reflexivity.
Qed.
Lemma area_start h len pos pos' cur es x z : pos == pos' -> filled_area h len pos cur es x z == filled_area h len pos' cur es x z.
Proof. intros H. destruct es as [|[e l] es]; cbn [filled_area]; rewrite (@cov_ext pos pos' _ _ x H (Qeq_refl _)); reflexivity. Qed.
Theorem pixelated_drawn fracs ext pix nx nz polarity (use_edges : bool) (vals : list Q) (index : list nat) :
  let edges := if use_edges then vals else cumsum_from 0 vals in
  let depths := map (fun f => qz nz * (1 - f)) (rev fracs) in
  (1 <= nx)%nat -> 0 < pix -> decreases fracs = false -> Forall (fun f => 0 <= f) fracs -> coarse 0 depths ->
  sorted_from 0 edges -> Forall (fun e => e <= ext) edges -> 0 <= ext -> length index = length vals -> Forall (fun l => (l < length fracs)%nat) index ->
  exists s, pixelated fracs ext pix nx nz polarity use_edges vals index = Ok s /\ length s = nx /\
    forall x z, (x < nx)%nat -> (z < nz)%nat -> length (nth x s []) = nz /\
      qn (nth x s []) (if Z.ltb polarity 0 then nz - 1 - z else z)%nat ==
      filled_area (fun l => filled nz (if Nat.ltb l (length fracs) then qz nz * (1 - qn fracs l) else 0)) (qz nx) 0 (length fracs)
        (combine (map (fun e => clip_edge nx (e / pix)) (edges ++ [ext])) (index ++ [length fracs])) x z.
Proof.
  intros edges depths Hnx Hpix Hdec Hf0 Hco Hs Hext H0 Hlen Hidx. unfold pixelated. rewrite Hdec. fold edges. fold depths.
  assert (Le : length edges = length index) by (unfold edges; rewrite Hlen; destruct use_edges; [reflexivity|apply cumsum_length]).
  assert (Lt : Nat.ltb (length (length fracs :: index ++ [length fracs])) (length (0 :: edges ++ [ext])) = false) by (apply Nat.ltb_ge; cbn [length]; rewrite !app_length; cbn [length]; lia).
  rewrite Lt. set (c := fun e => clip_edge nx (e / pix)). set (nlev := length fracs) in *.
  assert (Ld : length depths = nlev) by (unfold depths; now rewrite map_length, rev_length).
  assert (Cm : forall a b, a <= b -> c a <= c b).
  { intros a b H. apply clip_mono. unfold Qdiv. assert (0 < / pix) by (now apply Qinv_lt_0_compat). nra. }
  assert (C0 : c 0 == 0). { unfold c. transitivity (clip_edge nx 0); [|now apply clip_zero]. assert (E : 0 / pix == 0) by (field; lra). unfold clip_edge. qlra. }
  set (es := combine (map c (edges ++ [ext])) (index ++ [nlev])).
  change (combine (map c (0 :: edges ++ [ext])) (nlev :: index ++ [nlev])) with ((c 0, nlev) :: es).
  assert (Lc : length (map c (edges ++ [ext])) = length (index ++ [nlev])) by (rewrite map_length, !app_length; cbn; lia).
  assert (Fst : map fst es = map c (edges ++ [ext])) by (now apply combine_fst). assert (Snd : map snd es = index ++ [nlev]) by (now apply combine_snd).
  assert (Sc : sorted_from (c 0) (map c (edges ++ [ext]))).
  { apply sorted_map; [exact Cm|]. apply sorted_app; [exact Hs| |exact H0]. intros e He. rewrite Forall_forall in Hext. now apply Hext. }
  destruct (@structure_drawn nx nz depths ((c 0, nlev) :: es)) as (s & E & Ls & N).
  - exact Hnx.
  - exact Hco.
  - rewrite last_qn. rewrite Ld. change (qn (0 :: depths) nlev) with (nth nlev (0 :: depths) 0). destruct fracs as [|f fr] eqn:Ef; [cbn; change 0 with (inject_Z 0); rewrite <- Zle_Qle; lia|].
    assert (X : depth_of depths 0 = qz nz * (1 - f)).
    { unfold depths. rewrite depth_rev by lia. reflexivity. }
    unfold depth_of in X. rewrite Ld, Nat.sub_0_r in X. unfold qn in X. rewrite X. inversion Hf0 as [|u w Hu Hw]. subst u w.
    assert (0 <= qz nz) by (change 0 with (inject_Z 0); rewrite <- Zle_Qle; lia). nra.
  - cbn [map fst]. split; [lra|]. rewrite Fst. exact Sc.
  - constructor; [apply clip_lt|]. apply Forall_forall. intros e He. assert (Hi : In (fst e) (map fst es)) by (now apply in_map). rewrite Fst in Hi. apply in_map_iff in Hi. destruct Hi as (q & <- & _). apply clip_lt.
  - rewrite Ld. constructor; [cbn; lia|]. apply Forall_forall. intros e He. assert (Hi : In (snd e) (map snd es)) by (now apply in_map). rewrite Snd in Hi. apply in_app_iff in Hi. destruct Hi as [Hi|[<-|[]]]; [|lia].
    rewrite Forall_forall in Hidx. specialize (Hidx _ Hi). lia.
  - rewrite Ld, last_level_cons, last_map_snd, Snd. apply last_last.
  - rewrite E. cbn [bind]. eexists. split; [reflexivity|]. split; [destruct (Z.ltb polarity 0); [rewrite map_length|]; exact Ls|]. intros x z Hx Hz.
    destruct (N x z Hx Hz) as [Lx Nx]. rewrite Ld in Nx.
    assert (Area : filled_area (fun l => filled nz (depth_of depths l)) (qz nx) 0 nlev ((c 0, nlev) :: es) x z ==
       filled_area (fun l => filled nz (if Nat.ltb l nlev then qz nz * (1 - qn fracs l) else 0)) (qz nx) 0 nlev es x z).
    { cbn [filled_area]. rewrite (@cov_ext 0 0 (c 0) 0 x (Qeq_refl _) C0), cov_same. rewrite (@area_start _ _ (c 0) 0 nlev es x z C0).
      rewrite (@area_ext (fun l => filled nz (depth_of depths l)) (fun l => filled nz (if Nat.ltb l nlev then qz nz * (1 - qn fracs l) else 0)) (qz nx) x z es 0 nlev); [ring| |].
      - unfold depths. rewrite depth_rev by (unfold nlev; lia). reflexivity.
      - apply Forall_forall. intros e He. assert (Hi : In (snd e) (map snd es)) by (now apply in_map). rewrite Snd in Hi. unfold depths. rewrite depth_rev; [reflexivity|].
        apply in_app_iff in Hi. destruct Hi as [Hi|[<-|[]]]; [|unfold nlev; lia]. rewrite Forall_forall in Hidx. specialize (Hidx _ Hi). lia. }
    rewrite Area in Nx. destruct (Z.ltb polarity 0).
    + change (@nil Q) with (rev (@nil Q)) at 1 2. rewrite map_nth. rewrite rev_length. split; [exact Lx|]. unfold qn. rewrite rev_nth by lia. rewrite Lx.
      replace (nz - S (nz - 1 - z))%nat with z by lia. exact Nx.
    + split; [exact Lx|exact Nx].
Qed.
Theorem pixelated_unit fracs ext pix nx nz polarity (use_edges : bool) (vals : list Q) (index : list nat) :
  let edges := if use_edges then vals else cumsum_from 0 vals in
  let depths := map (fun f => qz nz * (1 - f)) (rev fracs) in
  (1 <= nx)%nat -> 0 < pix -> decreases fracs = false -> Forall (fun f => 0 <= f) fracs -> coarse 0 depths ->
  sorted_from 0 edges -> Forall (fun e => e <= ext) edges -> 0 <= ext -> length index = length vals -> Forall (fun l => (l < length fracs)%nat) index ->
  forall s, pixelated fracs ext pix nx nz polarity use_edges vals index = Ok s -> forall x z, (x < nx)%nat -> (z < nz)%nat -> 0 <= qn (nth x s []) z <= 1.
Proof.
  intros edges depths Hnx Hpix Hdec Hf0 Hco Hs Hext H0 Hlen Hidx s Es x z Hx Hz.
  destruct (@pixelated_drawn fracs ext pix nx nz polarity use_edges vals index Hnx Hpix Hdec Hf0 Hco Hs Hext H0 Hlen Hidx) as (s' & E & _ & N).
  rewrite Es in E. injection E as <-. set (z' := (if Z.ltb polarity 0 then nz - 1 - z else z)%nat). assert (Hz' : (z' < nz)%nat) by (unfold z'; destruct (Z.ltb polarity 0); lia).
  destruct (N x z' Hx Hz') as [_ Nx]. assert (Ez : (if Z.ltb polarity 0 then nz - 1 - z' else z')%nat = z) by (unfold z'; destruct (Z.ltb polarity 0); lia). rewrite Ez in Nx.
  rewrite Nx. clear N Nx Es.
  assert (Le : length edges = length index) by (unfold edges; rewrite Hlen; destruct use_edges; [reflexivity|apply cumsum_length]).
  set (c := fun e => clip_edge nx (e / pix)).
  assert (Lc : length (map c (edges ++ [ext])) = length (index ++ [length fracs])) by (rewrite map_length, !app_length; cbn; lia).
  assert (Cm : forall a b, a <= b -> c a <= c b).
  { intros a b H. apply clip_mono. unfold Qdiv. assert (0 < / pix) by (now apply Qinv_lt_0_compat). nra. }
  assert (C0 : c 0 == 0). { unfold c. transitivity (clip_edge nx 0); [|now apply clip_zero]. assert (E : 0 / pix == 0) by (field; lra). unfold clip_edge. qlra. }
  pose proof (nat_lt (a := 0) (b := nx) ltac:(lia)) as G. change (qz 0) with 0 in G.
  assert (B : 0 <= filled_area (fun l => filled nz (if Nat.ltb l (length fracs) then qz nz * (1 - qn fracs l) else 0)) (qz nx) (c 0) (length fracs) (combine (map c (edges ++ [ext])) (index ++ [length fracs])) x z' <= cov (c 0) (qz nx) x).
  { apply area_bounds; [intros l; apply cov_bounds| | |rewrite C0; lra].
    - rewrite combine_fst by exact Lc. apply sorted_map; [exact Cm|]. apply sorted_app; [exact Hs| |exact H0]. intros e He. rewrite Forall_forall in Hext. now apply Hext.
    - apply Forall_forall. intros e He. assert (Hi : In (fst e) (map fst (combine (map c (edges ++ [ext])) (index ++ [length fracs])))) by (now apply in_map).
      rewrite combine_fst in Hi by exact Lc. apply in_map_iff in Hi. destruct Hi as (q & <- & _). apply Qlt_le_weak. apply clip_lt. }
  rewrite (@area_start _ _ (c 0) 0 _ _ x z' C0) in B. destruct B as [B1 B2]. split; [exact B1|]. eapply Qle_trans; [exact B2|]. apply (cov_bounds (c 0) (qz nx) x).
Qed.
(** derivative by widths *)
Lemma cumsum_qn : forall l a i, (i < length l)%nat -> qn (cumsum_from a l) i == a + sumn (S i) (qn l).
Proof.
  induction l as [|b l IH]; intros a i H; [cbn in H; lia|].
  assert (S0 : forall n (g : nat -> Q), sumn (S n) g == g 0%nat + sumn n (fun i => g (S i))).
  { induction n as [|n IHn]; intros g; [cbn; ring|]. change (sumn (S (S n)) g) with (sumn (S n) g + g (S n)). rewrite (IHn g). cbn [sumn]. ring. }
  rewrite S0. cbn [cumsum_from]. destruct i as [|i]; [cbn [sumn]; change (qn (b :: l) 0) with b; change (qn (a + b :: cumsum_from (a + b) l) 0) with (a + b); ring|].
  change (qn (a + b :: cumsum_from (a + b) l) (S i)) with (qn (cumsum_from (a + b) l) i). rewrite IH by (cbn in H; lia). change (qn (b :: l) 0) with b.
  rewrite (@sumn_ext (S i) (fun i0 => qn (b :: l) (S i0)) (qn l)) by (intros; reflexivity). ring.
Qed.
Theorem widths_adjoint g w : length g = length w -> dot (widths_grad g) w == dot g (cumsum_from 0 w).
Proof.
  revert w. assert (W : forall g a w, length g = length w -> dot (rev (cumsum_from a (rev g))) w == dot g (cumsum_from 0 w) + a * qsum w); [|intros w H; unfold widths_grad; rewrite (W g 0 w H); ring].
  assert (S0 : forall n (f : nat -> Q), sumn (S n) f == f 0%nat + sumn n (fun i => f (S i))).
  { induction n as [|n IHn]; intros f; [cbn; ring|]. change (sumn (S (S n)) f) with (sumn (S n) f + f (S n)). rewrite (IHn f). cbn [sumn]. ring. }
  assert (Dc : forall a b u v, dot (a :: u) (b :: v) == a * b + dot u v) by (intros; unfold dot; cbn [length]; rewrite S0; reflexivity).
  clear g. intros g. assert (Cs : forall l a b, cumsum_from a (l ++ [b]) = cumsum_from a l ++ [List.last (cumsum_from a l) a + b]).
  { induction l as [|c l IH]; intros a b; [reflexivity|]. cbn [app cumsum_from]. rewrite (IH (a + c) b). rewrite last_shift. reflexivity. }
  assert (Lq : forall l a, List.last (cumsum_from a l) a == a + qsum l).
  { induction l as [|c l IH]; intros a; [cbn; ring|]. cbn [cumsum_from]. rewrite last_shift, IH. cbn [qsum]. ring. }
  assert (Qr : forall l, qsum (rev l) == qsum l) by (induction l as [|c l IH]; [reflexivity|]; cbn [rev]; rewrite qsum_app, IH; cbn [qsum]; ring).
  assert (Dk : forall u k v, length u = length v -> dot u (cumsum_from k v) == dot u (cumsum_from 0 v) + k * qsum u).
  { induction u as [|c u IH]; intros k [|b v] H; try discriminate; [unfold dot; cbn; ring|]. injection H as H. cbn [cumsum_from]. rewrite !Dc. rewrite (IH (k + b) v H), (IH (0 + b) v H). cbn [qsum]. ring. }
  induction g as [|c g IH]; intros a [|b w] H; try discriminate; [unfold dot; cbn; ring|]. injection H as H. cbn [rev]. rewrite Cs, rev_app_distr. cbn [rev app].
  cbn [cumsum_from]. rewrite !Dc. rewrite (IH a w H), Lq, Qr. rewrite (Dk g (0 + b) w H). cbn [qsum]. ring.
Qed.
