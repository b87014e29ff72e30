(** With fresh arrays the in-place backward pass computes what the functional
    one computes. *)
From Verif Require Import Base GraphExec_Model GradHeap_Model.

Section HP.
Variables V A : Type.
Variable g : graph.
Variable heavy : nat -> bool.
Variable gadd : A -> A -> A.
Variable gzero : V -> A.
Variable pb : nat -> list V -> A -> res (list A).
Variable vals : dict V.
Definition pbo : nat -> list V -> A -> res (list (option A)) :=
  fun n ivs a => bind (pb n ivs a) (fun gs => Ok (map Some gs)).
Notation hpb := (fresh_pb pb).

Lemma fill_none_map i x gs : fill_none gzero i x (map Some gs) = Ok gs.
Proof. revert i; induction gs as [|a gs IH]; intros i; cbn [map fill_none]; [reflexivity|]. now rewrite IH. Qed.

Definition reads (h : heap A) (hg : dict nat) (gr : dict A) : Prop :=
  forall n, gr n = option_map h (hg n).
Definition inj (hg : dict nat) : Prop := forall n m l, hg n = Some l -> hg m = Some l -> n = m.
Definition below (hg : dict nat) (nx : nat) : Prop := forall n l, hg n = Some l -> (l < nx)%nat.
(** pending locations: distinct, not owned by any node, allocated, with values [gs] *)
Definition pending (h : heap A) (nx : nat) (hg : dict nat) (ls : list nat) (gs : list A) : Prop :=
  NoDup ls /\ (forall n l, hg n = Some l -> ~ In l ls) /\ (forall l, In l ls -> (l < nx)%nat) /\ map h ls = gs.

Lemma hupd_same h l (a : A) : hupd h l a l = a.
Proof. unfold hupd. now rewrite Nat.eqb_refl. Qed.
Lemma hupd_other h l (a : A) k : k <> l -> hupd h l a k = h k.
Proof. unfold hupd. intros H. now apply Nat.eqb_neq in H as ->. Qed.

Lemma map_hupd h l (a : A) ls : ~ In l ls -> map (hupd h l a) ls = map h ls.
Proof. intros H. apply map_ext_in. intros k Hk. apply hupd_other. intros ->. contradiction. Qed.

Lemma hadd_grads_ok cs : forall ls rest gs grest h nx hg gr,
  length ls = length gs -> reads h hg gr -> inj hg -> below hg nx ->
  pending h nx hg (ls ++ rest) (gs ++ grest) ->
  exists h' hg', hadd_grads gadd cs ls h hg = (h', hg') /\
    reads h' hg' (add_grads gadd cs gs gr) /\ inj hg' /\ below hg' nx /\ pending h' nx hg' rest grest.
Proof.
  induction cs as [|c cs IH]; intros ls rest gs grest h nx hg gr Hl Hr Hi Hb (P1 & P2 & P3 & P4).
  - cbn [hadd_grads]. exists h, hg. split; [reflexivity|]. split.
    { destruct gs; exact Hr. }
    split; [assumption|]. split; [assumption|].
    rewrite map_app in P4.
    assert (Hm : map h rest = grest).
    { assert (Hlen : length (map h ls) = length gs) by now rewrite map_length.
      clear - P4 Hlen. revert gs P4 Hlen. generalize (map h ls) as xs. induction xs as [|x xs IHx]; intros [|y gs] P4 Hlen; cbn in *; try lia; auto.
      inversion P4; subst. apply (IHx gs); auto. }
    split; [|split; [|split]]; auto.
    + clear - P1. induction ls as [|l ls IHl]; [assumption|]. apply IHl. now inversion P1.
    + intros n l Hn Hin. apply (P2 n l Hn). apply in_or_app. now right.
    + intros l Hin. apply P3. apply in_or_app. now right.
  - destruct ls as [|l ls], gs as [|a gs]; try discriminate; cbn [hadd_grads add_grads].
    + exists h, hg. split; [reflexivity|]. cbn [app] in *. repeat split; auto.
    + cbn [app map] in P1, P2, P3, P4. inversion P1 as [|? ? Hnin P1']; subst. inversion P4 as [[Ha P4']].
      assert (Hrc := Hr c). destruct (hg c) as [lc|] eqn:Ec; cbn [option_map] in Hrc; rewrite Hrc.
      * assert (Hlc : ~ In lc (l :: ls ++ rest)) by exact (P2 c lc Ec).
        apply IH; auto.
        -- intros n. unfold dset. destruct (Nat.eqb n c) eqn:En.
           ++ apply Nat.eqb_eq in En. subst n. rewrite Ec. cbn [option_map]. now rewrite hupd_same.
           ++ rewrite (Hr n). destruct (hg n) as [ln|] eqn:En'; cbn [option_map]; [|reflexivity].
              rewrite hupd_other; [reflexivity|]. intros ->. apply Nat.eqb_neq in En. apply En. exact (Hi n c lc En' Ec).
        -- split; [assumption|]. split; [|split].
           ++ intros n k Hn Hin. apply (P2 n k Hn). now right.
           ++ intros k Hk. apply P3. now right.
           ++ rewrite map_hupd; [assumption|]. intros Hin. apply Hlc. now right.
      * apply IH; auto.
        -- intros n. unfold dset. destruct (Nat.eqb n c) eqn:En; [cbn [option_map]; congruence|apply Hr].
        -- intros n m k Hn Hm. unfold dset in Hn, Hm.
           destruct (Nat.eqb n c) eqn:En; destruct (Nat.eqb m c) eqn:Em;
             repeat match goal with H : Nat.eqb _ _ = true |- _ => apply Nat.eqb_eq in H end.
           ++ congruence.
           ++ exfalso. inversion Hn; subst. apply (P2 m k Hm). now left.
           ++ exfalso. inversion Hm; subst. apply (P2 n k Hn). now left.
           ++ exact (Hi n m k Hn Hm).
        -- intros n k Hn. unfold dset in Hn. destruct (Nat.eqb n c) eqn:En; [|exact (Hb n k Hn)].
           inversion Hn; subst. apply P3. now left.
        -- split; [assumption|]. split; [|split].
           ++ intros n k Hn Hin. unfold dset in Hn. destruct (Nat.eqb n c) eqn:En.
              ** inversion Hn; subst. contradiction.
              ** apply (P2 n k Hn). now right.
           ++ intros k Hk. apply P3. now right.
           ++ assumption.
Qed.

(** allocation *)
Lemma halloc_old gs : forall (h : heap A) nx k, (k < nx)%nat -> halloc h nx gs k = h k.
Proof.
  induction gs as [|a gs IH]; intros h nx k Hk; cbn [halloc]; [reflexivity|].
  rewrite IH by lia. apply hupd_other. lia.
Qed.
Lemma halloc_new gs : forall (h : heap A) nx, map (halloc h nx gs) (seq nx (length gs)) = gs.
Proof.
  induction gs as [|a gs IH]; intros h nx; cbn [halloc length seq map]; [reflexivity|].
  f_equal; [|apply IH]. rewrite halloc_old by lia. apply hupd_same.
Qed.

Definition okst (m : mem A) (hg : dict nat) (gr : dict A) : Prop :=
  reads (fst m) hg gr /\ inj hg /\ below hg (snd m).

Lemma okst_alloc h nx hg gr gs : okst (h, nx) hg gr ->
  okst (halloc h nx gs, nx + length gs) hg gr /\
  pending (halloc h nx gs) (nx + length gs) hg (seq nx (length gs)) gs.
Proof.
  intros (Hr & Hi & Hb). cbn [fst snd] in *. split; [split; [|split]|split; [|split; [|split]]]; cbn [fst snd].
  - intros n. rewrite (Hr n). destruct (hg n) as [l|] eqn:E; cbn [option_map]; [|reflexivity].
    rewrite halloc_old; [reflexivity|]. exact (Hb n l E).
  - assumption.
  - intros n l Hn. specialize (Hb n l Hn). lia.
  - apply seq_NoDup.
  - intros n l Hn Hin. apply in_seq in Hin. specialize (Hb n l Hn). lia.
  - intros l Hin. apply in_seq in Hin. lia.
  - apply halloc_new.
Qed.

Lemma okst_dget m hg gr n : okst m hg gr ->
  (exists l, dget hg n = Ok l /\ dget gr n = Ok (fst m l) /\ hg n = Some l) \/ (dget hg n = Err KeyError /\ dget gr n = Err KeyError).
Proof.
  intros (Hr & _ & _). unfold dget. rewrite (Hr n). destruct (hg n) as [l|]; cbn [option_map]; [left|now right].
  exists l. auto.
Qed.

(** Relation between a heap result and a functional result. *)
Definition sim (a : res (mem A * dict nat)) (b : res (dict A)) : Prop :=
  match a, b with
  | Ok (m, hg), Ok gr => okst m hg gr
  | Err e, Err e' => e = e'
  | _, _ => False
  end.

Lemma grad_light_sim m hg gr n : okst m hg gr ->
  sim (hgrad_light g gadd hpb vals m hg n) (bind (grad_light g pbo gadd gzero vals gr n) (fun r => Ok (fst r))).
Proof.
  intros Hok. unfold hgrad_light, grad_light. destruct (get_inputs g vals n) as [ivs|e]; cbn [bind sim]; [|reflexivity].
  destruct (okst_dget m hg gr n Hok) as [(l & -> & -> & Hl)|[-> ->]]; cbn [bind sim]; [|reflexivity].
  destruct m as [h nx]. unfold fresh_pb, pbo. cbn [fst].
  destruct (pb n ivs (h l)) as [gs|e]; cbn [bind sim]; [|reflexivity].
  unfold update_grad_vals. rewrite fill_none_map. cbn [bind fst].
  destruct (okst_alloc h nx hg gr gs Hok) as [(Hr & Hi & Hb) Hp]. cbn [fst snd] in *.
  destruct (hadd_grads_ok (adj g n) (seq nx (length gs)) [] gs [] (halloc h nx gs) (nx + length gs) hg gr) as (h' & hg' & -> & Hr' & Hi' & Hb' & _); auto.
  - apply seq_length.
  - now rewrite !app_nil_r.
  - cbn [sim]. split; [|split]; assumption.
Qed.

Lemma pending_old h nx hg ls gs gs' : pending h nx hg ls gs ->
  map (halloc h nx gs') ls = map h ls.
Proof.
  intros (_ & _ & P3 & _). apply map_ext_in. intros k Hk. apply halloc_old. now apply P3.
Qed.

Lemma hpb_all_sim args : forall m hg gr ls gs,
  okst m hg gr -> pending (fst m) (snd m) hg ls gs ->
  Forall (fun x => hg (fst (fst x)) = Some (snd x)) args ->
  match hpb_all hpb args m, mapM (fun x => pb (fst (fst x)) (snd (fst x)) (fst m (snd x))) args with
  | Ok (lss, m'), Ok gss =>
      okst m' hg gr /\ pending (fst m') (snd m') hg (ls ++ concat lss) (gs ++ concat gss) /\
      map (@length nat) lss = map (@length A) gss
  | Err e, Err e' => e = e'
  | _, _ => False
  end.
Proof.
  induction args as [|[[n ivs] l] args IH]; intros m hg gr ls gs Hok Hp HF; cbn [hpb_all mapM].
  - cbn [concat]. rewrite !app_nil_r. repeat split; auto; try apply Hok; apply Hp.
  - inversion HF as [|? ? Hl HF']; subst. cbn [fst snd] in *.
    destruct m as [h nx]. cbn [fst snd] in *. unfold fresh_pb at 1.
    destruct (pb n ivs (h l)) as [a|e]; cbn [bind]; [|reflexivity].
    destruct (okst_alloc h nx hg gr a Hok) as [Hok' Hp'].
    assert (Hp2 : pending (halloc h nx a) (nx + length a) hg (ls ++ seq nx (length a)) (gs ++ a)).
    { assert (Hold := pending_old h nx hg ls gs a Hp).
      destruct Hp as (P1 & P2 & P3 & P4). destruct Hp' as (Q1 & Q2 & Q3 & Q4).
      split; [|split; [|split]].
      - clear - P1 P3 Q1.
        induction ls as [|x ls IHl]; [exact Q1|]. cbn [app]. inversion P1; subst. constructor.
        + intros Hin. apply in_app_or in Hin as [?|Hin]; [contradiction|]. apply in_seq in Hin.
          specialize (P3 x (or_introl eq_refl)). lia.
        + apply IHl; [assumption|]. intros y Hy. apply P3. now right.
      - intros k j Hk Hin. apply in_app_or in Hin as [Hin|Hin]; [exact (P2 k j Hk Hin)|exact (Q2 k j Hk Hin)].
      - intros k Hk. apply in_app_or in Hk as [Hk|Hk]; [specialize (P3 k Hk); lia|now apply Q3].
      - rewrite map_app, Hold, P4, Q4. reflexivity. }
    specialize (IH (halloc h nx a, nx + length a) hg gr (ls ++ seq nx (length a)) (gs ++ a) Hok' Hp2 HF').
    cbn [fst snd] in IH.
    assert (Hsame : mapM (fun x => pb (fst (fst x)) (snd (fst x)) (halloc h nx a (snd x))) args =
                    mapM (fun x => pb (fst (fst x)) (snd (fst x)) (h (snd x))) args).
    { destruct Hok as (_ & _ & Hb). cbn [snd] in Hb. clear - HF' Hb.
      induction args as [|[[n' i'] l'] args IHa]; cbn [mapM]; [reflexivity|].
      inversion HF' as [|? ? Hx HF'']; subst. cbn [fst snd] in *. rewrite (IHa HF'').
      rewrite halloc_old; [reflexivity|]. exact (Hb _ _ Hx). }
    rewrite Hsame in IH.
    destruct (hpb_all hpb args (halloc h nx a, nx + length a)) as [[lss m2]|e];
      destruct (mapM _ args) as [gss|e']; cbn [bind]; try contradiction; [|assumption].
    destruct IH as (I1 & I2 & I3). cbn [concat map]. rewrite <- !app_assoc in I2.
    split; [assumption|]. split; [assumption|]. rewrite seq_length. now rewrite I3.
Qed.

Lemma hupdate_block_sim ns : forall lss gss x h nx hg gr,
  map (@length nat) lss = map (@length A) gss ->
  okst (h, nx) hg gr -> pending h nx hg (concat lss) (concat gss) ->
  exists h' hg' gr', hupdate_block g gadd ns lss h hg = (h', hg') /\
    update_block g gadd gzero x ns (map (map Some) gss) gr = Ok gr' /\ okst (h', nx) hg' gr'.
Proof.
  induction ns as [|n ns IH]; intros lss gss x h nx hg gr Hl Hok Hp; cbn [hupdate_block update_block].
  - exists h, hg, gr. auto.
  - destruct lss as [|ls lss], gss as [|gs gss]; try discriminate; cbn [hupdate_block update_block map].
    + exists h, hg, gr. auto.
    + cbn [concat map] in *. inversion Hl as [[Hl1 Hl2]].
      destruct Hok as (Hr & Hi & Hb). cbn [fst snd] in *.
      destruct (hadd_grads_ok (adj g n) ls (concat lss) gs (concat gss) h nx hg gr Hl1 Hr Hi Hb Hp) as (h' & hg' & -> & Hr' & Hi' & Hb' & Hp').
      unfold update_grad_vals at 1. rewrite fill_none_map. cbn [bind].
      apply IH; auto. split; [|split]; assumption.
Qed.

Lemma grad_block_sim m hg gr x blk : okst m hg gr ->
  sim (hgrad_block g gadd hpb vals m hg blk) (grad_block g pbo gadd gzero vals x gr blk).
Proof.
  intros Hok. unfold hgrad_block, grad_block.
  assert (Hargs :
    match mapM (fun n => bind (get_inputs g vals n) (fun a => bind (dget hg n) (fun l => Ok (n, a, l)))) blk,
          mapM (fun n => bind (get_inputs g vals n) (fun a => bind (dget gr n) (fun gv => Ok (n, a, gv)))) blk with
    | Ok args, Ok args' => args' = map (fun x => (fst x, fst m (snd x))) args /\
         Forall (fun x => hg (fst (fst x)) = Some (snd x)) args
    | Err e, Err e' => e = e'
    | _, _ => False end).
  { induction blk as [|n blk IH]; cbn [mapM].
    - split; [reflexivity|constructor].
    - destruct (get_inputs g vals n) as [a|e]; cbn [bind]; [|reflexivity].
      destruct (okst_dget m hg gr n Hok) as [(l & -> & -> & Hl)|[-> ->]]; cbn [bind]; [|reflexivity].
      destruct (mapM _ blk) as [args|e]; destruct (mapM _ blk) as [args'|e']; cbn [bind]; try contradiction; [|assumption].
      destruct IH as [-> HF]. cbn [map fst snd]. split; [reflexivity|]. now constructor. }
  destruct (mapM _ blk) as [args|e]; destruct (mapM _ blk) as [args'|e']; cbn [bind sim]; try contradiction; [|assumption].
  destruct Hargs as [-> HF].
  assert (Hp0 : pending (fst m) (snd m) hg [] []).
  { split; [constructor|]. split; [intros ? ? ? []|]. split; [intros ? []|reflexivity]. }
  assert (H := hpb_all_sim args m hg gr [] [] Hok Hp0 HF).
  assert (Hm : mapM (fun x => pbo (fst (fst x)) (snd (fst x)) (snd x)) (map (fun x => (fst x, fst m (snd x))) args) =
    bind (mapM (fun x => pb (fst (fst x)) (snd (fst x)) (fst m (snd x))) args) (fun gss => Ok (map (map Some) gss))).
  { clear. induction args as [|y args IH]; cbn [map mapM]; [reflexivity|]. cbn [fst snd]. unfold pbo at 1.
    destruct (pb _ _ _) as [gs|e]; cbn [bind]; [|reflexivity]. rewrite IH.
    destruct (mapM _ args) as [gss|e]; reflexivity. }
  rewrite Hm. clear Hm.
  destruct (hpb_all hpb args m) as [[lss [h' nx]]|e]; destruct (mapM _ args) as [gss|e']; cbn [bind sim]; try contradiction; [|assumption].
  destruct H as (H1 & H2 & H3). cbn [app fst snd] in *.
  destruct (hupdate_block_sim blk lss gss x h' nx hg gr H3 H1 H2) as (h2 & hg2 & gr2 & -> & -> & Hok2).
  exact Hok2.
Qed.

Lemma grad_loop_sim sched : forall blk m hg x gr, okst m hg gr ->
  sim (hgrad_loop g heavy gadd hpb vals sched blk m hg) (grad_loop g heavy pbo gadd gzero vals sched blk x gr).
Proof.
  induction sched as [|n sched IH]; intros blk m hg x gr Hok; cbn [hgrad_loop grad_loop].
  - destruct blk as [|b blk]; [exact Hok|]. now apply grad_block_sim.
  - assert (Hlight : forall m hg gr, okst m hg gr ->
      sim (bind (hgrad_light g gadd hpb vals m hg n) (fun '(m', hg') => hgrad_loop g heavy gadd hpb vals sched [] m' hg'))
          (bind (grad_light g pbo gadd gzero vals gr n) (fun '(grads', ivs') => grad_loop g heavy pbo gadd gzero vals sched [] (Some ivs') grads'))).
    { clear - IH. intros m hg gr Hok. assert (H := grad_light_sim m hg gr n Hok).
      destruct (hgrad_light g gadd hpb vals m hg n) as [[m1 hg1]|e]; destruct (grad_light g pbo gadd gzero vals gr n) as [[gr1 iv]|e'];
        cbn [bind fst sim] in *; try contradiction; [|assumption]. now apply IH. }
    destruct blk as [|b blk].
    + destruct (heavy n); [now apply IH|]. now apply Hlight.
    + destruct (heavy n); [now apply IH|].
      assert (H := grad_block_sim m hg gr x (b :: blk) Hok).
      destruct (hgrad_block g gadd hpb vals m hg (b :: blk)) as [[m1 hg1]|e]; destruct (grad_block g pbo gadd gzero vals x gr (b :: blk)) as [gr1|e'];
        cbn [bind sim] in *; try contradiction; [|assumption]. now apply Hlight.
Qed.

Lemma hbackward_refines sched out seed :
  match hbackward g heavy gadd hpb vals sched out seed, backward g heavy pbo gadd gzero vals sched out seed with
  | Ok ((h, nx), hg), Ok gr => forall n, gr n = option_map h (hg n)
  | Err e, Err e' => e = e'
  | _, _ => False
  end.
Proof.
  unfold hbackward, backward.
  assert (Hok : okst ((fun _ => seed), 1) (dset dempty out 0) (dset dempty out seed)).
  { split; [|split]; cbn [fst snd].
    - intros n. unfold dset, dempty. destruct (Nat.eqb n out); reflexivity.
    - intros n m l Hn Hm. unfold dset, dempty in Hn, Hm.
      destruct (Nat.eqb n out) eqn:E1; [|discriminate]. destruct (Nat.eqb m out) eqn:E2; [|discriminate].
      apply Nat.eqb_eq in E1, E2. congruence.
    - intros n l Hn. unfold dset, dempty in Hn. destruct (Nat.eqb n out); [|discriminate]. inversion Hn. lia. }
  assert (H := grad_loop_sim sched [] _ _ None _ Hok).
  destruct (hgrad_loop _ _ _ _ _ _ _ _ _) as [[[h nx] hg]|e]; destruct (grad_loop _ _ _ _ _ _ _ _ _ _) as [gr|e']; cbn [sim] in H; try contradiction; [|assumption].
  apply H.
Qed.
End HP.
