(** Gradients of mixed classes, arrays of gradients, and a shape used twice in a graph. *)
From Coq Require Import QArith String ZArith Lqa.
From Verif Require Import Base GraphExec_Model Flow_Model Flow_Spec Flow_Proofs Flow_Proofs2.
Set Implicit Arguments.
Local Open Scope nat_scope.
Local Open Scope string_scope.

(** *** a gradient lacking a field *)
Theorem lacking_field t c m sh a b f : lineage t c m -> In f (flat_map (fields_of t) m) ->
  shaped c (flat_map (fields_of t) m) sh a -> sget (g_att b) f = None ->
  (forall f' y, sget (g_att b) f' = Some y -> exists l, y = Vec l /\ List.length l = sh f') ->
  gobj_iadd t a b = Err AttributeError.
Proof.
  intros L Hf Ha Hb Hy. unfold gobj_iadd. destruct L as [L1 L2].
  assert (Hc := proj1 Ha). rewrite Hc, L1. cbn [bind].
  set (all := flat_map (fields_of t) m) in *.
  assert (F : forall fs, incl fs all -> forall a, shaped c all sh a ->
            (In f fs -> add_fields a b fs = Err AttributeError) /\
            (add_fields a b fs = Err AttributeError \/ exists r, add_fields a b fs = Ok r /\ shaped c all sh r)).
  { clear a Ha Hc. induction fs as [|k fs IH]; intros Hi a Ha.
    - split; [intros []|]. right. now exists a.
    - destruct (proj2 Ha k (Hi k (or_introl eq_refl))) as (l & El & Ll).
      cbn [add_fields]. unfold add_field. rewrite El.
      destruct (sget (g_att b) k) as [y|] eqn:Ey.
      + destruct (Hy k y Ey) as (l' & -> & Ll').
        cbn [gval_iadd bind]. rewrite Ll', Ll, Nat.eqb_refl. cbn [bind].
        set (a' := mkg (g_cls a) (sset (g_att a) k (Vec (vplus l l')))).
        assert (Ha' : shaped c all sh a').
        { split; [exact (proj1 Ha)|]. intros f' Hf'. simpl. destruct (string_dec k f') as [<- | N].
          - rewrite sget_sset_same. eexists. split; [reflexivity|]. rewrite vplus_length; lia.
          - rewrite sget_sset_other by exact N. exact (proj2 Ha f' Hf'). }
        destruct (IH (fun x Hx => Hi x (or_intror Hx)) a' Ha') as [I1 I2]. split; [|exact I2].
        intros [-> | Hin]; [congruence|]. now apply I1.
      + split; [reflexivity|]. now left. }
  assert (G : forall m', incl m' m -> (exists k, In k m' /\ In f (fields_of t k)) -> forall a, shaped c all sh a ->
              iadd_along t m' a b = Err AttributeError).
  { clear a Ha Hc. induction m' as [|k m' IH]; intros Hi (k0 & Hk0 & Hfk) a Ha; [contradiction|].
    cbn [iadd_along]. destruct (L2 k (Hi k (or_introl eq_refl))) as (fs & Ek). rewrite Ek. cbn [bind].
    assert (Hfs : incl fs all).
    { intros x Hx. apply in_flat_map. exists k. split; [apply Hi; now left|]. unfold fields_of. now rewrite Ek. }
    destruct (F fs Hfs a Ha) as [F1 F2]. destruct (in_dec string_dec f fs) as [Hin|Hout].
    - now rewrite F1.
    - destruct F2 as [-> | (r & -> & Hr)]; [reflexivity|]. cbn [bind].
      apply IH; [intros x Hx; apply Hi; now right| |exact Hr].
      exists k0. split; [|exact Hfk]. destruct Hk0 as [<- | Hk0]; [|exact Hk0].
      unfold fields_of in Hfk. rewrite Ek in Hfk. contradiction. }
  apply G; [apply incl_refl| |exact Ha]. apply in_flat_map in Hf. destruct Hf as (k & Hk & Hf). now exists k.
Qed.
Theorem pixel_plus_numeric sh a l : shaped cPixel ["array"; "pos"; "rot"; "extents"] sh a -> List.length l = sh "array" ->
  gobj_iadd goos_classes a (mkg cNumeric [("array", Vec l)]) = Err AttributeError.
Proof.
  intros Ha Hl. apply (@lacking_field goos_classes cPixel (order cPixel) sh a _ "pos").
  - apply lib_lineage. unfold cPixel. lia.
  - apply (@lib_fields cPixel "pos"); [unfold cPixel; lia|]. cbn. tauto.
  - apply (@lib_shaped cPixel sh a); [unfold cPixel; lia|]. exact Ha.
  - reflexivity.
  - intros f' y Hy. cbn [sget g_att] in Hy. destruct (String.eqb "array" f') eqn:E; [|discriminate].
    apply String.eqb_eq in E. subst f'. inversion Hy; subst. eauto.
Qed.
Theorem numeric_plus_pixel l b l' : sget (g_att b) "array" = Some (Vec l') -> List.length l' = List.length l ->
  exists r, gobj_iadd goos_classes (mkg cNumeric [("array", Vec l)]) b = Ok r /\ sget (g_att r) "pos" = None.
Proof.
  intros Hb Hl. unfold gobj_iadd. cbn [g_cls mro cls]. cbn. rewrite Hb. cbn. rewrite Hl, Nat.eqb_refl. cbn.
  eexists. split; reflexivity.
Qed.
(** the gradient that stands for a missing one, then a real one *)
Theorem default_then_real c sh b d : c <= 6 -> grad_new goos_classes c [] = Ok d ->
  shaped c (inherited c ++ own_fields c) sh b -> (exists f, In f (inherited c ++ own_fields c) /\ sh f <> 1) ->
  gobj_iadd goos_classes d b = Err ValueError.
Proof.
  intros Hc Hd Hb (f & Hf & Hsh).
  assert (F : forall fs a, (forall k, In k fs -> sget (g_att a) k = Some (Vec [0%Q]) \/ exists q, sget (g_att a) k = Some (Vec [q])) ->
            (forall k, In k fs -> In k (inherited c ++ own_fields c)) ->
            (exists k, In k fs /\ sh k <> 1) -> add_fields a b fs = Err ValueError).
  { induction fs as [|k fs IH]; intros a Ha Hi (k0 & Hk0 & Hs); [contradiction|].
    destruct (proj2 Hb k (Hi k (or_introl eq_refl))) as (l & El & Ll).
    cbn [add_fields]. unfold add_field. rewrite El.
    assert (exists q, sget (g_att a) k = Some (Vec [q])) as (q & Eq).
    { destruct (Ha k (or_introl eq_refl)) as [E|E]; [now exists 0%Q|exact E]. }
    rewrite Eq. cbn [gval_iadd bind List.length]. rewrite Ll.
    destruct (Nat.eqb (sh k) 1) eqn:E1.
    - cbn [bind]. apply IH.
      + intros k' Hk'. cbn [g_att]. destruct (string_dec k k') as [<- | N].
        * rewrite sget_sset_same. right. destruct l as [|x [|]]; simpl in Ll; try (apply Nat.eqb_eq in E1; lia).
          eexists. reflexivity.
        * rewrite sget_sset_other by exact N. apply Ha. now right.
      + intros k' Hk'. apply Hi. now right.
      + exists k0. split; [|exact Hs]. destruct Hk0 as [<- | Hk0]; [|exact Hk0]. apply Nat.eqb_eq in E1. contradiction.
    - apply Nat.eqb_neq in E1. destruct l as [|x [|y l]]; [reflexivity|simpl in Ll; lia|reflexivity]. }
  revert Hf Hsh F. revert c Hc Hd Hb. refine (lib_cases _ _ _ _ _ _ _ _); intros Hd Hb Hf Hsh F;
    (vm_compute in Hd; injection Hd as <-; unfold gobj_iadd; cbn [g_cls];
     match goal with |- context [mro ?a ?b ?c] => let v := eval vm_compute in (mro a b c) in change (mro a b c) with v end;
     cbn [bind iadd_along];
     match goal with |- context [grad_fields goos_classes ?c] => let v := eval vm_compute in (grad_fields goos_classes c) in change (grad_fields goos_classes c) with v end;
     cbn [bind]).
  { contradiction. }
  all: rewrite F; [reflexivity| | |].
  all: try (intros k Hk; cbn in Hk; repeat (destruct Hk as [<- | Hk]; [cbn; tauto|]); contradiction).
  all: exists f; split; [|exact Hsh]; cbn in Hf |- *; tauto.
Qed.

(** *** arrays of gradients *)
Theorem index_grads_apart t n i j g h : i <> j ->
  ggrad_iadd t (index_grad n i g) (index_grad n j h) =
  Ok (GList (map (fun k => if Nat.eqb k i then GObj g else if Nat.eqb k j then GObj h else GNone) (seq 0 n))).
Proof.
  intros N. unfold index_grad. cbn [ggrad_iadd].
  enough (E : forall l, (fix loop (xs ys : list ggrad) : res (list ggrad) :=
        match xs, ys with
        | [], _ => Ok []
        | _ :: _, [] => Err IndexError
        | x :: xs', y :: ys' => bind (ggrad_iadd t x y) (fun r => bind (loop xs' ys') (fun rs => Ok (r :: rs)))
        end) (map (fun k => if Nat.eqb k i then GObj g else GNone) l) (map (fun k => if Nat.eqb k j then GObj h else GNone) l)
      = Ok (map (fun k => if Nat.eqb k i then GObj g else if Nat.eqb k j then GObj h else GNone) l)) by (rewrite E; destruct (map _ (seq 0 n)); reflexivity).
  induction l as [|k l IH]; [reflexivity|]. cbn [map].
  destruct (Nat.eqb k i) eqn:Ei.
  - apply Nat.eqb_eq in Ei. subst k. assert (Ej : Nat.eqb i j = false) by now apply Nat.eqb_neq. rewrite Ej.
    cbn [ggrad_iadd bind]. rewrite IH. reflexivity.
  - cbn [ggrad_iadd bind]. rewrite IH. reflexivity.
Qed.
Theorem index_grads_same t n i g h r : i < n -> gobj_iadd t g h = Ok r ->
  ggrad_iadd t (index_grad n i g) (index_grad n i h) = Ok (index_grad n i r).
Proof.
  intros Hi E0. unfold index_grad. cbn [ggrad_iadd].
  enough (E : forall l, (fix loop (xs ys : list ggrad) : res (list ggrad) :=
        match xs, ys with
        | [], _ => Ok []
        | _ :: _, [] => Err IndexError
        | x :: xs', y :: ys' => bind (ggrad_iadd t x y) (fun r => bind (loop xs' ys') (fun rs => Ok (r :: rs)))
        end) (map (fun k => if Nat.eqb k i then GObj g else GNone) l) (map (fun k => if Nat.eqb k i then GObj h else GNone) l)
      = Ok (map (fun k => if Nat.eqb k i then GObj r else GNone) l)) by (rewrite E; destruct (map _ (seq 0 n)); reflexivity).
  induction l as [|k l IH]; [reflexivity|]. cbn [map].
  destruct (Nat.eqb k i); cbn [ggrad_iadd bind]; rewrite ?E0; cbn [bind]; rewrite IH; reflexivity.
Qed.

(** *** a pixelated shape with two uses *)
(** node 4 is the sum of 2 and 3, both functions of the shape 1, whose pixels are the variable 0 *)
Definition twice_inputs (n : nat) : list nat := match n with 4 => [2; 3] | 2 => [1] | 3 => [1] | 1 => [0] | _ => [] end.
(** nodes 2 and 3 multiply the pixel by [a] and [b]: they return gradients of the class of the shape
    (Norm, Slice, DotProduct and the rendering do so); PixelatedContShape.grad hands on the gradient of the
    pixels, shapes.py:333-341 *)
Definition scaled (x : Q) (g : gobj) : Q := (x * entry g "array" 0)%Q.
Definition twice_pb (a b : Q) (n : nat) (ivs : list unit) (g : gobj) : res (list (option gobj)) :=
  match n with
  | 4 => Ok [Some g; Some g]
  | 2 => bind (grad_new goos_classes cPixel [("array", Vec [scaled a g])]) (fun r => Ok [Some r])
  | 3 => bind (grad_new goos_classes cPixel [("array", Vec [scaled b g])]) (fun r => Ok [Some r])
  | 1 => match sget (g_att g) "pos", sget (g_att g) "rot", sget (g_att g) "array" with
         | Some _, Some _, Some x => Ok [Some (mkg cNumeric [("array", x)])]
         | _, _, _ => Err AttributeError
         end
  | _ => Ok []
  end.
Definition gadd_lib (x y : gobj) : gobj := match gobj_iadd goos_classes x y with Ok r => r | Err _ => x end.
Definition seed_one : gobj := mkg cNumeric [("array", Vec [1%Q])].
Theorem twice_gradient a b : exists r,
  eval_grad twice_inputs (fun _ => false) (fun _ _ => Ok tt) (twice_pb a b) gadd_lib (fun _ => seed_one) (fun _ => seed_one)
    seed_one (fun _ l => l) 6 4 [0] (dset dempty 0 tt) = Ok [r] /\
  (entry r "array" 0 == a + 2 * b)%Q.
Proof.
  eexists. split; [cbv -[Qplus Qmult]; reflexivity|].
  unfold entry. cbn -[Qplus Qmult]. ring.
Qed.
