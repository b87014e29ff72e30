(** Properties C127-C129: adding up gradients of flows; constancy flags; renaming shapes. *)
From Coq Require Import QArith String ZArith.
From Verif Require Import Base GraphExec_Model Flow_Model Flow_Spec Flow_Proofs Flow_Proofs2 Flow_Proofs3 Flow_Proofs4.
Set Implicit Arguments.
Local Open Scope nat_scope.
Local Open Scope string_scope.
Local Open Scope list_scope.

(** ** C127.  Whatever the hierarchy of classes, adding gradients succeeds if all fields have matching
    lengths, and adds the second as often as there are classes in the line of inheritance whose gradient has
    the field. *)
Theorem gradient_sum_counts_classes :
  forall t c m sh g gs, lineage t c m ->
  shaped c (flat_map (fields_of t) m) sh g -> Forall (shaped c (flat_map (fields_of t) m) sh) gs ->
  exists r, accumulate t g gs = Ok r /\ shaped c (flat_map (fields_of t) m) sh r /\
    forall f i, (entry r f i == entry g f i + inject_Z (Z.of_nat (times t m f)) * total f i gs)%Q.
Proof. intros t c m sh g gs L. exact (@accumulate_times t c m sh gs L g). Qed.
Print Assumptions gradient_sum_counts_classes.
(** So the sum is right for all gradients exactly if no field occurs in two classes. *)
Theorem gradient_sum_right_iff :
  forall t c m, lineage t c m ->
  ((forall sh a b, shaped c (flat_map (fields_of t) m) sh a -> shaped c (flat_map (fields_of t) m) sh b ->
      exists r, gobj_iadd t a b = Ok r /\
        forall f i, In f (flat_map (fields_of t) m) -> (entry r f i == entry a f i + entry b f i)%Q)
   <-> (forall f, In f (flat_map (fields_of t) m) -> times t m f = 1)).
Proof. exact sum_right_iff. Qed.
Print Assumptions gradient_sum_right_iff.
(** In a line of classes below Flow the gradient of a field declared [d] classes above is added [d + 1] times. *)
Theorem gradient_sum_line_of_classes :
  forall ls c sh a b, c <= List.length ls -> NoDup (concat ls) ->
  shaped c (concat (firstn c ls)) sh a -> shaped c (concat (firstn c ls)) sh b ->
  exists r, gobj_iadd (chain ls) a b = Ok r /\ shaped c (concat (firstn c ls)) sh r /\
    forall j f i, In f (nth j ls []) -> (entry r f i == entry a f i + inject_Z (Z.of_nat (c - j)) * entry b f i)%Q.
Proof. exact chain_iadd. Qed.
Print Assumptions gradient_sum_line_of_classes.
Example line_of_classes_case :
  match gobj_iadd (chain [["f"]; ["g"]; ["h"]]) (mkg 3 [("f", Vec [1]); ("g", Vec [1]); ("h", Vec [1])])%Q
                 (mkg 3 [("f", Vec [10]); ("g", Vec [10]); ("h", Vec [10])])%Q with
  | Ok r => (entry r "f" 0 == 31 /\ entry r "g" 0 == 21 /\ entry r "h" 0 == 11)%Q
  | Err _ => False
  end.
Proof. vm_compute. repeat split. Qed.
(** The classes of the library: position and rotation of cuboids, cylinders and spheres, and position,
    rotation and pixels of pixelated shapes are counted double from the second use on; everything else is
    right. *)
Theorem library_gradient_sum :
  forall c sh g gs, c <= 6 ->
  shaped c (inherited c ++ own_fields c) sh g -> Forall (shaped c (inherited c ++ own_fields c) sh) gs ->
  exists r, accumulate goos_classes g gs = Ok r /\ shaped c (inherited c ++ own_fields c) sh r /\
    (forall f i, In f (inherited c) -> (entry r f i == entry g f i + 2 * total f i gs)%Q) /\
    (forall f i, In f (own_fields c) -> (entry r f i == entry g f i + total f i gs)%Q).
Proof. exact lib_accumulate. Qed.
Print Assumptions library_gradient_sum.
Example cuboid_three_uses :
  match accumulate goos_classes
     (mkg cCuboid [("pos", Vec [1; 2; 3]); ("rot", Vec [0; 0; 0]); ("extents", Vec [1; 1; 1])])%Q
     [mkg cCuboid [("pos", Vec [10; 0; 0]); ("rot", Vec [0; 0; 0]); ("extents", Vec [5; 5; 5])];
      mkg cCuboid [("pos", Vec [100; 0; 0]); ("rot", Vec [0; 0; 7]); ("extents", Vec [6; 6; 6])]]%Q with
  | Ok r => (entry r "pos" 0 == 221 /\ entry r "rot" 2 == 14 /\ entry r "extents" 1 == 12)%Q
  | Err _ => False
  end.
Proof. vm_compute. repeat split. Qed.
(** In a graph: the variable holds the pixel of a shape that is used by two functions with slopes [a] and [b];
    the gradient of their sum is not [a + b] unless [b] is zero. *)
Theorem shape_used_twice_refuted :
  forall a b, exists r,
  eval_grad twice_inputs (fun _ => false) (fun _ _ => Ok tt) (twice_pb a b) gadd_lib (fun _ => seed_one) (fun _ => seed_one)
    seed_one (fun _ l => l) 6 4 [0] (dset dempty 0 tt) = Ok [r] /\
  (entry r "array" 0 == a + 2 * b)%Q.
Proof. exact twice_gradient. Qed.
Print Assumptions shape_used_twice_refuted.
(** A gradient of a class without the field makes the addition raise AttributeError; the other way round the
    fields are lost. *)
Theorem pixel_gradient_plus_number :
  forall sh a l, shaped cPixel ["array"; "pos"; "rot"; "extents"] sh a -> List.length l = sh "array" ->
  gobj_iadd goos_classes a (mkg cNumeric [("array", Vec l)]) = Err AttributeError.
Proof. exact pixel_plus_numeric. Qed.
Print Assumptions pixel_gradient_plus_number.
Theorem number_plus_pixel_gradient :
  forall l b l', sget (g_att b) "array" = Some (Vec l') -> List.length l' = List.length l ->
  exists r, gobj_iadd goos_classes (mkg cNumeric [("array", Vec l)]) b = Ok r /\ sget (g_att r) "pos" = None.
Proof. exact numeric_plus_pixel. Qed.
Print Assumptions number_plus_pixel_gradient.
Example pixel_plus_number_case :
  gobj_iadd goos_classes (mkg cPixel [("array", Vec [1; 2]); ("pos", Vec [0]); ("rot", Vec [0]); ("extents", Vec [0])])%Q
    (mkg cNumeric [("array", Vec [3; 4])])%Q = Err AttributeError.
Proof. vm_compute. reflexivity. Qed.
(** The gradient that stands for a missing one is no zero: adding a gradient with a field of other than one
    entry to it raises ValueError. *)
Theorem missing_gradient_not_zero :
  forall c sh b d, c <= 6 -> grad_new goos_classes c [] = Ok d ->
  shaped c (inherited c ++ own_fields c) sh b -> (exists f, In f (inherited c ++ own_fields c) /\ sh f <> 1) ->
  gobj_iadd goos_classes d b = Err ValueError.
Proof. exact default_then_real. Qed.
Print Assumptions missing_gradient_not_zero.
Example missing_gradient_case :
  exists d, grad_new goos_classes cNumeric [] = Ok d /\
    gobj_iadd goos_classes d (mkg cNumeric [("array", Vec [1; 2])])%Q = Err ValueError /\
    exists r, gobj_iadd goos_classes (mkg cNumeric [("array", Vec [1; 2])])%Q d = Ok r /\ (entry r "array" 1 == 2)%Q.
Proof.
  eexists. split; [vm_compute; reflexivity|]. split; [vm_compute; reflexivity|].
  eexists. split; [vm_compute; reflexivity|]. vm_compute. reflexivity.
Qed.
(** Gradients for two elements of an array of flows do not disturb each other; for one element they are added
    as gradients of its class. *)
Theorem array_gradients_apart :
  forall t n i j g h, i <> j ->
  ggrad_iadd t (index_grad n i g) (index_grad n j h) =
  Ok (GList (map (fun k => if Nat.eqb k i then GObj g else if Nat.eqb k j then GObj h else GNone) (seq 0 n))).
Proof. exact index_grads_apart. Qed.
Print Assumptions array_gradients_apart.
Theorem array_gradients_same :
  forall t n i g h r, i < n -> gobj_iadd t g h = Ok r ->
  ggrad_iadd t (index_grad n i g) (index_grad n i h) = Ok (index_grad n i r).
Proof. exact index_grads_same. Qed.
Print Assumptions array_gradients_same.
Example array_gradient_case :
  ggrad_iadd goos_classes (index_grad 3 0 seed_one) (index_grad 3 2 seed_one) = Ok (GList [GObj seed_one; GNone; GObj seed_one]).
Proof. reflexivity. Qed.

(** ** C128.  Flags that are set are right: between two evaluations that differ in variables that are not
    frozen, a flow marked as frozen does not change, nor does a field marked as frozen (and with no variable
    frozen: flows and fields marked constant never change). *)
Theorem flags_are_sound :
  forall X (p : prog X) frozen v w a b, prog_ok p -> agree frozen v w ->
  run goos_classes v frozen p = Ok a -> run goos_classes w frozen p = Ok b ->
  forall k f fl f' fl', nth_error a k = Some (f, fl) -> nth_error b k = Some (f', fl') -> flags_hold fl f f'.
Proof. exact flags_sound. Qed.
Print Assumptions flags_are_sound.
(** variable 0, a constant, a cuboid with variable extents at a constant position, translated, a group, functions *)
Definition demo_fun (l : list (flow nat)) : res (flow nat) :=
  match l with Rec _ _ fs :: _ => Ok (Rec cNumeric 0 fs) | _ => Err TypeError end.
Definition demo2 : prog nat :=
  [(NVar 0, []); (NConst 5, []); (NShape (cuboid 1), [0; 1; 1]); (NTranslate (fun x => x + 1), [2]);
   (NFun demo_fun, [1; 0]); (NGroup, [2; 3]); (NIndex 1, [5]); (NFun demo_fun, [1; 1])].
Example demo2_ok : prog_ok demo2.
Proof.
  assert (D : forall l r, demo_fun l = Ok r -> exists c p fs, r = Rec c p fs /\ 1 <= c <= 6).
  { intros [|[c p fs|l'] l] r E; try discriminate. inversion E; subst. exists cNumeric, 0%Z, fs.
    split; [reflexivity|unfold cNumeric; lia]. }
  intros k n ins H.
  do 8 (destruct k as [|k]; [cbn in H; injection H as <- <-; first [exact I | exact D | left; eexists; reflexivity]|]).
  destruct k; discriminate H.
Qed.
Example demo2_run :
  exists a, run goos_classes (fun _ => 7) (fun _ => false) demo2 = Ok a /\
    map (fun q => ftrue (snd q)) a = [false; true; false; false; false; false; false; true] /\
    option_map (fun q => fattr (snd q) "pos") (nth_error a 3) = Some (Ok true) /\
    option_map (fun q => fattr (snd q) "extents") (nth_error a 3) = Some (Ok false).
Proof. eexists. split; [vm_compute; reflexivity|]. repeat split. Qed.
(** The flags are cautious: cylinders, spheres, pixelated shapes and parametrizations are never constant,
    whatever they are made of; cuboids are if their inputs are. *)
Theorem shapes_never_constant :
  forall X (s : shape_node X) ins fl, library_shape s -> (forall p, s <> cuboid p) ->
  shape_flags goos_classes s ins = Ok fl -> ftrue fl = false.
Proof. exact shape_never_constant. Qed.
Print Assumptions shapes_never_constant.
Theorem cuboid_flags :
  forall X prio a b c,
  shape_flags goos_classes (cuboid prio : shape_node X) [FRec [("array", a)]; FRec [("array", b)]; FRec [("array", c)]] =
  Ok (FRec [("pos", b); ("rot", c); ("extents", a)]).
Proof. exact cuboid_constant. Qed.
Print Assumptions cuboid_flags.
(** A node without flags of its own that returns an array of flows, such as a simulation, is marked constant
    and frozen whatever it depends on, and so is everything made of its elements. *)
Definition simulation (l : list (flow nat)) : res (flow nat) := Ok (ArrF l).
Theorem array_node_flags_refuted :
  exists (p : prog nat) v w a b, run goos_classes v (fun _ => false) p = Ok a /\ run goos_classes w (fun _ => false) p = Ok b /\
    p = [(NVar 0, []); (NFun simulation, [0]); (NIndex 0, [1])] /\
    exists f fl f' fl', nth_error a 2 = Some (f, fl) /\ nth_error b 2 = Some (f', fl') /\ ftrue fl = true /\ ftrue fl' = true /\ f <> f'.
Proof.
  exists [(NVar 0, []); (NFun simulation, [0]); (NIndex 0, [1])], (fun _ => 1), (fun _ => 2).
  do 2 eexists. split; [vm_compute; reflexivity|]. split; [vm_compute; reflexivity|]. split; [reflexivity|].
  do 4 eexists. split; [reflexivity|]. split; [reflexivity|]. split; [reflexivity|]. split; [reflexivity|]. discriminate.
Qed.
Print Assumptions array_node_flags_refuted.
(** The flags of the elements of a group are in the order in which the shapes were given, its flows in the order
    of drawing: the first flag is set although the first flow changes. *)
Theorem group_flag_order_refuted :
  exists (p : prog nat) v w a b, prog_ok p /\ run goos_classes v (fun _ => false) p = Ok a /\ run goos_classes w (fun _ => false) p = Ok b /\
    exists l fls l' fls' x y fl, nth_error a 4 = Some (ArrF l, FArr fls) /\ nth_error b 4 = Some (ArrF l', FArr fls') /\
      nth_error fls 0 = Some fl /\ ftrue fl = true /\ nth_error l 0 = Some x /\ nth_error l' 0 = Some y /\ x <> y.
Proof.
  exists [(NVar 0, []); (NConst 5, []); (NShape (cuboid 1), [1; 1; 1]); (NShape (cuboid 0), [0; 0; 0]); (NGroup, [2; 3])],
    (fun _ => 1), (fun _ => 2).
  do 2 eexists. split.
  { intros k n ins H.
    do 5 (destruct k as [|k]; [cbn in H; injection H as <- <-; first [exact I | left; eexists; reflexivity]|]).
    destruct k; discriminate H. }
  split; [vm_compute; reflexivity|]. split; [vm_compute; reflexivity|].
  do 7 eexists. split; [reflexivity|]. split; [reflexivity|]. split; [reflexivity|]. split; [reflexivity|].
  split; [reflexivity|]. split; [reflexivity|]. discriminate.
Qed.
Print Assumptions group_flag_order_refuted.

(** ** C129.  Casting a node to the class of a cuboid, cylinder, sphere, pixelated shape or parametrization,
    which is what renaming a shape and taking a shape out of a group do, gives a node that cannot be
    evaluated. *)
Theorem cast_to_shape_class_raises :
  forall X v frozen (p : prog X) i s done f fl, library_shape s ->
  run goos_classes v frozen p = Ok done -> nth_error done i = Some (f, fl) ->
  exists e, run goos_classes v frozen (p ++ [(NCast (TShape s), [i])]) = Err e /\ (e = AttributeError \/ e = IndexError) /\
    ((forall b, fattr fl "array" <> Ok b) -> (forall e r h, s <> old_param e r h) -> e = AttributeError).
Proof. exact cast_to_shape. Qed.
Print Assumptions cast_to_shape_class_raises.
(** a group of one cuboid evaluates; its first element, taken as a cuboid, does not *)
Example group_element_case :
  is_ok (run goos_classes (fun _ => 7) (fun _ => false) [(NConst 5, []); (NShape (cuboid 0), [0; 0; 0]); (NGroup, [1]); (NIndex 0, [2])]) = true /\
  run goos_classes (fun _ => 7) (fun _ => false)
    [(NConst 5, []); (NShape (cuboid 0), [0; 0; 0]); (NGroup, [1]); (NIndex 0, [2]); (NCast (TShape (cuboid 0)), [3])] = Err AttributeError.
Proof. split; vm_compute; reflexivity. Qed.
Theorem cast_of_shape_raises :
  forall X v frozen (p : prog X) i s js done f fl, library_shape s ->
  run goos_classes v frozen p = Ok done -> nth_error p i = Some (NShape s, js) -> nth_error done i = Some (f, fl) ->
  exists e, run goos_classes v frozen (p ++ [(NCast TPlain, [i])]) = Err e /\ (e = AttributeError \/ e = IndexError).
Proof. exact cast_of_shape. Qed.
Print Assumptions cast_of_shape_raises.
Example cast_of_shape_case :
  run goos_classes (fun _ => 7) (fun _ => false)
    [(NConst 5, []); (NShape (cuboid 0), [0; 0; 0]); (NCast TPlain, [1])] = Err AttributeError /\
  is_ok (run goos_classes (fun _ => 7) (fun _ => false)
    [(NConst 5, []); (NShape (cuboid 0), [0; 0; 0]); (NTranslate (fun x => x), [1]); (NCast TPlain, [2])]) = true.
Proof. split; vm_compute; reflexivity. Qed.
(** Variables, functions, constants, translated shapes and groups can be renamed: the new node has the value of
    the old. *)
Theorem rename_others :
  forall X v frozen (p : prog X) i n js done f fl, (forall s, n <> NShape s) -> (forall k, n <> NCast k) ->
  run goos_classes v frozen p = Ok done -> nth_error p i = Some (n, js) -> nth_error done i = Some (f, fl) ->
  (exists d, default_flags goos_classes f = Ok d) ->
  exists fl', run goos_classes v frozen (p ++ [(NCast (class_of n), [i])]) = Ok (done ++ [(f, fl')]).
Proof. exact rename_other. Qed.
Print Assumptions rename_others.
Example rename_case :
  option_map (fun q => fst q) (nth_error (match run goos_classes (fun _ => 7) (fun _ => false)
    [(NConst 5, []); (NShape (cuboid 0), [0; 0; 0]); (NTranslate (fun x => x + 2), [1]); (NCast TTranslate, [2])] with Ok l => l | Err _ => [] end) 3)
  = Some (Rec cCuboid 0 [("extents", 5); ("pos", 7); ("rot", 5)]).
Proof. vm_compute. reflexivity. Qed.
