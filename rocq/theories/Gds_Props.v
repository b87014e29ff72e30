(** C50 (top cell of a GDS file) and C82 (polygons and boxes of a layer). *)
From Coq Require Import String.
From Verif Require Import QTac Gds_Model Gds_Spec Gds_Proofs.
Local Open Scope nat_scope.

(** *** C50 *)
Theorem top_cell_automatic : forall cells c, get_top_level_cell cells None = Ok c ->
  no_tie cells /\ exists a b, cells = a ++ c :: b /\ visible c /\ 0 < num_polys c /\
  forall d, In d (a ++ b) -> visible d -> num_polys d < num_polys c.
Proof. exact auto_ok. Qed.
Theorem top_cell_automatic_found : forall cells, no_tie cells -> (exists c, In c cells /\ visible c) ->
  exists c, get_top_level_cell cells None = Ok c.
Proof. exact auto_complete. Qed.
Theorem top_cell_automatic_errors : forall cells, (forall c, In c cells -> ~ visible c) \/ ~ no_tie cells ->
  get_top_level_cell cells None = Err ValueError.
Proof. exact auto_errors. Qed.
Theorem top_cell_by_name : forall cells s,
  (forall c, get_top_level_cell cells (Some s) = Ok c <->
     exists a b, cells = a ++ c :: b /\ name c = s /\ forall d, In d a -> name d <> s) /\
  (get_top_level_cell cells (Some s) = Err ValueError <-> forall c, In c cells -> name c <> s).
Proof.
  intros cells s. simpl. induction cells as [|x l IH]; simpl.
  - split; [|tauto]. intros c. split; [discriminate|]. intros (a & b & E & _). destruct a; discriminate.
  - destruct IH as [IH1 IH2]. destruct (String.eqb_spec (name x) s) as [E|E].
    + split.
      * intros c. split.
        -- intros H. inversion H; subst c. exists [], l. repeat split; auto.
        -- intros (a & b & Eq & Hn & Ha). destruct a as [|y a]; inversion Eq; subst; [reflexivity|]. exfalso. apply (Ha y); simpl; auto.
      * split; [discriminate|]. intros H. exfalso. apply (H x); auto.
    + split.
      * intros c. rewrite IH1. split.
        -- intros (a & b & -> & Hn & Ha). exists (x :: a), b. repeat split; auto. intros d [<-|Hd]; auto.
        -- intros (a & b & Eq & Hn & Ha). destruct a as [|y a]; inversion Eq; subst; [congruence|].
           exists a, b. repeat split; auto. intros d Hd. apply Ha. now right.
      * rewrite IH2. split; [intros H c [<-|Hc]; auto|intros H c Hc; apply H; now right].
Qed.
(** whether the choice succeeds depends on the order of the cells in the file *)
Definition tri : polygon := [(0, 0); (1, 0); (0, 1)]%Q.
Definition mkc (s : string) (n : nat) : cell := mkcell s [mkset (repeat tri n) (repeat 1 n) (repeat 0 n)].
Theorem top_cell_order_refuted : exists cells cells' c, Permutation cells cells' /\
  get_top_level_cell cells None = Ok c /\ get_top_level_cell cells' None = Err ValueError.
Proof.
  exists [mkc "a" 2; mkc "b" 3; mkc "c" 2], [mkc "a" 2; mkc "c" 2; mkc "b" 3], (mkc "b" 3).
  split; [apply perm_skip, perm_swap|split; reflexivity].
Qed.
(** one empty visible cell in front of the only cell with polygons is reported as a tie *)
Theorem top_cell_empty_refuted : exists cells c, In c cells /\ visible c /\ 0 < num_polys c /\
  (forall d, In d cells -> d <> c -> num_polys d = 0) /\ get_top_level_cell cells None = Err ValueError.
Proof.
  exists [mkc "a" 0; mkc "b" 3], (mkc "b" 3). repeat split; [simpl; auto|vm_compute; lia|].
  intros d [<-|[<-|[]]] H; [reflexivity|congruence].
Qed.
Example top_cell_case : get_top_level_cell [mkc "a" 2; mkc "$$$x" 9; mkc "b" 3; mkc "c" 0] None = Ok (mkc "b" 3).
Proof. reflexivity. Qed.
Example no_tie_case : no_tie [mkc "a" 2; mkc "$$$x" 9; mkc "b" 3; mkc "c" 0].
Proof.
  intros a c b E Hv. destruct a as [|? [|? [|? [|? a]]]]; inversion E; subst; try (vm_compute; intros K; discriminate); try discriminate.
  destruct a; discriminate.
Qed.

(** *** C82 *)
Theorem layer_polygons : forall c, (forall s, In s (sets c) -> layers s <> [] /\ datatypes s <> []) ->
  exists m, extract_layers c = Ok m /\ forall k,
  get_polygons m k = flat_map (fun s => if key_eqb (hd 0 (layers s), hd 0 (datatypes s)) k then polygons s else []) (sets c).
Proof. intros c H. destruct (@extract_spec (sets c) (fun _ => None) H) as (m & E & Hm). exists m. split; [exact E|exact Hm]. Qed.
(** a set whose polygons are on several layers is attributed to the layer of its first *)
Theorem layer_polygons_mixed_refuted : exists c m s i, extract_layers c = Ok m /\ In s (sets c) /\
  nth_error (layers s) i = Some 2 /\ nth_error (datatypes s) i = Some 0 /\ i < List.length (polygons s) /\ get_polygons m (2, 0) = [].
Proof.
  set (s := mkset [tri; tri] [1; 2] [0; 0]).
  destruct (@extract_spec [s] (fun _ => None)) as (m & E & Hm).
  { intros x [<-|[]]. split; discriminate. }
  exists (mkcell "a" [s]), m, s, 1. repeat split; auto; [now left|]. rewrite Hm. reflexivity.
Qed.
Theorem bounding_box_tight : forall p, p <> [] -> exists b, get_bounding_box p = Ok b /\
  (forall v, In v p -> (xmin b <= 1000 * fst v <= xmax b /\ ymin b <= 1000 * snd v <= ymax b)%Q) /\
  (exists v, In v p /\ xmin b == 1000 * fst v)%Q /\ (exists v, In v p /\ xmax b == 1000 * fst v)%Q /\
  (exists v, In v p /\ ymin b == 1000 * snd v)%Q /\ (exists v, In v p /\ ymax b == 1000 * snd v)%Q.
Proof. exact bounding_pf. Qed.
Theorem bounding_boxes_one_each : forall m k bs, get_bounding_boxes m k = Ok bs ->
  Forall2 (fun p b => get_bounding_box p = Ok b) (get_polygons m k) bs.
Proof.
  intros m k bs. unfold get_bounding_boxes, get_polygons. destruct (m k) as [ps|].
  - intros H. now apply mapM_ok_Forall2.
  - intros H. inversion H. constructor.
Qed.
Theorem box_geometry : forall b, (fst (box_center b) - fst (box_extents b) / 2 == xmin b /\ fst (box_center b) + fst (box_extents b) / 2 == xmax b /\
  snd (box_center b) - snd (box_extents b) / 2 == ymin b /\ snd (box_center b) + snd (box_extents b) / 2 == ymax b)%Q.
Proof. intros b. simpl. repeat split; field. Qed.
Example layer_case : match extract_layers (mkcell "a" [mkset [tri] [1] [0]; mkset [] [2] [0]; mkset [tri; tri] [1] [0]]) with
  | Ok m => List.length (get_polygons m (1, 0)) = 3 /\ get_polygons m (2, 0) = [] /\ get_polygons m (7, 0) = [] | Err _ => False end.
Proof. repeat split. Qed.
Example box_case : exists b, get_bounding_box [(1, 2); (3, -1); (2, 5)]%Q = Ok b /\ (xmin b == 1000 /\ xmax b == 3000 /\ ymin b == -1000 /\ ymax b == 5000)%Q.
Proof. eexists. repeat split. Qed.

Print Assumptions top_cell_automatic.
Print Assumptions top_cell_automatic_found.
Print Assumptions top_cell_automatic_errors.
Print Assumptions top_cell_by_name.
Print Assumptions top_cell_order_refuted.
Print Assumptions top_cell_empty_refuted.
Print Assumptions layer_polygons.
Print Assumptions layer_polygons_mixed_refuted.
Print Assumptions bounding_box_tight.
Print Assumptions bounding_boxes_one_each.
Print Assumptions box_geometry.
