(** Theorems about the client of the external Maxwell solver: C143, C144. *)
From Coq Require Import ZArith.
From Verif Require Import Base CField CField_Proofs Gauss Remote_Model Remote_Spec Remote_Proofs Remote_Proofs2.
Set Implicit Arguments.

(** C143.  A field with the requested symmetries comes back whole if the server returns its upper half. *)
Theorem remote_symmetric (K : cfield) (is_one : K -> bool) n kind root server (q : args K) (F : field K) :
  driven kind -> adjoint q = false -> info q = false -> (forall a, 0 < get a n) ->
  (forall a, active (symmetry q a) = true -> Nat.even (get a n) = true) ->
  has_shape n F -> symmetric true (symmetry q) F ->
  field_eq (an_field (server (make_request is_one n kind q)) 0) (part (start n (symmetry q)) F) ->
  exists E, snd (solve is_one n kind root server q) = Ok (RField E) /\ field_eq E F.
Proof.
  intros Hk Ha Hi Hn Hev HF Hs HE. rewrite (@solve_driven K is_one n kind root server q Hk), Ha, Hi.
  destruct (@unfold_symmetric K (symmetry q) _ F n HF Hn Hev Hs HE) as (E & -> & H). exists E. now split.
Qed.
Print Assumptions remote_symmetric.
(** the same for modes, with the roots of the numbers returned *)
Theorem remote_symmetric_modes (K : cfield) (is_one : K -> bool) n root server (q : args K) (F : nat -> field K) :
  adjoint q = false -> info q = false -> (forall a, 0 < get a n) ->
  (forall a, active (symmetry q a) = true -> Nat.even (get a n) = true) ->
  let an := server (make_request is_one n JacobiDavidson q) in
  (forall i, i < neig q -> has_shape n (F i) /\ symmetric true (symmetry q) (F i) /\ field_eq (an_field an i) (part (start n (symmetry q)) (F i))) ->
  exists l, snd (solve is_one n JacobiDavidson root server q) = Ok (RModes l) /\ length l = neig q /\
    forall i, i < neig q -> exists E, nth_error l i = Some (E, root (an_q an i)) /\ field_eq E (F i).
Proof.
  intros Ha Hi Hn Hev an H. unfold solve. cbn [snd]. rewrite open_modes. cbn [bind]. rewrite Ha, Hi. fold an.
  assert (M : forall k, k <= neig q -> forall j, j + k <= neig q -> exists l, mapM (fun i => apply_symmetry (symmetry q) (an_field an i)) (seq j k) = Ok l /\ length l = k /\
    forall i, i < k -> exists E, nth_error l i = Some E /\ field_eq E (F (j + i))).
  { induction k as [|k IH]; intros Hk j Hj; [exists []; repeat split; intros; lia|]. destruct (IH ltac:(lia) (S j) ltac:(lia)) as (l & El & Ll & Hl).
    destruct (H j ltac:(lia)) as (A & B & C). destruct (@unfold_symmetric K (symmetry q) _ (F j) n A Hn Hev B C) as (E & EE & HE).
    exists (E :: l). cbn [seq mapM]. rewrite EE. cbn [bind]. rewrite El. cbn [bind length]. split; [reflexivity|]. split; [congruence|].
    intros [|i] Hi'; [exists E; rewrite Nat.add_0_r; now split|]. destruct (Hl i ltac:(lia)) as (E' & N' & H'). exists E'. split; [exact N'|]. now replace (j + S i) with (S j + i) by lia. }
  destruct (M (neig q) (le_n _) 0 ltac:(lia)) as (l & -> & Ll & Hl). cbn [bind]. rewrite open_q. cbn [bind]. eexists. split; [reflexivity|]. split.
  - rewrite combine_length, map_length, seq_length. lia.
  - intros i Hi'. destruct (Hl i Hi') as (E & N & HE). exists E. split; [|exact HE]. clear -N Ll Hi'. revert Ll Hi' N. generalize (neig q) as k. intros k.
    enough (G : forall l j k i, length l = k -> i < k -> nth_error l i = Some E -> nth_error (combine l (map (fun i => root (an_q an i)) (seq j k))) i = Some (E, root (an_q an (j + i)))) by (intros; now apply (G l 0 k i)).
    clear. induction l as [|x l IH]; intros j k i Ll Hi N; [cbn in Ll; lia|]. destruct k as [|k]; [lia|]. cbn [seq map combine]. destruct i as [|i]; cbn in N |- *.
    + injection N as ->. now rewrite Nat.add_0_r.
    + rewrite (IH (S j) k i) by (cbn in Ll; lia || assumption). now rewrite Nat.add_succ_r.
Qed.
Print Assumptions remote_symmetric_modes.
(** Whatever the server returns, it is the upper half of the result, which is symmetric except for
    values on the planes of reflection; the result has the shape of the simulation iff the
    numbers of cells along the axes with symmetry are even. *)
Theorem remote_result (K : cfield) (is_one : K -> bool) n kind root server (q : args K) :
  driven kind -> adjoint q = false -> info q = false -> (forall a, 0 < get a n) ->
  let an := an_field (server (make_request is_one n kind q)) 0 in
  has_shape (sent_shape n (symmetry q)) an ->
  exists E, snd (solve is_one n kind root server q) = Ok (RField E) /\ symmetric false (symmetry q) E /\
    field_eq (part (build (fun a => if active (symmetry q a) then get a n - get a n / 2 else 0)) E) an /\
    (has_shape n E <-> forall a, active (symmetry q a) = true -> Nat.even (get a n) = true).
Proof.
  intros Hk Ha Hi Hn an Han. rewrite (@solve_driven K is_one n kind root server q Hk), Ha, Hi. fold an. set (s := symmetry q) in *.
  destruct (@unfold_any K s an _ Han (@sent_pos n Hn s)) as (R & -> & S & M & P). cbn [bind]. exists R. split; [reflexivity|]. split; [exact M|].
  assert (G : forall a, get a (sent_shape n s) = if active (s a) then get a n - get a n / 2 else get a n).
  { intros a. unfold sent_shape, start. rewrite !get_build. destruct (active (s a)); [reflexivity|lia]. }
  split.
  - replace (build (fun a => if active (s a) then get a n - get a n / 2 else 0)) with (build (fun a => if active (s a) then get a (sent_shape n s) else 0)); [exact P|].
    apply idx_eq. intros a. rewrite !get_build, G. now destruct (active (s a)).
  - split.
    + intros H a As. specialize (H AX). rewrite (S AX) in H. apply (f_equal (get a)) in H. rewrite get_build, G, As in H.
      apply Nat.even_spec. exists (get a n - get a n / 2). lia.
    + intros H c. rewrite (S c). apply idx_eq. intros a. rewrite get_build, G. destruct (active (s a)) eqn:As; [|reflexivity].
      apply H, Nat.even_spec in As as [k ->]. replace (2 * k / 2) with k by (rewrite Nat.mul_comm, Nat.div_mul; lia). lia.
Qed.
Print Assumptions remote_result.

(** Adjoint solves with a symmetry fail, unless there are at most two cells along the axis: so no
    gradient of a simulation with reflection symmetry is computed. *)
Theorem remote_adjoint_symmetry (K : cfield) (is_one : K -> bool) n kind root server (q : args K) :
  driven kind -> adjoint q = true -> info q = false -> (forall a, 0 < get a n) ->
  has_shape (sent_shape n (symmetry q)) (an_field (server (make_request is_one n kind q)) 0) ->
  (is_ok (snd (solve is_one n kind root server q)) = true <-> forall a, active (symmetry q a) = true -> get a n <= 2) /\
  (is_ok (snd (solve is_one n kind root server q)) = false -> snd (solve is_one n kind root server q) = Err ValueError).
Proof.
  intros Hk Ha Hi Hn Han. rewrite (@solve_driven K is_one n kind root server q Hk), Ha, Hi. set (s := symmetry q) in *. set (an := an_field _ 0) in *.
  destruct (@unfold_any K s an _ Han (@sent_pos n Hn s)) as (R & -> & S & _ & _). cbn [bind].
  assert (G : forall a, get a (sent_shape n s) = if active (s a) then get a n - get a n / 2 else get a n).
  { intros a. unfold sent_shape, start. rewrite !get_build. destruct (active (s a)); [reflexivity|lia]. }
  assert (V : forall c, shape (amap kconj (volume K (rq_shape (make_request is_one n kind q)) (rq_sd (make_request is_one n kind q)) (rq_sp (make_request is_one n kind q)) c)) = sent_shape n s).
  { intros c. cbn. apply rq_shape_sent. }
  assert (Half : forall k, 0 < k -> 0 < k - k / 2 /\ (k - k / 2 = 1 <-> k <= 2)).
  { intros k Hk0. assert (D := Nat.div_mod k 2 ltac:(lia)). assert (B := Nat.mod_upper_bound k 2 ltac:(lia)). lia. }
  assert (Yes : (forall a, active (s a) = true -> get a n <= 2) -> exists E, undo (make_request is_one n kind q) R = Ok E).
  { intros H. unfold undo.
    assert (O : forall c, exists r, multiply (comp c R) (amap kconj (volume K (rq_shape (make_request is_one n kind q)) (rq_sd (make_request is_one n kind q)) (rq_sp (make_request is_one n kind q)) c)) = Ok r).
    { intros c. apply multiply_ok. intros a. rewrite V, (S c), get_build, !G. destruct (active (s a)) eqn:As; [right|now left]. apply (Half (get a n) (Hn a)), H, As. }
    destruct (O AX) as (x & ->), (O AY) as (y & ->), (O AZ) as (z & ->). cbn [bind]. eauto. }
  assert (No : (exists a, active (s a) = true /\ ~ get a n <= 2) -> undo (make_request is_one n kind q) R = Err ValueError).
  { intros (a & As & H). unfold undo. rewrite multiply_fails with (a := a); [reflexivity|..]; rewrite ?V, ?(S AX), ?get_build, ?G, ?As; destruct (Half (get a n) (Hn a)); lia. }
  assert (Dec : (forall a, active (s a) = true -> get a n <= 2) \/ exists a, active (s a) = true /\ ~ get a n <= 2).
  { destruct (forallb (fun a => negb (active (s a)) || (get a n <=? 2)) [AX; AY; AZ]) eqn:F.
    - left. intros a As. assert (F' := proj1 (forallb_axes _) F a). cbn beta in F'. rewrite As in F'. now apply Nat.leb_le.
    - right. apply forallb_axes_false in F as (a & F). exists a. apply orb_false_iff in F as [F1 F2]. split; [now destruct (active (s a))|]. apply Nat.leb_gt in F2. lia. }
  destruct Dec as [D|D].
  - destruct (Yes D) as (E & ->). cbn. split; [tauto|discriminate].
  - rewrite (No D). cbn. split; [|reflexivity]. split; [discriminate|]. intros H. destruct D as (a & As & X). elim X. now apply H.
Qed.
Print Assumptions remote_adjoint_symmetry.
(** Without symmetry the sent source of an adjoint solve is divided, and the answer multiplied, by the
    product of the cell sizes given (not their conjugates). *)
Theorem remote_adjoint_scale (K : cfield) (is_one : K -> bool) n kind root server (q : args K) :
  driven kind -> adjoint q = true -> info q = false -> (forall a, symmetry q a = SNone) -> (forall a, 0 < get a n) ->
  has_shape n (src q) -> has_shape n (eps q) ->
  let rq := make_request is_one n kind q in
  has_shape n (an_field (server rq) 0) ->
  exists E, snd (solve is_one n kind root server q) = Ok (RField E) /\ has_shape n E /\ rq_omega rq = kconj (omega q) /\
  forall c p, inside n p ->
    let v := volume K n (dx0 q) (dx1 q) c in
    val (comp c (rq_J rq)) p = kdiv (val (comp c (src q)) p) (val v p) /\
    val (comp c (rq_eps rq)) p = kconj (val (comp c (eps q)) p) /\
    val (comp c E) p = kmul (val (comp c (an_field (server rq) 0)) p) (val v p).
Proof.
  intros Hk Ha Hi Hs Hn HJ He rq Han. rewrite (@solve_driven K is_one n kind root server q Hk), Ha, Hi. fold rq.
  assert (St : start n (symmetry q) = (0, 0, 0)) by (unfold start, build; now rewrite !Hs).
  assert (Ss : sent_shape n (symmetry q) = n) by (unfold sent_shape; rewrite St; apply idx_eq; intros a; rewrite get_build; destruct a; cbn; lia).
  assert (Id : forall (E : field K) m, has_shape m E -> (forall a, 0 < get a m) -> exists E', apply_symmetry (symmetry q) E = Ok E' /\ has_shape m E' /\ forall c p, val (comp c E') p = val (comp c E) p).
  { intros E m HE Hm. unfold apply_symmetry.
    destruct (@unfold_axis_spec K AX (symmetry q AX) E m HE (Hm AX)) as (E1 & -> & S1 & V1). rewrite Hs in S1, V1. cbn in S1. cbn [bind].
    destruct (@unfold_axis_spec K AY (symmetry q AY) E1 m S1 (Hm AY)) as (E2 & -> & S2 & V2). rewrite Hs in S2, V2. cbn in S2. cbn [bind].
    destruct (@unfold_axis_spec K AZ (symmetry q AZ) E2 m S2 (Hm AZ)) as (E3 & -> & S3 & V3). rewrite Hs in S3, V3. cbn in S3.
    exists E3. split; [reflexivity|]. split; [exact S3|]. intros c p. cbn in V1, V2, V3. now rewrite V3, V2, V1. }
  destruct (Id _ n Han Hn) as (E & -> & SE & VE). cbn [bind].
  assert (Hrq : rq_shape rq = n) by (unfold rq; rewrite rq_shape_sent; exact Ss).
  assert (Vol : forall c p, val (amap kconj (volume K (rq_shape rq) (rq_sd rq) (rq_sp rq) c)) p = val (volume K n (dx0 q) (dx1 q) c) p).
  { intros c p. unfold rq, make_request. rewrite Ha. cbn [rq_sd rq_sp rq_shape amap val volume]. unfold sliced_cells. rewrite St. cbn [get fst snd]. rewrite !Nat.add_0_r.
    destruct c; cbn [axis_eqb]; rewrite !kconj_mul, !kconj_conj; reflexivity. }
  assert (Mul : forall c, exists r, multiply (comp c E) (amap kconj (volume K (rq_shape rq) (rq_sd rq) (rq_sp rq) c)) = Ok r /\ shape r = n /\
     forall p, inside n p -> val r p = kmul (val (comp c (an_field (server rq) 0)) p) (val (volume K n (dx0 q) (dx1 q) c) p)).
  { intros c. destruct (@multiply_same K (comp c E) (amap kconj (volume K (rq_shape rq) (rq_sd rq) (rq_sp rq) c))) as (r & A & B & C); [rewrite (SE c); symmetry; exact Hrq|].
    exists r. rewrite (SE c) in *. split; [exact A|]. split; [exact B|]. intros p Hp. rewrite (C p Hp), Vol, VE. reflexivity. }
  unfold undo. destruct (Mul AX) as (x & -> & Sx & Vx), (Mul AY) as (y & -> & Sy & Vy), (Mul AZ) as (z & -> & Sz & Vz). cbn [bind].
  exists (x, y, z). split; [reflexivity|]. split; [intros []; assumption|]. split; [unfold rq, make_request; now rewrite Ha|].
  intros c p Hp. split; [|split].
  - assert (Q := Vol c p). unfold rq, make_request. rewrite Ha. cbn [rq_J]. rewrite comp_fmap. unfold slice. rewrite comp_fmap. cbn [val shape from].
    unfold rq, make_request in Q. rewrite Ha in Q. cbn [rq_sd rq_sp rq_shape] in Q. cbn [amap val] in Q. rewrite <- Q. rewrite St. f_equal. f_equal. apply idx_eq. intros a. rewrite get_build. destruct a; cbn; lia.
  - unfold rq, make_request. rewrite Ha. cbn [rq_eps]. rewrite comp_fmap. unfold slice. rewrite comp_fmap. cbn [val amap from]. rewrite St. do 2 f_equal. apply idx_eq. intros a. rewrite get_build. destruct a; cbn; lia.
  - destruct c; [now apply Vx|now apply Vy|now apply Vz].
Qed.
Print Assumptions remote_adjoint_scale.
(** What the boundary codes sent are; the caller's array is overwritten, so a later solve without
    symmetry that is given the same array sends them again. *)
Theorem remote_pemc (K : cfield) (is_one : K -> bool) n kind root server (q q' : args K) p p' :
  pemc q = Some p -> fst (fst (solve is_one n kind root server q)) = Some p' -> pemc q' = Some p' -> (forall a, symmetry q' a = SNone) ->
  forall a, rq_pemc (snd (fst (solve is_one n kind root server q'))) a = rq_pemc (snd (fst (solve is_one n kind root server q))) a /\
    p' a = match symmetry q a with SNone => p a | SOne => (1, 1) | STwo => (2, 2) end.
Proof.
  intros Hp Hp' Hq Hs a. unfold solve in *. cbn [fst snd] in *. rewrite Hp in Hp'. injection Hp' as <-. split; [|reflexivity].
  assert (R : forall t, rq_pemc (make_request is_one n kind t) = set_pemc (symmetry t) (match pemc t with None => fun _ => (0, 0) | Some p => p end)) by (intros t; unfold make_request; now destruct (adjoint t)).
  rewrite !R, Hq, Hp. unfold set_pemc. now rewrite Hs.
Qed.
Print Assumptions remote_pemc.
(** Asking for solver_info fails after the solve; adjoint solves for fewer than three modes fail. *)
Theorem remote_fails (K : cfield) (is_one : K -> bool) n kind root server (q : args K) :
  (forall a, 0 < get a n) ->
  (forall i, has_shape (sent_shape n (symmetry q)) (an_field (server (make_request is_one n kind q)) i)) ->
  (adjoint q = false -> info q = true -> snd (solve is_one n kind root server q) = Err NotFound) /\
  (kind = JacobiDavidson -> adjoint q = true -> neig q < 3 -> snd (solve is_one n kind root server q) = Err IndexError).
Proof.
  intros Hn Han.
  assert (M : forall l, exists r, mapM (fun i => apply_symmetry (symmetry q) (an_field (server (make_request is_one n kind q)) i)) l = Ok r).
  { induction l as [|i l [r IH]]; [eexists; reflexivity|]. destruct (@unfold_any K (symmetry q) _ _ (Han i) (@sent_pos n Hn _)) as (R & E & _). cbn [mapM]. rewrite E. cbn [bind]. rewrite IH. eexists. reflexivity. }
  split.
  - intros Ha Hi. destruct kind eqn:Ek.
    4:{ unfold solve. cbn [snd]. rewrite open_modes. cbn [bind]. destruct (M (seq 0 (neig q))) as (r & ->). cbn [bind]. now rewrite Ha, Hi, open_info. }
    all: rewrite solve_driven, Ha, Hi by discriminate; destruct (@unfold_any K (symmetry q) _ _ (Han 0) (@sent_pos n Hn _)) as (R & -> & _); reflexivity.
  - intros -> Ha Hl. unfold solve. cbn [snd]. rewrite open_modes. cbn [bind]. destruct (M (seq 0 (neig q))) as (r & ->). cbn [bind]. apply Nat.ltb_lt in Hl. now rewrite Ha, Hl.
Qed.
Print Assumptions remote_fails.
(** The number of the method that is sent: conjugate gradients (0) are used only if the phase factors
    of all three axes are one (or none are given); otherwise, as when it is asked for, BiCGSTAB (1). *)
Theorem remote_method (K : cfield) (is_one : K -> bool) n kind (q : args K) :
  let m := rq_solver (make_request is_one n kind q) in
  let b := match phase q with None => fun _ => k1 | Some b => b end in
  match kind with
  | CG => (m = 0 <-> forall a, is_one (b a) = true) /\ (m <> 0 -> m = 1)
  | BiCGSTAB => m = 1 | Lgmres => m = 2 | JacobiDavidson => m = 3
  end.
Proof.
  intros m b. assert (E : m = solver_number K is_one kind b) by (unfold m, make_request; now destruct (adjoint q)). rewrite E. unfold solver_number. destruct kind; try reflexivity.
  cbn [forallb]. rewrite andb_true_r. destruct (is_one (b AX)) eqn:EX; [destruct (is_one (b AY)) eqn:EY; [destruct (is_one (b AZ)) eqn:EZ|]|]; cbn [andb]; (split; [|intros; congruence]);
    split; intros H; try discriminate; try reflexivity; [intros []; auto|specialize (H AZ)|specialize (H AY)|specialize (H AX)]; congruence.
Qed.
Print Assumptions remote_method.
Example remote_method_ex : let q b := Args (gz 1 0) (fun _ _ => gz 1 0) (fun _ _ => gz 1 0) (Arr G (1, 1, 1) (fun _ => gz 1 0), Arr G (1, 1, 1) (fun _ => gz 1 0), Arr G (1, 1, 1) (fun _ => gz 1 0))
    (Arr G (1, 1, 1) (fun _ => gz 1 0), Arr G (1, 1, 1) (fun _ => gz 1 0), Arr G (1, 1, 1) (fun _ => gz 1 0)) None None None (Some b) (fun _ => SNone) false false 1 in
  rq_solver (make_request (geqb (gz 1 0)) (1, 1, 1) CG (q (fun _ => gz 1 0))) = 0 /\
  rq_solver (make_request (geqb (gz 1 0)) (1, 1, 1) CG (q (fun a => match a with AZ => gz 0 1 | _ => gz 1 0 end))) = 1.
Proof. vm_compute. split; reflexivity. Qed.

(** *** example: 4 x 1 x 1 cells, symmetry 1 along x *)
Definition ex_n : idx := (4, 1, 1).
Definition ex_sym (a : axis) : sym := match a with AX => SOne | _ => SNone end.
Definition ex_arr (l : list Z) : arr G := Arr G ex_n (fun p => gz (nth (get AX p) l 0%Z) 0).
Definition ex_F : field G := (ex_arr [1; 2; 2; 1]%Z, ex_arr [0; -3; 0; 3]%Z, ex_arr [0; -5; 0; 5]%Z).
Definition ex_args (adj : bool) : args G :=
  Args (gz 1 0) (fun _ _ => gz 1 0) (fun _ _ => gz 1 0) ex_F ex_F None None (Some (fun _ => (0, 0))) None ex_sym adj false 1.
Definition ex_server (rq : request G) : answer G := Answer (fun _ => part (start ex_n ex_sym) ex_F) (fun _ => gz 4 0).
Lemma ex_inside p : inside ex_n p -> exists i, i < 4 /\ p = (i, 0, 0).
Proof. intros H. assert (A := H AX). assert (B := H AY). assert (C := H AZ). destruct p as [[x y] z]. cbn in *. exists x. split; [exact A|]. f_equal; [f_equal|]; lia. Qed.
Lemma ex_symmetric : symmetric true ex_sym ex_F.
Proof.
  intros a c Ha. destruct a; try discriminate. cbv zeta. assert (S : forall c, shape (comp c ex_F) = ex_n) by (intros []; reflexivity). rewrite (S c).
  destruct c; cbn [axis_eqb]; intros p Hp; destruct (ex_inside Hp) as (i & Hi & ->); destruct i as [|[|[|[|i]]]]; try lia; cbn [get fst snd];
    try (apply geqb_true; vm_compute; reflexivity); (split; [intros _; apply geqb_true; vm_compute; reflexivity || (intros X; lia)|intros X _; try lia; apply geqb_true; vm_compute; reflexivity]) || (split; [lia|intros _ _; apply geqb_true; vm_compute; reflexivity]).
Qed.
Example remote_ex :
  has_shape ex_n ex_F /\ symmetric true ex_sym ex_F /\ Nat.even (get AX ex_n) = true /\
  (exists E, snd (solve (geqb (gz 1 0)) ex_n CG (fun x => x) ex_server (ex_args false)) = Ok (RField E) /\ field_eq E ex_F) /\
  snd (solve (geqb (gz 1 0)) ex_n CG (fun x => x) ex_server (ex_args true)) = Err ValueError.
Proof.
  assert (S : has_shape ex_n ex_F) by (intros []; reflexivity).
  split; [exact S|]. split; [exact ex_symmetric|]. split; [reflexivity|]. split; [|reflexivity].
  apply (@remote_symmetric G (geqb (gz 1 0)) ex_n CG (fun x => x) ex_server (ex_args false) ex_F); [discriminate|reflexivity|reflexivity| | |exact S|exact ex_symmetric|].
  - intros []; cbn; lia.
  - intros []; cbn; intros; try discriminate; reflexivity.
  - intros c. split; [reflexivity|]. intros p _. reflexivity.
Qed.

(** C144.  Uploads: every file arrives unchanged if the first attempt for it succeeds; if it fails with
    ConnectionError the retry stores an empty file, without an exception. *)
Theorem remote_upload (byte : Type) (l : list (nat * list byte)) attempts store (fails : nat -> nat) :
  NoDup (map fst l) -> (forall name, In name (map fst l) -> exists rest, attempts name = repeat false (fails name) ++ true :: rest) ->
  exists r, upload_files l attempts store = Ok r /\
    (forall name c, In (name, c) l -> r name = Some (if fails name =? 0 then c else [])) /\
    (forall name, ~ In name (map fst l) -> r name = store name).
Proof.
  revert store. induction l as [|[nm c] l IH]; intros store Hd Hf; [exists store; repeat split; intros; contradiction|].
  cbn [map fst] in Hd. inversion Hd; subst. destruct (Hf nm (or_introl eq_refl)) as (rest & E). cbn [upload_files]. rewrite E, upload_spec. cbn [bind].
  destruct (IH (dset store nm (match fails nm with 0 => c | S _ => [] end)) H2 (fun name H => Hf name (or_intror H))) as (r & Er & A & B). exists r. split; [exact Er|]. split.
  - intros name c' [[= <- <-]|Hin]; [|now apply A]. rewrite (B nm H1), dset_same. now destruct (fails nm).
  - intros name Hn. cbn in Hn. rewrite (B name) by tauto. apply dset_other. intros ->. tauto.
Qed.
Print Assumptions remote_upload.
Theorem remote_upload_refuted : exists (l : list (nat * list nat)) attempts r,
  upload_files l attempts dempty = Ok r /\ exists name c, In (name, c) l /\ r name <> Some c.
Proof. exists [(0, [7; 8])], (fun _ => [false; true]). eexists. split; [reflexivity|]. exists 0, [7; 8]. split; [now left|discriminate]. Qed.
Print Assumptions remote_upload_refuted.
(** Downloads write the first response that arrives; the loop ends at the first round in which the
    request is gone and the result is there. *)
Theorem remote_download (byte : Type) (c : list byte) k rest : download (repeat None k ++ Some c :: rest) = Ok c.
Proof. exact (download_spec c k rest). Qed.
Print Assumptions remote_download.
Theorem remote_wait rounds k : wait rounds = Ok k <->
  nth_error rounds k = Some (Some false, Some true) /\ forall j, j < k -> nth_error rounds j <> Some (Some false, Some true).
Proof. exact (wait_spec rounds k). Qed.
Print Assumptions remote_wait.
Example remote_transfer_ex :
  wait [(None, None); (Some true, None); (Some false, Some false); (Some false, Some true)] = Ok 3 /\
  download [None; None; Some [1; 2]] = Ok [1; 2] /\
  (exists r, upload_files [(0, [7; 8]); (1, [9])] (fun k => if k =? 0 then [true] else [false; false; true]) dempty = Ok r /\ r 0 = Some [7; 8] /\ r 1 = Some []).
Proof. split; [reflexivity|]. split; [reflexivity|]. eexists. repeat split. Qed.
