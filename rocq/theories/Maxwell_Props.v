(** Theorems about vectorization and the wave operators (C30-C36, C62-C65).  They hold
    over every field with conjugation, so in particular over the complex numbers. *)
From Verif Require Import Base CField CField_Proofs Gauss Maxwell_Model Maxwell_Spec Maxwell_Proofs Maxwell_Proofs2 Maxwell_Proofs3 Maxwell_Proofs4.
From Coq Require Import ZArith.
Local Open Scope K_scope.

(** *** examples: a 2 x 2 x 1 grid with different cell sizes, over the Gaussian rationals *)
Definition ex_grid : grid G := Grid (fun a => match a with 2 => 1 | _ => 2 end)%nat
  (fun a i => gz (match a, i with 0, 0 => 1 | 0, _ => 4 | 1, 0 => 9 | 1, _ => 1 | _, _ => 4 end) 0)%nat
  (fun a i => gz (match a, i with 0, 0 => 4 | 0, _ => 9 | 1, 0 => 1 | 1, _ => 4 | _, _ => 1 end) 0)%nat.
Definition ex_field : field3 G := fun c x y z => gz (Z.of_nat (10 * c + x + 2 * y)) 1.
Definition ex_phases : phases G := Phases (fun _ => gz 0 1) (fun _ => gz 0 (-1)) (fun _ => gz 0 1) (fun _ => gz 0 (-1)).
Definition ex_eps (i : nat) : G := gz (Z.of_nat i + 2) 0.

(** *** C30: vec and unvec *)
Theorem vec_position (K : cfield) (g : grid K) (f : field3 K) c x y z :
  (c < 3)%nat -> (x < dim g 0)%nat -> (y < dim g 1)%nat -> (z < dim g 2)%nat ->
  at_ (vec g f) (c * cellsn g + (x + dim g 0 * (y + dim g 1 * z))) = f c x y z.
Proof.
  intros Hc Hx Hy Hz. change (x + dim g 0 * (y + dim g 1 * z))%nat with (idx g x y z). rewrite vec_at by (auto; now apply idx_lt).
  destruct (@coord_idx K g x y z) as (-> & -> & ->); auto.
Qed.
Theorem vec_size (K : cfield) (g : grid K) (f : field3 K) : length (vec g f) = (3 * (dim g 0 * dim g 1 * dim g 2))%nat.
Proof. exact (vec_length g f). Qed.
Theorem unvec_vec (K : cfield) (g : grid K) (f : field3 K) :
  exists f', unvec g (vec g f) = Ok f' /\
  forall c x y z, (c < 3)%nat -> (x < dim g 0)%nat -> (y < dim g 1)%nat -> (z < dim g 2)%nat -> f' c x y z = f c x y z.
Proof. exact (unvec_vec_lemma g f). Qed.
Theorem vec_unvec (K : cfield) (g : grid K) (v : list K) f : unvec g v = Ok f -> vec g f = v.
Proof. intros H. exact (proj2 (vec_unvec_lemma g v H)). Qed.
Theorem unvec_succeeds_iff (K : cfield) (g : grid K) (v : list K) :
  (length v = vlen g -> exists f, unvec g v = Ok f) /\ (length v <> vlen g -> unvec g v = Err ValueError).
Proof.
  split; [|exact (unvec_error_lemma g v)]. intros H. unfold unvec. rewrite H. unfold vlen.
  replace (3 * cellsn g)%nat with (cellsn g * 3)%nat by apply Nat.mul_comm. rewrite Nat.mod_mul, Nat.div_mul, Nat.eqb_refl by discriminate.
  simpl. rewrite Nat.eqb_refl. simpl. eauto.
Qed.
Example vec_ex : gleqb (vec ex_grid ex_field) (map (fun k => gz k 1) [0;1;2;3;10;11;12;13;20;21;22;23]%Z) = true.
Proof. vm_compute. reflexivity. Qed.

(** *** C31: the curl matrices against the functional curls *)
Theorem curl_e_functional (K : cfield) (g : grid K) (e : field3 K) :
  mv (vlen g) (curl_e g (one K) (one K)) (vec g e) = vec g (fcurl_e g e).
Proof. exact (curl_e_functional_lemma g e). Qed.
Theorem curl_h_functional (K : cfield) (g : grid K) (h : field3 K) :
  mv (vlen g) (curl_h g (one K) (one K)) (vec g h) = vec g (fcurl_h g h).
Proof. exact (curl_h_functional_lemma g h). Qed.
(** the functional curl of the example: (curl_e)_z at cell (0,0) is (11-10)/1 - (2-0)/9 *)
Example curl_ex : at_ (vec ex_grid (fcurl_e ex_grid ex_field)) 8 = gz 7 0 / gz 9 0 :> G.
Proof. apply geqb_true. vm_compute. reflexivity. Qed.

(** *** C32: div curl = 0 and curl grad = 0, with any Bloch factors *)
Theorem div_curl_e (K : cfield) (g : grid K) u w v : divergence g (deriv_forward g u w) (mv (vlen g) (curl_e g u w) v) = zeros K (cellsn g).
Proof. exact (div_curl_e_lemma g u w v). Qed.
Theorem div_curl_h (K : cfield) (g : grid K) u w v : divergence g (deriv_back g u w) (mv (vlen g) (curl_h g u w) v) = zeros K (cellsn g).
Proof. exact (div_curl_h_lemma g u w v). Qed.
Theorem curl_grad_e (K : cfield) (g : grid K) u w v : mv (vlen g) (curl_e g u w) (gradient g (deriv_forward g u w) v) = zeros K (vlen g).
Proof. exact (curl_grad_e_lemma g u w v). Qed.
Theorem curl_grad_h (K : cfield) (g : grid K) u w v : mv (vlen g) (curl_h g u w) (gradient g (deriv_back g u w) v) = zeros K (vlen g).
Proof. exact (curl_grad_h_lemma g u w v). Qed.
(** the curl in the example is not zero *)
Example div_curl_ex : gleqb (mv 12 (curl_e ex_grid (ue ex_phases) (we ex_phases)) (vec ex_grid ex_field)) (zeros G 12) = false.
Proof. vm_compute. reflexivity. Qed.

(** *** C33: the preconditioned operator is complex symmetric *)
Theorem preconditioned_symmetric (K : cfield) (g : grid K) (p : nat -> K) omega eps mu pec pmc :
  nonzero_cells g -> is_sqrt g p -> symmetric (vlen g) (preconditioned g p (e_full g (no_bloch K) omega eps mu pec pmc)).
Proof. intros Hnz Hp. exact (precond_symmetric_lemma Hnz Hp omega eps mu pec pmc eq_refl). Qed.
(** with a Bloch vector the transpose is the operator of the opposite Bloch vector *)
Theorem preconditioned_transpose (K : cfield) (g : grid K) (p : nat -> K) ph omega eps mu pec pmc :
  nonzero_cells g -> is_sqrt g p ->
  meq (vlen g) (fun i j => preconditioned g p (e_full g ph omega eps mu pec pmc) j i) (preconditioned g p (e_full g (opposite ph) omega eps mu pec pmc)).
Proof. intros Hnz Hp i j Hi Hj. exact (precond_transpose_lemma Hnz Hp ph omega eps mu pec pmc Hj Hi). Qed.
Lemma ex_sqrt_ok : is_sqrt ex_grid (fun i => gz (nth i [1; 2; 2; 4; 6; 9; 2; 3; 4; 6; 8; 12] 0)%Z 0).
Proof.
  assert (H : forallb (fun i => geqb (gz (nth i [1; 2; 2; 4; 6; 9; 2; 3; 4; 6; 8; 12] 0)%Z 0 * gz (nth i [1; 2; 2; 4; 6; 9; 2; 3; 4; 6; 8; 12] 0)%Z 0)
      (at_ (vec ex_grid (p_squared ex_grid)) i)) (seq 0 12) = true) by (vm_compute; reflexivity).
  intros i Hi. rewrite forallb_forall in H. apply geqb_true, H. apply in_seq. exact (conj (Nat.le_0_l i) Hi).
Qed.
Lemma ex_nonzero : nonzero_cells ex_grid.
Proof.
  intros a i Ha Hi. split; apply geqb_false;
  destruct a as [|[|[|a]]]; [| | |lia| | | |lia]; destruct i as [|[|i]]; try (vm_compute; reflexivity); simpl in Hi; lia.
Qed.
Lemma ex_real : real_cells ex_grid.
Proof.
  intros a i Ha Hi. split; apply geqb_true;
  destruct a as [|[|[|a]]]; [| | |lia| | | |lia]; destruct i as [|[|i]]; try (vm_compute; reflexivity); simpl in Hi; lia.
Qed.

(** *** C63: without loss the preconditioned operator is Hermitian *)
Theorem preconditioned_hermitian (K : cfield) (g : grid K) (p : nat -> K) ph omega eps mu pec pmc :
  nonzero_cells g -> is_sqrt g p -> real_cells g -> nonzero_opt (vlen g) mu -> real_opt (vlen g) mu ->
  (forall i, (i < vlen g)%nat -> kconj (p i) = p i) -> kconj omega = omega -> (forall i, (i < vlen g)%nat -> kconj (eps i) = eps i) ->
  (forall a, kconj (ue ph a) = wh ph a) ->
  hermitian (vlen g) (preconditioned g p (e_full g ph omega eps mu pec pmc)).
Proof. exact (fun Hnz => @precond_hermitian_lemma K g Hnz p ph omega eps mu pec pmc). Qed.
Example hermitian_ex : (forall a, kconj (ue ex_phases a) = wh ex_phases a) /\ kconj (gz 2 0 : G) = gz 2 0 /\
  (forall i, kconj (ex_eps i) = ex_eps i) /\ kconj (ue ex_phases 0%nat) <> ue ex_phases 0%nat.
Proof.
  split; [intros a; apply geqb_true; vm_compute; reflexivity|]. split; [apply geqb_true; vm_compute; reflexivity|]. split.
  - intros i. unfold ex_eps, gz. simpl. unfold gconj; simpl. reflexivity.
  - apply geqb_false. vm_compute. reflexivity.
Qed.

(** *** C34: the functional wave operator *)
Theorem e_full_functional (K : cfield) (g : grid K) omega eps e :
  mv (vlen g) (e_full g (no_bloch K) omega (at_ (vec g eps)) None None None) (vec g e) = vec g (fe_full g omega eps None e).
Proof. exact (fe_full_none_lemma g omega eps e). Qed.
(** with mu, the functional operator computes the wave operator of 1/mu ... *)
Theorem e_full_functional_inverse_mu (K : cfield) (g : grid K) omega eps m e :
  (forall i, (i < vlen g)%nat -> at_ (vec g m) i <> 0) ->
  mv (vlen g) (e_full g (no_bloch K) omega (at_ (vec g eps)) (Some (fun i => 1 / at_ (vec g m) i)) None None) (vec g e)
  = vec g (fe_full g omega eps (Some m) e).
Proof. exact (@fe_full_some_lemma K g omega eps m e). Qed.
(** ... which is not the wave operator of mu *)
Definition ex_line : grid G := Grid (fun a => match a with 0 => 2 | _ => 1 end)%nat (fun _ _ => gz 1 0) (fun _ _ => gz 1 0).
Theorem e_full_functional_mu_refuted : exists (g : grid G) omega eps m e,
  (forall i, (i < vlen g)%nat -> at_ (vec g m) i <> 0) /\
  mv (vlen g) (e_full g (no_bloch G) omega (at_ (vec g eps)) (Some (at_ (vec g m))) None None) (vec g e)
  <> vec g (fe_full g omega eps (Some m) e).
Proof.
  exists ex_line, (gz 1 0), (fun _ _ _ _ => gz 1 0), (fun _ _ _ _ => gz 2 0),
    (fun c x _ _ => match c, x with 1%nat, 0%nat => gz 1 0 | _, _ => gz 0 0 end). split.
  - intros i Hi. change (i < 6)%nat in Hi. apply geqb_false.
    do 6 (destruct i as [|i]; [vm_compute; reflexivity|]). lia.
  - apply gleqb_false. vm_compute. reflexivity.
Qed.
Theorem e2h_functional (K : cfield) (g : grid K) omega mu e : omega <> 0 ->
  (match mu with None => True | Some m => forall i, (i < vlen g)%nat -> at_ (vec g m) i <> 0 end) ->
  mv (vlen g) (e2h g (no_bloch K) omega (option_map (fun m => at_ (vec g m)) mu) None) (vec g e) = vec g (fe2h g omega mu e).
Proof. exact (@fe2h_lemma K g omega mu e). Qed.

(** *** C35: LocalMatrixSolver *)
(** solve_matrix_equation(A, b) returns an exact solution *)
Definition solves (K : cfield) (N : nat) (inner : mat K -> list K -> list K) (A : mat K) : Prop :=
  forall b, length b = N -> length (inner A b) = N /\ mv N A (inner A b) = b.
Theorem local_solver_forward (K : cfield) (g : grid K) (p : nat -> K) inner A0 omega J x :
  nonzero_cells g -> is_sqrt g p -> length J = vlen g -> solves K (vlen g) inner (preconditioned g p A0) ->
  solve g inner p A0 omega J false false false = Ok x -> mv (vlen g) A0 x = vscale (- ki * omega) J.
Proof. intros Hnz Hp HJ Hin H. exact (proj2 (@solve_forward_lemma K g Hnz p Hp inner A0 omega J x HJ Hin H)). Qed.
Theorem local_solver_adjoint (K : cfield) (g : grid K) (p : nat -> K) inner A0 omega J x :
  nonzero_cells g -> is_sqrt g p -> length J = vlen g -> solves K (vlen g) inner (mherm (preconditioned g p A0)) ->
  solve g inner p A0 omega J false false true = Ok x -> mv (vlen g) (mherm A0) x = vscale (- ki * omega) J.
Proof. intros Hnz Hp HJ Hin H. exact (proj2 (@solve_adjoint_lemma K g Hnz p Hp inner A0 omega J x HJ Hin H)). Qed.
Theorem local_solver_unsupported (K : cfield) (g : grid K) inner p A0 omega J symmetry pemc adj :
  (symmetry = false /\ pemc = false -> exists x, solve g inner p A0 omega J symmetry pemc adj = Ok x) /\
  (symmetry = true \/ pemc = true -> solve g inner p A0 omega J symmetry pemc adj = Err NotImplementedError).
Proof.
  split; [intros [-> ->]; unfold solve; eauto|]. intros [-> | ->]; unfold solve; [reflexivity|]. now destruct symmetry.
Qed.
(** a diagonal example: one cell, so that the curls vanish *)
Lemma kmul_div (K : cfield) (a b : K) : a <> 0 -> a * (b / a) = b.
Proof. pose proof (k_field K) as HF. intros H. rewrite (Fdiv_def HF), (Rmul_comm (F_R HF) b), (Rmul_assoc (F_R HF)), (Rmul_comm (F_R HF) a), (Finv_l HF) by auto. apply (Rmul_1_l (F_R HF)). Qed.
Definition ex_cell : grid G := Grid (fun _ => 1%nat) (fun _ _ => gz 1 0) (fun _ _ => gz 1 0).
Definition ex_inner (A : mat G) (b : list G) : list G := vbuild 3 (fun i => at_ b i / A i i).
Example solver_ex : solves G 3 ex_inner (preconditioned ex_cell (fun _ => gz 1 0) (e_full ex_cell (no_bloch G) (gz 2 0) (fun i => gz (Z.of_nat i + 1) 0) None None None)).
Proof.
  set (A := preconditioned _ _ _). intros b Hb. split; [apply vbuild_length|].
  assert (H0 : forall i j, (i < 3)%nat -> (j < 3)%nat -> i <> j -> A i j = gz 0 0).
  { intros i j Hi Hj Hne. apply geqb_true. destruct i as [|[|[|i]]]; [| | |lia]; destruct j as [|[|[|j]]]; try lia; vm_compute; reflexivity. }
  assert (H1 : forall i, (i < 3)%nat -> A i i <> k0).
  { intros i Hi. apply geqb_false. destruct i as [|[|[|i]]]; [| | |lia]; vm_compute; reflexivity. }
  clearbody A. apply vec_ext; [now rewrite mv_length|]. intros i Hi. rewrite mv_length in Hi. rewrite mv_at by auto.
  rewrite (@fsum_single G 3 i); [|auto|].
  - unfold ex_inner. rewrite vbuild_at by auto. apply (kmul_div G); auto.
  - intros j Hj Hne. rewrite H0 by auto. apply geqb_true. unfold ex_inner. vm_compute. reflexivity.
Qed.

(** *** C36: the adjoint simulation *)
(** the equation solved by the conjugated problem *)
Definition conjugated_solution (K : cfield) (g : grid K) ph omega eps mu pec pmc (J v : list K) : Prop :=
  mv (vlen g) (e_full (conj_grid g) (conj_phases (opposite ph)) (kconj omega) (conj_fun eps) (conj_opt mu) pec pmc) v
  = vscale (- ki * kconj omega) (adjoint_source g J).
Theorem adjoint_simulation_real (K : cfield) (g : grid K) ph omega eps mu pec pmc J v :
  nonzero_cells g -> nonzero_opt (vlen g) mu -> real_cells g -> length J = vlen g ->
  conjugated_solution K g ph omega eps mu pec pmc J v ->
  mv (vlen g) (mherm (e_full g ph omega eps mu pec pmc)) (adjoint_result g v) = vscale (- ki * kconj omega) J.
Proof. exact (fun Hnz => @adjoint_simulation_real_lemma K g Hnz ph omega eps mu pec pmc J v). Qed.
(** absorbing layers: sources and read-out outside the layers *)
Theorem adjoint_simulation_pml (K : cfield) (g : grid K) ph omega eps mu pec pmc J v :
  nonzero_cells g -> nonzero_opt (vlen g) mu -> length J = vlen g ->
  (forall i, (i < vlen g)%nat -> kconj (at_ (vec g (p_squared g)) i) = at_ (vec g (p_squared g)) i \/ at_ J i = 0) ->
  conjugated_solution K g ph omega eps mu pec pmc J v ->
  exists x, length x = vlen g /\ mv (vlen g) (mherm (e_full g ph omega eps mu pec pmc)) x = vscale (- ki * kconj omega) J /\
    forall i, (i < vlen g)%nat -> kconj (at_ (vec g (p_squared g)) i) = at_ (vec g (p_squared g)) i -> at_ x i = at_ (adjoint_result g v) i.
Proof. exact (fun Hnz => @adjoint_simulation_pml_lemma K g Hnz ph omega eps mu pec pmc J v). Qed.
(** inside the layers the result is not the adjoint field *)
Definition ex_pml : grid G := Grid (fun a => match a with 0 => 2 | _ => 1 end)%nat (fun _ _ => gz 1 0)
  (fun a i => match a, i with 0, 1 => gz 1 1 | _, _ => gz 1 0 end)%nat.
Definition ex_v : list G := [gz 0 0; gz 0 0; gz 1 0; gz 0 0; gz 0 0; gz 0 0].
Definition ex_J : list G :=
  vbuild 6 (fun i => at_ (mv 6 (e_full (conj_grid ex_pml) (conj_phases (opposite (no_bloch G))) (kconj (gz 1 0)) (conj_fun (fun _ => gz 1 0)) None None None) ex_v) i
                     * at_ (adjoint_scale ex_pml) i * gz 0 1).
Theorem adjoint_simulation_refuted : exists (g : grid G) omega eps J v,
  nonzero_cells g /\ length J = vlen g /\ conjugated_solution G g (no_bloch G) omega eps None None None J v /\
  mv (vlen g) (mherm (e_full g (no_bloch G) omega eps None None None)) (adjoint_result g v) <> vscale (- ki * kconj omega) J.
Proof.
  exists ex_pml, (gz 1 0), (fun _ => gz 1 0), ex_J, ex_v. split; [|split; [|split]].
  - intros a i Ha Hi. split; apply geqb_false;
    destruct a as [|[|[|a]]]; [| | |lia| | | |lia]; destruct i as [|[|i]]; try (vm_compute; reflexivity); simpl in Hi; lia.
  - vm_compute. reflexivity.
  - apply gleqb_true. vm_compute. reflexivity.
  - apply gleqb_false. vm_compute. reflexivity.
Qed.

(** *** C62: Bloch boundaries *)
Theorem rotation_acts_on_lattice (K : cfield) (g : grid K) (u w : nat -> K) (axis : nat) (so : nat -> Z) (F : lattice K) (d : Z) A :
  inverse_factors u w -> extensional F -> quasi_periodic g u axis so F -> (axis < 3)%nat ->
  (forall b, (b < 3)%nat -> (- Z.of_nat (dim g b) <= so b <= Z.of_nat (dim g b))%Z) -> (forall b, (b < 3)%nat -> (0 < dim g b)%nat) ->
  (d = 1 \/ d = -1)%Z -> rotation_bloch_shift g axis d u w so = Ok A ->
  mv (cellsn g) A (restrict g F) = restrict g (fun p => F (step axis d p)).
Proof.
  intros Huw Hext HF Hax Hsm Hpos Hd H. unfold rotation_bloch_shift in H. destruct (Z.eqb_spec (so axis) 0); [|discriminate].
  injection H as <-. exact (@rotation_acts_lemma K g u w axis so F Huw Hext HF Hax e Hsm Hpos d Hd).
Qed.
Theorem rotation_rejects_parallel_shift (K : cfield) (g : grid K) (u w : nat -> K) axis d so :
  (so axis = 0%Z -> exists A, rotation_bloch_shift g axis d u w so = Ok A) /\
  (so axis <> 0%Z -> rotation_bloch_shift g axis d u w so = Err ValueError).
Proof.
  unfold rotation_bloch_shift. split; intros H; destruct (Z.eqb_spec (so axis) 0); try contradiction; eauto.
Qed.
Theorem bloch_forward_derivative (K : cfield) (g : grid K) (u w : nat -> K) (F : lattice K) a :
  inverse_factors u w -> extensional F -> (forall a p, (a < 3)%nat -> F (step a (Z.of_nat (dim g a)) p) = u a * F p) -> (a < 3)%nat ->
  mv (cellsn g) (deriv_forward g u w a) (restrict g F) = vbuild (cellsn g) (fun t => (F (step a 1 (cell g t)) - F (cell g t)) / dxe g a (coord g a t)).
Proof. exact (fun H1 H2 H3 => @deriv_forward_lattice K g u w F H1 H2 H3 a). Qed.
Theorem bloch_backward_derivative (K : cfield) (g : grid K) (u w : nat -> K) (F : lattice K) a :
  inverse_factors u w -> extensional F -> (forall a p, (a < 3)%nat -> F (step a (Z.of_nat (dim g a)) p) = u a * F p) -> (a < 3)%nat ->
  mv (cellsn g) (deriv_back g u w a) (restrict g F) = vbuild (cellsn g) (fun t => (F (cell g t) - F (step a (-1) (cell g t))) / dxh g a (coord g a t)).
Proof. exact (fun H1 H2 H3 => @deriv_back_lattice K g u w F H1 H2 H3 a). Qed.
(** the shift matrix of the example with an orthogonal shift is not a plain rotation *)
Example rotation_ex : exists A, rotation_bloch_shift ex_grid 0 1 (ue ex_phases) (we ex_phases) (fun b => if Nat.eqb b 1 then 1%Z else 0%Z) = Ok A /\
  gleqb (mv 4 A (vec ex_grid ex_field)) [gz 1 1; gz 0 1 * gz 2 1; gz 3 1; gz 0 1 * gz 0 1 * gz 0 1] = true.
Proof. eexists. split; [reflexivity|]. vm_compute. reflexivity. Qed.

(** *** C64: first-order and second-order forms *)
Theorem first_order_gives_e_full (K : cfield) (g : grid K) ph omega eps m pec pmc A E H J M :
  omega <> 0 -> (forall i, (i < vlen g)%nat -> m i <> 0) ->
  length E = vlen g -> length H = vlen g -> length J = vlen g -> length M = vlen g ->
  eh_full g ph omega eps (Some m) pec pmc = Ok A -> mv (2 * vlen g) A (E ++ H) = J ++ M ->
  mv (vlen g) (e_full g ph omega eps (Some m) pec pmc) E
  = vscale (- ki * omega) (vsub J (mv (vlen g) (mask pec) (mv (vlen g) (m2j g ph omega (Some m)) M))).
Proof. exact (@eh_to_e_lemma K g ph omega eps m pec pmc A E H J M). Qed.
Theorem first_order_gives_h_full (K : cfield) (g : grid K) ph omega eps m pec pmc A E H J M :
  omega <> 0 -> (forall i, (i < vlen g)%nat -> eps i <> 0) ->
  length E = vlen g -> length H = vlen g -> length J = vlen g -> length M = vlen g ->
  eh_full g ph omega eps (Some m) pec pmc = Ok A -> mv (2 * vlen g) A (E ++ H) = J ++ M ->
  mv (vlen g) (h_full g ph omega eps (Some m) pec pmc) H
  = vbuild (vlen g) (fun i => ki * omega * at_ M i
      + at_ (mv (vlen g) (mask pmc) (mv (vlen g) (curl_e g (ue ph) (we ph)) (mv (vlen g) (mdiag (fun k => 1 / eps k)) J))) i).
Proof. exact (@eh_to_h_lemma K g ph omega eps m pec pmc A E H J M). Qed.
Theorem e2h_completes_e (K : cfield) (g : grid K) ph omega eps m pec pmc A E :
  omega <> 0 -> (forall i, (i < vlen g)%nat -> m i <> 0) ->
  length E = vlen g -> mv (vlen g) (mask pec) E = E -> eh_full g ph omega eps (Some m) pec pmc = Ok A ->
  exists J, length J = vlen g /\ mv (2 * vlen g) A (E ++ mv (vlen g) (e2h g ph omega (Some m) pmc) E) = J ++ zeros K (vlen g) /\
            mv (vlen g) (e_full g ph omega eps (Some m) pec pmc) E = vscale (- ki * omega) J.
Proof. exact (@e2h_no_magnetic_current_lemma K g ph omega eps m pec pmc A E). Qed.
Theorem h2e_recovers_e (K : cfield) (g : grid K) ph omega eps m pmc A E H M :
  omega <> 0 -> (forall i, (i < vlen g)%nat -> eps i <> 0) ->
  length E = vlen g -> length H = vlen g -> length M = vlen g -> mv (vlen g) (mask pmc) H = H ->
  eh_full g ph omega eps (Some m) None pmc = Ok A -> mv (2 * vlen g) A (E ++ H) = zeros K (vlen g) ++ M ->
  mv (vlen g) (h2e g ph omega eps) H = E.
Proof. exact (@h2e_lemma K g ph omega eps m pmc A E H M). Qed.
Theorem eh_full_functional (K : cfield) (g : grid K) omega eps m e h A :
  eh_full g (no_bloch K) omega (at_ (vec g eps)) (Some (at_ (vec g m))) None None = Ok A ->
  mv (2 * vlen g) A (vec g e ++ vec g h)
  = vec g (fst (feh_full g omega eps (Some m) e h)) ++ vec g (snd (feh_full g omega eps (Some m) e h)).
Proof. exact (@feh_full_lemma K g omega eps m e h A). Qed.
Theorem eh_full_needs_mu (K : cfield) (g : grid K) ph omega eps mu pec pmc :
  (exists A, eh_full g ph omega eps mu pec pmc = Ok A) <-> mu <> None.
Proof. destruct mu; simpl; split; intros H; [discriminate|eexists; reflexivity|destruct H; discriminate|congruence]. Qed.
Example e2h_ex : gleqb (mv 6 (e2h ex_line ex_phases (gz 2 0) (Some (fun _ => gz 3 0)) (Some (fun i => Nat.eqb i 4))) [gz 1 0; gz 2 0; gz 3 0; gz 4 0; gz 5 0; gz 6 0]) (zeros G 6) = false.
Proof. vm_compute. reflexivity. Qed.

(** *** C65: the Poynting matrices *)
Theorem poynting_value (K : cfield) (g : grid K) e h r t : (r < 3)%nat -> (t < cellsn g)%nat ->
  comp g (mv (vlen g) (poynting_chew_e_cross g e) h) r t
  = face_area g r t * cross_product (fun c => comp g e c (next_cell g r t)) (fun c => comp g h c t) r.
Proof. exact (@poynting_value_lemma K g e h r t). Qed.
Theorem poynting_forms_agree (K : cfield) (g : grid K) e h : length e = vlen g -> length h = vlen g -> real_cells g ->
  mv (vlen g) (poynting_chew_e_cross g e) (vconj h) = vneg (mv (vlen g) (fun i j => kconj (poynting_chew_h_cross g h i j)) e).
Proof. exact (@poynting_agree_lemma K g e h). Qed.
Theorem poynting_theorem (K : cfield) (g : grid K) e h t : nonzero_cells g ->
  (forall a i, (a < 3)%nat -> (i < dim g a)%nat -> dxh g a i = dxe g a i) -> (t < cellsn g)%nat ->
  let S := mv (vlen g) (poynting_chew_e_cross g e) h in
  fsum 3 (fun a => comp g S a t - comp g S a (prev_cell g a t)) = volume g t * power_density g e h t.
Proof. exact (@poynting_local_lemma K g e h t). Qed.
Theorem power_balance (K : cfield) (g : grid K) e h : nonzero_cells g ->
  (forall a i, (a < 3)%nat -> (i < dim g a)%nat -> dxh g a i = dxe g a i) ->
  fsum (cellsn g) (fun t => volume g t * power_density g e h t) = 0.
Proof. exact (@power_balance_lemma' K g e h). Qed.
(** when the two cell lists differ, the balance fails in general *)
Definition ex_uneven : grid G := Grid (fun a => match a with 0 => 2 | _ => 1 end)%nat (fun _ _ => gz 1 0)
  (fun a i => match a, i with 0, 1 => gz 2 0 | _, _ => gz 1 0 end)%nat.
Theorem poynting_theorem_refuted : exists (g : grid G) e h t, nonzero_cells g /\ (t < cellsn g)%nat /\
  let S := mv (vlen g) (poynting_chew_e_cross g e) h in
  fsum 3 (fun a => comp g S a t - comp g S a (prev_cell g a t)) <> volume g t * power_density g e h t.
Proof.
  exists ex_uneven, [gz 1 0; gz 2 0; gz 3 0; gz 4 0; gz 5 0; gz 6 0], [gz 1 0; gz 5 0; gz 2 0; gz 7 0; gz 3 0; gz 11 0], 1%nat.
  split; [|split].
  - intros a i Ha Hi. split; apply geqb_false;
    destruct a as [|[|[|a]]]; [| | |lia| | | |lia]; destruct i as [|[|i]]; try (vm_compute; reflexivity); simpl in Hi; lia.
  - vm_compute. lia.
  - apply geqb_false. vm_compute. reflexivity.
Qed.

Print Assumptions vec_position. Print Assumptions vec_size. Print Assumptions unvec_vec. Print Assumptions vec_unvec. Print Assumptions unvec_succeeds_iff.
Print Assumptions curl_e_functional. Print Assumptions curl_h_functional.
Print Assumptions div_curl_e. Print Assumptions div_curl_h. Print Assumptions curl_grad_e. Print Assumptions curl_grad_h.
Print Assumptions preconditioned_symmetric. Print Assumptions preconditioned_transpose. Print Assumptions preconditioned_hermitian.
Print Assumptions e_full_functional. Print Assumptions e_full_functional_inverse_mu. Print Assumptions e_full_functional_mu_refuted. Print Assumptions e2h_functional.
Print Assumptions local_solver_forward. Print Assumptions local_solver_adjoint. Print Assumptions local_solver_unsupported.
Print Assumptions adjoint_simulation_real. Print Assumptions adjoint_simulation_pml. Print Assumptions adjoint_simulation_refuted.
Print Assumptions rotation_acts_on_lattice. Print Assumptions rotation_rejects_parallel_shift. Print Assumptions bloch_forward_derivative. Print Assumptions bloch_backward_derivative.
Print Assumptions first_order_gives_e_full. Print Assumptions first_order_gives_h_full. Print Assumptions e2h_completes_e. Print Assumptions eh_full_needs_mu. Print Assumptions h2e_recovers_e. Print Assumptions eh_full_functional.
Print Assumptions poynting_value. Print Assumptions poynting_forms_agree. Print Assumptions poynting_theorem. Print Assumptions power_balance. Print Assumptions poynting_theorem_refuted.
