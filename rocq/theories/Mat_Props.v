(** Interpolated refractive indices and the tables of the named materials: C160, C161. *)
From Verif Require Import QTac Mat_Data Mat_Model Mat_Spec Mat_Proofs Mat_Proofs2.
From Verif Require Space_Model Space_Spec.
From Coq Require Import Lia Qfield.
Set Implicit Arguments.

(** *** C160: a material given by wavelengths, n and k *)
(** between two wavelengths of the data both values lie between the data there *)
Theorem custom_between wlens n k i w : strictly_increasing wlens -> length n = length wlens -> length k = length wlens -> (S i < length wlens)%nat ->
  nth i wlens 0 <= w <= nth (S i) wlens 0 ->
  exists n' k', interpolate_using_wavelengths w wlens n k = Ok (n', k') /\
    in_between (nth i n 0) (nth (S i) n 0) n' /\ in_between (nth i k 0) (nth (S i) k 0) k'.
Proof.
  intros Inc Ln Lk Hi Hw. destruct (@pchip_between_lemma wlens n Inc Ln ltac:(lia) i w Hi Hw) as (n' & E1 & B1).
  destruct (@pchip_between_lemma wlens k Inc Lk ltac:(lia) i w Hi Hw) as (k' & E2 & B2).
  exists n', k'. unfold interpolate_using_wavelengths. rewrite E1. cbn [bind]. rewrite E2. auto.
Qed.
(** at the wavelengths of the data it has the values of the data *)
Theorem custom_data wlens n k i w : strictly_increasing wlens -> length n = length wlens -> length k = length wlens -> (2 <= length wlens)%nat -> (i < length wlens)%nat -> w == nth i wlens 0 ->
  exists n' k', interpolate_using_wavelengths w wlens n k = Ok (n', k') /\ n' == nth i n 0 /\ k' == nth i k 0.
Proof.
  intros Inc Ln Lk L2 Hi Hw. destruct (@pchip_knot_lemma wlens n Inc Ln L2 i w Hi Hw) as (n' & E1 & B1). destruct (@pchip_knot_lemma wlens k Inc Lk L2 i w Hi Hw) as (k' & E2 & B2).
  exists n', k'. unfold interpolate_using_wavelengths. rewrite E1. cbn [bind]. rewrite E2. auto.
Qed.
(** wavelengths that are not in increasing order are refused, also in decreasing order *)
Theorem custom_refused wlens n k w : ~ strictly_increasing wlens \/ length n <> length wlens \/ length k <> length wlens \/ (length wlens < 2)%nat ->
  interpolate_using_wavelengths w wlens n k = Err ValueError.
Proof.
  intros H. assert (P : forall ys v, pchip wlens ys w = Ok v -> strictly_increasing wlens /\ length ys = length wlens /\ (2 <= length wlens)%nat).
  { intros ys v. unfold pchip. destruct (Nat.eqb_spec (length wlens) (length ys)) as [E|]; cbn [negb orb]; [|discriminate].
    destruct (Nat.ltb_spec (length wlens) 2); cbn [orb]; [discriminate|]. destruct (increasing wlens) eqn:I; cbn [negb]; [|discriminate].
    intros _. split; [now apply increasing_spec|auto]. }
  assert (X : forall ys, (exists v, pchip wlens ys w = Ok v) \/ pchip wlens ys w = Err ValueError) by (intros ys; unfold pchip; destruct (_ || _); eauto).
  unfold interpolate_using_wavelengths. destruct (X n) as [(v & E)|E]; rewrite E; [|reflexivity]. cbn [bind]. destruct (X k) as [(v' & E')|E']; rewrite E'; [|reflexivity].
  exfalso. apply P in E, E'. destruct E as (A & B & C), E' as (A' & B' & C'). destruct H as [H|[H|[H|H]]]; [contradiction..|lia].
Qed.
Example custom_ex : strictly_increasing [1000; 1500; 1600; 2000] /\
  match interpolate_using_wavelengths 1550 [1000; 1500; 1600; 2000] [3; 2; 2; 4] [0; 1; 3; 4] with
  | Ok (n, k) => n == 2 /\ Qle_bool 1 k && Qle_bool k 3 = true /\ Qeq_bool k 2 = false | Err _ => False end.
Proof. split; [intros [|[|[|i]]] H; cbn in *; try lra; lia|]. vm_compute. auto. Qed.
Example custom_decreasing_ex : interpolate_using_wavelengths 1550 [1600; 1500] [2; 3] [0; 0] = Err ValueError.
Proof. vm_compute. reflexivity. Qed.
Print Assumptions custom_between.
Print Assumptions custom_data.
Print Assumptions custom_refused.

(** *** C161: the tables *)
(** n and k of the named materials, at every wavelength of their tables (in nm) *)
Theorem table_ranges w :
  ((62 # 100) <= w <= 250000 -> exists n k, table_index TSi w = Ok (n, k) /\ (255 # 1000) <= n <= (35361 # 10000) /\ 0 <= k <= (358 # 100)) /\
  ((517 # 10) <= w <= (12398 # 10) -> exists n k, table_index TSi3N4 w = Ok (n, k) /\ (611 # 1000) <= n <= (2766 # 1000) /\ 0 <= k <= (153 # 100)) /\
  ((1 # 8) <= w <= 12349 -> exists n k, table_index TSiO2 w = Ok (n, k) /\ (3563 # 10000) <= n <= (2839 # 1000) /\ 0 <= k <= (2936 # 1000)).
Proof.
  split; [|split]; intros H; [exact (@tables_lemma TSi w H)|exact (@tables_lemma TSi3N4 w H)|exact (silica_near H)].
Qed.
(** the materials do not amplify: with the sign exp(i omega t) the imaginary part of the permittivity is not positive *)
Theorem table_passive m w : (match m with TSiO2 => (1 # 8) <= w <= 499900 | TSi => (62 # 100) <= w <= 250000 | TSi3N4 => (517 # 10) <= w <= (12398 # 10) end) ->
  exists e, table_eps m w = Ok e /\ snd e <= 0.
Proof.
  intros H. destruct (@tables_lemma m w) as (n & k & E & Hn & Hk); [destruct m; exact H|]. unfold table_eps. rewrite E. cbn [bind]. eexists. split; [reflexivity|].
  unfold Space_Model.mat_eps, Space_Model.csq. cbn [fst snd]. assert (0 < fst (n_range m)) by (destruct m; vm_compute; reflexivity). assert (0 <= n * k) by nra. lra.
Qed.
(** from 12.5 micrometers on the table of silica contains the wavelength in micrometers instead of an index *)
Theorem silica_infrared w :
  (12500 <= w <= 499900 -> exists n k, table_index TSiO2 w = Ok (n, k) /\ (125 # 10) <= n) /\
  (100000 <= w <= 499900 -> exists n k, table_index TSiO2 w = Ok (n, k) /\ 100 <= n).
Proof.
  split; intros H; [destruct (silica_far H) as (n & k & E & B & _)|destruct (silica_very_far H) as (n & k & E & B & _)]; exists n, k; (split; [exact E|lra]).
Qed.
Theorem silica_infrared_table i : (i < length SiO2_En)%nat -> nth i SiO2_En 0 <= (992 # 10000) ->
  let micrometers := hc / nth i SiO2_En 0 * 1000000 in (999 # 1000) * micrometers <= nth i SiO2_n 0 <= (1001 # 1000) * micrometers.
Proof.
  intros Hi He. cbv zeta.
  assert (C : forallb (fun p => qlt (992 # 10000) (fst p) || (Qle_bool ((999 # 1000) * (hc / fst p * 1000000)) (snd p) && Qle_bool (snd p) ((1001 # 1000) * (hc / fst p * 1000000)))) (combine SiO2_En SiO2_n) = true) by (vm_compute; reflexivity).
  rewrite forallb_forall in C. assert (L : length SiO2_En = length SiO2_n) by reflexivity.
  assert (E : nth i (combine SiO2_En SiO2_n) (0, 0) = (nth i SiO2_En 0, nth i SiO2_n 0)) by (apply combine_nth; exact L).
  specialize (C (nth i SiO2_En 0, nth i SiO2_n 0)). rewrite <- E in C. specialize (C ltac:(apply nth_In; rewrite combine_length, <- L, Nat.min_id; exact Hi)).
  rewrite E in C. apply Bool.orb_true_iff in C. destruct C as [C|C].
  - apply qlt_true in C. cbn [fst] in C. lra.
  - apply Bool.andb_true_iff in C. destruct C. qhyps. split; assumption.
Qed.
Example table_ex : match table_index TSi 1550 with Ok (n, k) => Qle_bool (347 # 100) n && Qle_bool n (348 # 100) && Qle_bool 0 k | Err _ => false end = true.
Proof. vm_compute. reflexivity. Qed.
Example silica_ex : match table_index TSiO2 1550 with Ok (n, k) => Qle_bool (144 # 100) n && Qle_bool n (145 # 100) | Err _ => false end = true /\
  match table_index TSiO2 15000 with Ok (n, k) => Qle_bool 14 n | Err _ => false end = true.
Proof. vm_compute. auto. Qed.
Print Assumptions table_ranges.
Print Assumptions table_passive.
Print Assumptions silica_infrared.
Print Assumptions silica_infrared_table.
