(** * C26, C27: the wavelet transforms keep energies, need their condition, and do not
    magnify changes of the coefficients. *)
From Coq Require Import List ZArith Arith Bool Reals Lra Lia.
From Coquelicot Require Import Complex.
From Verif Require Import Base ListLemmas RSum CSum PyNum Index IndexProofs Numpy NoiseProofs Eigen SpecField EigenProofs
  Convolution ConvolutionProofs Transform SpecTransform TransformProofs Functions FunctionsProofs Wavelet WaveletProofs SigmaProofs
  SpecLatLon LatLonProofs OrthoProofs SpecConcentration ConcentrationProofs SpecHarmonics SpecWigner SpecWignerD TextbookProofs WignerDProofs
  PropWavelet PropDemos PropStrict.
Import ListNotations.
Local Open Scope nat_scope.

Lemma abs2_Cmod z : abs2 z = (Cmod z ^ 2)%R.
Proof. unfold abs2. destruct z as [x y]. unfold Cmod, Re, Im. cbn [fst snd]. rewrite pow2_sqrt; [reflexivity|]. apply Rplus_le_le_0_compat; apply pow2_ge_0. Qed.

Lemma nrm2_Cmod n f : nrm2 n f = rsum n (fun i => (Cmod (f i) ^ 2)%R).
Proof. apply rsum_ext. intros i _. apply abs2_Cmod. Qed.

Lemma expansion_energy L w e : energy (expansion (L * L) w) 0 PI 0 (2 * PI) e -> e = rsum (L * L) (fun i => (Cmod (w i) ^ 2)%R).
Proof.
  intros H. pose proof (sphere_product L w w) as Q. rewrite ip_self in Q. apply inner_energy in Q. destruct Q as [Q _].
  apply RtoC_inj. rewrite (box_integral_unique _ _ _ _ _ _ _ H Q). cbn [Re RtoC fst]. rewrite nrm2_Cmod. reflexivity.
Qed.

Lemma degree_of i L : i < L * L -> exists el m, valid L el m /\ forall f, coeff f el m = nth i f (RtoC 0).
Proof.
  intros Hi. exists (Nat.sqrt i), (Z.of_nat i - Z.of_nat (Nat.sqrt i * Nat.sqrt i + Nat.sqrt i))%Z.
  pose proof (Nat.sqrt_spec i (Nat.le_0_l i)) as S. cbv zeta in S. split.
  - split; [nia|lia].
  - intros f. unfold coeff. f_equal. lia.
Qed.

(** The energies on the sphere of the wavelet coefficients add up to the energy of the
    signal. *)
Theorem C27_energy : forall L flm wavelets W total parts, length flm = L * L -> matrix (L * L) wavelets -> tight L wavelets ->
  axisymmetric_wavelet_forward L flm wavelets = Ok W ->
  energy (expansion (L * L) (fun i => nth i flm (RtoC 0))) 0 PI 0 (2 * PI) total ->
  (forall j, j < length W -> energy (expansion (L * L) (fun i => nth i (nth j W []) (RtoC 0))) 0 PI 0 (2 * PI) (parts j)) ->
  rsum (length W) parts = total.
Proof.
  intros L flm ws W total parts Hf Hw Ht E ET EP. destruct (C27_forward L flm ws Hf Hw) as (W' & E' & HW & H). rewrite E in E'. injection E' as <-.
  rewrite (expansion_energy _ _ _ ET), (rsum_ext _ _ _ (fun j Hj => expansion_energy _ _ _ (EP j Hj))), rsum_swap. apply rsum_ext. intros i Hi.
  destruct (degree_of i L Hi) as (el & m & V & Q). rewrite HW.
  rewrite (rsum_ext _ _ (fun j => (4 * PI / (2 * INR el + 1) * Cmod (coeff (nth j ws []) el 0) ^ 2 * Cmod (nth i flm (RtoC 0)) ^ 2)%R)).
  - rewrite rsum_scal_r, (Ht el) by apply V. ring.
  - intros j Hj. destruct (H j Hj) as [_ Hc]. rewrite <- !Q, (Hc el m V), !Cmod_mult, Cmod_conj, Cmod_R, (Rabs_pos_eq _ (sqrt_pos _)).
    rewrite !Rpow_mult_distr, pow2_sqrt by (apply Rlt_le, sqrt_norm). reflexivity.
Qed.
Print Assumptions C27_energy.

(** The round trip of one signal with energy at every degree needs the condition of
    [C27_round_trip]. *)
Theorem C27_only_tight : forall L flm wavelets W, length flm = L * L -> matrix (L * L) wavelets ->
  (forall el, el < L -> exists m, valid L el m /\ coeff flm el m <> RtoC 0) ->
  axisymmetric_wavelet_forward L flm wavelets = Ok W -> axisymmetric_wavelet_inverse L W wavelets = Ok flm -> tight L wavelets.
Proof.
  intros L flm ws W Hf Hw Hn E EI el Hel. destruct (C27_forward L flm ws Hf Hw) as (W' & E' & HW & H). rewrite E in E'. injection E' as <-.
  assert (HR : forall r, In r W -> length r = L * L).
  { intros r Hr. apply (In_nth _ _ []) in Hr. destruct Hr as (j & Hj & <-). apply H. congruence. }
  rewrite (axisymmetric_inverse_ok L W ws HW HR Hw) in EI. injection EI as EI. destruct (Hn el Hel) as (m & V & NZ).
  apply (f_equal (fun f => coeff f el m)) in EI. rewrite coeff_table in EI by exact V. rewrite HW in EI.
  rewrite (csum_ext _ _ (fun j => Cmult (RtoC (4 * PI / (2 * INR el + 1) * Cmod (coeff (nth j ws []) el 0) ^ 2)) (coeff flm el m))) in EI.
  - rewrite csum_scal_r, csum_RtoC in EI. set (s := rsum _ _) in *. apply RtoC_inj.
    transitivity (Cmult (Cmult (RtoC s) (coeff flm el m)) (Cinv (coeff flm el m))); [field; exact NZ|]. rewrite EI. field. exact NZ.
  - intros j Hj. destruct (H j Hj) as [_ Hc]. rewrite (Hc el m V). rewrite RtoC_mult, <- Cmod2_mult.
    rewrite <- (sqrt_sqrt (4 * PI / (2 * INR el + 1))) at 3 by (apply Rlt_le, sqrt_norm). rewrite RtoC_mult. ring.
Qed.
Print Assumptions C27_only_tight.

Lemma mixed_le s A B w g : (0 <= s -> 0 <= A -> 0 <= B -> 0 <= w -> 0 <= g -> s ^ 2 <= A * B -> 2 * s * w * g <= A * g ^ 2 + B * w ^ 2)%R.
Proof.
  intros Hs HA HB Hw Hg H. apply Rsqr_incr_0_var; [|apply Rplus_le_le_0_compat; apply Rmult_le_pos; try assumption; apply pow2_ge_0].
  unfold Rsqr. apply Rle_trans with (4 * (A * B) * (w * g) ^ 2)%R.
  - replace (2 * s * w * g * (2 * s * w * g))%R with (4 * s ^ 2 * (w * g) ^ 2)%R by ring. apply Rmult_le_compat_r; [apply pow2_ge_0|lra].
  - pose proof (pow2_ge_0 (A * g ^ 2 - B * w ^ 2)). nra.
Qed.

(** Cauchy and Schwarz *)
Lemma cauchy_schwarz n (w g : nat -> C) :
  (Cmod (csum n (fun j => Cmult (w j) (g j))) ^ 2 <= rsum n (fun j => (Cmod (w j) ^ 2)%R) * rsum n (fun j => (Cmod (g j) ^ 2)%R))%R.
Proof.
  induction n as [|n IH]; [cbn; rewrite Cmod_0; lra|]. cbn [csum rsum]. set (S := csum n _) in *. set (A := rsum n _) in *. set (B := rsum n (fun j => (Cmod (g j) ^ 2)%R)) in *.
  assert (HA : (0 <= A)%R) by (apply rsum_nonneg; intros; apply pow2_ge_0). assert (HB : (0 <= B)%R) by (apply rsum_nonneg; intros; apply pow2_ge_0).
  pose proof (Cmod_ge_0 S) as HS. pose proof (Cmod_ge_0 (w n)) as Hw. pose proof (Cmod_ge_0 (g n)) as Hg.
  pose proof (mixed_le _ A B _ _ HS HA HB Hw Hg IH) as M.
  pose proof (Cmod_triangle S (Cmult (w n) (g n))) as T. rewrite Cmod_mult in T. pose proof (Cmod_ge_0 (Cplus S (Cmult (w n) (g n)))) as T0.
  apply Rle_trans with ((Cmod S + Cmod (w n) * Cmod (g n)) ^ 2)%R; [apply pow_incr; split; assumption|]. nra.
Qed.

(** Changing the wavelet coefficients, by thresholding or otherwise, changes the
    reconstruction by no more. *)
Theorem C27_stable : forall L wavelets W V, matrix (L * L) wavelets -> tight L wavelets -> length W = length wavelets -> length V = length wavelets ->
  matrix (L * L) W -> matrix (L * L) V ->
  exists f g, axisymmetric_wavelet_inverse L W wavelets = Ok f /\ axisymmetric_wavelet_inverse L V wavelets = Ok g /\
    (rsum (L * L) (fun i => Cmod (Cminus (nth i f (RtoC 0)) (nth i g (RtoC 0))) ^ 2)
     <= rsum (length wavelets) (fun j => rsum (L * L) (fun i => Cmod (Cminus (at_ W j i) (at_ V j i)) ^ 2)))%R.
Proof.
  intros L ws W V Hw Ht HW HV MW MV. eexists. eexists. split; [exact (axisymmetric_inverse_ok L W ws HW MW Hw)|]. split; [exact (axisymmetric_inverse_ok L V ws HV MV Hw)|].
  rewrite rsum_swap. apply rsum_le. intros i Hi. destruct (degree_of i L Hi) as (el & m & Va & Q). rewrite <- !Q, !coeff_table by exact Va. rewrite HW, HV, <- csum_minus.
  rewrite (csum_ext _ _ (fun j => Cmult (Cminus (at_ W j i) (at_ V j i)) (Cmult (RtoC (sqrt (4 * PI / (2 * INR el + 1)))) (coeff (nth j ws []) el 0)))).
  - eapply Rle_trans; [apply cauchy_schwarz|]. rewrite (rsum_ext _ (fun j => (Cmod (Cmult (RtoC (sqrt (4 * PI / (2 * INR el + 1)))) (coeff (nth j ws []) el 0)) ^ 2)%R) (fun j => (4 * PI / (2 * INR el + 1) * Cmod (coeff (nth j ws []) el 0) ^ 2)%R)).
    + rewrite (Ht el) by apply Va. lra.
    + intros j _. rewrite Cmod_mult, Cmod_R, (Rabs_pos_eq _ (sqrt_pos _)), Rpow_mult_distr, pow2_sqrt by (apply Rlt_le, sqrt_norm). reflexivity.
  - intros j _. rewrite !Q. unfold at_, nthC. ring.
Qed.
Print Assumptions C27_stable.

(** The same for the Slepian wavelets, whatever the number of scales that are left. *)
Theorem C26_stable : forall N cols rows W V, matrix cols rows -> N <= cols -> admissible N rows ->
  matrix N W -> matrix N V -> length W = length V -> length W <= length rows ->
  exists f g, slepian_wavelet_inverse (A2 N W) (A2 cols rows) (Z.of_nat N) = Ok f /\ slepian_wavelet_inverse (A2 N V) (A2 cols rows) (Z.of_nat N) = Ok g /\
    (rsum N (fun p => Cmod (Cminus (nthC f p) (nthC g p)) ^ 2)
     <= rsum (length W) (fun j => rsum N (fun p => Cmod (Cminus (at_ W j p) (at_ V j p)) ^ 2)))%R.
Proof.
  intros N cols rows W V Hr Hc Ha MW MV HL Hle. eexists. eexists. split; [apply inverse_rows; assumption|]. split; [apply inverse_rows; assumption || congruence|].
  rewrite rsum_swap. apply rsum_le. intros p Hp. assert (NC : forall h : nat -> C, nthC (map h (seq 0 N)) p = h p) by (intros h; apply (nth_map_seq h); exact Hp).
  rewrite !NC, <- HL, <- csum_minus.
  rewrite (csum_ext _ _ (fun j => Cmult (Cconj (Cminus (at_ W j p) (at_ V j p))) (at_ rows j p))) by (intros j _; apply injective_projections; cbn; ring).
  eapply Rle_trans; [apply cauchy_schwarz|].
  assert (B : (rsum (length W) (fun j => Cmod (at_ rows j p) ^ 2) <= 1)%R).
  { specialize (Ha p Hp). rewrite (csum_ext _ _ (fun j => RtoC (Cmod (at_ rows j p) ^ 2))) in Ha by (intros j _; apply Cmod2_mult).
    rewrite csum_RtoC in Ha. apply RtoC_inj in Ha. rewrite <- Ha. replace (length rows) with (length W + (length rows - length W)) by lia.
    rewrite rsum_app. assert (0 <= rsum (length rows - length W) (fun j => Cmod (at_ rows (length W + j) p) ^ 2))%R by (apply rsum_nonneg; intros; apply pow2_ge_0). lra. }
  rewrite (rsum_ext _ (fun j => (Cmod (Cconj (Cminus (at_ W j p) (at_ V j p))) ^ 2)%R) (fun j => (Cmod (Cminus (at_ W j p) (at_ V j p)) ^ 2)%R)) by (intros; rewrite Cmod_conj; reflexivity).
  set (X := rsum (length W) (fun j => (Cmod (Cminus (at_ W j p) (at_ V j p)) ^ 2)%R)).
  assert (0 <= X)%R by (apply rsum_nonneg; intros; apply pow2_ge_0). nra.
Qed.
Print Assumptions C26_stable.

(** ** Cases *)
(** Two degrees, one scale for each: the signal with coefficients 1, 2, 3, 4 has energy
    30, and its two scales have 30 together. *)
Example C27_energy_case : exists W parts, axisymmetric_wavelet_forward 2 [RtoC 1; RtoC 2; RtoC 3; RtoC 4] DemoCases.bands2 = Ok W /\
  (forall j, j < length W -> energy (expansion (2 * 2) (fun i => nth i (nth j W []) (RtoC 0))) 0 PI 0 (2 * PI) (parts j)) /\
  rsum (length W) parts = 30%R.
Proof.
  destruct (C27_forward 2 [RtoC 1; RtoC 2; RtoC 3; RtoC 4] DemoCases.bands2 eq_refl DemoCases.bands2_ok) as (W & E & _).
  exists W, (fun j => Re (ip (2 * 2) (fun i => nth i (nth j W []) (RtoC 0)) (fun i => nth i (nth j W []) (RtoC 0)))). split; [exact E|].
  assert (P : forall w, energy (expansion (2 * 2) w) 0 PI 0 (2 * PI) (Re (ip (2 * 2) w w))).
  { intros w. pose proof (sphere_product 2 w w) as Q. apply inner_energy in Q. exact (proj1 Q). }
  split; [intros j _; apply P|].
  apply (C27_energy 2 [RtoC 1; RtoC 2; RtoC 3; RtoC 4] _ W 30%R _ eq_refl DemoCases.bands2_ok DemoCases.bands2_tight E); [|intros j _; apply P].
  pose proof (P (fun i => nth i [RtoC 1; RtoC 2; RtoC 3; RtoC 4] (RtoC 0))) as Q. rewrite ip_self in Q. cbn [Re RtoC fst] in Q.
  replace 30%R with (nrm2 (2 * 2) (fun i => nth i [RtoC 1; RtoC 2; RtoC 3; RtoC 4] (RtoC 0))); [exact Q|]. unfold nrm2, Re, Im, RtoC. cbn. ring.
Qed.

(** Leaving out the second scale: no round trip, for want of energy at degree 1. *)
Example C27_only_tight_case : forall W, axisymmetric_wavelet_forward 2 [RtoC 1; RtoC 2; RtoC 3; RtoC 4] [nth 0 DemoCases.bands2 []] = Ok W ->
  axisymmetric_wavelet_inverse 2 W [nth 0 DemoCases.bands2 []] <> Ok [RtoC 1; RtoC 2; RtoC 3; RtoC 4].
Proof.
  intros W E EI. assert (T : tight 2 [nth 0 DemoCases.bands2 []]).
  { apply (C27_only_tight 2 [RtoC 1; RtoC 2; RtoC 3; RtoC 4] _ W); [reflexivity|intros r [<-|[]]; reflexivity| |exact E|exact EI].
    intros el Hel. exists 0%Z. split; [split; lia|]. destruct el as [|[|el]]; [| |lia]; unfold coeff; cbn; intros X; apply RtoC_inj in X; lra. }
  specialize (T 1 ltac:(lia)). cbn [length rsum] in T. change (nth 0 [nth 0 DemoCases.bands2 []] []) with (nth 0 DemoCases.bands2 []) in T.
  rewrite (DemoCases.band_share 0 1) in T by lia. cbn in T. lra.
Qed.

(** One coefficient set to zero, with both kinds of wavelets. *)
Example C27_stable_case : exists f g,
  axisymmetric_wavelet_inverse 2 [[RtoC 1; RtoC 0; RtoC 0; RtoC 0]; [RtoC 0; RtoC 2; RtoC 3; RtoC 4]] DemoCases.bands2 = Ok f /\
  axisymmetric_wavelet_inverse 2 [[RtoC 1; RtoC 0; RtoC 0; RtoC 0]; [RtoC 0; RtoC 0; RtoC 3; RtoC 4]] DemoCases.bands2 = Ok g /\
  (rsum 4 (fun i => Cmod (Cminus (nth i f (RtoC 0)) (nth i g (RtoC 0))) ^ 2) <= 4)%R.
Proof.
  destruct (C27_stable 2 DemoCases.bands2 [[RtoC 1; RtoC 0; RtoC 0; RtoC 0]; [RtoC 0; RtoC 2; RtoC 3; RtoC 4]] [[RtoC 1; RtoC 0; RtoC 0; RtoC 0]; [RtoC 0; RtoC 0; RtoC 3; RtoC 4]]
    DemoCases.bands2_ok DemoCases.bands2_tight eq_refl eq_refl) as (f & g & Ef & Eg & H); try (intros r [<-|[<-|[]]]; reflexivity).
  exists f, g. split; [exact Ef|]. split; [exact Eg|]. eapply Rle_trans; [exact H|]. unfold at_, nthC. cbn [DemoCases.bands2 length rsum Nat.mul Nat.add nth].
  rewrite !Rplus_assoc. rewrite <- !RtoC_minus, !Cmod_R, !pow2_abs. lra.
Qed.

Example C26_stable_case : exists f g,
  slepian_wavelet_inverse (A2 3 [[RtoC 5; RtoC 0; RtoC 0]; [RtoC 0; RtoC 7; RtoC 0]]) (A2 3 units3) 3 = Ok f /\
  slepian_wavelet_inverse (A2 3 [[RtoC 5; RtoC 0; RtoC 0]; [RtoC 0; RtoC 0; RtoC 0]]) (A2 3 units3) 3 = Ok g /\
  (rsum 3 (fun p => Cmod (Cminus (nthC f p) (nthC g p)) ^ 2) <= 49)%R.
Proof.
  destruct units3_admissible as [HM HA].
  destruct (C26_stable 3 3 units3 [[RtoC 5; RtoC 0; RtoC 0]; [RtoC 0; RtoC 7; RtoC 0]] [[RtoC 5; RtoC 0; RtoC 0]; [RtoC 0; RtoC 0; RtoC 0]] HM (le_n 3) HA) as (f & g & Ef & Eg & H);
    try (intros r [<-|[<-|[]]]; reflexivity); [reflexivity|cbn; lia|].
  exists f, g. split; [exact Ef|]. split; [exact Eg|]. eapply Rle_trans; [exact H|]. unfold at_, nthC. cbn [length rsum nth].
  rewrite <- !RtoC_minus, !Cmod_R, !pow2_abs. lra.
Qed.
