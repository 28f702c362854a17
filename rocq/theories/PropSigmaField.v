(** * C55 with the spherical harmonics of the textbooks. *)
From Coq Require Import List ZArith Arith Bool Reals Lra Lia.
From Coquelicot Require Import Complex.
From Verif Require Import Base ListLemmas RSum CSum SpecField SpecLatLon ConcentrationProofs SpecHarmonics TextbookProofs
  Noise NoiseProofs Wavelet WaveletProofs Threshold SigmaProofs EarthProofs Numpy Convolution LatLonProofs OrthoProofs EigenProofs PropWavelet PropThreshold PropSigma PropLatLon PropThreeJ.
Import ListNotations.
Local Open Scope nat_scope.

Lemma textbook_addition d L theta phi : textbook d L -> addition_theorem L (fun el m => harmonic d (Z.of_nat el) m theta phi).
Proof.
  intros T el Hel. pose proof (textbook_degree d L T (Z.of_nat el) theta phi ltac:(lia)) as H.
  unfold zrange in H. rewrite map_map, clsum_map_seq in H. replace (Z.to_nat (Z.of_nat el + 1 - - Z.of_nat el)) with (2 * el + 1) in H by lia.
  apply RtoC_inj. rewrite <- csum_RtoC. transitivity (RtoC (IZR (2 * Z.of_nat el + 1) / (4 * PI))).
  - rewrite <- H. apply csum_ext. intros k _. rewrite Cmod2. replace (- Z.of_nat el + Z.of_nat k)%Z with (Z.of_nat k - Z.of_nat el)%Z by lia. reflexivity.
  - do 2 f_equal. rewrite plus_IZR, mult_IZR, <- INR_IZR_INZ. reflexivity.
Qed.

(** [sigma_j] is the standard deviation of the field of the [j]th wavelet
    coefficients of the noise at every point [theta], [phi] of the sphere. *)
Theorem C55_textbook : forall (E : ensemble) L signal snr_in (nlm : (nat -> R) -> list C) wavelets
    (W : (nat -> R) -> list (list C)) d theta phi j,
  (forall X, create_noise (fun _ => X) L signal snr_in = Ok (nlm X)) ->
  decorrelated E (L * L) ->
  matrix (L * L) wavelets -> (forall psi, In psi wavelets -> axisymmetric L psi) ->
  (forall X, axisymmetric_wavelet_forward L (nlm X) wavelets = Ok (W X)) ->
  textbook d L -> j < length wavelets ->
  mean E (fun X => (Cmod (band_limited d (L * L) (fun i => nth i (nth j (W X) []) (RtoC 0)) theta phi) ^ 2)%R)
  = (nth j (compute_sigma_j signal wavelets snr_in) 0 ^ 2)%R.
Proof.
  intros E L signal snr nlm ws W d theta phi j HX HE Hm Ha HW T Hj.
  rewrite <- (C55_axisymmetric E L signal snr nlm ws W _ j HX HE Hm Ha HW (textbook_addition d L theta phi T) Hj).
  apply mean_ext. intros X. do 2 f_equal. unfold band_limited, field_at. rewrite csum_degrees. apply csum_ext. intros el Hel. apply csum_ext. intros k Hk. cbv zeta.
  unfold harmonic_number, coeff. rewrite sqrt_block by lia. f_equal.
  - f_equal. lia.
  - f_equal. lia.
Qed.
Print Assumptions C55_textbook.

(** Two degrees, one wavelet, four unit spikes: the mean square is the same at every
    point. *)
Example C55_case_textbook : forall signal snr_in theta phi, exists nlm W,
  (forall X, create_noise (fun _ => X) 2 signal snr_in = Ok (nlm X)) /\
  (forall X, axisymmetric_wavelet_forward 2 (nlm X) [[RtoC 1; RtoC 0; RtoC 2; RtoC 0]] = Ok (W X)) /\
  mean (spikes 4) (fun X => (Cmod (band_limited LatLonCases.d2 (2 * 2) (fun i => nth i (nth 0 (W X) []) (RtoC 0)) theta phi) ^ 2)%R)
  = (compute_sigma_noise signal snr_in None ^ 2 * 5)%R.
Proof.
  intros signal snr theta phi. destruct (C55_case_axisymmetric signal snr) as (nlm & W & H1 & H2 & H3). exists nlm, W. split; [exact H1|]. split; [exact H2|]. rewrite <- H3.
  assert (Hm : matrix (2 * 2) [[RtoC 1; RtoC 0; RtoC 2; RtoC 0]]) by (intros r [<-|[]]; reflexivity).
  assert (Ha : forall psi, In psi [[RtoC 1; RtoC 0; RtoC 2; RtoC 0]] -> axisymmetric 2 psi).
  { intros psi [<-|[]] el m [V1 V2] Hz. unfold coeff.
    assert (D : el = 0 /\ m = 0%Z \/ el = 1 /\ (m = -1 \/ m = 0 \/ m = 1)%Z) by lia.
    destruct D as [[-> ->]|[-> [->|[->| ->]]]]; try contradiction; reflexivity. }
  rewrite (C55_textbook (spikes 4) 2 signal snr nlm _ W LatLonCases.d2 theta phi 0 H1 (spikes_decorrelated 4 ltac:(lia)) Hm Ha H2 C68_product_case ltac:(cbn; lia)).
  symmetry. apply (C55_axisymmetric (spikes 4) 2 signal snr nlm _ W pole_Y 0 H1 (spikes_decorrelated 4 ltac:(lia)) Hm Ha H2 (pole_addition 2)). cbn. lia.
Qed.
