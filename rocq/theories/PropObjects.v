(** * Creating the functions on the sphere: property C69. *)
From Coq Require Import List ZArith QArith Arith Bool Reals Qreals String Lra Lia.
From Coquelicot Require Import Complex.
From Verif Require Import Base ListLemmas RSum CSum PyNum Index IndexProofs Region RegionProofs Mask MaskProofs SpecRegion Numpy Eigen
  SpecEigen Quadrature Noise NoiseProofs EarthProofs Convolution ConvolutionProofs Transform TransformProofs SpecTransform Functions FunctionsProofs
  Wavelet WaveletProofs Names FnNames Mesh Args Plot PlotProofs Cli SpecField SpecObjects Objects ObjectsProofs
  PropNoise PropFunctions PropTransform PropWavelet PropRegion.
Import ListNotations.
Local Open Scope string_scope.
Local Open Scope list_scope.
Local Open Scope nat_scope.

Tactic Notation "ok" hyp(H) "as" simple_intropattern(p) ident(E) :=
  match type of H with
  | rbind ?e _ = Ok _ => destruct e as [p|] eqn:E; cbn [rbind] in H; [|discriminate H]
  end.

(** The class of the map of a continent, and its Slepian classes. *)
Definition map_class (africa : bool) : cls := if africa then Africa else SouthAmerica.
Definition slepian_map_class (africa : bool) : cls := if africa then SlepianAfrica else SlepianSouthAmerica.
Definition slepian_noise_class (africa : bool) : cls := if africa then SlepianNoiseAfrica else SlepianNoiseSouthAmerica.
Definition slepian_wavelet_class (africa : bool) : cls :=
  if africa then SlepianWaveletCoefficientsAfrica else SlepianWaveletCoefficientsSouthAmerica.
Definition map_name (africa : bool) : string := if africa then "africa" else "south_america".

(** The coefficients before noise was added. *)
Definition clean (o : obj) : list C := match o_unnoised o with Some u => u | None => o_coefficients o end.

Section Creation.
  Variable inverse forward : Z -> bool -> nat -> list C -> list C.
  Variable rotate_flms : list C -> R -> R -> R -> nat -> res (list C).
  Variable theta_to_index phi_to_index : R -> nat -> nat.
  Variable gammaln : R -> R.
  Variable axisym_wav_l : Z -> nat -> Z -> list R * nat * list (list R).
  Variable jmax : Z -> nat -> Z -> Z.
  Variable normal : Z -> nat -> R.
  Variable earth : list C.
  Variable cl : list R.
  Variable fmt_e : R -> string.
  Variable lower : string -> string.
  Variable to_int : string -> res Z.
  Variable env : string -> option string.
  Variable solve : nat -> region -> mask_files -> res (solved * mask_files).

  Notation FLM := (flm_coefficients inverse forward rotate_flms gammaln axisym_wav_l normal earth cl).
  Notation MK := (make_flm inverse forward rotate_flms gammaln axisym_wav_l jmax normal earth cl).
  Notation MF := (make_fp inverse forward rotate_flms theta_to_index phi_to_index axisym_wav_l jmax normal earth
                    fmt_e lower to_int env solve).
  Notation CC := (continent_coefficients inverse forward rotate_flms earth).

  Lemma make_flm_inv c L kw args r noise sm fs o fs' : MK c L kw args r noise sm fs = Ok (o, fs') ->
    exists p coef, setup_args jmax c L kw args = Ok p /\
      FLM c L p sm fs = Ok (coef, o_wavelets o, o_wavelet_coefficients o, fs') /\
      flm_add_noise normal L coef (option_map Q2R noise) = Ok (o_coefficients o, o_unnoised o, o_snr o) /\
      o_reality o = set_reality_flag c /\ o_params o = p /\ o_L o = L.
  Proof.
    unfold make_flm. destruct (same_fields _ _); [|discriminate]. intros H.
    ok H as u0 E0. ok H as p E1. ok H as [[[coef w] wc] fs1] E2. ok H as [[c1 u] s] E3.
    injection H as <- <-. exists p, coef. cbn. repeat split; reflexivity || assumption.
  Qed.

  Lemma topography_ok africa L sm f : topography inverse rotate_flms earth africa L sm = Ok f ->
    exists e rot, create_earth_flm earth L sm = Ok e /\
      rotate_flms e (deg2rad (if africa then 44 else 54)) (deg2rad (if africa then 87 else 108))
                  (deg2rad (if africa then 341 else 63)) L = Ok rot /\
      f = inverse 0%Z true L rot.
  Proof.
    unfold topography. intros H. ok H as a E. ok H as a0 E0. injection H as <-. exists a, a0. split; [reflexivity|].
    split; [|reflexivity]. destruct africa; exact E0.
  Qed.

  Lemma continent_real africa L sm fs flm fs' : real_synthesis inverse L -> real_analysis forward L ->
    CC africa L sm fs = Ok (flm, fs') -> List.length flm = L * L /\ reality L flm.
  Proof.
    intros HS HA H. unfold continent_coefficients in H. ok H as a E. ok H as [m fs1] E0. ok H as f E1.
    injection H as <- _. destruct (topography_ok _ _ _ _ E) as (e & rot & _ & _ & ->).
    destruct (where_mask_ok _ _ _ _ E1) as (_ & _ & La & _). apply HA; [exact La|].
    apply (where_mask_real _ _ _ _ E1). apply HS.
  Qed.

  Lemma sampled_real L (g : R -> R -> R) : real_analysis forward L ->
    List.length (ensure_f_bandlimited (forward 0%Z true) g L) = L * L /\ reality L (ensure_f_bandlimited (forward 0%Z true) g L).
  Proof.
    intros HA. unfold ensure_f_bandlimited. apply HA.
    - rewrite flat_map_concat_map. apply concat_length. apply shape_lengths.
      + unfold thetas. rewrite !map_length, seq_length. reflexivity.
      + intros row Hr. apply in_map_iff in Hr as (t & <- & _). unfold phis. rewrite !map_length, seq_length. reflexivity.
    - intros z Hz. apply in_flat_map in Hz as (t & _ & Hz). apply in_map_iff in Hz as (x & <- & _). reflexivity.
  Qed.

  Lemma plain_ok fs x coef w wc fs' : plain fs x = Ok (coef, w, wc, fs') -> x = Ok coef /\ fs' = fs /\ w = no_array /\ wc = no_array.
  Proof. unfold plain. destruct x; [|discriminate]. cbn [rbind]. intros [= <- <- <- <-]. repeat split. Qed.

  Lemma reality_0 flm : reality 0 flm.
  Proof. intros el m [H _]. lia. Qed.

  Lemma axisymmetric_rows L B jm w : (forall k, In k (create_kappas axisym_wav_l L B jm) -> List.length k = L) ->
    create_axisymmetric_wavelets axisym_wav_l L B jm = Ok w ->
    matrix (L * L) w /\ forall x, In x w -> reality L x.
  Proof.
    intros Hk E. destruct (C27_wavelets axisym_wav_l L B jm Hk) as (w' & E' & Hm & _ & Hr & _).
    rewrite E in E'. injection E' as <-. split; [exact Hm|exact (Hr eq_refl)].
  Qed.

  Lemma wavelet_map_ok L B jm j x row w wc fs' : (forall k, In k (create_kappas axisym_wav_l L B jm) -> List.length k = L) ->
    wavelet_map axisym_wav_l L B jm j x = Ok (row, w, wc, fs') ->
    exists flm wav W, x = Ok (flm, fs') /\ create_axisymmetric_wavelets axisym_wav_l L B jm = Ok wav /\
      axisymmetric_wavelet_forward L flm wav = Ok W /\ select_scale W j = Ok row /\
      w = A2 (L * L) wav /\ wc = A2 (L * L) W /\ (List.length flm = L * L -> List.length row = L * L).
  Proof.
    intros Hk H. unfold wavelet_map in H. ok H as a E. ok H as [flm fs1] E0. ok H as a0 E1. ok H as r E2.
    injection H as <- <- <- <-. exists flm, a, a0. repeat split; try reflexivity || assumption.
    intros Hl. destruct (axisymmetric_rows L B jm a Hk E) as [Hm _].
    destruct (C27_forward L flm a Hl Hm) as (W & EW & LW & HW). rewrite E1 in EW. injection EW as <-.
    unfold select_scale in E2. apply py_index_In in E2. apply (In_nth _ _ []) in E2 as (i & Hi & <-). apply HW. congruence.
  Qed.

  Lemma flm_coefficients_ok c L p sm fs coef w wc fs' :
    real_synthesis inverse L -> real_analysis forward L ->
    L * L <= List.length earth -> (forall k, Im (coeff earth k 0) = 0%R) ->
    (forall B jm k, In k (create_kappas axisym_wav_l L B jm) -> List.length k = L) ->
    FLM c L p sm fs = Ok (coef, w, wc, fs') ->
    List.length coef = L * L /\ (set_reality_flag c = true -> c <> Identity -> reality L coef).
  Proof.
    intros HS HA Ht H0 Hk H.
    assert (Ear : forall f, create_earth_flm earth L sm = Ok f -> List.length f = L * L /\ reality L f).
    { intros f Ef. destruct (earth_ok earth L sm f Ht Ef) as [A B]. split; [exact A|exact (B H0)]. }
    destruct c; destruct p; cbn [flm_coefficients] in H; try discriminate H.
    - (* Africa *) ok H as [flm fs1] E. apply plain_ok in H as (H & _). injection H as <-.
      destruct (continent_real _ _ _ _ _ _ HS HA E). split; [assumption|intros _ _; assumption].
    - (* AxisymmetricWaveletCoefficientsAfrica *)
      destruct (wavelet_map_ok _ _ _ _ _ _ _ _ _ (Hk B j_min) H) as (flm & wav & W & Ex & _ & _ & _ & _ & _ & Hl).
      split; [|discriminate]. apply Hl. exact (proj1 (continent_real _ _ _ _ _ _ HS HA Ex)).
    - destruct (wavelet_map_ok _ _ _ _ _ _ _ _ _ (Hk B j_min) H) as (flm & wav & W & Ex & _ & _ & _ & _ & _ & Hl).
      split; [|discriminate]. apply Hl. ok Ex as a E. injection Ex as <- _. exact (proj1 (Ear _ eq_refl)).
    - destruct (wavelet_map_ok _ _ _ _ _ _ _ _ _ (Hk B j_min) H) as (flm & wav & W & Ex & _ & _ & _ & _ & _ & Hl).
      split; [|discriminate]. apply Hl. exact (proj1 (continent_real _ _ _ _ _ _ HS HA Ex)).
    - (* AxisymmetricWavelets *) ok H as a E. ok H as x0 E0. injection H as <- _ _ _.
      destruct (axisymmetric_rows _ _ _ _ (Hk B j_min) E) as [Hm Hr]. apply py_index_In in E0.
      split; [exact (Hm _ E0)|intros _ _; exact (Hr _ E0)].
    - (* DiracDelta *) apply plain_ok in H as (H & _). destruct (C53_dirac L) as (f & Ef & [Lf _] & Rf). rewrite H in Ef. injection Ef as <-.
      split; [exact Lf|intros _ _; exact (Rf eq_refl)].
    - (* Earth *) apply plain_ok in H as (H & _). destruct (Ear _ H). split; [assumption|intros _ _; assumption].
    - apply plain_ok in H as (H & _). injection H as <-. match goal with |- context [ensure_f_bandlimited _ ?g _] => destruct (sampled_real L g HA) end.
      split; [assumption|intros _ _; assumption].
    - (* Gaussian *) apply plain_ok in H as (H & _). split; [exact (gaussian_length _ _ _ H)|]. intros _ _.
      destruct (Req_dec (Q2R sigma) 0) as [Z|NZ].
      + rewrite Z in H. destruct L as [|L]; [apply reality_0|]. rewrite (C53_gaussian_zero (S L)) in H by lia. discriminate H.
      + destruct (C53_gaussian L (Q2R sigma) NZ) as (f & Ef & _ & Rf). rewrite H in Ef. injection Ef as <-. exact (Rf eq_refl).
    - (* HarmonicGaussian *) apply plain_ok in H as (H & _). split; [exact (harmonic_gaussian_length _ _ _ _ H)|discriminate].
    - (* Identity *) apply plain_ok in H as (H & _). injection H as <-. split; [apply repeat_length|congruence].
    - (* NoiseEarth *) apply plain_ok in H as (H & _). ok H as a E. split.
      + destruct (create_noise_spec normal L a (Q2R SNR)) as (n & En & Ln & _). rewrite H in En. injection En as <-. exact Ln.
      + intros _ _. exact (create_noise_reality _ _ _ _ _ H).
    - (* Ridgelets *) ok H as a E. ok H as x0 E0. injection H as <- _ _ _. split; [|discriminate].
      unfold create_ridgelets in E. destruct (compute_ring gammaln L spin) as [ring|] eqn:Er; [|discriminate E].
      destruct (create_ridgelets_ok axisym_wav_l gammaln L B j_min spin ring (Hk B j_min) Er (ring_length _ _ _ _ Er)) as (k0 & ks & _ & E').
      unfold create_ridgelets in E'. rewrite Er in E'. rewrite E in E'. injection E' as ->.
      apply py_index_In in E0. destruct E0 as [<-|E0]; [apply table_length|]. apply in_map_iff in E0 as (x & <- & _). apply table_length.
    - (* SouthAmerica *) ok H as [flm fs1] E. apply plain_ok in H as (H & _). injection H as <-.
      destruct (continent_real _ _ _ _ _ _ HS HA E). split; [assumption|intros _ _; assumption].
    - (* SphericalHarmonic *) apply plain_ok in H as (H & _). split; [|discriminate].
      unfold Args.spherical_harmonic_coefficients, Args.create_spherical_harmonic in H. rewrite (np_set_length _ _ _ _ H). apply repeat_length.
    - apply plain_ok in H as (H & _). injection H as <-. match goal with |- context [ensure_f_bandlimited _ ?g _] => destruct (sampled_real L g HA) end.
      split; [assumption|intros _ _; assumption].
    - (* Wmap *) apply plain_ok in H as (H & _). destruct (Nat.le_gt_cases L (List.length cl + 2)) as [Hc|Hc].
      + destruct (C20_wmap_reality normal cl L Hc) as (f & Ef & Lf & Rf & _). rewrite H in Ef. injection Ef as <-.
        split; [exact Lf|intros _ _; exact Rf].
      + rewrite (create_wmap_short _ _ _ Hc) in H. discriminate H.
  Qed.
(** ** Every harmonic function *)

(** Whatever the arguments, region, noise and smoothing: an object that is
    created has [L^2] coefficients; if it is flagged as real, and is not the
    identity (C53), they describe a real field, also with noise. *)
Theorem C69_coefficients : forall c L kw args r noise sm fs o fs',
  real_synthesis inverse L -> real_analysis forward L ->
  L * L <= List.length earth -> (forall k, Im (coeff earth k 0) = 0%R) ->
  (forall B jm k, In k (create_kappas axisym_wav_l L B jm) -> List.length k = L) ->
  MK c L kw args r noise sm fs = Ok (o, fs') ->
  List.length (o_coefficients o) = L * L /\
  (o_reality o = true -> c <> Identity -> reality L (o_coefficients o)).
Proof.
  intros c L kw args r noise sm fs o fs' HS HA Ht H0 Hk H.
  destruct (make_flm_inv _ _ _ _ _ _ _ _ _ _ H) as (p & coef & _ & HC & HN & HR & _).
  destruct (flm_coefficients_ok c L p sm fs coef _ _ fs' HS HA Ht H0 Hk HC) as [Lc Rc]. rewrite HR.
  destruct noise as [x|]; cbn [option_map] in HN.
  - destruct (C21_add_noise normal L coef (Q2R x) Lc) as (n & noisy & _ & E & Ln & _ & Rn). rewrite HN in E.
    injection E as -> _ _. split; [exact Ln|]. intros F NI. apply Rn, Rc; assumption.
  - injection HN as <- _ _. split; [exact Lc|exact Rc].
Qed.

(** ** The maps of the continents *)

Lemma clean_of coef noise o : flm_add_noise normal (o_L o) coef noise = Ok (o_coefficients o, o_unnoised o, o_snr o) -> clean o = coef.
Proof.
  unfold flm_add_noise, clean. destruct noise.
  - destruct (create_noise _ _ _ _); [|discriminate]. cbn [rbind]. destruct (broadcast _ _ _); [|discriminate].
    cbn [rbind]. intros [= _ <- _]. reflexivity.
  - intros [= <- <- _]. reflexivity.
Qed.

Lemma map_inv africa L kw args r noise sm fs o fs' : MK (map_class africa) L kw args r noise sm fs = Ok (o, fs') ->
  CC africa L sm fs = Ok (clean o, fs') /\ o_L o = L.
Proof.
  intros H. destruct (make_flm_inv _ _ _ _ _ _ _ _ _ _ H) as (p & coef & _ & HC & HN & _ & _ & HL).
  split; [|exact HL]. rewrite <- HL in HN. rewrite (clean_of _ _ _ HN). destruct africa; cbn [map_class] in HC.
  - destruct p; try discriminate HC. cbn [flm_coefficients] in HC. destruct (CC true L sm fs) as [[flm fs1]|]; [|discriminate HC].
    cbn [rbind] in HC. apply plain_ok in HC as (HC & -> & _). injection HC as ->. reflexivity.
  - destruct p; try discriminate HC. cbn [flm_coefficients] in HC. destruct (CC false L sm fs) as [[flm fs1]|]; [|discriminate HC].
    cbn [rbind] in HC. apply plain_ok in HC as (HC & -> & _). injection HC as ->. reflexivity.
Qed.

(** The mask file of a continent. *)
Definition mask_file (africa : bool) (L : nat) : string :=
  ("slepian_masks_" ++ map_name africa ++ "_L" ++ zstr (Z.of_nat L) ++ ".npy")%string.

(** The angles that turn a continent to the pole, in degrees. *)
Definition turn (africa : bool) (flm : list C) (L : nat) : res (list C) :=
  let rad (d : Z) := (IZR d * (PI / 180))%R in
  if africa then rotate_flms flm (rad 44%Z) (rad 87%Z) (rad 341%Z) L
  else rotate_flms flm (rad 54%Z) (rad 108%Z) (rad 63%Z) L.

Lemma turn_eq (africa : bool) flm L :
  (if africa then rotate_earth_to_africa rotate_flms flm L else rotate_earth_to_south_america rotate_flms flm L) = turn africa flm L.
Proof.
  assert (D : forall d, deg2rad d = (IZR d * (PI / 180))%R) by (intros d; unfold deg2rad; lra).
  unfold turn. cbv zeta. rewrite <- !D. destruct africa; reflexivity.
Qed.

Lemma topography_turn africa L sm f : topography inverse rotate_flms earth africa L sm = Ok f <->
  exists e rot, create_earth_flm earth L sm = Ok e /\ turn africa e L = Ok rot /\ f = inverse 0%Z true L rot.
Proof.
  unfold topography. split.
  - intros H. ok H as e E. ok H as rot E0. rewrite turn_eq in E0. injection H as <-. exists e, rot. repeat split; assumption.
  - intros (e & rot & E & E0 & ->). rewrite E. cbn [rbind]. rewrite turn_eq, E0. reflexivity.
Qed.

(** The map is the analysis of the (smoothed) topography, turned to the pole,
    inside the mask, and of zero outside; the mask and the files are those of a
    region with this mask, whose land is the topography without smoothing. *)
Theorem C69_map : forall africa L kw args r noise sm fs o fs' land region,
  MK (map_class africa) L kw args r noise sm fs = Ok (o, fs') ->
  r_region_type region = Arbitrary -> r_mask_name region = map_name africa ->
  (fs (mask_file africa L) = None -> forall e rot, create_earth_flm earth L None = Ok e -> turn africa e L = Ok rot ->
     land africa L = rows_of (n_theta L) (n_phi L) (map fst (inverse 0%Z true L rot))) ->
  exists e rot mask f, create_earth_flm earth L sm = Ok e /\ turn africa e L = Ok rot /\
    create_mask_region land L (sample_grid L) region fs = Ok (mask, fs') /\
    List.length f = samples L /\
    (forall k, k < samples L -> nth k f (RtoC 0)
       = if nth k (List.concat mask) false then nth k (inverse 0%Z true L rot) (RtoC 0) else RtoC 0) /\
    clean o = forward 0%Z true L f.
Proof.
  intros africa L kw args r noise sm fs o fs' land region H HT HN HL.
  destruct (map_inv _ _ _ _ _ _ _ _ _ _ H) as [HC _]. unfold continent_coefficients in HC.
  ok HC as earth_f Et. ok HC as [mask fs1] Em. ok HC as f Ew. injection HC as <- <-.
  apply topography_turn in Et as (e & rot & Ee & Er & ->).
  exists e, rot, mask, f. split; [exact Ee|]. split; [exact Er|].
  destruct (where_mask_ok _ _ _ _ Ew) as (Sm & _ & Lf & Hf). split; [|split; [exact Lf|split; [exact Hf|reflexivity]]].
  unfold create_mask_region. rewrite HT, HN. unfold load_mask. unfold continent_mask in Em. cbv zeta in Em.
  change (continent africa) with (map_name africa) in Em. unfold mask_file in HL. 
  destruct (fs ("slepian_masks_" ++ map_name africa ++ "_L" ++ zstr (Z.of_nat L) ++ ".npy")%string) as [m|].
  - injection Em as -> ->. cbn [rbind]. rewrite (proj2 (shape_eqb_spec _ _)) by (rewrite grid_shape; exact Sm). reflexivity.
  - ok Em as f0 E0. apply topography_turn in E0 as (e0 & rot0 & Ee0 & Er0 & ->).
    specialize (HL eq_refl e0 rot0 Ee0 Er0).
    assert (C : create_mask land L (sample_grid L) (map_name africa ++ "_L" ++ zstr (Z.of_nat L) ++ ".npy")%string fs = Ok (mask, fs1)).
    { revert Em. unfold create_mask. destruct africa; cbn [map_name].
      - change ("africa" ++ "_L" ++ zstr (Z.of_nat L) ++ ".npy")%string with ("africa_L" ++ zstr (Z.of_nat L) ++ ".npy")%string.
        rewrite String.eqb_refl, HL. exact (fun x => x).
      - change ("south_america" ++ "_L" ++ zstr (Z.of_nat L) ++ ".npy")%string with ("south_america_L" ++ zstr (Z.of_nat L) ++ ".npy")%string.
        rewrite String.eqb_refl, HL. cbn. exact (fun x => x). }
    rewrite C. cbn [rbind]. rewrite (proj2 (shape_eqb_spec _ _)) by (rewrite grid_shape; exact Sm). reflexivity.
Qed.

(** Without a mask file the map exists, and keeps the land within 41 (Africa)
    or 40 degrees of the pole; the mask is saved. *)
Theorem C69_map_land : forall africa L sm fs e rot e0 rot0,
  real_synthesis inverse L -> fs (mask_file africa L) = None ->
  create_earth_flm earth L sm = Ok e -> turn africa e L = Ok rot ->
  create_earth_flm earth L None = Ok e0 -> turn africa e0 L = Ok rot0 ->
  exists o fs' f, MK (map_class africa) L No_params None None None sm fs = Ok (o, fs') /\
    fs' (mask_file africa L) <> None /\
    o_coefficients o = forward 0%Z true L f /\ List.length f = samples L /\
    forall i j, i < n_theta L -> j < n_phi L ->
      let k := i * n_phi L + j in
      let inside := (PI * INR i / INR L <= (if africa then 41 else 40) * PI / 180 /\ 0 <= Re (nth k (inverse 0%Z true L rot0) (RtoC 0)))%R in
      (inside -> nth k f (RtoC 0) = nth k (inverse 0%Z true L rot) (RtoC 0)) /\
      (~ inside -> nth k f (RtoC 0) = RtoC 0).
Proof.
  intros africa L sm fs e rot e0 rot0 HS HF Ee Er Ee0 Er0.
  set (l0 := rows_of (n_theta L) (n_phi L) (map fst (inverse 0%Z true L rot0))).
  set (land := fun (_ : bool) (_ : nat) => l0).
  set (range := if africa then AFRICA_RANGE else SOUTH_AMERICA_RANGE).
  set (mask := land_mask range (sample_grid L) l0).
  set (fs1 := put_mask fs (mask_file africa L) mask).
  assert (S0 : shape l0 = shape (sample_grid L)).
  { rewrite grid_shape. apply shape_lengths; [apply rows_of_height|]. apply rows_of_lengths. rewrite map_length. apply HS. }
  assert (Sm : shape mask = repeat (n_phi L) (n_theta L)).
  { rewrite <- grid_shape. unfold mask, land_mask. apply shape_combine. symmetry. exact S0. }
  assert (Em : continent_mask inverse rotate_flms earth africa L fs = Ok (mask, fs1)).
  { unfold continent_mask. cbv zeta. change (continent africa) with (map_name africa).
    change ("slepian_masks_" ++ map_name africa ++ "_L" ++ zstr (Z.of_nat L) ++ ".npy")%string with (mask_file africa L). rewrite HF.
    rewrite (proj2 (topography_turn africa L None _)) by (exists e0, rot0; repeat split; assumption). cbn [rbind]. unfold create_mask.
    destruct africa; cbn [map_name].
    - change ("africa" ++ "_L" ++ zstr (Z.of_nat L) ++ ".npy")%string with ("africa_L" ++ zstr (Z.of_nat L) ++ ".npy")%string.
      rewrite String.eqb_refl. reflexivity.
    - change ("south_america" ++ "_L" ++ zstr (Z.of_nat L) ++ ".npy")%string with ("south_america_L" ++ zstr (Z.of_nat L) ++ ".npy")%string.
      rewrite String.eqb_refl. reflexivity. }
  assert (Ew : exists f, where_mask L mask (inverse 0%Z true L rot) = Ok f).
  { unfold where_mask. rewrite (proj2 (shape_eqb_spec _ _) Sm). rewrite (proj2 (Nat.eqb_eq _ _) (proj1 (HS rot))). eexists. reflexivity. }
  destruct Ew as [f Ew].
  assert (EC : CC africa L sm fs = Ok (forward 0%Z true L f, fs1)).
  { unfold continent_coefficients. rewrite (proj2 (topography_turn africa L sm _)) by (exists e, rot; repeat split; assumption). cbn [rbind].
    rewrite Em. cbn [rbind]. rewrite Ew. reflexivity. }
  assert (EM : exists o, MK (map_class africa) L No_params None None None sm fs = Ok (o, fs1) /\ o_coefficients o = forward 0%Z true L f).
  { unfold make_flm. destruct africa; cbn [map_class]; cbn [default_params same_fields validate_fields setup_args rbind flm_coefficients];
      rewrite EC; cbn [rbind plain flm_add_noise option_map]; eexists; (split; [reflexivity|reflexivity]). }
  destruct EM as (o & EM & Ho). exists o, fs1, f. split; [exact EM|].
  split; [unfold fs1, put_mask; rewrite String.eqb_refl; discriminate|]. split; [exact Ho|].
  destruct (where_mask_ok _ _ _ _ Ew) as (_ & _ & Lf & Hf). split; [exact Lf|].
  intros i j Hi Hj k inside. assert (Hk : k < samples L) by (unfold k, samples; nia). rewrite (Hf k Hk).
  assert (G := grid_sample L i j Hi Hj).
  assert (V : sample l0 i j = Some (Re (nth k (inverse 0%Z true L rot0) (RtoC 0)))).
  { unfold l0. rewrite sample_rows_of by assumption. fold k. rewrite nth_error_map.
    rewrite (nth_error_nth' _ (RtoC 0)) by (rewrite (proj1 (HS rot0)); exact Hk). reflexivity. }
  pose proof (sample_combine (fun p => Rleb (fst (fst p)) range && Rleb 0 (snd p))%bool _ _ i j _ _ G V) as M.
  change (sample mask i j = Some (Rleb (PI * INR i / INR L) range && Rleb 0 (Re (nth k (inverse 0%Z true L rot0) (RtoC 0))))%bool) in M.
  assert (N : nth k (List.concat mask) false = (Rleb (PI * INR i / INR L) range && Rleb 0 (Re (nth k (inverse 0%Z true L rot0) (RtoC 0))))%bool).
  { apply (sample_concat mask (n_theta L) (n_phi L)); assumption. }
  rewrite N.
  assert (B : (Rleb (PI * INR i / INR L) range && Rleb 0 (Re (nth k (inverse 0%Z true L rot0) (RtoC 0))))%bool = true <-> inside).
  { unfold inside, range. destruct africa; unfold AFRICA_RANGE, SOUTH_AMERICA_RANGE; rb; reflexivity. }
  destruct (Rleb (PI * INR i / INR L) range && Rleb 0 (Re (nth k (inverse 0%Z true L rot0) (RtoC 0))))%bool; split; intros HI.
  - reflexivity.
  - exfalso. apply HI, B. reflexivity.
  - exfalso. apply B in HI. discriminate HI.
  - reflexivity.
Qed.

(** Creating the map again, from the files left behind, gives the same object. *)
Theorem C69_map_again : forall africa L kw args r noise sm fs o fs',
  MK (map_class africa) L kw args r noise sm fs = Ok (o, fs') ->
  MK (map_class africa) L kw args r noise sm fs' = Ok (o, fs').
Proof.
  intros africa L kw args r noise sm fs o fs' H.
  assert (A : CC africa L sm fs' = CC africa L sm fs).
  { destruct (map_inv _ _ _ _ _ _ _ _ _ _ H) as [HC _]. rewrite HC. unfold continent_coefficients in *.
    ok HC as earth_f Et. ok HC as [mask fs1] Em. ok HC as f Ew. injection HC as <- <-.
    assert (Em' : continent_mask inverse rotate_flms earth africa L fs1 = Ok (mask, fs1)).
    { unfold continent_mask in *. cbv zeta in *. destruct (fs _) as [m|] eqn:F in Em.
      - injection Em as -> ->. rewrite F. reflexivity.
      - ok Em as f0 E0. assert (P : fs1 ("slepian_masks_" ++ continent africa ++ "_L" ++ zstr (Z.of_nat L) ++ ".npy")%string = Some mask).
        { unfold create_mask in Em. ok Em as m0 Em0. injection Em as -> <-. unfold put_mask. rewrite String.eqb_refl. reflexivity. }
        rewrite P. reflexivity. }
    rewrite Em'. cbn [rbind]. rewrite Ew. reflexivity. }
  rewrite <- H. destruct africa; cbn [map_class]; unfold make_flm; cbn [default_params];
    (destruct (same_fields No_params kw); [|reflexivity]);
    (destruct (validate_fields jmax _ L kw); [|reflexivity]); cbn [rbind];
    (destruct (setup_args jmax _ L kw args) as [p|]; [|reflexivity]); cbn [rbind]; destruct p; cbn [flm_coefficients]; rewrite ?A; reflexivity.
Qed.

(** ** Slepian functions *)

Lemma make_fp_inv c L kw args rg noise sm fs o fs' : MF c L kw args rg noise sm fs = Ok (o, fs') ->
  exists r sv fs1 p coef, (match rg with Some r => Ok r | None => create_default_region lower to_int env end) = Ok r /\
    solve L r fs = Ok (sv, fs1) /\ setup_args jmax c L kw args = Ok p /\
    fp_coefficients inverse forward rotate_flms theta_to_index phi_to_index axisym_wav_l normal earth solve c L p r (sv_slepian sv) sm fs1
      = Ok (coef, o_wavelets o, o_wavelet_coefficients o, fs') /\
    fp_add_noise (inverse 0%Z false) (forward 0%Z false) normal L (sv_slepian sv) coef (option_map Q2R noise)
      = Ok (o_coefficients o, o_unnoised o, o_snr o) /\
    check_region_name c (r_name_ending r) = Ok tt /\ o_region o = Some r /\ o_solved o = Some sv /\ o_params o = p /\ o_L o = L.
Proof.
  unfold make_fp. destruct (same_fields _ _); [|discriminate]. intros H.
  ok H as u0 E0. ok H as u1 E1. ok H as r E2. ok H as [sv fs1] E3. ok H as p E4. ok H as name E5.
  ok H as [[[coef w] wc] fs2] E6. ok H as [[c1 u] s] E7. ok H as [] E8. injection H as <- <-.
  exists r, sv, fs1, p, coef. cbn. repeat split; assumption || reflexivity.
Qed.

(** Without a region the default one is used. *)
Theorem C69_default_region : forall c L kw args noise sm fs r, create_default_region lower to_int env = Ok r ->
  MF c L kw args None noise sm fs = MF c L kw args (Some r) noise sm fs.
Proof. intros c L kw args noise sm fs r H. unfold make_fp. rewrite H. reflexivity. Qed.

(** So the Slepian functions of Africa cannot be created with the defaults:
    without a region, and without a mask name in the environment, every attempt
    fails, whatever the other arguments and variables. *)
Theorem C69_default_africa_refuted : forall c L kw args noise sm fs,
  env "SLEPIAN_MASK" = None ->
  In c [SlepianAfrica; SlepianNoiseAfrica; SlepianWaveletCoefficientsAfrica] ->
  exists e, MF c L kw args None noise sm fs = Err e.
Proof.
  intros c L kw args noise sm fs He Hc.
  destruct (MF c L kw args None noise sm fs) as [[o fs']|e] eqn:H; [exfalso|exists e; reflexivity].
  destruct (make_fp_inv _ _ _ _ _ _ _ _ _ _ H) as (r & sv & fs1 & p & coef & Er & _ & _ & _ & _ & Hr & _).
  unfold create_default_region in Er. ok Er as a1 E1. ok Er as a2 E2. ok Er as a3 E3. ok Er as a4 E4.
  pose proof (make_region_accepted _ _ _ _ _ _ _ Er) as A. destruct (make_region_fields _ _ _ _ _ _ _ Er) as (_ & M & _).
  unfold getenv in M. rewrite He in M.
  assert (N : r_name_ending r <> "africa").
  { destruct (accepted_cases r A) as [(_ & _ & _ & _ & _ & N)|[(_ & _ & N)|(_ & _ & _ & _ & _ & _ & N)]]; rewrite N, ?M; discriminate. }
  destruct Hc as [<-|[<-|[<-|[]]]]; cbn [check_region_name] in Hr;
    destruct (String.eqb_spec (r_name_ending r) "africa"); congruence.
Qed.

Lemma region_checked africa c r : In c [slepian_map_class africa; slepian_noise_class africa; slepian_wavelet_class africa] ->
  check_region_name c (r_name_ending r) = Ok tt <-> r_name_ending r = map_name africa.
Proof.
  intros Hc. destruct africa; destruct Hc as [<-|[<-|[<-|[]]]];
    cbn [slepian_map_class slepian_noise_class slepian_wavelet_class check_region_name map_name];
    match goal with |- context [String.eqb ?x ?y] => destruct (String.eqb_spec x y) end; split; congruence.
Qed.

Lemma slepian_continent_inv africa L s sm fs f_p fs' :
  slepian_continent_coefficients inverse forward rotate_flms earth africa L s sm fs = Ok (f_p, fs') ->
  exists flm, CC africa L sm fs = Ok (flm, fs') /\ slepian_forward (inverse 0%Z false) L s (of_flm flm) None = Ok f_p.
Proof.
  unfold slepian_continent_coefficients. intros H. ok H as [flm fs1] E. ok H as x E0. injection H as <- <-.
  exists flm. split; [reflexivity|exact E0].
Qed.

Lemma slepian_map_inv africa L kw args r noise sm fs o fs' :
  MF (slepian_map_class africa) L kw args (Some r) noise sm fs = Ok (o, fs') ->
  exists sv fs1 coef, solve L r fs = Ok (sv, fs1) /\ r_name_ending r = map_name africa /\
    slepian_continent_coefficients inverse forward rotate_flms earth africa L (sv_slepian sv) sm fs1 = Ok (coef, fs') /\
    fp_add_noise (inverse 0%Z false) (forward 0%Z false) normal L (sv_slepian sv) coef (option_map Q2R noise)
      = Ok (o_coefficients o, o_unnoised o, o_snr o).
Proof.
  intros H. destruct (make_fp_inv _ _ _ _ _ _ _ _ _ _ H) as (r' & sv & fs1 & p & coef & Er & Es & Ea & EC & EN & Hr & _).
  injection Er as <-. exists sv, fs1, coef. split; [exact Es|].
  split; [apply (region_checked africa (slepian_map_class africa)); [left; reflexivity|exact Hr]|]. split; [|exact EN].
  destruct africa; cbn [slepian_map_class] in EC; destruct p; try discriminate EC; cbn [fp_coefficients] in EC;
    ok EC as [f_p fs2] E1; apply plain_ok in EC as (EC & -> & _); injection EC as ->; reflexivity.
Qed.

Lemma slepian_map_made africa L r noise sm fs sv fs1 coef fs' c u snr :
  solve L r fs = Ok (sv, fs1) -> r_name_ending r = map_name africa ->
  slepian_continent_coefficients inverse forward rotate_flms earth africa L (sv_slepian sv) sm fs1 = Ok (coef, fs') ->
  fp_add_noise (inverse 0%Z false) (forward 0%Z false) normal L (sv_slepian sv) coef (option_map Q2R noise) = Ok (c, u, snr) ->
  exists o, MF (slepian_map_class africa) L No_params None (Some r) noise sm fs = Ok (o, fs') /\
    o_coefficients o = c /\ o_unnoised o = u /\ o_snr o = snr.
Proof.
  intros Es Nr EC EN.
  pose proof (proj2 (region_checked africa (slepian_map_class africa) r (or_introl eq_refl)) Nr) as Hr.
  unfold make_fp. destruct africa; cbn [slepian_map_class] in *;
    cbn [default_params same_fields validate_fields rbind]; rewrite Es; cbn [rbind setup_args fp_create_name fp_coefficients];
    rewrite EC; cbn [rbind plain]; rewrite EN; cbn [rbind]; rewrite Hr; cbn [rbind]; eexists; repeat split; reflexivity.
Qed.

Lemma map_made africa L sm fs flm fs' : CC africa L sm fs = Ok (flm, fs') ->
  exists m, MK (map_class africa) L No_params None None None sm fs = Ok (m, fs') /\ o_coefficients m = flm.
Proof.
  intros E1. unfold make_flm. destruct africa; cbn [map_class]; cbn [default_params same_fields validate_fields setup_args rbind flm_coefficients];
    rewrite E1; cbn [rbind plain flm_add_noise option_map]; eexists; (split; [reflexivity|reflexivity]).
Qed.

Lemma slepian_forward_flm L s flm : slepian_basis L s -> List.length flm = L * L ->
  slepian_forward (inverse 0%Z false) L s (of_flm flm) None = Ok (map (fun p => cdot (L * L) flm (evec s p)) (seq 0 (Nn s))).
Proof.
  intros HB Lf. change (@None Z) with (option_map Z.of_nat None). unfold of_flm. pose proof HB as (_ & Hn & _).
  apply forward_flm_ok; assumption.
Qed.

(** The Slepian coefficients of a map are the inner products of the map, as
    created without a region, with the first [N] eigenvectors; the region must
    be the continent. *)
Theorem C69_slepian_map : forall africa L kw args r sm fs o fs',
  real_synthesis inverse L -> real_analysis forward L ->
  MF (slepian_map_class africa) L kw args (Some r) None sm fs = Ok (o, fs') ->
  exists sv fs1 m, solve L r fs = Ok (sv, fs1) /\ r_name_ending r = map_name africa /\
    MK (map_class africa) L No_params None None None sm fs1 = Ok (m, fs') /\
    (slepian_basis L (sv_slepian sv) ->
     List.length (o_coefficients o) = Z.to_nat (s_N (sv_slepian sv)) /\
     forall p, p < Z.to_nat (s_N (sv_slepian sv)) -> nth p (o_coefficients o) (RtoC 0)
       = csum (L * L) (fun i => Cmult (nth i (o_coefficients m) (RtoC 0)) (Cconj (nth i (evec (sv_slepian sv) p) (RtoC 0))))).
Proof.
  intros africa L kw args r sm fs o fs' HS HA H.
  destruct (slepian_map_inv _ _ _ _ _ _ _ _ _ _ H) as (sv & fs1 & coef & Es & NR & EC & EN).
  cbn [option_map fp_add_noise] in EN. injection EN as <- _ _.
  destruct (slepian_continent_inv _ _ _ _ _ _ _ EC) as (flm & E1 & E2).
  destruct (continent_real _ _ _ _ _ _ HS HA E1) as [Lf _].
  destruct (map_made _ _ _ _ _ _ E1) as (m & EM & Hm).
  exists sv, fs1, m. split; [exact Es|]. split; [exact NR|]. split; [exact EM|]. intros HB.
  rewrite (slepian_forward_flm _ _ _ HB Lf) in E2. injection E2 as <-. split; [rewrite map_length, seq_length; reflexivity|].
  intros q Hq. rewrite (nth_map_seq (fun p => cdot (L * L) flm (evec (sv_slepian sv) p))) by exact Hq. rewrite Hm. reflexivity.
Qed.

(** ** Noise *)

(** The noisy Earth is the Earth and the noise of the class [NoiseEarth] at the
    same signal-to-noise ratio. *)
Theorem C69_earth_noise : forall L r x sm fs o fs',
  L * L <= List.length earth ->
  MK Earth L No_params None r None sm fs = Ok (o, fs') ->
  exists noise noisy, MK NoiseEarth L (Snr x) None r None sm fs = Ok (noise, fs') /\
    MK Earth L No_params None r (Some x) sm fs = Ok (noisy, fs') /\
    o_unnoised noisy = Some (o_coefficients o) /\
    List.length (o_coefficients noisy) = L * L /\
    forall i, i < L * L -> nth i (o_coefficients noisy) (RtoC 0)
      = Cplus (nth i (o_coefficients o) (RtoC 0)) (nth i (o_coefficients noise) (RtoC 0)).
Proof.
  intros L r x sm fs o fs' Ht H.
  destruct (make_flm_inv _ _ _ _ _ _ _ _ _ _ H) as (p & coef & Ep & HC & HN & _). cbn [setup_args] in Ep. injection Ep as <-.
  cbn [flm_coefficients] in HC. apply plain_ok in HC as (HC & -> & _). cbn [option_map flm_add_noise] in HN. injection HN as <- _ _.
  destruct (earth_ok earth L sm coef Ht HC) as [Lc _].
  destruct (C21_add_noise normal L coef (Q2R x) Lc) as (n & y & En & Ey & Ly & Hy & _).
  unfold make_flm. cbn [default_params same_fields validate_fields setup_args rbind flm_coefficients].
  rewrite HC. cbn [rbind plain option_map]. rewrite En. cbn [rbind plain].
  change (flm_add_noise normal L n None) with (Ok (n, @None (list C), @None R)). rewrite Ey. cbn [rbind]. eexists. eexists. split; [reflexivity|]. split; [reflexivity|]. cbn. split; [reflexivity|]. split; [exact Ly|exact Hy].
Qed.

(** The same in Slepian space.  The noise class solves for the Slepian
    functions once more; the second time must find what the first one left. *)
Theorem C69_slepian_noise : forall africa L Y r x sm fs o fs',
  real_synthesis inverse L -> real_analysis forward L ->
  synthesis L Y (inverse 0%Z false) -> sampling_theorem L (inverse 0%Z false) (forward 0%Z false) ->
  (forall sv fs1, solve L r fs = Ok (sv, fs1) -> slepian_basis L (sv_slepian sv) /\ solve L r fs1 = Ok (sv, fs1)) ->
  MF (slepian_map_class africa) L No_params None (Some r) None sm fs = Ok (o, fs') ->
  exists noise noisy, MF (slepian_noise_class africa) L (Snr x) None (Some r) None sm fs = Ok (noise, fs') /\
    MF (slepian_map_class africa) L No_params None (Some r) (Some x) sm fs = Ok (noisy, fs') /\
    o_unnoised noisy = Some (o_coefficients o) /\
    List.length (o_coefficients noisy) = List.length (o_coefficients o) /\
    forall i, i < List.length (o_coefficients o) -> nth i (o_coefficients noisy) (RtoC 0)
      = Cplus (nth i (o_coefficients o) (RtoC 0)) (nth i (o_coefficients noise) (RtoC 0)).
Proof.
  intros africa L Y r x sm fs o fs' HS HA HY HF Hs H.
  destruct (slepian_map_inv _ _ _ _ _ _ _ _ _ _ H) as (sv & fs1 & coef & Es & NR & EC & EN).
  cbn [option_map fp_add_noise] in EN. injection EN as <- _ _.
  destruct (slepian_continent_inv _ _ _ _ _ _ _ EC) as (flm & E1 & E2).
  destruct (continent_real _ _ _ _ _ _ HS HA E1) as [Lf _]. destruct (Hs _ _ Es) as [HB Es1].
  pose proof E2 as E3. rewrite (slepian_forward_flm _ _ _ HB Lf) in E3. injection E3 as E3.
  assert (Lc : List.length coef = Z.to_nat (s_N (sv_slepian sv))) by (rewrite <- E3, map_length, seq_length; reflexivity).
  destruct (C52_added _ _ normal L Y (sv_slepian sv) coef (Q2R x) HY HF HB Lc) as (n & y & En & Ey & Ly & Hy).
  destruct (slepian_map_made africa L r (Some x) sm fs sv fs1 coef fs' _ _ _ Es NR EC Ey) as (noisy & EM & Hc & Hu & _).
  assert (EO : slepian_continent_object inverse forward rotate_flms earth solve africa L r sm fs1 = Ok (coef, fs')).
  { unfold slepian_continent_object. rewrite Es1. cbn [rbind]. rewrite EC. cbn [rbind].
    change (if africa then SlepianAfrica else SlepianSouthAmerica) with (slepian_map_class africa).
    rewrite (proj2 (region_checked africa _ r (or_introl eq_refl)) NR). reflexivity. }
  assert (EZ : exists noise, MF (slepian_noise_class africa) L (Snr x) None (Some r) None sm fs = Ok (noise, fs') /\ o_coefficients noise = n).
  { pose proof (proj2 (region_checked africa (slepian_noise_class africa) r (or_intror (or_introl eq_refl))) NR) as Hr.
    unfold make_fp. destruct africa; cbn [slepian_noise_class] in *; cbn [default_params same_fields validate_fields rbind]; rewrite Es;
      cbn [rbind setup_args fp_create_name fp_coefficients]; unfold slepian_noise_coefficients; rewrite EO; cbn [rbind];
      rewrite En; cbn [rbind plain option_map fp_add_noise]; rewrite Hr; cbn [rbind]; eexists; (split; [reflexivity|reflexivity]). }
  destruct EZ as (noise & EZ & Hn). exists noise, noisy. split; [exact EZ|]. split; [exact EM|].
  rewrite Hc, Hu, Lc, Hn. split; [reflexivity|]. split; [exact Ly|exact Hy].
Qed.
(** ** Wavelets *)

(** The position of the selected scale among the rows. *)
Definition row_of (j : option Z) : nat := match j with None => 0 | Some j => Z.to_nat j + 1 end.

Lemma select_scale_row {A} (rows : list A) j x : match j with Some j => (0 <= j)%Z | None => True end ->
  select_scale rows j = Ok x -> nth_error rows (row_of j) = Some x.
Proof.
  unfold select_scale, py_index, row_of. intros Hj. destruct j as [j|]; cbv zeta.
  - destruct (Z.leb_spec 0 (j + 1)); [|lia]. destruct (Z.ltb_spec (j + 1) 0); [lia|].
    replace (Z.to_nat (j + 1)) with (Z.to_nat j + 1) by lia. destruct (nth_error rows _); congruence.
  - cbn. destruct (nth_error rows 0) eqn:E; cbn in E; rewrite ?E; congruence.
Qed.

Lemma scale_checked c L kw args B jm j : validate_fields jmax c L kw = Ok tt -> setup_args jmax c L kw args = Ok (Scale B jm j) ->
  match j with Some j => (0 <= j)%Z | None => True end.
Proof.
  intros Hv Hs. assert (K : forall x b m v, check_j jmax x b m v = Ok j -> match j with Some j => (0 <= j)%Z | None => True end).
  { intros x b m [v|] E; unfold check_j in E; [|injection E as <-; exact I]. revert E.
    destruct (Z.ltb_spec v 0); [discriminate|]. destruct (_ <? v)%Z; [discriminate|]. intros [= <-]. assumption. }
  destruct args as [args|]; cbn [setup_args] in Hs.
  - destruct kw; destruct args as [|x [|y [|z [|w [|]]]]]; try discriminate Hs;
      try (match type of Hs with rbind ?e _ = _ => destruct e eqn:E; cbn [rbind] in Hs; [|discriminate Hs] end); try discriminate Hs.
    + destruct (check_m _ _); discriminate Hs.
    + injection Hs as <- <- <-. exact (K _ _ _ _ E).
  - injection Hs as ->. cbn [validate_fields] in Hv. destruct (check_j _ _ _ _ _) as [o|] eqn:E; [|discriminate Hv].
    assert (o = j) as -> by (revert E; unfold check_j; destruct j; [|congruence]; repeat destruct (_ <? _)%Z; congruence).
    exact (K _ _ _ _ E).
Qed.

(** The wavelet coefficients of a map: what the object keeps as wavelets and
    wavelet coefficients reconstructs the map as created on its own, when the
    squares of the generating functions sum to one; its coefficients are the
    selected row. *)
Theorem C69_wavelets : forall c source L kw args r noise sm fs o fs',
  In (c, source) [(AxisymmetricWaveletCoefficientsAfrica, Africa); (AxisymmetricWaveletCoefficientsEarth, Earth);
                  (AxisymmetricWaveletCoefficientsSouthAmerica, SouthAmerica)] ->
  real_synthesis inverse L -> real_analysis forward L -> L * L <= List.length earth ->
  (forall B jm k, In k (create_kappas axisym_wav_l L B jm) -> List.length k = L) ->
  MK c L kw args r noise sm fs = Ok (o, fs') ->
  exists m B j_min j wavelets W, MK source L No_params None None None sm fs = Ok (m, fs') /\
    o_params o = Scale B j_min j /\ o_wavelets o = A2 (L * L) wavelets /\ o_wavelet_coefficients o = A2 (L * L) W /\
    create_axisymmetric_wavelets axisym_wav_l L B j_min = Ok wavelets /\
    List.length W = List.length wavelets /\
    nth_error W (row_of j) = Some (clean o) /\
    ((forall el, el < L -> rlsum (map (fun k => (nth el k 0 ^ 2)%R) (create_kappas axisym_wav_l L B j_min)) = 1%R) ->
     axisymmetric_wavelet_inverse L W wavelets = Ok (o_coefficients m)).
Proof.
  intros c source L kw args r noise sm fs o fs' Hc HS HA Ht Hk H.
  destruct (make_flm_inv _ _ _ _ _ _ _ _ _ _ H) as (p & coef & Ep & HC & HN & _ & HP & HL).
  assert (Hv : validate_fields jmax c L kw = Ok tt).
  { unfold make_flm in H. destruct (same_fields _ _); [|discriminate H]. destruct (validate_fields _ _ _ _) as [[]|]; [reflexivity|discriminate H]. }
  assert (HX : exists B jm j x flm m, p = Scale B jm j /\ wavelet_map axisym_wav_l L B jm j x = Ok (coef, o_wavelets o, o_wavelet_coefficients o, fs') /\
    x = Ok (flm, fs') /\ MK source L No_params None None None sm fs = Ok (m, fs') /\ o_coefficients m = flm /\ List.length flm = L * L).
  { destruct Hc as [E|[E|[E|[]]]]; injection E as <- <-; destruct p; try discriminate HC; cbn [flm_coefficients] in HC.
    - pose proof HC as HC'. apply wavelet_map_ok in HC' as (flm & _ & _ & Ex & _); [|apply Hk].
      destruct (map_made true _ _ _ _ _ Ex) as (m & EM & Hm). do 6 eexists. split; [reflexivity|]. split; [exact HC|].
      split; [exact Ex|]. split; [exact EM|]. split; [exact Hm|]. exact (proj1 (continent_real _ _ _ _ _ _ HS HA Ex)).
    - pose proof HC as HC'. apply wavelet_map_ok in HC' as (flm & _ & _ & Ex & _); [|apply Hk]. ok Ex as e Ee. injection Ex as -> <-.
      do 6 eexists. split; [reflexivity|]. split; [exact HC|]. split; [reflexivity|].
      unfold make_flm. cbn [default_params same_fields validate_fields setup_args rbind flm_coefficients]. rewrite Ee.
      cbn [rbind plain flm_add_noise option_map]. split; [reflexivity|]. cbn. split; [reflexivity|].
      exact (proj1 (earth_ok earth L sm flm Ht Ee)).
    - pose proof HC as HC'. apply wavelet_map_ok in HC' as (flm & _ & _ & Ex & _); [|apply Hk].
      destruct (map_made false _ _ _ _ _ Ex) as (m & EM & Hm). do 6 eexists. split; [reflexivity|]. split; [exact HC|].
      split; [exact Ex|]. split; [exact EM|]. split; [exact Hm|]. exact (proj1 (continent_real _ _ _ _ _ _ HS HA Ex)). }
  destruct HX as (B & jm & j & x & flm' & m & -> & HW & Hx & EM & Hm & Lf).
  destruct (wavelet_map_ok _ _ _ _ _ _ _ _ _ (Hk B jm) HW) as (flm & wav & W & Ex & Ew & EW & Er & Hw & Hwc & _).
  rewrite Hx in Ex. injection Ex as <-. destruct (C27_wavelets axisym_wav_l L B jm (Hk B jm)) as (wav' & Ew' & Mw & _ & _ & Tw).
  rewrite Ew in Ew'. injection Ew' as <-.
  exists m, B, jm, j, wav, W. split; [exact EM|]. split; [exact HP|]. split; [exact Hw|]. split; [exact Hwc|]. split; [exact Ew|].
  destruct (C27_forward L flm' wav Lf Mw) as (W' & EW' & LW & _). rewrite EW in EW'. injection EW' as <-. split; [exact LW|].
  rewrite <- HL in HN. rewrite (clean_of _ _ _ HN). split; [apply (select_scale_row _ _ _ (scale_checked _ _ _ _ _ _ _ Hv Ep) Er)|].
  intros Hs. destruct (C27_round_trip L flm' wav Lf Mw (proj2 Tw Hs)) as (W' & EW' & R). rewrite EW in EW'. injection EW' as <-.
  rewrite Hm. exact R.
Qed.

Lemma spin_scale_checked c L kw args B jm spin j : validate_fields jmax c L kw = Ok tt -> setup_args jmax c L kw args = Ok (Spin_scale B jm spin j) ->
  match j with Some j => (0 <= j)%Z | None => True end.
Proof.
  intros Hv Hs. assert (K : forall x b m v, check_j jmax x b m v = Ok j -> match j with Some j => (0 <= j)%Z | None => True end).
  { intros x b m [v|] E; unfold check_j in E; [|injection E as <-; exact I]. revert E.
    destruct (Z.ltb_spec v 0); [discriminate|]. destruct (_ <? v)%Z; [discriminate|]. intros [= <-]. assumption. }
  destruct args as [args|]; cbn [setup_args] in Hs.
  - destruct kw; destruct args as [|x [|y [|z [|w [|]]]]]; try discriminate Hs;
      try (match type of Hs with rbind ?e _ = _ => destruct e eqn:E; cbn [rbind] in Hs; [|discriminate Hs] end); try discriminate Hs.
    + destruct (check_m _ _); discriminate Hs.
    + injection Hs as <- <- <- <-. exact (K _ _ _ _ E).
  - injection Hs as ->. cbn [validate_fields] in Hv. destruct (check_j _ _ _ _ _) as [o|] eqn:E; [|discriminate Hv].
    assert (o = j) as -> by (revert E; unfold check_j; destruct j; [|congruence]; repeat destruct (_ <? _)%Z; congruence).
    exact (K _ _ _ _ E).
Qed.

Lemma setup_kind c L kw args p : setup_args jmax c L kw args = Ok p -> same_fields kw p = true.
Proof.
  destruct args as [args|]; cbn [setup_args]; intros H; [|injection H as <-; destruct kw; reflexivity].
  destruct kw; destruct args as [|x [|y [|z [|w [|]]]]]; try discriminate H;
    try (match type of H with rbind ?e _ = _ => destruct e eqn:E; cbn [rbind] in H; [|discriminate H] end); try (injection H as <-; reflexivity).
  destruct (check_m _ _); [|discriminate H]. cbn [rbind] in H. injection H as <-. reflexivity.
Qed.

(** Only ridgelets have a spin, and it is the one that was asked for. *)
Theorem C69_spin : forall c L kw args r noise sm fs o fs',
  MK c L kw args r noise sm fs = Ok (o, fs') \/ MF c L kw args r noise sm fs = Ok (o, fs') ->
  (c <> Ridgelets -> o_spin o = 0%Z) /\
  (c = Ridgelets -> exists B j_min spin j, kw = Spin_scale B j_min spin j /\ o_spin o = match args with Some args => nth 2 args 0%Z | None => spin end).
Proof.
  intros c L kw args r noise sm fs o fs' H.
  assert (X : same_fields (default_params c) kw = true /\ exists p, setup_args jmax c L kw args = Ok p /\ o_spin o = set_spin p).
  { destruct H as [H|H]; [unfold make_flm in H|unfold make_fp in H]; (destruct (same_fields _ _) eqn:SF; [|discriminate H]); split; try reflexivity.
    - ok H as u0 E0. ok H as p E1. ok H as [[[coef w] wc] fs1] E2. ok H as [[c1 u] s] E3. injection H as <- _. exists p. split; reflexivity.
    - ok H as u0 E0. ok H as u1 E1. ok H as r1 E2. ok H as [sv fs1] E3. ok H as p E4. ok H as nm E5. ok H as [[[coef w] wc] fs2] E6. ok H as [[c1 u] s] E7. ok H as u2 E8. injection H as <- _.
      exists p. split; reflexivity. }
  destruct X as (SF & p & EP & ->). pose proof (setup_kind _ _ _ _ _ EP) as SK. split.
  - intros N. destruct c; try congruence; destruct kw; try discriminate SF; destruct p; try discriminate SK; reflexivity.
  - intros ->. destruct kw as [| | | | | |B jm spin j|]; try discriminate SF. exists B, jm, spin, j. split; [reflexivity|].
    destruct args as [args|]; cbn [setup_args] in EP; [|injection EP as <-; reflexivity].
    destruct args as [|x [|y [|z [|w [|]]]]]; try discriminate EP. destruct (check_j _ _ _ _ _); [|discriminate EP]. cbn [rbind] in EP. injection EP as <-. reflexivity.
Qed.

(** The wavelets as functions: the object keeps the whole family, every member with
    all coefficients, and its own coefficients are those of the selected scale. *)
Theorem C69_family : forall c L kw args r noise sm fs o fs',
  (forall B jm k, In k (create_kappas axisym_wav_l L B jm) -> List.length k = L) ->
  MK c L kw args r noise sm fs = Ok (o, fs') -> c = AxisymmetricWavelets \/ c = Ridgelets ->
  exists B j_min j wavelets, o_wavelets o = A2 (L * L) wavelets /\ o_wavelet_coefficients o = A1 [] /\
    (forall w, In w wavelets -> List.length w = L * L) /\ nth_error wavelets (row_of j) = Some (clean o) /\
    ((o_params o = Scale B j_min j /\ create_axisymmetric_wavelets axisym_wav_l L B j_min = Ok wavelets) \/
     (o_params o = Spin_scale B j_min (o_spin o) j /\ create_ridgelets axisym_wav_l gammaln L B j_min (o_spin o) = Ok wavelets)).
Proof.
  intros c L kw args r noise sm fs o fs' Hk H Hc.
  destruct (make_flm_inv _ _ _ _ _ _ _ _ _ _ H) as (p & coef & Ep & HC & HN & _ & HP & HL).
  assert (Hv : validate_fields jmax c L kw = Ok tt).
  { unfold make_flm in H. destruct (same_fields _ _); [|discriminate H]. destruct (validate_fields _ _ _ _) as [[]|]; [reflexivity|discriminate H]. }
  assert (SP : o_spin o = set_spin p).
  { unfold make_flm in H. destruct (same_fields _ _); [|discriminate H]. ok H as u0 E0. rewrite Ep in H. cbn [rbind] in H.
    ok H as [[[coef' w] wc] fs1] E2. ok H as [[c1 u] s] E3. injection H as <- _. reflexivity. }
  rewrite <- HL in HN. rewrite (clean_of _ _ _ HN).
  destruct Hc as [-> | ->]; destruct p as [| | | | |B jm j|B jm spin j|]; try discriminate HC; cbn [flm_coefficients] in HC; ok HC as wav E; ok HC as row E0; injection HC as <- Hw Hwc _;
    exists B, jm, j, wav; (split; [symmetry; exact Hw|]); (split; [symmetry; exact Hwc|]).
  - destruct (axisymmetric_rows _ _ _ _ (Hk B jm) E) as [Hm _]. split; [exact Hm|].
    split; [exact (select_scale_row _ _ _ (scale_checked _ _ _ _ _ _ _ Hv Ep) E0)|]. left. split; [exact HP|reflexivity || exact E].
  - split; [|split; [exact (select_scale_row _ _ _ (spin_scale_checked _ _ _ _ _ _ _ _ Hv Ep) E0)|right; rewrite SP; split; [exact HP|reflexivity || exact E]]].
    unfold create_ridgelets in E. destruct (compute_ring gammaln L spin) as [ring|] eqn:Er; [|discriminate E].
    destruct (create_ridgelets_ok axisym_wav_l gammaln L B jm spin ring (Hk B jm) Er (ring_length _ _ _ _ Er)) as (k0 & ks & _ & E').
    unfold create_ridgelets in E'. rewrite Er in E'. rewrite E in E'. injection E' as ->.
    intros w [<-|Hin]; [apply table_length|]. apply in_map_iff in Hin as (x & <- & _). apply table_length.
Qed.

(** The same in Slepian space, for a signal of which only the last scales see
    nothing (C26). *)
Theorem C69_slepian_wavelets : forall africa L kw args r noise sm fs o fs',
  real_synthesis inverse L -> real_analysis forward L ->
  (forall sv fs1, solve L r fs = Ok (sv, fs1) -> slepian_basis L (sv_slepian sv) /\ solve L r fs1 = Ok (sv, fs1)) ->
  (forall B jm k, In k (create_kappas axisym_wav_l (L * L) B jm) -> List.length k = L * L) ->
  MF (slepian_wavelet_class africa) L kw args (Some r) noise sm fs = Ok (o, fs') ->
  exists m sv fs1 B j_min j wavelets W, solve L r fs = Ok (sv, fs1) /\
    MF (slepian_map_class africa) L No_params None (Some r) None sm fs = Ok (m, fs') /\
    o_params o = Scale B j_min j /\
    wavelets = map (map RtoC) (create_kappas axisym_wav_l (L * L) B j_min) /\
    o_wavelets o = A2 (L * L) wavelets /\ o_wavelet_coefficients o = W /\
    (exists cols rows, W = A2 cols rows /\ nth_error rows (row_of j) = Some (clean o)) /\
    forall k, admissible (Z.to_nat (s_N (sv_slepian sv))) wavelets ->
      dead_last (Z.to_nat (s_N (sv_slepian sv))) wavelets (o_coefficients m) k ->
      slepian_wavelet_inverse W (A2 (L * L) wavelets) (s_N (sv_slepian sv)) = Ok (o_coefficients m).
Proof.
  intros africa L kw args r noise sm fs o fs' HS HA Hs Hk H.
  destruct (make_fp_inv _ _ _ _ _ _ _ _ _ _ H) as (r' & sv & fs1 & p & coef & Er & Es & Ea & EC & EN & Hr & _ & _ & HP & HL).
  injection Er as <-. destruct (Hs _ _ Es) as [HB Es1]. 
  pose proof (proj1 (region_checked africa (slepian_wavelet_class africa) r (or_intror (or_intror (or_introl eq_refl)))) Hr) as NR.
  assert (Hv : validate_fields jmax (slepian_wavelet_class africa) L kw = Ok tt).
  { unfold make_fp in H. destruct (same_fields _ _); [|discriminate H]. destruct (validate_fields _ _ _ _) as [[]|]; [reflexivity|discriminate H]. }
  assert (EC' : exists B jm j, p = Scale B jm j /\
    slepian_wavelet_map inverse forward rotate_flms axisym_wav_l earth solve africa L r (sv_slepian sv) B jm j sm fs1
    = Ok (coef, o_wavelets o, o_wavelet_coefficients o, fs')).
  { destruct africa; cbn [slepian_wavelet_class] in EC; destruct p; try discriminate EC; do 3 eexists; (split; [reflexivity|exact EC]). }
  destruct EC' as (B & jm & j & -> & EW). unfold slepian_wavelet_map in EW. rewrite Es1 in EW. cbn [rbind] in EW. cbv zeta in EW.
  ok EW as [signal fs2] Eo. ok EW as W Ef. destruct W as [v|cols rows]; [discriminate EW|]. ok EW as row Erow. injection EW as <- Hw Hwc <-.
  unfold slepian_continent_object in Eo. rewrite Es1 in Eo. cbn [rbind] in Eo. ok Eo as [f_p fs3] Ec. ok Eo as [] Eu. injection Eo as <- <-.
  destruct (slepian_map_made africa L r None sm fs sv fs1 f_p fs3 f_p None None Es NR Ec eq_refl) as (m & EM & Hm & _).
  destruct (slepian_continent_inv _ _ _ _ _ _ _ Ec) as (flm & E1 & E2).
  destruct (continent_real _ _ _ _ _ _ HS HA E1) as [Lf _]. rewrite (slepian_forward_flm _ _ _ HB Lf) in E2. injection E2 as E2.
  assert (Lp : List.length f_p = Z.to_nat (s_N (sv_slepian sv))) by (rewrite <- E2, map_length, seq_length; reflexivity).
  exists m, sv, fs1, B, jm, j, (map (map RtoC) (create_kappas axisym_wav_l (L * L) B jm)), (A2 cols rows).
  split; [exact Es|]. split; [exact EM|]. split; [exact HP|]. split; [reflexivity|]. split; [symmetry; exact Hw|]. split; [symmetry; exact Hwc|].
  assert (HC : clean o = row).
  { revert EN. unfold clean, fp_add_noise. destruct noise; cbn [option_map].
    - destruct (create_slepian_noise _ _ _ _ _ _ _); [|discriminate]. cbn [rbind]. destruct (broadcast _ _ _); [|discriminate].
      cbn [rbind]. intros [= _ <- _]. reflexivity.
    - intros [= <- <- _]. reflexivity. }
  split; [exists cols, rows; split; [reflexivity|]; rewrite HC; exact (select_scale_row _ _ _ (scale_checked _ _ _ _ _ _ _ Hv Ea) Erow)|].
  intros k Ha Hd. rewrite Hm in *. pose proof HB as (HN & Hn & Hle & _).
  assert (Mw : matrix (L * L) (map (map RtoC) (create_kappas axisym_wav_l (L * L) B jm))).
  { intros w Hw'. apply in_map_iff in Hw' as (k0 & <- & Hk0). rewrite map_length. exact (Hk _ _ _ Hk0). }
  destruct (C26_round_trip (Z.to_nat (s_N (sv_slepian sv))) (L * L) _ f_p k Mw) as (W & EF & EI); [lia|lia|exact Ha|exact Hd|].
  rewrite Z2Nat.id in EF, EI by exact HN. unfold create_slepian_wavelets in Ef. rewrite Ef in EF. injection EF as <-.
  rewrite EI. rewrite <- Lp, firstn_all. reflexivity.
Qed.

(** ** The Slepian functions *)

(** The object with rank [k] (the first one unless another is asked for) has one
    coefficient, and none if [k] is not below the Shannon number. *)
Theorem C69_slepian_function : forall L args r sm fs o fs' k,
  match args with None => k = 0 | Some a => a = [Z.of_nat k] end ->
  MF Slepian L (default_params Slepian) args (Some r) None sm fs = Ok (o, fs') ->
  o_params o = Rank (Z.of_nat k) /\
  exists sv, o_solved o = Some sv /\
    (slepian_basis L (sv_slepian sv) -> List.length (s_evals (sv_slepian sv)) = List.length (s_evecs (sv_slepian sv)) ->
     k < List.length (s_evecs (sv_slepian sv)) /\
     List.length (o_coefficients o) = Z.to_nat (s_N (sv_slepian sv)) /\
     forall p, p < Z.to_nat (s_N (sv_slepian sv)) -> nth p (o_coefficients o) (RtoC 0) = if p =? k then RtoC 1 else RtoC 0).
Proof.
  intros L args r sm fs o fs' k Hk H.
  destruct (make_fp_inv _ _ _ _ _ _ _ _ _ _ H) as (r' & sv & fs1 & p & coef & Er & Es & Ea & EC & EN & Hr & _ & Hsv & HP & HL).
  cbn [option_map fp_add_noise] in EN. injection EN as <- _ _.
  assert (p = Rank (Z.of_nat k)) as ->.
  { destruct args as [args|]; [subst args|subst k].
    - cbn [setup_args default_params] in Ea. unfold check_rank in Ea. destruct (Z.ltb_spec (Z.of_nat k) 0); [discriminate Ea|]. injection Ea as <-. reflexivity.
    - injection Ea as <-. reflexivity. }
  split; [exact HP|]. exists sv. split; [exact Hsv|]. intros HB Hl.
  cbn [fp_coefficients] in EC. apply plain_ok in EC as (EC & _).
  assert (Hlt : k < List.length (s_evecs (sv_slepian sv))).
  { destruct (Nat.lt_ge_cases k (List.length (s_evecs (sv_slepian sv)))) as [Hlt|Hge]; [exact Hlt|exfalso].
    rewrite C43_other_ranks in EC by (exact Hl || lia). discriminate EC. }
  split; [exact Hlt|].
  destruct (C43_unit_vector (inverse 0%Z false) L (sv_slepian sv) k HB Hl Hlt) as (out & E1 & _ & Lo & Vo).
  rewrite EC in E1. injection E1 as <-. split; [exact Lo|exact Vo].
Qed.

(** ** The Slepian Dirac delta *)

(** It sits at the first sample where the best concentrated function is
    greatest (as complex numbers are ordered): summing any signal against it
    gives the value of the signal there. *)
Theorem C69_dirac : forall L Y kw args r sm fs o fs' f,
  synthesis L Y (inverse 0%Z false) ->
  (forall t, t < n_theta L -> theta_to_index (PI * INR t / INR L)%R L = t) ->
  (forall p, p < n_phi L -> phi_to_index (PI * INR p / INR L)%R L = p) ->
  MF SlepianDiracDelta L kw args (Some r) None sm fs = Ok (o, fs') ->
  exists sv k, o_solved o = Some sv /\ first_max (inverse 0%Z false L (evec (sv_slepian sv) 0)) k /\
    (slepian_basis L (sv_slepian sv) ->
     k < samples L /\ List.length (o_coefficients o) = L * L /\
     (forall p, Z.to_nat (s_N (sv_slepian sv)) <= p -> nth p (o_coefficients o) (RtoC 0) = RtoC 0) /\
     forall f_p, slepian_inverse (inverse 0%Z false) f_p L (sv_slepian sv) = Ok f -> Z.to_nat (s_N (sv_slepian sv)) <= List.length f_p ->
       csum (Z.to_nat (s_N (sv_slepian sv))) (fun p => Cmult (nth p f_p (RtoC 0)) (Cconj (nth p (o_coefficients o) (RtoC 0))))
       = nth k f (RtoC 0)).
Proof.
  intros L Y kw args r sm fs o fs' f HY Ht Hp H.
  destruct (make_fp_inv _ _ _ _ _ _ _ _ _ _ H) as (r' & sv & fs1 & p & coef & Er & Es & Ea & EC & EN & Hr & _ & Hsv & HP & HL).
  cbn [option_map fp_add_noise] in EN. injection EN as <- _ _.
  destruct p; try discriminate EC. cbn [fp_coefficients] in EC. apply plain_ok in EC as (EC & _).
  unfold slepian_dirac_delta_coefficients in EC. ok EC as [beta alpha] Eang. unfold compute_angles in Eang.
  ok Eang as v Ev. ok Eang as k Ek. apply argmax_spec in Ek.
  assert (Hv : v = evec (sv_slepian sv) 0 /\ In v (s_evecs (sv_slepian sv))).
  { unfold np_get in Ev. unfold evec. destruct (nth_error (s_evecs (sv_slepian sv)) 0) eqn:E; [|discriminate Ev]. injection Ev as ->.
    split; [symmetry; exact (nth_error_nth _ _ _ E)|exact (nth_error_In _ _ E)]. }
  destruct Hv as [-> Iv]. exists sv, k. split; [exact Hsv|]. split; [exact Ek|]. intros HB.
  pose proof HB as (HN & Hn & Hle & Hlen & _).
  assert (Hk : k < samples L).
  { destruct Ek as [Hk _]. rewrite (HY _ (Hlen _ Iv)), map_length, seq_length in Hk. exact Hk. }
  split; [exact Hk|]. rewrite (grid_flat L k Hk) in Eang. injection Eang as <- <-.
  assert (P0 : 0 < n_phi L) by (unfold samples in Hk; nia).
  assert (Kt : k / n_phi L < n_theta L) by (apply Nat.div_lt_upper_bound; [lia|]; unfold samples in Hk; nia).
  assert (Kp : k mod n_phi L < n_phi L) by (apply Nat.mod_upper_bound; lia).
  rewrite (Ht _ Kt), (Hp _ Kp) in EC.
  pose proof (s_p_prime_ok (inverse 0%Z false) L Y (sv_slepian sv) _ _ HY HB Kt Kp) as EH.
  unfold fp_translation_helper in EH. rewrite EC in EH. injection EH as ->.
  replace (k / n_phi L * n_phi L + k mod n_phi L) with k by (rewrite (Nat.div_mod_eq k (n_phi L)) at 1; lia).
  split; [rewrite map_length, seq_length; reflexivity|]. split.
  - intros q Hq. destruct (Nat.lt_ge_cases q (L * L)) as [Hq'|Hq'].
    + rewrite nth_map_seq by exact Hq'. fold (Nn (sv_slepian sv)) in Hq. destruct (Nat.ltb_spec q (Nn (sv_slepian sv))); [lia|apply Cconj_R].
    + apply nth_overflow. rewrite map_length, seq_length. exact Hq'.
  - intros f_p Ef Lp. destruct (C24_inverse _ L Y _ f_p f HY HB Lp Ef) as [_ Hf]. rewrite (Hf k Hk). apply csum_ext. intros q Hq.
    f_equal. rewrite nth_map_seq by lia. rewrite Cconj_conj. fold (Nn (sv_slepian sv)) in Hq.
    destruct (Nat.ltb_spec q (Nn (sv_slepian sv))); [reflexivity|lia].
Qed.
End Creation.
Print Assumptions C69_coefficients.
Print Assumptions C69_map.
Print Assumptions C69_map_land.
Print Assumptions C69_map_again.
Print Assumptions C69_default_region.
Print Assumptions C69_default_africa_refuted.
Print Assumptions C69_slepian_map.
Print Assumptions C69_earth_noise.
Print Assumptions C69_slepian_noise.
Print Assumptions C69_wavelets.
Print Assumptions C69_spin.
Print Assumptions C69_family.
Print Assumptions C69_slepian_wavelets.
Print Assumptions C69_dirac.
Print Assumptions C69_slepian_function.

(** ** A case: [L = 2], with a sample for each coefficient, no rotation, one
    wavelet and the Slepian functions [toy] of C24. *)
Definition case_inverse (_ : Z) (real : bool) (L : nat) (v : list C) : list C :=
  if real then map (fun z => RtoC (Re z)) (toy_inverse L v) else toy_inverse L v.
Definition case_forward (_ : Z) (real : bool) (L : nat) (f : list C) : list C :=
  if real then table L (fun el m => if (m =? 0)%Z then nth (elm2ind el 0) f (RtoC 0) else RtoC 0) else toy_forward L f.
Definition case_rotate (v : list C) (_ _ _ : R) (_ : nat) : res (list C) := Ok v.
Definition case_earth : list C := [RtoC 3; RtoC 0; RtoC (-5); RtoC 0].
Definition case_kappas (_ : Z) (x : nat) (_ : Z) : list R * nat * list (list R) := (repeat 1%R x, 0, repeat [] x).
Definition case_files : mask_files := fun _ => None.
Definition case_solve (_ : nat) (_ : region) (fs : mask_files) : res (solved * mask_files) :=
  Ok ({| sv_slepian := toy; sv_name := "slepian_africa"; sv_order := None |}, fs).
Definition case_index (x : R) (_ : nat) : nat := Z.to_nat (Int_part (2 * x / PI)%R).

Lemma case_synthesis L : real_synthesis case_inverse L.
Proof.
  intros v. unfold case_inverse, toy_inverse. split; [rewrite !map_length, seq_length; reflexivity|].
  intros z Hz. apply in_map_iff in Hz as (w & <- & _). reflexivity.
Qed.
Lemma case_analysis L : real_analysis case_forward L.
Proof.
  intros f Lf Hf. unfold case_forward. split; [apply table_length|]. intros el m V.
  assert (V' : valid L el (- m)) by (destruct V; split; [assumption|lia]).
  rewrite (coeff_table L _ el m V), (coeff_table L _ el (- m) V').
  destruct (Z.eqb_spec m 0) as [->|Hm].
  - change (- 0 =? 0)%Z with true. cbn [Z.abs_nat pow]. rewrite (Cmult_1_l (Cconj _)).
    destruct (Nat.lt_ge_cases (elm2ind el 0) (List.length f)) as [Hl|Hl].
    + pose proof (Hf _ (nth_In f (RtoC 0) Hl)) as Hi. destruct (nth _ _ _) as [x y]. unfold Im in Hi. cbn [snd] in Hi. subst y.
      symmetry. exact (Cconj_R x).
    + rewrite nth_overflow by exact Hl. symmetry. apply Cconj_R.
  - destruct (Z.eqb_spec (- m) 0); [lia|]. rewrite Cconj_R. ring.
Qed.

Lemma case_kappa_lengths L B jm k : In k (create_kappas case_kappas L B jm) -> List.length k = L.
Proof. unfold create_kappas, case_kappas. cbn. intros [<-|[]]. apply repeat_length. Qed.

Lemma case_topography : exists e, create_earth_flm case_earth 2 None = Ok e /\ List.length e = 4 /\
  nth 0 e (RtoC 0) = RtoC 3 /\ nth 2 e (RtoC 0) = RtoC (-5).
Proof.
  destruct (create_earth_spec case_earth 2) as (e & E & Le & He); [cbn; lia|]. exists e. split; [exact E|]. split; [exact Le|].
  pose proof (He 0 0%Z ltac:(split; lia)) as H0. pose proof (He 1 0%Z ltac:(split; lia)) as H2.
  split.
  - change (coeff e 0 0) with (nth 0 e (RtoC 0)) in H0. rewrite H0. exact (Cconj_R 3).
  - change (coeff e 1 0) with (nth 2 e (RtoC 0)) in H2. rewrite H2. exact (Cconj_R (-5)).
Qed.

Section Case.
  Variable gammaln : R -> R.
  Variable jmax : Z -> nat -> Z -> Z.
  Variable normal : Z -> nat -> R.
  Variable cl : list R.
  Variable fmt_e : R -> string.
  Variable lower : string -> string.
  Variable to_int : string -> res Z.
  Variable env : string -> option string.
  Notation MK := (make_flm case_inverse case_forward case_rotate gammaln case_kappas jmax normal case_earth cl).
  Notation MF := (make_fp case_inverse case_forward case_rotate case_index case_index case_kappas jmax normal case_earth
                    fmt_e lower to_int env case_solve).

  (** The map keeps the land at the pole (3), not the sea (-5). *)
  Example C69_map_case : exists o fs', MK Africa 2 No_params None None None None case_files = Ok (o, fs') /\
    o_coefficients o = [RtoC 3; RtoC 0; RtoC 0; RtoC 0].
  Proof.
    destruct case_topography as (e & E & Le & E0 & E2).
    destruct (C69_map_land case_inverse case_forward case_rotate gammaln case_kappas jmax normal case_earth cl
      true 2 None case_files e e e e (case_synthesis 2) eq_refl E eq_refl E eq_refl) as (o & fs' & f & EM & _ & Ho & Lf & Hf).
    exists o, fs'. split; [exact EM|]. rewrite Ho.
    assert (I : forall k, k < 4 -> nth k (case_inverse 0%Z true 2 e) (RtoC 0) = RtoC (Re (nth k e (RtoC 0)))).
    { intros k Hk. unfold case_inverse, toy_inverse. rewrite map_map.
      rewrite (nth_map_seq (fun k => RtoC (Re (csum (2 * 2) (fun i => Cmult (nth i e (RtoC 0)) (toy_Y i k)))))) by (cbn; lia).
      rewrite toy_entry by (cbn; lia). reflexivity. }
    pose proof PI_RGT_0 as HPI.
    destruct (Hf 0 0) as [H0 _]; [cbn; lia|cbn; lia|]. destruct (Hf 0 2) as [_ H2]; [cbn; lia|cbn; lia|]. cbn [n_phi Nat.mul Nat.add] in H0, H2.
    rewrite I, E0 in H0 by lia. rewrite I, E2 in H2 by lia. cbn [Re RtoC fst] in H0, H2.
    assert (F0 : nth 0 f (RtoC 0) = RtoC 3) by (apply H0; cbn; lra).
    assert (F2 : nth 2 f (RtoC 0) = RtoC 0) by (apply H2; cbn; lra).
    change (case_forward 0%Z true 2 f) with [nth 0 f (RtoC 0); RtoC 0; nth 2 f (RtoC 0); RtoC 0]. rewrite F0, F2. reflexivity.
  Qed.

  Definition case_region : region :=
    {| r_gap := false; r_mask_name := "africa"; r_phi_max := 2 * PI; r_phi_min := 0; r_theta_max := PI; r_theta_min := 0;
       r_name_ending := "africa"; r_region_type := Arbitrary |}.
  Lemma case_solved sv fs fs1 : case_solve 2 case_region fs = Ok (sv, fs1) ->
    slepian_basis 2 (sv_slepian sv) /\ case_solve 2 case_region fs1 = Ok (sv, fs1).
  Proof. unfold case_solve. intros [= <- <-]. split; [exact toy_basis|reflexivity]. Qed.

  Lemma case_slepian_map : exists o fs' flm, MF SlepianAfrica 2 No_params None (Some case_region) None None case_files = Ok (o, fs') /\
    flm = [RtoC 3; RtoC 0; RtoC 0; RtoC 0] /\
    continent_coefficients case_inverse case_forward case_rotate case_earth true 2 None case_files = Ok (flm, fs') /\
    o_coefficients o = map (fun p => cdot 4 flm (evec toy p)) (seq 0 2).
  Proof.
    destruct C69_map_case as (m & fs' & EM & Hm).
    destruct (map_inv case_inverse case_forward case_rotate gammaln case_kappas jmax normal case_earth cl true 2 _ _ _ _ _ _ _ _ EM) as [EC _].
    assert (HC : clean m = [RtoC 3; RtoC 0; RtoC 0; RtoC 0]).
    { revert EM. unfold make_flm. cbn [default_params same_fields validate_fields setup_args rbind flm_coefficients].
      rewrite EC. cbn [rbind plain option_map flm_add_noise]. intros [= E].
      unfold clean. replace (o_unnoised m) with (@None (list C)) by (rewrite <- E; reflexivity). exact Hm. }
    rewrite HC in EC.
    destruct (slepian_map_made case_inverse case_forward case_rotate case_index case_index case_kappas jmax normal case_earth
      fmt_e lower to_int env case_solve true 2 case_region None None case_files
      {| sv_slepian := toy; sv_name := "slepian_africa"; sv_order := None |} case_files
      (map (fun p => cdot 4 [RtoC 3; RtoC 0; RtoC 0; RtoC 0] (evec toy p)) (seq 0 2)) fs'
      (map (fun p => cdot 4 [RtoC 3; RtoC 0; RtoC 0; RtoC 0] (evec toy p)) (seq 0 2)) None None) as (o & EO & Ho & _);
      [reflexivity|reflexivity| |reflexivity|].
    - unfold slepian_continent_coefficients. rewrite EC. cbn [rbind sv_slepian].
      rewrite (slepian_forward_flm case_inverse 2 toy _ toy_basis) by reflexivity. reflexivity.
    - exists o, fs', [RtoC 3; RtoC 0; RtoC 0; RtoC 0]. split; [exact EO|]. split; [reflexivity|]. split; [exact EC|exact Ho].
  Qed.

  Lemma case_values : map (fun p => cdot 4 [RtoC 3; RtoC 0; RtoC 0; RtoC 0] (evec toy p)) (seq 0 2) = [RtoC (9/5); (0, -12/5)%R].
  Proof. cbn [seq map]. f_equal; [|f_equal]; apply C_ext; cbn; field. Qed.

  (** The Slepian functions of Africa see 9/5 and -12/5 i. *)
  Example C69_slepian_map_case : exists o fs',
    MF SlepianAfrica 2 No_params None (Some case_region) None None case_files = Ok (o, fs') /\
    o_coefficients o = [RtoC (9/5); (0, -12/5)%R].
  Proof.
    destruct case_slepian_map as (o & fs' & flm & EO & -> & _ & Ho). exists o, fs'. split; [exact EO|]. rewrite Ho. exact case_values.
  Qed.

  (** Noise at 10 decibels. *)
  Example C69_slepian_noise_case : exists noise noisy fs',
    MF SlepianNoiseAfrica 2 (Snr 10) None (Some case_region) None None case_files = Ok (noise, fs') /\
    MF SlepianAfrica 2 No_params None (Some case_region) (Some 10%Q) None case_files = Ok (noisy, fs') /\
    nth 0 (o_coefficients noisy) (RtoC 0) = Cplus (RtoC (9/5)) (nth 0 (o_coefficients noise) (RtoC 0)).
  Proof.
    destruct C69_slepian_map_case as (o & fs' & EO & Ho).
    destruct (C69_slepian_noise case_inverse case_forward case_rotate case_index case_index case_kappas jmax normal case_earth
      fmt_e lower to_int env case_solve true 2 toy_Y case_region 10%Q None case_files o fs'
      (case_synthesis 2) (case_analysis 2) (toy_synthesis 2) (toy_sampling 2) (fun sv fs1 => case_solved sv case_files fs1) EO)
      as (noise & noisy & E1 & E2 & _ & _ & H). rewrite Ho in H. cbn [List.length] in H.
    exists noise, noisy, fs'. split; [exact E1|]. split; [exact E2|]. exact (H 0 ltac:(lia)).
  Qed.
  Example C69_earth_noise_case : exists noise noisy fs',
    MK NoiseEarth 2 (Snr 10) None None None None case_files = Ok (noise, fs') /\
    MK Earth 2 No_params None None (Some 10%Q) None case_files = Ok (noisy, fs') /\
    nth 2 (o_coefficients noisy) (RtoC 0) = Cplus (RtoC (-5)) (nth 2 (o_coefficients noise) (RtoC 0)).
  Proof.
    destruct case_topography as (e & E & Le & E0 & E2).
    assert (EM : exists o, MK Earth 2 No_params None None None None case_files = Ok (o, case_files) /\ o_coefficients o = e).
    { unfold make_flm. cbn [default_params same_fields validate_fields setup_args rbind flm_coefficients].
      rewrite E. cbn [rbind plain option_map flm_add_noise]. eexists. split; reflexivity. }
    destruct EM as (o & EM & Ho).
    destruct (C69_earth_noise case_inverse case_forward case_rotate gammaln case_kappas jmax normal case_earth cl
      2 None 10%Q None case_files o case_files ltac:(cbn; lia) EM) as (noise & noisy & E3 & E4 & _ & _ & H).
    exists noise, noisy, case_files. split; [exact E3|]. split; [exact E4|]. rewrite (H 2 ltac:(lia)), Ho, E2. reflexivity.
  Qed.

  (** One wavelet, which is one everywhere, reconstructs the Earth. *)
  Example C69_wavelets_case : exists o fs' wavelets W,
    MK AxisymmetricWaveletCoefficientsEarth 2 (Scale 2 0 None) None None None None case_files = Ok (o, fs') /\
    o_wavelets o = A2 4 wavelets /\ o_wavelet_coefficients o = A2 4 W /\ nth_error W 0 = Some (o_coefficients o) /\
    exists e, create_earth_flm case_earth 2 None = Ok e /\ axisymmetric_wavelet_inverse 2 W wavelets = Ok e.
  Proof.
    destruct case_topography as (e & E & Le & _).
    destruct (C27_wavelets case_kappas 2 2 0 (case_kappa_lengths 2 2 0)) as (wav & Ew & Mw & Hw & _).
    destruct (C27_forward 2 e wav Le Mw) as (W & EW & LW & _).
    assert (Lw : List.length wav = 1).
    { pose proof (create_axisymmetric_ok case_kappas 2 2 0 (case_kappa_lengths 2 2 0)) as K. rewrite Ew in K. injection K as ->. reflexivity. }
    assert (EM : exists o, MK AxisymmetricWaveletCoefficientsEarth 2 (Scale 2 0 None) None None None None case_files = Ok (o, case_files)
      /\ o_unnoised o = None).
    { unfold make_flm. cbn [default_params same_fields validate_fields setup_args rbind flm_coefficients check_j].
      unfold wavelet_map. rewrite Ew. cbn [rbind]. rewrite E. cbn [rbind]. rewrite EW. cbn [rbind].
      destruct W as [|w W]; [cbn in LW; lia|].
      change (select_scale (w :: W) None) with (Ok w). cbn [rbind option_map].
      change (flm_add_noise normal 2 w None) with (Ok (w, @None (list C), @None R)). cbn [rbind]. eexists. split; reflexivity. }
    destruct EM as (o & EM & Hu).
    destruct (C69_wavelets case_inverse case_forward case_rotate gammaln case_kappas jmax normal case_earth cl
      AxisymmetricWaveletCoefficientsEarth Earth 2 _ _ _ _ _ _ o case_files (or_intror (or_introl eq_refl))
      (case_synthesis 2) (case_analysis 2) ltac:(cbn; lia) (case_kappa_lengths 2) EM)
      as (m & B & jm & j & wav' & W' & Em & HP & Hwav & HW & Ew' & _ & Hrow & HI).
    assert (EP : o_params o = Scale 2 0 None).
    { destruct (make_flm_inv case_inverse case_forward case_rotate gammaln case_kappas jmax normal case_earth cl
        _ _ _ _ _ _ _ _ _ _ EM) as (p & _ & Ep & _ & _ & _ & Hp & _). cbn in Ep. injection Ep as <-. exact Hp. }
    rewrite EP in HP. injection HP as <- <- <-.
    exists o, case_files, wav', W'. split; [exact EM|]. split; [exact Hwav|]. split; [exact HW|].
    split; [change 0 with (row_of None); rewrite Hrow; unfold clean; rewrite Hu; reflexivity|]. exists e. split; [exact E|]. rewrite HI.
    - revert Em. unfold make_flm. cbn [default_params same_fields validate_fields setup_args rbind flm_coefficients].
      rewrite E. cbn [rbind plain option_map flm_add_noise]. intros [= <-]. reflexivity.
    - intros el Hel. destruct el as [|[|el]]; [| |lia]; cbn; ring.
  Qed.

  (** Ridgelets of spin 1, and the default spin. *)
  Example C69_family_case : (forall n, gammaln (INR n + 1)%R = ln (INR (fact n))) -> exists o wavelets,
    MK Ridgelets 2 (Spin_scale 2 0 1 None) None None None None case_files = Ok (o, case_files) /\
    o_spin o = 1%Z /\ o_wavelets o = A2 4 wavelets /\ nth_error wavelets 0 = Some (o_coefficients o).
  Proof.
    intros HG. destruct (C53_ring gammaln 2 1 HG) as (ring & Er & Lr & _).
    destruct (create_ridgelets_ok case_kappas gammaln 2 2 0 1 ring (case_kappa_lengths 2 2 0) Er Lr) as (k0 & ks & _ & E).
    match type of E with _ = Ok (?a :: ?b) => set (w := a) in E; set (W := b) in E end.
    eexists. exists (w :: W). split.
    - unfold make_flm. cbn [default_params same_fields validate_fields setup_args rbind flm_coefficients check_j]. rewrite E. cbn [rbind].
      change (select_scale (w :: W) None) with (Ok w). cbn [rbind option_map flm_add_noise]. reflexivity.
    - cbn. repeat split.
  Qed.

  Example C69_slepian_wavelets_case : exists o fs',
    MF SlepianWaveletCoefficientsAfrica 2 (Scale 2 0 None) None (Some case_region) None None case_files = Ok (o, fs') /\
    slepian_wavelet_inverse (o_wavelet_coefficients o) (o_wavelets o) 2 = Ok [RtoC (9/5); (0, -12/5)%R].
  Proof.
    destruct case_slepian_map as (m & fs' & flm & EO & -> & EC & Ho). 
    assert (Nz : forall x y : R, (x <> 0 \/ y <> 0)%R -> (x, y) <> RtoC 0) by (intros x y Hxy E; injection E; intros; lra).
    pose proof case_values as HV.
    set (rows := map (map RtoC) (create_kappas case_kappas (2 * 2) 2 0)) in *.
    assert (Mw : matrix 4 rows) by (intros w [<-|[]]; reflexivity).
    assert (Ha : admissible 2 rows).
    { intros p Hp. destruct p as [|[|p]]; [| |lia]; apply C_ext; cbn; ring. }
    assert (Hd : dead_last 2 rows [RtoC (9/5); (0, -12/5)%R] 1).
    { split; [cbn; lia|]. intros j Hj. cbn in Hj. split; [lia|]. intros _. assert (j = 0) as -> by lia. exists 0. split; [lia|].
      split; apply Nz; cbn; left; lra. }
    destruct (C26_round_trip 2 4 rows [RtoC (9/5); (0, -12/5)%R] 1 Mw ltac:(lia) ltac:(cbn; lia) Ha Hd) as (W & EF & EI).
    rewrite forward_rows in EF by (try exact Mw; cbn; lia).
    match type of EF with Ok ?a = Ok ?b => assert (EW : b = a) by congruence end. clear EF.
    assert (EM : exists o, MF SlepianWaveletCoefficientsAfrica 2 (Scale 2 0 None) None (Some case_region) None None case_files = Ok (o, fs') /\
      o_wavelets o = A2 4 rows /\ o_wavelet_coefficients o = W).
    { unfold make_fp. cbn [default_params same_fields validate_fields setup_args rbind case_solve fp_create_name fp_coefficients check_j].
      unfold slepian_wavelet_map. cbn [case_solve rbind]. unfold slepian_continent_object. cbn [case_solve rbind sv_slepian].
      unfold slepian_continent_coefficients. rewrite EC. cbn [rbind].
      rewrite (slepian_forward_flm case_inverse 2 toy _ toy_basis) by reflexivity. cbn [rbind].
      change (map (fun p => cdot (2 * 2) [RtoC 3; RtoC 0; RtoC 0; RtoC 0] (evec toy p)) (seq 0 (Nn toy)))
        with (map (fun p => cdot 4 [RtoC 3; RtoC 0; RtoC 0; RtoC 0] (evec toy p)) (seq 0 2)). rewrite HV.
      change (check_region_name SlepianAfrica (r_name_ending case_region)) with (Ok tt). cbn [rbind].
      unfold create_slepian_wavelets. fold rows. change (s_N toy) with (Z.of_nat 2).
      rewrite forward_rows by (try exact Mw; cbn; lia). cbn [rbind].
      match goal with |- context [filter ?p ?l] => assert (F : filter p l = l) end.
      { cbn [rows map filter]. unfold rows, create_kappas, case_kappas. cbn.
        match goal with |- (if ?c then _ else _) = _ => assert (X : c = true); [|rewrite X; reflexivity] end.
        apply orb_true_iff. left. unfold Cnonzero, Cmult, RtoC. cbn.
        match goal with |- negb ?c = true => destruct c eqn:Ec; [exfalso|reflexivity] end.
        revert Ec. rewrite ?andb_true_iff. rb. intros; lra. }
      rewrite F. match goal with |- context [select_scale ?l None] => change (select_scale l None) with (Ok (hd [] l)) end.
      cbn [rbind option_map].
      match goal with |- context [fp_add_noise ?a ?b ?c ?d ?e ?w None] =>
        change (fp_add_noise a b c d e w None) with (Ok (w, @None (list C), @None R)) end. cbn [rbind].
      change (check_region_name SlepianWaveletCoefficientsAfrica (r_name_ending case_region)) with (Ok tt). cbn [rbind].
      eexists. split; [reflexivity|]. split; [reflexivity|]. rewrite EW, F. reflexivity. }
    destruct EM as (o & EM & Hw & HW). exists o, fs'. split; [exact EM|]. rewrite Hw, HW. exact EI.
  Qed.

  Lemma case_index_ok t : case_index (PI * INR t / INR 2)%R 2 = t.
  Proof.
    unfold case_index. replace (2 * (PI * INR t / INR 2) / PI)%R with (INR t) by (cbn [INR]; field; apply PI_neq0).
    unfold Int_part. rewrite <- (tech_up (INR t) (Z.of_nat t + 1)).
    - replace (Z.of_nat t + 1 - 1)%Z with (Z.of_nat t) by lia. apply Nat2Z.id.
    - rewrite plus_IZR, <- INR_IZR_INZ. lra.
    - rewrite plus_IZR, <- INR_IZR_INZ. lra.
  Qed.

  (** The second Slepian function. *)
  Example C69_slepian_function_case : exists o fs', MF Slepian 2 (default_params Slepian) (Some [1%Z]) (Some case_region) None None case_files = Ok (o, fs') /\
    nth 0 (o_coefficients o) (RtoC 0) = RtoC 0 /\ nth 1 (o_coefficients o) (RtoC 0) = RtoC 1.
  Proof.
    assert (EM : exists o, MF Slepian 2 (default_params Slepian) (Some [1%Z]) (Some case_region) None None case_files = Ok (o, case_files) /\
              o_solved o = Some {| sv_slepian := toy; sv_name := "slepian_africa"; sv_order := None |}).
    { unfold make_fp. cbn [default_params same_fields validate_fields check_rank Z.ltb Z.compare rbind slepian_validate_rank Z.of_nat Nat.mul Nat.add Pos.of_succ_nat Pos.succ Z.leb Pos.compare Pos.compare_cont setup_args case_solve fp_create_name fp_coefficients sv_slepian].
      destruct (C43_unit_vector (case_inverse 0%Z false) 2 toy 1 toy_basis eq_refl ltac:(cbn; lia)) as (out & E1 & _).
      change (Z.of_nat 1) with 1%Z in E1. rewrite E1. cbn [plain rbind]. eexists. split; reflexivity. }
    destruct EM as (o & EM & Hs). exists o, case_files. split; [exact EM|].
    destruct (C69_slepian_function case_inverse case_forward case_rotate case_index case_index case_kappas jmax normal case_earth
      fmt_e lower to_int env case_solve 2 (Some [1%Z]) case_region None case_files o case_files 1 eq_refl EM) as (_ & sv & Es & H).
    rewrite Hs in Es. injection Es as <-. destruct (H toy_basis eq_refl) as (_ & _ & V).
    split; [exact (V 0 ltac:(cbn; lia))|exact (V 1 ltac:(cbn; lia))].
  Qed.

  (** The delta picks the first sample of a signal. *)
  Example C69_dirac_case : exists o fs' sv, MF SlepianDiracDelta 2 No_params None (Some case_region) None None case_files = Ok (o, fs') /\
    o_solved o = Some sv /\ List.length (o_coefficients o) = 4 /\
    forall f_p f, slepian_inverse (case_inverse 0%Z false) f_p 2 toy = Ok f -> 2 <= List.length f_p ->
      csum 2 (fun p => Cmult (nth p f_p (RtoC 0)) (Cconj (nth p (o_coefficients o) (RtoC 0)))) = nth 0 f (RtoC 0).
  Proof.
    assert (EM : exists o, MF SlepianDiracDelta 2 No_params None (Some case_region) None None case_files = Ok (o, case_files) /\
      o_solved o = Some {| sv_slepian := toy; sv_name := "slepian_africa"; sv_order := None |}).
    { destruct (argmax_ok (case_inverse 0%Z false 2 (evec toy 0))) as [k Ek]; [discriminate|].
      assert (Hk : k < samples 2) by (destruct (argmax_spec _ _ Ek) as [Hk _]; exact Hk).
      pose proof (s_p_prime_ok toy_inverse 2 toy_Y toy (k / 4) (k mod 4) (toy_synthesis 2) toy_basis) as ES.
      unfold fp_translation_helper in ES.
      unfold make_fp. cbn [default_params same_fields validate_fields setup_args rbind case_solve fp_create_name fp_coefficients sv_slepian].
      unfold slepian_dirac_delta_coefficients, compute_angles. change (np_get (s_evecs toy) 0) with (Ok (evec toy 0)). cbn [rbind].
      rewrite Ek. cbn [rbind]. rewrite (grid_flat 2 k Hk). cbn [rbind]. rewrite !case_index_ok. change (n_phi 2) with 4.
      change (case_inverse 0%Z false) with toy_inverse. rewrite ES.
      - cbn [rbind plain option_map].
        match goal with |- context [fp_add_noise ?a ?b ?c ?d ?e ?w None] =>
          change (fp_add_noise a b c d e w None) with (Ok (w, @None (list C), @None R)) end. cbn [rbind check_region_name].
        eexists. split; reflexivity.
      - apply Nat.div_lt_upper_bound; [lia|]. exact Hk.
      - exact (Nat.mod_upper_bound k 4 ltac:(discriminate)). }
    destruct EM as (o & EM & Hs). exists o, case_files, {| sv_slepian := toy; sv_name := "slepian_africa"; sv_order := None |}.
    split; [exact EM|]. split; [exact Hs|].
    pose proof (fun f => C69_dirac case_inverse case_forward case_rotate case_index case_index case_kappas jmax normal case_earth
      fmt_e lower to_int env case_solve 2 toy_Y _ _ _ _ _ o case_files f (toy_synthesis 2) (fun t _ => case_index_ok t) (fun t _ => case_index_ok t) EM) as HD.
    assert (K0 : forall k, first_max (case_inverse 0%Z false 2 (evec toy 0)) k -> k = 0).
    { intros k (Hk & Hm & _). specialize (Hm 0 ltac:(cbn; lia)). unfold case_inverse, toy_inverse in Hm, Hk.
      rewrite map_length, seq_length in Hk. rewrite !(nth_map_seq (fun k => csum (2 * 2) (fun i => Cmult (nth i (evec toy 0) (RtoC 0)) (toy_Y i k)))) in Hm
        by (exact Hk || (cbn; lia)).
      destruct k as [|k]; [reflexivity|exfalso]. rewrite toy_entry in Hm by (cbn; lia).
      assert (Z : fst (csum (2 * 2) (fun i => Cmult (nth i (evec toy 0) (RtoC 0)) (toy_Y i (S k)))) = 0%R).
      { destruct k as [|[|[|k]]]; cbn; ring. }
      unfold Cle_lex in Hm. rewrite Z in Hm. cbn in Hm. lra. }
    destruct (HD []) as (sv & k & Es & Fk & H). rewrite Hs in Es. injection Es as <-. destruct (H toy_basis) as (_ & Lo & _). split; [exact Lo|].
    intros f_p f Ef Lf. destruct (HD f) as (sv & k' & Es & Fk' & H'). rewrite Hs in Es. injection Es as <-.
    destruct (H' toy_basis) as (_ & _ & _ & R). rewrite (K0 k' Fk') in R. exact (R f_p Ef Lf).
  Qed.

  Example C69_coefficients_case : exists o fs', MK Africa 2 No_params None None None None case_files = Ok (o, fs') /\
    o_reality o = true /\ reality 2 (o_coefficients o) /\ exists o2, MK Africa 2 No_params None None None None fs' = Ok (o2, fs').
  Proof.
    destruct C69_map_case as (o & fs' & EM & _). exists o, fs'. split; [exact EM|].
    assert (R : o_reality o = true).
    { destruct (make_flm_inv case_inverse case_forward case_rotate gammaln case_kappas jmax normal case_earth cl
        _ _ _ _ _ _ _ _ _ _ EM) as (_ & _ & _ & _ & _ & R & _). exact R. }
    split; [exact R|]. split.
    - destruct (C69_coefficients case_inverse case_forward case_rotate gammaln case_kappas jmax normal case_earth cl
        Africa 2 No_params None None None None case_files o fs' (case_synthesis 2) (case_analysis 2) ltac:(cbn; lia)) as [_ H]; [|exact (case_kappa_lengths 2)|exact EM|].
      + intros k. unfold coeff, case_earth. destruct (Z.to_nat _) as [|[|[|[|[|n]]]]]; reflexivity.
      + apply H; [exact R|discriminate].
    - exists o. exact (C69_map_again _ _ _ _ _ _ _ _ _ true _ _ _ _ _ _ _ _ _ EM).
  Qed.

  (** The mask of the map is the mask of the region. *)
  Example C69_same_mask_case : exists o fs' mask,
    MK Africa 2 No_params None None None None case_files = Ok (o, fs') /\
    create_mask_region (fun _ _ => rows_of 3 4 (map fst (case_inverse 0%Z true 2 case_earth))) 2 (sample_grid 2) case_region fs' = Ok (mask, fs').
  Proof.
    destruct C69_map_case as (o & fs' & EM & _).
    pose proof (C69_map_again _ _ _ _ _ _ _ _ _ true _ _ _ _ _ _ _ _ _ EM) as EA.
    destruct (C69_map _ _ _ _ _ _ _ _ _ true 2 _ _ _ _ _ fs' o fs'
      (fun _ _ => rows_of 3 4 (map fst (case_inverse 0%Z true 2 case_earth))) case_region EA eq_refl eq_refl) as (e & rot & mask & f & _ & _ & H & _).
    - intros F. exfalso. destruct case_topography as (e & E & _).
      destruct (C69_map_land case_inverse case_forward case_rotate gammaln case_kappas jmax normal case_earth cl
        true 2 None case_files e e e e (case_synthesis 2) eq_refl E eq_refl E eq_refl) as (o2 & fs2 & _ & EM2 & HF & _).
      cbn [map_class] in EM2. rewrite EM in EM2. injection EM2 as _ <-. exact (HF F).
    - exists o, fs', mask. split; [exact EM|exact H].
  Qed.

  Example C69_default_africa_case L fs : exists e,
    make_fp case_inverse case_forward case_rotate case_index case_index case_kappas jmax normal case_earth
      fmt_e lower to_int (fun _ => None) case_solve SlepianAfrica L No_params None None None None fs = Err e.
  Proof. apply C69_default_africa_refuted; [reflexivity|left; reflexivity]. Qed.
End Case.
