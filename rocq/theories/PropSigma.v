(** * The noise level of a wavelet scale: property C55. *)
From Coq Require Import List ZArith Arith Bool Reals Lra Lia.
From Coquelicot Require Import Complex.
From Verif Require Import Base ListLemmas RSum CSum PyNum Index Numpy SpecField Noise NoiseProofs Eigen EigenProofs Quadrature
  OrthoProofs Convolution ConvolutionProofs Transform SpecTransform TransformProofs PropTransform
  Wavelet WaveletProofs PropWavelet Threshold PropThreshold SigmaProofs EarthProofs.
Import ListNotations.
Local Open Scope nat_scope.

(** Any linear form in the noise has mean square [sigma^2] times the square of
    its norm: the noise is white. *)
Theorem C55_white : forall (E : ensemble) L signal snr_in (nlm : (nat -> R) -> list C) (a : nat -> C),
  (forall X, create_noise (fun _ => X) L signal snr_in = Ok (nlm X)) ->
  decorrelated E (L * L) ->
  mean E (fun X => (Cmod (csum (L * L) (fun i => Cmult (a i) (nthC (nlm X) i))) ^ 2)%R)
  = (compute_sigma_noise signal snr_in None ^ 2 * rsum (L * L) (fun i => Cmod (a i) ^ 2))%R.
Proof.
  intros E L signal snr nlm a HX HE.
  pose proof (noise_second_moment E L signal snr nlm (fun el m => a (Z.to_nat (Z.of_nat (el * el + el) + m))) HX HE) as H.
  assert (I : forall el k, Z.to_nat (Z.of_nat (el * el + el) + (Z.of_nat k - Z.of_nat el)) = el * el + k) by (intros; lia).
  transitivity (mean E (fun X => (Cmod (csum L (fun el => csum (2 * el + 1) (fun k => let m := (Z.of_nat k - Z.of_nat el)%Z in
    Cmult (a (Z.to_nat (Z.of_nat (el * el + el) + m))) (coeff (nlm X) el m)))) ^ 2)%R)).
  - apply mean_ext. intros X. do 2 f_equal. rewrite csum_degrees. apply csum_ext. intros el _. apply csum_ext. intros k _.
    cbv zeta. unfold coeff. rewrite I. reflexivity.
  - rewrite H. f_equal. rewrite rsum_degrees. apply rsum_ext. intros el _. unfold nrm2. apply rsum_ext. intros k _.
    rewrite I, <- Cmod_sq. reflexivity.
Qed.
Print Assumptions C55_white.

(** The addition theorem at one point. *)
Definition addition_theorem (L : nat) (Y : nat -> Z -> C) : Prop :=
  forall el, el < L ->
    rsum (2 * el + 1) (fun k => Cmod (Y el (Z.of_nat k - Z.of_nat el)%Z) ^ 2)%R = ((2 * INR el + 1) / (4 * PI))%R.

(** Wavelets without coefficients off the order [0]. *)
Definition axisymmetric (L : nat) (psi : list C) : Prop := forall el m, valid L el m -> m <> 0%Z -> coeff psi el m = RtoC 0.

Lemma nth_sigma_j signal psi_j snr_in j : j < length psi_j ->
  nth j (compute_sigma_j signal psi_j snr_in) 0%R
  = (compute_sigma_noise signal snr_in None * sqrt (power (nth j psi_j [])))%R.
Proof.
  intros Hj. unfold compute_sigma_j. set (h := fun psi => (compute_sigma_noise signal snr_in None * sqrt (sum_abs2 psi))%R).
  rewrite (nth_indep _ 0%R (h [])) by (rewrite map_length; exact Hj). rewrite (map_nth h). unfold h. rewrite sum_abs2_power. reflexivity.
Qed.

(** [sigma_j] is the standard deviation, at every point of the sphere, of the
    field of the [j]th wavelet coefficients of the noise. *)
Theorem C55_axisymmetric : forall (E : ensemble) L signal snr_in (nlm : (nat -> R) -> list C) wavelets
    (W : (nat -> R) -> list (list C)) Y j,
  (forall X, create_noise (fun _ => X) L signal snr_in = Ok (nlm X)) ->
  decorrelated E (L * L) ->
  matrix (L * L) wavelets -> (forall psi, In psi wavelets -> axisymmetric L psi) ->
  (forall X, axisymmetric_wavelet_forward L (nlm X) wavelets = Ok (W X)) ->
  addition_theorem L Y -> j < length wavelets ->
  mean E (fun X => (Cmod (field_at L Y (nth j (W X) [])) ^ 2)%R)
  = (nth j (compute_sigma_j signal wavelets snr_in) 0 ^ 2)%R.
Proof.
  intros E L signal snr nlm ws W Y j HX HE Hm Ha HW HY Hj.
  set (psi := nth j ws []). assert (Hin : In psi ws) by (apply nth_In, Hj).
  set (q := fun el => sqrt (4 * PI / (2 * INR el + 1))).
  pose proof (noise_second_moment E L signal snr nlm
    (fun el m => Cmult (Cmult (RtoC (q el)) (Cconj (coeff psi el 0))) (Y el m)) HX HE) as H.
  transitivity (mean E (fun X => (Cmod (csum L (fun el => csum (2 * el + 1) (fun k => let m := (Z.of_nat k - Z.of_nat el)%Z in
     Cmult (Cmult (Cmult (RtoC (q el)) (Cconj (coeff psi el 0))) (Y el m)) (coeff (nlm X) el m)))) ^ 2)%R)).
  { apply mean_ext. intros X.
    assert (Hl : length (nlm X) = L * L).
    { destruct (create_noise_spec (fun _ => X) L signal snr) as (n' & E' & Hl & _). rewrite HX in E'. injection E' as <-. exact Hl. }
    destruct (C27_forward L (nlm X) ws Hl Hm) as (W' & EW & _ & Hc). rewrite HW in EW. injection EW as <-.
    do 2 f_equal. unfold field_at. apply csum_ext. intros el Hel. apply csum_ext. intros k Hk. cbv zeta.
    rewrite (proj2 (Hc j Hj)) by (split; lia). fold psi. unfold q. ring. }
  rewrite H, nth_sigma_j by exact Hj. fold psi. rewrite Rpow_mult_distr. f_equal.
  rewrite <- Rsqr_pow2, Rsqr_sqrt by apply power_nonneg.
  rewrite (power_degrees L) by (apply Hm, Hin). apply rsum_ext. intros el Hel.
  assert (P : (0 < 4 * PI / (2 * INR el + 1))%R) by apply sqrt_norm. pose proof PI_RGT_0. pose proof (pos_INR el).
  transitivity (abs2 (coeff psi el 0)).
  - unfold nrm2. rewrite (rsum_ext _ _ (fun k => (4 * PI / (2 * INR el + 1) * abs2 (coeff psi el 0))
                             * Cmod (Y el (Z.of_nat k - Z.of_nat el)%Z) ^ 2)%R).
    + rewrite rsum_scal_l, HY by exact Hel. field. split; lra.
    + intros k _. rewrite <- Cmod_sq, Cmod_mult, Cmod_mult, Cmod_conj, Cmod_R, !Rpow_mult_distr, pow2_abs.
      unfold q. rewrite <- Rsqr_pow2, Rsqr_sqrt by lra. rewrite (Cmod_sq (coeff psi el 0)). reflexivity.
  - rewrite (rsum_single (2 * el + 1) el); [|lia|].
    + cbv zeta. replace (Z.of_nat el - Z.of_nat el)%Z with 0%Z by lia. reflexivity.
    + intros k Hk Hne. cbv zeta. rewrite (Ha psi Hin) by (try split; lia). cbn. ring.
Qed.
Print Assumptions C55_axisymmetric.

Lemma expand_nth L s f_p i : i < L * L ->
  nthC (expand L s f_p) i = csum (Nn s) (fun p => Cmult (nthC f_p p) (nthC (evec s p) i)).
Proof. intros H. unfold expand. rewrite nth_map_seq by exact H. reflexivity. Qed.

(** The signal has the same power in harmonic and in Slepian space. *)
Lemma expand_power L s f_p : slepian_basis L s -> length f_p = Nn s -> power (expand L s f_p) = power f_p.
Proof.
  intros HB Hf. pose proof HB as (_ & Hn & _).
  rewrite (power_nrm2 _ (L * L)) by apply expand_length. rewrite (power_nrm2 f_p (Nn s)) by exact Hf.
  rewrite <- (nrm2_comb (L * L) (Nn s) (fun p i => nthC (evec s p) i)).
  - apply rsum_ext. intros i Hi. rewrite expand_nth by exact Hi. reflexivity.
  - intros p q Hp Hq. apply (basis_ortho L s HB); unfold Nn in *; lia.
Qed.

Lemma sum_wavelet_power N (psi : list C) (rows : list (list C)) k width :
  N <= length psi -> length rows = N -> k < width -> (forall r, In r rows -> length r = width) ->
  rlsum (map (fun r => nth k r 0%R)
    (map (fun p => map (fun z => (Cmod (fst p) ^ 2 * Cmod z ^ 2)%R) (snd p)) (combine (firstn N psi) rows)))
  = rsum N (fun p => (Cmod (nthC psi p) ^ 2 * Cmod (nthC (nth p rows []) k) ^ 2)%R).
Proof.
  intros Hp Hr Hk Hw. rewrite map_map.
  set (h := fun p : C * list C => nth k (map (fun z => (Cmod (fst p) ^ 2 * Cmod z ^ 2)%R) (snd p)) 0%R).
  rewrite rlsum_nth, map_length, combine_length, firstn_length.
  replace (Nat.min (Nat.min N (length psi)) (length rows)) with N by lia. apply rsum_ext. intros p Hlt.
  rewrite (nth_indep _ 0%R (h (RtoC 0, []))) by (rewrite map_length, combine_length, firstn_length; lia).
  rewrite (map_nth h), combine_nth by (rewrite firstn_length; lia). unfold h. cbn [fst snd].
  rewrite nth_firstn_lt by exact Hlt.
  assert (Hl : length (nth p rows []) = width) by (apply Hw, nth_In; lia).
  set (g := fun z => (Cmod (nthC psi p) ^ 2 * Cmod z ^ 2)%R).
  rewrite (nth_indep _ 0%R (g (RtoC 0))) by (rewrite map_length; lia). rewrite (map_nth g). reflexivity.
Qed.

(** In Slepian space the deviation depends on the point: it is that of the
    field of the [j]th wavelet coefficients of the Slepian noise. *)
Theorem C55_slepian : forall (E : ensemble) inverse forward L Y s coefficients snr_in cols wavelets sigma_j
    (n_p : (nat -> R) -> list C) (W : (nat -> R) -> list (list C)) (f : (nat -> R) -> list C) j k,
  synthesis L Y inverse -> sampling_theorem L inverse forward -> slepian_basis L s -> 1 <= L ->
  length coefficients = Nn s -> matrix cols wavelets -> Nn s <= cols -> j < length wavelets -> k < samples L ->
  decorrelated E (L * L) ->
  compute_slepian_sigma_j inverse L coefficients wavelets snr_in s = Ok sigma_j ->
  (forall X, create_slepian_noise inverse forward (fun _ => X) L coefficients s snr_in = Ok (n_p X)) ->
  (forall X, sifting_convolution (A2 cols wavelets) (A1 (n_p X)) (Some (s_N s)) = Ok (A2 (Nn s) (W X))) ->
  (forall X, slepian_inverse inverse (nth j (W X) []) L s = Ok (f X)) ->
  mean E (fun X => (Cmod (nthC (f X) k) ^ 2)%R) = (nth k (nth j sigma_j []) 0 ^ 2)%R.
Proof.
  intros E inverse forward L Y s co snr cols ws sj n_p W f j k HY HF HB HL Hco Hm Hc Hj Hk HE Hs Hn HW Hf.
  pose proof HB as (HN & HnN & _).
  set (N := Nn s) in *. change (Z.to_nat (s_N s)) with N in HnN. set (psi := nth j ws []). assert (Hpsi : length psi = cols) by (apply Hm, nth_In, Hj).
  set (Sp := fun p => nthC (inverse L (evec s p)) k).
  set (sg := compute_sigma_noise (expand L s co) snr None).
  assert (EN : Z.of_nat N = s_N s) by (unfold N, Nn; lia).
  (* the noise in harmonic space *)
  assert (Hnl : forall X, exists nlm, create_noise (fun _ => X) L (expand L s co) snr = Ok nlm /\
     length (n_p X) = N /\ forall p, p < N -> nthC (n_p X) p = csum (L * L) (fun i => Cmult (nthC nlm i) (Cconj (nthC (evec s p) i)))).
  { intros X. destruct (C52_noise inverse forward (fun _ => X) L Y s co snr HY HF HB) as (flm & nlm & n' & Hfl & Ei & En & Es & Hl & _ & Hp);
      [fold (Nn s); lia|].
    exists nlm. rewrite Hn in Es. injection Es as <-. split; [|split; [exact Hl|exact Hp]].
    rewrite (slepian_inverse_ok inverse L Y s co HY HB) in Ei by (fold N; lia). injection Ei as Ei.
    assert (flm = expand L s co) as <-; [|exact En].
    rewrite <- (HF (expand L s co)) by apply expand_length. rewrite Ei. symmetry. apply HF, Hfl. }
  set (nlm := fun X => the [] (create_noise (fun _ => X) L (expand L s co) snr)).
  assert (HX : forall X, create_noise (fun _ => X) L (expand L s co) snr = Ok (nlm X)).
  { intros X. unfold nlm. destruct (Hnl X) as (n' & -> & _). reflexivity. }
  (* the field as a linear form in the noise *)
  set (a := fun i => Cconj (csum N (fun p => Cmult (Cmult (nthC psi p) (Sp p)) (nthC (evec s p) i)))).
  transitivity (mean E (fun X => (Cmod (csum (L * L) (fun i => Cmult (a i) (nthC (nlm X) i))) ^ 2)%R)).
  { apply mean_ext. intros X. destruct (Hnl X) as (n' & En & Hl & Hp). rewrite HX in En. injection En as <-.
    assert (HWj : length (nth j (W X) []) = N /\ forall p, p < N ->
              nthC (nth j (W X) []) p = Cmult (nthC psi p) (Cconj (nthC (n_p X) p))).
    { pose proof (HW X) as HWX. rewrite <- EN in HWX. rewrite (sifting_row N cols ws (n_p X) Hm Hc) in HWX by lia.
      injection HWX as <-. set (h := fun row => cmul (firstn N row) (firstn N (n_p X))).
      rewrite (nth_indep _ [] (h [])) by (rewrite map_length; exact Hj). rewrite (map_nth h). fold psi. unfold h. split.
      - unfold cmul. rewrite zip_length; rewrite !firstn_length; lia.
      - intros p Hp'. apply nth_cmul; lia. }
    destruct HWj as [HWl HWp].
    pose proof (Hf X) as HfX. rewrite (slepian_inverse_ok inverse L Y s _ HY HB) in HfX by (fold N; lia).
    injection HfX as <-. rewrite (HY _ (expand_length L s _)), nth_map_seq by exact Hk.
    rewrite <- Cmod_conj. do 2 f_equal.
    assert (HS : forall p, p < N -> Sp p = csum (L * L) (fun i => Cmult (nthC (evec s p) i) (Y i k))).
    { intros p Hp'. unfold Sp. rewrite HY by (apply evec_length; [exact HB|lia]). rewrite nth_map_seq by exact Hk. reflexivity. }
    transitivity (Cconj (csum N (fun p => Cmult (nthC (nth j (W X) []) p) (Sp p)))).
    - f_equal. rewrite (csum_ext (L * L) _ (fun i => csum N (fun p => Cmult (Cmult (nthC (nth j (W X) []) p) (nthC (evec s p) i)) (Y i k)))).
      + rewrite csum_swap. apply csum_ext. intros p Hp'. rewrite HS by exact Hp'. rewrite <- csum_scal_l. apply csum_ext. intros; ring.
      + intros i Hi. rewrite expand_nth by exact Hi. fold N. rewrite <- csum_scal_r. reflexivity.
    - rewrite csum_conj. unfold a.
      rewrite (csum_ext (L * L) _ (fun i => csum N (fun p => Cmult (Cconj (Cmult (nthC psi p) (Sp p)))
                 (Cmult (nthC (nlm X) i) (Cconj (nthC (evec s p) i)))))).
      + rewrite csum_swap. apply csum_ext. intros p Hp'. rewrite csum_scal_l, <- Hp by exact Hp'.
        rewrite HWp by exact Hp'. rewrite !Cconj_mult, Cconj_conj. ring.
      + intros i _. rewrite csum_conj, <- csum_scal_r. apply csum_ext. intros p _. rewrite !Cconj_mult. ring. }
  rewrite (C55_white E L (expand L s co) snr nlm a HX HE).
  (* the computed deviation *)
  unfold compute_slepian_sigma_j in Hs. rewrite (s_p_omega_ok inverse L s HB) in Hs. cbn [rbind] in Hs.
  fold N in Hs. rewrite <- EN in Hs.
  set (sg' := compute_sigma_noise co snr (Some (L * L))) in *.
  set (rows := map (fun p => inverse L (evec s p)) (seq 0 N)) in *.
  set (h := fun psi : list C => map (fun w => (sg' * sqrt w)%R) (map (fun k0 => rlsum (map (fun r => nth k0 r 0%R)
      (map (fun p => map (fun z => (Cmod (fst p) ^ 2 * Cmod z ^ 2)%R) (snd p)) (combine (firstn N psi) rows)))) (seq 0 (samples L)))).
  assert (Hrow : length rows = N) by (unfold rows; rewrite map_length, seq_length; reflexivity).
  assert (Es : sj = map h ws).
  { rewrite (rmap_ok _ h) in Hs; [injection Hs as <-; reflexivity|].
    intros x Hx. rewrite py_prefix_nat by lia. rewrite Nat2Z.id.
    rewrite broadcast_same by (rewrite firstn_length, (Hm x Hx); lia). reflexivity. }
  rewrite Es. rewrite (nth_indep _ [] (h [])) by (rewrite map_length; exact Hj). rewrite (map_nth h). fold psi. unfold h.
  rewrite map_map, nth_map_seq by exact Hk.
  rewrite (sum_wavelet_power N psi rows k (samples L)); [|lia|exact Hrow|exact Hk|].
  - rewrite Rpow_mult_distr. f_equal.
    + unfold sg'. unfold compute_sigma_noise. rewrite !sum_abs2_power, (expand_power L s co HB Hco), expand_length. reflexivity.
    + rewrite <- Rsqr_pow2, Rsqr_sqrt.
      * transitivity (nrm2 (L * L) (fun i => csum N (fun p => Cmult (Cmult (nthC psi p) (Sp p)) (nthC (evec s p) i)))).
        -- unfold nrm2. apply rsum_ext. intros i _. unfold a. rewrite Cmod_conj, Cmod_sq. reflexivity.
        -- rewrite (nrm2_comb (L * L) N (fun p i => nthC (evec s p) i)).
           ++ apply rsum_ext. intros p Hp. rewrite <- Cmod_sq, Cmod_mult, Rpow_mult_distr. unfold rows.
              rewrite nth_map_seq by exact Hp. reflexivity.
           ++ intros p q Hp Hq. apply (basis_ortho L s HB); lia.
      * apply rsum_nonneg. intros p _. apply Rmult_le_pos; apply pow2_ge_0.
  - intros r Hr. unfold rows in Hr. apply in_map_iff in Hr. destruct Hr as (p & <- & Hp). apply in_seq in Hp.
    rewrite HY by (apply evec_length; [exact HB|lia]). rewrite map_length, seq_length. reflexivity.
Qed.
Print Assumptions C55_slepian.

(** ** Cases *)

(** The harmonics at the north pole. *)
Definition pole_Y (el : nat) (m : Z) : C := if (m =? 0)%Z then RtoC (sqrt ((2 * INR el + 1) / (4 * PI))) else RtoC 0.
Lemma pole_addition L : addition_theorem L pole_Y.
Proof.
  intros el _. pose proof PI_RGT_0. pose proof (pos_INR el). rewrite (rsum_single (2 * el + 1) el); [|lia|].
  - unfold pole_Y. replace (Z.of_nat el - Z.of_nat el)%Z with 0%Z by lia. cbn [Z.eqb].
    rewrite Cmod_R, pow2_abs, <- Rsqr_pow2, Rsqr_sqrt; [reflexivity|].
    apply Rmult_le_pos; [lra|]. apply Rlt_le, Rinv_0_lt_compat. lra.
  - intros k Hk Hne. unfold pole_Y. destruct (Z.eqb_spec (Z.of_nat k - Z.of_nat el) 0); [lia|]. rewrite Cmod_0. ring.
Qed.

Example C55_case_axisymmetric : forall signal snr_in, exists nlm W,
  (forall X, create_noise (fun _ => X) 2 signal snr_in = Ok (nlm X)) /\
  (forall X, axisymmetric_wavelet_forward 2 (nlm X) [[RtoC 1; RtoC 0; RtoC 2; RtoC 0]] = Ok (W X)) /\
  mean (spikes 4) (fun X => (Cmod (field_at 2 pole_Y (nth 0 (W X) [])) ^ 2)%R)
  = (compute_sigma_noise signal snr_in None ^ 2 * 5)%R.
Proof.
  intros signal snr.
  assert (Hm : matrix (2 * 2) [[RtoC 1; RtoC 0; RtoC 2; RtoC 0]]) by (intros r [<-|[]]; reflexivity).
  exists (fun X => the [] (create_noise (fun _ => X) 2 signal snr)).
  exists (fun X => the [] (axisymmetric_wavelet_forward 2 (the [] (create_noise (fun _ => X) 2 signal snr)) [[RtoC 1; RtoC 0; RtoC 2; RtoC 0]])).
  assert (H1 : forall X, create_noise (fun _ => X) 2 signal snr = Ok (the [] (create_noise (fun _ => X) 2 signal snr)) /\
     length (the [] (create_noise (fun _ => X) 2 signal snr)) = 2 * 2).
  { intros X. destruct (create_noise_spec (fun _ => X) 2 signal snr) as (n & -> & Hl & _). split; [reflexivity|exact Hl]. }
  assert (H2 : forall X, axisymmetric_wavelet_forward 2 (the [] (create_noise (fun _ => X) 2 signal snr)) [[RtoC 1; RtoC 0; RtoC 2; RtoC 0]]
     = Ok (the [] (axisymmetric_wavelet_forward 2 (the [] (create_noise (fun _ => X) 2 signal snr)) [[RtoC 1; RtoC 0; RtoC 2; RtoC 0]]))).
  { intros X. destruct (C27_forward 2 _ _ (proj2 (H1 X)) Hm) as (W & -> & _). reflexivity. }
  split; [intros X; apply H1|]. split; [exact H2|].
  etransitivity.
  - eapply (C55_axisymmetric (spikes 4) 2 signal snr); [intros X; apply H1|apply spikes_decorrelated; lia|exact Hm| |exact H2|apply pole_addition|cbn; lia].
    intros psi [<-|[]] el m [V1 V2] Hz. unfold coeff.
    assert (D : el = 0 /\ m = 0%Z \/ el = 1 /\ (m = -1 \/ m = 0 \/ m = 1)%Z) by lia.
    destruct D as [[-> ->]|[-> [->|[->| ->]]]]; try contradiction; reflexivity.
  - rewrite nth_sigma_j by (cbn; lia). rewrite Rpow_mult_distr. f_equal.
    rewrite <- Rsqr_pow2, Rsqr_sqrt by apply power_nonneg. unfold power. cbn. ring.
Qed.

Example C55_case_slepian : forall snr_in, exists sigma_j n_p W f,
  compute_slepian_sigma_j toy_inverse 2 [RtoC 1; RtoC 3] [[RtoC 1; RtoC 2]] snr_in toy = Ok sigma_j /\
  (forall X, create_slepian_noise toy_inverse toy_forward (fun _ => X) 2 [RtoC 1; RtoC 3] toy snr_in = Ok (n_p X)) /\
  (forall X, sifting_convolution (A2 2 [[RtoC 1; RtoC 2]]) (A1 (n_p X)) (Some 2%Z) = Ok (A2 2 (W X))) /\
  (forall X, slepian_inverse toy_inverse (nth 0 (W X) []) 2 toy = Ok (f X)) /\
  mean (spikes 4) (fun X => (Cmod (nthC (f X) 1) ^ 2)%R) = (nth 1 (nth 0 sigma_j []) 0 ^ 2)%R.
Proof.
  intros snr.
  assert (Hm : matrix 2 [[RtoC 1; RtoC 2]]) by (intros r [<-|[]]; reflexivity).
  set (np := fun X => the [] (create_slepian_noise toy_inverse toy_forward (fun _ => X) 2 [RtoC 1; RtoC 3] toy snr)).
  assert (H1 : forall X, create_slepian_noise toy_inverse toy_forward (fun _ => X) 2 [RtoC 1; RtoC 3] toy snr = Ok (np X) /\ length (np X) = 2).
  { intros X. destruct (C52_noise toy_inverse toy_forward (fun _ => X) 2 toy_Y toy [RtoC 1; RtoC 3] snr (toy_synthesis 2) (toy_sampling 2) toy_basis)
      as (_ & _ & n & _ & _ & _ & En & Hl & _); [cbn; lia|]. unfold np. rewrite En. split; [reflexivity|exact Hl]. }
  set (W := fun X => map (fun row => cmul (firstn 2 row) (firstn 2 (np X))) [[RtoC 1; RtoC 2]]).
  assert (H2 : forall X, sifting_convolution (A2 2 [[RtoC 1; RtoC 2]]) (A1 (np X)) (Some 2%Z) = Ok (A2 2 (W X))).
  { intros X. change 2%Z with (Z.of_nat 2). apply sifting_row; [exact Hm|lia|rewrite (proj2 (H1 X)); lia]. }
  set (f := fun X => toy_inverse 2 (expand 2 toy (nth 0 (W X) []))).
  assert (H3 : forall X, slepian_inverse toy_inverse (nth 0 (W X) []) 2 toy = Ok (f X)).
  { intros X. apply (slepian_inverse_ok toy_inverse 2 toy_Y); [apply toy_synthesis|exact toy_basis|].
    cbn [nth W map]. unfold cmul. rewrite zip_length; rewrite !firstn_length, (proj2 (H1 X)); cbn; lia. }
  assert (H0 : exists sj, compute_slepian_sigma_j toy_inverse 2 [RtoC 1; RtoC 3] [[RtoC 1; RtoC 2]] snr toy = Ok sj).
  { unfold compute_slepian_sigma_j. rewrite (s_p_omega_ok toy_inverse 2 toy toy_basis). eexists. reflexivity. }
  destruct H0 as [sj H0]. exists sj, np, W, f. split; [exact H0|]. split; [intros X; apply H1|]. split; [exact H2|]. split; [exact H3|].
  apply (C55_slepian (spikes 4) toy_inverse toy_forward 2 toy_Y toy [RtoC 1; RtoC 3] snr 2 [[RtoC 1; RtoC 2]] sj np W f 0 1);
    try first [apply toy_synthesis|apply toy_sampling|exact toy_basis|exact Hm|exact H0|exact H2|exact H3|intros X; apply H1|reflexivity|cbn; lia].
  apply spikes_decorrelated. lia.
Qed.
