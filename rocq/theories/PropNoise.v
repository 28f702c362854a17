(** * Noise and simulated fields: properties C20, C21, C42 and C46. *)
From Coq Require Import List ZArith Arith Bool Reals Lra Lia.
From Coquelicot Require Import Complex.
From Verif Require Import Base ListLemmas RSum CSum PyNum Index IndexProofs Numpy Noise SpecField NoiseProofs EarthProofs.
Import ListNotations.
Local Open Scope nat_scope.

(** ** C20: reality and determinism *)

(** The noise generator never fails; it returns [L^2] coefficients with the
    reality property. *)
Theorem C20_noise_reality : forall normal L signal snr_in, exists nlm,
  create_noise normal L signal snr_in = Ok nlm /\ length nlm = L * L /\ reality L nlm.
Proof.
  intros. destruct (create_noise_spec normal L signal snr_in) as (nlm & E & Hl & _).
  exists nlm. split; [exact E|]. split; [exact Hl|]. eapply create_noise_reality, E.
Qed.
Print Assumptions C20_noise_reality.

(** Every coefficient is assigned, from its own draws: degree [el] uses draws
    [el^2 .. el^2 + 2 el], each once. *)
Theorem C20_noise_draws : forall normal L signal snr_in nlm,
  create_noise normal L signal snr_in = Ok nlm ->
  let X := normal 30%Z in
  let sigma := compute_sigma_noise signal snr_in None in
  forall el, el < L ->
    coeff nlm el 0 = RtoC (sigma * X (el * el)%nat) /\
    forall m, 1 <= m <= el ->
      coeff nlm el (Z.of_nat m)
      = (sigma / sqrt 2 * X (el * el + 2 * m - 1)%nat, sigma / sqrt 2 * X (el * el + 2 * m)%nat)%R.
Proof.
  intros normal L signal snr_in nlm E X sigma el Hel.
  destruct (create_noise_spec normal L signal snr_in) as (n' & E' & Hl & Hc).
  rewrite E in E'. injection E' as <-. split.
  - rewrite Hc by (split; lia). reflexivity.
  - intros m Hm. rewrite Hc by (split; lia). unfold field_entry.
    destruct (Z.eqb_spec (Z.of_nat m) 0); [lia|].
    destruct (Z.ltb_spec 0 (Z.of_nat m)); [|lia].
    replace (Z.abs_nat (Z.of_nat m)) with m by lia. cbv zeta.
    fold sigma. fold (X (el * el + 2 * m - 1)). fold (X (el * el + 2 * m)).
    change RANDOM_SEED with 30%Z. fold X. apply C_ext; cbn [Cmult RtoC fst snd Re Im]; ring.
Qed.
Print Assumptions C20_noise_draws.

(** The field that the noise describes is real at every point of the sphere. *)
Theorem C20_noise_field_real : forall normal L signal snr_in nlm Y,
  create_noise normal L signal snr_in = Ok nlm -> harmonic_symmetry Y ->
  Im (field_at L Y nlm) = 0%R.
Proof. intros. eapply real_field; eauto using create_noise_reality. Qed.
Print Assumptions C20_noise_field_real.

(** The simulated CMB: it needs a power spectrum with [L - 2] entries; degrees
    0 and 1 are zero. *)
Theorem C20_wmap_reality : forall normal cl L, L <= length cl + 2 -> exists flm,
  create_wmap_flm normal cl L = Ok flm /\ length flm = L * L /\ reality L flm /\
  (forall el m, el < 2 -> valid L el m -> coeff flm el m = RtoC 0) /\
  (forall Y, harmonic_symmetry Y -> Im (field_at L Y flm) = 0%R).
Proof.
  intros normal cl L H. destruct (create_wmap_spec normal cl L H) as (flm & E & Hl & Hc).
  exists flm. split; [exact E|]. split; [exact Hl|].
  pose proof (create_wmap_reality normal cl L flm E) as Hr.
  split; [exact Hr|]. split; [|intros Y HY; apply real_field; assumption].
  intros el m He V. rewrite Hc by exact V. destruct (Nat.ltb_spec el 2); [reflexivity|lia].
Qed.
Print Assumptions C20_wmap_reality.

(** Draws of the CMB simulation. *)
Theorem C20_wmap_draws : forall normal cl L flm,
  create_wmap_flm normal cl L = Ok flm ->
  let X := normal 30%Z in
  forall el c, 2 <= el < L -> nth_error cl (el - 2) = Some c ->
    let sigma := sqrt (2 * PI / (INR el * (INR el + 1)) * c) in
    coeff flm el 0 = RtoC (sigma * X (el * el - 4)%nat) /\
    forall m, 1 <= m <= el ->
      coeff flm el (Z.of_nat m)
      = (sigma / sqrt 2 * X (el * el - 4 + 2 * m - 1)%nat,
         sigma / sqrt 2 * X (el * el - 4 + 2 * m)%nat)%R.
Proof.
  intros normal cl L flm E X el c Hel Hcl sigma.
  destruct (le_lt_dec L (length cl + 2)) as [H|H].
  2:{ rewrite create_wmap_short in E by exact H. discriminate. }
  destruct (create_wmap_spec normal cl L H) as (n' & E' & Hl & Hc).
  rewrite E in E'. injection E' as <-.
  assert (S : wmap_sigma cl el = sigma).
  { unfold wmap_sigma, sigma. rewrite (nth_error_nth _ _ _ Hcl). reflexivity. }
  split.
  - rewrite Hc by (split; lia). destruct (Nat.ltb_spec el 2); [lia|]. rewrite S. reflexivity.
  - intros m Hm. rewrite Hc by (split; lia). destruct (Nat.ltb_spec el 2); [lia|].
    rewrite S. unfold field_entry.
    destruct (Z.eqb_spec (Z.of_nat m) 0); [lia|].
    destruct (Z.ltb_spec 0 (Z.of_nat m)); [|lia].
    replace (Z.abs_nat (Z.of_nat m)) with m by lia. cbv zeta.
    change RANDOM_SEED with 30%Z. fold X. apply C_ext; cbn [Cmult RtoC fst snd Re Im]; ring.
Qed.
Print Assumptions C20_wmap_draws.

(** A power spectrum that is too short raises. *)
Theorem C20_wmap_short_spectrum : forall normal cl L, length cl + 2 < L ->
  create_wmap_flm normal cl L = Err IndexError.
Proof. exact create_wmap_short. Qed.
Print Assumptions C20_wmap_short_spectrum.

(** Repeated calls agree whatever other generators do: only the draws of the
    generator with the fixed seed matter. *)
Theorem C20_deterministic : forall normal normal' L signal snr_in cl u,
  (forall i, normal 30%Z i = normal' 30%Z i) ->
  create_noise normal L signal snr_in = create_noise normal' L signal snr_in /\
  create_wmap_flm normal cl L = create_wmap_flm normal' cl L /\
  create_mesh_noise normal u snr_in = create_mesh_noise normal' u snr_in.
Proof.
  intros normal normal' L signal snr_in cl u H.
  assert (F : forall s b m, field_entry s (normal RANDOM_SEED) b m = field_entry s (normal' RANDOM_SEED) b m).
  { intros. unfold field_entry. change RANDOM_SEED with 30%Z. rewrite !H. reflexivity. }
  split; [|split].
  - destruct (create_noise_spec normal L signal snr_in) as (a & Ea & La & Ca).
    destruct (create_noise_spec normal' L signal snr_in) as (b & Eb & Lb & Cb).
    rewrite Ea, Eb. f_equal. apply (coeff_ext L); auto.
    intros el m V. rewrite Ca, Cb by exact V. apply F.
  - destruct (le_lt_dec L (length cl + 2)) as [Hc|Hc].
    + destruct (create_wmap_spec normal cl L Hc) as (a & Ea & La & Ca).
      destruct (create_wmap_spec normal' cl L Hc) as (b & Eb & Lb & Cb).
      rewrite Ea, Eb. f_equal. apply (coeff_ext L); auto.
      intros el m V. rewrite Ca, Cb by exact V. rewrite F. reflexivity.
    + rewrite !create_wmap_short by exact Hc. reflexivity.
  - rewrite !mesh_noise_spec. f_equal. apply map_ext. intros i.
    change RANDOM_SEED with 30%Z. rewrite H. reflexivity.
Qed.
Print Assumptions C20_deterministic.

(** A concrete case: [L = 2], all draws 1. *)
Example C20_example : exists nlm,
  create_noise (fun _ _ => 1%R) 2 [RtoC 2; RtoC 0; RtoC 0; RtoC 0] 0 = Ok nlm /\
  nlm = [RtoC 1; (- (1 / sqrt 2), 1 / sqrt 2)%R; RtoC 1; (1 / sqrt 2, 1 / sqrt 2)%R].
Proof.
  destruct (create_noise_spec (fun _ _ => 1%R) 2 [RtoC 2; RtoC 0; RtoC 0; RtoC 0] 0)
    as (nlm & E & Hl & Hc).
  exists nlm. split; [exact E|].
  assert (S : compute_sigma_noise [RtoC 2; RtoC 0; RtoC 0; RtoC 0] 0 None = 1%R).
  { unfold compute_sigma_noise, signal_power, sum_abs2. cbn [length map rlsum].
    replace (- 0 / 10)%R with 0%R by lra. rewrite Rpower_O by lra.
    rewrite !Cmod_R, Rabs_R0. rewrite Rabs_right by lra.
    replace (1 * (2 ^ 2 + (0 ^ 2 + (0 ^ 2 + (0 ^ 2 + 0)))) / INR 4)%R with 1%R by (cbn; field).
    apply sqrt_1. }
  pose proof (C20_noise_draws _ _ _ _ _ E) as D. cbv zeta in D. rewrite S in D.
  pose proof (create_noise_reality _ _ _ _ _ E) as Hr.
  destruct nlm as [|a [|b [|c [|d [|]]]]]; try discriminate Hl.
  destruct (D 0 ltac:(lia)) as [H0 _]. destruct (D 1 ltac:(lia)) as [H1 H2].
  specialize (H2 1 ltac:(lia)). pose proof (Hr 1 1%Z ltac:(split; lia)) as H3.
  change (coeff [a; b; c; d] 0 0) with a in H0. change (coeff [a; b; c; d] 1 0) with c in H1.
  change (coeff [a; b; c; d] 1 (Z.of_nat 1)) with d in H2.
  change (coeff [a; b; c; d] 1 (- (1))) with b in H3.
  change (coeff [a; b; c; d] 1 1) with d in H3. change (Z.abs_nat 1) with 1 in H3.
  rewrite H3, H2, H1, H0.
  replace (1 * 1)%R with 1%R by ring. replace (1 / sqrt 2 * 1)%R with (1 / sqrt 2)%R by ring.
  repeat f_equal. apply C_ext; cbn; ring.
Qed.

(** ** C21: noise level *)

(** Noise whose power per coefficient is the computed variance has exactly the
    requested signal-to-noise ratio (both arrays of the same length). *)
Theorem C21_snr_exact : forall signal noise snr_in,
  (0 < power signal)%R -> 0 < length signal ->
  power noise = (INR (length signal) * compute_sigma_noise signal snr_in None ^ 2)%R ->
  compute_snr signal noise = snr_in.
Proof.
  intros signal noise snr_in Hp Hn E. pose proof (lt_0_INR _ Hn).
  rewrite (snr_of_power signal noise snr_in (INR (length signal))); auto.
  - replace (INR (length signal) / INR (length signal))%R with 1%R by (field; lra).
    unfold log10. rewrite ln_1. unfold Rdiv. ring.
  - rewrite E. ring.
Qed.
Print Assumptions C21_snr_exact.

(** The power of the generated noise is the variance times the sum of the
    squares of the first [L^2] draws... *)
Theorem C21_noise_power : forall normal L signal snr_in nlm,
  create_noise normal L signal snr_in = Ok nlm ->
  power nlm = (compute_sigma_noise signal snr_in None ^ 2
               * rsum (L * L) (fun i => normal 30%Z i ^ 2))%R.
Proof. exact noise_power. Qed.
Print Assumptions C21_noise_power.

(** ... so the ratio achieved is the requested one plus ten times the decimal
    logarithm of (number of coefficients / that sum). *)
Theorem C21_achieved_snr : forall normal L signal snr_in nlm,
  create_noise normal L signal snr_in = Ok nlm ->
  (0 < power signal)%R -> length signal = L * L -> 0 < L ->
  (0 < rsum (L * L) (fun i => normal 30%Z i ^ 2))%R ->
  compute_snr signal nlm
  = (snr_in + 10 * log10 (INR (L * L) / rsum (L * L) (fun i => normal 30%Z i ^ 2)))%R.
Proof.
  intros normal L signal snr_in nlm E Hp Hl HL Hq. rewrite <- Hl at 1.
  apply noise_snr; auto. rewrite Hl. nia.
Qed.
Print Assumptions C21_achieved_snr.

(** Expected power: over any ensemble of streams in which every draw has unit
    second moment, the mean noise power is (number of coefficients) x variance. *)
Theorem C21_expected_power : forall (E : ensemble) L signal snr_in (nlm : (nat -> R) -> list C),
  (forall X, create_noise (fun _ => X) L signal snr_in = Ok (nlm X)) ->
  (forall i, i < L * L -> mean E (fun X => X i ^ 2)%R = 1%R) ->
  mean E (fun X => power (nlm X))
  = (INR (L * L) * compute_sigma_noise signal snr_in None ^ 2)%R.
Proof.
  intros E L signal snr_in nlm H Hm.
  transitivity (mean E (fun X => (compute_sigma_noise signal snr_in None ^ 2
                                 * rsum (L * L) (fun i => X i ^ 2))%R)).
  - unfold mean. apply rlsum_map_ext. intros e _. rewrite (noise_power (fun _ => snd e) L signal snr_in _ (H (snd e))).
    reflexivity.
  - rewrite mean_scal, mean_rsum. rewrite (rsum_ext _ _ (fun _ => 1%R)) by (intros; apply Hm; assumption).
    rewrite rsum_const. ring.
Qed.
Print Assumptions C21_expected_power.

(** Scaling the signal by [c] scales the deviation and the noise by [|c|]. *)
Theorem C21_scaling : forall normal L c signal snr_in nlm,
  create_noise normal L signal snr_in = Ok nlm ->
  compute_sigma_noise (map (Cmult c) signal) snr_in None
    = (Cmod c * compute_sigma_noise signal snr_in None)%R /\
  create_noise normal L (map (Cmult c) signal) snr_in = Ok (map (Cmult (RtoC (Cmod c))) nlm).
Proof. intros. split; [apply sigma_scal|]. apply noise_scal. assumption. Qed.
Print Assumptions C21_scaling.

(** The deviation against the power ratio: squared it is
    [10^(-snr/10) * power / count]; a smaller count gives more noise. *)
Theorem C21_sigma : forall signal snr_in d, 0 < d ->
  (0 <= compute_sigma_noise signal snr_in (Some d))%R /\
  (compute_sigma_noise signal snr_in (Some d) ^ 2 = Rpower 10 (- snr_in / 10) * power signal / INR d)%R.
Proof.
  intros. split; [apply sqrt_pos|]. apply sigma_sq; [assumption|apply power_nonneg].
Qed.
Print Assumptions C21_sigma.

(** A larger requested ratio never gives more noise. *)
Theorem C21_monotone : forall signal s s' d, 0 < d -> (s <= s')%R ->
  (compute_sigma_noise signal s' (Some d) <= compute_sigma_noise signal s (Some d))%R.
Proof.
  intros signal s s' d Hd Hs. unfold compute_sigma_noise. cbv zeta. apply sqrt_le_1_alt.
  unfold Rdiv at 1 3. apply Rmult_le_compat_r; [left; apply Rinv_0_lt_compat, lt_0_INR, Hd|].
  apply Rmult_le_compat_r.
  - unfold signal_power. rewrite sum_abs2_power. apply power_nonneg.
  - apply Rle_Rpower; lra.
Qed.
Print Assumptions C21_monotone.

(** Adding noise to a function: the unnoised coefficients are kept and the new
    ones are the sum; a real field stays real. *)
Theorem C21_add_noise : forall normal L coefficients snr_in,
  length coefficients = L * L ->
  exists nlm noisy, create_noise normal L coefficients snr_in = Ok nlm /\
    flm_add_noise normal L coefficients (Some snr_in)
    = Ok (noisy, Some coefficients, Some (compute_snr coefficients nlm)) /\
    length noisy = L * L /\
    (forall i, i < L * L -> nth i noisy (RtoC 0)
       = Cplus (nth i coefficients (RtoC 0)) (nth i nlm (RtoC 0))) /\
    (reality L coefficients -> reality L noisy).
Proof.
  intros normal L coefficients snr_in Hl.
  destruct (add_noise_spec normal L coefficients snr_in Hl) as (nlm & noisy & E & Ea & Ln & Hn).
  exists nlm, noisy. split; [exact E|]. split; [exact Ea|]. split; [exact Ln|]. split; [exact Hn|].
  intros Hr. destruct (create_noise_spec normal L coefficients snr_in) as (n' & E' & L' & _).
  rewrite E in E'. injection E' as <-.
  eapply (add_noise_reality L coefficients nlm noisy); eauto using create_noise_reality.
Qed.
Print Assumptions C21_add_noise.

(** Without noise nothing changes. *)
Theorem C21_no_noise : forall normal L coefficients,
  flm_add_noise normal L coefficients None = Ok (coefficients, None, None).
Proof. reflexivity. Qed.
Print Assumptions C21_no_noise.

(** Noise on mesh coefficients. *)
Theorem C21_mesh_noise : forall normal u snr_in, exists n_i,
  create_mesh_noise normal u snr_in = Ok n_i /\ length n_i = length u /\
  forall i, i < length u ->
    nth i n_i 0%R = (compute_sigma_noise u snr_in None * normal 30%Z i)%R.
Proof.
  intros. eexists. split; [apply mesh_noise_spec|].
  split; [rewrite map_length, seq_length; reflexivity|].
  intros i Hi. apply nth_error_nth. rewrite nth_error_map_seq by exact Hi. reflexivity.
Qed.
Print Assumptions C21_mesh_noise.

(** A concrete case: a signal of power 4 in 4 coefficients at 0 dB; the draws 1
    give noise of power 4. *)
Example C21_example : exists nlm,
  create_noise (fun _ _ => 1%R) 2 [RtoC 2; RtoC 0; RtoC 0; RtoC 0] 0 = Ok nlm /\
  power [RtoC 2; RtoC 0; RtoC 0; RtoC 0] = 4%R /\
  compute_snr [RtoC 2; RtoC 0; RtoC 0; RtoC 0] nlm = 0%R.
Proof.
  destruct (C20_noise_reality (fun _ _ => 1%R) 2 [RtoC 2; RtoC 0; RtoC 0; RtoC 0] 0) as (nlm & E & _).
  exists nlm. split; [exact E|].
  assert (P : power [RtoC 2; RtoC 0; RtoC 0; RtoC 0] = 4%R) by (unfold power; cbn; ring).
  split; [exact P|].
  rewrite (C21_achieved_snr (fun _ _ => 1%R) 2 _ 0 nlm E); [|rewrite P; lra|reflexivity|lia|cbn; lra].
  cbn [rsum Nat.mul Nat.add].
  replace (INR 4 / (0 + 1 ^ 2 + 1 ^ 2 + 1 ^ 2 + 1 ^ 2))%R with 1%R by (cbn; field).
  unfold log10. rewrite ln_1. unfold Rdiv. ring.
Qed.

(** ** C42: Earth coefficients *)

(** The stored coefficients of orders [m >= 0] are conjugated; negative orders
    are filled in from the positive ones. *)
Theorem C42_earth_coefficients : forall table L, L * L <= length table -> exists flm,
  create_earth_flm table L None = Ok flm /\ length flm = L * L /\
  forall el m, el < L -> m <= el ->
    coeff flm el (Z.of_nat m) = Cconj (coeff table el (Z.of_nat m)) /\
    (1 <= m -> coeff flm el (- Z.of_nat m)
               = Cmult (RtoC ((-1) ^ m)) (coeff table el (Z.of_nat m))).
Proof.
  intros table L Hl. destruct (create_earth_spec table L Hl) as (flm & E & Lf & Hc).
  exists flm. split; [exact E|]. split; [exact Lf|]. intros el m He Hm. split.
  - rewrite Hc by (split; lia). unfold filled.
    destruct (Z.ltb_spec (Z.of_nat m) 0); [lia|reflexivity].
  - intros H1. rewrite Hc by (split; lia). unfold filled, mirror.
    destruct (Z.ltb_spec (- Z.of_nat m) 0); [|lia].
    rewrite Cconj_mult, Cconj_R, Cconj_conj, Z.opp_involutive.
    replace (Z.abs_nat (- Z.of_nat m)) with m by lia. reflexivity.
Qed.
Print Assumptions C42_earth_coefficients.

(** If the stored coefficients of order zero are real, the result describes a
    real field. *)
Theorem C42_earth_reality : forall table L flm, L * L <= length table ->
  (forall k, Im (coeff table k 0) = 0%R) ->
  create_earth_flm table L None = Ok flm ->
  reality L flm /\ (forall Y, harmonic_symmetry Y -> Im (field_at L Y flm) = 0%R).
Proof.
  intros table L flm Hl H0 E. pose proof (earth_reality table L flm Hl H0 E) as Hr.
  split; [exact Hr|]. intros Y HY. apply real_field; assumption.
Qed.
Print Assumptions C42_earth_reality.

(** The result for a smaller bandlimit is a prefix. *)
Theorem C42_earth_prefix : forall table L L' flm flm', L <= L' -> L' * L' <= length table ->
  create_earth_flm table L None = Ok flm -> create_earth_flm table L' None = Ok flm' ->
  flm = firstn (L * L) flm'.
Proof. exact earth_prefix. Qed.
Print Assumptions C42_earth_prefix.

(** A bandlimit above that of the file raises. *)
Theorem C42_earth_short_table : forall table L s, 2 <= L -> length table < L * L ->
  create_earth_flm table L s = Err IndexError.
Proof. exact earth_short. Qed.
Print Assumptions C42_earth_short_table.

(** Smoothing multiplies every coefficient by a factor in (0,1] that depends on
    the degree only (a Gaussian of width [pi / (s L)]), keeps reality, and fails
    for a zero smoothing factor. *)
Theorem C42_smoothing : forall table L s flm, L * L <= length table -> 0 < L ->
  create_earth_flm table L None = Ok flm ->
  (s = 0%Z -> create_earth_flm table L (Some s) = Err ZeroDivisionError) /\
  (s <> 0%Z -> exists smooth damp,
     create_earth_flm table L (Some s) = Ok smooth /\ length smooth = L * L /\
     (forall el, 0 < damp el <= 1)%R /\ damp 0 = 1%R /\
     (forall el, damp el = exp (- (INR el * PI / (IZR s * INR L)) ^ 2)) /\
     (forall el m, valid L el m -> coeff smooth el m = Cmult (RtoC (damp el)) (coeff flm el m)) /\
     (reality L flm -> reality L smooth)).
Proof.
  intros table L s flm Hl HL E.
  destruct (create_earth_spec table L Hl) as (f & E' & Lf & _).
  rewrite E in E'. injection E' as <-.
  assert (G : create_earth_flm table L (Some s) = apply_gaussian_smoothing flm L s).
  { unfold create_earth_flm in *. destruct (rfold _ _ table); cbn [rbind] in *; [|discriminate].
    congruence. }
  unfold apply_gaussian_smoothing in G. split.
  - intros ->. rewrite G. reflexivity.
  - intros Hs. destruct (Z.eqb_spec (s * Z.of_nat L) 0); [nia|].
    eexists _, (fun el => exp (- INR el ^ 2 * (PI / IZR (s * Z.of_nat L)) ^ 2)).
    split; [exact G|]. split; [rewrite smoothing_length; exact Lf|].
    split; [intros el; apply exp_damp|]. split.
    + replace (- INR 0 ^ 2 * (PI / IZR (s * Z.of_nat L)) ^ 2)%R with 0%R by (cbn; ring). apply exp_0.
    + split.
      { intros el. f_equal. rewrite mult_IZR, <- INR_IZR_INZ.
        pose proof (lt_0_INR _ HL). pose proof (not_0_IZR s Hs). field. split; lra. }
      split; [intros el m V; rewrite (smoothing_coeff _ _ L) by (auto; lia); reflexivity|].
      intros Hr. apply smoothing_reality; [lia|exact Hr].
Qed.
Print Assumptions C42_smoothing.

(** A concrete table. *)
Example C42_example :
  create_earth_flm [RtoC 1; RtoC 7; RtoC 2; (3, 4)%R; RtoC 9] 2 None
  = Ok [Cconj (RtoC 1); Cconj (Cmult (RtoC (-1 * 1)) (Cconj (3, 4)%R)); Cconj (RtoC 2); Cconj (3, 4)%R].
Proof. reflexivity. Qed.

(** ** C46: consistency across bandlimits *)

Theorem C46_wmap_prefix : forall normal cl L L' flm flm', L <= L' ->
  create_wmap_flm normal cl L' = Ok flm' -> create_wmap_flm normal cl L = Ok flm ->
  flm = firstn (L * L) flm'.
Proof. exact wmap_prefix. Qed.
Print Assumptions C46_wmap_prefix.

(** Up to the two standard deviations, noise for [L] is a prefix of noise for
    [L'], whatever the signals. *)
Theorem C46_noise_prefix : forall normal L L' signal signal' snr_in nlm nlm', L <= L' ->
  create_noise normal L signal snr_in = Ok nlm ->
  create_noise normal L' signal' snr_in = Ok nlm' ->
  map (Cmult (RtoC (compute_sigma_noise signal' snr_in None))) nlm
  = map (Cmult (RtoC (compute_sigma_noise signal snr_in None))) (firstn (L * L) nlm').
Proof. exact noise_prefix. Qed.
Print Assumptions C46_noise_prefix.

(** Both hypotheses are met for every [L] (C20), for instance: *)
Example C46_example : exists flm flm',
  create_wmap_flm (fun _ i => INR i) [1%R; 2%R] 3 = Ok flm /\
  create_wmap_flm (fun _ i => INR i) [1%R; 2%R] 4 = Ok flm' /\
  flm = firstn 9 flm'.
Proof.
  destruct (C20_wmap_reality (fun _ i => INR i) [1%R; 2%R] 3 ltac:(cbn; lia)) as (a & Ea & _).
  destruct (C20_wmap_reality (fun _ i => INR i) [1%R; 2%R] 4 ltac:(cbn; lia)) as (b & Eb & _).
  exists a, b. split; [exact Ea|]. split; [exact Eb|].
  apply (C46_wmap_prefix _ _ 3 4 a b ltac:(lia) Eb Ea).
Qed.
