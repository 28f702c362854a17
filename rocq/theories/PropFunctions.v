(** * Boosting and closed-form coefficients: properties C31 and C53. *)
From Coq Require Import List ZArith Arith Bool Reals Lra Lia.
From Coquelicot Require Import Complex.
From Verif Require Import Base ListLemmas RSum CSum PyNum Index IndexProofs Numpy NoiseProofs SpecField
  Quadrature ConvolutionProofs Transform SpecTransform Functions FunctionsProofs.
Import ListNotations.
Local Open Scope nat_scope.

(** ** C31 *)

(** [out] has the coefficients of [flm] below [L] and zeros up to [M]. *)
Definition boosted (L M : nat) (flm out : list C) : Prop :=
  length out = M * M /\
  forall el m, valid M el m ->
    coeff out el m = if el <? L then coeff flm el m else RtoC 0.

Lemma boosted_of L M flm : length flm = L * L -> L <= M ->
  boosted L M flm (flm ++ repeat (RtoC 0) (M * M - L * L)).
Proof.
  intros Hl HM. split; [rewrite app_length, repeat_length; nia|].
  intros el m [He Hm]. unfold coeff. fold (elm2ind el m). destruct (Nat.ltb_spec el L).
  - apply app_nth1. rewrite Hl. apply elm2ind_lt; assumption.
  - assert (L * L <= elm2ind el m) by (pose proof (elm2ind_bounds el m Hm); nia).
    rewrite app_nth2 by lia. apply nth_repeat.
Qed.

Lemma boosted_unique L M flm a b : boosted L M flm a -> boosted L M flm b -> a = b.
Proof.
  intros [La Ha] [Lb Hb]. apply (coeff_ext M); [assumption..|]. intros el m V. rewrite Ha, Hb by exact V. reflexivity.
Qed.

Theorem C31_boost : forall L M flm, length flm = L * L -> L <= M ->
  exists out, boost_coefficient_resolution flm (Z.of_nat (M * M) - Z.of_nat (L * L)) = Ok out /\
    boosted L M flm out.
Proof.
  intros L M flm Hl HM. exists (flm ++ repeat (RtoC 0) (M * M - L * L)). split; [|apply boosted_of; assumption].
  unfold boost_coefficient_resolution. assert (L * L <= M * M) by nia.
  destruct (Z.ltb_spec (Z.of_nat (M * M) - Z.of_nat (L * L)) 0); [lia|].
  do 3 f_equal. lia.
Qed.
Print Assumptions C31_boost.

(** A target resolution below the bandlimit is rejected. *)
Theorem C31_below : forall inverse L M flm, M < L ->
  invert_flm_boosted inverse flm L M = Err ValueError.
Proof.
  intros inverse L M flm H. unfold invert_flm_boosted, boost_coefficient_resolution.
  assert (M * M < L * L) by nia.
  destruct (Z.ltb_spec (Z.of_nat (M * M) - Z.of_nat (L * L)) 0); [reflexivity|lia].
Qed.
Print Assumptions C31_below.

(** Boosting twice is boosting once. *)
Theorem C31_transitive : forall L M K flm a b c, length flm = L * L -> L <= M -> M <= K ->
  boost_coefficient_resolution flm (Z.of_nat (M * M) - Z.of_nat (L * L)) = Ok a ->
  boost_coefficient_resolution a (Z.of_nat (K * K) - Z.of_nat (M * M)) = Ok b ->
  boost_coefficient_resolution flm (Z.of_nat (K * K) - Z.of_nat (L * L)) = Ok c ->
  b = c.
Proof.
  intros L M K flm a b c Hl HM HK Ea Eb Ec.
  destruct (C31_boost L M flm Hl HM) as (a' & Ea' & [La Ba]). rewrite Ea in Ea'. injection Ea' as <-.
  destruct (C31_boost M K a La HK) as (b' & Eb' & [Lb Bb]). rewrite Eb in Eb'. injection Eb' as <-.
  destruct (C31_boost L K flm Hl) as (c' & Ec' & Bc); [lia|]. rewrite Ec in Ec'. injection Ec' as <-.
  apply (boosted_unique L K flm); [|exact Bc]. split; [exact Lb|].
  intros el m [He Hm]. rewrite Bb by (split; assumption).
  destruct (Nat.ltb_spec el M); [apply Ba; split; assumption|].
  destruct (Nat.ltb_spec el L); [lia|reflexivity].
Qed.
Print Assumptions C31_transitive.

(** The boosted signal has, at the samples of the higher resolution, the values
    of the expansion of the original coefficients. *)
(** It suffices that the transform synthesises the padded coefficients (a
    transform of real signals does so for the coefficients of real signals
    only). *)
Lemma boosted_samples inverse L M Y flm : length flm = L * L -> L <= M ->
  synthesised M Y inverse (flm ++ repeat (RtoC 0) (M * M - L * L)) ->
  exists f, invert_flm_boosted inverse flm L M = Ok f /\ length f = samples M /\
    forall k, k < samples M -> nth k f (RtoC 0)
      = csum (L * L) (fun i => Cmult (nth i flm (RtoC 0)) (Y i k)).
Proof.
  intros Hl HM HY. unfold synthesised in HY.
  destruct (C31_boost L M flm Hl HM) as (out & E & Lo & Bo).
  assert (Eo : out = flm ++ repeat (RtoC 0) (M * M - L * L)).
  { apply (boosted_unique L M flm); [split; assumption|apply boosted_of; assumption]. }
  exists (inverse M out). unfold invert_flm_boosted. rewrite E. cbn [rbind]. split; [reflexivity|].
  rewrite Eo, HY. split; [rewrite map_length, seq_length; reflexivity|].
  intros k Hk. rewrite nth_map_seq by exact Hk.
  assert (S : M * M = L * L + (M * M - L * L)) by nia.
  rewrite S at 1. rewrite csum_app.
  rewrite (csum_ext (L * L) _ (fun i => Cmult (nth i flm (RtoC 0)) (Y i k))).
  - rewrite (csum_zero (M * M - L * L)); [ring|]. intros i Hi. rewrite app_nth2, nth_repeat by lia. ring.
  - intros i Hi. rewrite app_nth1 by lia. reflexivity.
Qed.

Theorem C31_samples : forall inverse L M Y flm, length flm = L * L -> L <= M ->
  synthesised M Y inverse (flm ++ repeat (RtoC 0) (M * M - L * L)) ->
  exists f, invert_flm_boosted inverse flm L M = Ok f /\ length f = samples M /\
    forall k, k < samples M -> nth k f (RtoC 0)
      = csum (L * L) (fun i => Cmult (nth i flm (RtoC 0)) (Y i k)).
Proof. intros inverse L M Y flm. apply boosted_samples. Qed.
Print Assumptions C31_samples.

Example C31_case :
  boost_coefficient_resolution [RtoC 1; RtoC 2; RtoC 3; RtoC 4] (Z.of_nat (3 * 3) - Z.of_nat (2 * 2))
  = Ok [RtoC 1; RtoC 2; RtoC 3; RtoC 4; RtoC 0; RtoC 0; RtoC 0; RtoC 0; RtoC 0].
Proof. reflexivity. Qed.

(** ** C53 *)

(** [flm] holds the values [v] of order zero and nothing else. *)
Definition axisymmetric (L : nat) (v : nat -> R) (flm : list C) : Prop :=
  length flm = L * L /\
  forall el m, valid L el m -> coeff flm el m = if (m =? 0)%Z then RtoC (v el) else RtoC 0.

Lemma m0_bool (m : Z) (el n : nat) (x : C) : el < n ->
  (if ((m =? 0)%Z && (0 <=? el) && (el <? 0 + n))%bool then x else RtoC 0)
  = if (m =? 0)%Z then x else RtoC 0.
Proof.
  intros H. destruct (Z.eqb m 0); cbn [andb]; [|reflexivity].
  destruct (Nat.leb_spec 0 el); [|lia]. destruct (Nat.ltb_spec el (0 + n)); [reflexivity|lia].
Qed.

Theorem C53_gaussian : forall L sigma, sigma <> 0%R ->
  exists flm, gaussian_coefficients L sigma = Ok flm /\
    axisymmetric L (fun el => exp (- (INR el * (INR el + 1) / (2 * sigma ^ 2)))) flm /\
    (gaussian_reality = true -> reality L flm).
Proof.
  intros L sigma Hs. assert (H2 : (2 * sigma ^ 2 <> 0)%R).
  { apply Rmult_integral_contrapositive_currified; [lra|]. apply pow_nonzero, Hs. }
  destruct (fill_m0 L 0 L (fun el => RtoC (exp (- (INR el * (INR el + 1) / (2 * sigma ^ 2)))))) as (flm & E & Hl & Hc); [lia|].
  exists flm.
  assert (A : axisymmetric L (fun el => exp (- (INR el * (INR el + 1) / (2 * sigma ^ 2)))) flm).
  { split; [exact Hl|]. intros el m V. rewrite Hc by exact V. apply m0_bool. apply V. }
  split; [|split; [exact A|]].
  - rewrite <- E. unfold gaussian_coefficients. apply rfold_ext. intros s x _.
    rewrite py_div_ok by exact H2. cbn [rbind].
    replace (- INR x * (INR x + 1) / (2 * sigma ^ 2))%R with (- (INR x * (INR x + 1) / (2 * sigma ^ 2)))%R by (field; exact Hs).
    reflexivity.
  - intros _. apply (m0_reality L flm (fun el => exp (- (INR el * (INR el + 1) / (2 * sigma ^ 2))))). apply A.
Qed.
Print Assumptions C53_gaussian.

Theorem C53_gaussian_zero : forall L, 1 <= L -> gaussian_coefficients L 0 = Err ZeroDivisionError.
Proof.
  intros [|L] H; [lia|]. unfold gaussian_coefficients. cbn [seq rfold].
  unfold py_div. replace (2 * 0 ^ 2)%R with 0%R by ring. rewrite Reqb_true. reflexivity.
Qed.
Print Assumptions C53_gaussian_zero.

Theorem C53_harmonic_gaussian : forall L l_sigma m_sigma, l_sigma <> 0%R -> m_sigma <> 0%R ->
  exists flm, harmonic_gaussian_coefficients L l_sigma m_sigma = Ok flm /\ length flm = L * L /\
    forall el m, valid L el m -> coeff flm el m
      = RtoC (exp (- (INR el ^ 2 / (2 * l_sigma ^ 2) + IZR m ^ 2 / (2 * m_sigma ^ 2)))).
Proof.
  intros L ls ms Hl Hm.
  destruct (fill_lm L (fun el m => RtoC (exp (- (INR el ^ 2 / (2 * ls ^ 2) + IZR m ^ 2 / (2 * ms ^ 2)))))) as (flm & E & H).
  exists flm. split; [|exact H]. rewrite <- E. unfold harmonic_gaussian_coefficients.
  apply rfold_ext. intros s x _. rewrite py_div_ok by exact Hl. cbn [rbind].
  apply rfold_ext. intros s' m _. rewrite py_div_ok by exact Hm. cbn [rbind].
  do 2 f_equal. rewrite <- exp_plus. f_equal. field. split; assumption.
Qed.
Print Assumptions C53_harmonic_gaussian.

(** It is rightly not flagged as real: for [L >= 2] it is not. *)
Theorem C53_harmonic_gaussian_not_real : forall L l_sigma m_sigma flm, 2 <= L -> l_sigma <> 0%R -> m_sigma <> 0%R ->
  harmonic_gaussian_coefficients L l_sigma m_sigma = Ok flm ->
  harmonic_gaussian_reality = false /\ ~ reality L flm.
Proof.
  intros L ls ms flm HL Hl Hm E. split; [reflexivity|]. intros HR.
  destruct (C53_harmonic_gaussian L ls ms Hl Hm) as (flm' & E' & _ & H). rewrite E in E'. injection E' as <-.
  assert (V : valid L 1 1) by (split; lia). assert (V' : valid L 1 (-1)) by (split; lia).
  specialize (HR 1 1%Z V). change (- (1))%Z with (-1)%Z in HR. rewrite (H _ _ V), (H _ _ V') in HR.
  rewrite Cconj_R in HR. change (Z.abs_nat 1) with 1 in HR.
  apply (f_equal Re) in HR. cbn in HR.
  replace (-1 * (-1 * 1))%R with (1 * (1 * 1))%R in HR by ring.
  set (e := exp _) in HR. pose proof (exp_pos (- (1 * (1 * 1) / (2 * (ls * (ls * 1))) + 1 * (1 * 1) / (2 * (ms * (ms * 1)))))) as P.
  fold e in P. lra.
Qed.
Print Assumptions C53_harmonic_gaussian_not_real.

Theorem C53_dirac : forall L, exists flm, dirac_delta_coefficients L = Ok flm /\
  axisymmetric L (fun el => sqrt ((2 * INR el + 1) / (4 * PI))) flm /\
  (dirac_delta_reality = true -> reality L flm).
Proof.
  intros L. destruct (fill_m0 L 0 L (fun el => RtoC (sqrt ((2 * INR el + 1) / (4 * PI))))) as (flm & E & Hl & Hc); [lia|].
  exists flm. split; [exact E|].
  assert (A : axisymmetric L (fun el => sqrt ((2 * INR el + 1) / (4 * PI))) flm).
  { split; [exact Hl|]. intros el m V. rewrite Hc by exact V. apply m0_bool. apply V. }
  split; [exact A|]. intros _. apply (m0_reality L flm (fun el => sqrt ((2 * INR el + 1) / (4 * PI)))). apply A.
Qed.
Print Assumptions C53_dirac.

Theorem C53_spherical_harmonic : forall L ell m, valid L ell m ->
  exists flm, spherical_harmonic_coefficients L ell m = Ok flm /\ length flm = L * L /\
    forall el m', valid L el m' ->
      coeff flm el m' = if ((el =? ell) && (m' =? m)%Z)%bool then RtoC 1 else RtoC 0.
Proof.
  intros L ell m [He Hm]. pose proof (elm2ind_lt L ell m He Hm) as Hb.
  exists (set_nth (elm2ind ell m) (RtoC 1) (zeros (L * L))).
  unfold spherical_harmonic_coefficients, create_spherical_harmonic.
  rewrite np_set_ok by (unfold zeros; rewrite repeat_length; exact Hb).
  split; [reflexivity|]. split; [rewrite set_nth_length; apply repeat_length|].
  intros el m' [He' Hm']. unfold coeff. fold (elm2ind el m').
  destruct (Nat.eqb_spec el ell) as [->|Hne]; [destruct (Z.eqb_spec m' m) as [->|Hne]|]; cbn [andb].
  - apply nth_error_nth. apply nth_error_set_nth_eq. unfold zeros. rewrite repeat_length. exact Hb.
  - apply nth_error_nth. rewrite nth_error_set_nth_neq.
    + unfold zeros. apply nth_error_repeat. apply elm2ind_lt; assumption.
    + intros X. apply elm2ind_inj in X; [|assumption..]. lia.
  - apply nth_error_nth. rewrite nth_error_set_nth_neq.
    + unfold zeros. apply nth_error_repeat. apply elm2ind_lt; assumption.
    + intros X. apply elm2ind_inj in X; [|assumption..]. lia.
Qed.
Print Assumptions C53_spherical_harmonic.

(** The identity is flagged as real but is not, for every bandlimit above one:
    a real field needs opposite signs at the odd orders. *)
Theorem C53_identity_reality_refuted : forall L, 2 <= L ->
  identity_reality = true /\ ~ reality L (identity_coefficients L) /\
  forall el m, valid L el m -> coeff (identity_coefficients L) el m = RtoC 1.
Proof.
  intros L HL.
  assert (H : forall el m, valid L el m -> coeff (identity_coefficients L) el m = RtoC 1).
  { intros el m [He Hm]. unfold coeff. fold (elm2ind el m). apply nth_error_nth.
    unfold identity_coefficients. apply nth_error_repeat. apply elm2ind_lt; assumption. }
  split; [reflexivity|]. split; [|exact H]. intros HR.
  assert (V : valid L 1 1) by (split; lia). assert (V' : valid L 1 (-1)) by (split; lia).
  specialize (HR 1 1%Z V). change (- (1))%Z with (-1)%Z in HR. rewrite (H _ _ V), (H _ _ V') in HR.
  change (Z.abs_nat 1) with 1 in HR. apply (f_equal Re) in HR. cbn in HR. lra.
Qed.
Print Assumptions C53_identity_reality_refuted.

(** The ring of a ridgelet: order zero only, degrees from [|spin|] on of the
    parity of the spin, with the closed form of the associated Legendre value at
    the equator. *)
Theorem C53_ring : forall gammaln L spin, (forall n, gammaln (INR n + 1)%R = ln (INR (fact n))) ->
  exists ring, compute_ring gammaln L spin = Ok ring /\ length ring = L * L /\
    forall el m, valid L el m ->
      (m <> 0%Z -> coeff ring el m = RtoC 0) /\
      (el < Z.abs_nat spin -> coeff ring el m = RtoC 0) /\
      (Z.odd (Z.of_nat el + spin) = true -> coeff ring el m = RtoC 0) /\
      (forall a b, m = 0%Z -> (Z.of_nat el + spin = 2 * Z.of_nat a)%Z -> (Z.of_nat el - spin = 2 * Z.of_nat b)%Z ->
         coeff ring el m
         = RtoC (2 * PI * sqrt ((2 * INR el + 1) / (4 * PI)) * powerRZ (-1) spin * (-1) ^ a
                 * sqrt (INR (fact (2 * a)) * INR (fact (2 * b)))
                 / (2 ^ el * INR (fact a) * INR (fact b)))).
Proof.
  intros gammaln L spin HG.
  set (s := Z.abs_nat spin). 
  assert (X : exists ring, compute_ring gammaln L spin = Ok ring /\ length ring = L * L /\
    forall el m, valid L el m ->
      coeff ring el m = if ((m =? 0)%Z && (s <=? el))%bool then RtoC (ring_entry gammaln spin el) else RtoC 0).
  { unfold compute_ring. fold s. destruct (Nat.le_gt_cases s L) as [Hs|Hs].
    - destruct (fill_m0 L s (L - s) (fun el => RtoC (ring_entry gammaln spin el))) as (ring & E & Hl & Hc); [lia|].
      exists ring. split; [exact E|]. split; [exact Hl|]. intros el m V. rewrite Hc by exact V.
      destruct V as [Ve _]. destruct (m =? 0)%Z; cbn [andb]; [|reflexivity].
      destruct (Nat.leb_spec s el); cbn [andb]; [|reflexivity]. destruct (Nat.ltb_spec el (s + (L - s))); [reflexivity|lia].
    - replace (L - s) with 0 by lia. exists (zeros (L * L)). split; [reflexivity|]. split; [apply repeat_length|].
      intros el m [Ve Vm]. destruct (Nat.leb_spec s el); [lia|]. rewrite Bool.andb_false_r.
      unfold coeff. fold (elm2ind el m). apply nth_error_nth. apply nth_error_repeat. apply elm2ind_lt; assumption. }
  destruct X as (ring & E & Hl & Hc). exists ring. split; [exact E|]. split; [exact Hl|].
  intros el m V. rewrite (Hc el m V). split; [|split; [|split]].
  - intros Hm. destruct (Z.eqb_spec m 0); [contradiction|reflexivity].
  - intros He. destruct (Nat.leb_spec s el); [lia|]. rewrite Bool.andb_false_r. reflexivity.
  - intros Ho. destruct (Z.eqb_spec m 0); cbn [andb]; [|reflexivity].
    destruct (Nat.leb_spec s el) as [Hs|]; [|reflexivity]. f_equal.
    apply Z.odd_spec in Ho. destruct Ho as [k Hk].
    apply (ring_odd gammaln spin el (Z.to_nat k)). unfold s in Hs. lia.
  - intros a b -> Ha Hb. cbn [Z.eqb andb]. destruct (Nat.leb_spec s el) as [Hs|Hs]; [|unfold s in Hs; lia].
    f_equal. apply ring_even; assumption.
Qed.
Print Assumptions C53_ring.

(** Functions given on the grid.  The squashed Gaussian lies under a Gaussian of
    the colatitude, touches it where [freq phi] is a quarter turn, vanishes on
    the meridian [phi = 0] and is odd in [phi]. *)
Theorem C53_squashed : forall t_sigma freq theta phi, t_sigma <> 0%R ->
  let envelope := exp (- (theta * theta) / (2 * (t_sigma * t_sigma))) in
  (Rabs (squashed_gaussian t_sigma freq theta phi) <= envelope)%R /\
  ((freq * phi = PI / 2)%R -> squashed_gaussian t_sigma freq theta phi = envelope) /\
  squashed_gaussian t_sigma freq theta 0 = 0%R /\
  squashed_gaussian t_sigma freq theta (- phi) = (- squashed_gaussian t_sigma freq theta phi)%R.
Proof.
  intros ts freq theta phi Hs envelope.
  assert (E : forall p, squashed_gaussian ts freq theta p = (envelope * sin (freq * p))%R).
  { intros p. unfold squashed_gaussian, envelope, THETA_0. do 2 f_equal. field. exact Hs. }
  assert (P : (0 < envelope)%R) by apply exp_pos. rewrite !E. split; [|split; [|split]].
  - rewrite Rabs_mult, (Rabs_right envelope) by lra. assert (B := SIN_bound (freq * phi)).
    assert (Rabs (sin (freq * phi)) <= 1)%R by (apply Rabs_le; lra). rewrite <- (Rmult_1_r envelope) at 2.
    apply Rmult_le_compat_l; lra.
  - intros H. rewrite H, sin_PI2. ring.
  - rewrite Rmult_0_r, sin_0. ring.
  - replace (freq * - phi)%R with (- (freq * phi))%R by ring. rewrite sin_neg. ring.
Qed.
Print Assumptions C53_squashed.

(** The elongated Gaussian has its maximum 1 exactly at colatitude 0 and
    longitude [PI], is symmetric about that meridian and falls off with the
    distance in either angle, measured in its own width. *)
Theorem C53_elongated : forall t_sigma p_sigma theta phi, t_sigma <> 0%R -> p_sigma <> 0%R ->
  (0 < elongated_gaussian t_sigma p_sigma theta phi <= 1)%R /\
  (elongated_gaussian t_sigma p_sigma theta phi = 1%R <-> theta = 0%R /\ phi = PI) /\
  elongated_gaussian t_sigma p_sigma theta (2 * PI - phi) = elongated_gaussian t_sigma p_sigma theta phi /\
  elongated_gaussian t_sigma p_sigma t_sigma PI = exp (- (1 / 2)) /\
  elongated_gaussian t_sigma p_sigma 0 (PI + p_sigma) = exp (- (1 / 2)) /\
  (forall theta' phi', (Rabs theta <= Rabs theta')%R -> (Rabs (phi - PI) <= Rabs (phi' - PI))%R ->
     (elongated_gaussian t_sigma p_sigma theta' phi' <= elongated_gaussian t_sigma p_sigma theta phi)%R).
Proof.
  intros ts ps theta phi Ht Hp. unfold elongated_gaussian, THETA_0, PHI_0.
  assert (Sq : forall x, (0 <= x ^ 2)%R) by (intros; apply pow2_ge_0).
  assert (Mon : forall x y, (x <= y)%R -> (exp x <= exp y)%R).
  { intros x y [H| ->]; [left; apply exp_increasing; exact H|lra]. }
  set (a := ((theta - 0) / ts)%R). set (b := ((phi - PI) / ps)%R).
  assert (A := Sq a). assert (B := Sq b). split; [|split; [|split; [|split; [|split]]]].
  - split; [apply exp_pos|]. rewrite <- exp_0. apply Mon. lra.
  - split.
    + intros H. rewrite <- exp_0 in H. apply exp_inv in H. assert (a = 0 /\ b = 0)%R as [Ea Eb].
      { split; apply Rsqr_0_uniq; unfold Rsqr; nra. }
      unfold a, b in *. split.
      * assert (theta - 0 = (theta - 0) / ts * ts)%R by (field; exact Ht). rewrite Ea in H0. lra.
      * assert (phi - PI = (phi - PI) / ps * ps)%R by (field; exact Hp). rewrite Eb in H0. lra.
    + intros [Et Ep]. unfold a, b. rewrite Et, Ep. replace (- (((0 - 0) / ts) ^ 2 + ((PI - PI) / ps) ^ 2) / 2)%R with 0%R by (field; split; assumption). apply exp_0.
  - f_equal. unfold b. field. exact Hp.
  - f_equal. field. split; assumption.
  - f_equal. field. split; assumption.
  - intros theta' phi' H1 H2. apply Mon. fold a b.
    assert (Q : forall x y s, s <> 0%R -> (Rabs x <= Rabs y)%R -> ((x / s) ^ 2 <= (y / s) ^ 2)%R).
    { intros x y s Hs H. replace ((x / s) ^ 2)%R with (x ^ 2 * / (s ^ 2))%R by (field; exact Hs).
      replace ((y / s) ^ 2)%R with (y ^ 2 * / (s ^ 2))%R by (field; exact Hs).
      apply Rmult_le_compat_r; [left; apply Rinv_0_lt_compat; nra|]. rewrite <- (pow2_abs x), <- (pow2_abs y).
      assert (U := Rabs_pos x). nra. }
    assert (QA := Q (theta - 0)%R (theta' - 0)%R ts Ht). rewrite !Rminus_0_r in QA. specialize (QA H1).
    assert (QB := Q _ _ ps Hp H2). unfold a, b. rewrite !Rminus_0_r. lra.
Qed.
Print Assumptions C53_elongated.

Example C53_case :
  (exists flm, gaussian_coefficients 2 1 = Ok flm /\
     coeff flm 1 0 = RtoC (exp (- (1 * (1 + 1) / (2 * 1 ^ 2)))) /\ coeff flm 1 1 = RtoC 0) /\
  spherical_harmonic_coefficients 2 1 (-1) = Ok [RtoC 0; RtoC 1; RtoC 0; RtoC 0] /\
  ~ reality 2 [RtoC 1; RtoC 1; RtoC 1; RtoC 1].
Proof.
  split; [|split].
  - destruct (C53_gaussian 2 1) as (flm & E & [_ H] & _); [lra|]. exists flm. split; [exact E|].
    split; rewrite H by (split; lia); reflexivity.
  - reflexivity.
  - apply (C53_identity_reality_refuted 2). lia.
Qed.
