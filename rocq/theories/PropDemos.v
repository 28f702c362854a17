(** * The demonstrations of the examples folder: property C70. *)
From Coq Require Import List ZArith Arith Bool Reals Lra Lia.
From Coquelicot Require Import Complex.
From Verif Require SelectProofs.
From Verif Require Import Base ListLemmas RSum CSum PyNum Index IndexProofs Numpy SpecField SpecLatLon SpecHarmonics Noise NoiseProofs OrthoProofs Eigen EigenProofs
  Integration Quadrature Convolution ConvolutionProofs Functions FunctionsProofs Transform SpecTransform TransformProofs Wavelet WaveletProofs Threshold
  ConcentrationProofs TextbookProofs SigmaProofs PropSampling PropWavelet PropSigma PropThreshold PropTransform PropLatLon PropConcentration Demos DemosProofs.
Import ListNotations.
Local Open Scope nat_scope.

(** The spherical harmonic number [i] at sample [k] of the grid of [L + 1]
    colatitudes and [2 L] longitudes. *)
Definition sampled_harmonic (d : Z -> Z -> Z -> R) (L i k : nat) : C :=
  harmonic_number d i (PI * INR (k / (2 * L)) / INR L)%R (PI * INR (k mod (2 * L)) / INR L)%R.

(** The values of harmonic number [i] on the whole grid. *)
Definition harmonic_samples (d : Z -> Z -> Z -> R) (L i : nat) : list C := map (sampled_harmonic d L i) (seq 0 (samples L)).

Lemma harmonic_number_degree d el k theta phi : k < 2 * el + 1 ->
  harmonic_number d (el * el + k) theta phi = harmonic d (Z.of_nat el) (- Z.of_nat el + Z.of_nat k) theta phi.
Proof.
  intros Hk. unfold harmonic_number. rewrite sqrt_block by lia.
  replace (Z.of_nat (el * el + k) - Z.of_nat el * Z.of_nat el - Z.of_nat el)%Z with (- Z.of_nat el + Z.of_nat k)%Z by lia. reflexivity.
Qed.

Lemma sampled_addition d L el k : textbook d L -> el < L ->
  rsum (2 * el + 1) (fun o => Cmod (sampled_harmonic d L (el * el + o) k) ^ 2)%R = ((2 * INR el + 1) / (4 * PI))%R.
Proof.
  intros T Hel. unfold sampled_harmonic. set (t := (PI * INR (k / (2 * L)) / INR L)%R). set (f := (PI * INR (k mod (2 * L)) / INR L)%R).
  pose proof (textbook_degree d L T (Z.of_nat el) t f ltac:(lia)) as D.
  unfold zrange in D. rewrite map_map, clsum_map_seq in D. replace (Z.to_nat (Z.of_nat el + 1 - - Z.of_nat el)) with (2 * el + 1) in D by lia.
  rewrite (csum_ext _ _ (fun o => RtoC (Cmod (harmonic_number d (el * el + o) t f) ^ 2)%R)) in D.
  - rewrite csum_RtoC in D. apply RtoC_inj in D. rewrite D. rewrite plus_IZR, mult_IZR, <- INR_IZR_INZ. reflexivity.
  - intros o Ho. rewrite harmonic_number_degree by exact Ho. apply Cmod2_mult.
Qed.

(** ** Measured and theoretical covariance, axisymmetric wavelets *)

Section Covariance.
  Variables (inverse : nat -> list C -> list C) (d : Z -> Z -> Z -> R) (L : nat) (wavelets : list (list C)).
  Hypothesis HY : synthesis L (sampled_harmonic d L) inverse.
  Hypothesis HT : textbook d L.
  Hypothesis Hm : matrix (L * L) wavelets.
  Hypothesis Ha : forall psi, In psi wavelets -> axisymmetric L psi.

  (** The weight of harmonic number [i] in the wavelet coefficients at scale
      [j]. *)
  Definition scale_weight (j i : nat) : C :=
    let el := Nat.sqrt i in Cmult (RtoC (sqrt (4 * PI / (2 * INR el + 1)))) (Cconj (coeff (nth j wavelets []) el 0)).

  Lemma weight_at j el o : o < 2 * el + 1 -> scale_weight j (el * el + o)
    = Cmult (RtoC (sqrt (4 * PI / (2 * INR el + 1)))) (Cconj (coeff (nth j wavelets []) el 0)).
  Proof. intros Ho. unfold scale_weight. rewrite sqrt_block by lia. reflexivity. Qed.

  Lemma weight_sq j el o : o < 2 * el + 1 ->
    (Cmod (scale_weight j (el * el + o)) ^ 2 = 4 * PI / (2 * INR el + 1) * Cmod (coeff (nth j wavelets []) el 0) ^ 2)%R.
  Proof.
    intros Ho. rewrite weight_at by exact Ho. rewrite Cmod_mult, Cmod_conj, Cmod_R, Rpow_mult_distr, pow2_abs.
    rewrite <- (Rsqr_pow2 (sqrt _)), Rsqr_sqrt by (apply Rlt_le, sqrt_norm). reflexivity.
  Qed.

  (** The field of scale [j] in run [r]. *)
  Definition scale_field (v : R) (X : nat -> R) (r j k : nat) : C :=
    csum (L * L) (fun q => Cmult (Cmult (scale_weight j q) (sampled_harmonic d L q k)) (draw (L * L) v 1 X r q)).

  Lemma run_fields v X r : exists W, axisymmetric_wavelet_forward L (signal_of_run X L v r) wavelets = Ok W /\ length W = length wavelets /\
    forall j, j < length wavelets -> inverse L (nth j W []) = map (scale_field v X r j) (seq 0 (samples L)).
  Proof.
    destruct (signal_of_run_spec X L v r) as [Hl Hs].
    destruct (C27_forward L (signal_of_run X L v r) wavelets Hl Hm) as (W & EW & LW & HW). exists W. split; [exact EW|]. split; [exact LW|].
    intros j Hj. destruct (HW j Hj) as [Hlen Hc]. rewrite (HY _ Hlen). apply map_ext. intros k. unfold scale_field. rewrite !csum_degrees.
    apply csum_ext. intros el Hel. apply csum_ext. intros o Ho. rewrite weight_at by exact Ho.
    pose proof (Hc el (Z.of_nat o - Z.of_nat el)%Z ltac:(split; lia)) as E. unfold coeff at 1 3 in E.
    replace (Z.to_nat (Z.of_nat (el * el + el) + (Z.of_nat o - Z.of_nat el))) with (el * el + o) in E by lia. rewrite E.
    rewrite Hs by nia. ring.
  Qed.

  Lemma theory_degrees v j : j < length wavelets ->
    (nth j (compute_wavelet_covariance wavelets v) 0 = v * rsum L (fun el => Cmod (coeff (nth j wavelets []) el 0) ^ 2))%R.
  Proof.
    intros Hj. unfold compute_wavelet_covariance. set (h := fun row => (sum_abs2 row * v)%R).
    rewrite (nth_indep _ 0%R (h [])) by (rewrite map_length; exact Hj). rewrite (map_nth h). unfold h.
    assert (Hin : In (nth j wavelets []) wavelets) by (apply nth_In, Hj).
    rewrite sum_abs2_power, (power_degrees L) by (apply Hm, Hin). rewrite Rmult_comm. f_equal. apply rsum_ext. intros el Hel.
    rewrite (rsum_single (2 * el + 1) el); [|lia|].
    - cbv zeta. replace (Z.of_nat el - Z.of_nat el)%Z with 0%Z by lia. symmetry. apply Cmod_sq.
    - intros k Hk Hne. cbv zeta. rewrite (Ha _ Hin) by (try split; lia). cbn. ring.
  Qed.

  Variables (E : ensemble) (runs : nat) (v : R).
  Hypothesis HE : decorrelated E (runs * (2 * (L * L))).
  Hypothesis Hv : (0 <= v)%R.

  Lemma field_variance r j k : r < runs -> j < length wavelets ->
    mean E (fun X => (Cmod (scale_field v X r j k) ^ 2)%R) = nth j (compute_wavelet_covariance wavelets v) 0%R.
  Proof.
    intros Hr Hj. unfold scale_field. rewrite (mean_run E runs (L * L) v 1 r) by (try assumption; ring).
    rewrite theory_degrees by exact Hj. f_equal. rewrite rsum_degrees. apply rsum_ext. intros el Hel.
    rewrite (rsum_ext _ _ (fun o => (4 * PI / (2 * INR el + 1) * Cmod (coeff (nth j wavelets []) el 0) ^ 2)
                                      * Cmod (sampled_harmonic d L (el * el + o) k) ^ 2)%R).
    - rewrite rsum_scal_l, sampled_addition by assumption. pose proof PI_RGT_0. pose proof (pos_INR el). field. split; lra.
    - intros o Ho. rewrite Cmod_mult, Rpow_mult_distr, weight_sq by exact Ho. reflexivity.
  Qed.

  (** The mean over the samples, of a field. *)
  Lemma field_mean r j : r < runs ->
    mean E (fun X => (Cmod (csum (samples L) (scale_field v X r j)) ^ 2)%R)
    = (v * rsum L (fun el => 4 * PI / (2 * INR el + 1) * Cmod (coeff (nth j wavelets []) el 0) ^ 2
         * rsum (2 * el + 1) (fun o => Cmod (csum (samples L) (sampled_harmonic d L (el * el + o))) ^ 2)))%R.
  Proof.
    intros Hr.
    transitivity (mean E (fun X => (Cmod (csum (L * L) (fun q => Cmult (Cmult (scale_weight j q) (csum (samples L) (sampled_harmonic d L q))) (draw (L * L) v 1 X r q))) ^ 2)%R)).
    - apply mean_ext. intros X. do 2 f_equal. unfold scale_field. rewrite csum_swap. apply csum_ext. intros q _.
      rewrite csum_scal_r, csum_scal_l. reflexivity.
    - rewrite (mean_run E runs (L * L) v 1 r) by (try assumption; ring). f_equal. rewrite rsum_degrees. apply rsum_ext. intros el _.
      rewrite <- rsum_scal_l. apply rsum_ext. intros o Ho. rewrite Cmod_mult, Rpow_mult_distr, weight_sq by exact Ho. reflexivity.
  Qed.

  Lemma field_var r j : 1 <= L -> r < runs -> j < length wavelets ->
    mean E (fun X => np_var (map (scale_field v X r j) (seq 0 (samples L))))
    = (v * rsum L (fun el => 4 * PI / (2 * INR el + 1) * Cmod (coeff (nth j wavelets []) el 0) ^ 2
         * rsum (2 * el + 1) (fun o => np_var (harmonic_samples d L (el * el + o)))))%R.
  Proof.
    intros HL Hr Hj. assert (Hn : 1 <= samples L) by (unfold samples, n_theta, n_phi; nia).
    assert (P : (0 < INR (samples L))%R) by (apply lt_0_INR; lia).
    transitivity (mean E (fun X => (/ INR (samples L) * rsum (samples L) (fun k => Cmod (scale_field v X r j k) ^ 2)
                                    + - / INR (samples L) ^ 2 * Cmod (csum (samples L) (scale_field v X r j)) ^ 2)%R)).
    { apply mean_ext. intros X. rewrite np_var_csum by exact Hn. field. lra. }
    rewrite mean_plus, !mean_scal, mean_rsum, field_mean by exact Hr.
    rewrite (rsum_ext _ _ (fun _ => nth j (compute_wavelet_covariance wavelets v) 0%R)) by (intros k _; apply field_variance; assumption).
    rewrite rsum_const, theory_degrees by exact Hj.
    set (B := fun el => (4 * PI / (2 * INR el + 1) * Cmod (coeff (nth j wavelets []) el 0) ^ 2)%R).
    transitivity (v * (rsum L (fun el => Cmod (coeff (nth j wavelets []) el 0) ^ 2)
      + - / INR (samples L) ^ 2 * rsum L (fun el => B el * rsum (2 * el + 1) (fun o => Cmod (csum (samples L) (sampled_harmonic d L (el * el + o))) ^ 2))))%R.
    { unfold B. field. lra. }
    f_equal. rewrite <- rsum_scal_l, <- rsum_plus. apply rsum_ext. intros el Hel. fold (B el).
    unfold harmonic_samples. pose proof PI_RGT_0 as HP. pose proof (pos_INR el) as Hel0.
    rewrite (rsum_ext (2 * el + 1) (fun o => np_var _) (fun o => / INR (samples L) * rsum (samples L) (fun k => Cmod (sampled_harmonic d L (el * el + o) k) ^ 2)
                  + - / INR (samples L) ^ 2 * Cmod (csum (samples L) (sampled_harmonic d L (el * el + o))) ^ 2)%R).
    2:{ intros o _. rewrite np_var_csum by exact Hn. field. lra. }
    rewrite rsum_plus, !rsum_scal_l, rsum_swap.
    rewrite (rsum_ext (samples L) _ (fun _ => ((2 * INR el + 1) / (4 * PI))%R)) by (intros k _; apply sampled_addition; assumption).
    rewrite rsum_const. unfold B. field. repeat split; lra.
  Qed.

  (** Success of the runs. *)
  Lemma covariance_runs_ok X j_min n : 1 <= L -> covariance_runs inverse (fun _ => X) L wavelets j_min n v
    = Ok (map (fun r => map (fun j => if is_ergodic j_min j then RtoC (np_var (map (scale_field v X r j) (seq 0 (samples L)))) else scale_field v X r j 0)
                            (seq 0 (length wavelets))) (seq 0 n)).
  Proof.
    intros HL. assert (Hn : 1 <= samples L) by (unfold samples, n_theta, n_phi; nia).
    unfold covariance_runs. rewrite (collect_runs L _ (fun r => map (fun j => if is_ergodic j_min j then RtoC (np_var (map (scale_field v X r j) (seq 0 (samples L)))) else scale_field v X r j 0)
                            (seq 0 (length wavelets)))); [reflexivity|].
    intros r. unfold covariance_run. rewrite compute_random_signal_run.
    destruct (run_fields v X r) as (W & EW & LW & HW). rewrite EW. cbn [rbind].
    rewrite (rmap_ok _ (fun p => if is_ergodic j_min (fst p) then RtoC (np_var (inverse L (snd p))) else nth 0 (inverse L (snd p)) (RtoC 0))).
    - cbn [rbind]. eexists. split; [reflexivity|]. rewrite <- LW.
      rewrite <- (map_nth_seq [] W) at 2.
      assert (Hc : forall A (a : list nat) (g : nat -> A), combine a (map g a) = map (fun x => (x, g x)) a).
      { intros A a g. induction a as [|x a IH]; [reflexivity|]. cbn [map combine]. rewrite IH. reflexivity. }
      rewrite Hc, map_map. apply map_ext_in. intros j Hj. apply in_seq in Hj. cbn [fst snd]. rewrite HW by lia.
      destruct (is_ergodic j_min j); [reflexivity|]. destruct (samples L); [lia|]. reflexivity.
    - intros [j c] Hin. unfold covariance_entry. cbn [fst snd]. destruct (is_ergodic j_min j); [reflexivity|].
      pose proof (in_combine_r _ _ _ _ Hin) as Hc. apply (In_nth _ _ []) in Hc as (j' & Hj' & <-). rewrite HW by lia.
      destruct (samples L); [lia|]. reflexivity.
  Qed.

  Lemma column_table {A} (dflt : A) (g : nat -> nat -> A) n m j : j < m ->
    column dflt (map (fun r => map (g r) (seq 0 m)) (seq 0 n)) j = map (fun r => g r j) (seq 0 n).
  Proof.
    intros Hj. unfold column. rewrite map_map. apply map_ext. intros r. rewrite nth_map_seq by exact Hj. reflexivity.
  Qed.

  Lemma measured_at X j_min j (D : list (list C)) M : 1 <= L -> (j_min <> 0%Z \/ j <> 0) -> j < length wavelets -> 1 <= runs ->
    covariance_runs inverse (fun _ => X) L wavelets j_min runs v = Ok D -> measured_covariance (length wavelets) j_min D = Ok M ->
    nth j M 0%R = (/ INR runs * rsum runs (fun r => np_var (map (scale_field v X r j) (seq 0 (samples L)))))%R.
  Proof.
    intros HL Hj Hlt Hruns ED EM. rewrite covariance_runs_ok in ED by exact HL. injection ED as <-.
    unfold measured_covariance in EM.
    assert (EJ : is_ergodic j_min j = true).
    { unfold is_ergodic. destruct (Z.eqb_spec j_min 0); [|reflexivity]. destruct (Nat.eqb_spec j 0); [lia|]. reflexivity. }
    match type of EM with (let* _ := ?x in _) = _ => assert (G : exists mm, x = Ok mm /\ nth j mm (RtoC 0) = RtoC (/ INR runs * rsum runs (fun r => np_var (map (scale_field v X r j) (seq 0 (samples L)))))%R /\ length mm = length wavelets) end.
    { assert (B : forall u, nth j (map (fun j0 => np_mean (column (RtoC 0) (map (fun r => map (fun j1 => if is_ergodic j_min j1 then RtoC (np_var (map (scale_field v X r j1) (seq 0 (samples L)))) else scale_field v X r j1 0)
                            (seq 0 (length wavelets))) (seq 0 runs)) j0)) (seq 0 (length wavelets))) u
                 = RtoC (/ INR runs * rsum runs (fun r => np_var (map (scale_field v X r j) (seq 0 (samples L)))))%R).
      { intros u. rewrite (nth_indep _ u (RtoC 0)) by (rewrite map_length, seq_length; exact Hlt). rewrite nth_map_seq by exact Hlt.
        rewrite column_table by exact Hlt. rewrite EJ, np_mean_csum, csum_RtoC, <- RtoC_mult. f_equal. ring. }
      destruct (is_ergodic j_min 0) eqn:E0.
      - eexists. split; [reflexivity|]. split; [apply B|]. rewrite map_length, seq_length. reflexivity.
      - assert (Hne : j <> 0) by (intros ->; congruence).
        destruct runs as [|n]; [lia|]. unfold np_get. cbn [seq map nth_error rbind]. unfold np_set. rewrite map_length, seq_length.
        destruct (Nat.ltb_spec 0 (length wavelets)) as [_|K]; [|lia]. eexists. split; [reflexivity|]. split.
        + erewrite nth_error_nth; [reflexivity|]. rewrite nth_error_set_nth_neq by exact Hne. rewrite (nth_error_nth' _ (RtoC 0)) by (rewrite map_length, seq_length; exact Hlt). f_equal. apply B.
        + rewrite set_nth_length, map_length, seq_length. reflexivity. }
    destruct G as (mm & Em & Hval & Hlen). rewrite Em in EM. cbn [rbind] in EM. injection EM as <-.
    rewrite (nth_indep _ 0%R (Cmod (RtoC 0))) by (rewrite map_length, Hlen; exact Hlt). rewrite map_nth, Hval, Cmod_R, Rabs_pos_eq; [reflexivity|].
    apply Rmult_le_pos; [apply Rlt_le, Rinv_0_lt_compat, lt_0_INR; lia|]. apply rsum_nonneg. intros r _. apply np_var_nonneg.
  Qed.
End Covariance.

(** In every run of the script and at every sample the variance of the wavelet
    coefficients is the theoretical covariance. *)
Theorem C70_variance : forall inverse d L wavelets (E : ensemble) runs v r j k (f : (nat -> R) -> list C) g (W : (nat -> R) -> list (list C)),
  synthesis L (sampled_harmonic d L) inverse -> textbook d L ->
  matrix (L * L) wavelets -> (forall psi, In psi wavelets -> axisymmetric L psi) ->
  decorrelated E (runs * (2 * (L * L))) -> (0 <= v)%R -> r < runs -> j < length wavelets -> k < samples L ->
  (forall X, compute_random_signal (fun _ => X) L {| g_seed := 30; g_pos := r * (2 * (L * L)) |} v = (f X, g)) ->
  (forall X, axisymmetric_wavelet_forward L (f X) wavelets = Ok (W X)) ->
  mean E (fun X => (Cmod (nthC (inverse L (nth j (W X) [])) k) ^ 2)%R) = nth j (compute_wavelet_covariance wavelets v) 0%R.
Proof.
  intros inverse d L ws E runs v r j k f g W HY HT Hm Ha HE Hv Hr Hj Hk Hf HW.
  rewrite <- (field_variance d L ws HT Hm Ha E runs v HE Hv r j k Hr Hj). apply mean_ext. intros X. do 2 f_equal.
  assert (Ef : f X = signal_of_run X L v r) by (unfold signal_of_run; rewrite Hf; reflexivity).
  destruct (run_fields inverse d L ws HY Hm v X r) as (W' & EW & _ & HF). rewrite <- Ef, HW in EW. injection EW as <-.
  rewrite HF by exact Hj. rewrite nth_map_seq by exact Hk. reflexivity.
Qed.
Print Assumptions C70_variance.

(** What the script measures instead, with any number of runs: the variance over
    the samples of each run removes the mean over the grid, so that harmonic
    [i] counts only with its own variance over the samples.  Degree zero drops
    out. *)
Theorem C70_measured : forall inverse d L wavelets (E : ensemble) runs v j_min j (D : (nat -> R) -> list (list C)) (M : (nat -> R) -> list R),
  synthesis L (sampled_harmonic d L) inverse -> textbook d L -> 1 <= L ->
  matrix (L * L) wavelets -> (forall psi, In psi wavelets -> axisymmetric L psi) ->
  decorrelated E (runs * (2 * (L * L))) -> (0 <= v)%R -> 1 <= runs -> j < length wavelets -> (j_min <> 0%Z \/ j <> 0) ->
  (forall X, covariance_runs inverse (fun _ => X) L wavelets j_min runs v = Ok (D X)) ->
  (forall X, measured_covariance (length wavelets) j_min (D X) = Ok (M X)) ->
  mean E (fun X => nth j (M X) 0%R)
  = (v * rsum L (fun el => 4 * PI / (2 * INR el + 1) * Cmod (coeff (nth j wavelets []) el 0) ^ 2
         * rsum (2 * el + 1) (fun o => np_var (harmonic_samples d L (el * el + o)))))%R /\
  (mean E (fun X => nth j (M X) 0%R)
   <= nth j (compute_wavelet_covariance wavelets v) 0 - v * Cmod (coeff (nth j wavelets []) 0 0) ^ 2)%R.
Proof.
  intros inverse d L ws E runs v jm j D M HY HT HL Hm Ha HE Hv Hruns Hj Hjm HD HM.
  assert (P : (0 < INR runs)%R) by (apply lt_0_INR; lia).
  assert (Eq : mean E (fun X => nth j (M X) 0%R)
  = (v * rsum L (fun el => 4 * PI / (2 * INR el + 1) * Cmod (coeff (nth j ws []) el 0) ^ 2
         * rsum (2 * el + 1) (fun o => np_var (harmonic_samples d L (el * el + o)))))%R).
  { transitivity (mean E (fun X => (/ INR runs * rsum runs (fun r => np_var (map (scale_field d L ws v X r j) (seq 0 (samples L)))))%R)).
    - apply mean_ext. intros X. eapply (measured_at inverse d L ws); try eassumption; [apply HD|apply HM].
    - rewrite mean_scal, mean_rsum.
      rewrite (rsum_ext runs _ (fun _ => (v * rsum L (fun el => 4 * PI / (2 * INR el + 1) * Cmod (coeff (nth j ws []) el 0) ^ 2
         * rsum (2 * el + 1) (fun o => np_var (harmonic_samples d L (el * el + o)))))%R)).
      + rewrite rsum_const. field. lra.
      + intros r Hr. apply (field_var d L ws HT Hm Ha E runs v HE Hv); assumption. }
  split; [exact Eq|]. rewrite Eq, (theory_degrees L ws Hm Ha) by exact Hj. rewrite <- Rmult_minus_distr_l. apply Rmult_le_compat_l; [exact Hv|].
  destruct L as [|L']; [lia|]. rewrite !rsum_S_l.
  assert (Z0 : np_var (harmonic_samples d (S L') (0 * 0 + 0)) = 0%R).
  { unfold harmonic_samples.
    assert (C0 : forall k, sampled_harmonic d (S L') (0 * 0 + 0) k = spherical_harmonic 0 0 0 0).
    { intros k. unfold sampled_harmonic. rewrite harmonic_number_degree by lia.
      destruct (HT 0 0 (PI * INR (k / (2 * S L')) / INR (S L'))%R (PI * INR (k mod (2 * S L')) / INR (S L'))%R) as [E0 _]; [lia|lia|].
      change (Z.of_nat 0) with 0%Z in E0. change (- Z.of_nat 0 + Z.of_nat 0)%Z with 0%Z. change (Z.of_nat 0) with 0%Z. rewrite E0.
      unfold spherical_harmonic, associated. cbn [Derive.Derive_n pow INR Nat.sub Nat.add]. rewrite !Rmult_0_l. reflexivity. }
    rewrite (map_ext _ (fun _ => spherical_harmonic 0 0 0 0) C0). rewrite np_var_csum by (unfold samples, n_theta, n_phi; nia).
    rewrite rsum_const.
    assert (P2 : (0 < INR (samples (S L')))%R) by (apply lt_0_INR; unfold samples, n_theta, n_phi; nia).
    assert (K : forall n (z : C), csum n (fun _ => z) = Cmult (RtoC (INR n)) z).
    { induction n as [|n IH]; intros z; [cbn [csum INR]; ring|]. cbn [csum]. rewrite IH, S_INR, RtoC_plus. ring. }
    rewrite K, Cmod_mult, Cmod_R, Rpow_mult_distr, pow2_abs. field. lra. }
  change (2 * 0 + 1) with 1.
  assert (S1 : forall f : nat -> R, rsum 1 f = f 0) by (intros f; cbn [rsum]; ring). rewrite S1, Z0, Rmult_0_r, Rplus_0_l.
  rewrite Rplus_comm. unfold Rminus. rewrite Rplus_assoc, Rplus_opp_r, Rplus_0_r.
  apply rsum_le. intros i Hi. set (el := S i). pose proof PI_RGT_0 as HP. pose proof (pos_INR el) as Hel0.
  assert (B : (rsum (2 * el + 1) (fun o => np_var (harmonic_samples d (S L') (el * el + o))) <= (2 * INR el + 1) / (4 * PI))%R).
  { set (n := samples (S L')). assert (Hn : 1 <= n) by (unfold n, samples, n_theta, n_phi; nia).
    assert (P2 : (0 < INR n)%R) by (apply lt_0_INR; lia).
    apply Rle_trans with (rsum (2 * el + 1) (fun o => / INR n * rsum n (fun k => Cmod (sampled_harmonic d (S L') (el * el + o) k) ^ 2)))%R.
    - apply rsum_le. intros o _. unfold harmonic_samples. fold n. rewrite np_var_csum by exact Hn.
      assert (Q : (0 <= Cmod (csum n (sampled_harmonic d (S L') (el * el + o))) ^ 2 / INR n ^ 2)%R).
      { apply Rmult_le_pos; [apply pow2_ge_0|]. apply Rlt_le, Rinv_0_lt_compat, pow_lt, P2. }
      unfold Rdiv at 1. rewrite (Rmult_comm (rsum n _)). lra.
    - rewrite rsum_scal_l, rsum_swap.
      rewrite (rsum_ext n _ (fun _ => ((2 * INR el + 1) / (4 * PI))%R)) by (intros k _; apply sampled_addition; [exact HT|unfold el; lia]).
      rewrite rsum_const. apply Req_le. field. lra. }
  apply Rle_trans with (4 * PI / (2 * INR el + 1) * Cmod (coeff (nth j ws []) el 0) ^ 2 * ((2 * INR el + 1) / (4 * PI)))%R.
  - apply Rmult_le_compat_l; [|exact B]. apply Rmult_le_pos; [apply Rlt_le, sqrt_norm|apply pow2_ge_0].
  - apply Req_le. field. split; lra.
Qed.
Print Assumptions C70_measured.

(** So the estimate of the scaling function, which sees degree zero, stays
    below the theoretical value however many runs there are. *)
Theorem C70_unbiased_refuted : forall inverse d L wavelets (E : ensemble) runs v j_min (D : (nat -> R) -> list (list C)) (M : (nat -> R) -> list R),
  synthesis L (sampled_harmonic d L) inverse -> textbook d L -> 1 <= L ->
  matrix (L * L) wavelets -> (forall psi, In psi wavelets -> axisymmetric L psi) ->
  decorrelated E (runs * (2 * (L * L))) -> (0 < v)%R -> 1 <= runs -> 1 <= length wavelets -> j_min <> 0%Z ->
  (forall X, covariance_runs inverse (fun _ => X) L wavelets j_min runs v = Ok (D X)) ->
  (forall X, measured_covariance (length wavelets) j_min (D X) = Ok (M X)) ->
  coeff (nth 0 wavelets []) 0 0 <> RtoC 0 ->
  (mean E (fun X => nth 0 (M X) 0%R) < nth 0 (compute_wavelet_covariance wavelets v) 0)%R.
Proof.
  intros inverse d L ws E runs v jm D M HY HT HL Hm Ha HE Hv Hruns Hl Hjm HD HM Hnz.
  destruct (C70_measured inverse d L ws E runs v jm 0 D M) as [_ H]; try assumption; [lra|left; exact Hjm|].
  assert (P : (0 < v * Cmod (coeff (nth 0 ws []) 0 0) ^ 2)%R).
  { apply Rmult_lt_0_compat; [exact Hv|]. apply pow_lt, Cmod_gt_0, Hnz. }
  lra.
Qed.
Print Assumptions C70_unbiased_refuted.

(** With [j_min = 0] the documented variance over all realisations of the
    scaling coefficients is not taken: all runs agree, so that their variance is
    zero, but the reported value is not zero. *)
Definition one_harmonic (L : nat) (v : list C) : list C := map (fun _ => Cmult (nthC v 0) (RtoC (/ sqrt (4 * PI)))) (seq 0 (samples L)).

Theorem C70_first_run_refuted : exists X wavelets D M,
  covariance_runs one_harmonic (fun _ => X) 1 wavelets 0 2 2 = Ok D /\
  measured_covariance (length wavelets) 0 D = Ok M /\
  np_var (map (fun run => nthC run 0) D) = 0%R /\ nth 0 M 0%R = (1 / 2)%R.
Proof.
  exists (fun _ => 1%R), [[RtoC 1]; [RtoC 0]].
  set (row := [(1, 1)%R; RtoC 0] : list C).
  assert (HM : matrix (1 * 1) [[RtoC 1]; [RtoC 0]]) by (intros r [<-|[<-|[]]]; reflexivity).
  assert (S4 : (0 < sqrt (4 * PI))%R) by (apply sqrt_lt_R0; pose proof PI_RGT_0; lra).
  assert (Run : forall r, exists x, covariance_run one_harmonic (fun _ _ => 1%R) 1 [[RtoC 1]; [RtoC 0]] 0 2 {| g_seed := 30%Z; g_pos := r * (2 * (1 * 1)) |}
     = Ok (x, {| g_seed := 30%Z; g_pos := S r * (2 * (1 * 1)) |}) /\ x = row).
  { intros r. unfold covariance_run. rewrite compute_random_signal_run.
    destruct (signal_of_run_spec (fun _ => 1%R) 1 2 r) as [Hl Hs].
    destruct (C27_forward 1 (signal_of_run (fun _ => 1%R) 1 2 r) _ Hl HM) as (W & EW & LW & HW). rewrite EW. cbn [rbind].
    assert (Ws : W = [[Cmult (RtoC (sqrt (4 * PI))) (1, 1)%R]; [RtoC 0]]).
    { destruct W as [|a [|b [|c W]]]; try discriminate LW.
      destruct (HW 0 ltac:(cbn; lia)) as [La Ca]. destruct (HW 1 ltac:(cbn; lia)) as [Lb Cb].
      cbn [nth] in La, Lb, Ca, Cb. destruct a as [|a [|]]; try discriminate La. destruct b as [|b [|]]; try discriminate Lb.
      pose proof (Ca 0 0%Z ltac:(split; lia)) as Ea. pose proof (Cb 0 0%Z ltac:(split; lia)) as Eb.
      unfold coeff in Ea, Eb. change (Z.to_nat (Z.of_nat (0 * 0 + 0) + 0)) with 0 in Ea, Eb. rewrite Hs in Ea, Eb by lia.
      cbn [nth] in Ea, Eb. unfold draw in Ea, Eb. replace (2 / 2)%R with 1%R in Ea, Eb by field. rewrite sqrt_1, !Rmult_1_r in Ea, Eb.
      rewrite Cconj_R in Ea, Eb. change (INR 0) with 0%R in Ea, Eb. replace (4 * PI / (2 * 0 + 1))%R with (4 * PI)%R in Ea, Eb by field.
      rewrite Ea, Eb. f_equal; [f_equal; ring|]. f_equal. f_equal. ring. }
    rewrite Ws. cbn [length seq combine rmap]. unfold covariance_entry. cbn [fst snd is_ergodic Z.eqb Nat.eqb negb orb].
    unfold one_harmonic. cbn [nth].
    change (samples 1) with 4. cbn [seq map]. unfold np_get at 1. cbn [nth_error rbind]. eexists. split; [reflexivity|]. unfold row. f_equal.
    - rewrite RtoC_inv by lra. field. intros K. apply RtoC_inj in K. lra.
    - f_equal. f_equal. unfold np_var, np_mean. cbn [map length clsum rlsum]. rewrite Cmult_0_l.
      replace (Cplus (RtoC 0) (Cplus (RtoC 0) (Cplus (RtoC 0) (Cplus (RtoC 0) (RtoC 0))))) with (RtoC 0) by ring.
      unfold Cdiv. rewrite Cmult_0_l. replace (Cminus (RtoC 0) (RtoC 0)) with (RtoC 0) by ring. rewrite Cmod_0. unfold Rdiv. ring. }
  assert (ED : covariance_runs one_harmonic (fun _ _ => 1%R) 1 [[RtoC 1]; [RtoC 0]] 0 2 2 = Ok [row; row]).
  { unfold covariance_runs. rewrite (collect_runs 1 _ (fun _ => row) Run 2). reflexivity. }
  exists [row; row]. eexists. split; [exact ED|]. split; [reflexivity|]. split.
  - change (map (fun run => nthC run 0) [row; row]) with (map (fun _ : nat => (1, 1)%R : C) (seq 0 2)).
    rewrite np_var_csum by lia. cbn [rsum csum]. rewrite !Cmod_sq. cbn. field.
  - cbn [map nth set_nth seq length]. rewrite Cmod_R, Rabs_pos_eq by apply np_var_nonneg.
    rewrite np_var_mean by discriminate. unfold np_mean. cbn [row map length rlsum clsum]. rewrite Cmod_0.
    replace (Cdiv (Cplus (1, 1)%R (Cplus (RtoC 0) (RtoC 0))) (RtoC (INR 2))) with ((1 / 2, 1 / 2)%R : C).
    + rewrite !Cmod_sq. cbn. field.
    + apply C_ext; cbn; field.
Qed.
Print Assumptions C70_first_run_refuted.

(** ** Slepian wavelets *)

Lemma filter_nth_prefix {A} (q : A -> bool) (dflt : A) l j : j < length l -> (forall i, i <= j -> q (nth i l dflt) = true) ->
  nth j (filter q l) dflt = nth j l dflt /\ j < length (filter q l).
Proof.
  revert j. induction l as [|x l IH]; intros j Hj H; [cbn in Hj; lia|]. cbn [filter]. pose proof (H 0 ltac:(lia)) as H0. cbn [nth] in H0. rewrite H0.
  destruct j as [|j]; [cbn; split; [reflexivity|lia]|]. cbn [nth length].
  destruct (IH j) as [E L].
  - cbn in Hj. lia.
  - intros i Hi. exact (H (S i) ltac:(lia)).
  - split; [exact E|lia].
Qed.

Section SlepianCovariance.
  Variables (inverse : nat -> list C -> list C) (L : nat) (Y : nat -> nat -> C) (s : slepian) (cols : nat) (wavelets : list (list C)).
  Hypothesis HY : synthesis L Y inverse.
  Hypothesis HB : slepian_basis L s.
  Hypothesis HN : Nn s <= L * L.
  Hypothesis Hm : matrix cols wavelets.
  Hypothesis Hc : Nn s <= cols.

  (** The field of scale [j] in run [r]. *)
  Definition slepian_field (v : R) (X : nat -> R) (r j k : nat) : C :=
    csum (L * L) (fun q => Cmult (if q <? Nn s then Cmult (at_ wavelets j q) (nthC (inverse L (evec s q)) k) else RtoC 0)
                                 (draw (L * L) v (-1) X r q)).

  Lemma slepian_inverse_at w k : Nn s <= length w -> k < samples L ->
    exists f, slepian_inverse inverse w L s = Ok f /\ nthC f k = csum (Nn s) (fun p => Cmult (nthC w p) (nthC (inverse L (evec s p)) k)).
  Proof.
    intros Hw Hk. eexists. split; [apply (slepian_inverse_ok inverse L Y); assumption|].
    rewrite (HY _ (expand_length L s w)), nth_map_seq by exact Hk.
    rewrite (csum_ext _ _ (fun i => csum (Nn s) (fun p => Cmult (nthC w p) (Cmult (nthC (evec s p) i) (Y i k))))).
    - rewrite csum_swap. apply csum_ext. intros p Hp. rewrite csum_scal_l. f_equal.
      rewrite HY; [rewrite nth_map_seq by exact Hk; reflexivity|]. destruct HB as (_ & Hn & _ & Hlen & _). apply Hlen. unfold evec. apply nth_In. unfold Nn in Hp. lia.
    - intros i Hi. rewrite expand_nth by exact Hi. rewrite <- csum_scal_r. apply csum_ext. intros p _. ring.
  Qed.

  Lemma slepian_run_ok v X r : exists fields,
    slepian_covariance_run inverse (fun _ => X) L s (A2 cols wavelets) v {| g_seed := 30; g_pos := r * (2 * (L * L)) |}
    = Ok (fields, {| g_seed := 30; g_pos := S r * (2 * (L * L)) |}) /\
    forall j k, (0 < v)%R -> (forall q, X q <> 0%R \/ 2 * (L * L) * S r <= q) -> j < length wavelets -> k < samples L ->
      (forall i, i <= j -> exists p, p < Nn s /\ at_ wavelets i p <> RtoC 0) ->
      nthC (nth j fields []) k = slepian_field v X r j k.
  Proof.
    destruct (signal_of_run_spec X L v r) as [Hl Hs]. pose proof HB as (HN0 & _).
    assert (EN : s_N s = Z.of_nat (Nn s)) by (unfold Nn; lia).
    unfold slepian_covariance_run. rewrite compute_random_signal_run, EN, (forward_rows (Nn s) cols wavelets) by (try assumption; lia). cbn [rbind].
    set (f := signal_of_run X L v r). set (h := fun row => cmul (firstn (Nn s) row) (firstn (Nn s) f)).
    change (map (fun row => cmul (firstn (Nn s) row) (firstn (Nn s) f)) wavelets) with (map h wavelets).
    assert (Hh : forall row, In row wavelets -> length (h row) = Nn s).
    { intros row Hr. unfold h. rewrite cmul_length, !firstn_length, (Hm row Hr). unfold f. lia. }
    rewrite (rmap_ok _ (fun w => inverse L (expand L s w))).
    2:{ intros w Hw. apply filter_In in Hw as [Hw _]. apply in_map_iff in Hw as (row & <- & Hr).
        apply (slepian_inverse_ok inverse L Y); try assumption. rewrite Hh by exact Hr. lia. }
    cbn [rbind]. eexists. split; [reflexivity|]. intros j k Hv HX Hj Hk Hal.
    assert (Hd : forall q, q < L * L -> nthC f q <> RtoC 0).
    { intros q Hq. unfold f. rewrite Hs by exact Hq. unfold draw. intros K. apply (f_equal fst) in K. cbn in K.
      destruct (HX (r * (2 * (L * L)) + q)) as [HX'|HX']; [|lia]. apply Rmult_integral in K as [K|K]; [|contradiction].
      assert (P : (0 < sqrt (v / 2))%R) by (apply sqrt_lt_R0; lra). lra. }
    destruct (filter_nth_prefix (existsb Cnonzero) (h []) (map h wavelets) j) as [En Hlen].
    - rewrite map_length. exact Hj.
    - intros i Hi. rewrite map_nth. destruct (Hal i Hi) as (p & Hp & Hnz).
      apply (row_alive (Nn s) cols wavelets f i); try assumption; [unfold f; lia|lia|]. exists p. split; [exact Hp|]. split; [exact Hnz|]. apply Hd. lia.
    - rewrite app_nth1 by (rewrite map_length; exact Hlen).
      rewrite (nth_indep _ [] (inverse L (expand L s (h [])))) by (rewrite map_length; exact Hlen).
      rewrite (map_nth (fun w => inverse L (expand L s w))), En, map_nth.
      assert (Hin : In (nth j wavelets []) wavelets) by (apply nth_In, Hj).
      destruct (slepian_inverse_at (h (nth j wavelets [])) k ltac:(rewrite Hh by exact Hin; lia) Hk) as (f' & Ef & Ek).
      rewrite (slepian_inverse_ok inverse L Y) in Ef by (try assumption; rewrite Hh by exact Hin; lia). injection Ef as <-. rewrite Ek.
      unfold slepian_field. replace (L * L) with (Nn s + (L * L - Nn s)) at 1 by lia. rewrite csum_app.
      rewrite (csum_zero (L * L - Nn s)).
      + rewrite Cplus_0_r. apply csum_ext. intros p Hp. destruct (Nat.ltb_spec p (Nn s)); [|lia].
        unfold h. rewrite (nth_cmul (Nn s)) by (try exact Hp; rewrite ?(Hm _ Hin); unfold f; lia).
        unfold f. rewrite Hs by lia. unfold draw. apply C_ext; cbn; ring.
      + intros q _. destruct (Nat.ltb_spec (Nn s + q) (Nn s)); [lia|]. ring.
  Qed.

  Lemma slepian_theory v theory j k : j < length wavelets -> k < samples L ->
    compute_slepian_wavelet_covariance inverse L s wavelets L v = Ok theory ->
    nth k (nth j theory []) 0%R = (v * rsum (L * L) (fun q => Cmod (if q <? Nn s then Cmult (at_ wavelets j q) (nthC (inverse L (evec s q)) k) else RtoC 0) ^ 2))%R.
  Proof.
    intros Hj Hk ET. unfold compute_slepian_wavelet_covariance in ET. rewrite (s_p_omega_ok inverse L s HB) in ET. cbn [rbind] in ET.
    pose proof HB as (HN0 & Hn & _ & Hlen & _). rewrite !Nat.eqb_refl in ET. cbn [andb] in ET.
    set (sp := map (fun p => inverse L (evec s p)) (seq 0 (Nn s))) in *.
    rewrite (rmap_ok _ (fun psi => map (fun k => rlsum (map (fun r => nth k r 0%R)
        (map (fun p => map (fun z => (Cmod (fst p) ^ 2 * Cmod z ^ 2)%R) (snd p)) (combine (firstn (Nn s) psi) sp))) * v)%R (seq 0 (samples L)))) in ET.
    - cbn [rbind] in ET. injection ET as <-.
      match goal with |- context [map ?g wavelets] => set (G := g) end.
      rewrite (nth_indep _ [] (G [])) by (rewrite map_length; exact Hj). rewrite map_nth. unfold G. rewrite nth_map_seq by exact Hk.
      assert (Hin : In (nth j wavelets []) wavelets) by (apply nth_In, Hj).
      rewrite (sum_wavelet_power (Nn s) _ sp k (samples L)).
      + rewrite Rmult_comm. f_equal. replace (L * L) with (Nn s + (L * L - Nn s)) by lia. rewrite rsum_app.
        rewrite (rsum_zero (L * L - Nn s)).
        * rewrite Rplus_0_r. apply rsum_ext. intros p Hp. destruct (Nat.ltb_spec p (Nn s)); [|lia].
          rewrite Cmod_mult, Rpow_mult_distr. unfold sp. rewrite nth_map_seq by exact Hp. reflexivity.
        * intros q _. destruct (Nat.ltb_spec (Nn s + q) (Nn s)); [lia|]. rewrite Cmod_0. ring.
      + rewrite (Hm _ Hin). exact Hc.
      + unfold sp. rewrite map_length, seq_length. reflexivity.
      + exact Hk.
      + intros row Hr. unfold sp in Hr. apply in_map_iff in Hr as (p & <- & Hp). apply in_seq in Hp.
        rewrite HY; [rewrite map_length, seq_length; reflexivity|]. apply Hlen. unfold evec. apply nth_In. unfold Nn in Hp. lia.
    - intros psi Hp. rewrite py_prefix_nat by exact HN0. fold (Nn s). unfold broadcast. unfold sp. rewrite firstn_length, (Hm psi Hp), map_length, seq_length.
      rewrite Nat.min_l by exact Hc. rewrite Nat.eqb_refl. cbn [rbind]. reflexivity.
  Qed.
End SlepianCovariance.

(** The covariance of the Slepian wavelet coefficients: at every sample the
    variance of the field is the theoretical one, and the variance over the runs
    that the script takes is, on average, smaller by the factor 1 - 1/runs. *)
Theorem C70_slepian : forall inverse L Y s cols wavelets (E : ensemble) runs v theory (D : (nat -> R) -> list (list (list C))) j k,
  synthesis L Y inverse -> slepian_basis L s -> matrix cols wavelets -> Nn s <= cols ->
  decorrelated E (runs * (2 * (L * L))) -> (forall w X i, In (w, X) E -> i < runs * (2 * (L * L)) -> X i <> 0%R) -> (0 < v)%R -> 1 <= runs ->
  j < length wavelets -> k < samples L -> (forall i, i <= j -> exists p, p < Nn s /\ at_ wavelets i p <> RtoC 0) ->
  compute_slepian_wavelet_covariance inverse L s wavelets L v = Ok theory ->
  (forall X, slepian_covariance_runs inverse (fun _ => X) L s (A2 cols wavelets) runs v = Ok (D X)) ->
  (forall r, r < runs -> mean E (fun X => (Cmod (nthC (nth j (nth r (D X) []) []) k) ^ 2)%R) = nth k (nth j theory []) 0%R) /\
  mean E (fun X => slepian_covariance_measured (D X) j k) = ((1 - 1 / INR runs) * nth k (nth j theory []) 0)%R.
Proof.
  intros inverse L Y s cols ws E runs v theory D j k HY HB Hm Hc HE HX Hv Hruns Hj Hk Hal HT HD.
  assert (HN : Nn s <= L * L) by (destruct HB as (_ & A & B & _); unfold Nn; lia).
  assert (P : (0 < INR runs)%R) by (apply lt_0_INR; lia).
  set (a := fun q => if q <? Nn s then Cmult (at_ ws j q) (nthC (inverse L (evec s q)) k) else RtoC 0).
  assert (TH : nth k (nth j theory []) 0%R = (v * rsum (L * L) (fun q => Cmod (a q) ^ 2))%R) by exact (slepian_theory inverse L Y s cols ws HY HB HN Hm Hc v theory j k Hj Hk HT).
  assert (One : forall r, r < runs -> mean E (fun X => (Cmod (slepian_field inverse L s ws v X r j k) ^ 2)%R) = nth k (nth j theory []) 0%R).
  { intros r Hr. rewrite TH. unfold slepian_field. fold a. apply (mean_run E runs (L * L) v (-1) r); try assumption; [lra|ring]. }
  assert (Dat : forall w X r, In (w, X) E -> r < runs -> nthC (nth j (nth r (D X) []) []) k = slepian_field inverse L s ws v X r j k).
  { intros w X r Hin Hr.
    (* the runs use only the draws below the bound: any stream with nonzero draws there *)
    set (X' := fun i => if i <? runs * (2 * (L * L)) then X i else 1%R).
    assert (Same : forall r', r' < runs -> signal_of_run X L v r' = signal_of_run X' L v r').
    { intros r' Hr'. destruct (signal_of_run_spec X L v r') as [l1 n1]. destruct (signal_of_run_spec X' L v r') as [l2 n2].
      apply (nth_ext _ _ (RtoC 0) (RtoC 0)); [congruence|]. intros q Hq. rewrite n1, n2 by lia. unfold draw, X'.
      destruct (Nat.ltb_spec (r' * (2 * (L * L)) + q) (runs * (2 * (L * L)))); [|nia].
      destruct (Nat.ltb_spec (r' * (2 * (L * L)) + (L * L + q)) (runs * (2 * (L * L)))); [|nia]. reflexivity. }
    assert (Field : slepian_field inverse L s ws v X' r j k = slepian_field inverse L s ws v X r j k).
    { unfold slepian_field. apply csum_ext. intros q Hq. f_equal. unfold draw, X'.
      destruct (Nat.ltb_spec (r * (2 * (L * L)) + q) (runs * (2 * (L * L)))); [|nia].
      destruct (Nat.ltb_spec (r * (2 * (L * L)) + (L * L + q)) (runs * (2 * (L * L)))); [|nia]. reflexivity. }
    set (out := fun x r' => match slepian_covariance_run inverse (fun _ => x) L s (A2 cols ws) v {| g_seed := 30%Z; g_pos := r' * (2 * (L * L)) |} with
                            | Ok p => fst p | Err _ => [] end).
    assert (Runs : forall x n, slepian_covariance_runs inverse (fun _ => x) L s (A2 cols ws) n v = Ok (map (out x) (seq 0 n))).
    { intros x n. unfold slepian_covariance_runs. rewrite (collect_runs L _ (out x)); [reflexivity|].
      intros r'. destruct (slepian_run_ok inverse L Y s cols ws HY HB HN Hm Hc v x r') as (fl & El & _). exists fl. split; [exact El|].
      unfold out. rewrite El. reflexivity. }
    pose proof (HD X) as EX. rewrite Runs in EX. assert (ED : D X = map (out X) (seq 0 runs)) by congruence. rewrite ED, nth_map_seq by exact Hr.
    assert (EO : out X r = out X' r).
    { unfold out, slepian_covariance_run. rewrite !compute_random_signal_run, Same by exact Hr. reflexivity. }
    rewrite EO, <- Field. unfold out.
    destruct (slepian_run_ok inverse L Y s cols ws HY HB HN Hm Hc v X' r) as (fl & El & Hfl). rewrite El. cbn [fst].
    apply Hfl; try assumption. intros q. unfold X'. destruct (Nat.ltb_spec q (runs * (2 * (L * L)))) as [Hq|Hq]; left.
    - exact (HX w X q Hin Hq).
    - lra. }
  split.
  - intros r Hr. rewrite <- (One r Hr). apply mean_ext_in. intros w X Hin. rewrite (Dat w X r Hin Hr). reflexivity.
  - assert (LD : forall X, length (D X) = runs).
    { intros X. pose proof (HD X) as EX. unfold slepian_covariance_runs in EX.
      set (out := fun r' => match slepian_covariance_run inverse (fun _ => X) L s (A2 cols ws) v {| g_seed := 30%Z; g_pos := r' * (2 * (L * L)) |} with
                            | Ok p => fst p | Err _ => [] end).
      rewrite (collect_runs L _ out) in EX.
      - cbn [rbind fst] in EX. assert (ED : D X = map out (seq 0 runs)) by congruence. rewrite ED, map_length, seq_length. reflexivity.
      - intros r'. destruct (slepian_run_ok inverse L Y s cols ws HY HB HN Hm Hc v X r') as (fl & El & _). exists fl. split; [exact El|].
        unfold out. rewrite El. reflexivity. }
    transitivity (mean E (fun X => (/ INR runs * rsum runs (fun r => Cmod (slepian_field inverse L s ws v X r j k) ^ 2)
       + - / INR runs ^ 2 * Cmod (csum runs (fun r => csum (L * L) (fun q => Cmult (a q) (draw (L * L) v (-1) X r q)))) ^ 2)%R)).
    + apply mean_ext_in. intros w X Hin. unfold slepian_covariance_measured.
      assert (EM : map (fun run => nthC (nth j run []) k) (D X) = map (fun r => slepian_field inverse L s ws v X r j k) (seq 0 runs)).
      { rewrite <- (map_nth_seq [] (D X)), map_map, LD. apply map_ext_in. intros r Hr. apply in_seq in Hr. apply (Dat w X r Hin). lia. }
      rewrite EM, np_var_csum by exact Hruns. change (csum runs (fun r => slepian_field inverse L s ws v X r j k))
        with (csum runs (fun r => csum (L * L) (fun q => Cmult (a q) (draw (L * L) v (-1) X r q)))). field. lra.
    + rewrite mean_plus, !mean_scal, mean_rsum.
      rewrite (rsum_ext runs _ (fun _ => nth k (nth j theory []) 0%R)) by (intros r Hr; apply One, Hr).
      rewrite (mean_runs E runs (L * L) v (-1) (fun _ => a)) by (assumption || lra || ring).
      rewrite !rsum_const. rewrite TH. field. lra.
Qed.
Print Assumptions C70_slepian.

Lemma filter_shorter {A} (f : A -> bool) l : length (filter f l) <= length l.
Proof. induction l as [|x l IH]; cbn; [lia|]. destruct (f x); cbn; lia. Qed.

(** Every run fills one field per wavelet; the fields of wavelets at the end that
    vanish on the Slepian coefficients are zero. *)
Theorem C70_slepian_places : forall inverse normal L Y s cols wavelets runs v D r k,
  synthesis L Y inverse -> slepian_basis L s -> matrix cols wavelets -> Nn s <= cols ->
  slepian_covariance_runs inverse normal L s (A2 cols wavelets) runs v = Ok D -> r < runs ->
  (forall j p, k <= j -> j < length wavelets -> p < Nn s -> at_ wavelets j p = RtoC 0) ->
  length D = runs /\ length (nth r D []) = length wavelets /\
  forall j, k <= j -> j < length wavelets -> nth j (nth r D []) [] = repeat (RtoC 0) (samples L).
Proof.
  intros inverse normal L Y s cols ws runs v D r k HY HB Hm Hc HD Hr Z.
  assert (HN : Nn s <= L * L) by (destruct HB as (_ & A & B & _); unfold Nn; lia). pose proof HB as (HN0 & _).
  assert (EN : s_N s = Z.of_nat (Nn s)) by (unfold Nn; lia).
  assert (RUN : forall r', exists fields, slepian_covariance_run inverse normal L s (A2 cols ws) v {| g_seed := 30; g_pos := r' * (2 * (L * L)) |}
      = Ok (fields, {| g_seed := 30; g_pos := S r' * (2 * (L * L)) |}) /\ length fields = length ws /\
      forall j, k <= j -> j < length ws -> nth j fields [] = repeat (RtoC 0) (samples L)).
  { intros r'. destruct (signal_of_run_spec (normal 30%Z) L v r') as [Hl _].
    assert (CR : slepian_covariance_run inverse normal L s (A2 cols ws) v {| g_seed := 30; g_pos := r' * (2 * (L * L)) |}
      = slepian_covariance_run inverse (fun _ => normal 30%Z) L s (A2 cols ws) v {| g_seed := 30; g_pos := r' * (2 * (L * L)) |}) by reflexivity.
    rewrite CR. unfold slepian_covariance_run. rewrite compute_random_signal_run, EN, (forward_rows (Nn s) cols ws) by (try assumption; lia). cbn [rbind].
    set (f := signal_of_run (normal 30%Z) L v r') in *. set (h := fun row => cmul (firstn (Nn s) row) (firstn (Nn s) f)).
    change (map (fun row => cmul (firstn (Nn s) row) (firstn (Nn s) f)) ws) with (map h ws).
    assert (Hh : forall row, In row ws -> length (h row) = Nn s).
    { intros row Hrow. unfold h. rewrite cmul_length, !firstn_length, (Hm row Hrow), Hl. lia. }
    rewrite (rmap_ok _ (fun w => inverse L (expand L s w))).
    2:{ intros w Hw. apply filter_In in Hw as [Hw _]. apply in_map_iff in Hw as (row & <- & Hrow).
        apply (slepian_inverse_ok inverse L Y); try assumption. rewrite Hh by exact Hrow. lia. }
    cbn [rbind arr_len]. set (kept := filter (existsb Cnonzero) (map h ws)).
    assert (KL : length kept <= length ws) by (unfold kept; rewrite <- (map_length h ws); apply filter_shorter).
    assert (KK : length kept <= k).
    { unfold kept. destruct (Nat.le_gt_cases (length ws) k) as [Q|Q]; [unfold kept in KL; lia|].
      assert (SP : map h ws = firstn k (map h ws) ++ skipn k (map h ws)) by (symmetry; apply firstn_skipn).
      rewrite SP, filter_app, app_length. rewrite (SelectProofs.filter_none (existsb Cnonzero) (skipn k (map h ws))).
      - pose proof (filter_shorter (existsb Cnonzero) (firstn k (map h ws))) as FL. rewrite firstn_length in FL. cbn [length]. lia.
      - intros x Hx. apply (In_nth _ _ []) in Hx as (i & Hi & <-). rewrite skipn_length, map_length in Hi. assert (NS : nth i (skipn k (map h ws)) [] = nth (k + i) (map h ws) []) by (rewrite <- !nth_default_eq; unfold nth_default; rewrite nth_error_skipn; reflexivity). rewrite NS.
        rewrite (nth_indep _ [] (h [])) by (rewrite map_length; lia). rewrite map_nth.
        apply Bool.not_true_is_false. intros X. apply existsb_exists in X as (z & Hz & NZ).
        assert (Hin : In (nth (k + i) ws []) ws) by (apply nth_In; lia).
        apply (In_nth _ _ (RtoC 0)) in Hz as (q & Hq & <-). rewrite (Hh _ Hin) in Hq.
        unfold h in NZ. rewrite (nth_cmul (Nn s)) in NZ by (try exact Hq; rewrite ?(Hm _ Hin), ?Hl; lia).
        change (nth q (nth (k + i) ws []) (RtoC 0)) with (at_ ws (k + i) q) in NZ. rewrite (Z (k + i) q) in NZ by lia.
        rewrite Cmult_0_l in NZ. unfold Cnonzero in NZ. cbn [Re Im RtoC fst snd] in NZ. rewrite Reqb_true in NZ. discriminate NZ. }
    eexists. split; [reflexivity|]. rewrite map_length. split.
    - rewrite app_length, map_length, repeat_length. lia.
    - intros j Hj1 Hj2. rewrite app_nth2 by (rewrite map_length; lia). rewrite map_length. apply nth_error_nth. apply nth_error_repeat. lia. }
  set (out := fun r' => match slepian_covariance_run inverse normal L s (A2 cols ws) v {| g_seed := 30%Z; g_pos := r' * (2 * (L * L)) |} with
                        | Ok p => fst p | Err _ => [] end).
  assert (ED : D = map out (seq 0 runs)).
  { unfold slepian_covariance_runs in HD. rewrite (collect_runs L _ out) in HD.
    - cbn [rbind fst] in HD. congruence.
    - intros r'. destruct (RUN r') as (fl & El & _). exists fl. split; [exact El|]. unfold out. rewrite El. reflexivity. }
  rewrite ED, map_length, seq_length. split; [reflexivity|]. rewrite nth_map_seq by exact Hr.
  destruct (RUN r) as (fl & El & H1 & H2). unfold out. rewrite El. cbn [fst]. split; assumption.
Qed.
Print Assumptions C70_slepian_places.

(** ** Reconstruction scale by scale *)

Definition scale_sum (rows : list (list C)) (n p : nat) : C := csum n (fun j => at_ rows j p).

Lemma inverse_row N cols rows w : matrix cols rows -> N <= cols -> length w = N ->
  slepian_wavelet_inverse (A1 w) (A2 cols rows) (Z.of_nat N)
  = Ok (map (fun p => Cmult (scale_sum rows (Nat.min N (length rows)) p) (Cconj (nthC w p))) (seq 0 N)).
Proof.
  intros Hm Hc Hw. unfold slepian_wavelet_inverse. cbn [arr_len arr_prefix py_prefix_opt]. rewrite Hw, py_prefix_nat, Nat2Z.id by lia.
  rewrite sifting_row; [|intros r Hr; apply Hm; rewrite <- (firstn_skipn N rows); apply in_or_app; left; exact Hr|exact Hc|lia]. cbn [rbind arr_sum0]. unfold sum_axis0. f_equal. apply map_ext_in.
  intros p Hp. apply in_seq in Hp. rewrite map_map. unfold scale_sum. rewrite <- csum_scal_r.
  rewrite (clsum_nth _), map_length, firstn_length. apply csum_ext. intros j Hj.
  set (g := fun row => nthC (cmul (firstn N row) (firstn N w)) p).
  rewrite (nth_indep _ (RtoC 0) (g [])) by (rewrite map_length, firstn_length; lia). rewrite (map_nth g). unfold g.
  rewrite nth_firstn_lt by lia.
  assert (Hin : In (nth j rows []) rows) by (apply nth_In; lia). rewrite (nth_cmul N) by (rewrite ?(Hm _ Hin); lia). reflexivity.
Qed.

(** After scale [i] the script has multiplied the sum of the scales so far with
    the sum of all wavelets (at most [N] of them, [N] being the length of a
    row). *)
Theorem C70_progressive : forall N cols rows W, matrix cols rows -> N <= cols -> matrix N W ->
  exists steps, progressive_reconstruction W (A2 cols rows) (Z.of_nat N) = Ok steps /\ length steps = length W /\
    forall i p, i < length W -> p < N -> length (nth i steps []) = N /\
      at_ steps i p = Cmult (scale_sum rows (Nat.min N (length rows)) p) (Cconj (scale_sum W (S i) p)).
Proof.
  intros N cols rows W Hm Hc HW.
  set (K := fun p => scale_sum rows (Nat.min N (length rows)) p).
  set (part := fun V n => map (fun p => Cmult (K p) (Cconj (scale_sum V n p))) (seq 0 N)).
  set (step := fun (st : list (list C) * list C) coeff =>
          let* x := slepian_wavelet_inverse (A1 coeff) (A2 cols rows) (Z.of_nat N) in
          let* f_p := np_iadd (snd st) x in
          Ok (fst st ++ [f_p], f_p)).
  assert (G : forall V done, matrix N (done ++ V) ->
     rfold step V (map (fun i => part done (S i)) (seq 0 (length done)), part done (length done))
     = Ok (map (fun i => part (done ++ V) (S i)) (seq 0 (length (done ++ V))), part (done ++ V) (length (done ++ V)))).
  { induction V as [|w V IH]; intros done HV.
    - rewrite app_nil_r. reflexivity.
    - cbn [rfold]. unfold step at 1. cbn [fst snd].
      rewrite (inverse_row N cols rows w Hm Hc) by (apply HV, in_or_app; right; left; reflexivity). cbn [rbind].
      assert (A : np_iadd (part done (length done)) (map (fun p => Cmult (scale_sum rows (Nat.min N (length rows)) p) (Cconj (nthC w p))) (seq 0 N))
                  = Ok (part (done ++ [w]) (S (length done)))).
      { unfold np_iadd, broadcast, part. rewrite !map_length, seq_length, Nat.eqb_refl. cbn [rbind]. rewrite !map_length, combine_length, !map_length, seq_length, Nat.min_id, Nat.eqb_refl.
        f_equal. rewrite combine_map_map, map_map. apply map_ext_in. intros p Hp. cbn [fst snd]. unfold K, scale_sum. cbn [csum].
        rewrite app_nth2, Nat.sub_diag by lia. cbn [nth].
        rewrite (csum_ext (length done) (fun j => at_ (done ++ [w]) j p) (fun j => at_ done j p)) by (intros j Hj; rewrite app_nth1 by exact Hj; reflexivity).
        rewrite Cconj_plus. ring. }
      rewrite A. cbn [rbind].
      specialize (IH (done ++ [w])). rewrite <- app_assoc in IH. cbn [app] in IH. rewrite app_length in IH. cbn [length] in IH.
      replace (length done + 1) with (S (length done)) in IH by lia. rewrite <- IH by exact HV. f_equal. f_equal.
      replace (S (length done)) with (length done + 1) by lia. rewrite seq_app, map_app. cbn [seq map]. f_equal.
      + apply map_ext_in. intros i Hi. apply in_seq in Hi. unfold part. apply map_ext. intros p. do 2 f_equal. unfold scale_sum.
        apply csum_ext. intros j Hj. rewrite app_nth1 by lia. reflexivity.
      + rewrite Nat.add_0_l. replace (length done + 1) with (S (length done)) by lia. reflexivity. }
  exists (map (fun i => part W (S i)) (seq 0 (length W))). split; [|split].
  - unfold progressive_reconstruction. destruct (Z.ltb_spec (Z.of_nat N) 0); [lia|]. rewrite Nat2Z.id. fold step.
    replace (([], zeros N) : list (list C) * list C) with (map (fun i => part [] (S i)) (seq 0 (length (@nil (list C)))), part [] (length (@nil (list C)))).
    + rewrite (G W []) by exact HW. reflexivity.
    + cbn [length seq map]. f_equal. unfold part, zeros, scale_sum. cbn [csum].
      rewrite (map_ext _ (fun _ => RtoC 0)) by (intros p; rewrite Cconj_R; ring).
      apply (nth_ext _ _ (RtoC 0) (RtoC 0)); [rewrite map_length, seq_length, repeat_length; reflexivity|]. intros k Hk. rewrite map_length, seq_length in Hk.
      rewrite nth_map_seq by exact Hk. rewrite nth_repeat. reflexivity.
  - rewrite map_length, seq_length. reflexivity.
  - intros i p Hi Hp. rewrite nth_map_seq by exact Hi. unfold part. split; [rewrite map_length, seq_length; reflexivity|].
    rewrite nth_map_seq by exact Hp. reflexivity.
Qed.
Print Assumptions C70_progressive.

(** Hence the last step is not the signal, although the wavelets are admissible
    and the synthesis of all scales at once is. *)
Theorem C70_progressive_refuted : exists rows f W steps, matrix 2 rows /\ admissible 2 rows /\
  slepian_wavelet_forward f (A2 2 rows) 2 = Ok (A2 2 W) /\
  slepian_wavelet_inverse (A2 2 W) (A2 2 rows) 2 = Ok f /\
  progressive_reconstruction W (A2 2 rows) 2 = Ok steps /\
  last steps [] = map (Cmult (RtoC (49 / 25))) f /\ f <> map (Cmult (RtoC (49 / 25))) f.
Proof.
  set (rows := [[RtoC (3 / 5); RtoC (3 / 5)]; [RtoC (4 / 5); RtoC (4 / 5)]]).
  set (f := [RtoC 1; RtoC 1]).
  assert (Hm : matrix 2 rows) by (intros r [<-|[<-|[]]]; reflexivity).
  assert (Hr : admissible 2 rows).
  { intros p Hp. destruct p as [|[|p]]; [| |lia]; unfold rows; cbn [length csum nth]; rewrite !Cconj_R, <- !RtoC_mult, <- !RtoC_plus; f_equal; field. }
  destruct (C26_full_signal 2 2 rows f 2 Hm) as (W & EW & EI); try (cbn; lia); [exact Hr| | |].
  { intros p Hp. destruct p as [|[|p]]; [| |lia]; cbn; intros K; apply RtoC_inj in K; lra. }
  { intros j Hj. split; [intros _; exact Hj|]. intros _. exists 0. split; [lia|].
    destruct j as [|[|j]]; [| |cbn in Hj; lia]; cbn; intros K; apply RtoC_inj in K; lra. }
  exists rows, f.
  assert (HW : W = A2 2 rows).
  { change (Z.of_nat 2) with 2%Z in EW. change 2%Z with (Z.of_nat 2) in EW. rewrite (forward_rows 2 2 rows f Hm) in EW by (cbn; lia). injection EW as <-.
    f_equal. unfold rows, f. cbn [map firstn]. unfold cmul, zip. cbn [combine map fst snd]. rewrite !Cconj_R, !Cmult_1_r.
    assert (T : forall x, (x <> 0)%R -> Cnonzero (RtoC x) = true).
    { intros x Hx. destruct (Cnonzero (RtoC x)) eqn:Ez; [reflexivity|]. apply Cnonzero_false in Ez. apply RtoC_inj in Ez. contradiction. }
    cbn [filter existsb]. rewrite !T by lra. reflexivity. }
  subst W. destruct (C70_progressive 2 2 rows rows Hm) as (steps & Es & Ls & Hs); [lia|exact Hm|].
  exists rows, steps. split; [exact Hm|]. split; [exact Hr|]. split; [exact EW|]. split; [exact EI|]. split; [exact Es|].
  destruct steps as [|a [|b [|c steps]]]; try discriminate Ls. split.
  - cbn [last]. destruct (Hs 1 0 ltac:(cbn; lia) ltac:(lia)) as [Lb E0]. destruct (Hs 1 1 ltac:(cbn; lia) ltac:(lia)) as [_ E1].
    cbn [nth] in Lb, E0, E1. destruct b as [|x [|y [|z b]]]; try discriminate Lb. cbn [nth] in E0, E1.
    rewrite E0, E1. unfold scale_sum, rows, f. cbn [map length Nat.min csum nth]. rewrite <- !RtoC_plus, !Cconj_R, <- !RtoC_mult.
    f_equal; [|f_equal]; f_equal; field.
  - unfold f. cbn [map]. rewrite <- RtoC_mult. intros K. injection K as K _. apply RtoC_inj in K || idtac. lra.
Qed.
Print Assumptions C70_progressive_refuted.

(** ** Denoising *)

(** The difference of two lists of coefficients. *)
Definition minus (a b : list C) : list C := map (fun p => Cminus (fst p) (snd p)) (combine a b).

Lemma broadcast_minus a b : length a = length b -> broadcast Cminus a b = Ok (minus a b).
Proof. intros H. unfold broadcast. rewrite H, Nat.eqb_refl. reflexivity. Qed.

(** The scaling function is left alone, every other scale is synthesised,
    thresholded at [n_sigma] times the deviation of the noise at this scale
    ([sigma_noise] times the norm of the wavelet, C55) and analysed again; the
    result is the synthesis of the scales, and its signal-to-noise ratio is
    that of the difference to the signal. *)
Theorem C70_denoise_axisym : forall inverse forward rotate L signal noised snr wavelets snr_in n_sigma,
  lengths L inverse forward -> length noised = L * L -> length signal = L * L -> matrix (L * L) wavelets -> wavelets <> [] ->
  exists W W' flm,
    axisymmetric_wavelet_forward L noised wavelets = Ok W /\ length W = length wavelets /\ length W' = length wavelets /\
    nth 0 W' [] = nth 0 W [] /\
    (forall j, 0 < j < length wavelets -> exists g,
       thresholded (fun _ => IZR n_sigma * (compute_sigma_noise signal snr_in None * sqrt (power (nth j wavelets []))))%R
                   (inverse L (nth j W [])) g /\
       nth j W' [] = forward L g) /\
    length flm = L * L /\
    (forall el m, valid L el m -> coeff flm el m = csum (length wavelets) (fun j =>
       Cmult (coeff (nth j W' []) el m) (Cmult (RtoC (sqrt (4 * PI / (2 * INR el + 1)))) (coeff (nth j wavelets []) el 0)))) /\
    denoising_axisym inverse forward rotate L signal noised snr wavelets snr_in n_sigma false
    = Ok (inverse L flm, snr, compute_snr signal (minus flm signal)) /\
    denoising_axisym inverse forward rotate L signal noised snr wavelets snr_in n_sigma true
    = (let* turned := rotate flm L in Ok (inverse L turned, snr, compute_snr signal (minus flm signal))).
Proof.
  intros inverse forward rotate L signal noised snr ws snr_in n HL Hn Hsg Hm Hne.
  destruct (C27_forward L noised ws Hn Hm) as (W & EW & LW & HW).
  assert (HR : forall r, In r W -> length r = L * L).
  { intros r Hr. apply (In_nth _ _ []) in Hr. destruct Hr as (j & Hj & <-). apply HW. congruence. }
  assert (Hws : 0 < length ws) by (destruct ws; [congruence|cbn; lia]).
  assert (Lt : length (tl ws) + 1 = length ws) by (destruct ws; [congruence|cbn; lia]).
  destruct (C22_harmonic inverse forward L W (compute_sigma_j signal (tl ws) snr_in) n HL HR) as (W' & E' & L' & H0 & H').
  { unfold compute_sigma_j. rewrite map_length. lia. }
  assert (R' : forall j, 0 < j < length ws -> exists g,
       thresholded (fun _ => IZR n * (compute_sigma_noise signal snr_in None * sqrt (power (nth j ws []))))%R (inverse L (nth j W [])) g /\
       nth j W' [] = forward L g).
  { intros j [Hj Hj']. destruct j as [|j]; [lia|].
    destruct (H' j (nth (S j) W [])) as (g & Hg & Eg); [apply nth_error_nth'; lia|]. exists g. split.
    - destruct Hg as [Hg1 Hg2]. split; [exact Hg1|]. intros k Hk. specialize (Hg2 k Hk). unfold level in Hg2. rewrite nth_sigma_j in Hg2 by lia.
      replace (nth j (tl ws) []) with (nth (S j) ws []) in Hg2 by (destruct ws; [congruence|reflexivity]). exact Hg2.
    - apply nth_error_nth. exact Eg. }
  assert (R0 : nth 0 W' [] = nth 0 W []).
  { apply nth_error_nth. rewrite H0. apply nth_error_nth'. lia. }
  assert (HR' : forall r, In r W' -> length r = L * L).
  { intros r Hr. apply (In_nth _ _ []) in Hr. destruct Hr as (j & Hj & <-). destruct j as [|j].
    - rewrite R0. apply HW. lia.
    - destruct (R' (S j) ltac:(lia)) as (g & Hg & ->). apply HL. rewrite (proj1 Hg). apply HL. apply HW. lia. }
  set (flm := table L (fun el m => csum (length W') (fun j =>
          Cmult (coeff (nth j W' []) el m) (Cmult (RtoC (sqrt (4 * PI / (2 * INR el + 1)))) (coeff (nth j ws []) el 0))))).
  assert (EI : axisymmetric_wavelet_inverse L W' ws = Ok flm) by (apply axisymmetric_inverse_ok; [congruence|exact HR'|exact Hm]).
  assert (Lf : length flm = L * L) by apply table_length.
  exists W, W', flm. split; [exact EW|]. split; [exact LW|]. split; [congruence|]. split; [exact R0|]. split; [exact R'|]. split; [exact Lf|]. split.
  { intros el m V. unfold flm. rewrite coeff_table by exact V. rewrite L', LW. reflexivity. }
  unfold denoising_axisym. rewrite EW. cbn [rbind]. rewrite E'. cbn [rbind]. rewrite EI. cbn [rbind]. rewrite broadcast_minus by congruence. cbn [rbind].
  split; reflexivity.
Qed.
Print Assumptions C70_denoise_axisym.

(** With no threshold nothing happens to a noised signal: the field is that of
    the noised coefficients, and both signal-to-noise ratios agree. *)
Theorem C70_denoise_axisym_zero : forall inverse forward rotate L signal noise wavelets snr_in,
  lengths L inverse forward -> sampling_theorem L inverse forward -> length signal = L * L -> length noise = L * L ->
  matrix (L * L) wavelets -> wavelets <> [] -> tight L wavelets ->
  let noised := map (fun p => Cplus (fst p) (snd p)) (combine signal noise) in
  let snr := compute_snr signal noise in
  denoising_axisym inverse forward rotate L signal noised (Some snr) wavelets snr_in 0 false
  = Ok (inverse L noised, Some snr, snr).
Proof.
  intros inverse forward rotate L signal noise ws snr_in HL HS Hs Hn Hm Hne Ht noised snr.
  assert (Ln : length noised = L * L) by (unfold noised; rewrite map_length, combine_length; lia).
  destruct (C27_round_trip L noised ws Ln Hm Ht) as (W & EW & EI).
  destruct (C27_forward L noised ws Ln Hm) as (W2 & EW2 & LW & HW). rewrite EW in EW2. injection EW2 as <-.
  unfold denoising_axisym. rewrite EW. cbn [rbind]. rewrite C22_harmonic_zero; [|exact HL|exact HS| |].
  2:{ intros r Hr. apply (In_nth _ _ []) in Hr. destruct Hr as (j & Hj & <-). apply HW. congruence. }
  2:{ unfold compute_sigma_j. rewrite map_length, LW. destruct ws; [congruence|cbn; lia]. }
  cbn [rbind]. rewrite EI. cbn [rbind]. rewrite broadcast_minus by congruence. cbn [rbind]. unfold snr. do 3 f_equal.
  apply (nth_ext _ _ (RtoC 0) (RtoC 0)); unfold minus; [rewrite map_length, combine_length; lia|]. intros k Hk. rewrite map_length, combine_length in Hk.
  rewrite (nth_zip2 Cminus noised signal (RtoC 0) (RtoC 0)) by lia. unfold noised. rewrite (nth_zip2 Cplus signal noise (RtoC 0) (RtoC 0)) by lia. ring.
Qed.
Print Assumptions C70_denoise_axisym_zero.

Lemma inverse_zeros inverse L Y : synthesis L Y inverse -> inverse L (repeat (RtoC 0) (L * L)) = repeat (RtoC 0) (samples L).
Proof.
  intros HY. rewrite HY by apply repeat_length. apply (nth_ext _ _ (RtoC 0) (RtoC 0)); [rewrite map_length, seq_length, repeat_length; reflexivity|].
  intros k Hk. rewrite map_length, seq_length in Hk. rewrite nth_map_seq by exact Hk. rewrite nth_repeat.
  apply csum_zero. intros i Hi. rewrite nth_repeat. ring.
Qed.

Lemma thresholded_away t f g : thresholded t f g -> (forall k, k < length f -> (Cmod (nthC f k) < t k)%R \/ nthC f k = RtoC 0) -> g = repeat (RtoC 0) (length f).
Proof.
  intros [Hl H] Hz. apply (nth_ext _ _ (RtoC 0) (RtoC 0)); [rewrite repeat_length; exact Hl|]. intros k Hk. rewrite Hl in Hk. rewrite nth_repeat.
  destruct (Rlt_dec (Cmod (nthC f k)) (t k)) as [Hlt|Hlt]; [apply (H k Hk), Hlt|].
  destruct (Hz k Hk) as [Hlt'|E]; [contradiction|]. transitivity (nthC f k); [apply (H k Hk); lra|exact E].
Qed.

(** With every value of every wavelet scale under its threshold, only the
    scaling function's share of the noised signal remains. *)
Theorem C70_denoise_axisym_all : forall inverse forward rotate L Y signal noised snr wavelets snr_in n_sigma W,
  synthesis L Y inverse -> lengths L inverse forward -> sampling_theorem L inverse forward ->
  length noised = L * L -> length signal = L * L -> matrix (L * L) wavelets -> wavelets <> [] ->
  axisymmetric_wavelet_forward L noised wavelets = Ok W ->
  (forall j k, 0 < j < length wavelets -> k < samples L ->
     (Cmod (nthC (inverse L (nth j W [])) k) < IZR n_sigma * (compute_sigma_noise signal snr_in None * sqrt (power (nth j wavelets []))))%R) ->
  exists flm, length flm = L * L /\
    (forall el m, valid L el m -> coeff flm el m
       = Cmult (RtoC (4 * PI / (2 * INR el + 1) * Cmod (coeff (nth 0 wavelets []) el 0) ^ 2)) (coeff noised el m)) /\
    denoising_axisym inverse forward rotate L signal noised snr wavelets snr_in n_sigma false
    = Ok (inverse L flm, snr, compute_snr signal (minus flm signal)).
Proof.
  intros inverse forward rotate L Y signal noised snr ws snr_in n W HY HL HS Hn Hs Hm Hne EW Hlow.
  destruct (C70_denoise_axisym inverse forward rotate L signal noised snr ws snr_in n HL Hn Hs Hm Hne) as (W2 & W' & flm & EW2 & LW & LW' & H0 & H' & Lf & Hc & ED & _).
  rewrite EW in EW2. injection EW2 as <-.
  destruct (C27_forward L noised ws Hn Hm) as (W2 & EW2 & _ & HW). rewrite EW in EW2. injection EW2 as <-.
  exists flm. split; [exact Lf|]. split; [|exact ED]. intros el m V. rewrite (Hc el m V).
  assert (Hws : 0 < length ws) by (destruct ws; [congruence|cbn; lia]).
  rewrite (csum_single (length ws) 0); [| exact Hws |].
  - rewrite H0. rewrite (proj2 (HW 0 Hws) el m V). rewrite RtoC_mult, <- Cmod2_mult.
    rewrite <- (sqrt_sqrt (4 * PI / (2 * INR el + 1))) at 3 by (apply Rlt_le, sqrt_norm). rewrite RtoC_mult. ring.
  - intros j Hj Hj0. destruct (H' j ltac:(lia)) as (g & Hg & ->).
    assert (Li : length (inverse L (nth j W [])) = samples L) by (apply HL, HW, Hj).
    rewrite (thresholded_away _ _ _ Hg) by (intros k Hk; left; apply Hlow; lia). rewrite Li.
    rewrite <- (inverse_zeros inverse L Y HY), HS by apply repeat_length. unfold coeff. rewrite nth_repeat. ring.
Qed.
Print Assumptions C70_denoise_axisym_all.

(** The deviation of the noise of scale [j] at sample [k], Slepian wavelets
    (C55). *)
Definition slepian_deviation (inverse : nat -> list C -> list C) (L : nat) (s : slepian) (signal : list C) (snr_in : R)
    (wavelets : list (list C)) (j k : nat) : R :=
  (compute_sigma_noise signal snr_in (Some (L * L)%nat)
   * sqrt (rsum (Z.to_nat (s_N s)) (fun p => (Cmod (at_ wavelets j p) ^ 2 * Cmod (nthC (inverse L (evec s p)) k) ^ 2)%R)))%R.

Lemma slepian_sigma_ok inverse L s signal snr_in cols wavelets : slepian_basis L s ->
  (forall v, length v = L * L -> length (inverse L v) = samples L) -> matrix cols wavelets -> Nn s <= cols ->
  compute_slepian_sigma_j inverse L signal wavelets snr_in s
  = Ok (map (fun j => map (slepian_deviation inverse L s signal snr_in wavelets j) (seq 0 (samples L))) (seq 0 (length wavelets))).
Proof.
  intros HB Hi Hm Hc. pose proof HB as (HN & Hn & _). unfold compute_slepian_sigma_j. rewrite (s_p_omega_ok inverse L s HB). cbn [rbind].
  set (rows := map (fun p => inverse L (evec s p)) (seq 0 (Nn s))).
  set (sg := compute_sigma_noise signal snr_in (Some (L * L))).
  set (h := fun psi => map (fun k => (sg * sqrt (rsum (Nn s) (fun p => (Cmod (nthC psi p) ^ 2 * Cmod (nthC (inverse L (evec s p)) k) ^ 2)%R)))%R) (seq 0 (samples L))).
  transitivity (Ok (map h wavelets)).
  - apply rmap_ok. intros psi Hpsi. cbv zeta. rewrite py_prefix_nat by exact HN. fold (Nn s).
    unfold broadcast. assert (Lr : length rows = Nn s) by (unfold rows; rewrite map_length, seq_length; reflexivity).
    assert (Lp : length psi = cols) by (apply Hm, Hpsi).
    rewrite firstn_length, Lp, Nat.min_l, Lr, Nat.eqb_refl by exact Hc. cbn [rbind]. f_equal. unfold h. rewrite map_map. apply map_ext_in. intros k Hk. apply in_seq in Hk.
    do 2 f_equal. rewrite (sum_wavelet_power (Nn s) psi rows k (samples L)).
    + apply rsum_ext. intros p Hp. unfold rows. rewrite nth_map_seq by exact Hp. reflexivity.
    + lia.
    + exact Lr.
    + lia.
    + intros r Hr. unfold rows in Hr. apply in_map_iff in Hr. destruct Hr as (p & <- & Hp). apply in_seq in Hp. apply Hi. apply HB. apply nth_In. unfold Nn in *. lia.
  - f_equal. apply (nth_ext _ _ (h []) (h [])); [rewrite !map_length, seq_length; reflexivity|]. intros j Hj. rewrite map_length in Hj.
    rewrite map_nth. rewrite nth_map_seq by exact Hj. unfold h. apply map_ext. intros k. reflexivity.
Qed.

Lemma inverse_rows N cols rows V : matrix cols rows -> N <= cols -> matrix N V -> length V <= length rows ->
  slepian_wavelet_inverse (A2 N V) (A2 cols rows) (Z.of_nat N)
  = Ok (map (fun p => csum (length V) (fun i => Cmult (at_ rows i p) (Cconj (at_ V i p)))) (seq 0 N)).
Proof.
  intros Hm Hc HV Hl. unfold slepian_wavelet_inverse. cbn [arr_len arr_prefix py_prefix_opt]. rewrite py_prefix_nat, Nat2Z.id by lia.
  set (k := length V).
  assert (P : forall r, In r (firstn k rows) -> length r = cols).
  { intros r Hin. apply Hm. rewrite <- (firstn_skipn k rows). apply in_or_app. left. exact Hin. }
  assert (Lk : length (firstn k rows) = length V) by (rewrite firstn_length; unfold k; lia).
  rewrite (sifting_rows N cols N) by (assumption || lia). cbn [rbind arr_sum0]. unfold sum_axis0. f_equal. apply map_ext_in. intros p Hp. apply in_seq in Hp.
  rewrite map_map. set (h := fun x : list C * list C => nth p (cmul (firstn N (fst x)) (firstn N (snd x))) (RtoC 0)).
  rewrite (clsum_nth (map h (combine (firstn k rows) V))), map_length, combine_length, Lk, Nat.min_id. apply csum_ext. intros i Hi. fold k in Hi.
  rewrite (nth_indep _ (RtoC 0) (h ([], []))) by (rewrite map_length, combine_length; lia). rewrite (map_nth h), combine_nth by exact Lk. unfold h. cbn [fst snd].
  rewrite nth_firstn_lt by exact Hi.
  assert (nth i rows [] = nth i (firstn k rows) []) as -> by (symmetry; apply nth_firstn_lt; exact Hi).
  rewrite nth_cmul; [reflexivity| | |lia].
  - rewrite P by (apply nth_In; lia). exact Hc.
  - rewrite HV by (apply nth_In; exact Hi). lia.
Qed.

Lemma filter_length_bound {A} (q : A -> bool) l : length (filter q l) <= length l.
Proof. induction l as [|x l IH]; [apply le_n|]. cbn [filter]. destruct (q x); cbn [length]; lia. Qed.

(** Row [i] of the wavelet coefficients is synthesised, thresholded at
    [n_sigma] times the deviation of the noise of wavelet [i] and integrated
    again over the sphere; the result is the synthesis of the rows with the
    first wavelets.  (Scales without any coefficient have been dropped from
    the rows, but not from the wavelets and the deviations.) *)
Theorem C70_denoise_slepian : forall inverse L Y s signal noised cols wavelets snr_in n_sigma W,
  synthesis L Y inverse -> slepian_basis L s -> length (s_evals s) = length (s_evecs s) ->
  length signal = Nn s -> Nn s <= length noised -> matrix cols wavelets -> Nn s <= cols ->
  slepian_wavelet_forward noised (A2 cols wavelets) (s_N s) = Ok (A2 (Nn s) W) ->
  exists V f_p f,
    length V = length W /\
    (forall i, i < length W -> exists a b,
       slepian_inverse inverse (nth i W []) L s = Ok a /\
       thresholded (fun k => IZR n_sigma * slepian_deviation inverse L s signal snr_in wavelets i k)%R a b /\
       forall p, p < Nn s -> at_ V i p
         = csum (samples L) (fun k => Cmult (Cmult (nthC b k) (Cconj (nthC (inverse L (evec s p)) k))) (RtoC (flat_weight L k)))) /\
    length f_p = Nn s /\
    (forall p, p < Nn s -> nthC f_p p = csum (length W) (fun i => Cmult (at_ wavelets i p) (Cconj (at_ V i p)))) /\
    slepian_inverse inverse f_p L s = Ok f /\
    denoising_slepian_wavelet inverse L signal noised cols wavelets s snr_in n_sigma = Ok (f_p, f).
Proof.
  intros inverse L Y s signal noised cols ws snr_in n W HY HB He Hs Hn Hm Hc EW. pose proof HB as (HN & HnN & _).
  assert (Hi : forall v, length v = L * L -> length (inverse L v) = samples L).
  { intros v Hv. rewrite (HY v Hv), map_length, seq_length. reflexivity. }
  assert (EN : s_N s = Z.of_nat (Nn s)) by (unfold Nn; lia).
  pose proof EW as EW'. rewrite EN, (forward_rows (Nn s) cols ws noised Hm Hc Hn) in EW'. injection EW' as EW'.
  assert (MW : matrix (Nn s) W).
  { intros r Hr. rewrite <- EW' in Hr. apply filter_In in Hr. destruct Hr as [Hr _]. apply in_map_iff in Hr. destruct Hr as (row & <- & Hrow).
    rewrite cmul_length, !firstn_length, (Hm row Hrow). lia. }
  assert (LW : length W <= length ws).
  { rewrite <- EW'. rewrite <- (map_length (fun row => cmul (firstn (Nn s) row) (firstn (Nn s) noised)) ws). apply filter_length_bound. }
  pose proof (slepian_sigma_ok inverse L s signal snr_in cols ws HB Hi Hm Hc) as ES.
  set (dev := fun j => map (slepian_deviation inverse L s signal snr_in ws j) (seq 0 (samples L))) in *.
  destruct (C22_slepian inverse L W (map dev (seq 0 (length ws))) n s Y HY HB He MW) as (V & EV & LV & HV).
  { rewrite map_length, seq_length. exact LW. }
  { intros sg Hsg. apply in_map_iff in Hsg. destruct Hsg as (j & <- & _). unfold dev. rewrite map_length, seq_length. reflexivity. }
  assert (Row : forall i, i < length W -> exists a b,
       slepian_inverse inverse (nth i W []) L s = Ok a /\
       thresholded (fun k => IZR n * slepian_deviation inverse L s signal snr_in ws i k)%R a b /\ length (nth i V []) = Nn s /\
       forall p, p < Nn s -> at_ V i p
         = csum (samples L) (fun k => Cmult (Cmult (nthC b k) (Cconj (nthC (inverse L (evec s p)) k))) (RtoC (flat_weight L k)))).
  { intros i Hlt. destruct (HV i (nth i W [])) as (a & b & x & Ea & Hb & Ex & Ei); [apply nth_error_nth'; exact Hlt|]. exists a, b. split; [exact Ea|].
    assert (La : length a = samples L).
    { rewrite (slepian_inverse_ok inverse L Y s (nth i W []) HY HB) in Ea by (rewrite MW by (apply nth_In; exact Hlt); lia). injection Ea as <-. apply Hi, expand_length. }
    assert (Lb : length b = samples L) by (rewrite (proj1 Hb); exact La).
    split; [|].
    - destruct Hb as [Hb1 Hb2]. split; [exact Hb1|]. intros k Hk. specialize (Hb2 k Hk).
      assert (El : level (nth i (map dev (seq 0 (length ws))) []) n k = (IZR n * slepian_deviation inverse L s signal snr_in ws i k)%R).
      { rewrite nth_map_seq by lia. unfold level. f_equal. unfold dev.
        transitivity (nth k (map (slepian_deviation inverse L s signal snr_in ws i) (seq 0 (samples L))) 0%R).
        - set (lv := map _ (seq 0 (samples L))). assert (Ll : length lv = samples L) by (unfold lv; rewrite map_length, seq_length; reflexivity).
          destruct lv as [|x0 [|y0 l0]]; try reflexivity. cbn in Ll. rewrite La in Hk. replace k with 0 by lia. reflexivity.
        - apply nth_map_seq. lia. }
      rewrite El in Hb2. exact Hb2.
    - assert (Ex' : slepian_forward inverse L s (of_f b) None = Ok (map (entry inverse L s (of_f b)) (seq 0 (Nn s)))).
      { apply (forward_ok inverse L s (of_f b) None HB He).
        - split; [intros ? H; discriminate H|]. split; [intros ? H; injection H as <-; exact Lb|intros ? H; discriminate H].
        - right. discriminate.
        - apply HB. }
      rewrite Ex in Ex'. injection Ex' as ->. rewrite (nth_error_nth _ _ [] Ei). split; [rewrite map_length, seq_length; reflexivity|].
      intros p Hp. rewrite nth_map_seq by exact Hp. reflexivity. }
  assert (MV : matrix (Nn s) V).
  { intros r Hr. apply (In_nth _ _ []) in Hr. destruct Hr as (i & Hlt & <-). destruct (Row i ltac:(lia)) as (a & b & _ & _ & Hl & _). exact Hl. }
  set (f_p := map (fun p => csum (length V) (fun i => Cmult (at_ ws i p) (Cconj (at_ V i p)))) (seq 0 (Nn s))).
  assert (EI : slepian_wavelet_inverse (A2 (Nn s) V) (A2 cols ws) (s_N s) = Ok f_p).
  { rewrite EN. apply inverse_rows; assumption || lia. }
  assert (Lp : length f_p = Nn s) by (unfold f_p; rewrite map_length, seq_length; reflexivity).
  pose proof (slepian_inverse_ok inverse L Y s f_p HY HB ltac:(lia)) as Ef.
  exists V, f_p, (inverse L (expand L s f_p)). split; [exact LV|]. split.
  { intros i Hlt. destruct (Row i Hlt) as (a & b & R1 & R2 & _ & R3). exists a, b. auto. }
  split; [exact Lp|]. split.
  { intros p Hp. unfold f_p. rewrite nth_map_seq by exact Hp. rewrite LV. reflexivity. }
  split; [exact Ef|]. unfold denoising_slepian_wavelet. rewrite EW. cbn [rbind]. rewrite ES. cbn [rbind snd fst]. rewrite EV. cbn [rbind]. rewrite EI. cbn [rbind].
  rewrite broadcast_minus by congruence. cbn [rbind]. rewrite Ef. reflexivity.
Qed.
Print Assumptions C70_denoise_slepian.

(** With every value under its threshold nothing remains. *)
Theorem C70_denoise_slepian_all : forall inverse L Y s signal noised cols wavelets snr_in n_sigma W,
  synthesis L Y inverse -> slepian_basis L s -> length (s_evals s) = length (s_evecs s) ->
  length signal = Nn s -> Nn s <= length noised -> matrix cols wavelets -> Nn s <= cols ->
  slepian_wavelet_forward noised (A2 cols wavelets) (s_N s) = Ok (A2 (Nn s) W) ->
  (forall i k a, i < length W -> k < samples L -> slepian_inverse inverse (nth i W []) L s = Ok a ->
     (Cmod (nthC a k) < IZR n_sigma * slepian_deviation inverse L s signal snr_in wavelets i k)%R \/ nthC a k = RtoC 0) ->
  denoising_slepian_wavelet inverse L signal noised cols wavelets s snr_in n_sigma
  = Ok (repeat (RtoC 0) (Nn s), repeat (RtoC 0) (samples L)).
Proof.
  intros inverse L Y s signal noised cols ws snr_in n W HY HB He Hs Hn Hm Hc EW Hlow.
  destruct (C70_denoise_slepian inverse L Y s signal noised cols ws snr_in n W HY HB He Hs Hn Hm Hc EW) as (V & f_p & f & LV & HV & Lp & Hp & Ef & ED).
  rewrite ED.
  assert (Z : f_p = repeat (RtoC 0) (Nn s)).
  { apply (nth_ext _ _ (RtoC 0) (RtoC 0)); [rewrite repeat_length; exact Lp|]. intros p Hlt. rewrite Lp in Hlt. rewrite nth_repeat, (Hp p Hlt).
    apply csum_zero. intros i Hi. destruct (HV i Hi) as (a & b & Ea & Hb & Hat). rewrite (Hat p Hlt).
    assert (La : length a <= samples L).
    { pose proof HB as (HN & _). rewrite (slepian_inverse_ok inverse L Y s (nth i W []) HY HB) in Ea.
      - injection Ea as <-. rewrite (HY _ (expand_length L s _)), map_length, seq_length. apply le_n.
      - assert (EN : s_N s = Z.of_nat (Nn s)) by (unfold Nn; lia). rewrite EN, (forward_rows (Nn s) cols ws noised Hm Hc Hn) in EW. injection EW as EW.
        assert (Hr : In (nth i W []) W) by (apply nth_In; exact Hi). rewrite <- EW in Hr at 2. apply filter_In in Hr. destruct Hr as [Hr _]. apply in_map_iff in Hr.
        destruct Hr as (row & <- & Hrow). rewrite cmul_length, !firstn_length, (Hm row Hrow). lia. }
    rewrite (thresholded_away _ _ _ Hb) by (intros k Hk; apply (Hlow i k a Hi); [lia|exact Ea]).
    rewrite csum_zero; [rewrite Cconj_R; ring|]. intros k _. rewrite nth_repeat. ring. }
  rewrite Z in *. do 2 f_equal. rewrite (slepian_inverse_ok inverse L Y s _ HY HB) in Ef by (rewrite repeat_length; apply le_n). injection Ef as <-.
  rewrite <- (inverse_zeros inverse L Y HY). f_equal. apply (nth_ext _ _ (RtoC 0) (RtoC 0)); [rewrite expand_length, repeat_length; reflexivity|].
  intros i Hi. rewrite expand_length in Hi. rewrite expand_nth by exact Hi. rewrite nth_repeat. apply csum_zero. intros p _. rewrite nth_repeat. ring.
Qed.
Print Assumptions C70_denoise_slepian_all.

(** A scale without coefficients before the last one spoils the result whatever
    the threshold: the row of the second wavelet is synthesised with the
    first. *)
Theorem C70_denoise_slepian_refuted : exists inverse L Y s wavelets,
  synthesis L Y inverse /\ slepian_basis L s /\ length (s_evals s) = length (s_evecs s) /\ Nn s = 2 /\
  matrix 2 wavelets /\ admissible 2 wavelets /\
  forall b signal snr_in n_sigma, b <> RtoC 0 -> length signal = 2 -> exists x f,
    denoising_slepian_wavelet inverse L signal [RtoC 0; b] 2 wavelets s snr_in n_sigma = Ok ([x; RtoC 0], f).
Proof.
  set (ws := [[RtoC 1; RtoC 0]; [RtoC 0; RtoC 1]]).
  assert (Hm : matrix 2 ws) by (intros r [<-|[<-|[]]]; reflexivity).
  exists toy_inverse, 2, toy_Y, toy, ws. split; [apply toy_synthesis|]. split; [exact toy_basis|]. split; [reflexivity|]. split; [reflexivity|]. split; [exact Hm|]. split.
  { intros p Hp. destruct p as [|[|p]]; [| |lia]; unfold ws; cbn [length csum nth]; rewrite !Cconj_R; ring. }
  intros b signal snr_in n Hb Hs.
  assert (EW : slepian_wavelet_forward [RtoC 0; b] (A2 2 ws) (s_N toy) = Ok (A2 (Nn toy) [[Cmult (RtoC 0) (Cconj (RtoC 0)); Cmult (RtoC 1) (Cconj b)]])).
  { change (s_N toy) with (Z.of_nat 2). change (Nn toy) with 2. rewrite (forward_rows 2 2 ws _ Hm) by (cbn; lia). do 2 f_equal.
    unfold ws. cbn [map firstn]. unfold cmul, zip. cbn [combine map fst snd filter existsb].
    assert (Z0 : forall x, Cnonzero (Cmult (RtoC 0) x) = false) by (intros x; apply Cnonzero_false; ring).
    assert (Z1 : Cnonzero (Cmult (RtoC 1) (Cconj (RtoC 0))) = false) by (apply Cnonzero_false; rewrite Cconj_R; ring).
    assert (Z2 : Cnonzero (Cmult (RtoC 1) (Cconj b)) = true).
    { destruct (Cnonzero (Cmult (RtoC 1) (Cconj b))) eqn:E; [reflexivity|]. apply Cnonzero_false in E. exfalso. apply Hb.
      rewrite <- (Cconj_conj b). replace (Cconj b) with (Cmult (RtoC 1) (Cconj b)) by ring. rewrite E. apply Cconj_R. }
    rewrite !Z0, Z1, Z2. reflexivity. }
  destruct (C70_denoise_slepian toy_inverse 2 toy_Y toy signal [RtoC 0; b] 2 ws snr_in n _ (toy_synthesis 2) toy_basis eq_refl Hs (le_n 2) Hm (le_n 2) EW)
    as (V & f_p & f & LV & _ & Lp & Hp & _ & ED).
  exists (nthC f_p 0), f. rewrite ED. do 2 f_equal. change (Nn toy) with 2 in Lp, Hp.
  destruct f_p as [|x [|y [|z f_p]]]; try discriminate Lp. cbn [nth]. do 2 f_equal.
  specialize (Hp 1 ltac:(lia)). cbn [nth length csum] in Hp. rewrite Hp. unfold ws. cbn [nth]. ring.
Qed.
Print Assumptions C70_denoise_slepian_refuted.

(** Slepian functions: the field of the noised coefficients is thresholded at
    [n_sigma] times the deviation of one coefficient of the noise, everywhere
    the same. *)
Theorem C70_denoise_function : forall inverse L Y s signal noised snr_in n_sigma,
  synthesis L Y inverse -> slepian_basis L s -> length (s_evals s) = length (s_evecs s) ->
  length signal = Nn s -> Nn s <= length noised ->
  exists a b f_p f,
    slepian_inverse inverse noised L s = Ok a /\
    thresholded (fun _ => IZR n_sigma * sqrt (Rpower 10 (- snr_in / 10) * power signal / INR (L * L)))%R a b /\
    length f_p = Nn s /\
    (forall p, p < Nn s -> nthC f_p p
       = csum (samples L) (fun k => Cmult (Cmult (nthC b k) (Cconj (nthC (inverse L (evec s p)) k))) (RtoC (flat_weight L k)))) /\
    slepian_inverse inverse f_p L s = Ok f /\
    denoising_slepian_function inverse L signal noised s snr_in n_sigma = Ok (f_p, f).
Proof.
  intros inverse L Y s signal noised snr_in n HY HB He Hs Hn.
  assert (Ea : slepian_inverse inverse noised L s = Ok (inverse L (expand L s noised))) by (apply (slepian_inverse_ok inverse L Y); assumption).
  set (a := inverse L (expand L s noised)) in *.
  assert (La : length a = samples L) by (unfold a; rewrite (HY _ (expand_length L s noised)), map_length, seq_length; reflexivity).
  set (sg := compute_sigma_noise signal snr_in (Some (L * L))).
  destruct (C22_pointwise a [sg] n) as (b & Eb & Hb); [right; exists sg; reflexivity|].
  assert (Lb : length b = samples L) by (rewrite (proj1 Hb); exact La).
  assert (Ex : slepian_forward inverse L s (of_f b) None = Ok (map (entry inverse L s (of_f b)) (seq 0 (Nn s)))).
  { apply (forward_ok inverse L s (of_f b) None HB He).
    - split; [intros ? H; discriminate H|]. split; [intros ? H; injection H as <-; exact Lb|intros ? H; discriminate H].
    - right. discriminate.
    - apply HB. }
  set (f_p := map (entry inverse L s (of_f b)) (seq 0 (Nn s))) in *.
  assert (Lp : length f_p = Nn s) by (unfold f_p; rewrite map_length, seq_length; reflexivity).
  pose proof (slepian_inverse_ok inverse L Y s f_p HY HB ltac:(lia)) as Ef.
  exists a, b, f_p, (inverse L (expand L s f_p)). split; [exact Ea|]. split.
  { destruct Hb as [Hb1 Hb2]. split; [exact Hb1|]. intros k Hk. specialize (Hb2 k Hk). unfold level, sg, compute_sigma_noise, signal_power in Hb2. cbv zeta in Hb2.
    rewrite sum_abs2_power in Hb2. exact Hb2. }
  split; [exact Lp|]. split; [intros p Hp; unfold f_p; rewrite nth_map_seq by exact Hp; reflexivity|]. split; [exact Ef|].
  unfold denoising_slepian_function, slepian_function_hard_thresholding. fold sg. rewrite Ea. cbn [rbind]. rewrite Eb. cbn [rbind]. rewrite Ex. cbn [rbind].
  rewrite broadcast_minus by congruence. cbn [rbind]. rewrite Ef. reflexivity.
Qed.
Print Assumptions C70_denoise_function.

(** ** Concrete cases *)

Lemma rsum_term_le n f i : i < n -> (forall j, j < n -> (0 <= f j)%R) -> (f i <= rsum n f)%R.
Proof.
  induction n as [|n IH]; intros Hi Hf; [lia|]. cbn [rsum]. destruct (Nat.eq_dec i n) as [->|Hne].
  - assert (0 <= rsum n f)%R by (apply rsum_nonneg; intros j Hj; apply Hf; lia). lra.
  - specialize (IH ltac:(lia) ltac:(intros j Hj; apply Hf; lia)). specialize (Hf n ltac:(lia)). lra.
Qed.

Module DemoCases.
  Definition d2 : Z -> Z -> Z -> R := wigner_values LatLonCases.dl2 2.
  Definition inverse2 (L : nat) (v : list C) : list C :=
    map (fun k => csum (L * L) (fun i => Cmult (nthC v i) (sampled_harmonic d2 L i k))) (seq 0 (samples L)).
  Definition wavelets2 : list (list C) := [[RtoC 1; RtoC 0; RtoC 2; RtoC 0]; [RtoC 0; RtoC 0; RtoC 1; RtoC 0]].

  Lemma inverse2_ok : synthesis 2 (sampled_harmonic d2 2) inverse2.
  Proof. intros v _. reflexivity. Qed.
  Lemma textbook_d2 : textbook d2 2.
  Proof. exact ConcentrationCases.textbook2. Qed.
  Lemma wavelets2_ok : matrix (2 * 2) wavelets2.
  Proof. intros r [<-|[<-|[]]]; reflexivity. Qed.
  Lemma wavelets2_axisymmetric : forall psi, In psi wavelets2 -> axisymmetric 2 psi.
  Proof.
    intros psi Hin el m [V1 V2] Hm. assert (el = 1 /\ (m = -1 \/ m = 1)%Z) as [-> Hm'] by lia.
    destruct Hin as [<-|[<-|[]]]; destruct Hm' as [-> | ->]; reflexivity.
  Qed.
  Lemma theory2 j : nth j (compute_wavelet_covariance wavelets2 3) 0%R = nth j [15; 3]%R 0%R.
  Proof.
    unfold compute_wavelet_covariance, wavelets2, sum_abs2. cbn [map rlsum]. rewrite !Cmod_R, !Rabs_pos_eq by lra.
    destruct j as [|[|j]]; cbn [nth]; try ring; destruct j; reflexivity.
  Qed.
  Lemma draws2 : decorrelated (spikes 16) (2 * (2 * (2 * 2))).
  Proof. apply (spikes_decorrelated 16). lia. Qed.

  Example C70_variance_case : exists f g W,
    (forall X, compute_random_signal (fun _ => X) 2 {| g_seed := 30; g_pos := 1 * (2 * (2 * 2)) |} 3 = (f X, g)) /\
    (forall X, axisymmetric_wavelet_forward 2 (f X) wavelets2 = Ok (W X)) /\
    mean (spikes 16) (fun X => (Cmod (nthC (inverse2 2 (nth 0 (W X) [])) 5) ^ 2)%R) = 15%R.
  Proof.
    set (f := fun X => signal_of_run X 2 3 1).
    set (W := fun X => match axisymmetric_wavelet_forward 2 (f X) wavelets2 with Ok w => w | Err _ => [] end).
    assert (Hf : forall X, compute_random_signal (fun _ => X) 2 {| g_seed := 30; g_pos := 1 * (2 * (2 * 2)) |} 3 = (f X, {| g_seed := 30; g_pos := 2 * (2 * (2 * 2)) |})).
    { intros X. apply compute_random_signal_run. }
    assert (HW : forall X, axisymmetric_wavelet_forward 2 (f X) wavelets2 = Ok (W X)).
    { intros X. destruct (C27_forward 2 (f X) wavelets2) as (w & E & _); [apply signal_of_run_spec|exact wavelets2_ok|]. unfold W. rewrite E. reflexivity. }
    exists f, {| g_seed := 30; g_pos := 2 * (2 * (2 * 2)) |}, W. split; [exact Hf|]. split; [exact HW|].
    pose proof (C70_variance inverse2 d2 2 wavelets2 (spikes 16) 2 3 1 0 5 f _ W inverse2_ok textbook_d2 wavelets2_ok wavelets2_axisymmetric draws2
      ltac:(lra) ltac:(lia) ltac:(cbn; lia) ltac:(cbn; lia) Hf HW) as G.
    rewrite theory2 in G. exact G.
  Qed.

  Example C70_measured_case : exists D M,
    (forall X, covariance_runs inverse2 (fun _ => X) 2 wavelets2 1 2 3 = Ok (D X)) /\
    (forall X, measured_covariance (length wavelets2) 1 (D X) = Ok (M X)) /\
    (mean (spikes 16) (fun X => nth 0 (M X) 0%R) <= 12)%R /\
    nth 0 (compute_wavelet_covariance wavelets2 3) 0%R = 15%R.
  Proof.
    set (D := fun X => match covariance_runs inverse2 (fun _ => X) 2 wavelets2 1 2 3 with Ok x => x | Err _ => [] end).
    set (M := fun X => match measured_covariance (length wavelets2) 1 (D X) with Ok x => x | Err _ => [] end).
    assert (HD : forall X, covariance_runs inverse2 (fun _ => X) 2 wavelets2 1 2 3 = Ok (D X)).
    { intros X. unfold D. rewrite (covariance_runs_ok inverse2 d2 2 wavelets2 inverse2_ok wavelets2_ok) by lia. reflexivity. }
    assert (HM : forall X, measured_covariance (length wavelets2) 1 (D X) = Ok (M X)) by (intros X; reflexivity).
    clearbody M. clearbody D. exists D, M. split; [exact HD|]. split; [exact HM|].
    assert (J : 1%Z <> 0%Z \/ 0 <> 0) by (left; discriminate).
    assert (V3 : (0 <= 3)%R) by lra. assert (L1 : 1 <= 2) by lia. assert (W1 : 0 < length wavelets2) by (cbn; lia).
    pose proof (C70_measured inverse2 d2 2 wavelets2 (spikes 16) 2 3 1 0 D M inverse2_ok textbook_d2 L1 wavelets2_ok wavelets2_axisymmetric draws2) as G.
    specialize (G V3 L1).
    specialize (G W1 J).
    specialize (G HD HM).
    apply proj2 in G.
    rewrite theory2 in *. split; [|reflexivity]. eapply Rle_trans; [exact G|].
    replace (coeff (nth 0 wavelets2 []) 0 0) with (RtoC 1) by reflexivity. rewrite Cmod_R, Rabs_pos_eq by lra. cbn [nth]. lra.
  Qed.

  (** Draws of [1] and [-1], four of them, all different from zero. *)
  Definition signs : ensemble :=
    map (fun r => ((1 / 4)%R, fun k => nth k r 1%R))
        [[1; 1; 1; 1]; [1; -1; 1; -1]; [1; 1; -1; -1]; [1; -1; -1; 1]]%R.
  Lemma signs_decorrelated : decorrelated signs 4.
  Proof.
    intros i j Hi Hj. unfold mean, signs. cbn [map rlsum fst snd].
    destruct i as [|[|[|[|i]]]]; try lia; destruct j as [|[|[|[|j]]]]; try lia; cbn; lra.
  Qed.
  Lemma signs_nonzero w X i : In (w, X) signs -> i < 4 -> X i <> 0%R.
  Proof.
    intros Hin Hi. unfold signs in Hin. cbn [map] in Hin.
    destruct Hin as [E|[E|[E|[E|[]]]]]; injection E as _ <-; destruct i as [|[|[|[|i]]]]; try lia; cbn; lra.
  Qed.
  Definition point : slepian := {| s_N := 1; s_evals := [1%R]; s_evecs := [[RtoC 1]] |}.
  Lemma point_ok : slepian_basis 1 point.
  Proof.
    unfold slepian_basis, point. cbn [s_N s_evecs length]. split; [lia|]. split; [cbn; lia|]. split; [lia|]. split.
    - intros v [<-|[]]; reflexivity.
    - intros p q u v Hp Hq. destruct p as [|[|p]]; try discriminate; destruct q as [|[|q]]; try discriminate; injection Hp as <-; injection Hq as <-; apply C_ext; cbn; ring.
  Qed.
  Lemma one_harmonic_ok : synthesis 1 (fun _ _ => RtoC (/ sqrt (4 * PI))) one_harmonic.
  Proof. intros v _. unfold one_harmonic. apply map_ext. intros k. change (1 * 1) with 1. cbn [csum]. ring. Qed.

  (** Two runs measure half of the theoretical variance. *)
  Example C70_slepian_case : exists theory D,
    compute_slepian_wavelet_covariance one_harmonic 1 point [[RtoC 2]] 1 3 = Ok theory /\
    (forall X, slepian_covariance_runs one_harmonic (fun _ => X) 1 point (A2 1 [[RtoC 2]]) 2 3 = Ok (D X)) /\
    mean signs (fun X => slepian_covariance_measured (D X) 0 0) = (3 / 2 / PI)%R /\
    nth 0 (nth 0 theory []) 0%R = (3 / PI)%R.
  Proof.
    assert (Hm : matrix 1 [[RtoC 2]]) by (intros r [<-|[]]; reflexivity).
    set (D := fun X => match slepian_covariance_runs one_harmonic (fun _ => X) 1 point (A2 1 [[RtoC 2]]) 2 3 with Ok x => x | Err _ => [] end).
    assert (HD : forall X, slepian_covariance_runs one_harmonic (fun _ => X) 1 point (A2 1 [[RtoC 2]]) 2 3 = Ok (D X)).
    { intros X. unfold D, slepian_covariance_runs.
      rewrite (collect_runs 1 _ (fun r => match slepian_covariance_run one_harmonic (fun _ => X) 1 point (A2 1 [[RtoC 2]]) 3 {| g_seed := 30%Z; g_pos := r * (2 * (1 * 1)) |} with Ok p => fst p | Err _ => [] end)).
      - reflexivity.
      - intros r. destruct (slepian_run_ok one_harmonic 1 _ point 1 [[RtoC 2]] one_harmonic_ok point_ok (le_n 1) Hm (le_n 1) 3 X r) as (fl & El & _).
        exists fl. split; [exact El|]. rewrite El. reflexivity. }
    assert (ET : exists theory, compute_slepian_wavelet_covariance one_harmonic 1 point [[RtoC 2]] 1 3 = Ok theory).
    { eexists. unfold compute_slepian_wavelet_covariance. rewrite (s_p_omega_ok one_harmonic 1 point point_ok). reflexivity. }
    destruct ET as (theory & ET).
    destruct (C70_slepian one_harmonic 1 _ point 1 [[RtoC 2]] signs 2 3 theory D 0 0 one_harmonic_ok point_ok Hm (le_n 1) signs_decorrelated signs_nonzero
      ltac:(lra) ltac:(lia) ltac:(cbn; lia) ltac:(cbn; lia)) as [_ G]; [|exact ET|exact HD|].
    { intros i Hi. exists 0. split; [cbn; lia|]. replace i with 0 by lia. cbn. intros K. apply RtoC_inj in K. lra. }
    assert (T : nth 0 (nth 0 theory []) 0%R = (3 / PI)%R).
    { rewrite (slepian_theory one_harmonic 1 _ point 1 [[RtoC 2]] one_harmonic_ok point_ok (le_n 1) Hm (le_n 1) 3 theory 0 0 ltac:(cbn; lia) ltac:(cbn; lia) ET).
      change (1 * 1) with 1. cbn [rsum]. change (Nn point) with 1. cbn [Nat.ltb Nat.leb nth].
      replace (nthC (one_harmonic 1 (evec point 0)) 0) with (RtoC (/ sqrt (4 * PI))) by (unfold one_harmonic; cbn [evec point s_evecs nth map seq samples]; unfold samples; cbn; apply C_ext; cbn; ring).
      rewrite Cmod_mult, !Cmod_R, Rpow_mult_distr, !pow2_abs, pow_inv. rewrite <- (Rsqr_pow2 (sqrt _)), Rsqr_sqrt by (pose proof PI_RGT_0; lra).
      field. pose proof PI_RGT_0. lra. }
    exists theory, D. split; [exact ET|]. split; [exact HD|]. split; [|exact T]. rewrite G, T. cbn [INR]. field. pose proof PI_RGT_0. lra.
  Qed.

  (** A second wavelet that vanishes: its place holds zeros. *)
  Example C70_slepian_places_case : forall X, exists D,
    slepian_covariance_runs one_harmonic (fun _ => X) 1 point (A2 1 [[RtoC 2]; [RtoC 0]]) 2 3 = Ok D /\
    forall r, r < 2 -> length (nth r D []) = 2 /\ nth 1 (nth r D []) [] = repeat (RtoC 0) (samples 1).
  Proof.
    intros X. set (ws := [[RtoC 2]; [RtoC 0]]). assert (Hm : matrix 1 ws) by (intros r [<-|[<-|[]]]; reflexivity).
    assert (HD : exists D, slepian_covariance_runs one_harmonic (fun _ => X) 1 point (A2 1 ws) 2 3 = Ok D).
    { unfold slepian_covariance_runs.
      rewrite (collect_runs 1 _ (fun r => match slepian_covariance_run one_harmonic (fun _ => X) 1 point (A2 1 ws) 3 {| g_seed := 30%Z; g_pos := r * (2 * (1 * 1)) |} with Ok p => fst p | Err _ => [] end)).
      - eexists. reflexivity.
      - intros r. destruct (slepian_run_ok one_harmonic 1 _ point 1 ws one_harmonic_ok point_ok (le_n 1) Hm (le_n 1) 3 X r) as (fl & El & _).
        exists fl. split; [exact El|]. rewrite El. reflexivity. }
    destruct HD as (D & HD). exists D. split; [exact HD|]. intros r Hr.
    destruct (C70_slepian_places one_harmonic (fun _ => X) 1 _ point 1 ws 2 3 D r 1 one_harmonic_ok point_ok Hm (le_n 1) HD Hr) as (_ & H1 & H2).
    - intros j q Hj1 Hj2 Hq. cbn in Hj2. assert (j = 1) as -> by lia. change (Nn point) with 1 in Hq. assert (q = 0) as -> by lia. reflexivity.
    - split; [exact H1|]. apply H2; cbn; lia.
  Qed.

  Example C70_progressive_case : exists steps,
    progressive_reconstruction [[RtoC 5]; [RtoC 7]] (A2 1 [[RtoC 2]; [RtoC 3]]) 1 = Ok steps /\ steps = [[RtoC 10]; [RtoC 24]].
  Proof.
    destruct (C70_progressive 1 1 [[RtoC 2]; [RtoC 3]] [[RtoC 5]; [RtoC 7]]) as (steps & E & Hl & H); [intros r [<-|[<-|[]]]; reflexivity|lia|intros r [<-|[<-|[]]]; reflexivity|].
    exists steps. split; [exact E|]. destruct steps as [|a [|b [|c steps]]]; try discriminate Hl.
    destruct (H 0 0 ltac:(cbn; lia) ltac:(lia)) as [La Ea]. destruct (H 1 0 ltac:(cbn; lia) ltac:(lia)) as [Lb Eb]. cbn [nth] in La, Ea, Lb, Eb.
    destruct a as [|x [|y a]]; try discriminate La. destruct b as [|z [|y b]]; try discriminate Lb. cbn [nth] in Ea, Eb. rewrite Ea, Eb.
    unfold scale_sum. cbn [length Nat.min csum nth]. f_equal; [|f_equal]; f_equal; apply C_ext; cbn; ring.
  Qed.

  (** The scaling function takes degree zero, the wavelet degree one. *)
  Definition bands2 : list (list C) :=
    [[RtoC (sqrt (/ (4 * PI))); RtoC 0; RtoC 0; RtoC 0]; [RtoC 0; RtoC 0; RtoC (sqrt (3 / (4 * PI))); RtoC 0]].
  Lemma bands2_ok : matrix (2 * 2) bands2.
  Proof. intros r [<-|[<-|[]]]; reflexivity. Qed.
  Lemma band_share j el : el < 2 -> j < 2 ->
    (4 * PI / (2 * INR el + 1) * Cmod (coeff (nth j bands2 []) el 0) ^ 2 = if j =? el then 1 else 0)%R.
  Proof.
    intros Hel Hj. pose proof PI_RGT_0 as P. assert (P0 : (0 < 4 * PI)%R) by lra.
    assert (S0 : (sqrt (/ (4 * PI)) ^ 2 = / (4 * PI))%R) by (rewrite <- Rsqr_pow2, Rsqr_sqrt; [reflexivity|apply Rlt_le, Rinv_0_lt_compat, P0]).
    assert (S1 : (sqrt (3 / (4 * PI)) ^ 2 = 3 / (4 * PI))%R) by (rewrite <- Rsqr_pow2, Rsqr_sqrt; [reflexivity|apply Rlt_le, Rdiv_lt_0_compat; lra]).
    assert (C00 : coeff (nth 0 bands2 []) 0 0 = RtoC (sqrt (/ (4 * PI)))) by reflexivity.
    assert (C01 : coeff (nth 0 bands2 []) 1 0 = RtoC 0) by reflexivity.
    assert (C10 : coeff (nth 1 bands2 []) 0 0 = RtoC 0) by reflexivity.
    assert (C11 : coeff (nth 1 bands2 []) 1 0 = RtoC (sqrt (3 / (4 * PI)))) by reflexivity.
    destruct j as [|[|j]]; try lia; destruct el as [|[|el]]; try lia; rewrite ?C00, ?C01, ?C10, ?C11; cbn [Nat.eqb INR]; rewrite Cmod_R, pow2_abs, ?S0, ?S1; field; lra.
  Qed.
  Lemma bands2_tight : tight 2 bands2.
  Proof.
    intros el Hel. change (length bands2) with 2. cbn [rsum]. rewrite !band_share by lia. destruct el as [|[|el]]; [| |lia]; cbn; ring.
  Qed.
  Lemma toy_lengths : lengths 2 toy_inverse toy_forward.
  Proof.
    split.
    - intros v _. unfold toy_inverse. rewrite map_length, seq_length. reflexivity.
    - intros f Hf. unfold toy_forward. rewrite firstn_length, Hf. reflexivity.
  Qed.

  Example C70_denoise_axisym_zero_case : forall rotate, let signal := [RtoC 1; RtoC 2; RtoC 3; RtoC 4] in
    let noise := [RtoC 1; RtoC 0; RtoC (-1); RtoC 0] in
    denoising_axisym toy_inverse toy_forward rotate 2 signal [Cplus (RtoC 1) (RtoC 1); Cplus (RtoC 2) (RtoC 0); Cplus (RtoC 3) (RtoC (-1)); Cplus (RtoC 4) (RtoC 0)]
      (Some (compute_snr signal noise)) bands2 10 0 false
    = Ok (toy_inverse 2 [Cplus (RtoC 1) (RtoC 1); Cplus (RtoC 2) (RtoC 0); Cplus (RtoC 3) (RtoC (-1)); Cplus (RtoC 4) (RtoC 0)],
          Some (compute_snr signal noise), compute_snr signal noise).
  Proof.
    intros rotate signal noise.
    exact (C70_denoise_axisym_zero toy_inverse toy_forward rotate 2 signal noise bands2 10 toy_lengths (toy_sampling 2) eq_refl eq_refl bands2_ok ltac:(discriminate) bands2_tight).
  Qed.

  (** A threshold that is high enough leaves degree zero only. *)
  Example C70_denoise_axisym_all_case : forall rotate snr, exists n flm, let signal := [RtoC 1; RtoC 2; RtoC 3; RtoC 4] in
    denoising_axisym toy_inverse toy_forward rotate 2 signal signal snr bands2 10 n false
    = Ok (toy_inverse 2 flm, snr, compute_snr signal (minus flm signal)) /\
    length flm = 4 /\ coeff flm 0 0 = RtoC 1 /\ coeff flm 1 0 = RtoC 0.
  Proof.
    intros rotate snr. set (signal := [RtoC 1; RtoC 2; RtoC 3; RtoC 4]).
    destruct (C27_forward 2 signal bands2 eq_refl bands2_ok) as (W & EW & LW & HW).
    set (sd := (compute_sigma_noise signal 10 None * sqrt (power (nth 1 bands2 [])))%R).
    set (top := rsum (samples 2) (fun k => Cmod (nthC (toy_inverse 2 (nth 1 W [])) k))).
    assert (Psd : (0 < sd)%R).
    { pose proof PI_RGT_0 as P. unfold sd. apply Rmult_lt_0_compat.
      - unfold compute_sigma_noise, signal_power. cbv zeta. apply sqrt_lt_R0. apply Rdiv_lt_0_compat; [|cbn; lra]. apply Rmult_lt_0_compat; [apply exp_pos|].
        unfold sum_abs2, signal. cbn [map rlsum]. rewrite !Cmod_R, !Rabs_pos_eq by lra. lra.
      - apply sqrt_lt_R0. rewrite <- sum_abs2_power. unfold sum_abs2, bands2. cbn [map rlsum nth]. rewrite !Cmod_R, !pow2_abs.
        rewrite <- (Rsqr_pow2 (sqrt _)), Rsqr_sqrt by (apply Rlt_le, Rdiv_lt_0_compat; lra). assert (0 < 3 / (4 * PI))%R by (apply Rdiv_lt_0_compat; lra). lra. }
    assert (Hn : exists n, (top < IZR n * sd)%R).
    { exists (up (top / sd)). destruct (archimed (top / sd)) as [A _]. apply Rmult_gt_compat_r with (r := sd) in A; [|exact Psd].
      unfold Rdiv in A. rewrite Rmult_assoc, Rinv_l, Rmult_1_r in A by lra. exact A. }
    destruct Hn as (n & Hn). exists n.
    destruct (C70_denoise_axisym_all toy_inverse toy_forward rotate 2 toy_Y signal signal snr bands2 10 n W (toy_synthesis 2) toy_lengths (toy_sampling 2) eq_refl eq_refl bands2_ok
      ltac:(discriminate) EW) as (flm & Lf & Hc & ED).
    { intros j k [Hj Hj'] Hk. change (length bands2) with 2 in Hj'. replace j with 1 by lia. fold sd. eapply Rle_lt_trans; [|exact Hn].
      unfold top. apply (rsum_term_le (samples 2) (fun k => Cmod (nthC (toy_inverse 2 (nth 1 W [])) k))); [exact Hk|]. intros i _. apply Cmod_ge_0. }
    exists flm. split; [exact ED|]. split; [exact Lf|]. split.
    - rewrite Hc by (split; lia). rewrite band_share by lia. cbn. ring.
    - rewrite Hc by (split; lia). rewrite band_share by lia. cbn. ring.
  Qed.
  Lemma high_enough top sd : (0 < sd)%R -> (0 <= top)%R -> exists n, (0 <= n)%Z /\ forall n', (n <= n')%Z -> (top < IZR n' * sd)%R.
  Proof.
    intros Ps Pt. exists (up (top / sd)). destruct (archimed (top / sd)) as [A _].
    assert (0 <= top / sd)%R by (apply Rmult_le_pos; [exact Pt|apply Rlt_le, Rinv_0_lt_compat, Ps]). split.
    - apply le_IZR. lra.
    - intros n' Hn. apply IZR_le in Hn. assert (Q : (top / sd < IZR n')%R) by lra. apply Rmult_lt_compat_r with (r := sd) in Q; [|exact Ps].
      unfold Rdiv in Q. rewrite Rmult_assoc, Rinv_l, Rmult_1_r in Q by lra. exact Q.
  Qed.

  (** Thresholds that are high enough leave nothing of the coefficients 1 and
      3. *)
  Example C70_denoise_slepian_all_case : exists n W,
    slepian_wavelet_forward [RtoC 1; RtoC 3] (A2 2 [[RtoC 1; RtoC 2]]) (s_N toy) = Ok (A2 (Nn toy) W) /\ length W = 1 /\
    denoising_slepian_wavelet toy_inverse 2 [RtoC 1; RtoC 3] [RtoC 1; RtoC 3] 2 [[RtoC 1; RtoC 2]] toy 10 n
    = Ok (repeat (RtoC 0) 2, repeat (RtoC 0) (samples 2)).
  Proof.
    set (ws := [[RtoC 1; RtoC 2]]). set (signal := [RtoC 1; RtoC 3]).
    assert (Hm : matrix 2 ws) by (intros r [<-|[]]; reflexivity).
    set (w := [Cmult (RtoC 1) (Cconj (RtoC 1)); Cmult (RtoC 2) (Cconj (RtoC 3))]).
    assert (EW : slepian_wavelet_forward signal (A2 2 ws) (s_N toy) = Ok (A2 (Nn toy) [w])).
    { change (s_N toy) with (Z.of_nat 2). change (Nn toy) with 2. rewrite (forward_rows 2 2 ws _ Hm) by (cbn; lia). do 2 f_equal.
      unfold ws, signal. cbn [map firstn]. unfold cmul, zip. cbn [combine map fst snd filter existsb].
      assert (Z2 : Cnonzero (Cmult (RtoC 1) (Cconj (RtoC 1))) = true).
      { destruct (Cnonzero (Cmult (RtoC 1) (Cconj (RtoC 1)))) eqn:E; [reflexivity|]. apply Cnonzero_false in E. rewrite Cconj_R, <- RtoC_mult in E. apply RtoC_inj in E. lra. }
      rewrite Z2. reflexivity. }
    assert (Ea : slepian_inverse toy_inverse w 2 toy = Ok (toy_inverse 2 (expand 2 toy w))) by (apply (slepian_inverse_ok toy_inverse 2 toy_Y); [apply toy_synthesis|exact toy_basis|cbn; lia]).
    set (dev := slepian_deviation toy_inverse 2 toy signal 10 ws 0).
    assert (S0 : forall p k, k < 4 -> nthC (toy_inverse 2 (evec toy p)) k = nthC (evec toy p) k).
    { intros p k Hk. unfold toy_inverse. rewrite nth_map_seq by (cbn; lia). apply (toy_entry 2). exact Hk. }
    assert (Pd : forall k, k < 2 -> (0 < dev k)%R).
    { intros k Hk. unfold dev, slepian_deviation. apply Rmult_lt_0_compat.
      - unfold compute_sigma_noise, signal_power. cbv zeta. apply sqrt_lt_R0. apply Rdiv_lt_0_compat; [|cbn; lra]. apply Rmult_lt_0_compat; [apply exp_pos|].
        unfold sum_abs2, signal. cbn [map rlsum]. rewrite !Cmod_R, !Rabs_pos_eq by lra. lra.
      - apply sqrt_lt_R0. change (Z.to_nat (s_N toy)) with 2. cbn [rsum]. rewrite !S0 by lia.
        rewrite !Cmod_sq. destruct k as [|[|k]]; [| |lia]; unfold ws, evec, toy; cbn; lra. }
    assert (Za : forall k, 2 <= k < samples 2 -> nthC (toy_inverse 2 (expand 2 toy w)) k = RtoC 0).
    { intros k Hk. unfold toy_inverse. rewrite nth_map_seq by lia. destruct (Nat.lt_ge_cases k 4) as [H4|H4].
      - rewrite (toy_entry 2) by exact H4. rewrite expand_nth by exact H4. change (Nn toy) with 2.
        destruct k as [|[|[|[|k]]]]; try lia; apply C_ext; cbn; ring.
      - apply csum_zero. intros i Hi. unfold toy_Y. destruct (Nat.eqb_spec i k); [lia|]. ring. }
    destruct (high_enough (Cmod (nthC (toy_inverse 2 (expand 2 toy w)) 0)) (dev 0) (Pd 0 ltac:(lia)) (Cmod_ge_0 _)) as (n0 & P0 & H0).
    destruct (high_enough (Cmod (nthC (toy_inverse 2 (expand 2 toy w)) 1)) (dev 1) (Pd 1 ltac:(lia)) (Cmod_ge_0 _)) as (n1 & P1 & H1).
    exists (n0 + n1)%Z, [w]. split; [exact EW|]. split; [reflexivity|].
    refine (C70_denoise_slepian_all toy_inverse 2 toy_Y toy signal signal 2 ws 10 (n0 + n1) [w] (toy_synthesis 2) toy_basis eq_refl eq_refl (le_n 2) Hm (le_n 2) EW _).
    intros i k a Hi Hk E. cbn [length] in Hi. replace i with 0 in * by lia. cbn [nth] in E. rewrite Ea in E. injection E as <-.
    destruct k as [|[|k]].
    - left. apply H0. lia.
    - left. apply H1. lia.
    - right. apply Za. lia.
  Qed.

  Example C70_denoise_function_case : exists a b f_p f,
    slepian_inverse toy_inverse [RtoC 1; RtoC 3] 2 toy = Ok a /\
    thresholded (fun _ => IZR 3 * sqrt (Rpower 10 (- 10 / 10) * power [RtoC 1; RtoC 3] / INR (2 * 2)))%R a b /\ length f_p = 2 /\
    denoising_slepian_function toy_inverse 2 [RtoC 1; RtoC 3] [RtoC 1; RtoC 3] toy 10 3 = Ok (f_p, f).
  Proof.
    destruct (C70_denoise_function toy_inverse 2 toy_Y toy [RtoC 1; RtoC 3] [RtoC 1; RtoC 3] 10 3 (toy_synthesis 2) toy_basis eq_refl eq_refl (le_n 2))
      as (a & b & f_p & f & H1 & H2 & H3 & _ & _ & H4).
    exists a, b, f_p, f. auto.
  Qed.
End DemoCases.
