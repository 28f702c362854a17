(** * Slepian transforms: properties C24, C25, C43, C44 and C52. *)
From Coq Require Import List ZArith Arith Bool Reals Lra Lia.
From Coquelicot Require Import Complex.
From Verif Require Import Base ListLemmas RSum CSum Numpy Eigen SpecEigen EigenProofs EarthProofs Integration
  Quadrature QuadratureProofs Noise NoiseProofs SpecField Convolution ConvolutionProofs PropConvolution PropSampling
  Transform SpecTransform OrthoProofs TransformProofs.
Import ListNotations.
Local Open Scope nat_scope.

(** A concrete pair of transforms and a concrete basis for the examples: the
    samples are the coefficients followed by zeros. *)
Definition toy_Y (i k : nat) : C := if i =? k then RtoC 1 else RtoC 0.
Definition toy_inverse (L : nat) (v : list C) : list C :=
  map (fun k => csum (L * L) (fun i => Cmult (nthC v i) (toy_Y i k))) (seq 0 (samples L)).
Definition toy_forward (L : nat) (f : list C) : list C := firstn (L * L) f.

Lemma toy_synthesis L : synthesis L toy_Y toy_inverse.
Proof. intros v _. reflexivity. Qed.
Lemma toy_entry L v k : k < L * L -> csum (L * L) (fun i => Cmult (nthC v i) (toy_Y i k)) = nthC v k.
Proof.
  intros Hk. rewrite (csum_single _ k); [|exact Hk|].
  - unfold toy_Y. rewrite Nat.eqb_refl. ring.
  - intros i _ Hi. unfold toy_Y. destruct (Nat.eqb_spec i k); [contradiction|]. ring.
Qed.
Lemma toy_sampling L : sampling_theorem L toy_inverse toy_forward.
Proof.
  intros v Hv. unfold toy_forward, toy_inverse, samples, n_theta, n_phi.
  apply (nth_ext _ _ (RtoC 0) (RtoC 0)).
  - rewrite firstn_length, map_length, seq_length, Hv. nia.
  - intros i Hi. rewrite firstn_length, map_length, seq_length in Hi.
    rewrite nth_firstn_lt by lia. rewrite nth_map_seq by lia. apply toy_entry. lia.
Qed.

Definition toy : slepian :=
  {| s_N := 2; s_evals := [(9/10)%R; (1/2)%R; (1/10)%R];
     s_evecs := [[RtoC (3/5); (0, 4/5)%R; RtoC 0; RtoC 0];
                 [(0, 4/5)%R; RtoC (3/5); RtoC 0; RtoC 0];
                 [RtoC 0; RtoC 0; RtoC 1; RtoC 0]] |}.
Lemma toy_basis : slepian_basis 2 toy.
Proof.
  unfold slepian_basis, toy. cbn [s_N s_evecs length]. change (2 * 2) with 4. change (Z.to_nat 2) with 2.
  repeat split; try lia.
  - intros v [<-|[<-|[<-|[]]]]; reflexivity.
  - intros p q u v Hp Hq.
    destruct p as [|[|[|p]]]; destruct q as [|[|[|q]]]; cbn [nth_error] in Hp, Hq;
      try (destruct p; discriminate); try (destruct q; discriminate);
      injection Hp as <-; injection Hq as <-; apply C_ext; cbn; field.
Qed.

(** ** C24 *)

(** Forward after inverse is the identity on the first [N] coefficients. *)
Theorem C24_forward_of_inverse : forall inverse forward L Y s f_p,
  synthesis L Y inverse -> sampling_theorem L inverse forward -> slepian_basis L s ->
  Z.to_nat (s_N s) <= length f_p ->
  exists f, slepian_inverse inverse f_p L s = Ok f /\
    slepian_forward inverse L s (of_flm (forward L f)) None = Ok (firstn (Z.to_nat (s_N s)) f_p).
Proof. intros. apply (round_trip inverse forward L Y); assumption. Qed.
Print Assumptions C24_forward_of_inverse.

(** The synthesised signal is the combination of the Slepian functions. *)
Theorem C24_inverse : forall inverse L Y s f_p f,
  synthesis L Y inverse -> slepian_basis L s -> Z.to_nat (s_N s) <= length f_p ->
  slepian_inverse inverse f_p L s = Ok f ->
  length f = samples L /\
  forall k, k < samples L -> nth k f (RtoC 0)
    = csum (Z.to_nat (s_N s)) (fun p => Cmult (nth p f_p (RtoC 0))
        (csum (L * L) (fun i => Cmult (nth i (evec s p) (RtoC 0)) (Y i k)))).
Proof.
  intros inverse L Y s f_p f HY HB Hf E.
  rewrite (slepian_inverse_ok inverse L Y s f_p HY HB Hf) in E. injection E as <-.
  rewrite (HY _ (expand_length L s f_p)). split; [rewrite map_length, seq_length; reflexivity|].
  intros k Hk. rewrite nth_map_seq by exact Hk.
  rewrite (csum_ext (L * L) _ (fun i => csum (Nn s) (fun p => Cmult (nthC f_p p) (Cmult (nthC (evec s p) i) (Y i k))))).
  - rewrite csum_swap. apply csum_ext. intros p _. rewrite csum_scal_l. reflexivity.
  - intros i Hi. unfold expand. rewrite nth_map_seq by exact Hi.
    rewrite <- csum_scal_r. apply csum_ext. intros. ring.
Qed.
Print Assumptions C24_inverse.

(** Any number of coefficients carries at most the energy of the signal; all
    [L^2] carry exactly it. *)
Theorem C24_energy : forall inverse L s flm n out,
  slepian_basis L s -> length flm = L * L -> n <= length (s_evecs s) ->
  slepian_forward inverse L s (of_flm flm) (Some (Z.of_nat n)) = Ok out ->
  length out = n /\ (power out <= power flm)%R /\ (n = L * L -> power out = power flm).
Proof.
  intros inverse L s flm n out HB Hf Hn E.
  destruct (forward_bessel inverse L s flm (Some n) out HB Hf Hn E) as [B P].
  split; [|split; assumption].
  change (Some (Z.of_nat n)) with (option_map Z.of_nat (Some n)) in E.
  unfold of_flm in E. rewrite forward_flm_ok in E by assumption. injection E as <-.
  rewrite map_length, seq_length. reflexivity.
Qed.
Print Assumptions C24_energy.

(** With [N = L^2] functions the inverse of the forward transform is the
    signal itself. *)
Theorem C24_inverse_of_forward : forall inverse L Y s flm,
  synthesis L Y inverse -> slepian_basis L s -> s_N s = Z.of_nat (L * L) -> length flm = L * L ->
  exists f_p, slepian_forward inverse L s (of_flm flm) None = Ok f_p /\
    slepian_inverse inverse f_p L s = Ok (inverse L flm).
Proof. intros. apply (full_reconstruction inverse L Y); assumption. Qed.
Print Assumptions C24_inverse_of_forward.

(** The coefficients are the best ones: no other combination of the first [n]
    Slepian functions is closer to the signal. *)
Theorem C24_best_approximation : forall inverse L s flm n out c,
  slepian_basis L s -> length flm = L * L -> n <= length (s_evecs s) ->
  slepian_forward inverse L s (of_flm flm) (Some (Z.of_nat n)) = Ok out ->
  let gap a := rsum (L * L) (fun i =>
        (Cmod (Cminus (nth i flm (RtoC 0)) (csum n (fun p => Cmult (a p) (nth i (evec s p) (RtoC 0))))) ^ 2)%R) in
  (gap (fun p => nth p out (RtoC 0)) <= gap c)%R.
Proof.
  intros inverse L s flm n out c HB Hf Hn E gap.
  change (Some (Z.of_nat n)) with (option_map Z.of_nat (Some n)) in E.
  unfold of_flm in E. rewrite forward_flm_ok in E by assumption. injection E as <-. cbn [count] in *.
  assert (G : forall a, gap a = nrm2 (L * L) (fun i => Cminus (nthC flm i) (csum n (fun p => Cmult (a p) (nthC (evec s p) i))))).
  { intros a. unfold gap, nrm2. apply rsum_ext. intros i _. unfold Cmod. rewrite pow2_sqrt; [reflexivity|].
    apply Rplus_le_le_0_compat; apply pow2_ge_0. }
  rewrite !G.
  rewrite (distance (L * L) n (fun p j => nthC (evec s p) j)) with (c := c)
    by (intros; apply (basis_ortho L s HB); lia).
  rewrite (distance (L * L) n (fun p j => nthC (evec s p) j))
    by (intros; apply (basis_ortho L s HB); lia).
  assert (Z : nrm2 n (fun p => Cminus (ip (L * L) (fun j => nthC flm j) (fun j => nthC (evec s p) j))
      (nthC (map (fun p0 => cdot (L * L) flm (evec s p0)) (seq 0 n)) p)) = 0%R).
  { unfold nrm2. apply rsum_zero. intros p Hp. rewrite nth_map_seq by exact Hp.
    change (cdot (L * L) flm (evec s p)) with (ip (L * L) (fun j => nthC flm j) (fun j => nthC (evec s p) j)).
    unfold Cminus. rewrite Cplus_opp_r. cbn. ring. }
  rewrite Z. pose proof (nrm2_nonneg n (fun p => Cminus (ip (L * L) (fun j => nthC flm j) (fun j => nthC (evec s p) j)) (c p))). lra.
Qed.
Print Assumptions C24_best_approximation.

(** Too few coefficients cannot be synthesised (a single one is repeated by
    numpy's broadcasting, so length one is left out). *)
Theorem C24_short_input : forall inverse L s f_p,
  slepian_basis L s -> length f_p <> 1 -> s_N s <> 1%Z -> length f_p < Z.to_nat (s_N s) ->
  slepian_inverse inverse f_p L s = Err ValueError.
Proof.
  intros inverse L s f_p HB H1 HN Hs. pose proof HB as (H0 & _).
  unfold slepian_inverse. rewrite (s_p_omega_ok inverse L s HB). cbn [rbind].
  rewrite py_prefix_nat by exact H0. rewrite broadcast_fail; [reflexivity|..];
    rewrite ?map_length, ?seq_length, ?firstn_length; unfold Nn; lia.
Qed.
Print Assumptions C24_short_input.

Example C24_case : exists f,
  slepian_inverse toy_inverse [RtoC 5; (0, 10)%R; RtoC 7] 2 toy = Ok f /\
  nth 0 f (RtoC 0) = RtoC (-5) /\ nth 1 f (RtoC 0) = (0, 10)%R /\
  slepian_forward toy_inverse 2 toy (of_flm (toy_forward 2 f)) None = Ok [RtoC 5; (0, 10)%R].
Proof.
  destruct (C24_forward_of_inverse toy_inverse toy_forward 2 toy_Y toy [RtoC 5; (0, 10)%R; RtoC 7]
    (toy_synthesis 2) (toy_sampling 2) toy_basis ltac:(cbn; lia)) as (f & E1 & E2).
  exists f. split; [exact E1|].
  destruct (C24_inverse toy_inverse 2 toy_Y toy [RtoC 5; (0, 10)%R; RtoC 7] f (toy_synthesis 2) toy_basis ltac:(cbn; lia) E1) as [_ H].
  split; [|split].
  - rewrite H by (cbn; lia). change (Z.to_nat (s_N toy)) with 2. apply C_ext; cbn; field.
  - rewrite H by (cbn; lia). change (Z.to_nat (s_N toy)) with 2. apply C_ext; cbn; field.
  - rewrite E2. reflexivity.
Qed.
Example C24_short_case : slepian_inverse toy_inverse [] 2 toy = Err ValueError.
Proof. apply C24_short_input; [exact toy_basis|discriminate|discriminate|cbn; lia]. Qed.

(** ** C25 *)

(** Whatever is given, the coefficients are the specified ones: the harmonic
    sum if there are harmonic coefficients, otherwise the integral over the
    sphere, or over the region divided by the eigenvalue; exactly as many as
    asked for.  ([entry] of SpecTransform.) *)
Theorem C25_dispatch : forall inverse L s g n,
  slepian_basis L s -> length (s_evals s) = length (s_evecs s) -> shaped L g -> given g ->
  n <= length (s_evecs s) ->
  slepian_forward inverse L s g (Some (Z.of_nat n)) = Ok (map (entry inverse L s g) (seq 0 n)) /\
  slepian_forward inverse L s g None = Ok (map (entry inverse L s g) (seq 0 (Z.to_nat (s_N s)))).
Proof.
  intros inverse L s g n HB He Hs Hg Hn. split.
  - exact (forward_ok inverse L s g (Some n) HB He Hs Hg Hn).
  - apply (forward_ok inverse L s g None HB He Hs Hg). exact (proj1 (proj2 HB)).
Qed.
Print Assumptions C25_dispatch.

(** Nothing to decompose. *)
Theorem C25_nothing_given : forall inverse L s mask n,
  slepian_forward inverse L s {| sg_f := None; sg_flm := None; sg_mask := mask |} n = Err RuntimeError.
Proof. reflexivity. Qed.
Print Assumptions C25_nothing_given.

(** The rank check. *)
Theorem C25_rank_range : forall inverse L s g m rank, (rank < 0 \/ Z.of_nat (L * L) <= rank)%Z ->
  decompose inverse L s g m rank = Err ValueError.
Proof. intros. apply decompose_range. assumption. Qed.
Print Assumptions C25_rank_range.

(** Any successful call returns exactly the number asked for, which is between
    0 and [L^2]; no assumption on the arrays. *)
Theorem C25_count : forall inverse L s g n_coeffs out,
  slepian_forward inverse L s g n_coeffs = Ok out ->
  let n := match n_coeffs with None => s_N s | Some n => n end in
  (0 <= n <= Z.of_nat (L * L))%Z /\ Z.of_nat (length out) = n.
Proof.
  intros inverse L s g n_coeffs out E n. unfold slepian_forward in E.
  destruct (detect_method g) as [m|]; [|discriminate]. cbn [rbind] in E. fold n in E.
  unfold decompose_all in E. destruct (Z.ltb_spec n 0); [discriminate|].
  pose proof (rmap_length _ _ _ E) as Hl. rewrite seq_length in Hl.
  split; [|lia]. split; [lia|]. destruct (Z.le_gt_cases n (Z.of_nat (L * L))); [assumption|].
  destruct (rmap_in _ _ _ (L * L) E) as [y Hy]; [apply in_seq; lia|].
  rewrite decompose_range in Hy by lia. discriminate.
Qed.
Print Assumptions C25_count.

(** Asking for more functions than are stored: IndexError when the stored set
    is cut short (an eigensolution read from the cache), ValueError when all
    [L^2] are there. *)
Theorem C25_too_many : forall inverse L s g n,
  slepian_basis L s -> length (s_evals s) = length (s_evecs s) -> shaped L g -> given g ->
  length (s_evecs s) < n ->
  slepian_forward inverse L s g (Some (Z.of_nat n))
  = Err (if length (s_evecs s) <? L * L then IndexError else ValueError).
Proof. intros. apply forward_too_many; assumption. Qed.
Print Assumptions C25_too_many.

(** On a signal of the bandlimit the region integral equals the harmonic sum
    when the eigenvectors belong to the overlap matrix computed on the same
    grid.  (SlepianArbitrary computes its matrix on the grid of [2L]; there the
    two agree only up to quadrature error.) *)
Theorem C25_region_is_harmonic_sum : forall inverse L Y s flm mask p,
  synthesis L Y inverse -> slepian_basis L s -> length flm = L * L -> length mask = samples L ->
  length (s_evals s) = length (s_evecs s) -> p < length (s_evecs s) ->
  nth p (s_evals s) 0%R <> 0%R ->
  (forall r, r < L * L ->
     csum (L * L) (fun j => Cmult (nth j (evec s p) (RtoC 0)) (overlap L Y mask j r))
     = Cmult (RtoC (nth p (s_evals s) 0%R)) (nth r (evec s p) (RtoC 0))) ->
  decompose inverse L s {| sg_f := Some (inverse L flm); sg_flm := None; sg_mask := Some mask |}
    Integrate_region (Z.of_nat p)
  = decompose inverse L s (of_flm flm) Harmonic_sum (Z.of_nat p).
Proof.
  intros inverse L Y s flm mask p HY HB Hf Hm He Hp Hl Heig.
  assert (HS : length (inverse L flm) = samples L) by (rewrite (HY flm Hf), map_length, seq_length; reflexivity).
  rewrite (detect_decompose inverse L s _ Integrate_region p HB He); [|..|reflexivity|exact Hp].
  - rewrite (detect_decompose inverse L s _ Harmonic_sum p HB He); [|..|reflexivity|exact Hp].
    + f_equal. rewrite (region_entry inverse L Y s flm mask p (nth p (s_evals s) 0%R)) by (assumption || reflexivity).
      reflexivity.
    + repeat split; cbn; congruence.
  - repeat split; cbn; congruence.
Qed.
Print Assumptions C25_region_is_harmonic_sum.

(** The integral over the whole sphere does not equal the harmonic sum: for
    every bandlimit, on the constant harmonic it is too small by the deficit of
    the weights (C51), and at [L = 1] it is zero. *)
Theorem C25_sphere_is_harmonic_sum_refuted : forall inverse L Y s flm p,
  1 <= L -> synthesis L Y inverse -> slepian_basis L s -> p < length (s_evecs s) ->
  length (s_evals s) = length (s_evecs s) ->
  (forall k, Y 0 k = RtoC (1 / sqrt (4 * PI))) ->
  flm = RtoC 1 :: repeat (RtoC 0) (L * L - 1) -> evec s p = flm ->
  exists x, decompose inverse L s (of_f (inverse L flm)) Integrate_sphere (Z.of_nat p) = Ok (RtoC x) /\
    (x < 1)%R /\ (L = 1 -> x = 0%R) /\
    decompose inverse L s (of_flm flm) Harmonic_sum (Z.of_nat p) = Ok (RtoC 1).
Proof.
  intros inverse L Y s flm p HL HY HB Hp He HY0 Hflm Hev.
  assert (LL : L * L - 1 + 1 = L * L) by nia.
  assert (Hf : length flm = L * L) by (rewrite Hflm; cbn [length]; rewrite repeat_length; lia).
  assert (HS : length (inverse L flm) = samples L) by (rewrite (HY flm Hf), map_length, seq_length; reflexivity).
  assert (F0 : nthC flm 0 = RtoC 1) by (rewrite Hflm; reflexivity).
  assert (Fi : forall i, i <> 0 -> nthC flm i = RtoC 0).
  { intros [|i] Hi; [contradiction|]. rewrite Hflm. cbn [nth]. apply nth_repeat. }
  exists (rsum (samples L) (flat_weight L) / (4 * PI))%R.
  pose proof PI_RGT_0 as HPI.
  split; [|split; [|split]].
  - rewrite (detect_decompose inverse L s _ Integrate_sphere p HB He); [|..|reflexivity|exact Hp].
    + f_equal. unfold of_f. rewrite (sphere_entry inverse L Y) by assumption.
      rewrite (csum_single _ 0); [|nia|].
      2:{ intros i _ Hi. rewrite Fi by exact Hi. ring. }
      rewrite F0, (csum_single _ 0); [|nia|].
      2:{ intros j _ Hj. rewrite Hev, Fi by exact Hj. rewrite Cconj_R. ring. }
      rewrite Hev, F0, Cconj_R.
      rewrite (csum_ext _ _ (fun k => RtoC (/ (4 * PI) * flat_weight L k))).
      * rewrite csum_RtoC, rsum_scal_l. apply C_ext; cbn; [field; lra|ring].
      * intros k _. rewrite !HY0, Cconj_R.
        assert (Q : (1 / sqrt (4 * PI) * (1 / sqrt (4 * PI)) = / (4 * PI))%R).
        { assert (S2 : (sqrt (4 * PI) * sqrt (4 * PI) = 4 * PI)%R) by (apply sqrt_sqrt; lra).
          assert (S3 : (0 < sqrt (4 * PI))%R) by (apply sqrt_lt_R0; lra).
          unfold Rdiv. rewrite <- S2 at 3. field. lra. }
        rewrite <- !RtoC_mult, Q. reflexivity.
    + repeat split; cbn; congruence.
  - destruct (C51_exactness_refuted L HL) as [_ W].
    assert (E : Re (integrate_whole_sphere (samples L) (flat_weight L) (fun _ => RtoC 1) []) = rsum (samples L) (flat_weight L)).
    { unfold integrate_whole_sphere, multiply_args. cbn [fold_left]. rewrite csum_re. apply rsum_ext. intros. cbn. ring. }
    rewrite E in W. apply (Rmult_lt_reg_r (4 * PI)); [lra|].
    unfold Rdiv. rewrite Rmult_assoc, Rinv_l by lra. lra.
  - intros ->.
    assert (E : RtoC (rsum (samples 1) (flat_weight 1)) = RtoC 0).
    { rewrite <- (C51_one_degree (fun _ => RtoC 1) []). rewrite <- csum_RtoC.
      unfold integrate_whole_sphere, multiply_args. cbn [fold_left]. apply csum_ext. intros. ring. }
    apply RtoC_inj in E. rewrite E. field. lra.
  - rewrite (detect_decompose inverse L s _ Harmonic_sum p HB He); [|..|reflexivity|exact Hp].
    + f_equal. unfold entry, of_flm. cbn [sg_flm sg_f sg_mask]. rewrite (csum_single _ 0); [|nia|].
      * rewrite Hev, F0, Cconj_R. ring.
      * intros i _ Hi. rewrite Fi by exact Hi. ring.
    + repeat split; cbn; congruence.
Qed.
Print Assumptions C25_sphere_is_harmonic_sum_refuted.

Example C25_dispatch_case :
  slepian_forward toy_inverse 2 toy (of_flm [RtoC 5; (0, 10)%R; RtoC 7; RtoC 0]) (Some 3%Z)
  = Ok [RtoC 11; (0, 2)%R; RtoC 7].
Proof.
  destruct (C25_dispatch toy_inverse 2 toy (of_flm [RtoC 5; (0, 10)%R; RtoC 7; RtoC 0]) 3) as [E _].
  - exact toy_basis.
  - reflexivity.
  - repeat split; cbn; try discriminate. intros ? [= <-]. reflexivity.
  - left. discriminate.
  - cbn. lia.
  - change 3%Z with (Z.of_nat 3). rewrite E. f_equal. cbn [seq map].
    repeat match goal with |- _ :: _ = _ :: _ => f_equal end; apply C_ext; cbn; field.
Qed.
Example C25_too_many_case : forall g, shaped 2 g -> given g ->
  slepian_forward toy_inverse 2 toy g (Some 4%Z) = Err IndexError.
Proof. intros g Hs Hg. exact (C25_too_many toy_inverse 2 toy g 4 toy_basis eq_refl Hs Hg (le_n 4)). Qed.

(** The region of the single sample 4 at [L = 2]: its overlap matrix has one
    entry. *)
Lemma flat_weight_2_4 : flat_weight 2 4 = ((PI / 2) ^ 2)%R.
Proof.
  unfold flat_weight. rewrite weight_spec by lia. cbn [seq map concat app nth Nat.add Nat.mul].
  replace (PI * INR 1 / INR 2)%R with (PI / 2)%R by (cbn; field). rewrite sin_PI2. cbn [INR]. field.
Qed.
Definition point_Y (i k : nat) : C := if (i =? 0) && (k =? 4) then RtoC 1 else RtoC 0.
Definition point_inverse (L : nat) (v : list C) : list C :=
  map (fun k => csum (L * L) (fun i => Cmult (nthC v i) (point_Y i k))) (seq 0 (samples L)).
Definition point_slepian : slepian :=
  {| s_N := 1; s_evals := [((PI / 2) ^ 2)%R]; s_evecs := [[RtoC 1; RtoC 0; RtoC 0; RtoC 0]] |}.
Definition point_mask : list R := map (fun k => if k =? 4 then 1%R else 0%R) (seq 0 12).
Lemma point_basis : slepian_basis 2 point_slepian.
Proof.
  unfold slepian_basis, point_slepian. cbn [s_N s_evecs length]. change (2 * 2) with 4. change (Z.to_nat 1) with 1.
  repeat split; try lia.
  - intros v [<-|[]]; reflexivity.
  - intros [|p] [|q] u v Hp Hq; cbn [nth_error] in Hp, Hq;
      try (destruct p; discriminate); try (destruct q; discriminate).
    injection Hp as <-; injection Hq as <-; apply C_ext; cbn; ring.
Qed.
Lemma point_evec : evec point_slepian 0 = [RtoC 1; RtoC 0; RtoC 0; RtoC 0].
Proof. reflexivity. Qed.
Example C25_region_case : forall flm, length flm = 4 ->
  decompose point_inverse 2 point_slepian
    {| sg_f := Some (point_inverse 2 flm); sg_flm := None; sg_mask := Some point_mask |} Integrate_region 0
  = Ok (nth 0 flm (RtoC 0)).
Proof.
  intros flm Hf. pose proof PI_RGT_0.
  assert (P2 : ((PI / 2) ^ 2 <> 0)%R) by (apply pow_nonzero; lra).
  transitivity (decompose point_inverse 2 point_slepian (of_flm flm) Harmonic_sum (Z.of_nat 0));
    [apply (C25_region_is_harmonic_sum point_inverse 2 point_Y point_slepian flm point_mask 0)|].
  - intros v _. reflexivity.
  - exact point_basis.
  - exact Hf.
  - reflexivity.
  - reflexivity.
  - cbn; lia.
  - exact P2.
  - assert (O : forall j r, overlap 2 point_Y point_mask j r
              = if (j =? 0) && (r =? 0) then RtoC ((PI / 2) ^ 2) else RtoC 0).
    { intros j r. unfold overlap. rewrite (csum_single _ 4).
      - rewrite flat_weight_2_4. unfold point_Y. destruct (j =? 0), (r =? 0); apply C_ext; cbn; ring.
      - cbn; lia.
      - intros k _ Hk. unfold point_Y. destruct (Nat.eqb_spec k 4); [contradiction|].
        rewrite Bool.andb_false_r. ring. }
    intros r Hr. rewrite (csum_single _ 0); [|cbn; lia|].
    + rewrite O, point_evec. cbn [point_slepian nth Nat.eqb andb s_evals].
      destruct r as [|[|[|[|r]]]]; [..|cbn in Hr; lia]; cbn [Nat.eqb nth]; apply C_ext; cbn; ring.
    + intros j _ Hj. rewrite O. destruct (Nat.eqb_spec j 0); [contradiction|]. cbn [andb]. ring.
  - rewrite (detect_decompose point_inverse 2 point_slepian (of_flm flm) Harmonic_sum 0 point_basis eq_refl).
    + f_equal. unfold entry, of_flm. cbn [sg_flm]. rewrite (csum_single _ 0); [|cbn; lia|].
      * rewrite point_evec. cbn [nth]. rewrite Cconj_R. ring.
      * intros i Hi Hi0. rewrite point_evec.
        replace (nth i [RtoC 1; RtoC 0; RtoC 0; RtoC 0] (RtoC 0)) with (RtoC 0); [rewrite Cconj_R; ring|].
        destruct i as [|[|[|[|i]]]]; [contradiction|reflexivity..|cbn in Hi; lia].
    + repeat split; cbn; try discriminate. intros ? [= <-]. exact Hf.
    + reflexivity.
    + cbn; lia.
Qed.

(** ** C43 *)

(** The Slepian function of rank [p] has the coefficients of the unit vector
    [p] up to the Shannon number (all zero for [p >= N]); a negative rank
    counts from the end of the stored functions, and every other rank raises
    IndexError. *)
Theorem C43_unit_vector : forall inverse L s p,
  slepian_basis L s -> length (s_evals s) = length (s_evecs s) -> p < length (s_evecs s) ->
  exists out, slepian_function_coefficients inverse L s (Z.of_nat p) = Ok out /\
    slepian_function_coefficients inverse L s (Z.of_nat p - Z.of_nat (length (s_evecs s))) = Ok out /\
    length out = Z.to_nat (s_N s) /\
    forall q, q < Z.to_nat (s_N s) -> nth q out (RtoC 0) = if q =? p then RtoC 1 else RtoC 0.
Proof.
  intros inverse L s p HB He Hp.
  assert (E : forall z, (z = Z.of_nat p \/ z = Z.of_nat p - Z.of_nat (length (s_evecs s)))%Z ->
    slepian_function_coefficients inverse L s z
    = Ok (map (fun q => cdot (L * L) (evec s p) (evec s q)) (seq 0 (Nn s)))).
  { intros z Hz.
    assert (G : forall A (l : list A) d, length l = length (s_evecs s) -> py_index l z = Ok (nth p l d)).
    { intros A l d Hl. unfold py_index.
      assert (J : (if (0 <=? z)%Z then z else (Z.of_nat (length l) + z)%Z) = Z.of_nat p).
      { destruct (Z.leb_spec 0 z); lia. }
      rewrite J. destruct (Z.ltb_spec (Z.of_nat p) 0); [lia|]. rewrite Nat2Z.id.
      rewrite (nth_error_nth' _ d) by lia. reflexivity. }
    unfold slepian_function_coefficients.
    rewrite (G R (s_evals s) 0%R He), (G _ (s_evecs s) [] eq_refl). cbn [rbind].
    change (@None Z) with (option_map Z.of_nat None). unfold of_flm. fold (evec s p).
    rewrite forward_flm_ok; [reflexivity|exact HB|apply evec_length; assumption|exact (proj1 (proj2 HB))]. }
  eexists. split; [apply E; left; reflexivity|]. split; [apply E; right; reflexivity|].
  split; [rewrite map_length, seq_length; reflexivity|].
  intros q Hq. rewrite nth_map_seq by exact Hq.
  pose proof (proj1 (proj2 HB)).
  change (cdot (L * L) (evec s p) (evec s q)) with (ip (L * L) (fun j => nthC (evec s p) j) (fun j => nthC (evec s q) j)).
  rewrite (basis_ortho L s HB) by lia. rewrite Nat.eqb_sym. reflexivity.
Qed.
Print Assumptions C43_unit_vector.

Theorem C43_other_ranks : forall inverse L s rank,
  length (s_evals s) = length (s_evecs s) ->
  (rank < - Z.of_nat (length (s_evecs s)) \/ Z.of_nat (length (s_evecs s)) <= rank)%Z ->
  slepian_function_coefficients inverse L s rank = Err IndexError.
Proof.
  intros inverse L s rank He Hr. unfold slepian_function_coefficients, py_index. rewrite He.
  destruct (Z.leb_spec 0 rank).
  - destruct (Z.ltb_spec rank 0); [reflexivity|].
    rewrite (proj2 (nth_error_None (s_evals s) (Z.to_nat rank))) by lia. reflexivity.
  - destruct (Z.ltb_spec (Z.of_nat (length (s_evecs s)) + rank) 0); [reflexivity|lia].
Qed.
Print Assumptions C43_other_ranks.

Example C43_case :
  slepian_function_coefficients toy_inverse 2 toy 1 = Ok [RtoC 0; RtoC 1] /\
  slepian_function_coefficients toy_inverse 2 toy (-1) = Ok [RtoC 0; RtoC 0] /\
  slepian_function_coefficients toy_inverse 2 toy 3 = Err IndexError.
Proof.
  assert (T : forall out x y, length out = Z.to_nat (s_N toy) ->
    nth 0 out (RtoC 0) = x -> nth 1 out (RtoC 0) = y -> out = [x; y]).
  { intros out x y Hl <- <-. destruct out as [|a [|b [|c out]]]; try discriminate. reflexivity. }
  split; [|split].
  - destruct (C43_unit_vector toy_inverse 2 toy 1 toy_basis eq_refl ltac:(cbn; lia)) as (out & E & _ & Hl & H).
    rewrite (T out (RtoC 0) (RtoC 1) Hl) in E; [exact E|apply (H 0); cbn; lia|apply (H 1); cbn; lia].
  - destruct (C43_unit_vector toy_inverse 2 toy 2 toy_basis eq_refl ltac:(cbn; lia)) as (out & _ & E & Hl & H).
    rewrite (T out (RtoC 0) (RtoC 0) Hl) in E; [exact E|apply (H 0); cbn; lia|apply (H 1); cbn; lia].
  - apply C43_other_ranks; [reflexivity|cbn; lia].
Qed.

(** The hypotheses of [C25_sphere_is_harmonic_sum_refuted] at [L = 2]. *)
Definition mono_Y (i k : nat) : C := if i =? 0 then RtoC (1 / sqrt (4 * PI)) else RtoC 0.
Definition mono_inverse (L : nat) (v : list C) : list C :=
  map (fun k => csum (L * L) (fun i => Cmult (nthC v i) (mono_Y i k))) (seq 0 (samples L)).
Example C25_sphere_case : exists x,
  decompose mono_inverse 2 point_slepian (of_f (mono_inverse 2 (RtoC 1 :: repeat (RtoC 0) 3)))
    Integrate_sphere 0 = Ok (RtoC x) /\ (x < 1)%R.
Proof.
  destruct (C25_sphere_is_harmonic_sum_refuted mono_inverse 2 mono_Y point_slepian (RtoC 1 :: repeat (RtoC 0) 3) 0)
    as (x & E & Hx & _).
  - lia.
  - intros v _. reflexivity.
  - exact point_basis.
  - cbn; lia.
  - reflexivity.
  - reflexivity.
  - reflexivity.
  - reflexivity.
  - exists x. split; [exact E|exact Hx].
Qed.

(** ** C44 *)

(** Harmonic space: every coefficient is multiplied by the value of its
    harmonic at the point. *)
Theorem C44_flm : forall coefficients ylm, length coefficients = length ylm ->
  exists h, translate false coefficients (flm_translation_helper ylm) None = Ok (A1 h) /\
    length h = length ylm /\
    forall i, i < length ylm -> nth i h (RtoC 0) = Cmult (nth i coefficients (RtoC 0)) (nth i ylm (RtoC 0)).
Proof.
  intros c y H. unfold translate, flm_translation_helper. cbn [rbind].
  destruct (C23_entries c (map Cconj y) None) as (h & E & Hl & Hh); [rewrite map_length; exact H|].
  exists h. cbn [option_map] in E. split; [exact E|]. cbn [used] in *. split; [congruence|].
  intros i Hi. rewrite Hh by congruence. rewrite nth_map_C by apply Cconj_R. rewrite Cconj_conj. reflexivity.
Qed.
Print Assumptions C44_flm.

(** The sum of the translated coefficients is the value of the signal at the
    point: translating samples the signal. *)
Theorem C44_flm_samples : forall inverse L Y flm ylm k h,
  synthesis L Y inverse -> length flm = L * L -> k < samples L ->
  ylm = map (fun i => Y i k) (seq 0 (L * L)) ->
  translate false flm (flm_translation_helper ylm) None = Ok (A1 h) ->
  clsum h = nth k (inverse L flm) (RtoC 0).
Proof.
  intros inverse L Y flm ylm k h HY Hf Hk -> E.
  destruct (C44_flm flm (map (fun i => Y i k) (seq 0 (L * L)))) as (h' & E' & Hl & Hh).
  { rewrite map_length, seq_length. exact Hf. }
  rewrite E in E'. injection E' as <-. rewrite map_length, seq_length in Hl, Hh.
  rewrite clsum_nth, Hl, (HY flm Hf), nth_map_seq by exact Hk. apply csum_ext.
  intros i Hi. rewrite Hh, nth_map_seq by exact Hi. reflexivity.
Qed.
Print Assumptions C44_flm_samples.

(** The Dirac delta: the translated delta is the conjugate of the basis, and
    convolving any signal with it gives the translated signal. *)
Theorem C44_dirac : forall delta coefficients helper g, helper = Ok g ->
  translate true delta helper None = Ok (A1 g) /\
  sifting_convolution (A1 coefficients) (A1 g) None = translate false coefficients helper None.
Proof. intros delta c helper g ->. split; reflexivity. Qed.
Print Assumptions C44_dirac.

Lemma s_p_prime_ok inverse L Y s p q : synthesis L Y inverse -> slepian_basis L s ->
  p < n_theta L -> q < n_phi L ->
  fp_translation_helper inverse L p q s
  = Ok (map (fun j => Cconj (if j <? Nn s then csum (L * L) (fun i => Cmult (nthC (evec s j) i) (Y i (p * n_phi L + q)))
                             else RtoC 0)) (seq 0 (L * L))).
Proof.
  intros HY HB Hp Hq. pose proof HB as (HN & Hn & Hle & _).
  unfold fp_translation_helper, compute_s_p_omega_prime. rewrite (s_p_omega_ok inverse L s HB). cbn [rbind].
  destruct (Nat.ltb_spec p (n_theta L)); [|lia]. destruct (Nat.ltb_spec q (n_phi L)); [|lia]. cbn [andb rbind].
  unfold boost_coefficient_resolution. destruct (Z.ltb_spec (Z.of_nat (L * L) - s_N s) 0); [lia|]. cbn [rbind].
  f_equal. apply list_eq_map.
  - rewrite map_length, app_length, !map_length, seq_length, repeat_length. unfold Nn. lia.
  - intros j Hj. rewrite nth_map_C by apply Cconj_R. f_equal. rewrite map_map.
    destruct (Nat.ltb_spec j (Nn s)).
    + rewrite app_nth1 by (rewrite map_length, seq_length; lia). rewrite nth_map_seq by assumption.
      rewrite (HY (evec s j)) by (apply evec_length; [exact HB|unfold Nn in *; lia]).
      rewrite nth_map_seq; [reflexivity|]. unfold samples. nia.
    + rewrite app_nth2 by (rewrite map_length, seq_length; lia). apply nth_repeat.
Qed.

(** Slepian space, at the grid point number [k = p * n_phi + q]: coefficients
    below the Shannon number are multiplied by the value of the Slepian
    function, the others vanish. *)
Theorem C44_fp : forall inverse L Y s p q coefficients,
  synthesis L Y inverse -> slepian_basis L s -> p < n_theta L -> q < n_phi L ->
  length coefficients = L * L ->
  exists h, translate false coefficients (fp_translation_helper inverse L p q s) None = Ok (A1 h) /\
    length h = L * L /\
    forall j, j < L * L -> nth j h (RtoC 0)
      = if j <? Z.to_nat (s_N s)
        then Cmult (nth j coefficients (RtoC 0))
               (csum (L * L) (fun i => Cmult (nth i (evec s j) (RtoC 0)) (Y i (p * n_phi L + q))))
        else RtoC 0.
Proof.
  intros inverse L Y s p q c HY HB Hp Hq Hc. rewrite (s_p_prime_ok inverse L Y) by assumption.
  unfold translate. cbn [rbind].
  match goal with |- exists h, sifting_convolution _ (A1 ?g) _ = _ /\ _ => set (G := g) end.
  assert (HG : length G = L * L) by (unfold G; rewrite map_length, seq_length; reflexivity).
  destruct (C23_entries c G None) as (h & E & Hl & Hh); [congruence|].
  exists h. split; [exact E|]. cbn [used] in *. split; [congruence|].
  intros j Hj. rewrite Hh by congruence. unfold G. rewrite nth_map_seq by exact Hj. rewrite Cconj_conj.
  fold (Nn s). destruct (j <? Nn s); [reflexivity|ring].
Qed.
Print Assumptions C44_fp.

(** With the Shannon number given, coefficients of any length from [N] on are
    accepted, and the sum is the value of the Slepian synthesis at the point. *)
Theorem C44_fp_shannon : forall inverse L Y s p q coefficients f,
  synthesis L Y inverse -> slepian_basis L s -> p < n_theta L -> q < n_phi L ->
  Z.to_nat (s_N s) <= length coefficients ->
  slepian_inverse inverse coefficients L s = Ok f ->
  exists h, translate false coefficients (fp_translation_helper inverse L p q s) (Some (s_N s)) = Ok (A1 h) /\
    length h = Z.to_nat (s_N s) /\ clsum h = nth (p * n_phi L + q) f (RtoC 0).
Proof.
  intros inverse L Y s p q c f HY HB Hp Hq Hc Ef. pose proof HB as (HN & Hn & Hle & _).
  rewrite (s_p_prime_ok inverse L Y) by assumption. unfold translate. cbn [rbind].
  match goal with |- exists h, sifting_convolution _ (A1 ?g) _ = _ /\ _ => set (G := g) end.
  assert (HG : length G = L * L) by (unfold G; rewrite map_length, seq_length; reflexivity).
  replace (s_N s) with (Z.of_nat (Nn s)) by (unfold Nn; lia).
  rewrite sifting_1d_prefix by (rewrite ?HG; unfold Nn; lia).
  destruct (C23_entries (firstn (Nn s) c) (firstn (Nn s) G) None) as (h & E & Hl & Hh).
  { rewrite !firstn_length. unfold Nn in *. lia. }
  exists h. split; [exact E|]. cbn [used] in *. rewrite firstn_length in Hl, Hh.
  replace (Nat.min (Nn s) (length c)) with (Nn s) in Hl, Hh by (unfold Nn; lia).
  rewrite Nat2Z.id. split; [exact Hl|].
  destruct (C24_inverse inverse L Y s c f HY HB Hc Ef) as [_ Hf]. rewrite Hf by (unfold samples; nia).
  rewrite clsum_nth, Hl. apply csum_ext. intros j Hj. rewrite Hh by exact Hj.
  rewrite !nth_firstn_lt by exact Hj. unfold G. rewrite nth_map_seq by (unfold Nn in *; lia).
  rewrite Cconj_conj. destruct (Nat.ltb_spec j (Nn s)); [reflexivity|unfold Nn in *; lia].
Qed.
Print Assumptions C44_fp_shannon.

(** Without it, coefficients whose length is not [L^2] (for instance the [N]
    coefficients of a Slepian signal) cannot be translated. *)
Theorem C44_fp_length : forall inverse L Y s p q coefficients,
  synthesis L Y inverse -> slepian_basis L s -> p < n_theta L -> q < n_phi L ->
  length coefficients <> L * L -> length coefficients <> 1 -> L <> 1 ->
  translate false coefficients (fp_translation_helper inverse L p q s) None = Err ValueError.
Proof.
  intros inverse L Y s p q c HY HB Hp Hq H1 H2 H3. rewrite (s_p_prime_ok inverse L Y) by assumption.
  unfold translate. cbn [rbind]. apply sifting_1d_mismatch; [| |];
    rewrite ?map_length, ?seq_length; try assumption. nia.
Qed.
Print Assumptions C44_fp_length.

(** A point off the grid. *)
Theorem C44_off_grid : forall inverse L s p q coefficients b n,
  slepian_basis L s -> n_theta L <= p \/ n_phi L <= q ->
  translate b coefficients (fp_translation_helper inverse L p q s) n = Err IndexError.
Proof.
  intros inverse L s p q c b n HB H. unfold translate, fp_translation_helper, compute_s_p_omega_prime.
  rewrite (s_p_omega_ok inverse L s HB). cbn [rbind].
  destruct (Nat.ltb_spec p (n_theta L)), (Nat.ltb_spec q (n_phi L)); try lia; reflexivity.
Qed.
Print Assumptions C44_off_grid.

Example C44_case : exists h,
  translate false [RtoC 5; (0, 10)%R] (fp_translation_helper toy_inverse 2 0 0 toy) (Some 2%Z) = Ok (A1 h) /\
  clsum h = RtoC (-5) /\
  translate false [RtoC 5; (0, 10)%R] (fp_translation_helper toy_inverse 2 0 0 toy) None = Err ValueError.
Proof.
  assert (Ef : slepian_inverse toy_inverse [RtoC 5; (0, 10)%R] 2 toy = Ok (toy_inverse 2 (expand 2 toy [RtoC 5; (0, 10)%R]))).
  { apply (slepian_inverse_ok toy_inverse 2 toy_Y); [apply toy_synthesis|exact toy_basis|cbn; lia]. }
  destruct (C44_fp_shannon toy_inverse 2 toy_Y toy 0 0 [RtoC 5; (0, 10)%R] _ (toy_synthesis 2) toy_basis
    ltac:(cbn; lia) ltac:(cbn; lia) ltac:(cbn; lia) Ef) as (h & E & _ & Hs).
  exists h. split; [exact E|]. split.
  - rewrite Hs. destruct (C24_inverse toy_inverse 2 toy_Y toy [RtoC 5; (0, 10)%R] _ (toy_synthesis 2) toy_basis ltac:(cbn; lia) Ef) as [_ H].
    rewrite H by (cbn; lia). change (Z.to_nat (s_N toy)) with 2. apply C_ext; cbn; field.
  - apply (C44_fp_length toy_inverse 2 toy_Y); [apply toy_synthesis|exact toy_basis|cbn; lia..|discriminate|discriminate|discriminate].
Qed.

(** ** C52: noise on Slepian coefficients *)

(** The noise has [N] coefficients: those of a noise field of bandlimit [L]
    scaled to the synthesised signal; its energy is at most that of the field. *)
Theorem C52_noise : forall inverse forward normal L Y s coefficients snr_in,
  synthesis L Y inverse -> sampling_theorem L inverse forward -> slepian_basis L s ->
  Z.to_nat (s_N s) <= length coefficients ->
  exists flm nlm n_p, length flm = L * L /\
    slepian_inverse inverse coefficients L s = Ok (inverse L flm) /\
    create_noise normal L flm snr_in = Ok nlm /\
    create_slepian_noise inverse forward normal L coefficients s snr_in = Ok n_p /\
    length n_p = Z.to_nat (s_N s) /\ (power n_p <= power nlm)%R /\
    forall p, p < Z.to_nat (s_N s) -> nth p n_p (RtoC 0)
      = csum (L * L) (fun i => Cmult (nth i nlm (RtoC 0)) (Cconj (nth i (evec s p) (RtoC 0)))).
Proof.
  intros inverse forward normal L Y s c snr_in HY HF HB Hc. pose proof HB as (HN & Hn & _).
  exists (expand L s c). destruct (create_noise_spec normal L (expand L s c) snr_in) as (nlm & En & Hl & _).
  exists nlm, (map (fun p => cdot (L * L) nlm (evec s p)) (seq 0 (Nn s))).
  assert (EF : slepian_forward inverse L s (of_flm nlm) None = Ok (map (fun p => cdot (L * L) nlm (evec s p)) (seq 0 (Nn s)))).
  { change (@None Z) with (option_map Z.of_nat None). unfold of_flm. apply forward_flm_ok; assumption. }
  split; [apply expand_length|].
  split; [exact (slepian_inverse_ok inverse L Y s c HY HB Hc)|]. split; [exact En|].
  split.
  { unfold create_slepian_noise. rewrite (slepian_inverse_ok inverse L Y s c HY HB Hc). cbn [rbind].
    rewrite HF by apply expand_length. rewrite En. cbn [rbind]. exact EF. }
  split; [rewrite map_length, seq_length; reflexivity|].
  split.
  { apply (proj1 (forward_bessel inverse L s nlm None _ HB Hl Hn EF)). }
  intros p Hp. rewrite nth_map_seq by exact Hp. reflexivity.
Qed.
Print Assumptions C52_noise.

(** [N] coefficients: the noise is added entry by entry. *)
Theorem C52_added : forall inverse forward normal L Y s coefficients snr_in,
  synthesis L Y inverse -> sampling_theorem L inverse forward -> slepian_basis L s ->
  length coefficients = Z.to_nat (s_N s) ->
  exists n_p noisy, create_slepian_noise inverse forward normal L coefficients s snr_in = Ok n_p /\
    fp_add_noise inverse forward normal L s coefficients (Some snr_in)
    = Ok (noisy, Some coefficients, Some (compute_snr coefficients n_p)) /\
    length noisy = Z.to_nat (s_N s) /\
    forall p, p < Z.to_nat (s_N s) ->
      nth p noisy (RtoC 0) = Cplus (nth p coefficients (RtoC 0)) (nth p n_p (RtoC 0)).
Proof.
  intros inverse forward normal L Y s c snr_in HY HF HB Hc.
  destruct (C52_noise inverse forward normal L Y s c snr_in HY HF HB) as (flm & nlm & n_p & _ & _ & _ & E & Hl & _); [lia|].
  exists n_p, (zip Cplus c n_p). split; [exact E|]. unfold fp_add_noise. rewrite E. cbn [rbind].
  rewrite broadcast_same by lia. cbn [rbind]. split; [reflexivity|].
  split; [rewrite zip_length; lia|]. intros p Hp. apply nth_zip; lia.
Qed.
Print Assumptions C52_added.

(** Functions that keep [L^2] coefficients (Slepian wavelets, the Slepian Dirac
    delta and identity) cannot be noised: the sum with the [N] noise
    coefficients raises, after the snr was computed. *)
Theorem C52_full_length_refuted : forall inverse forward normal L Y s coefficients snr_in,
  synthesis L Y inverse -> sampling_theorem L inverse forward -> slepian_basis L s ->
  length coefficients = L * L -> (1 < s_N s < Z.of_nat (L * L))%Z ->
  fp_add_noise inverse forward normal L s coefficients (Some snr_in) = Err ValueError.
Proof.
  intros inverse forward normal L Y s c snr_in HY HF HB Hc HN. pose proof HB as (_ & Hn & _).
  destruct (C52_noise inverse forward normal L Y s c snr_in HY HF HB) as (flm & nlm & n_p & _ & _ & _ & E & Hl & _); [lia|].
  unfold fp_add_noise. rewrite E. cbn [rbind]. rewrite broadcast_fail by lia. reflexivity.
Qed.
Print Assumptions C52_full_length_refuted.

(** In particular the identity cannot, at any band limit. *)
Theorem C52_identity_refuted : forall inverse forward normal L Y s snr_in,
  synthesis L Y inverse -> sampling_theorem L inverse forward -> slepian_basis L s -> (1 < s_N s < Z.of_nat (L * L))%Z ->
  fp_add_noise inverse forward normal L s (slepian_identity_coefficients L) (Some snr_in) = Err ValueError /\
  forall p, p < L * L -> nth p (slepian_identity_coefficients L) (RtoC 0) = RtoC 1.
Proof.
  intros inverse forward normal L Y s snr_in HY HF HB HN. split.
  - apply (C52_full_length_refuted inverse forward normal L Y); [exact HY|exact HF|exact HB|apply repeat_length|exact HN].
  - intros p Hp. unfold slepian_identity_coefficients. rewrite (nth_indep _ (RtoC 0) (RtoC 1)) by (rewrite repeat_length; exact Hp). apply nth_repeat.
Qed.
Print Assumptions C52_identity_refuted.

Example C52_case : forall normal,
  fp_add_noise toy_inverse toy_forward normal 2 toy (slepian_identity_coefficients 2) (Some 10%R) = Err ValueError /\
  exists r, fp_add_noise toy_inverse toy_forward normal 2 toy [RtoC 1; RtoC 0] (Some 10%R) = Ok r.
Proof.
  intros normal. split.
  - apply (C52_full_length_refuted toy_inverse toy_forward normal 2 toy_Y);
      [apply toy_synthesis|apply toy_sampling|exact toy_basis|reflexivity|cbn; lia].
  - destruct (C52_added toy_inverse toy_forward normal 2 toy_Y toy [RtoC 1; RtoC 0] 10%R
      (toy_synthesis 2) (toy_sampling 2) toy_basis eq_refl) as (n_p & noisy & _ & E & _).
    eexists. exact E.
Qed.
