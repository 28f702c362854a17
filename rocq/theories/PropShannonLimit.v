(** * C86 for the eigenvalues: a box or cap given by its samples. *)
From Coq Require Import String List ZArith Arith Bool Reals Lia Lra Psatz.
From Coquelicot Require Import Coquelicot.
From Verif Require Import Base PyNum RSum CSum Region Mask Quadrature Plot LatLonIntegrals LatLonProofs SpecLatLon SpecConcentration SpecArbitrary
  ArbitrarySolve ArbitrarySolveProofs LatLonSolve Eigen SpecEigen EigenProofs Index IndexProofs CapProofs SpecHarmonics TextbookProofs SpecPolar PropConcentration PropCap PropArbitrary PropConvergence SpecWigner SpecWignerD WignerDProofs RegionProofs PropWignerD PropSpectral.
Import ListNotations.
Local Open Scope R_scope.

(** The mean of the eigenvalues, over all [L ^ 2] of them. *)
Definition mean_eigenvalue (L : nat) (evals : list R) : R := rlsum evals / (INR L * INR L).

(** Whoever passes the samples of a box or cap to the solver for arbitrary regions
    gets, on average, the eigenvalues of the solver for boxes or caps, up to an
    error of order [1 / L]. *)
Theorem C86_shannon : forall eigh argsort d L land r fs mask fs' harmonic ncpu garbage sched evals rows, (1 <= L)%nat ->
  create_mask_region land (resolution_of L) (sample_grid (resolution_of L)) r fs = Ok (mask, fs') ->
  arbitrary_calls eigh argsort d L mask harmonic ncpu garbage sched ->
  solve_arbitrary eigh argsort L mask harmonic ncpu garbage sched = Ok (evals, rows) ->
  let err := (3 * PI ^ 2 + 5 * PI) / (2 * INR L) in
  (forall eigh' argsort' dl order evals' rows', r_region_type r = LimLatLon -> 0 <= r_theta_min r <= r_theta_max r -> r_theta_max r <= PI ->
     0 <= r_phi_min r <= r_phi_max r -> r_phi_max r <= 2 * PI ->
     external_calls eigh' argsort' (r_theta_min r) (r_theta_max r) (r_phi_min r) (r_phi_max r) dl order L ->
     solve_lat_lon eigh' argsort' (r_theta_min r) (r_theta_max r) (r_phi_min r) (r_phi_max r) dl order L = Ok (evals', rows') ->
     Rabs (mean_eigenvalue L evals - mean_eigenvalue L evals') <= err) /\
  (forall eigh' argsort' d' ylm_edge Dm evals' rows' orders, r_region_type r = Polar -> r_gap r = false -> 0 <= r_theta_max r <= PI ->
     cap_calls eigh' argsort' d' L false (r_theta_max r) ylm_edge Dm ->
     solve_all_orders argsort' eigh' Dm L = Ok (evals', rows', orders) ->
     Rabs (mean_eigenvalue L evals - mean_eigenvalue L evals') <= err) /\
  (forall eigh' argsort' d' ylm_edge Dm evals' rows' orders, r_region_type r = Polar -> r_gap r = true -> 0 <= r_theta_max r < PI / 2 ->
     cap_calls eigh' argsort' d' L true (r_theta_max r) ylm_edge Dm ->
     solve_all_orders argsort' eigh' Dm L = Ok (evals', rows', orders) ->
     Rabs (mean_eigenvalue L evals - mean_eigenvalue L evals') <= 2 * err).
Proof.
  intros eigh argsort d L land r fs mask fs' f ncpu garbage sched evals rows HL EM HX E err. pose proof PI_RGT_0 as PP.
  assert (HI : 1 <= INR L) by (apply (le_INR 1); exact HL).
  pose proof (C86_area L land r fs mask fs' HL EM) as A. cbv zeta in A. destruct A as (A1 & A2 & A3).
  destruct (C67_shannon _ _ _ _ _ _ _ _ _ _ _ ""%string HL HX E) as (_ & S & _). cbn [calculate_area] in S.
  assert (KEY : forall k area s e, 0 <= k -> s = k * area * (INR L * INR L) / (4 * PI) -> Rabs (arbitrary_area L mask - k * area) <= e -> Rabs (rlsum evals / (INR L * INR L) - s / (INR L * INR L)) <= e / (4 * PI)).
  { intros k area s e Hk -> H. rewrite S.
    replace (arbitrary_area L mask * (INR L * INR L) / (4 * PI) / (INR L * INR L) - k * area * (INR L * INR L) / (4 * PI) / (INR L * INR L))
      with ((arbitrary_area L mask - k * area) * / (4 * PI)) by (field; split; lra).
    rewrite Rabs_mult, (Rabs_pos_eq (/ (4 * PI))) by (left; apply Rinv_0_lt_compat; lra). unfold Rdiv. apply Rmult_le_compat_r; [left; apply Rinv_0_lt_compat; lra|exact H]. }
  assert (EE : (12 * PI ^ 3 + 20 * PI ^ 2) / (2 * INR L) / (4 * PI) = err) by (unfold err; field; split; lra).
  unfold mean_eigenvalue. split; [|split].
  - intros eigh' argsort' dl order evals' rows' T H1 H2 H3 H4 X E'. specialize (A1 T H1 H2 H3 H4). unfold choose_slepian_method in A1. rewrite T in A1.
    destruct (C65_shannon _ _ _ _ _ _ _ _ _ _ _ HL X E') as [S' _]. rewrite <- EE. eapply (KEY 1 _ _ _ ltac:(lra)); [|rewrite Rmult_1_l; exact A1]. rewrite Rmult_1_l. exact S'.
  - intros eigh' argsort' d' ylm Dm evals' rows' orders T Hg H1 X E'. specialize (A2 T Hg H1). unfold choose_slepian_method in A2. rewrite T, Hg in A2.
    destruct (C66_shannon _ _ _ _ _ _ _ _ _ _ _ HL X E') as [S' _]. rewrite <- EE. eapply (KEY 1 _ _ _ ltac:(lra)); [|rewrite Rmult_1_l; exact A2]. rewrite S'. cbn [calculate_area]. field. lra.
  - intros eigh' argsort' d' ylm Dm evals' rows' orders T Hg H1 X E'. specialize (A3 T Hg H1). unfold choose_slepian_method in A3. rewrite T, Hg in A3.
    destruct (C66_shannon _ _ _ _ _ _ _ _ _ _ _ HL X E') as [S' _]. rewrite <- EE.
    replace (2 * ((12 * PI ^ 3 + 20 * PI ^ 2) / (2 * INR L) / (4 * PI))) with (2 * ((12 * PI ^ 3 + 20 * PI ^ 2) / (2 * INR L)) / (4 * PI)) by (field; split; lra).
    eapply (KEY 2 _ _ _ ltac:(lra)); [|exact A3]. rewrite S'. cbn [calculate_area]. field. lra.
Qed.
Print Assumptions C86_shannon.

(** A box made by the constructor of regions, at every band limit: both solvers can be
    run, and their results agree as stated. *)
Example C86_shannon_case : exists r, make_region false "" PI (PI / 4) (PI / 3) (PI / 6) = Ok r /\
  forall L land fs, (1 <= L)%nat -> exists mask eigh argsort samples_of sched evals rows eigh' argsort' dl order evals' rows',
    create_mask_region land (resolution_of L) (sample_grid (resolution_of L)) r fs = Ok (mask, fs) /\
    solve_arbitrary eigh argsort L mask samples_of 3 (fun _ _ _ => 7) sched = Ok (evals, rows) /\
    box_calls eigh' argsort' (PI / 6) (PI / 3) (PI / 4) PI dl order L /\
    solve_lat_lon eigh' argsort' (PI / 6) (PI / 3) (PI / 4) PI dl order L = Ok (evals', rows') /\
    Rabs (mean_eigenvalue L evals - mean_eigenvalue L evals') <= (3 * PI ^ 2 + 5 * PI) / (2 * INR L).
Proof.
  pose proof PI_RGT_0 as PP.
  destruct (make_region_cases false "" PI (PI / 4) (PI / 3) (PI / 6)) as [E|[E|[E|E]]]; try lra; decompose [and] E; clear E; try (exfalso; lra); try (exfalso; congruence).
  match goal with X : make_region _ _ _ _ _ _ = Ok ?r |- _ => exists r; split; [exact X|]; clear X; set (reg := r) end.
  intros L land fs HL.
  assert (EM : exists mask, create_mask_region land (resolution_of L) (sample_grid (resolution_of L)) reg fs = Ok (mask, fs)) by (eexists; reflexivity).
  destruct EM as (mask & EM).
  assert (HM : shape mask = repeat (4 * L)%nat (2 * L + 1)%nat).
  { pose proof (region_fits _ _ _ _ _ _ EM) as F. unfold fits, resolution_of in F. rewrite F. f_equal. lia. }
  destruct (C73_mask_answers L mask 3 (fun _ _ _ => 7%R) ([] : list Machine.who) HL ltac:(lia) HM) as (eigh & argsort & f & more & X).
  destruct (C73_mask_determined mask L HL HM) as (evals & _ & HDet). destruct (HDet _ _ _ _ _ _ X) as (rows & E).
  destruct (SpectralCases.C73_box_case L HL) as (eigh' & argsort' & dl & order & evals' & rows' & X' & E' & _).
  exists mask, eigh, argsort, f, (([] : list Machine.who) ++ more)%list, evals, rows, eigh', argsort', dl, order, evals', rows'.
  split; [exact EM|]. split; [exact E|]. split; [exact X'|]. split; [exact E'|].
  assert (Y : arbitrary_calls eigh argsort wigner_table L mask f 3 (fun _ _ _ => 7) (([] : list Machine.who) ++ more)%list).
  { destruct X as (HN & HA & _ & HF & HD & HE). pose proof (table_textbook L) as T.
    split; [exact HN|]. split; [exact HA|]. split; [exact HM|]. split; [|split; [exact T|split; assumption]].
    intros i s Hi. rewrite (number_ylm _ L) by assumption. replace (2 * (2 * L))%nat with (4 * L)%nat by lia. apply HF, Hi. }
  assert (Y' : external_calls eigh' argsort' (PI / 6) (PI / 3) (PI / 4) PI dl order L).
  { destruct X' as (HA & HW & HO & HE). split; [exact HA|]. split; [exact (proj1 HW)|]. split; [exact HO|]. split; [exact (proj2 (C71_table L) dl HW)|exact HE]. }
  destruct (C86_shannon _ _ _ _ _ _ _ _ _ _ _ _ _ _ _ HL EM Y E) as (Q & _ & _).
  apply (Q eigh' argsort' dl order evals' rows' eq_refl); cbn [r_theta_min r_theta_max r_phi_min r_phi_max reg]; try lra; assumption.
Qed.
