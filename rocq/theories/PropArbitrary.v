(** * C67: Slepian functions of an arbitrary region are orthonormal, concentrated
    and optimal for the sampled region; their eigenvalues may exceed one. *)
From Coq Require Import String List ZArith Arith Bool Reals Lia Lra Sorting.Permutation.
From Coquelicot Require Import Coquelicot.
From Verif Require Import Base ListLemmas RSum CSum Numpy OrthoProofs Parallel Machine Job Index IndexProofs SpecWigner Eigen SpecEigen EigenProofs
  PolarEigenProofs PropEigen Region RegionProofs Mask Quadrature ArbitraryMatrix ArbitraryMatrixProofs PropMatrix SpecLatLon LatLonIntegrals LatLonProofs
  SpecConcentration ConcentrationProofs SpecArbitrary ArbitrarySolve ArbitrarySolveProofs SpecHarmonics TextbookProofs LatLon PropLatLon PropConcentration.
Import ListNotations.
Local Open Scope nat_scope.

(** [harmonic i s] is harmonic number [i] at sample [s] of the grid of resolution
    [M] in row order. *)
Definition sampled (M n : nat) (d : Z -> Z -> Z -> R) (harmonic : nat -> nat -> C) : Prop :=
  forall i s, i < n -> harmonic i s = harmonic_number d i (colatitude M (s / (2 * M))) (longitude M (s mod (2 * M))).

(** What is assumed of the external calls: ssht samples the harmonics, which are
    those of the textbooks; the mask has the
    shape of the grid; [LA.eigh] decomposes the matrix it is given; all threads
    have finished. *)
Definition arbitrary_calls eigh argsort d L (mask : mask_array) harmonic ncpu garbage sched : Prop :=
  0 < ncpu /\ argsort_ok argsort /\ shape mask = repeat (4 * L) (2 * L + 1) /\ sampled (2 * L) (L * L) d harmonic /\
  textbook d L /\
  finished (arbitrary_job L (samples (2 * L)) (flat_mask mask) (flat_weight (2 * L)) harmonic ncpu garbage sched) /\
  forall D, solved_D_matrix L (samples (2 * L)) (flat_mask mask) (flat_weight (2 * L)) harmonic ncpu garbage sched = Ok D ->
    eigen_c (L * L) D (fst (eigh D)) (snd (eigh D)).

(** The sample in row [t] and column [p] belongs to the region. *)
Definition masked (mask : mask_array) (t p : nat) : bool := nth p (nth t mask []) false.

Lemma solved_arbitrary eigh argsort d L mask harmonic ncpu garbage sched : 1 <= L ->
  arbitrary_calls eigh argsort d L mask harmonic ncpu garbage sched ->
  exists D evals rows, solve_arbitrary eigh argsort L mask harmonic ncpu garbage sched = Ok (evals, rows) /\
    (forall i j, i < L * L -> j < L * L -> D i j = grid_inner (2 * L) (masked mask) (harmonic_number d i) (harmonic_number d j)) /\
    length evals = L * L /\ length rows = L * L /\ descending evals /\ Permutation evals (fst (eigh D)) /\
    let u := fun p i => nth i (nth p rows []) (RtoC 0) in let lam := fun p => nth p evals 0%R in
    (forall p q, p < L * L -> q < L * L -> ip (L * L) (u p) (u q) = if Nat.eqb p q then RtoC 1 else RtoC 0) /\
    (forall p j, p < L * L -> j < L * L -> csum (L * L) (fun i => Cmult (u p i) (D i j)) = Cmult (RtoC (lam p)) (u p j)).
Proof.
  intros HL (Hn & HA & HF & HS & TB & HJ & HE). pose proof (textbook_conjugate d L TB) as HC. set (M := 2 * L) in *. assert (HM : 1 <= M) by (unfold M; lia).
  assert (F : fits M mask) by (unfold fits; rewrite HF; f_equal; unfold M; lia).
  assert (SYM : forall el m s, el < L -> (Z.abs m <= Z.of_nat el)%Z ->
     harmonic (elm2ind el (- m)) s = (RtoC (pm1 m) * Cconj (harmonic (elm2ind el m) s))%C).
  { intros el m s Hel Hm. assert (B : forall k, (Z.abs k <= Z.of_nat el)%Z -> elm2ind el k < L * L) by (intros k Hk; unfold elm2ind; nia).
    rewrite !HS by (apply B; lia). rewrite !harmonic_number_elm by lia. unfold pm1. apply HC; lia. }
  destruct (C03_arbitrary_matrix_any_schedule L _ _ _ harmonic ncpu HL Hn garbage SYM sched HJ) as (D & ED & HD).
  assert (HG : forall i j, i < L * L -> j < L * L -> D i j = grid_inner M (masked mask) (harmonic_number d i) (harmonic_number d j)).
  { intros i j Hi Hj. rewrite HD by assumption. apply (region_sum M mask); [exact HM|exact F| |];
      intros t p Ht Hp; rewrite HS by assumption;
      rewrite (Nat.add_comm (t * (2 * M))), Nat.div_add, Nat.mod_add, Nat.div_small, Nat.mod_small by lia; reflexivity. }
  assert (HH : hermitian (L * L) D).
  { intros r c Hr Hc. rewrite !HD by assumption. rewrite csum_conj. apply csum_ext. intros s _. rewrite !Cconj_mult, Cconj_conj, Cconj_R. ring. }
  pose proof (C16_arbitrary argsort HA (L * L) D _ _ (HE D ED) HH) as CL.
  destruct (cleaned_family (L * L) D _ _ CL (proj1 (HE D ED))) as (evals & rows & ER & Hl & Hr & Hd & HP & Ho & He).
  exists D, evals, rows. unfold solve_arbitrary. change (resolution_of L) with M. rewrite ED. cbn [rbind].
  split; [exact ER|]. split; [exact HG|]. repeat split; assumption.
Qed.

(** The computation succeeds; the functions are orthonormal on the sphere, and
    orthogonal at the samples of the region with the eigenvalue as energy; the
    eigenvalues decrease, are not negative and do not exceed the energy at all
    samples. *)
Theorem C67_functions : forall eigh argsort d L mask harmonic ncpu garbage sched, 1 <= L ->
  arbitrary_calls eigh argsort d L mask harmonic ncpu garbage sched ->
  exists evals rows, solve_arbitrary eigh argsort L mask harmonic ncpu garbage sched = Ok (evals, rows) /\
    length evals = L * L /\ length rows = L * L /\ descending evals /\
    let S := slepian_function d (L * L) rows in
    forall p q, p < L * L -> q < L * L ->
      inner (S p) (S q) 0 PI 0 (2 * PI) (RtoC (if p =? q then 1 else 0)) /\
      grid_inner (2 * L) (masked mask) (S p) (S q) = RtoC (if p =? q then nth p evals 0%R else 0) /\
      (0 <= nth p evals 0 <= grid_energy (2 * L) everywhere (S p))%R.
Proof.
  intros eigh argsort d L mask harmonic ncpu garbage sched HL HX.
  destruct (solved_arbitrary _ _ _ _ _ _ _ _ _ HL HX) as (D & evals & rows & E & HD & Hl & Hr & Hd & _ & Ho & He).
  exists evals, rows. split; [exact E|]. split; [exact Hl|]. split; [exact Hr|]. split; [exact Hd|]. intros S.
  assert (SB : forall p q, p < L * L -> q < L * L ->
    grid_inner (2 * L) (masked mask) (S p) (S q) = RtoC (if p =? q then nth p evals 0%R else 0)).
  { intros p q Hp Hq. unfold S, slepian_function. rewrite (grid_inner_gram (2 * L) (masked mask) d (L * L) D _ _ HD).
    rewrite (gram_rows (L * L) D _ _ Ho He p q Hp Hq). destruct (p =? q); reflexivity. }
  intros p q Hp Hq. split; [|split; [apply SB; assumption|]].
  - destruct HX as (_ & _ & _ & _ & TB & _). pose proof (textbook_orthonormal d L TB) as ON.
    pose proof (inner_gram d (L * L) (fun i j => RtoC (if i =? j then 1 else 0)) (fun i => nth i (nth p rows []) (RtoC 0)) (fun i => nth i (nth q rows []) (RtoC 0)) _ _ _ _ ON) as G.
    rewrite gram_identity in G. cbv zeta in Ho. rewrite Ho in G by assumption.
    replace (RtoC (if p =? q then 1 else 0)) with (if p =? q then RtoC 1 else RtoC 0) by (destruct (p =? q); reflexivity). exact G.
  - pose proof (SB p p Hp Hp) as B. rewrite Nat.eqb_refl, grid_inner_energy in B. apply RtoC_inj in B. rewrite <- B.
    apply grid_energy_bounds. lia.
Qed.
Print Assumptions C67_functions.

(** A band-limited function orthogonal to the first [p] Slepian functions has at
    most [lambda_p] times its energy at the samples of the region. *)
Theorem C67_optimal : forall eigh argsort d L mask harmonic ncpu garbage sched evals rows w p total, 1 <= L ->
  arbitrary_calls eigh argsort d L mask harmonic ncpu garbage sched ->
  solve_arbitrary eigh argsort L mask harmonic ncpu garbage sched = Ok (evals, rows) -> p < L * L ->
  let f := band_limited d (L * L) w in
  (forall q, q < p -> inner f (slepian_function d (L * L) rows q) 0 PI 0 (2 * PI) (RtoC 0)) ->
  energy f 0 PI 0 (2 * PI) total ->
  (grid_energy (2 * L) (masked mask) f <= nth p evals 0 * total)%R.
Proof.
  intros eigh argsort d L mask harmonic ncpu garbage sched evals rows w p total HL HX E Hp f Hq ET.
  destruct (solved_arbitrary _ _ _ _ _ _ _ _ _ HL HX) as (D & evals' & rows' & E' & HD & Hl & Hr & Hd & _ & Ho & He).
  rewrite E in E'. injection E' as <- <-. pose proof HX as (_ & _ & _ & _ & TB & _). pose proof (textbook_orthonormal d L TB) as ON.
  pose proof (grid_inner_gram (2 * L) (masked mask) d (L * L) D w w HD) as GI. fold f in GI. rewrite grid_inner_energy in GI.
  pose proof (proj1 (inner_energy _ _ _ _ _ _) (inner_gram _ _ (fun i j => RtoC (if i =? j then 1 else 0)) w w _ _ _ _ ON)) as [GT _].
  rewrite gram_identity, ip_self in GT.
  assert (Q2 : total = nrm2 (L * L) w) by (apply RtoC_inj; exact (box_integral_unique _ _ _ _ _ _ _ ET GT)).
  replace (grid_energy (2 * L) (masked mask) f) with (Re (gram (L * L) D w w)) by (rewrite <- GI; reflexivity).
  rewrite Q2. apply (gram_bound (L * L) D _ _ Ho He w p Hp).
  - intros q q' Hqq Hq'. apply (descending_nth evals Hd); [exact Hqq|rewrite Hl; exact Hq'].
  - intros q Hqp. pose proof (inner_gram _ _ (fun i j => RtoC (if i =? j then 1 else 0)) w (fun i => nth i (nth q rows []) (RtoC 0)) _ _ _ _ ON) as G.
    rewrite gram_identity in G. exact (inner_unique _ _ _ _ _ _ _ _ G (Hq q Hqp)).
Qed.
Print Assumptions C67_optimal.

(** The eigenvalues add up to the Shannon number before rounding, computed from the
    same mask and weights. *)
Theorem C67_shannon : forall eigh argsort d L mask harmonic ncpu garbage sched evals rows name, 1 <= L ->
  arbitrary_calls eigh argsort d L mask harmonic ncpu garbage sched ->
  solve_arbitrary eigh argsort L mask harmonic ncpu garbage sched = Ok (evals, rows) ->
  let area := calculate_area (arbitrary_area L mask) (SlepianArbitrary name) in
  area = grid_area (2 * L) (masked mask) /\
  rlsum evals = (area * (INR L * INR L) / (4 * PI))%R /\ (Rabs (IZR (shannon area L) - rlsum evals) <= 1 / 2)%R.
Proof.
  intros eigh argsort d L mask harmonic ncpu garbage sched evals rows name HL HX E area.
  destruct (solved_arbitrary _ _ _ _ _ _ _ _ _ HL HX) as (D & evals' & rows' & E' & HD & Hl & Hr & Hd & _ & Ho & He).
  rewrite E in E'. injection E' as <- <-. destruct HX as (_ & _ & HF & _ & TB & _). pose proof (textbook_degree d L TB) as W.
  assert (A : area = grid_area (2 * L) (masked mask)).
  { unfold area, calculate_area. apply arbitrary_area_grid; [exact HL|]. unfold fits, resolution_of. rewrite HF. f_equal. lia. }
  split; [exact A|].
  assert (S : rlsum evals = (area * (INR L * INR L) / (4 * PI))%R).
  { rewrite rlsum_nth, Hl. apply RtoC_inj. rewrite (gram_trace (L * L) D _ _ Ho He).
    rewrite (csum_ext _ _ (fun i => grid_inner (2 * L) (masked mask) (harmonic_number d i) (harmonic_number d i))) by (intros i Hi; apply HD; assumption).
    rewrite (grid_trace d L (2 * L) (masked mask) W), A. reflexivity. }
  split; [exact S|]. rewrite S. apply shannon_close.
Qed.
Print Assumptions C67_shannon.

(** ** Band limit 2, a region that leaves out the two rows of samples at the poles *)
Module ArbitraryCases.
  Import LatLonCases ConcentrationCases.
  Local Open Scope R_scope.

  Definition band : mask_array := [repeat false 8; repeat true 8; repeat true 8; repeat true 8; repeat false 8].
  Definition harmonic2 (i s : nat) : C := harmonic_number d2 i (colatitude 4 (s / 8)) (longitude 4 (s mod 8)).

  Lemma angles : sin (colatitude 4 0) = 0 /\ sin (colatitude 4 1) = / sqrt 2 /\ sin (colatitude 4 2) = 1 /\ sin (colatitude 4 3) = / sqrt 2 /\
    cos (colatitude 4 1) = / sqrt 2 /\ cos (colatitude 4 2) = 0 /\ cos (colatitude 4 3) = - / sqrt 2.
  Proof.
    unfold colatitude. cbn [INR].
    replace (PI * 0 / (1 + 1 + 1 + 1)) with 0 by field. replace (PI * 1 / (1 + 1 + 1 + 1)) with (PI / 4) by field.
    replace (PI * (1 + 1) / (1 + 1 + 1 + 1)) with (PI / 2) by field. replace (PI * (1 + 1 + 1) / (1 + 1 + 1 + 1)) with (PI - PI / 4) by field.
    rewrite sin_0, sin_PI4, sin_PI2, cos_PI4, cos_PI2. rewrite Rtrigo_facts.cos_pi_minus, Rtrigo_facts.sin_pi_minus, sin_PI4, cos_PI4.
    unfold Rdiv. rewrite !Rmult_1_l. repeat split; ring.
  Qed.

  (** Sums over the eight longitudes. *)
  Lemma step k p j : longitude 4 (j + p) = longitude 4 p + INR j * PI / 4 /\ IZR k * (longitude 4 p + INR j * PI / 4) = IZR k * longitude 4 p + IZR k * INR j * PI / 4.
  Proof. unfold longitude. rewrite plus_INR. replace (INR 4) with 4 by (cbn; ring). split; field. Qed.
  Lemma half_turn k p j x : IZR k * INR j * PI / 4 = x -> expi x = Copp (RtoC 1) ->
    expi (IZR k * longitude 4 (j + p)) = Copp (expi (IZR k * longitude 4 p)).
  Proof. intros H E. destruct (step k p j) as [S1 S2]. rewrite S1, S2, H, expi_plus, E. ring. Qed.
  Lemma expi_pi : expi PI = Copp (RtoC 1) /\ expi (- PI) = Copp (RtoC 1).
  Proof. split; apply C_ext; cbn; rewrite ?cos_neg, ?sin_neg, ?cos_PI, ?sin_PI; ring. Qed.
  Lemma turn k : (-2 <= k <= 2)%Z -> csum 8 (fun p => expi (IZR k * longitude 4 p)) = RtoC (if (k =? 0)%Z then 8 else 0).
  Proof.
    intros H. assert (C : (k = -2 \/ k = -1 \/ k = 0 \/ k = 1 \/ k = 2)%Z) by lia. destruct expi_pi as [E1 E2].
    assert (F : forall x, IZR k * INR 4 * PI / 4 = x -> expi x = Copp (RtoC 1) -> csum 8 (fun p => expi (IZR k * longitude 4 p)) = RtoC 0).
    { intros x Hx Ex. change 8%nat with (4 + 4)%nat. rewrite csum_app, (csum_ext 4 (fun i => expi (IZR k * longitude 4 (4 + i))) (fun i => Copp (expi (IZR k * longitude 4 i))))
        by (intros i _; exact (half_turn k i 4 x Hx Ex)). rewrite csum_opp. ring. }
    assert (G : forall x, IZR k * INR 2 * PI / 4 = x -> expi x = Copp (RtoC 1) -> csum 8 (fun p => expi (IZR k * longitude 4 p)) = RtoC 0).
    { intros x Hx Ex. cbn [csum].
      pose proof (half_turn k 0 2 x Hx Ex) as A0. pose proof (half_turn k 1 2 x Hx Ex) as A1. pose proof (half_turn k 4 2 x Hx Ex) as A4. pose proof (half_turn k 5 2 x Hx Ex) as A5.
      change (2 + 0)%nat with 2%nat in A0. change (2 + 1)%nat with 3%nat in A1. change (2 + 4)%nat with 6%nat in A4. change (2 + 5)%nat with 7%nat in A5.
      rewrite A0, A1, A4, A5. ring. }
    destruct C as [-> | [-> | [-> | [-> | ->]]]]; cbn [Z.eqb].
    - apply (G (- PI)); [cbn; field|exact E2].
    - apply (F (- PI)); [cbn; field|exact E2].
    - rewrite (csum_ext 8 _ (fun _ => RtoC 1)) by (intros p _; rewrite Rmult_0_l; apply expi_0). cbn [csum]. apply C_ext; cbn; ring.
    - apply (F PI); [cbn; field|exact E1].
    - apply (G PI); [cbn; field|exact E1].
  Qed.

  (** The matrix is diagonal. *)
  Definition diag (i : nat) : R :=
    match i with 0%nat => PI / 4 * (1 / 2 + / sqrt 2) | 2%nat => 3 * PI / 8 * / sqrt 2 | _ => 3 * PI / 16 * (1 + / sqrt 2) end.

  Lemma sum5 (F : nat -> C) : csum 5 F = Cplus (Cplus (Cplus (Cplus (F 0%nat) (F 1%nat)) (F 2%nat)) (F 3%nat)) (F 4%nat).
  Proof. cbn [csum]. ring. Qed.
  Lemma sum3 (F : nat -> C) : csum 3 F = Cplus (Cplus (F 0%nat) (F 1%nat)) (F 2%nat).
  Proof. cbn [csum]. ring. Qed.

  Lemma band_entry i j : (i < 4)%nat -> (j < 4)%nat ->
    grid_inner 4 (masked band) (harmonic_number d2 i) (harmonic_number d2 j) =
    Cmult (RtoC (rsum 3 (fun t => h i (colatitude 4 (S t)) * h j (colatitude 4 (S t)) * cell 4 (S t))))
      (RtoC (if (ord i - ord j =? 0)%Z then 8 else 0)).
  Proof.
    intros Hi Hj.
    assert (B : (-2 <= ord i - ord j <= 2)%Z) by (destruct i as [|[|[|[|i]]]]; try lia; destruct j as [|[|[|[|j]]]]; try lia; cbn; lia).
    rewrite <- (turn _ B), <- csum_RtoC. unfold grid_inner. change (4 + 1)%nat with 5%nat. change (2 * 4)%nat with 8%nat.
    rewrite sum5, sum3. cbv beta.
    assert (Out : forall t, t = 0%nat \/ t = 4%nat -> forall p, (p < 8)%nat -> masked band t p = false).
    { intros t [-> | ->] p Hp; do 8 (destruct p as [|p]; [reflexivity|]); lia. }
    assert (In' : forall t, t = 1%nat \/ t = 2%nat \/ t = 3%nat -> forall p, (p < 8)%nat -> masked band t p = true).
    { intros t [-> | [-> | ->]] p Hp; do 8 (destruct p as [|p]; [reflexivity|]); lia. }
    rewrite (csum_zero 8 (fun p => if masked band 0 p then _ else _)) by (intros p Hp; rewrite (Out 0%nat) by auto; reflexivity).
    rewrite (csum_zero 8 (fun p => if masked band 4 p then _ else _)) by (intros p Hp; rewrite (Out 4%nat) by auto; reflexivity).
    assert (R0 : forall t, t = 1%nat \/ t = 2%nat \/ t = 3%nat ->
      csum 8 (fun p => if masked band t p then Cmult (Cmult (harmonic_number d2 i (colatitude 4 t) (longitude 4 p))
          (Cconj (harmonic_number d2 j (colatitude 4 t) (longitude 4 p)))) (RtoC (cell 4 t)) else RtoC 0) =
      Cmult (RtoC (h i (colatitude 4 t) * h j (colatitude 4 t) * cell 4 t)) (csum 8 (fun p => expi (IZR (ord i - ord j) * longitude 4 p)))).
    { intros t Ht. rewrite <- csum_scal_l. apply csum_ext. intros p Hp. rewrite In' by assumption. rewrite !Y by assumption.
      rewrite Cconj_mult, Cconj_R, <- expi_neg.
      replace (IZR (ord i - ord j) * longitude 4 p) with (IZR (ord i) * longitude 4 p + - (IZR (ord j) * longitude 4 p)) by (rewrite minus_IZR; ring).
      rewrite expi_plus, !RtoC_mult. ring. }
    rewrite (R0 1%nat), (R0 2%nat), (R0 3%nat) by auto. ring.
  Qed.

  Lemma band_matrix i j : (i < 4)%nat -> (j < 4)%nat ->
    grid_inner 4 (masked band) (harmonic_number d2 i) (harmonic_number d2 j) = RtoC (if (i =? j)%nat then diag i else 0).
  Proof.
    intros Hi Hj. rewrite band_entry by assumption. rewrite <- RtoC_mult. f_equal. unfold cell.
    destruct angles as (S0 & S1 & S2 & S3 & C1 & C2 & C3). pose proof PI_RGT_0 as P. pose proof half2 as H2. pose proof c00 as C0. pose proof c11 as C1'.
    replace (PI / INR 4) with (PI / 4) by (cbn; field). cbn [rsum]. rewrite S1, S2, S3.
    set (s := / sqrt 2) in *.
    destruct i as [|[|[|[|i]]]]; try lia; destruct j as [|[|[|[|j]]]]; try lia; cbn [Nat.eqb ord Z.sub Z.add Z.opp Z.eqb Z.pos_sub Pos.add];
      rewrite ?Rmult_0_r; try reflexivity; unfold h; fold s; rewrite ?S1, ?S2, ?S3, ?C1, ?C2, ?C3; unfold diag; fold s.
    - transitivity ((c0 * c0) * (1 + 2 * s) * (PI / 4) ^ 2 * 8); [ring|]. rewrite C0. field. lra.
    - ring.
    - transitivity ((c1 * c1) * (s * s) * (2 * (s * s) * s + 1) * (PI / 4) ^ 2 * 8); [ring|]. rewrite C1', H2. field. lra.
    - ring.
    - transitivity ((c1 * c1) * (2 * (s * s) * s) * (PI / 4) ^ 2 * 8); [ring|]. rewrite C1', H2. field. lra.
    - transitivity ((c1 * c1) * (s * s) * (2 * (s * s) * s + 1) * (PI / 4) ^ 2 * 8); [ring|]. rewrite C1', H2. field. lra.
  Qed.

  (** pi is more than 3.125. *)
  Lemma pi_low : 25 / 8 < PI.
  Proof.
    destruct (Rlt_le_dec (25 / 8) PI) as [H|H]; [exact H|exfalso]. pose proof PI2_3_2 as P3.
    assert (A : sin (PI / 6) <= sin (25 / 48)).
    { destruct (Req_dec (PI / 6) (25 / 48)) as [->|N]; [lra|]. left. apply sin_increasing_1; lra. }
    rewrite sin_PI6 in A.
    assert (B : sin (25 / 48) <= 25 / 48 - (25 / 48) ^ 3 / 6 + (25 / 48) ^ 5 / 120).
    { destruct (sin_bound (25 / 48) 0 ltac:(lra) ltac:(lra)) as [_ B]. eapply Rle_trans; [exact B|]. right.
      unfold sin_approx, sin_term. cbn. field. }
    lra.
  Qed.
  Lemma diag_exceeds : 1 < diag 1.
  Proof.
    unfold diag. pose proof pi_low as P. pose proof half2 as H2. pose proof sqrt2_pos as S. pose proof (Rinv_0_lt_compat _ S) as IS. set (s := / sqrt 2) in *.
    assert (B : 707 / 1000 <= s) by (destruct (Rle_lt_dec (707 / 1000) s) as [B|B]; [exact B|exfalso; nra]). nra.
  Qed.

  Lemma harmonics_sampled : sampled (2 * 2) (2 * 2) d2 harmonic2.
  Proof. intros i k Hi. reflexivity. Qed.

  (** An eigensolver for diagonal matrices. *)
  Definition eigh_diag (D : nat -> nat -> C) : list R * list (list C) :=
    (map (fun i => Re (D i i)) (seq 0 4), map (fun i => map (fun j => if (j =? i)%nat then RtoC 1 else RtoC 0) (seq 0 4)) (seq 0 4)).

  Lemma eigh_diag_ok D : (forall i j, (i < 4)%nat -> (j < 4)%nat -> D i j = RtoC (if (i =? j)%nat then diag i else 0)) ->
    eigen_c 4 D (fst (eigh_diag D)) (snd (eigh_diag D)).
  Proof.
    intros H. unfold eigh_diag. cbn [fst snd]. split; [reflexivity|]. split; [reflexivity|].
    assert (V : forall k v, nth_error (map (fun i => map (fun j => if (j =? i)%nat then RtoC 1 else RtoC 0) (seq 0 4)) (seq 0 4)) k = Some v ->
      (k < 4)%nat /\ length v = 4%nat /\ forall c, (c < 4)%nat -> nth c v (RtoC 0) = if (c =? k)%nat then RtoC 1 else RtoC 0).
    { intros k v E. destruct k as [|[|[|[|k]]]]; cbn [map seq nth_error] in E; try discriminate; [| | | |destruct k; discriminate]; injection E as <-;
        (split; [lia|]; split; [reflexivity|]; intros c Hc; do 4 (destruct c as [|c]; [reflexivity|]); lia). }
    split; [intros k v E; exact (proj1 (proj2 (V k v E)))|]. split.
    - intros k v r E Hr. destruct (V k v E) as (Hk & _ & Hv). rewrite (csum_single 4 k); [|exact Hk|].
      + rewrite !Hv, Nat.eqb_refl, H by assumption.
        replace (nth k (map (fun i => Re (D i i)) (seq 0 4)) 0) with (Re (D k k)) by (do 4 (destruct k as [|k]; [reflexivity|]); lia).
        rewrite H, Nat.eqb_refl by assumption. cbn [Re RtoC fst]. destruct (Nat.eqb_spec r k) as [->|N]; ring.
      + intros c Hc N. rewrite Hv by exact Hc. rewrite (proj2 (Nat.eqb_neq c k) N). ring.
    - intros j k u v Eu Ev. destruct (V j u Eu) as (Hj & _ & Hu). destruct (V k v Ev) as (Hk & _ & Hv). unfold cdot.
      rewrite (csum_single 4 j); [|exact Hj|].
      + rewrite Hu, Hv, Nat.eqb_refl by assumption. destruct (j =? k)%nat; [rewrite Cconj_R|rewrite Cconj_R]; ring.
      + intros c Hc N. rewrite Hu by exact Hc. rewrite (proj2 (Nat.eqb_neq c j) N). ring.
  Qed.

  Lemma band_job ncpu garbage : exists sched,
    finished (arbitrary_job 2 (samples (2 * 2)) (flat_mask band) (flat_weight (2 * 2)) harmonic2 ncpu garbage sched).
  Proof. exact (C03_arbitrary_can_finish 2 _ _ _ harmonic2 ncpu garbage []). Qed.

  Lemma band_calls : exists sched, arbitrary_calls eigh_diag insertion_argsort d2 2 band harmonic2 3 (fun _ _ _ => 7) sched.
  Proof.
    destruct (band_job 3 (fun _ _ _ => 7)) as (sched & J). exists sched.
    split; [lia|]. split; [exact insertion_argsort_ok|]. split; [reflexivity|]. split; [exact harmonics_sampled|].
    split; [exact textbook2|]. split; [exact J|].
    intros D E. apply eigh_diag_ok. intros i j Hi Hj. rewrite <- (band_matrix i j Hi Hj).
    assert (SYM : forall el m s, (el < 2)%nat -> (Z.abs m <= Z.of_nat el)%Z ->
       harmonic2 (elm2ind el (- m)) s = (RtoC (pm1 m) * Cconj (harmonic2 (elm2ind el m) s))%C).
    { intros el m s Hel Hm. unfold harmonic2. rewrite !harmonic_number_elm by lia. unfold pm1. apply (textbook_conjugate d2 2 textbook2); lia. }
    destruct (C03_arbitrary_matrix_any_schedule 2 _ _ _ harmonic2 3 ltac:(lia) ltac:(lia) (fun _ _ _ => 7) SYM sched J) as (D' & E' & HD).
    rewrite E in E'. injection E' as <-. rewrite HD by assumption.
    apply (region_sum 4 band); [lia|reflexivity| |];
      intros t p Ht Hp; unfold harmonic2; change 8%nat with (2 * 4)%nat;
      rewrite (Nat.add_comm (t * (2 * 4))), Nat.div_add, Nat.mod_add, Nat.div_small, Nat.mod_small by lia; reflexivity.
  Qed.
End ArbitraryCases.

(** A fraction of energy is at most one, but the eigenvalues are not: for the mask
    that leaves out only the poles, at band limit 2, whatever the eigensolver and
    the schedule, the largest eigenvalue exceeds one. *)
Theorem C67_at_most_one_refuted :
  let mask := [repeat false 8; repeat true 8; repeat true 8; repeat true 8; repeat false 8] in
  exists d harmonic,
    (forall eigh argsort ncpu garbage sched evals rows,
       arbitrary_calls eigh argsort d 2 mask harmonic ncpu garbage sched ->
       solve_arbitrary eigh argsort 2 mask harmonic ncpu garbage sched = Ok (evals, rows) -> (1 < nth 0 evals 0)%R) /\
    exists eigh argsort ncpu garbage sched, arbitrary_calls eigh argsort d 2 mask harmonic ncpu garbage sched.
Proof.
  intros mask. exists LatLonCases.d2, ArbitraryCases.harmonic2. split.
  - intros eigh argsort ncpu garbage sched evals rows HX E.
    pose (w := fun i : nat => if (i =? 1)%nat then RtoC 1 else RtoC 0).
    assert (B : forall t p, band_limited LatLonCases.d2 (2 * 2) w t p = harmonic_number LatLonCases.d2 1 t p).
    { intros t p. unfold band_limited, w. cbn [csum Nat.mul Nat.add Nat.eqb]. ring. }
    pose proof HX as (_ & _ & _ & _ & TB & _). pose proof (textbook_orthonormal _ _ TB) as ON.
    assert (EN : energy (band_limited LatLonCases.d2 (2 * 2) w) 0 PI 0 (2 * PI) 1).
    { apply (proj1 (inner_energy _ _ _ _ _ (RtoC 1))). refine (box_ext _ _ _ _ _ _ _ _ (ON 1 1 ltac:(cbn; lia) ltac:(cbn; lia))).
      intros t p. cbv beta. rewrite !B. reflexivity. }
    pose proof (C67_optimal eigh argsort LatLonCases.d2 2 mask ArbitraryCases.harmonic2 ncpu garbage sched evals rows w 0 1 ltac:(lia) HX E ltac:(cbn; lia)
      ltac:(intros q Hq; lia) EN) as O.
    assert (G : grid_energy (2 * 2) (masked mask) (band_limited LatLonCases.d2 (2 * 2) w) = ArbitraryCases.diag 1).
    { apply RtoC_inj. rewrite <- grid_inner_energy. pose proof (ArbitraryCases.band_matrix 1 1 ltac:(lia) ltac:(lia)) as BM.
      cbn [Nat.eqb] in BM. rewrite <- BM. unfold grid_inner. apply csum_ext. intros t _. apply csum_ext. intros p _. rewrite !B. reflexivity. }
    rewrite G in O. pose proof ArbitraryCases.diag_exceeds as D. lra.
  - destruct ArbitraryCases.band_calls as (sched & H). exists ArbitraryCases.eigh_diag, insertion_argsort, 3, (fun _ _ _ => 7%R), sched. exact H.
Qed.
Print Assumptions C67_at_most_one_refuted.

(** The case meets the hypotheses of the other theorems; its eigenvalues add up to
    [pi/2 (1 + sqrt 2)]. *)
Example C67_case : exists evals rows sched,
  arbitrary_calls ArbitraryCases.eigh_diag insertion_argsort LatLonCases.d2 2 ArbitraryCases.band ArbitraryCases.harmonic2 3 (fun _ _ _ => 7%R) sched /\
  solve_arbitrary ArbitraryCases.eigh_diag insertion_argsort 2 ArbitraryCases.band ArbitraryCases.harmonic2 3 (fun _ _ _ => 7%R) sched = Ok (evals, rows) /\
  rlsum evals = (PI / 2 * (1 + sqrt 2))%R.
Proof.
  destruct ArbitraryCases.band_calls as (sched & H).
  destruct (C67_functions _ _ _ 2 _ _ _ _ _ ltac:(lia) H) as (evals & rows & E & _).
  exists evals, rows, sched. split; [exact H|]. split; [exact E|].
  destruct (C67_shannon _ _ _ 2 _ _ _ _ _ _ _ String.EmptyString ltac:(lia) H E) as (A & T & _).
  rewrite T, A. clear.
  assert (B : grid_area (2 * 2) (masked ArbitraryCases.band) = (8 * (/ sqrt 2 + 1 + / sqrt 2) * (PI / 4) ^ 2)%R).
  { destruct ArbitraryCases.angles as (S0 & S1 & S2 & S3 & _). unfold grid_area. change (2 * 2 + 1) with 5. change (2 * (2 * 2)) with 8. change (2 * 2) with 4.
    cbn [rsum masked ArbitraryCases.band nth repeat]. unfold cell. rewrite S1, S2, S3. replace (PI / INR 4)%R with (PI / 4)%R by (cbn; field). ring. }
  rewrite B. pose proof PI_RGT_0 as P. pose proof LatLonCases.sqrt2 as Q. pose proof LatLonCases.sqrt2_pos as SP.
  replace (/ sqrt 2)%R with (sqrt 2 / 2)%R by (field_simplify_eq; lra). cbn [INR]. field. lra.
Qed.
