(** * C05 and C34: the Slepian matrix of a latitude-longitude box. *)
From Coq Require Import List ZArith Arith Bool Reals Lia Lra Sorting.Permutation.
From Coquelicot Require Import Coquelicot.
From Verif Require Import Base ListLemmas RSum CSum Numpy LatLon SpecLatLon LatLonIntegrals LatLonProofs
  LatLonParallel LatLonParallelProofs.
Import ListNotations.
Local Open Scope Z_scope.

(** ** C34: the sub-integral table *)
(** Every cell is written and is the product of the two integrals. *)
Theorem C34_table : forall theta_min theta_max phi_min phi_max L, 1 <= L ->
  exists G, slepian_integral theta_min theta_max phi_min phi_max L = Ok G /\
    a2_rows G = 4 * L - 3 /\ a2_cols G = 4 * L - 3 /\
    forall row col, Z.abs row <= 2 * (L - 1) -> Z.abs col <= 2 * (L - 1) ->
      exists s q,
        cint (fun phi => expi (IZR row * phi)) phi_min phi_max s /\
        cint (fun theta => Cmult (RtoC (sin theta)) (expi (IZR col * theta))) theta_min theta_max q /\
        a2_at G (2 * (L - 1) + row) (2 * (L - 1) + col) = Cmult q s.
Proof.
  intros tmin tmax pmin pmax L HL. destruct (slepian_integral_ok tmin tmax pmin pmax L HL) as (G & E & [Hr Hc] & H).
  exists G. split; [exact E|]. split; [exact Hr|]. split; [exact Hc|]. intros row col Br Bc.
  exists (S_of pmin pmax row), (Q_of tmin tmax col).
  split; [apply longitude_integral|]. split; [apply colatitude_integral|]. apply H; assumption.
Qed.
Print Assumptions C34_table.

(** Opposite cells hold conjugate values. *)
Theorem C34_symmetry : forall theta_min theta_max phi_min phi_max L G, 1 <= L ->
  slepian_integral theta_min theta_max phi_min phi_max L = Ok G ->
  forall i j, 0 <= i < 4 * L - 3 -> 0 <= j < 4 * L - 3 ->
    a2_at G (4 * L - 4 - i) (4 * L - 4 - j) = Cconj (a2_at G i j).
Proof.
  intros tmin tmax pmin pmax L G HL E i j Hi Hj.
  destruct (slepian_integral_ok tmin tmax pmin pmax L HL) as (G' & E' & _ & H). rewrite E in E'. injection E' as <-.
  replace (4 * L - 4 - i) with (2 * (L - 1) + - (i - 2 * (L - 1))) by lia.
  replace (4 * L - 4 - j) with (2 * (L - 1) + - (j - 2 * (L - 1))) by lia.
  rewrite H by lia. rewrite T_conj. f_equal. rewrite <- H by lia. f_equal; lia.
Qed.
Print Assumptions C34_symmetry.

(** A cell of the exceptional column: the band limit 2, the northern hemisphere
    east of the origin, row 0, column 1. *)
Example C34_case : exists G, slepian_integral 0 (PI / 2) 0 PI 2 = Ok G /\ a2_at G 2 3 = (PI / 2, PI * PI / 4)%R.
Proof.
  destruct (C34_table 0 (PI / 2) 0 PI 2 ltac:(lia)) as (G & E & _ & _ & H). exists G. split; [exact E|].
  destruct (H 0 1 ltac:(lia) ltac:(lia)) as (s & q & Hs & Hq & V). change (2 * (2 - 1) + 0) with 2 in V. change (2 * (2 - 1) + 1) with 3 in V.
  rewrite V. rewrite (cint_unique _ _ _ _ _ Hs (longitude_integral 0 PI 0)), (cint_unique _ _ _ _ _ Hq (colatitude_integral 0 (PI / 2) 1)).
  unfold S_of, Q_of. cbn [Z.eqb int_inverse Z.pow Z.pow_pos Pos.iter Z.mul Pos.mul Z.sub Z.add Z.opp Z.pos_sub].
  assert (E1 : cexp (2 * 1 * 0) = RtoC 1) by (apply C_ext; cbn; replace (2 * 1 * 0)%R with 0%R by ring; [apply cos_0|apply sin_0]).
  assert (E2 : cexp (2 * 1 * (PI / 2)) = RtoC (-1)) by (apply C_ext; cbn; replace (2 * 1 * (PI / 2))%R with PI by field; [apply cos_PI|apply sin_PI]).
  rewrite E1, E2. apply C_ext; cbn; field.
Qed.

(** ** C05: the matrix *)
(** The Wigner values the matrix is computed from, by degree and orders. *)
Definition wigner_values (dl : array3) (L : nat) : Z -> Z -> Z -> R :=
  fun l k m => a3_at dl l (Z.of_nat L - 1 + k) (Z.of_nat L - 1 + m).

(** The shape of [ssht.generate_dl]'s result. *)
Definition generated (dl : array3) (L : nat) : Prop :=
  a3_0 dl = Z.of_nat L /\ a3_1 dl = 2 * Z.of_nat L - 1 /\ a3_2 dl = 2 * Z.of_nat L - 1.

(** The order of the parallel iterations. *)
Definition schedule (order : list Z) (L : nat) : Prop := Permutation order (zrange 0 (Z.of_nat L)).

(** No index leaves its array and every entry is the overlap of two harmonics
    in the box. *)
Theorem C05_matrix : forall theta_min theta_max phi_min phi_max dl order L, (1 <= L)%nat ->
  generated dl L -> schedule order L ->
  exists K, create_K_matrix theta_min theta_max phi_min phi_max dl order (Z.of_nat L) = Ok K /\
    forall i j, (i < L * L)%nat -> (j < L * L)%nat ->
      overlap (wigner_values dl L) i j theta_min theta_max phi_min phi_max (K i j).
Proof. intros tmin tmax pmin pmax dl order L HL (D0 & D1 & D2) HO. exact (create_K_ok tmin tmax pmin pmax dl L HL D0 D1 D2 order HO). Qed.
Print Assumptions C05_matrix.

(** The schedule of the parallel iterations does not change the matrix. *)
Theorem C05_schedule : forall theta_min theta_max phi_min phi_max dl order order' L K K', (1 <= L)%nat ->
  generated dl L -> schedule order L -> schedule order' L ->
  create_K_matrix theta_min theta_max phi_min phi_max dl order (Z.of_nat L) = Ok K ->
  create_K_matrix theta_min theta_max phi_min phi_max dl order' (Z.of_nat L) = Ok K' ->
  forall i j, (i < L * L)%nat -> (j < L * L)%nat -> K i j = K' i j.
Proof.
  intros tmin tmax pmin pmax dl order order' L K K' HL HD HO HO' E E' i j Hi Hj.
  destruct (C05_matrix tmin tmax pmin pmax dl order L HL HD HO) as (K1 & E1 & H1).
  destruct (C05_matrix tmin tmax pmin pmax dl order' L HL HD HO') as (K2 & E2 & H2).
  rewrite E in E1. rewrite E' in E2. injection E1 as <-. injection E2 as <-.
  exact (box_integral_unique _ _ _ _ _ _ _ (H1 i j Hi Hj) (H2 i j Hi Hj)).
Qed.
Print Assumptions C05_schedule.

(** Interleaving the single loads and stores of the iterations: no step fails,
    the threads can always be run to the end, and a finished run leaves the same
    overlaps. *)
Theorem C05_interleaved : forall theta_min theta_max phi_min phi_max dl steps reg L, (1 <= L)%nat ->
  generated dl L ->
  exists s K, create_K_matrix_par theta_min theta_max phi_min phi_max dl steps reg L = Ok (s, K) /\
    (exists more s' K', create_K_matrix_par theta_min theta_max phi_min phi_max dl (steps ++ more) reg L = Ok (s', K') /\
       finished s') /\
    (finished s -> forall i j, (i < L * L)%nat -> (j < L * L)%nat ->
       overlap (wigner_values dl L) i j theta_min theta_max phi_min phi_max (K i j)).
Proof.
  intros tmin tmax pmin pmax dl steps reg L HL (D0 & D1 & D2). unfold create_K_matrix_par.
  destruct (slepian_integral_ok tmin tmax pmin pmax (Z.of_nat L) ltac:(lia)) as (G & EG & SG & HG). rewrite EG. cbn [rbind].
  destruct (box_par tmin tmax pmin pmax dl L HL D0 D1 D2 G SG HG reg steps) as (s & E & (more & s' & E' & F') & V).
  rewrite E. cbn [rbind]. eexists s, _. split; [reflexivity|]. split.
  - exists more, s'. eexists. rewrite E'. cbn [rbind]. split; [reflexivity|exact F'].
  - intros F. apply filled_overlap; try assumption. exact (V F).
Qed.
Print Assumptions C05_interleaved.

(** The matrix is Hermitian. *)
Theorem C05_hermitian : forall theta_min theta_max phi_min phi_max dl order L K, (1 <= L)%nat ->
  generated dl L -> schedule order L ->
  create_K_matrix theta_min theta_max phi_min phi_max dl order (Z.of_nat L) = Ok K ->
  forall i j, (i < L * L)%nat -> (j < L * L)%nat -> K i j = Cconj (K j i).
Proof.
  intros tmin tmax pmin pmax dl order L K HL HD HO E i j Hi Hj.
  destruct (C05_matrix tmin tmax pmin pmax dl order L HL HD HO) as (K1 & E1 & H1). rewrite E in E1. injection E1 as <-.
  exact (box_integral_unique _ _ _ _ _ _ _ (H1 i j Hi Hj) (overlap_conj _ _ _ _ _ _ _ _ (H1 j i Hj Hi))).
Qed.
Print Assumptions C05_hermitian.

(** The quadratic form of the matrix is the energy in the box of the function
    with the conjugate coefficients. *)
Theorem C05_energy : forall theta_min theta_max phi_min phi_max dl order L K v, (1 <= L)%nat ->
  generated dl L -> schedule order L ->
  create_K_matrix theta_min theta_max phi_min phi_max dl order (Z.of_nat L) = Ok K ->
  exists e : R,
    csum (L * L) (fun i => Cmult (Cconj (v i)) (csum (L * L) (fun j => Cmult (K i j) (v j)))) = RtoC e /\
    energy (band_limited (wigner_values dl L) (L * L) (fun i => Cconj (v i))) theta_min theta_max phi_min phi_max e.
Proof.
  intros tmin tmax pmin pmax dl order L K v HL HD HO E.
  destruct (C05_matrix tmin tmax pmin pmax dl order L HL HD HO) as (K1 & E1 & H1). rewrite E in E1. injection E1 as <-.
  pose proof (energy_form _ (L * L) (fun i => Cconj (v i)) K _ _ _ _ H1) as H.
  assert (Q : csum (L * L) (fun i => csum (L * L) (fun j => Cmult (Cmult (Cconj (v i)) (Cconj (Cconj (v j)))) (K i j))) =
              csum (L * L) (fun i => Cmult (Cconj (v i)) (csum (L * L) (fun j => Cmult (K i j) (v j))))).
  { apply csum_ext. intros i _. rewrite <- csum_scal_l. apply csum_ext. intros j _. rewrite Cconj_conj. ring. }
  cbn beta in H. rewrite Q in H. eexists. pose proof (energy_real _ _ _ _ _ _ H) as R. split; [exact R|]. rewrite R in H. exact H.
Qed.
Print Assumptions C05_energy.

(** If the harmonics are orthonormal on the sphere, the eigenvalues are the
    energy ratios of the saved (conjugated) eigenvectors, and for a box on the
    sphere they lie between 0 and 1. *)
Theorem C05_eigenvalues : forall theta_min theta_max phi_min phi_max dl order L K v lambda, (1 <= L)%nat ->
  generated dl L -> schedule order L -> orthonormal (wigner_values dl L) (L * L) ->
  (0 <= theta_min <= theta_max)%R -> (theta_max <= PI)%R -> (0 <= phi_min <= phi_max)%R -> (phi_max <= 2 * PI)%R ->
  create_K_matrix theta_min theta_max phi_min phi_max dl order (Z.of_nat L) = Ok K ->
  (forall i, (i < L * L)%nat -> csum (L * L) (fun j => Cmult (K i j) (v j)) = Cmult lambda (v i)) ->
  (exists i, (i < L * L)%nat /\ v i <> RtoC 0) ->
  let f := band_limited (wigner_values dl L) (L * L) (fun i => Cconj (v i)) in
  exists inside total : R,
    energy f theta_min theta_max phi_min phi_max inside /\ energy f 0 PI 0 (2 * PI) total /\
    (0 < total)%R /\ lambda = RtoC (inside / total) /\ (0 <= inside / total <= 1)%R.
Proof.
  intros tmin tmax pmin pmax dl order L K v lambda HL HD HO ON Ht Ht' Hp Hp' E EV (k & Hk & Nz) f.
  destruct (C05_energy tmin tmax pmin pmax dl order L K v HL HD HO E) as (inside & EI & HI).
  set (n2 := rsum (L * L) (fun i => (Cmod (v i) ^ 2)%R)).
  assert (P : (0 < n2)%R).
  { unfold n2. apply Rlt_le_trans with (Cmod (v k) ^ 2)%R.
    - apply pow_lt. apply Cmod_gt_0. exact Nz.
    - clear - Hk. revert Hk. generalize (L * L)%nat. intros n. induction n as [|n IH]; intros Hk; [lia|]. cbn [rsum].
      assert (G : forall q, (0 <= rsum q (fun i => Cmod (v i) ^ 2))%R).
      { intros q. induction q as [|q IHq]; cbn [rsum]; [lra|]. pose proof (pow2_ge_0 (Cmod (v q))). lra. }
      destruct (Nat.eq_dec k n) as [->|]; [pose proof (G n); lra|]. pose proof (IH ltac:(lia)). pose proof (pow2_ge_0 (Cmod (v n))). lra. }
  assert (ET : energy f 0 PI 0 (2 * PI) n2).
  { pose proof (energy_form _ (L * L) (fun i => Cconj (v i)) _ _ _ _ _ ON) as H.
    unfold energy. eapply box_val; [|exact H]. unfold n2. rewrite <- csum_RtoC. apply csum_ext. intros i Hi.
    rewrite (csum_single (L * L) i); [|exact Hi|].
    - rewrite Nat.eqb_refl, Cmult_1_r, Cconj_conj, Cmod2. apply Cmult_comm.
    - intros j _ Nj. rewrite (proj2 (Nat.eqb_neq i j)) by lia. apply Cmult_0_r. }
  destruct HD as (D0 & D1 & D2).
  pose proof (energy_monotone dl L (fun i => Cconj (v i)) tmin tmax pmin pmax inside n2 HL D0 D1 D2 Ht Ht' Hp Hp' HI ET) as B.
  exists inside, n2. split; [exact HI|]. split; [exact ET|]. split; [exact P|]. split.
  - assert (Q : RtoC inside = Cmult lambda (RtoC n2)).
    { rewrite <- EI. unfold n2. rewrite <- csum_RtoC, <- csum_scal_l. apply csum_ext. intros i Hi. rewrite EV by exact Hi. rewrite Cmod2. ring. }
    assert (N : RtoC n2 <> RtoC 0) by (intros C; injection C; lra).
    unfold Rdiv. rewrite RtoC_mult, Q. rewrite RtoC_inv by lra. rewrite <- Cmult_assoc, Cinv_r, Cmult_1_r by exact N. reflexivity.
  - split; [apply Rdiv_le_0_compat; lra|]. apply Rmult_le_reg_r with n2; [exact P|]. unfold Rdiv.
    rewrite Rmult_assoc, Rinv_l by lra. lra.
Qed.
Print Assumptions C05_eigenvalues.

(** ** Cases *)
Module LatLonCases.
  Local Open Scope R_scope.
  (** The Wigner-d values at pi/2 of degrees 0 and 1, as [ssht.generate_dl(pi/2, 2)]
      stores them. *)
  Definition dl2 : array3 :=
    {| a3_0 := 2; a3_1 := 3; a3_2 := 3;
       a3_at := fun l r c =>
         if (l =? 0)%Z then (if (r =? 1)%Z && (c =? 1)%Z then 1 else 0)
         else if (c =? 1)%Z then (if (r =? 0)%Z then / sqrt 2 else if (r =? 1)%Z then 0 else - / sqrt 2)
         else if (r =? 1)%Z then (if (c =? 2)%Z then / sqrt 2 else - / sqrt 2)
         else 1 / 2 |}.
  Definition d2 := wigner_values dl2 2.

  Lemma sqrt2 : sqrt 2 * sqrt 2 = 2. Proof. apply sqrt_sqrt. lra. Qed.
  Lemma sqrt2_pos : 0 < sqrt 2. Proof. apply sqrt_lt_R0. lra. Qed.
  Lemma half2 : / sqrt 2 * / sqrt 2 = 1 / 2.
  Proof. pose proof sqrt2_pos. rewrite <- Rinv_mult. rewrite sqrt2. field. Qed.

  (** They give the textbook harmonics. *)
  Definition c0 := sqrt (1 / (4 * PI)).
  Definition c1 := sqrt (3 / (4 * PI)).
  Lemma Y0 theta phi : harmonic_number d2 0 theta phi = Cmult (RtoC c0) (expi (IZR 0 * phi)).
  Proof.
    unfold harmonic_number, harmonic. change (Z.of_nat (Nat.sqrt 0)) with 0%Z. change (Z.of_nat 0 - 0 * 0 - 0)%Z with 0%Z.
    change (zrange (- 0) (0 + 1)) with [0%Z]. cbn [map clsum]. change (d2 0 0 0)%Z with 1. change (IZR (2 * 0 + 1)) with 1. fold c0.
    rewrite !Rmult_0_l. replace (- (0 / 2)) with 0 by field. rewrite !expi_0. apply C_ext; cbn; rewrite ?Rmult_0_l; ring.
  Qed.
  Lemma Y2 theta phi : harmonic_number d2 2 theta phi = Cmult (RtoC (c1 * cos theta)) (expi (IZR 0 * phi)).
  Proof.
    unfold harmonic_number, harmonic. change (Z.of_nat (Nat.sqrt 2)) with 1%Z. change (Z.of_nat 2 - 1 * 1 - 1)%Z with 0%Z.
    change (zrange (Z.opp 1) (1 + 1)) with [(-1); 0; 1]%Z. cbn [map clsum]. change (d2 1 (-1) 0)%Z with (/ sqrt 2). change (d2 1 0 0)%Z with 0. change (d2 1 1 0)%Z with (- / sqrt 2).
    change (IZR (2 * 1 + 1)) with 3. fold c1.
    replace (- / sqrt 2 * - / sqrt 2) with (/ sqrt 2 * / sqrt 2) by ring. rewrite half2.
    replace (-1 * theta) with (- theta) by ring. rewrite !Rmult_0_l. replace (- (0 / 2)) with 0 by field. rewrite !expi_0.
    apply C_ext; cbn; rewrite ?Rmult_1_l, ?cos_neg, ?sin_neg; field.
  Qed.
  Lemma Y3 theta phi : harmonic_number d2 3 theta phi = Cmult (RtoC (- c1 * / sqrt 2 * sin theta)) (expi (IZR 1 * phi)).
  Proof.
    unfold harmonic_number, harmonic. change (Z.of_nat (Nat.sqrt 3)) with 1%Z. change (Z.of_nat 3 - 1 * 1 - 1)%Z with 1%Z.
    change (zrange (Z.opp 1) (1 + 1)) with [(-1); 0; 1]%Z. cbn [map clsum]. change (d2 1 (-1) 0)%Z with (/ sqrt 2). change (d2 1 0 0)%Z with 0. change (d2 1 1 0)%Z with (- / sqrt 2).
    change (d2 1 (-1) 1)%Z with (1 / 2). change (d2 1 0 1)%Z with (/ sqrt 2). change (d2 1 1 1)%Z with (1 / 2).
    change (IZR (2 * 1 + 1)) with 3. fold c1. pose proof sqrt2_pos.
    replace (-1 * theta) with (- theta) by ring. rewrite !Rmult_1_l.
    apply C_ext; cbn; rewrite ?Rmult_0_l, ?cos_neg, ?sin_neg, ?cos_PI2, ?sin_PI2; field; lra.
  Qed.
  Lemma Y1 theta phi : harmonic_number d2 1 theta phi = Cmult (RtoC (c1 * / sqrt 2 * sin theta)) (expi (IZR (-1) * phi)).
  Proof.
    unfold harmonic_number, harmonic. change (Z.of_nat (Nat.sqrt 1)) with 1%Z. change (Z.of_nat 1 - 1 * 1 - 1)%Z with (-1)%Z.
    change (zrange (Z.opp 1) (1 + 1)) with [(-1); 0; 1]%Z. cbn [map clsum]. change (d2 1 (-1) 0)%Z with (/ sqrt 2). change (d2 1 0 0)%Z with 0. change (d2 1 1 0)%Z with (- / sqrt 2).
    change (d2 1 (-1) (-1))%Z with (1 / 2). change (d2 1 0 (-1))%Z with (- / sqrt 2). change (d2 1 1 (-1))%Z with (1 / 2).
    change (IZR (2 * 1 + 1)) with 3. fold c1. pose proof sqrt2_pos.
    replace (- (-1 * PI / 2)) with (PI / 2) by field.
    replace (-1 * theta) with (- theta) by ring. rewrite !Rmult_1_l.
    apply C_ext; cbn; rewrite ?Rmult_0_l, ?cos_neg, ?sin_neg, ?cos_PI2, ?sin_PI2; field; lra.
  Qed.

  (** Overlaps of functions of the form real function of the colatitude times
      exp(i m phi). *)
  Lemma separable d i j a b c e (hi hj : R -> R) m q v :
    (forall t p, harmonic_number d i t p = Cmult (RtoC (hi t)) (expi (IZR m * p))) ->
    (forall t p, harmonic_number d j t p = Cmult (RtoC (hj t)) (expi (IZR q * p))) ->
    is_RInt (fun t => hi t * hj t * sin t) a b v ->
    overlap d i j a b c e (Cmult (RtoC v) (S_of c e (m - q))).
  Proof.
    intros Hi Hj Hv. exists (fun p => Cmult (RtoC v) (expi (IZR (m - q) * p))). split; [|apply cint_scal, longitude_integral].
    intros p. eapply (cint_ext (fun t => Cmult (expi (IZR (m - q) * p)) (RtoC (hi t * hj t * sin t)))).
    - intros t. rewrite Hi, Hj, Cconj_mult, Cconj_R, <- expi_neg.
      replace (expi (IZR (m - q) * p)) with (Cmult (expi (IZR m * p)) (expi (- (IZR q * p))))
        by (rewrite <- expi_plus; f_equal; rewrite minus_IZR; ring).
      rewrite !RtoC_mult. ring.
    - rewrite (Cmult_comm (RtoC v)). apply cint_scal. split; [exact Hv|]. cbn.
      exact (proj2 (cint_zero a b)).
  Qed.

  Lemma by_antiderivative (F f : R -> R) a b v :
    F b - F a = v -> (forall t, is_derive F t (f t)) -> (forall t, continuous f t) -> is_RInt f a b v.
  Proof. intros <- H C. exact (is_RInt_derive F f a b (fun t _ => H t) (fun t _ => C t)). Qed.

  Lemma row_full r : S_of 0 (2 * PI) r = RtoC (if (r =? 0)%Z then 2 * PI else 0).
  Proof.
    unfold S_of. destruct (Z.eqb_spec r 0) as [->|H]; [f_equal; ring|].
    assert (A : cexp (IZR r * 0) = RtoC 1) by (rewrite Rmult_0_r; apply C_ext; cbn; [apply cos_0|apply sin_0]).
    assert (B : cexp (IZR r * (2 * PI)) = RtoC 1).
    { apply C_ext; cbn.
      - replace (IZR r * (2 * PI)) with (2 * (IZR r * PI)) by ring. rewrite cos_2a_sin, (sin_eq_0_1 (IZR r * PI)) by (exists r; reflexivity). ring.
      - replace (IZR r * (2 * PI)) with (2 * (IZR r * PI)) by ring. rewrite sin_2a, (sin_eq_0_1 (IZR r * PI)) by (exists r; reflexivity). ring. }
    rewrite A, B. ring.
  Qed.

  Lemma overlap_val d i j a b c e v w : v = w -> overlap d i j a b c e v -> overlap d i j a b c e w.
  Proof. intros ->. auto. Qed.

  (** Degrees 0 and 1 are orthonormal on the sphere. *)
  Definition h (i : nat) (t : R) : R :=
    match i with 0%nat => c0 | 1%nat => c1 * / sqrt 2 * sin t | 2%nat => c1 * cos t | _ => - c1 * / sqrt 2 * sin t end.
  Definition ord (i : nat) : Z := match i with 0%nat => 0 | 1%nat => -1 | 2%nat => 0 | _ => 1 end.
  Lemma Y i t p : (i < 4)%nat -> harmonic_number d2 i t p = Cmult (RtoC (h i t)) (expi (IZR (ord i) * p)).
  Proof.
    intros H. destruct i as [|[|[|[|i]]]]; [apply Y0|apply Y1|apply Y2|apply Y3|lia].
  Qed.
  Lemma c00 : c0 * c0 = 1 / (4 * PI).
  Proof. apply sqrt_sqrt. apply Rdiv_le_0_compat; [lra|]. pose proof PI_RGT_0. lra. Qed.
  Lemma c11 : c1 * c1 = 3 / (4 * PI).
  Proof. apply sqrt_sqrt. apply Rdiv_le_0_compat; [lra|]. pose proof PI_RGT_0. lra. Qed.

  (** Every product has an integral: needed for orders that differ. *)
  Lemma product_integrable i j a b : (i < 4)%nat -> (j < 4)%nat -> ex_RInt (fun t => h i t * h j t * sin t) a b.
  Proof.
    intros Hi Hj. apply (@ex_RInt_continuous R_CompleteNormedModule). intros t _.
    destruct i as [|[|[|[|i]]]]; try lia; destruct j as [|[|[|[|j]]]]; try lia; cbn; cont.
  Qed.

  Example C05_orthonormal_case : orthonormal d2 4.
  Proof.
    assert (P : 0 < PI) by apply PI_RGT_0.
    assert (R0 : forall i j v, (i < 4)%nat -> (j < 4)%nat -> (ord i =? ord j)%Z = true ->
              is_RInt (fun t => h i t * h j t * sin t) 0 PI v -> v * (2 * PI) = (if (i =? j)%nat then 1 else 0) ->
              overlap d2 i j 0 PI 0 (2 * PI) (RtoC (if (i =? j)%nat then 1 else 0))).
    { intros i j v Hi Hj O I V. apply Z.eqb_eq in O.
      eapply overlap_val; [|exact (separable d2 i j 0 PI 0 (2 * PI) (h i) (h j) (ord i) (ord j) v (fun t p => Y i t p Hi) (fun t p => Y j t p Hj) I)].
      rewrite row_full, O, Z.sub_diag, Z.eqb_refl, <- RtoC_mult, V. reflexivity. }
    assert (R1 : forall i j, (i < 4)%nat -> (j < 4)%nat -> (ord i =? ord j)%Z = false ->
              overlap d2 i j 0 PI 0 (2 * PI) (RtoC (if (i =? j)%nat then 1 else 0))).
    { intros i j Hi Hj O. apply Z.eqb_neq in O. rewrite (proj2 (Nat.eqb_neq i j)) by (intros ->; apply O; reflexivity). destruct (product_integrable i j 0 PI Hi Hj) as (v & I).
      eapply overlap_val; [|exact (separable d2 i j 0 PI 0 (2 * PI) (h i) (h j) (ord i) (ord j) v (fun t p => Y i t p Hi) (fun t p => Y j t p Hj) I)].
      rewrite row_full, (proj2 (Z.eqb_neq (ord i - ord j) 0)) by lia. apply Cmult_0_r. }
    assert (Ic : is_RInt (fun t => (- cos t * - cos t) * sin t) 0 PI (2 / 3)).
    { apply (by_antiderivative (fun t => - cos t * cos t * cos t / 3)).
      - rewrite cos_0, cos_PI. field.
      - intros t. auto_derive; [trivial|]. field.
      - intros t. cont. }
    assert (Is : is_RInt (fun t => (sin t * sin t) * sin t) 0 PI (4 / 3)).
    { apply (by_antiderivative (fun t => - cos t + cos t * cos t * cos t / 3)).
      - rewrite cos_0, cos_PI. field.
      - intros t. auto_derive; [trivial|]. pose proof (sin2_cos2 t) as Q. unfold Rsqr in Q.
        replace (cos t * cos t) with (1 - sin t * sin t) by lra. field_simplify. replace (cos t ^ 2) with (1 - sin t * sin t) by (cbn; lra). field.
      - intros t. cont. }
    assert (I1 : is_RInt sin 0 PI 2).
    { apply (by_antiderivative (fun t => - cos t)); [rewrite cos_0, cos_PI; ring|intros t; auto_derive; [trivial|ring]|intros t; cont]. }
    assert (Im : is_RInt (fun t => cos t * sin t) 0 PI 0).
    { apply (by_antiderivative (fun t => sin t * sin t / 2)); [rewrite sin_0, sin_PI; field|intros t; auto_derive; [trivial|field]|intros t; cont]. }
    assert (SC : forall k f v, is_RInt f 0 PI v -> is_RInt (fun t => k * f t) 0 PI (k * v)) by (intros k f v I; exact (is_RInt_scal f 0 PI k v I)).
    assert (EX : forall (f g : R -> R) v, (forall t, f t = g t) -> is_RInt f 0 PI v -> is_RInt g 0 PI v)
      by (intros f g v Q I; eapply is_RInt_ext; [intros t _; apply Q|exact I]).
    pose proof half2 as H2. pose proof c00 as C0. pose proof c11 as C1'.
    intros i j Hi Hj.
    destruct i as [|[|[|[|i]]]]; try lia; destruct j as [|[|[|[|j]]]]; try lia; try exact (R1 _ _ Hi Hj eq_refl).
    - apply (R0 0%nat 0%nat (c0 * c0 * 2)); [lia|lia|reflexivity| |].
      + eapply EX; [|exact (SC (c0 * c0) _ _ I1)]. intros t. reflexivity.
      + rewrite C0. cbn. field. lra.
    - apply (R0 0%nat 2%nat (c0 * c1 * 0)); [lia|lia|reflexivity| |].
      + eapply EX; [|exact (SC (c0 * c1) _ _ Im)]. intros t. cbn. ring.
      + cbn. ring.
    - apply (R0 1%nat 1%nat (c1 * c1 * (1 / 2) * (4 / 3))); [lia|lia|reflexivity| |].
      + eapply EX; [|exact (SC (c1 * c1 * (1 / 2)) _ _ Is)]. intros t. cbn. rewrite <- H2. ring.
      + rewrite C1'. cbn. field. lra.
    - apply (R0 2%nat 0%nat (c0 * c1 * 0)); [lia|lia|reflexivity| |].
      + eapply EX; [|exact (SC (c0 * c1) _ _ Im)]. intros t. cbn. ring.
      + cbn. ring.
    - apply (R0 2%nat 2%nat (c1 * c1 * (2 / 3))); [lia|lia|reflexivity| |].
      + eapply EX; [|exact (SC (c1 * c1) _ _ Ic)]. intros t. cbn. ring.
      + rewrite C1'. cbn. field. lra.
    - apply (R0 3%nat 3%nat (c1 * c1 * (1 / 2) * (4 / 3))); [lia|lia|reflexivity| |].
      + eapply EX; [|exact (SC (c1 * c1 * (1 / 2)) _ _ Is)]. intros t. cbn. rewrite <- H2. ring.
      + rewrite C1'. cbn. field. lra.
  Qed.

  (** The northern hemisphere east of the origin at band limit 2, the two
      iterations run in reverse: an entry linking two degrees, and one linking two
      orders. *)
  Example C05_case : exists K, create_K_matrix 0 (PI / 2) 0 PI dl2 [1; 0]%Z 2 = Ok K /\
    K 2%nat 0%nat = RtoC (c0 * c1 * (1 / 2) * PI) /\ K 0%nat 2%nat = RtoC (c0 * c1 * (1 / 2) * PI) /\
    K 3%nat 2%nat = Cmult (RtoC (- (c1 * c1) * / sqrt 2 * (1 / 3))) (0, 2).
  Proof.
    destruct (C05_matrix 0 (PI / 2) 0 PI dl2 [1; 0]%Z 2 ltac:(lia) ltac:(repeat split) ltac:(apply perm_swap)) as (K & E & H).
    exists K. split; [exact E|].
    assert (Im : is_RInt (fun t => cos t * sin t) 0 (PI / 2) (1 / 2)).
    { apply (by_antiderivative (fun t => sin t * sin t / 2)); [rewrite sin_0, sin_PI2; field|intros t; auto_derive; [trivial|field]|intros t; cont]. }
    assert (Isc : is_RInt (fun t => sin t * cos t * sin t) 0 (PI / 2) (1 / 3)).
    { apply (by_antiderivative (fun t => sin t * sin t * sin t / 3)); [rewrite sin_0, sin_PI2; field|intros t; auto_derive; [trivial|field]|intros t; cont]. }
    assert (SC : forall k f v, is_RInt f 0 (PI / 2) v -> is_RInt (fun t => k * f t) 0 (PI / 2) (k * v)) by (intros k f v I; exact (is_RInt_scal f 0 (PI / 2) k v I)).
    assert (EX : forall (f g : R -> R) v, (forall t, f t = g t) -> is_RInt f 0 (PI / 2) v -> is_RInt g 0 (PI / 2) v)
      by (intros f g v Q I; eapply is_RInt_ext; [intros t _; apply Q|exact I]).
    assert (Z0 : S_of 0 PI 0 = RtoC PI) by (unfold S_of; cbn [Z.eqb]; f_equal; ring).
    assert (Z1 : S_of 0 PI 1 = (0, 2)).
    { unfold S_of. cbn [Z.eqb]. assert (A : cexp (1 * 0) = RtoC 1) by (rewrite Rmult_0_r; apply C_ext; cbn; [apply cos_0|apply sin_0]).
      assert (B : cexp (1 * PI) = RtoC (-1)) by (rewrite Rmult_1_l; apply C_ext; cbn; [apply cos_PI|apply sin_PI]).
      rewrite A, B. apply C_ext; cbn; field. }
    assert (A1 : is_RInt (fun t => h 2 t * h 0 t * sin t) 0 (PI / 2) (c0 * c1 * (1 / 2)))
      by (eapply EX; [|exact (SC (c0 * c1) _ _ Im)]; intros t; cbn; ring).
    assert (A2 : is_RInt (fun t => h 0 t * h 2 t * sin t) 0 (PI / 2) (c0 * c1 * (1 / 2)))
      by (eapply EX; [|exact (SC (c0 * c1) _ _ Im)]; intros t; cbn; ring).
    assert (A3 : is_RInt (fun t => h 3 t * h 2 t * sin t) 0 (PI / 2) (- (c1 * c1) * / sqrt 2 * (1 / 3)))
      by (eapply EX; [|exact (SC (- (c1 * c1) * / sqrt 2) _ _ Isc)]; intros t; cbn; ring).
    assert (B : forall i j v, (i < 4)%nat -> (j < 4)%nat -> is_RInt (fun t => h i t * h j t * sin t) 0 (PI / 2) v ->
                K i j = Cmult (RtoC v) (S_of 0 PI (ord i - ord j))).
    { intros i j v Hi Hj I. eapply box_integral_unique; [exact (H i j Hi Hj)|].
      exact (separable d2 i j 0 (PI / 2) 0 PI (h i) (h j) (ord i) (ord j) v (fun t p => Y i t p Hi) (fun t p => Y j t p Hj) I). }
    split; [|split].
    - rewrite (B 2%nat 0%nat _ ltac:(lia) ltac:(lia) A1). change (ord 2 - ord 0)%Z with 0%Z. rewrite Z0, <- RtoC_mult. reflexivity.
    - rewrite (B 0%nat 2%nat _ ltac:(lia) ltac:(lia) A2). change (ord 0 - ord 2)%Z with 0%Z. rewrite Z0, <- RtoC_mult. reflexivity.
    - rewrite (B 3%nat 2%nat _ ltac:(lia) ltac:(lia) A3). change (ord 3 - ord 2)%Z with 1%Z. rewrite Z1. reflexivity.
  Qed.

  (** Two threads taking turns finish after 96 turns each and leave the entries
      of the sequential run. *)
  Definition turns : list nat := flat_map (fun _ => [1; 0]%nat) (seq 0 96).
  Example C05_interleaved_case : forall reg, exists s K K',
    create_K_matrix_par 0 (PI / 2) 0 PI dl2 turns reg 2 = Ok (s, K) /\ finished s /\
    create_K_matrix 0 (PI / 2) 0 PI dl2 [1; 0]%Z 2 = Ok K' /\ K 3%nat 2%nat = K' 3%nat 2%nat.
  Proof.
    intros reg. destruct (C05_interleaved 0 (PI / 2) 0 PI dl2 turns reg 2 ltac:(lia) ltac:(repeat split)) as (s & K & E & _ & V).
    destruct (C05_matrix 0 (PI / 2) 0 PI dl2 [1; 0]%Z 2 ltac:(lia) ltac:(repeat split) ltac:(apply perm_swap)) as (K' & E' & H).
    assert (F : finished s).
    { refine (create_par_finished _ _ _ _ _ _ _ _ _ _ _ E). clear. intros G t Ht. destruct t as [|[|t]]; [| |lia].
      - replace (count_occ Nat.eq_dec turns 0%nat) with 96%nat by (vm_compute; reflexivity).
        unfold program. change (zrange 0 (Z.of_nat 0 + 1)) with [0%Z]. change (zrange (- Z.of_nat 0) (Z.of_nat 0 + 1)) with [0%Z].
        cbn [flat_map]. change (zrange (Z.opp 0) (0 + 1)) with [0%Z]. cbn [flat_map]. rewrite !app_nil_r. rewrite entry_program_length. change (4 <= 96)%nat. lia.
      - replace (count_occ Nat.eq_dec turns 1%nat) with 96%nat by (vm_compute; reflexivity).
        unfold program. change (zrange 0 (Z.of_nat 1 + 1)) with [0; 1]%Z. change (zrange (- Z.of_nat 1) (Z.of_nat 1 + 1)) with [-1; 0; 1]%Z.
        cbn [flat_map]. change (zrange (Z.opp 0) (0 + 1)) with [0%Z]. change (zrange (Z.opp 1) (1 + 1)) with [-1; 0; 1]%Z.
        cbn [flat_map]. rewrite !app_nil_r, !app_length, !entry_program_length. change (96 <= 96)%nat. lia. }
    exists s, K, K'. split; [exact E|]. split; [exact F|]. split; [exact E'|].
    exact (box_integral_unique _ _ _ _ _ _ _ (V F 3%nat 2%nat ltac:(cbn; lia) ltac:(cbn; lia)) (H 3%nat 2%nat ltac:(cbn; lia) ltac:(cbn; lia))).
  Qed.

  (** The whole sphere: the second harmonic is an eigenvector with eigenvalue 1,
      so the hypotheses of the eigenvalue theorem can be met. *)
  Example C05_eigenvalues_case : exists K v,
    create_K_matrix 0 PI 0 (2 * PI) dl2 [0; 1]%Z 2 = Ok K /\
    (forall i, (i < 2 * 2)%nat -> csum (2 * 2) (fun j => Cmult (K i j) (v j)) = Cmult (RtoC 1) (v i)) /\
    (exists i, (i < 2 * 2)%nat /\ v i <> RtoC 0) /\ orthonormal (wigner_values dl2 2) (2 * 2).
  Proof.
    destruct (C05_matrix 0 PI 0 (2 * PI) dl2 [0; 1]%Z 2 ltac:(lia) ltac:(repeat split) ltac:(apply Permutation_refl)) as (K & E & H).
    exists K, (fun i => if (i =? 2)%nat then RtoC 1 else RtoC 0). split; [exact E|]. split; [|split].
    - intros i Hi. rewrite (csum_single 4 2); [|lia|].
      + rewrite (box_integral_unique _ _ _ _ _ _ _ (H i 2%nat Hi ltac:(lia)) (C05_orthonormal_case i 2%nat Hi ltac:(lia))).
        cbn [Nat.eqb]. destruct (i =? 2)%nat; ring.
      + intros j _ Nj. rewrite (proj2 (Nat.eqb_neq j 2) Nj). apply Cmult_0_r.
    - exists 2%nat. split; [lia|]. cbn. intros C. injection C. lra.
    - exact C05_orthonormal_case.
  Qed.
End LatLonCases.
