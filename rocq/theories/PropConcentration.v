(** * C65: Slepian functions of a latitude-longitude box are orthonormal,
    concentrated and optimal. *)
From Coq Require Import List ZArith Arith Bool Reals Lia Lra Sorting.Permutation.
From Coquelicot Require Import Coquelicot.
From Verif Require Import Base ListLemmas RSum CSum Numpy OrthoProofs Eigen SpecEigen EigenProofs PolarEigenProofs PropEigen Region RegionProofs LatLon
  SpecLatLon LatLonIntegrals LatLonProofs LatLonSolve SpecConcentration ConcentrationProofs SpecHarmonics TextbookProofs PropLatLon.
Import ListNotations.
Local Open Scope nat_scope.

(** What is assumed of the external calls for one box: [ssht.generate_dl] returns
    a table of the right shape whose harmonics are those of the textbooks, and
    [LA.eigh] decomposes the matrix it is given. *)
Definition external_calls eigh argsort theta_min theta_max phi_min phi_max dl order L : Prop :=
  argsort_ok argsort /\ generated dl L /\ schedule order L /\ textbook (wigner_values dl L) L /\
  forall K, create_K_matrix theta_min theta_max phi_min phi_max dl order (Z.of_nat L) = Ok K ->
    eigen_c (L * L) K (fst (eigh K)) (snd (eigh K)).

(** A box on the sphere. *)
Definition on_sphere (theta_min theta_max phi_min phi_max : R) : Prop :=
  (0 <= theta_min <= theta_max)%R /\ (theta_max <= PI)%R /\ (0 <= phi_min <= phi_max)%R /\ (phi_max <= 2 * PI)%R.

Lemma solved eigh argsort tmin tmax pmin pmax dl order L : 1 <= L ->
  external_calls eigh argsort tmin tmax pmin pmax dl order L ->
  exists K evals rows, solve_lat_lon eigh argsort tmin tmax pmin pmax dl order L = Ok (evals, rows) /\
    (forall i j, i < L * L -> j < L * L -> overlap (wigner_values dl L) i j tmin tmax pmin pmax (K i j)) /\
    length evals = L * L /\ length rows = L * L /\ descending evals /\
    let u := fun p i => nth i (nth p rows []) (RtoC 0) in let lam := fun p => nth p evals 0%R in
    (forall p q, p < L * L -> q < L * L -> ip (L * L) (u p) (u q) = if Nat.eqb p q then RtoC 1 else RtoC 0) /\
    (forall p j, p < L * L -> j < L * L -> csum (L * L) (fun i => Cmult (u p i) (K i j)) = Cmult (RtoC (lam p)) (u p j)).
Proof.
  intros HL (HA & HD & HO & _ & HE).
  destruct (C05_matrix tmin tmax pmin pmax dl order L HL HD HO) as (K & E & HK).
  pose proof (C05_hermitian tmin tmax pmin pmax dl order L K HL HD HO E) as HH.
  pose proof (C16_lat_lon argsort HA (L * L) K _ _ (HE K E) HH) as CL.
  destruct (cleaned_family (L * L) K _ _ CL (proj1 (HE K E))) as (evals & rows & ER & Hl & Hr & Hd & _ & Ho & He).
  exists K, evals, rows. unfold solve_lat_lon. rewrite E. cbn [rbind]. split; [exact ER|]. split; [exact HK|]. repeat split; assumption.
Qed.

(** The computation succeeds; the functions are orthonormal on the sphere, and
    orthogonal in the box with the eigenvalue as energy; the eigenvalues decrease
    and lie between 0 and 1. *)
Theorem C65_functions : forall eigh argsort theta_min theta_max phi_min phi_max dl order L, 1 <= L ->
  external_calls eigh argsort theta_min theta_max phi_min phi_max dl order L -> on_sphere theta_min theta_max phi_min phi_max ->
  exists evals rows, solve_lat_lon eigh argsort theta_min theta_max phi_min phi_max dl order L = Ok (evals, rows) /\
    length evals = L * L /\ length rows = L * L /\ descending evals /\
    let S := slepian_function (wigner_values dl L) (L * L) rows in
    forall p q, p < L * L -> q < L * L ->
      inner (S p) (S q) 0 PI 0 (2 * PI) (RtoC (if p =? q then 1 else 0)) /\
      inner (S p) (S q) theta_min theta_max phi_min phi_max (RtoC (if p =? q then nth p evals 0%R else 0)) /\
      (0 <= nth p evals 0 <= 1)%R.
Proof.
  intros eigh argsort tmin tmax pmin pmax dl order L HL HX (B1 & B2 & B3 & B4).
  destruct (solved eigh argsort tmin tmax pmin pmax dl order L HL HX) as (K & evals & rows & E & HK & Hl & Hr & Hd & Ho & He).
  exists evals, rows. split; [exact E|]. split; [exact Hl|]. split; [exact Hr|]. split; [exact Hd|]. intros S.
  assert (SP : forall p q, p < L * L -> q < L * L -> inner (S p) (S q) 0 PI 0 (2 * PI) (RtoC (if p =? q then 1 else 0))).
  { intros p q Hp Hq. destruct HX as (_ & _ & _ & TB & _). pose proof (textbook_orthonormal _ _ TB) as ON.
    pose proof (inner_gram (wigner_values dl L) (L * L) (fun i j => RtoC (if i =? j then 1 else 0)) (fun i => nth i (nth p rows []) (RtoC 0)) (fun i => nth i (nth q rows []) (RtoC 0)) _ _ _ _ ON) as G.
    rewrite gram_identity in G. cbv zeta in Ho. rewrite Ho in G by assumption.
    replace (RtoC (if p =? q then 1 else 0)) with (if p =? q then RtoC 1 else RtoC 0) by (destruct (p =? q); reflexivity). exact G. }
  assert (SB : forall p q, p < L * L -> q < L * L -> inner (S p) (S q) tmin tmax pmin pmax (RtoC (if p =? q then nth p evals 0%R else 0))).
  { intros p q Hp Hq.
    pose proof (inner_gram (wigner_values dl L) (L * L) K (fun i => nth i (nth p rows []) (RtoC 0)) (fun i => nth i (nth q rows []) (RtoC 0)) _ _ _ _ HK) as G.
    rewrite (gram_rows (L * L) K _ _ Ho He p q Hp Hq) in G.
    replace (RtoC (if p =? q then nth p evals 0%R else 0)) with (if p =? q then RtoC (nth p evals 0%R) else RtoC 0) by (destruct (p =? q); reflexivity). exact G. }
  intros p q Hp Hq. split; [apply SP; assumption|]. split; [apply SB; assumption|].
  pose proof (SP p p Hp Hp) as T. pose proof (SB p p Hp Hp) as I. rewrite Nat.eqb_refl in T, I.
  apply inner_energy in T. apply inner_energy in I. destruct HX as (_ & (D0 & D1 & D2) & _).
  exact (energy_monotone dl L _ tmin tmax pmin pmax _ _ HL D0 D1 D2 B1 B2 B3 B4 (proj1 I) (proj1 T)).
Qed.
Print Assumptions C65_functions.

(** A band-limited function orthogonal to the first [p] Slepian functions has at
    most the fraction [lambda_p] of its energy in the box; [p = 0] says that the
    first one is the best concentrated of all. *)
Theorem C65_optimal : forall eigh argsort theta_min theta_max phi_min phi_max dl order L evals rows w p inside total, 1 <= L ->
  external_calls eigh argsort theta_min theta_max phi_min phi_max dl order L ->
  solve_lat_lon eigh argsort theta_min theta_max phi_min phi_max dl order L = Ok (evals, rows) -> p < L * L ->
  let f := band_limited (wigner_values dl L) (L * L) w in
  (forall q, q < p -> inner f (slepian_function (wigner_values dl L) (L * L) rows q) 0 PI 0 (2 * PI) (RtoC 0)) ->
  energy f theta_min theta_max phi_min phi_max inside -> energy f 0 PI 0 (2 * PI) total ->
  (inside <= nth p evals 0 * total)%R.
Proof.
  intros eigh argsort tmin tmax pmin pmax dl order L evals rows w p inside total HL HX E Hp f Hq EI ET.
  destruct (solved eigh argsort tmin tmax pmin pmax dl order L HL HX) as (K & evals' & rows' & E' & HK & Hl & Hr & Hd & Ho & He).
  rewrite E in E'. injection E' as <- <-. pose proof HX as (_ & _ & _ & TB & _). pose proof (textbook_orthonormal _ _ TB) as ON.
  pose proof (proj1 (inner_energy _ _ _ _ _ _) (inner_gram _ _ K w w _ _ _ _ HK)) as [GI _].
  pose proof (proj1 (inner_energy _ _ _ _ _ _) (inner_gram _ _ (fun i j => RtoC (if i =? j then 1 else 0)) w w _ _ _ _ ON)) as [GT _].
  rewrite gram_identity, ip_self in GT.
  assert (Q1 : inside = Re (gram (L * L) K w w)) by (apply RtoC_inj; exact (box_integral_unique _ _ _ _ _ _ _ EI GI)).
  assert (Q2 : total = nrm2 (L * L) w) by (apply RtoC_inj; exact (box_integral_unique _ _ _ _ _ _ _ ET GT)).
  rewrite Q1, Q2. apply (gram_bound (L * L) K _ _ Ho He w p Hp).
  - intros q q' Hqq Hq'. apply (descending_nth evals Hd); [exact Hqq|rewrite Hl; exact Hq'].
  - intros q Hqp. pose proof (inner_gram _ _ (fun i j => RtoC (if i =? j then 1 else 0)) w (fun i => nth i (nth q rows []) (RtoC 0)) _ _ _ _ ON) as G.
    rewrite gram_identity in G. exact (inner_unique _ _ _ _ _ _ _ _ G (Hq q Hqp)).
Qed.
Print Assumptions C65_optimal.

(** The eigenvalues add up to the Shannon number before rounding, so the number
    of functions kept is the nearest whole number. *)
Theorem C65_shannon : forall eigh argsort theta_min theta_max phi_min phi_max dl order L evals rows, 1 <= L ->
  external_calls eigh argsort theta_min theta_max phi_min phi_max dl order L ->
  solve_lat_lon eigh argsort theta_min theta_max phi_min phi_max dl order L = Ok (evals, rows) ->
  let area := calculate_area 0 (SlepianLimitLatLon phi_max phi_min theta_max theta_min) in
  rlsum evals = (area * (INR L * INR L) / (4 * PI))%R /\ (Rabs (IZR (shannon area L) - rlsum evals) <= 1 / 2)%R.
Proof.
  intros eigh argsort tmin tmax pmin pmax dl order L evals rows HL HX E area. pose proof HX as (_ & _ & _ & TB & _). pose proof (textbook_degree _ _ TB) as W.
  destruct (solved eigh argsort tmin tmax pmin pmax dl order L HL HX) as (K & evals' & rows' & E' & HK & Hl & Hr & Hd & Ho & He).
  rewrite E in E'. injection E' as <- <-.
  assert (S : rlsum evals = (area * (INR L * INR L) / (4 * PI))%R).
  { rewrite rlsum_nth, Hl. apply RtoC_inj. rewrite (gram_trace (L * L) K _ _ Ho He). rewrite (csum_box_sum _ L tmin tmax pmin pmax K W HK).
    reflexivity. }
  split; [exact S|]. rewrite S. apply shannon_close.
Qed.
Print Assumptions C65_shannon.

(** ** Case: the northern hemisphere at band limit 2 *)
Module ConcentrationCases.
  Import LatLonCases.
  Local Open Scope R_scope.

  Definition hemi (i j : nat) : R :=
    if (i =? j)%nat then 1 / 2
    else if ((i =? 0) && (j =? 2) || (i =? 2) && (j =? 0))%nat then sqrt 3 / 4 else 0.
  Definition eigh2 (K : nat -> nat -> C) : list R * list (list C) :=
    ([1 / 2 - sqrt 3 / 4; 1 / 2; 1 / 2; 1 / 2 + sqrt 3 / 4],
     [[RtoC (/ sqrt 2); RtoC 0; RtoC (- / sqrt 2); RtoC 0]; [RtoC 0; RtoC 1; RtoC 0; RtoC 0];
      [RtoC 0; RtoC 0; RtoC 0; RtoC 1]; [RtoC (/ sqrt 2); RtoC 0; RtoC (/ sqrt 2); RtoC 0]]).

  Lemma c01 : c0 * c1 = sqrt 3 / (4 * PI).
  Proof.
    pose proof PI_RGT_0 as P. unfold c0, c1. rewrite <- sqrt_mult by (apply Rdiv_le_0_compat; lra).
    replace (1 / (4 * PI) * (3 / (4 * PI))) with (3 / ((4 * PI) * (4 * PI))) by (field; lra).
    rewrite sqrt_div_alt by (apply Rmult_lt_0_compat; lra). rewrite sqrt_square by lra. reflexivity.
  Qed.

  Lemma hemi_matrix K : create_K_matrix 0 (PI / 2) 0 (2 * PI) dl2 [0; 1]%Z 2 = Ok K ->
    forall i j, (i < 4)%nat -> (j < 4)%nat -> K i j = RtoC (hemi i j).
  Proof.
    intros E i j Hi Hj. pose proof PI_RGT_0 as P.
    destruct (C05_matrix 0 (PI / 2) 0 (2 * PI) dl2 [0; 1]%Z 2 ltac:(lia) ltac:(repeat split) ltac:(apply Permutation_refl)) as (K' & E' & H).
    change (Z.of_nat 2) with 2%Z in E'. rewrite E in E'. injection E' as <-.
    assert (B : forall v, is_RInt (fun t => h i t * h j t * sin t) 0 (PI / 2) v ->
                K i j = Cmult (RtoC v) (S_of 0 (2 * PI) (ord i - ord j))).
    { intros v I. eapply box_integral_unique; [exact (H i j Hi Hj)|].
      exact (separable d2 i j 0 (PI / 2) 0 (2 * PI) (h i) (h j) (ord i) (ord j) v (fun t p => Y i t p Hi) (fun t p => Y j t p Hj) I). }
    rewrite row_full in B.
    assert (Off : (ord i - ord j =? 0)%Z = false -> K i j = RtoC 0).
    { intros O. destruct (product_integrable i j 0 (PI / 2) Hi Hj) as (v & I). rewrite (B v I), O. apply Cmult_0_r. }
    assert (On : forall v, (ord i - ord j =? 0)%Z = true -> is_RInt (fun t => h i t * h j t * sin t) 0 (PI / 2) v ->
                 v * (2 * PI) = hemi i j -> K i j = RtoC (hemi i j)).
    { intros v O I V. rewrite (B v I), O, <- RtoC_mult, V. reflexivity. }
    assert (SC : forall k f v, is_RInt f 0 (PI / 2) v -> is_RInt (fun t => k * f t) 0 (PI / 2) (k * v)) by (intros k f v I; exact (is_RInt_scal f 0 (PI / 2) k v I)).
    assert (EX : forall (f g : R -> R) v, (forall t, f t = g t) -> is_RInt f 0 (PI / 2) v -> is_RInt g 0 (PI / 2) v)
      by (intros f g v Q I; eapply is_RInt_ext; [intros t _; apply Q|exact I]).
    assert (I1 : is_RInt sin 0 (PI / 2) 1).
    { apply (by_antiderivative (fun t => - cos t)); [rewrite cos_0, cos_PI2; ring|intros t; auto_derive; [trivial|ring]|intros t; cont]. }
    assert (Im : is_RInt (fun t => cos t * sin t) 0 (PI / 2) (1 / 2)).
    { apply (by_antiderivative (fun t => sin t * sin t / 2)); [rewrite sin_0, sin_PI2; field|intros t; auto_derive; [trivial|field]|intros t; cont]. }
    assert (Ic : is_RInt (fun t => cos t * cos t * sin t) 0 (PI / 2) (1 / 3)).
    { apply (by_antiderivative (fun t => - cos t * cos t * cos t / 3)); [rewrite cos_0, cos_PI2; field|intros t; auto_derive; [trivial|field]|intros t; cont]. }
    assert (Is : is_RInt (fun t => sin t * sin t * sin t) 0 (PI / 2) (2 / 3)).
    { apply (by_antiderivative (fun t => - cos t + cos t * cos t * cos t / 3)).
      - rewrite cos_0, cos_PI2. field.
      - intros t. auto_derive; [trivial|]. pose proof (sin2_cos2 t) as Q. unfold Rsqr in Q.
        replace (cos t * cos t) with (1 - sin t * sin t) by lra. field_simplify. replace (cos t ^ 2) with (1 - sin t * sin t) by (cbn; lra). field.
      - intros t. cont. }
    pose proof half2 as H2. pose proof c00 as C0. pose proof c11 as C1'. pose proof c01 as C01. clear H B E.
    destruct i as [|[|[|[|i]]]]; try lia; destruct j as [|[|[|[|j]]]]; try lia; try (rewrite (Off eq_refl); reflexivity).
    - apply (On (c0 * c0 * 1) eq_refl); [eapply EX; [|exact (SC (c0 * c0) _ _ I1)]; intros t; reflexivity|]. rewrite C0. cbn. field. lra.
    - apply (On (c0 * c1 * (1 / 2)) eq_refl); [eapply EX; [|exact (SC (c0 * c1) _ _ Im)]; intros t; cbn; ring|]. rewrite C01. cbn. field. lra.
    - apply (On (c1 * c1 * (1 / 2) * (2 / 3)) eq_refl); [eapply EX; [|exact (SC (c1 * c1 * (1 / 2)) _ _ Is)]; intros t; cbn; rewrite <- H2; ring|]. rewrite C1'. cbn. field. lra.
    - apply (On (c0 * c1 * (1 / 2)) eq_refl); [eapply EX; [|exact (SC (c0 * c1) _ _ Im)]; intros t; cbn; ring|]. rewrite C01. cbn. field. lra.
    - apply (On (c1 * c1 * (1 / 3)) eq_refl); [eapply EX; [|exact (SC (c1 * c1) _ _ Ic)]; intros t; cbn; ring|]. rewrite C1'. cbn. field. lra.
    - apply (On (c1 * c1 * (1 / 2) * (2 / 3)) eq_refl); [eapply EX; [|exact (SC (c1 * c1 * (1 / 2)) _ _ Is)]; intros t; cbn; rewrite <- H2; ring|]. rewrite C1'. cbn. field. lra.
  Qed.

  Lemma eigh2_ok K : (forall i j, (i < 4)%nat -> (j < 4)%nat -> K i j = RtoC (hemi i j)) ->
    eigen_c (2 * 2) K (fst (eigh2 K)) (snd (eigh2 K)).
  Proof.
    intros H. change (2 * 2)%nat with 4%nat. pose proof half2 as H2. unfold eigh2. cbn [fst snd].
    split; [reflexivity|]. split; [reflexivity|]. split; [|split].
    - intros k v E. destruct k as [|[|[|[|[|k]]]]]; cbn in E; try discriminate; injection E as <-; reflexivity.
    - intros k v r E Hr.
      rewrite (csum_ext 4 _ (fun c => Cmult (RtoC (hemi r c)) (nth c v (RtoC 0)))) by (intros c Hc; rewrite H by assumption; reflexivity).
      destruct r as [|[|[|[|r]]]]; try lia; destruct k as [|[|[|[|[|k]]]]]; cbn [nth_error] in E; try discriminate; injection E as <-;
        cbn [csum nth]; unfold hemi; cbn [Nat.eqb andb orb]; apply C_ext; cbn; try field; pose proof sqrt2_pos; lra.
    - intros j k u v Eu Ev. unfold cdot.
      destruct j as [|[|[|[|[|j]]]]]; cbn [nth_error] in Eu; try discriminate; injection Eu as <-;
        destruct k as [|[|[|[|[|k]]]]]; cbn [nth_error] in Ev; try discriminate; injection Ev as <-;
        cbn [csum nth Nat.eqb]; apply C_ext; cbn; lra.
  Qed.

  Lemma associated00 t : associated 0 0 t = 1.
  Proof. unfold associated. cbn [pow Derive_n]. change (legendre 0 (cos t)) with 1. ring. Qed.
  Lemma associated10 t : associated 1 0 t = cos t.
  Proof. unfold associated. cbn [pow Derive_n]. change (legendre 1 (cos t)) with (cos t). ring. Qed.
  Lemma associated11 t : associated 1 1 t = - sin t.
  Proof.
    assert (E : Derive_n (legendre 1) 1 (cos t) = 1) by (change (Derive (fun x : R => x) (cos t) = 1); apply Derive_id).
    unfold associated. rewrite E. ring.
  Qed.
  Lemma textbook2 : textbook (wigner_values dl2 2) 2.
  Proof.
    fold d2. intros l m t f Hl Hm. pose proof PI_RGT_0 as P. pose proof sqrt2_pos as S2.
    pose proof (Y0 t f : harmonic d2 0 0 t f = _) as E0. pose proof (Y2 t f : harmonic d2 1 0 t f = _) as E2.
    pose proof (Y3 t f : harmonic d2 1 1 t f = _) as E3. pose proof (Y1 t f : harmonic d2 1 (-1) t f = _) as E1.
    assert (N0 : sqrt ((2 * INR 0 + 1) / (4 * PI) * (INR (fact (0 - 0)) / INR (fact (0 + 0)))) = c0) by (unfold c0; f_equal; cbn; field; lra).
    assert (N1 : sqrt ((2 * INR 1 + 1) / (4 * PI) * (INR (fact (1 - 0)) / INR (fact (1 + 0)))) = c1) by (unfold c1; f_equal; cbn; field; lra).
    assert (N2 : sqrt ((2 * INR 1 + 1) / (4 * PI) * (INR (fact (1 - 1)) / INR (fact (1 + 1)))) = c1 * / sqrt 2).
    { unfold c1. rewrite <- sqrt_inv, <- sqrt_mult; [f_equal; cbn; field; lra| |lra]. apply Rlt_le, Rdiv_lt_0_compat; lra. }
    assert (A : (l = 0 /\ m = 0 \/ l = 1 /\ m = 0 \/ l = 1 /\ m = 1)%nat) by lia. unfold spherical_harmonic.
    destruct A as [(-> & ->)|[(-> & ->)|(-> & ->)]].
    - rewrite N0, associated00. cbn [Z.of_nat Z.opp pow INR]. rewrite E0. rewrite Rmult_0_l, expi_0. split; apply C_ext; cbn; ring.
    - rewrite N1, associated10. cbn [Z.of_nat Pos.of_succ_nat Z.opp pow]. change (INR 0) with 0. rewrite E2. rewrite Rmult_0_l, expi_0. split; apply C_ext; cbn; ring.
    - rewrite N2, associated11. cbn [Z.of_nat Pos.of_succ_nat Z.opp pow]. change (INR 1) with 1. rewrite E3, E1.
      replace (-1 * f) with (- f) by ring. rewrite expi_neg. replace (1 * f) with f by ring. split.
      + f_equal. f_equal. ring.
      + rewrite Cconj_mult, Cconj_R, Cmult_assoc, <- RtoC_mult. f_equal. f_equal. ring.
  Qed.

  Lemma calls2 : external_calls eigh2 insertion_argsort 0 (PI / 2) 0 (2 * PI) dl2 [0; 1]%Z 2.
  Proof.
    split; [exact insertion_argsort_ok|]. split; [repeat split|]. split; [apply Permutation_refl|]. split; [exact textbook2|].
    intros K E. apply eigh2_ok. exact (hemi_matrix K E).
  Qed.

  Lemma permuted eigh argsort tmin tmax pmin pmax dl order L evals rows : (1 <= L)%nat ->
    external_calls eigh argsort tmin tmax pmin pmax dl order L ->
    solve_lat_lon eigh argsort tmin tmax pmin pmax dl order L = Ok (evals, rows) -> exists K, Permutation evals (fst (eigh K)) /\ descending evals.
  Proof.
    intros HL (HA & HD & HO & ON & HE) E. unfold solve_lat_lon in E.
    destruct (C05_matrix tmin tmax pmin pmax dl order L HL HD HO) as (K & EK & HK). rewrite EK in E. cbn [rbind] in E.
    pose proof (C05_hermitian tmin tmax pmin pmax dl order L K HL HD HO EK) as HH.
    destruct (C16_lat_lon argsort HA (L * L) K _ _ (HE K EK) HH) as (ev & rw & Eq & _ & HP & Hd & _).
    rewrite Eq in E. injection E as <- <-. exists K. split; assumption.
  Qed.

  Example C65_case : exists evals rows,
    external_calls eigh2 insertion_argsort 0 (PI / 2) 0 (2 * PI) dl2 [0; 1]%Z 2 /\ on_sphere 0 (PI / 2) 0 (2 * PI) /\
    solve_lat_lon eigh2 insertion_argsort 0 (PI / 2) 0 (2 * PI) dl2 [0; 1]%Z 2 = Ok (evals, rows) /\
    nth 0 evals 0 = 1 / 2 + sqrt 3 / 4 /\ rlsum evals = 2.
  Proof.
    pose proof PI_RGT_0 as P.
    assert (S : on_sphere 0 (PI / 2) 0 (2 * PI)) by (repeat split; lra).
    destruct (C65_functions eigh2 insertion_argsort _ _ _ _ dl2 [0; 1]%Z 2 ltac:(lia) calls2 S) as (evals & rows & E & Hl & _).
    exists evals, rows. split; [exact calls2|]. split; [exact S|]. split; [exact E|].
    destruct (permuted _ _ _ _ _ _ _ _ 2%nat _ _ ltac:(lia) calls2 E) as (K & Q & Hd). unfold eigh2 in Q. cbn [fst] in Q. clear E.
    assert (T3 : 0 < sqrt 3) by (apply sqrt_lt_R0; lra).
    split.
    - assert (I : In (1 / 2 + sqrt 3 / 4) evals) by (eapply Permutation_in; [apply Permutation_sym; exact Q|cbn; auto]).
      apply (In_nth _ _ 0) in I. destruct I as (k & Hk & Ek).
      pose proof (descending_nth evals Hd 0 k ltac:(lia) Hk) as B. rewrite Ek in B.
      assert (I0 : In (nth 0 evals 0) evals) by (apply nth_In; rewrite Hl; cbn; lia).
      apply (Permutation_in _ Q) in I0. cbn [In] in I0. destruct I0 as [A|[A|[A|[A|[]]]]]; lra.
    - rewrite (rlsum_perm _ _ Q). cbn. lra.
  Qed.
End ConcentrationCases.
