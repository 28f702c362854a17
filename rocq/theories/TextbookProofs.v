(** * What follows for harmonics that are those of the textbooks. *)
From Coq Require Import List ZArith Arith Lia Bool Reals Lra.
From Coquelicot Require Import Coquelicot.
From Verif Require Import Base ListLemmas RSum CSum Numpy SpecWigner WignerProofs LatLon SpecLatLon LatLonIntegrals LatLonProofs SpecConcentration ConcentrationProofs
  SpecHarmonics SpecLegendre LegendreProofs CapProofs SpecArbitrary ThreeJProofs AssocProofs.
Import ListNotations.
Local Open Scope R_scope.

(** The symbol without its sum. *)
Lemma racah_norm l n p m : (0 <= l)%Z -> (l <= p)%Z -> (0 <= n)%Z -> (p - l <= n <= p + l)%Z ->
  IZR (2 * n + 1) * racah l n p 0 0 0 * racah l n p m 0 (- m) =
  pm1 m * (zfact l * zfact p * sqrt (weight l p m) * (osums l p n 0 * osums l p n m / onorm l p n)).
Proof.
  intros Hl Hp Hn Hr. unfold racah. fold (osums l p n 0). fold (osums l p n m).
  pose proof (norm_zero l n p Hl Hn ltac:(lia)) as NZ. fold (onorm l p n) in NZ.
  pose proof (norm_pos l n p Hl Hn ltac:(lia)) as NP. fold (onorm l p n) in NP.
  set (M := onorm l p n) in *.
  set (D := zfact (l + n - p) * zfact (l - n + p) * zfact (- l + n + p) / zfact (l + n + p + 1)).
  pose proof (zfact_pos (l + n - p)) as Z1. pose proof (zfact_pos (l - n + p)) as Z2. pose proof (zfact_pos (- l + n + p)) as Z3. pose proof (zfact_pos (l + n + p + 1)) as Z4.
  pose proof (zfact_pos l) as Zl. pose proof (zfact_pos n) as Zn. pose proof (zfact_pos p) as Zp.
  assert (DP : 0 < D) by (unfold D; repeat apply Rmult_lt_0_compat; try assumption; apply Rinv_0_lt_compat; assumption).
  assert (N1 : 0 < IZR (2 * n + 1)) by (apply IZR_lt; lia).
  assert (DM : D * (IZR (2 * n + 1) * (zfact n * zfact n)) * M = 1).
  { replace (n + p - l)%Z with (- l + n + p)%Z in NZ by lia. replace (l + p - n)%Z with (l - n + p)%Z in NZ by lia.
    unfold D. apply (Rmult_eq_reg_r (zfact (l + n + p + 1))); [|lra].
    transitivity (M * (zfact (l + n - p) * zfact (- l + n + p) * zfact (l - n + p) * (IZR (2 * n + 1) * (zfact n * zfact n)))); [field; lra|lra]. }
  assert (SQ : sqrt (zfact (l + 0) * zfact (l - 0) * zfact (n + 0) * zfact (n - 0) * zfact (p + 0) * zfact (p - 0)) = zfact l * zfact n * zfact p).
  { rewrite !Z.add_0_r, !Z.sub_0_r. replace (zfact l * zfact l * zfact n * zfact n * zfact p * zfact p) with ((zfact l * zfact n * zfact p) * (zfact l * zfact n * zfact p)) by ring.
    apply sqrt_square. apply Rlt_le. repeat apply Rmult_lt_0_compat; assumption. }
  assert (SM : sqrt (zfact (l + m) * zfact (l - m) * zfact (n + 0) * zfact (n - 0) * zfact (p + - m) * zfact (p - - m)) = zfact n * sqrt (weight l p m)).
  { rewrite Z.add_0_r, Z.sub_0_r. replace (p + - m)%Z with (p - m - 0)%Z by lia. replace (p - - m)%Z with (p + m + 0)%Z by lia.
    replace (zfact (l + m) * zfact (l - m) * zfact n * zfact n * zfact (p - m - 0) * zfact (p + m + 0)) with ((zfact n * zfact n) * weight l p m) by (unfold weight, rho; ring).
    rewrite sqrt_mult, sqrt_square; try (apply Rlt_le); try assumption; try reflexivity; try (apply Rmult_lt_0_compat; assumption). apply weight_pos. }
  change (- 0)%Z with 0%Z. rewrite SQ, SM.
  assert (PP : pm1 (l - n - 0) * pm1 (l - n - - m) = pm1 m).
  { replace (l - n - - m)%Z with ((l - n - 0) + m)%Z by lia. rewrite WignerProofs.pm1_add, <- Rmult_assoc, WignerProofs.pm1_sq. ring. }
  pose proof (sqrt_sqrt D (Rlt_le _ _ DP)) as SD.
  set (s := sqrt D) in *. set (w := sqrt (weight l p m)). set (a := osums l p n 0). set (b := osums l p n m).
  transitivity (pm1 (l - n - 0) * pm1 (l - n - - m) * (s * s) * (IZR (2 * n + 1) * (zfact n * zfact n)) * zfact l * zfact p * w * a * b); [ring|].
  rewrite PP, SD. replace (a * b / M) with (a * b * (D * (IZR (2 * n + 1) * (zfact n * zfact n)))); [ring|].
  apply (Rmult_eq_reg_r M); [|lra]. transitivity (a * b * (D * (IZR (2 * n + 1) * (zfact n * zfact n)) * M)); [ring|]. rewrite DM. field. lra.
Qed.

Lemma sin_cos_square t : sin t * sin t = 1 - cos t * cos t.
Proof. pose proof (sin2_cos2 t) as H. unfold Rsqr in H. lra. Qed.

(** The product of two associated functions, normalised. *)
Lemma associated_product l p m t : associated l m t * associated p m t = pr l p m (cos t).
Proof.
  unfold associated, pr. rewrite !dl_Derive_n.
  replace ((1 - cos t * cos t) ^ m) with (sin t ^ m * sin t ^ m) by (rewrite <- Rpow_mult_distr, sin_cos_square; reflexivity).
  assert (E : (-1) ^ m * (-1) ^ m = 1) by (rewrite <- Rpow_mult_distr; replace (-1 * -1) with 1 by ring; apply pow1).
  transitivity ((-1) ^ m * (-1) ^ m * (sin t ^ m * sin t ^ m * dl m l (cos t) * dl m p (cos t))); [ring|]. rewrite E. ring.
Qed.

Definition level (l m : nat) : R := (2 * INR l + 1) / (4 * PI) * (INR (fact (l - m)) / INR (fact (l + m))).

Lemma level_pos l m : 0 < level l m.
Proof.
  unfold level. pose proof PI_RGT_0. pose proof (pos_INR l). pose proof (INR_fact_lt_0 (l - m)). pose proof (INR_fact_lt_0 (l + m)).
  apply Rmult_lt_0_compat; apply Rdiv_lt_0_compat; lra.
Qed.

Lemma weight_nat l p m : (m <= l)%nat -> (l <= p)%nat ->
  weight (Z.of_nat l) (Z.of_nat p) (Z.of_nat m) = INR (fact (l + m)) * INR (fact (l - m)) * INR (fact (p + m)) * INR (fact (p - m)).
Proof.
  intros Hm Hl. unfold weight, rho, zfact. rewrite !Z.add_0_r, !Z.sub_0_r.
  replace (Z.to_nat (Z.of_nat l + Z.of_nat m)) with (l + m)%nat by lia. replace (Z.to_nat (Z.of_nat l - Z.of_nat m)) with (l - m)%nat by lia.
  replace (Z.to_nat (Z.of_nat p + Z.of_nat m)) with (p + m)%nat by lia. replace (Z.to_nat (Z.of_nat p - Z.of_nat m)) with (p - m)%nat by lia. reflexivity.
Qed.

Lemma level_product l p m t : (m <= l)%nat -> (l <= p)%nat ->
  sqrt (level l m) * associated l m t * (sqrt (level p m) * associated p m t) =
  sqrt (IZR ((2 * Z.of_nat l + 1) * (2 * Z.of_nat p + 1))) / (4 * PI) * (sqrt (weight (Z.of_nat l) (Z.of_nat p) (Z.of_nat m)) * ph l p (Z.of_nat m) (cos t)).
Proof.
  intros Hm Hl.
  transitivity (sqrt (level l m) * sqrt (level p m) * (associated l m t * associated p m t)); [ring|].
  rewrite associated_product, <- sqrt_mult by (apply Rlt_le, level_pos). unfold ph. rewrite Zabs2Nat.id, weight_nat by assumption.
  pose proof (INR_fact_lt_0 (l - m)) as A. pose proof (INR_fact_lt_0 (l + m)) as B. pose proof (INR_fact_lt_0 (p - m)) as C. pose proof (INR_fact_lt_0 (p + m)) as D.
  set (a := INR (fact (l - m))) in *. set (b := INR (fact (l + m))) in *. set (c := INR (fact (p - m))) in *. set (d := INR (fact (p + m))) in *.
  pose proof PI_RGT_0 as P. pose proof (pos_INR l) as L0. pose proof (pos_INR p) as P0.
  replace (IZR ((2 * Z.of_nat l + 1) * (2 * Z.of_nat p + 1))) with ((2 * INR l + 1) * (2 * INR p + 1)) by (rewrite mult_IZR, !plus_IZR, !mult_IZR, <- !INR_IZR_INZ; reflexivity).
  set (q := (2 * INR l + 1) * (2 * INR p + 1)). assert (Q : 0 < q) by (apply Rmult_lt_0_compat; lra).
  replace (level l m * level p m) with ((q * (b * a * d * c)) * ((/ (4 * PI * b * d)) * (/ (4 * PI * b * d)))) by (unfold level, q; fold a b c d; field; lra).
  assert (E0 : 0 < b * a * d * c) by (repeat apply Rmult_lt_0_compat; assumption).
  assert (E1 : 0 < / (4 * PI * b * d)) by (apply Rinv_0_lt_compat, Rmult_lt_0_compat; [apply Rmult_lt_0_compat|]; lra).
  rewrite sqrt_mult, sqrt_square, sqrt_mult; try lra; try (apply Rlt_le, Rmult_lt_0_compat; assumption).
  field. lra.
Qed.

Lemma harmonic_zero n Theta : Re (spherical_harmonic n 0 Theta 0) = sqrt ((2 * INR n + 1) / (4 * PI)) * legendre n (cos Theta).
Proof.
  unfold spherical_harmonic, associated. cbn [Derive_n pow]. rewrite Rmult_0_r, expi_0, Cmult_1_r. cbn [Re RtoC fst].
  rewrite Nat.sub_0_r, Nat.add_0_r. pose proof (INR_fact_neq_0 n). replace (INR (fact n) / INR (fact n)) with 1 by (field; assumption).
  rewrite !Rmult_1_r, !Rmult_1_l. reflexivity.
Qed.

Lemma real_product a b x : Cmult (Cmult (RtoC a) (expi x)) (Cconj (Cmult (RtoC b) (expi x))) = RtoC (a * b).
Proof.
  rewrite Cconj_mult, Cconj_R, <- expi_neg.
  transitivity (Cmult (RtoC (a * b)) (Cmult (expi x) (expi (- x)))); [rewrite RtoC_mult; ring|].
  rewrite <- expi_plus, Rplus_opp_r, expi_0. ring.
Qed.

Lemma pow_sign m : (-1) ^ m * (-1) ^ m = 1.
Proof. rewrite <- Rpow_mult_distr. replace (-1 * -1) with 1 by ring. apply pow1. Qed.

(** The product of two harmonics of one order depends on the colatitude only. *)
Lemma textbook_pair d L l p m t f : textbook d L -> (Z.abs m <= l)%Z -> (l <= p)%Z -> (p < Z.of_nat L)%Z ->
  Cmult (harmonic d l m t f) (Cconj (harmonic d p m t f)) =
  RtoC (sqrt (IZR ((2 * l + 1) * (2 * p + 1))) / (4 * PI) * (sqrt (weight l p (Z.abs m)) * ph (Z.to_nat l) (Z.to_nat p) (Z.abs m) (cos t))).
Proof.
  intros T Hm Hl Hp.
  destruct (T (Z.to_nat l) (Z.abs_nat m) t f ltac:(lia) ltac:(lia)) as [A1 A2]. destruct (T (Z.to_nat p) (Z.abs_nat m) t f ltac:(lia) ltac:(lia)) as [B1 B2].
  pose proof (level_product (Z.to_nat l) (Z.to_nat p) (Z.abs_nat m) t ltac:(lia) ltac:(lia)) as E.
  rewrite (Z2Nat.id l) in A1, A2, E by lia. rewrite (Z2Nat.id p) in B1, B2, E by lia. replace (Z.of_nat (Z.abs_nat m)) with (Z.abs m) in * by lia. rewrite <- E.
  unfold spherical_harmonic in *. fold (level (Z.to_nat l) (Z.abs_nat m)) in *. fold (level (Z.to_nat p) (Z.abs_nat m)) in *.
  destruct (Z_le_gt_dec 0 m) as [H|H].
  - replace (Z.abs m) with m in A1, B1 by lia. rewrite A1, B1. apply real_product.
  - replace (- Z.abs m)%Z with m in A2, B2 by lia. rewrite A2, B2.
    set (a := sqrt (level (Z.to_nat l) (Z.abs_nat m)) * associated (Z.to_nat l) (Z.abs_nat m) t).
    set (b := sqrt (level (Z.to_nat p) (Z.abs_nat m)) * associated (Z.to_nat p) (Z.abs_nat m) t).
    rewrite !Cconj_mult, !Cconj_R, Cconj_conj, <- expi_neg. set (s := (-1) ^ Z.abs_nat m).
    assert (S : s * s = 1) by apply pow_sign. set (x := INR (Z.abs_nat m) * f).
    transitivity (Cmult (RtoC (s * s * (a * b))) (Cmult (expi (- x)) (expi x))); [rewrite !RtoC_mult; ring|].
    rewrite <- expi_plus, Rplus_opp_l, expi_0, S. rewrite Cmult_1_r. f_equal. ring.
Qed.

Lemma pm1_Zabs m : pm1 (Z.abs m) = pm1 m.
Proof. unfold pm1. destruct (Z.abs_spec m) as [[_ ->]|[_ ->]]; rewrite ?Z.even_opp; reflexivity. Qed.

Lemma textbook_product d L : textbook d L -> product_formula d L.
Proof.
  intros T l p m t f Hm Hl Hp. rewrite (textbook_pair d L) by assumption. f_equal.
  rewrite (ph_expansion (Z.to_nat l) (Z.to_nat p) ltac:(lia) (Z.abs m) (cos t)) by lia. rewrite (Z2Nat.id l), (Z2Nat.id p) by lia.
  rewrite (rsum_ext (Z.to_nat (l + p - Z.abs (l - p) + 1)) _ (fun k =>
    let n := (p - l + Z.of_nat k)%Z in pm1 m * sqrt (weight l p (Z.abs m)) * (zfact l * zfact p * (osums l p n 0 * osums l p n (Z.abs m) / onorm l p n) * legendre (Z.to_nat n) (cos t)))).
  - cbv zeta. rewrite rsum_scal_l. unfold dsum.
    replace (Z.to_nat (l + p - Z.abs (l - p) + 1)) with (Z.to_nat (2 * l + 1)) by lia.
    change (INR (fact (Z.to_nat l))) with (zfact l). change (INR (fact (Z.to_nat p))) with (zfact p).
    set (W := rsum _ _). pose proof (WignerProofs.pm1_sq m) as Q.
    transitivity (pm1 m * pm1 m * (sqrt (IZR ((2 * l + 1) * (2 * p + 1))) / (4 * PI) * (sqrt (weight l p (Z.abs m)) * W))); [rewrite Q; ring|]. unfold Rdiv. ring.
  - intros k Hk. cbv zeta. replace (Z.abs (l - p)) with (p - l)%Z by lia. set (n := (p - l + Z.of_nat k)%Z).
    rewrite (racah_norm l n p (Z.abs m)) by (unfold n; lia). rewrite pm1_Zabs. ring.
Qed.

Lemma textbook_conjugate d L : textbook d L -> conjugate_orders d L.
Proof.
  intros T l m t f Hl Hm. destruct (T (Z.to_nat l) (Z.abs_nat m) t f ltac:(lia) ltac:(lia)) as [A B].
  rewrite !Z2Nat.id in A, B by lia. replace (Z.of_nat (Z.abs_nat m)) with (Z.abs m) in * by lia.
  assert (S : (-1) ^ Z.abs_nat m = (if Z.even m then 1 else -1)).
  { rewrite CapProofs.pm1_pow. replace (Z.of_nat (Z.abs_nat m)) with (Z.abs m) by lia. rewrite pm1_Zabs. reflexivity. }
  rewrite S in B. destruct (Z_le_gt_dec 0 m) as [H|H].
  - replace (Z.abs m) with m in A, B by lia. rewrite A, B. reflexivity.
  - replace (- m)%Z with (Z.abs m) by lia. replace (- Z.abs m)%Z with m in B by lia. rewrite A, B, Cconj_mult, Cconj_R, Cconj_conj.
    rewrite (Cmult_assoc (RtoC _) (RtoC _)), <- RtoC_mult. destruct (Z.even m); apply C_ext; cbn; ring.
Qed.

(** The harmonics of one degree have constant energy. *)
Lemma osums_zero l m : (Z.abs m <= l)%Z -> osums l l 0 m = / (zfact (l - m) * zfact (l + m)).
Proof.
  intros H. unfold osums, racah_sum. replace (Z.to_nat (l + 0 - l + 1)) with 1%nat by lia. cbn [rsum]. change (Z.of_nat 0) with 0%Z.
  replace (l + 0 - l - 0)%Z with 0%Z by lia. replace (l - m - 0)%Z with (l - m)%Z by lia. replace (l - 0 + m + 0)%Z with (l + m)%Z by lia.
  replace (l - l - 0 + 0)%Z with 0%Z by lia. replace (0 + 0 - 0)%Z with 0%Z by lia. rewrite !inv_fact_nonneg by lia.
  change (zfact 0) with 1. change (pm1 0) with 1. pose proof (zfact_pos (l - m)). pose proof (zfact_pos (l + m)). field. lra.
Qed.

Lemma textbook_degree d L : textbook d L -> degree_sums d L.
Proof.
  intros T l t f Hl. unfold zrange. rewrite map_map, clsum_map_seq. replace (Z.to_nat (l + 1 - - l)) with (Z.to_nat (2 * l + 1)) by lia.
  pose proof PI_RGT_0 as P.
  pose proof (pj_value (Z.to_nat l) (Z.to_nat l) ltac:(lia) 0 (cos t)) as V. cbv zeta in V. change (Z.of_nat 0) with 0%Z in V.
  rewrite legendre_0, Rmult_1_r, pj_at_1, Z2Nat.id, osums_zero in V by lia. rewrite Z.sub_0_r, Z.add_0_r in V.
  change (INR (fact (Z.to_nat l))) with (zfact l) in V. rewrite Rinv_r in V by (pose proof (zfact_pos l); apply Rgt_not_eq, Rmult_lt_0_compat; assumption).
  rewrite (csum_ext _ _ (fun k => RtoC (IZR (2 * l + 1) / (4 * PI) * (weight l l (Z.of_nat k - l) * osums l l 0 (Z.of_nat k - l) * ph (Z.to_nat l) (Z.to_nat l) (Z.of_nat k - l) (cos t))))).
  - rewrite csum_RtoC, rsum_scal_l. f_equal. unfold pj, osum in V. rewrite Z2Nat.id in V by lia. rewrite V. ring.
  - intros k Hk. replace (- l + Z.of_nat k)%Z with (Z.of_nat k - l)%Z by lia. set (m := (Z.of_nat k - l)%Z). assert (Hm : (Z.abs m <= l)%Z) by (unfold m; lia).
    rewrite (textbook_pair d L) by (assumption || lia). f_equal.
    assert (SQ : sqrt (IZR ((2 * l + 1) * (2 * l + 1))) = IZR (2 * l + 1)) by (rewrite mult_IZR; apply sqrt_square, IZR_le; lia).
    rewrite SQ, osums_zero by exact Hm. unfold Rdiv. rewrite !Rmult_assoc. do 2 f_equal.
    assert (EP : ph (Z.to_nat l) (Z.to_nat l) (Z.abs m) (cos t) = ph (Z.to_nat l) (Z.to_nat l) m (cos t)) by (unfold ph; replace (Z.abs_nat (Z.abs m)) with (Z.abs_nat m) by lia; reflexivity).
    rewrite EP, <- Rmult_assoc. f_equal.
    pose proof (zfact_pos (l - m)) as A. pose proof (zfact_pos (l + m)) as B.
    assert (WE : forall j, weight l l j = (zfact (l + j) * zfact (l - j)) * (zfact (l + j) * zfact (l - j))) by (intros j; unfold weight, rho; rewrite Z.add_0_r, Z.sub_0_r; ring).
    rewrite !WE, sqrt_square by (apply Rlt_le, Rmult_lt_0_compat; apply zfact_pos).
    replace (zfact (l + Z.abs m) * zfact (l - Z.abs m)) with (zfact (l + m) * zfact (l - m)).
    + field. lra.
    + destruct (Z.abs_spec m) as [[_ ->]|[_ ->]]; [reflexivity|]. replace (l + - m)%Z with (l - m)%Z by lia. replace (l - - m)%Z with (l + m)%Z by lia. ring.
Qed.

Lemma textbook_orthonormal d L : textbook d L -> orthonormal d (L * L).
Proof. intros T. apply product_orthonormal, textbook_product, T. Qed.
