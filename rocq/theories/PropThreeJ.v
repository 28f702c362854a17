(** * C68: the symbols computed by [_wigner3j] are the Wigner 3j symbols: they are
    orthogonal over orders and over degrees, give the integral of three Legendre
    polynomials, and expand products of spherical harmonics. *)
From Coq Require Import List ZArith Arith Lia Bool Reals Lra.
From Coquelicot Require Import Coquelicot.
From Verif Require Import Base ListLemmas RSum CSum Numpy SpecWigner WignerProofs Wigner LatLon SpecLatLon SpecHarmonics SpecLegendre ThreeJProofs TextbookProofs ThreeJOrtho LegendreTriple
  PropLatLon PropConcentration PropCap.
Import ListNotations.
Local Open Scope R_scope.

(** [w] holds the values the code computes. *)
Definition computed (w : Z -> Z -> Z -> Z -> Z -> Z -> R) : Prop :=
  forall l1 l2 l3 m1 m2 m3, wigner3j l1 l2 l3 m1 m2 m3 = Ok (w l1 l2 l3 m1 m2 m3).

Lemma computed_racah w l n p m u q : computed w -> selection l n p m u q -> w l n p m u q = racah l n p m u q.
Proof. intros H S. pose proof (H l n p m u q) as E. rewrite (wigner3j_racah _ _ _ _ _ _ S) in E. injection E as <-. reflexivity. Qed.
Lemma computed_zero w l n p m u q : computed w -> ~ selection l n p m u q -> w l n p m u q = 0.
Proof. intros H S. pose proof (H l n p m u q) as E. rewrite (wigner3j_zero _ _ _ _ _ _ S) in E. injection E as <-. reflexivity. Qed.

Lemma computed_order w l n p m u : computed w -> (Z.abs (l - n) <= p <= l + n)%Z -> (Z.abs u <= n)%Z -> (Z.abs m <= l)%Z ->
  w l n p m u (- m - u)%Z = racah l n p m u (- m - u).
Proof.
  intros H T Hu Hm. destruct (Z_le_gt_dec (Z.abs (m + u)) p) as [A|A].
  - apply computed_racah; [exact H|]. unfold selection. lia.
  - rewrite racah_outside by lia. apply computed_zero; [exact H|]. unfold selection. lia.
Qed.

Lemma rlsum_zrange f a b : rlsum (map f (zrange a b)) = rsum (Z.to_nat (b - a)) (fun k => f (a + Z.of_nat k)%Z).
Proof. unfold zrange. rewrite map_map, rlsum_map_seq. reflexivity. Qed.

(** Symbols with the same outer degrees and the same middle order are orthogonal
    over the other orders, with norm 1/(2n+1). *)
Theorem C68_orders : forall w, computed w -> forall l n n' p u, (0 <= l)%Z -> (0 <= n)%Z -> (0 <= n')%Z ->
  (Z.abs (l - n) <= p <= l + n)%Z -> (Z.abs u <= n)%Z ->
  rlsum (map (fun m => w l n p m u (- m - u)%Z * w l n' p m u (- m - u)%Z) (zrange (- l) (l + 1))) = if (n =? n')%Z then / IZR (2 * n + 1) else 0.
Proof.
  intros w H l n n' p u Hl Hn Hn' T Hu. rewrite rlsum_zrange. replace (Z.to_nat (l + 1 - - l)) with (Z.to_nat (2 * l + 1)) by lia.
  destruct (Z_le_gt_dec (Z.abs u) n') as [U|U]; [destruct (Z_le_gt_dec (Z.abs (l - n')) p) as [A|A]; [destruct (Z_le_gt_dec p (l + n')) as [B|B]|]|].
  - rewrite <- (racah_orders l n n' p u Hl Hn Hn' T Hu). unfold osum. apply rsum_ext. intros i Hi.
    replace (- l + Z.of_nat i)%Z with (Z.of_nat i - l)%Z by lia. rewrite (computed_order w l n) by (assumption || lia). rewrite (computed_order w l n') by (assumption || lia). reflexivity.
  - rewrite (proj2 (Z.eqb_neq n n')) by lia. apply rsum_zero. intros i Hi. rewrite (computed_zero w l n') by (try exact H; unfold selection; lia). ring.
  - rewrite (proj2 (Z.eqb_neq n n')) by lia. apply rsum_zero. intros i Hi. rewrite (computed_zero w l n') by (try exact H; unfold selection; lia). ring.
  - rewrite (proj2 (Z.eqb_neq n n')) by lia. apply rsum_zero. intros i Hi. rewrite (computed_zero w l n') by (try exact H; unfold selection; lia). ring.
Qed.
Print Assumptions C68_orders.

(** Symbols with the same outer degrees and the same middle order are orthonormal
    over the middle degree with weight 2n+1. *)
Theorem C68_degrees : forall w, computed w -> forall l p u m m', (Z.abs m <= l)%Z -> (Z.abs m' <= l)%Z ->
  (Z.abs (m + u) <= p)%Z -> (Z.abs (m' + u) <= p)%Z ->
  rlsum (map (fun n => IZR (2 * n + 1) * (w l n p m u (- m - u)%Z * w l n p m' u (- m' - u)%Z)) (zrange (Z.abs (l - p)) (l + p + 1))) =
  if (m =? m')%Z then 1 else 0.
Proof.
  intros w H l p u m m' Hm Hm' Hu Hu'. rewrite rlsum_zrange.
  rewrite <- (racah_degrees l p u ltac:(lia) ltac:(lia) ltac:(lia) m m' Hm Hm' Hu Hu').
  set (nlo := Z.max (Z.abs (l - p)) (Z.abs u)). set (K := Z.to_nat (l + p - nlo + 1)). set (A := Z.to_nat (nlo - Z.abs (l - p))).
  replace (Z.to_nat (l + p + 1 - Z.abs (l - p))) with (A + K)%nat by (unfold A, K, nlo; lia). rewrite rsum_app, (rsum_zero A), Rplus_0_l.
  - apply rsum_ext. intros k Hk. cbv zeta. replace (Z.abs (l - p) + Z.of_nat (A + k))%Z with (nlo + Z.of_nat k)%Z by (unfold A, nlo; lia).
    rewrite (computed_order w l _ p m) by (try exact H; unfold K, nlo in *; lia). rewrite (computed_order w l _ p m') by (try exact H; unfold K, nlo in *; lia). reflexivity.
  - intros k Hk. rewrite (computed_zero w l _ p m u) by (try exact H; unfold selection, A, nlo in *; lia). ring.
Qed.
Print Assumptions C68_degrees.

(** The integral of three Legendre polynomials is twice the square of the symbol
    with orders zero; inside and outside the triangle condition. *)
Theorem C68_legendre : forall w, computed w -> forall l n p,
  is_RInt (fun t => legendre l (cos t) * legendre n (cos t) * legendre p (cos t) * sin t) 0 PI
    (2 * (w (Z.of_nat l) (Z.of_nat n) (Z.of_nat p) 0%Z 0%Z 0%Z * w (Z.of_nat l) (Z.of_nat n) (Z.of_nat p) 0%Z 0%Z 0%Z)).
Proof.
  intros w H l n p. eapply LatLonIntegrals.is_RInt_val; [|exact (triple l n p)].
  destruct (_ && _) eqn:B.
  - apply andb_true_iff in B. rewrite Nat.leb_le, Z.leb_le in B. rewrite (computed_racah w) by (try exact H; unfold selection; lia). reflexivity.
  - rewrite (computed_zero w); [ring|exact H|]. apply andb_false_iff in B. rewrite Nat.leb_gt, Z.leb_gt in B. unfold selection. lia.
Qed.
Print Assumptions C68_legendre.

(** The product of a harmonic and the conjugate of another of the same order is a
    sum of Legendre polynomials whose coefficients are the two symbols that
    [_dm_matrix_helper] multiplies. *)
Theorem C68_product : forall w d L l p m theta phi, computed w -> textbook d L ->
  (Z.abs m <= l)%Z -> (l <= p)%Z -> (p < Z.of_nat L)%Z ->
  Cmult (harmonic d l m theta phi) (Cconj (harmonic d p m theta phi)) =
  RtoC ((if Z.even m then 1 else -1) * sqrt (IZR ((2 * l + 1) * (2 * p + 1))) / (4 * PI) *
    rlsum (map (fun n => IZR (2 * n + 1) * w l n p 0%Z 0%Z 0%Z * w l n p (Z.abs m) 0%Z (- Z.abs m)%Z * legendre (Z.to_nat n) (cos theta))
      (zrange (p - l) (l + p + 1)))).
Proof.
  intros w d L l p m theta phi H T Hm Hl Hp. rewrite (textbook_product d L T l p m theta phi Hm Hl Hp). unfold pm1. f_equal. f_equal.
  rewrite rlsum_zrange. replace (Z.to_nat (l + p + 1 - (p - l))) with (Z.to_nat (l + p - Z.abs (l - p) + 1)) by lia. apply rsum_ext. intros k Hk. cbv zeta.
  replace (Z.abs (l - p)) with (p - l)%Z by lia. rewrite (computed_racah w l _ p 0) by (try exact H; unfold selection; lia). rewrite (computed_racah w l _ p (Z.abs m)) by (try exact H; unfold selection; lia). reflexivity.
Qed.
Print Assumptions C68_product.

(** ** Cases *)
Definition code3j (l1 l2 l3 m1 m2 m3 : Z) : R := match wigner3j l1 l2 l3 m1 m2 m3 with Ok x => x | Err _ => 0 end.

Example C68_computed : computed code3j.
Proof. intros l1 l2 l3 m1 m2 m3. unfold code3j. destruct (wigner3j_total l1 l2 l3 m1 m2 m3) as (x & E). rewrite E. reflexivity. Qed.

(** Orders of (1 2 1): (1/30, 4/30, 1/30) add up to 1/5. *)
Example C68_case : code3j 1 2 1 1 0 (-1) = sqrt (1 / 30) /\ code3j 1 2 1 0 0 0 = 2 * sqrt (1 / 30) /\
  rlsum (map (fun m => code3j 1 2 1 m 0 (- m - 0) * code3j 1 2 1 m 0 (- m - 0)) [-1; 0; 1]%Z) = 1 / 5.
Proof.
  split; [|split].
  - rewrite (computed_racah _ _ _ _ _ _ _ C68_computed) by (unfold selection; lia). apply CapCases.r121'.
  - rewrite (computed_racah _ _ _ _ _ _ _ C68_computed) by (unfold selection; lia). apply CapCases.r121.
  - pose proof (C68_orders code3j C68_computed 1 2 2 1 0 ltac:(lia) ltac:(lia) ltac:(lia) ltac:(lia) ltac:(lia)) as E.
    change (zrange (- (1)) (1 + 1)) with [-1; 0; 1]%Z in E. rewrite E. cbn. field.
Qed.

(** The harmonics of band limit 2 are those of the textbooks. *)
Example C68_product_case : textbook LatLonCases.d2 2.
Proof. exact ConcentrationCases.textbook2. Qed.
