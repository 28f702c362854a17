(** * Wigner's d-functions at pi/2 build the spherical harmonics. *)
From Coq Require Import List ZArith Arith Lia Bool Reals Lra.
From Coquelicot Require Import Coquelicot.
From Verif Require Import Base RSum CSum SpecWigner WignerProofs LatLon SpecLatLon LatLonIntegrals LatLonProofs SpecHarmonics LegendreProofs CapProofs ThreeJProofs AssocProofs SpecWignerD.
Import ListNotations.
Local Open Scope R_scope.

(** ** Binomial coefficients *)
Fixpoint cho (n k : nat) : R :=
  match n, k with
  | _, O => 1
  | O, S _ => 0
  | S n', S k' => cho n' k' + cho n' k
  end.

Lemma cho_0 n : cho n 0 = 1. Proof. destruct n; reflexivity. Qed.
Lemma cho_SS n k : cho (S n) (S k) = cho n k + cho n (S k). Proof. reflexivity. Qed.
Lemma cho_big n : forall k, (n < k)%nat -> cho n k = 0.
Proof.
  induction n as [|n IH]; intros [|k] H; try lia; [reflexivity|]. rewrite cho_SS, !IH by lia. ring.
Qed.
Lemma cho_nn n : cho n n = 1.
Proof. induction n as [|n IH]; [reflexivity|]. rewrite cho_SS, IH, cho_big by lia. ring. Qed.
Lemma cho_next n : forall k, (INR k + 1) * cho n (S k) = (INR n - INR k) * cho n k.
Proof.
  induction n as [|n IH]; intros [|k].
  - cbn. ring.
  - cbn. ring.
  - rewrite cho_SS, !cho_0. specialize (IH 0%nat). rewrite cho_0 in IH. change (INR 0) with 0 in *. rewrite S_INR. lra.
  - rewrite (cho_SS n (S k)), (cho_SS n k). pose proof (IH (S k)) as A. pose proof (IH k) as B. rewrite !S_INR in *. lra.
Qed.
Lemma cho_down n k : (INR (S n) - INR k) * cho (S n) k = INR (S n) * cho n k.
Proof.
  destruct k as [|k]; [rewrite !cho_0; change (INR 0) with 0; ring|].
  rewrite cho_SS. pose proof (cho_next n k) as A. rewrite !S_INR. lra.
Qed.
Lemma cho_fact n : forall k, (k <= n)%nat -> cho n k * (INR (fact k) * INR (fact (n - k))) = INR (fact n).
Proof.
  induction n as [|n IH]; intros [|k] H; try lia.
  - cbn. ring.
  - rewrite cho_0, Nat.sub_0_r. change (INR (fact 0)) with 1. ring.
  - pose proof (cho_next (S n) k) as N. pose proof (cho_down n k) as D.
    pose proof (IH k ltac:(lia)) as F. replace (S n - S k)%nat with (n - k)%nat by lia.
    rewrite !fact_simpl, !mult_INR, !S_INR in *.
    transitivity ((INR k + 1) * cho (S n) (S k) * (INR (fact k) * INR (fact (n - k)))); [ring|].
    rewrite N, D, <- F. ring.
Qed.

Lemma cho_inv A k : cho A k = zfact (Z.of_nat A) * (inv_fact (Z.of_nat k) * inv_fact (Z.of_nat A - Z.of_nat k)).
Proof.
  destruct (le_lt_dec k A) as [H|H].
  - rewrite !inv_fact_nonneg by lia. rewrite <- Nat2Z.inj_sub by assumption. unfold zfact. rewrite !Nat2Z.id.
    pose proof (cho_fact A k H) as E. pose proof (INR_fact_neq_0 k). pose proof (INR_fact_neq_0 (A - k)). rewrite <- E. field. split; assumption.
  - rewrite cho_big, (inv_fact_neg (Z.of_nat A - Z.of_nat k)) by lia. ring.
Qed.

(** ** The derivatives of a Legendre polynomial in powers of (1+x)/2 and (1-x)/2 *)
Definition hom (n : nat) (c : nat -> R) (x : R) : R :=
  rsum (S n) (fun b => c b * (((1 + x) / 2) ^ (n - b) * ((1 - x) / 2) ^ b)).

Lemma hom_ext n c d x : (forall b, (b <= n)%nat -> c b = d b) -> hom n c x = hom n d x.
Proof. intros H. apply rsum_ext. intros b Hb. rewrite H by lia. reflexivity. Qed.

Lemma hom_scal n a c x : hom n (fun b => a * c b) x = a * hom n c x.
Proof. unfold hom. rewrite <- rsum_scal_l. apply rsum_ext. intros. ring. Qed.

Lemma hom_one n c : hom n c 1 = c 0%nat.
Proof.
  unfold hom. rewrite rsum_S_l, rsum_zero.
  - replace ((1 + 1) / 2) with 1 by field. rewrite pow1. cbn [pow]. ring.
  - intros i _. replace ((1 - 1) / 2) with 0 by field. cbn [pow]. ring.
Qed.

Lemma hom_poly n c : poly (hom n c).
Proof.
  unfold hom. apply (poly_rsum _ (fun b x => _)). intros b.
  apply poly_mult; [apply poly_const|]. apply poly_mult; apply poly_pow.
  - apply (poly_ext (fun x => / 2 + / 2 * x)); [intros; field|]. apply poly_plus; [apply poly_const|]. apply poly_mult; [apply poly_const|apply poly_id].
  - apply (poly_ext (fun x => / 2 + - / 2 * x)); [intros; field|]. apply poly_plus; [apply poly_const|]. apply poly_mult; [apply poly_const|apply poly_id].
Qed.

Lemma mono_derive p b x : is_derive (fun x => ((1 + x) / 2) ^ p * ((1 - x) / 2) ^ b) x
  (/ 2 * (INR p * ((1 + x) / 2) ^ pred p * ((1 - x) / 2) ^ b - INR b * ((1 + x) / 2) ^ p * ((1 - x) / 2) ^ pred b)).
Proof. auto_derive; [exact I|]. unfold Rdiv, Rminus. set (u := (1 + x) * / 2). set (v := (1 + - x) * / 2). ring. Qed.

Lemma hom_derive n c x : is_derive (hom (S n) c) x
  (hom n (fun b => / 2 * (c b * (INR (S n) - INR b) - c (S b) * INR (S b))) x).
Proof.
  unfold hom at 1.
  apply (derive_eq _ _ (rsum (S (S n)) (fun b => c b * (/ 2 * (INR (S n - b) * ((1 + x) / 2) ^ pred (S n - b) * ((1 - x) / 2) ^ b - INR b * ((1 + x) / 2) ^ (S n - b) * ((1 - x) / 2) ^ pred b))))).
  { apply (derive_rsum _ (fun b x => _)). intros b. apply derive_scal, mono_derive. }
  rewrite (rsum_ext _ _ (fun b => / 2 * (c b * INR (S n - b)) * (((1 + x) / 2) ^ pred (S n - b) * ((1 - x) / 2) ^ b)
    - / 2 * (c b * INR b) * (((1 + x) / 2) ^ (S n - b) * ((1 - x) / 2) ^ pred b))) by (intros; ring).
  rewrite rsum_minus.
  set (f := fun b => / 2 * (c b * INR (S n - b)) * (((1 + x) / 2) ^ pred (S n - b) * ((1 - x) / 2) ^ b)).
  change (rsum (S (S n)) f) with (rsum (S n) f + f (S n)).
  rewrite (rsum_S_l (S n) (fun b => / 2 * (c b * INR b) * _)). unfold f at 2. rewrite Nat.sub_diag. change (INR 0) with 0.
  unfold hom.
  transitivity (rsum (S n) f - rsum (S n) (fun i => / 2 * (c (S i) * INR (S i)) * (((1 + x) / 2) ^ (S n - S i) * ((1 - x) / 2) ^ pred (S i)))).
  { unfold Rminus. ring. }
  rewrite <- rsum_minus. apply rsum_ext. intros b Hb. unfold f.
  replace (pred (S n - b)) with (n - b)%nat by lia. replace (S n - S b)%nat with (n - b)%nat by lia. cbn [pred].
  rewrite minus_INR by lia. ring.
Qed.

Lemma hom_uv n c x : c (S n) = 0 ->
  (1 - x * x) * hom n c x = hom (S (S n)) (fun b => match b with O => 0 | S b' => 4 * c b' end) x.
Proof.
  intros H. unfold hom. rewrite (rsum_S_l (S (S n))).
  change (rsum (S (S n)) (fun i => 4 * c i * (((1 + x) / 2) ^ (S (S n) - S i) * ((1 - x) / 2) ^ S i))) with
    (rsum (S n) (fun i => 4 * c i * (((1 + x) / 2) ^ (S (S n) - S i) * ((1 - x) / 2) ^ S i)) +
     4 * c (S n) * (((1 + x) / 2) ^ (S (S n) - S (S n)) * ((1 - x) / 2) ^ S (S n))).
  rewrite H, <- rsum_scal_l.
  replace (rsum (S n) (fun i => (1 - x * x) * (c i * (((1 + x) / 2) ^ (n - i) * ((1 - x) / 2) ^ i)))) with
    (rsum (S n) (fun i => 4 * c i * (((1 + x) / 2) ^ (S (S n) - S i) * ((1 - x) / 2) ^ S i))); [ring|].
  apply rsum_ext. intros b Hb. replace (S (S n) - S b)%nat with (S (n - b)) by lia. cbn [pow]. field.
Qed.

Definition square_terms (l b : nat) : R := (-1) ^ b * (cho l b * cho l b).

Lemma legendre_squares l x : legendre l x = hom l (square_terms l) x.
Proof.
  destruct l as [|l].
  { rewrite legendre_0. unfold hom, square_terms. cbn. ring. }
  enough (E : hom (S l) (square_terms (S l)) x - legendre (S l) x = 0) by lra.
  set (c := square_terms (S l)). set (c1 := fun b => / 2 * (c b * (INR (S l) - INR b) - c (S b) * INR (S b))).
  assert (N : forall b, (INR b + 1) * (INR b + 1) * c (S b) = - ((INR (S l) - INR b) * (INR (S l) - INR b) * c b)).
  { intros b. unfold c, square_terms. pose proof (cho_next (S l) b) as A. cbn [pow].
    transitivity (- ((-1) ^ b * (((INR b + 1) * cho (S l) (S b)) * ((INR b + 1) * cho (S l) (S b))))); [ring|]. rewrite A. ring. }
  apply (poly_unique (fun x => hom (S l) c x - legendre (S l) x) (fun x => hom l c1 x - dl 1 (S l) x) (INR (S l) * (INR (S l) + 1))).
  - apply (poly_ext (fun x => hom (S l) c x + (- 1) * dl 0 (S l) x)); [intros y; rewrite dl_0; ring|].
    apply poly_plus; [apply hom_poly|]. apply poly_mult; [apply poly_const|apply dl_poly].
  - intros y. apply @is_derive_minus; [apply hom_derive|]. apply (is_derive_ext (dl 0 (S l))); [intros; apply dl_0|apply dl_derive].
  - intros y.
    assert (C0 : c1 (S l) = 0).
    { unfold c1. unfold c at 2. unfold square_terms. rewrite (cho_big (S l) (S (S l))) by lia. ring. }
    assert (Q : forall x, hom (S (S l)) (fun b => match b with O => 0 | S b' => 4 * c1 b' end) x - (1 - x * x) * dl 1 (S l) x =
                          (1 - x * x) * (hom l c1 x - dl 1 (S l) x)) by (intros t; rewrite <- hom_uv by assumption; ring).
    apply (is_derive_ext _ _ _ _ Q).
    apply (derive_eq _ _ _ _ (derive_minus _ _ _ _ _ (hom_derive (S l) _ y) (s2_derive _ _ _ (dl_derive 1 (S l) y)))).
    pose proof (legendre_ode (S l) y) as O. rewrite dl_0 in O.
    replace ((1 - y * y) * dl 2 (S l) y - 2 * y * dl 1 (S l) y) with (- (INR (S l) * (INR (S l) + 1) * legendre (S l) y)) by lra.
    rewrite (hom_ext _ _ (fun b => - (INR (S l) * (INR (S l) + 1)) * c b)).
    { rewrite hom_scal. ring. }
    intros [|b] Hb.
    + unfold c1. pose proof (N 0%nat) as N0. rewrite !(S_INR (S l)). change (INR 0) with 0 in *. change (INR 1) with 1.
      replace (c 1%nat) with (- ((INR (S l) - 0) * (INR (S l) - 0) * c 0%nat)) by (rewrite <- N0; ring). field.
    + unfold c1. pose proof (N b) as N1. pose proof (N (S b)) as N2. rewrite !S_INR in *.
      transitivity (c b * (INR l + 1 - INR b) * (INR l + 1 - INR b) - c (S b) * (INR b + 1) * (INR l + 1 + 1 - (INR b + 1))
        - c (S b) * (INR l + 1 - (INR b + 1)) * (INR b + 1 + 1) + (INR b + 1 + 1) * (INR b + 1 + 1) * c (S (S b))); [field|].
      rewrite N2. replace (c b * (INR l + 1 - INR b) * (INR l + 1 - INR b)) with (- ((INR b + 1) * (INR b + 1) * c (S b))) by (rewrite N1; ring).
      ring.
  - cbv beta. rewrite hom_one, legendre_at_1. unfold c, square_terms. rewrite cho_0. cbn. ring.
Qed.

Definition order_terms (l m b : nat) : R := (-1) ^ b * (cho (l + m) (m + b) * cho (l - m) b).

Lemma dl_hom l m x : (m <= l)%nat ->
  dl m l x = INR (fact l) / (INR (fact (l - m)) * 2 ^ m) * hom (l - m) (order_terms l m) x.
Proof.
  intros H. revert x. induction m as [|m IH]; intros x.
  - rewrite dl_0, legendre_squares, Nat.sub_0_r. pose proof (INR_fact_neq_0 l).
    rewrite (hom_ext l (order_terms l 0) (square_terms l)).
    + cbn [pow]. field. assumption.
    + intros b _. unfold order_terms, square_terms. rewrite Nat.add_0_r, Nat.sub_0_r. reflexivity.
  - specialize (IH ltac:(lia)). pose proof (dl_derive m l x) as D.
    rewrite <- (is_derive_unique _ _ _ D). apply is_derive_unique.
    apply (is_derive_ext (fun y => INR (fact l) / (INR (fact (l - m)) * 2 ^ m) * hom (l - m) (order_terms l m) y)); [intros t; symmetry; apply IH|].
    set (n := (l - S m)%nat). replace (l - m)%nat with (S n) by (unfold n; lia).
    apply (derive_eq _ _ _ _ (derive_scal _ _ _ _ (hom_derive n (order_terms l m) x))).
    rewrite (hom_ext _ _ (fun b => (INR (S n) / 2) * order_terms l (S m) b)).
    + rewrite hom_scal. rewrite fact_simpl, mult_INR. cbn [pow]. pose proof (INR_fact_neq_0 n). pose proof (not_0_INR (S n) ltac:(lia)). assert (2 ^ m <> 0) by (apply pow_nonzero; lra).
      field. split; [|split]; assumption.
    + intros b Hb. unfold order_terms. replace (l - m)%nat with (S n) by (unfold n; lia). fold n.
      replace (l + S m)%nat with (S (l + m)) by lia. replace (S m + b)%nat with (S (m + b)) by lia. rewrite (cho_SS (l + m) (m + b)).
      replace (m + S b)%nat with (S (m + b)) by lia.
      pose proof (cho_next (S n) b) as A. pose proof (cho_down n b) as B. rewrite (S_INR b). cbn [pow].
      transitivity (/ 2 * (-1) ^ b * (((INR (S n) - INR b) * cho (S n) b) * cho (l + m) (m + b) + ((INR b + 1) * cho (S n) (S b)) * cho (l + m) (S (m + b)))); [field|].
      rewrite A, B. field.
Qed.

(** ** Powers of sums of complex numbers *)
Local Notation "x ^^ n" := (cpow_nat x n) (at level 30, right associativity).

Lemma cpow_mult x y n : (Cmult x y) ^^ n = Cmult (x ^^ n) (y ^^ n).
Proof. induction n as [|n IH]; cbn [cpow_nat]; [ring|]. rewrite IH. ring. Qed.
Lemma cpow_add x n k : x ^^ (n + k) = Cmult (x ^^ n) (x ^^ k).
Proof. induction n as [|n IH]; cbn [cpow_nat Nat.add]; [ring|]. rewrite IH. ring. Qed.
Lemma cpow_1 n : (RtoC 1) ^^ n = RtoC 1.
Proof. induction n as [|n IH]; cbn [cpow_nat]; [reflexivity|]. rewrite IH. ring. Qed.
Lemma cpow_R r n : (RtoC r) ^^ n = RtoC (r ^ n).
Proof. induction n as [|n IH]; cbn [cpow_nat pow]; [reflexivity|]. rewrite IH, RtoC_mult. reflexivity. Qed.
Lemma cpow_opp x n : (Copp x) ^^ n = Cmult (RtoC ((-1) ^ n)) (x ^^ n).
Proof. rewrite <- cpow_R, <- cpow_mult. f_equal. apply C_ext; cbn; ring. Qed.

Lemma binomial x y n : (Cplus x y) ^^ n = csum (S n) (fun i => Cmult (RtoC (cho n i)) (Cmult (x ^^ (n - i)) (y ^^ i))).
Proof.
  induction n as [|n IH]; [cbn; ring|].
  change ((Cplus x y) ^^ S n) with (Cmult (Cplus x y) ((Cplus x y) ^^ n)). rewrite IH.
  rewrite (csum_S_l (S n)).
  rewrite (csum_ext (S n) (fun i => Cmult (RtoC (cho (S n) (S i))) _)
    (fun i => Cplus (Cmult y (Cmult (RtoC (cho n i)) (Cmult (x ^^ (n - i)) (y ^^ i))))
                    (Cmult (RtoC (cho n (S i))) (Cmult (x ^^ (n - i)) (y ^^ S i))))).
  2: { intros i Hi. rewrite cho_SS, RtoC_plus. replace (S n - S i)%nat with (n - i)%nat by lia. cbn [cpow_nat]. ring. }
  rewrite csum_plus, csum_scal_l.
  set (Sm := csum (S n) (fun i => Cmult (RtoC (cho n i)) (Cmult (x ^^ (n - i)) (y ^^ i)))).
  enough (E : Cmult x Sm = Cplus (Cmult (RtoC (cho (S n) 0)) (Cmult (x ^^ (S n - 0)) (y ^^ 0)))
                                  (csum (S n) (fun i => Cmult (RtoC (cho n (S i))) (Cmult (x ^^ (n - i)) (y ^^ S i))))).
  { transitivity (Cplus (Cmult x Sm) (Cmult y Sm)); [ring|]. rewrite E. ring. }
  unfold Sm. rewrite csum_S_l. rewrite <- csum_scal_l || idtac.
  change (csum (S n) (fun i => Cmult (RtoC (cho n (S i))) (Cmult (x ^^ (n - i)) (y ^^ S i)))) with
    (Cplus (csum n (fun i => Cmult (RtoC (cho n (S i))) (Cmult (x ^^ (n - i)) (y ^^ S i)))) (Cmult (RtoC (cho n (S n))) (Cmult (x ^^ (n - n)) (y ^^ S n)))).
  rewrite (cho_big n (S n)) by lia.
  rewrite Cmult_plus_distr_l, <- csum_scal_l.
  rewrite (csum_ext n (fun i => Cmult x _) (fun i => Cmult (RtoC (cho n (S i))) (Cmult (x ^^ (n - i)) (y ^^ S i)))).
  2: { intros i Hi. replace (n - i)%nat with (S (n - S i)) by lia. cbn [cpow_nat]. ring. }
  rewrite !cho_0, !Nat.sub_0_r. cbn [cpow_nat]. ring.
Qed.

(** The coefficient of X^n in (a Y + b X)^A (c Y + d X)^B. *)
Definition coef (a b : C) (A : nat) (c d : C) (B n : nat) : C :=
  csum (S n) (fun i => Cmult (Cmult (RtoC (cho A (n - i))) (Cmult (a ^^ (A - (n - i))) (b ^^ (n - i))))
                             (Cmult (RtoC (cho B i)) (Cmult (c ^^ (B - i)) (d ^^ i)))).

Lemma triangle N (f g : nat -> C) :
  csum N (fun n => csum (S n) (fun i => Cmult (f (n - i)%nat) (g i))) = csum N (fun i => Cmult (csum (N - i) f) (g i)).
Proof.
  induction N as [|N IH]; [reflexivity|].
  change (csum (S N) (fun n => csum (S n) (fun i => Cmult (f (n - i)%nat) (g i)))) with
    (Cplus (csum N (fun n => csum (S n) (fun i => Cmult (f (n - i)%nat) (g i)))) (csum (S N) (fun i => Cmult (f (N - i)%nat) (g i)))).
  rewrite IH. change (csum (S N) (fun i => Cmult (csum (S N - i) f) (g i))) with
    (Cplus (csum N (fun i => Cmult (csum (S N - i) f) (g i))) (Cmult (csum (S N - N) f) (g N))).
  change (csum (S N) (fun i => Cmult (f (N - i)%nat) (g i))) with (Cplus (csum N (fun i => Cmult (f (N - i)%nat) (g i))) (Cmult (f (N - N)%nat) (g N))).
  rewrite (csum_ext N (fun i => Cmult (csum (S N - i) f) (g i)) (fun i => Cplus (Cmult (csum (N - i) f) (g i)) (Cmult (f (N - i)%nat) (g i)))).
  - rewrite csum_plus. replace (S N - N)%nat with 1%nat by lia. rewrite Nat.sub_diag. cbn [csum]. ring.
  - intros i Hi. replace (S N - i)%nat with (S (N - i)) by lia. cbn [csum]. ring.
Qed.

Lemma csum_more n k (f : nat -> C) : (forall i, (n <= i < n + k)%nat -> f i = RtoC 0) -> csum (n + k) f = csum n f.
Proof. intros H. rewrite csum_app, (csum_zero k); [ring|]. intros i Hi. apply H. lia. Qed.

Lemma cauchy A B (f g : nat -> C) : (forall i, (A < i)%nat -> f i = RtoC 0) -> (forall i, (B < i)%nat -> g i = RtoC 0) ->
  Cmult (csum (S A) f) (csum (S B) g) = csum (S (A + B)) (fun n => csum (S n) (fun i => Cmult (f (n - i)%nat) (g i))).
Proof.
  intros HA HB. rewrite triangle.
  rewrite <- (csum_scal_l (csum (S A) f)). replace (S (A + B)) with (S B + A)%nat by lia.
  rewrite (csum_more (S B) A). 
  - apply csum_ext. intros i Hi. f_equal. replace (S B + A - i)%nat with (S A + (B - i))%nat by lia. symmetry. apply csum_more. intros j Hj. apply HA. lia.
  - intros i Hi. rewrite HB by lia. ring.
Qed.

Lemma coef_sum a b A c d B X Y :
  Cmult ((Cplus (Cmult a Y) (Cmult b X)) ^^ A) ((Cplus (Cmult c Y) (Cmult d X)) ^^ B) =
  csum (S (A + B)) (fun n => Cmult (coef a b A c d B n) (Cmult (Y ^^ (A + B - n)) (X ^^ n))).
Proof.
  rewrite !binomial, cauchy.
  - apply csum_ext. intros n Hn. unfold coef. rewrite <- csum_scal_r. apply csum_ext. intros i Hi.
    destruct (le_lt_dec (n - i) A) as [H1|H1]; [|rewrite (cho_big A) by assumption; ring].
    destruct (le_lt_dec i B) as [H2|H2]; [|rewrite (cho_big B) by assumption; ring].
    rewrite !cpow_mult.
    replace (A + B - n)%nat with ((A - (n - i)) + (B - i))%nat by lia. replace (X ^^ n) with (X ^^ ((n - i) + i)) by (f_equal; lia).
    rewrite !cpow_add. ring.
  - intros i Hi. rewrite cho_big by assumption. ring.
  - intros i Hi. rewrite cho_big by assumption. ring.
Qed.

(** A polynomial that vanishes at all real points has no coefficients. *)
Lemma poly_zero n : forall c : nat -> C, (forall z : R, csum n (fun i => Cmult (c i) (RtoC (z ^ i))) = RtoC 0) -> forall i, (i < n)%nat -> c i = RtoC 0.
Proof.
  induction n as [|n IH]; intros c H i Hi; [lia|].
  assert (Z : forall j, (j < n)%nat -> c j = RtoC 0).
  { intros j Hj. assert (E : Cmult (c j) (RtoC (2 ^ j - 2 ^ n)) = RtoC 0).
    { apply (IH (fun j => Cmult (c j) (RtoC (2 ^ j - 2 ^ n)))); [|assumption]. intros z.
      pose proof (H (2 * z)) as H2. pose proof (H z) as H1.
      transitivity (Cminus (csum (S n) (fun i => Cmult (c i) (RtoC ((2 * z) ^ i)))) (Cmult (RtoC (2 ^ n)) (csum (S n) (fun i => Cmult (c i) (RtoC (z ^ i)))))); [|rewrite H1, H2; ring].
      rewrite <- csum_scal_l, <- csum_minus. cbn [csum].
      rewrite (Rpow_mult_distr 2 z n), RtoC_mult.
      match goal with |- _ = Cplus ?a ?b => replace b with (RtoC 0) by ring end. rewrite Cplus_0_r. apply csum_ext. intros k Hk.
      rewrite Rpow_mult_distr, RtoC_minus, RtoC_mult. ring. }
    assert (N : 2 ^ j - 2 ^ n <> 0) by (pose proof (Rlt_pow 2 j n ltac:(lra) Hj); lra).
    replace (c j) with (Cmult (Cmult (c j) (RtoC (2 ^ j - 2 ^ n))) (RtoC (/ (2 ^ j - 2 ^ n)))).
    - rewrite E. ring.
    - rewrite <- Cmult_assoc, <- RtoC_mult, Rinv_r by assumption. ring. }
  destruct (Nat.eq_dec i n) as [->|NE]; [|apply Z; lia].
  pose proof (H 1) as H1. cbn [csum] in H1. rewrite csum_zero in H1.
  - rewrite pow1 in H1. rewrite <- H1. ring.
  - intros j Hj. rewrite Z by assumption. ring.
Qed.

(** (1+z)^A (1-z)^B *)
Definition kr (A B n : nat) : R := rsum (S n) (fun i => cho A (n - i) * cho B i * (-1) ^ i).

Lemma coef_kr A B n : coef (RtoC 1) (RtoC 1) A (RtoC 1) (Copp (RtoC 1)) B n = RtoC (kr A B n).
Proof.
  unfold coef, kr. rewrite <- csum_RtoC. apply csum_ext. intros i Hi. rewrite cpow_opp, !cpow_1, !RtoC_mult. ring.
Qed.

Lemma composed e A B i : (i <= A + B)%nat ->
  csum (S (A + B)) (fun n => Cmult (RtoC (kr A B n * kr n (A + B - n) i)) (e ^^ n)) =
  coef (Cplus (RtoC 1) e) (Cminus e (RtoC 1)) A (Cminus (RtoC 1) e) (Copp (Cplus (RtoC 1) e)) B i.
Proof.
  intros Hi. set (T := (A + B)%nat) in *.
  enough (Q : forall j, (j < S T)%nat -> Cminus (csum (S T) (fun n => Cmult (RtoC (kr A B n * kr n (T - n) j)) (e ^^ n)))
     (coef (Cplus (RtoC 1) e) (Cminus e (RtoC 1)) A (Cminus (RtoC 1) e) (Copp (Cplus (RtoC 1) e)) B j) = RtoC 0).
  { specialize (Q i ltac:(lia)). match goal with |- ?a = ?b => replace a with (Cplus (Cminus a b) b) by ring end. rewrite Q. ring. }
  apply poly_zero. intros z. 
  rewrite (csum_ext (S T) _ (fun j => Cminus
     (csum (S T) (fun n => Cmult (Cmult (RtoC (kr A B n)) (e ^^ n)) (Cmult (RtoC (kr n (T - n) j)) (RtoC z ^^ j))))
     (Cmult (coef (Cplus (RtoC 1) e) (Cminus e (RtoC 1)) A (Cminus (RtoC 1) e) (Copp (Cplus (RtoC 1) e)) B j) (Cmult ((RtoC 1) ^^ (T - j)) (RtoC z ^^ j))))).
  2: { intros j Hj. rewrite <- cpow_R, cpow_1. set (cj := coef _ _ _ _ _ _ _). set (zj := RtoC z ^^ j).
       transitivity (Cminus (Cmult (csum (S T) (fun n => Cmult (RtoC (kr A B n * kr n (T - n) j)) (e ^^ n))) zj) (Cmult cj zj)); [ring|].
       rewrite <- csum_scal_r. apply (f_equal2 Cminus); [|ring].
       apply csum_ext. intros n Hn. rewrite RtoC_mult. ring. }
  rewrite csum_minus, csum_swap. unfold T at 4. rewrite <- coef_sum.
  rewrite (csum_ext (S T) _ (fun n => Cmult (RtoC (kr A B n)) (Cmult ((Cminus (RtoC 1) (RtoC z)) ^^ (T - n)) ((Cmult e (Cplus (RtoC 1) (RtoC z))) ^^ n)))).
  2: { intros n Hn. rewrite csum_scal_l.
       rewrite (csum_ext _ _ (fun j => Cmult (coef (RtoC 1) (RtoC 1) n (RtoC 1) (Copp (RtoC 1)) (T - n) j) (Cmult ((RtoC 1) ^^ (n + (T - n) - j)) (RtoC z ^^ j)))).
       - replace (S T) with (S (n + (T - n))) by lia. rewrite <- coef_sum, cpow_mult.
         replace (Cplus (Cmult (RtoC 1) (RtoC 1)) (Cmult (RtoC 1) (RtoC z))) with (Cplus (RtoC 1) (RtoC z)) by ring.
         replace (Cplus (Cmult (RtoC 1) (RtoC 1)) (Cmult (Copp (RtoC 1)) (RtoC z))) with (Cminus (RtoC 1) (RtoC z)) by ring. ring.
       - intros j Hj. rewrite coef_kr, cpow_1. ring. }
  rewrite (csum_ext (S T) _ (fun n => Cmult (coef (RtoC 1) (RtoC 1) A (RtoC 1) (Copp (RtoC 1)) B n) (Cmult ((Cminus (RtoC 1) (RtoC z)) ^^ (T - n)) ((Cmult e (Cplus (RtoC 1) (RtoC z))) ^^ n)))) by (intros; rewrite coef_kr; reflexivity).
  unfold T. rewrite <- coef_sum.
  match goal with |- Cminus (Cmult (?a ^^ A) (?b ^^ B)) (Cmult (?c ^^ A) (?d ^^ B)) = _ => replace c with a by ring; replace d with b by ring end.
  ring.
Qed.

(** ** The half angle *)
Lemma cho_sym n k : (k <= n)%nat -> cho n (n - k) = cho n k.
Proof.
  intros H. rewrite !cho_inv. rewrite Nat2Z.inj_sub by assumption.
  replace (Z.of_nat n - (Z.of_nat n - Z.of_nat k))%Z with (Z.of_nat k) by lia. ring.
Qed.

Lemma im_pow n : im ^^ n = expi (INR n * PI / 2).
Proof.
  replace im with (Cconj (Copp im)) by (apply C_ext; cbn; ring).
  replace (expi (INR n * PI / 2)) with (Cconj (expi (- (INR n * PI / 2)))) by (rewrite expi_neg, Cconj_conj; reflexivity).
  rewrite <- cpow_nat_expi. induction n as [|n IH]; cbn [cpow_nat]; [apply C_ext; cbn; ring|]. rewrite IH, Cconj_mult. reflexivity.
Qed.

Lemma expi_pow x n : (expi x) ^^ n = expi (INR n * x).
Proof.
  induction n as [|n IH]; cbn [cpow_nat]; [change (INR 0) with 0; rewrite Rmult_0_l, expi_0; reflexivity|].
  rewrite IH, S_INR, <- expi_plus. f_equal. ring.
Qed.

Lemma half_square t : (1 + cos t) / 2 = cos (t / 2) * cos (t / 2) /\ (1 - cos t) / 2 = sin (t / 2) * sin (t / 2) /\ cos (t / 2) * sin (t / 2) = sin t / 2.
Proof.
  pose proof (cos_2a (t / 2)) as A. pose proof (sin_2a (t / 2)) as B. pose proof (sin2_cos2 (t / 2)) as Q. unfold Rsqr in Q.
  replace (2 * (t / 2)) with t in A, B by field. lra.
Qed.

Lemma half_angle_coef t l m : (m <= l)%nat ->
  let e := Copp (expi t) in
  coef (Cplus (RtoC 1) e) (Cminus e (RtoC 1)) (l + m) (Cminus (RtoC 1) e) (Copp (Cplus (RtoC 1) e)) (l - m) l =
  Cmult (Cmult (RtoC ((-1) ^ (l + m) * 4 ^ l)) (Cmult (expi (INR l * t)) (im ^^ m)))
        (RtoC ((sin t / 2) ^ m * hom (l - m) (order_terms l m) (cos t))).
Proof.
  intros Hm e. destruct (half_square t) as (H1 & H2 & H3). set (c := cos (t / 2)) in *. set (s := sin (t / 2)) in *.
  pose (w := expi (t / 2)). assert (W : expi t = Cmult w w) by (unfold w; rewrite <- expi_plus; f_equal; field).
  assert (WV : w = Cplus (RtoC c) (Cmult im (RtoC s))) by (apply C_ext; cbn; unfold c, s; ring).
  assert (WC : Cmult w (Cminus (RtoC c) (Cmult im (RtoC s))) = RtoC 1).
  { rewrite WV. pose proof (sin2_cos2 (t / 2)) as Q. unfold Rsqr in Q. fold c s in Q. apply C_ext; cbn; [|ring]. transitivity (c * c + s * s); [ring|lra]. }
  assert (E1 : Cplus (RtoC 1) e = Cmult (Cmult (RtoC (-2)) w) (Cmult im (RtoC s))).
  { unfold e. rewrite W. rewrite <- WC at 1. rewrite WV. apply C_ext; cbn; ring. }
  assert (E2 : Cminus e (RtoC 1) = Cmult (Cmult (RtoC (-2)) w) (RtoC c)).
  { unfold e. rewrite W. rewrite <- WC. rewrite WV. apply C_ext; cbn; ring. }
  assert (E3 : Cminus (RtoC 1) e = Cmult (Cmult (RtoC 2) w) (RtoC c)).
  { transitivity (Copp (Cminus e (RtoC 1))); [ring|]. rewrite E2. apply C_ext; cbn; ring. }
  assert (E4 : Copp (Cplus (RtoC 1) e) = Cmult (Cmult (RtoC 2) w) (Cmult im (RtoC s))).
  { rewrite E1. apply C_ext; cbn; ring. }
  rewrite E4, E1, E2, E3. clear E1 E2 E3 E4 WC WV. clearbody w. unfold coef, hom.
  replace (S l) with (S (l - m) + m)%nat by lia. rewrite csum_more.
  2: { intros i Hi. rewrite (cho_big (l - m) i) by lia. ring. }
  rewrite <- rsum_scal_l, <- csum_RtoC, <- csum_scal_l. apply csum_ext. intros i Hi.
  rewrite !cpow_mult, !cpow_R.
  replace (cho (l + m) (l - i)) with (cho (l + m) (m + i)).
  2: { rewrite <- (cho_sym (l + m) (m + i)) by lia. f_equal. lia. }
  replace (l + m - (l - i))%nat with (m + i)%nat by lia.
  replace (Cmult (expi (INR l * t)) (im ^^ m)) with (Cmult (Cmult (w ^^ l) (w ^^ l)) (im ^^ m)).
  2: { rewrite <- expi_pow, W, cpow_mult. reflexivity. }
  unfold order_terms. rewrite H1, H2, <- H3. rewrite !Rpow_mult_distr.
  replace (l - i)%nat with (m + (l - m - i))%nat by lia.
  replace (w ^^ l) with (w ^^ (m + i + (l - m - i))) by (f_equal; lia).
  rewrite !cpow_add, !pow_add.
  assert (II : Cmult (im ^^ i) (im ^^ i) = RtoC ((-1) ^ i)).
  { rewrite <- cpow_mult, <- cpow_R. f_equal. apply C_ext; cbn; ring. }
  assert (P2 : (-2) ^ m * (-2) ^ i * ((-2) ^ m * (-2) ^ (l - m - i)) * (2 ^ (l - m - i) * 2 ^ i) = (-1) ^ l * (-1) ^ m * 4 ^ l).
  { rewrite <- !pow_add. replace (m + i + (m + (l - m - i)))%nat with (l + m)%nat by lia. replace (l - m - i + i)%nat with (l - m)%nat by lia.
    replace (-2) with ((-1) * 2) by ring. rewrite Rpow_mult_distr. replace (4 ^ l) with (2 ^ (l + m) * 2 ^ (l - m)).
    - ring.
    - rewrite <- pow_add. replace 4 with (2 * 2) by ring. rewrite Rpow_mult_distr, <- pow_add. f_equal. lia. }
  rewrite <- P2. 
  transitivity (Cmult (Cmult (im ^^ i) (im ^^ i)) (Cmult (im ^^ m) (Cmult (Cmult (Cmult (w ^^ m) (w ^^ i)) (Cmult (w ^^ m) (w ^^ (l - m - i)))) (Cmult (Cmult (w ^^ (l - m - i)) (w ^^ i)) 
    (RtoC (cho (l + m) (m + i) * cho (l - m) i * ((-2) ^ m * (-2) ^ i * ((-2) ^ m * (-2) ^ (l - m - i)) * (2 ^ (l - m - i) * 2 ^ i)) * (s ^ m * s ^ i * (c ^ m * c ^ (l - m - i)) * (c ^ (l - m - i) * s ^ i)))))))).
  - rewrite !RtoC_mult. ring.
  - rewrite II, !RtoC_mult. ring.
Qed.

(** ** Wigner's sums *)
Lemma widen (h : Z -> R) a N a' N' : (a' <= a)%Z -> (a + Z.of_nat N <= a' + Z.of_nat N')%Z ->
  (forall z, ~ (a <= z < a + Z.of_nat N)%Z -> h z = 0) ->
  rsum N' (fun i => h (a' + Z.of_nat i)%Z) = rsum N (fun i => h (a + Z.of_nat i)%Z).
Proof.
  intros Ha HN H. set (p := Z.to_nat (a - a')). set (q := (N' - p - N)%nat).
  replace N' with (p + (N + q))%nat by (unfold p, q; lia). rewrite !rsum_app.
  rewrite (rsum_zero p), (rsum_zero q).
  - rewrite Rplus_0_l, Rplus_0_r. apply rsum_ext. intros i Hi. f_equal. unfold p. lia.
  - intros i Hi. apply H. unfold p. lia.
  - intros i Hi. apply H. unfold p in Hi. lia.
Qed.

Lemma shifted (h : Z -> R) a N b M :
  (forall z, ~ (a <= z < a + Z.of_nat N)%Z -> h z = 0) -> (forall z, ~ (b <= z < b + Z.of_nat M)%Z -> h z = 0) ->
  rsum N (fun i => h (a + Z.of_nat i)%Z) = rsum M (fun i => h (b + Z.of_nat i)%Z).
Proof.
  intros HA HB. set (w := Z.min a b). set (W := (Z.to_nat (Z.max (a + Z.of_nat N) (b + Z.of_nat M) - w))).
  rewrite <- (widen h a N w W), <- (widen h b M w W); try reflexivity; try assumption; unfold W, w; lia.
Qed.

(** The terms of [kr] with inverse factorials. *)
Definition kt (A B n i : Z) : R := pm1 i * (inv_fact (n - i) * inv_fact (A - n + i) * inv_fact i * inv_fact (B - i)).

Lemma kt_out A B n i : (i < 0 \/ n < i \/ B < i \/ i < n - A)%Z -> kt A B n i = 0.
Proof.
  intros H. unfold kt. destruct H as [H|[H|[H|H]]];
    [rewrite (inv_fact_neg i)|rewrite (inv_fact_neg (n - i))|rewrite (inv_fact_neg (B - i))|rewrite (inv_fact_neg (A - n + i))]; try lia; ring.
Qed.

Lemma kr_kt A B n : kr A B n = zfact (Z.of_nat A) * zfact (Z.of_nat B) * rsum (S n) (fun i => kt (Z.of_nat A) (Z.of_nat B) (Z.of_nat n) (0 + Z.of_nat i)).
Proof.
  unfold kr. rewrite <- rsum_scal_l. apply rsum_ext. intros i Hi. unfold kt. rewrite !cho_inv, CapProofs.pm1_pow.
  rewrite Nat2Z.inj_sub by lia. rewrite Z.add_0_l.
  replace (Z.of_nat A - (Z.of_nat n - Z.of_nat i))%Z with (Z.of_nat A - Z.of_nat n + Z.of_nat i)%Z by lia. ring.
Qed.

Lemma quarter p q l : (p + q = 2 * l)%nat -> cos (PI / 2 / 2) ^ p * sin (PI / 2 / 2) ^ q = / 2 ^ l.
Proof.
  intros H. replace (PI / 2 / 2) with (PI / 4) by field. rewrite cos_PI4, sin_PI4, <- pow_add, H, pow_mult.
  rewrite <- pow_inv by lra. f_equal. pose proof (sqrt_sqrt 2 ltac:(lra)) as S. pose proof (sqrt_lt_R0 2 ltac:(lra)) as P.
  cbn [pow]. rewrite Rmult_1_r. unfold Rdiv. rewrite !Rmult_1_l, <- Rinv_mult, S. reflexivity.
Qed.

Lemma table_kr l n m : (n <= 2 * l)%nat -> (Z.abs m <= Z.of_nat l)%Z ->
  let A := Z.to_nat (Z.of_nat l + m) in let B := Z.to_nat (Z.of_nat l - m) in
  wigner_table (Z.of_nat l) (Z.of_nat n - Z.of_nat l) m =
  sqrt (INR (fact n) * INR (fact (2 * l - n)) * INR (fact A) * INR (fact B)) / (2 ^ l * (INR (fact A) * INR (fact B))) * kr A B n.
Proof.
  intros Hn Hm A B. unfold wigner_table, wigner_d. rewrite kr_kt.
  replace (Z.of_nat l + (Z.of_nat n - Z.of_nat l))%Z with (Z.of_nat n) by lia.
  replace (Z.of_nat l - (Z.of_nat n - Z.of_nat l))%Z with (Z.of_nat (2 * l - n)) by lia.
  replace (Z.of_nat l + m)%Z with (Z.of_nat A) by (unfold A; lia). replace (Z.of_nat l - m)%Z with (Z.of_nat B) by (unfold B; lia).
  set (k := (Z.of_nat n - Z.of_nat l - m)%Z).
  rewrite (rsum_ext (Z.to_nat (2 * Z.of_nat l + 1)) _ (fun i => / 2 ^ l * kt (Z.of_nat A) (Z.of_nat B) (Z.of_nat n) (k + Z.of_nat i))).
  - rewrite rsum_scal_l.
    rewrite (shifted (kt (Z.of_nat A) (Z.of_nat B) (Z.of_nat n)) k (Z.to_nat (2 * Z.of_nat l + 1)) 0 (S n)).
    + unfold zfact. rewrite !Nat2Z.id. pose proof (INR_fact_neq_0 A). pose proof (INR_fact_neq_0 B). assert (2 ^ l <> 0) by (apply pow_nonzero; lra).
      field. repeat split; assumption.
    + intros z Hz. apply kt_out. unfold k in Hz. unfold A, B. lia.
    + intros z Hz. apply kt_out. lia.
  - intros i Hi. unfold kt.
    replace (Z.of_nat n - (k + Z.of_nat i))%Z with (Z.of_nat A - Z.of_nat i)%Z by (unfold k, A; lia).
    replace (Z.of_nat A - Z.of_nat n + (k + Z.of_nat i))%Z with (Z.of_nat i) by (unfold k, A; lia).
    replace (Z.of_nat B - (k + Z.of_nat i))%Z with (Z.of_nat (2 * l - n) - Z.of_nat i)%Z by (unfold k, B; lia).
    destruct (Z_lt_dec (Z.of_nat A - Z.of_nat i) 0) as [N1|N1]; [rewrite (inv_fact_neg _ N1); ring|].
    destruct (Z_lt_dec (k + Z.of_nat i) 0) as [N2|N2]; [rewrite (inv_fact_neg _ N2); ring|].
    destruct (Z_lt_dec (Z.of_nat (2 * l - n) - Z.of_nat i) 0) as [N3|N3]; [rewrite (inv_fact_neg _ N3); ring|].
    rewrite (quarter _ _ l) by (unfold k, A, B in *; lia). ring.
Qed.

Lemma kr_swap A B n : kr B A n = (-1) ^ n * kr A B n.
Proof.
  unfold kr. rewrite rsum_rev, <- rsum_scal_l. apply rsum_ext. intros i Hi.
  replace (S n - 1 - i)%nat with (n - i)%nat by lia. replace (n - (n - i))%nat with i by lia.
  assert (E : (-1) ^ n * (-1) ^ i = (-1) ^ (n - i)).
  { replace ((-1) ^ n) with ((-1) ^ (n - i) * (-1) ^ i) by (rewrite <- pow_add; f_equal; lia). 
    assert (Q : (-1) ^ i * (-1) ^ i = 1) by (rewrite <- Rpow_mult_distr; replace (-1 * -1) with 1 by ring; apply pow1).
    rewrite Rmult_assoc, Q. ring. }
  rewrite <- E. ring.
Qed.

Lemma kr_dual l n : (n <= 2 * l)%nat ->
  INR (fact n) * INR (fact (2 * l - n)) * kr l l n = (-1) ^ (n + l) * (INR (fact l) * INR (fact l) * kr n (2 * l - n) l).
Proof.
  intros Hn. rewrite !kr_kt. unfold zfact. rewrite !Nat2Z.id.
  enough (E : rsum (S n) (fun i => kt (Z.of_nat l) (Z.of_nat l) (Z.of_nat n) (0 + Z.of_nat i)) =
              (-1) ^ (n + l) * rsum (S l) (fun i => kt (Z.of_nat n) (Z.of_nat (2 * l - n)) (Z.of_nat l) (0 + Z.of_nat i))) by (rewrite E; ring).
  set (k := (Z.of_nat n - Z.of_nat l)%Z).
  rewrite (shifted (kt (Z.of_nat l) (Z.of_nat l) (Z.of_nat n)) 0 (S n) k (S l)).
  - rewrite <- rsum_scal_l. apply rsum_ext. intros i Hi. unfold kt.
    replace (Z.of_nat n - (k + Z.of_nat i))%Z with (Z.of_nat l - (0 + Z.of_nat i))%Z by (unfold k; lia).
    replace (Z.of_nat l - Z.of_nat n + (k + Z.of_nat i))%Z with (0 + Z.of_nat i)%Z by (unfold k; lia).
    replace (Z.of_nat l - (k + Z.of_nat i))%Z with (Z.of_nat (2 * l - n) - (0 + Z.of_nat i))%Z by (unfold k; lia).
    replace (Z.of_nat n - Z.of_nat l + (0 + Z.of_nat i))%Z with (k + Z.of_nat i)%Z by (unfold k; lia).
    rewrite CapProofs.pm1_pow, Nat2Z.inj_add, WignerProofs.pm1_add. unfold k. rewrite !WignerProofs.pm1_add, WignerProofs.pm1_sub. change (pm1 0) with 1. ring.
  - intros z Hz. apply kt_out. lia.
  - intros z Hz. apply kt_out. unfold k in Hz. lia.
Qed.

(** The product of two values of the table. *)
Lemma table_product l n m : (n <= 2 * l)%nat -> (m <= l)%nat ->
  let M := sqrt (INR (fact (l + m)) * INR (fact (l - m))) in
  wigner_table (Z.of_nat l) (Z.of_nat n - Z.of_nat l) (Z.of_nat m) * wigner_table (Z.of_nat l) (Z.of_nat n - Z.of_nat l) 0 =
  (-1) ^ (n + l) * (INR (fact l) / (4 ^ l * M) * (kr (l + m) (l - m) n * kr n (l + m + (l - m) - n) l)).
Proof.
  intros Hn Hm M. rewrite !table_kr by lia. cbv zeta.
  replace (Z.to_nat (Z.of_nat l + Z.of_nat m)) with (l + m)%nat by lia. replace (Z.to_nat (Z.of_nat l - Z.of_nat m)) with (l - m)%nat by lia.
  replace (Z.to_nat (Z.of_nat l + 0)) with l by lia. replace (Z.to_nat (Z.of_nat l - 0)) with l by lia.
  pose proof (kr_dual l n Hn) as D. replace (l + m + (l - m) - n)%nat with (2 * l - n)%nat by lia.
  pose proof (INR_fact_lt_0 n) as F1. pose proof (INR_fact_lt_0 (2 * l - n)) as F2. pose proof (INR_fact_lt_0 l) as F3.
  pose proof (INR_fact_lt_0 (l + m)) as F4. pose proof (INR_fact_lt_0 (l - m)) as F5.
  set (f1 := INR (fact n)) in *. set (f2 := INR (fact (2 * l - n))) in *. set (f3 := INR (fact l)) in *. set (f4 := INR (fact (l + m))) in *. set (f5 := INR (fact (l - m))) in *.
  assert (P12 : 0 < f1 * f2) by (apply Rmult_lt_0_compat; assumption). assert (P45 : 0 < f4 * f5) by (apply Rmult_lt_0_compat; assumption).
  replace (f1 * f2 * f4 * f5) with ((f1 * f2) * (f4 * f5)) by ring. replace (f1 * f2 * f3 * f3) with ((f1 * f2) * (f3 * f3)) by ring.
  rewrite !sqrt_mult by (try apply Rlt_le; try assumption; apply Rmult_lt_0_compat; assumption). 
  rewrite <- (sqrt_mult f4 f5) by lra. rewrite <- (sqrt_mult f1 f2) by lra. rewrite <- (sqrt_mult f3 f3) by lra. fold M.
  rewrite (sqrt_square f3) by lra.
  pose proof (sqrt_sqrt (f1 * f2) (Rlt_le _ _ P12)) as S12. pose proof (sqrt_sqrt (f4 * f5) (Rlt_le _ _ P45)) as S45. fold M in S45.
  assert (MP : 0 < M) by (apply sqrt_lt_R0; assumption). set (s12 := sqrt (f1 * f2)) in *. clearbody s12 M.
  assert (P2 : 0 < 2 ^ l) by (apply pow_lt; lra).
  replace (4 ^ l) with (2 ^ l * 2 ^ l) by (rewrite <- Rpow_mult_distr; f_equal; ring).
  set (p := 2 ^ l) in *. set (k1 := kr (l + m) (l - m) n). set (k2 := kr l l n) in *. set (k3 := kr n (2 * l - n) l) in *.
  transitivity ((s12 * s12 * k2) * (M * k1) / (p * p * (f4 * f5) * f3)); [field; lra|].
  rewrite S12, D, <- S45. field. lra.
Qed.

Lemma table_mirror l n m : (n <= 2 * l)%nat -> (m <= l)%nat ->
  wigner_table (Z.of_nat l) (Z.of_nat n - Z.of_nat l) (- Z.of_nat m) * wigner_table (Z.of_nat l) (Z.of_nat n - Z.of_nat l) 0 =
  wigner_table (Z.of_nat l) (Z.of_nat n - Z.of_nat l) (Z.of_nat m) * wigner_table (Z.of_nat l) (Z.of_nat n - Z.of_nat l) 0.
Proof.
  intros Hn Hm. rewrite !table_kr by lia. cbv zeta.
  replace (Z.to_nat (Z.of_nat l + Z.of_nat m)) with (l + m)%nat by lia. replace (Z.to_nat (Z.of_nat l - Z.of_nat m)) with (l - m)%nat by lia.
  replace (Z.to_nat (Z.of_nat l + - Z.of_nat m)) with (l - m)%nat by lia. replace (Z.to_nat (Z.of_nat l - - Z.of_nat m)) with (l + m)%nat by lia.
  replace (Z.to_nat (Z.of_nat l + 0)) with l by lia. replace (Z.to_nat (Z.of_nat l - 0)) with l by lia.
  rewrite (kr_swap (l + m) (l - m)). pose proof (kr_swap l l n) as K.
  replace (INR (fact n) * INR (fact (2 * l - n)) * INR (fact (l - m)) * INR (fact (l + m))) with (INR (fact n) * INR (fact (2 * l - n)) * INR (fact (l + m)) * INR (fact (l - m))) by ring.
  replace (INR (fact (l - m)) * INR (fact (l + m))) with (INR (fact (l + m)) * INR (fact (l - m))) by ring.
  set (a := sqrt _ / _). set (b := sqrt _ / _). set (k := kr (l + m) (l - m) n).
  transitivity (a * k * (b * ((-1) ^ n * kr l l n))); [ring|]. rewrite <- K. reflexivity.
Qed.

Lemma zrange_csum (f : Z -> C) l : clsum (map f (zrange (- Z.of_nat l) (Z.of_nat l + 1))) = csum (S (l + l)) (fun n => f (Z.of_nat n - Z.of_nat l)%Z).
Proof.
  unfold zrange. rewrite map_map, clsum_map_seq. replace (Z.to_nat (Z.of_nat l + 1 - - Z.of_nat l)) with (S (l + l)) by lia.
  apply csum_ext. intros i Hi. f_equal. lia.
Qed.

(** The sum over the table. *)
Lemma table_sum l m t : (m <= l)%nat ->
  Cmult (expi (- (INR m * PI / 2)))
    (clsum (map (fun k => Cmult (RtoC (wigner_table (Z.of_nat l) k (Z.of_nat m) * wigner_table (Z.of_nat l) k 0)) (expi (IZR k * t))) (zrange (- Z.of_nat l) (Z.of_nat l + 1)))) =
  RtoC (sqrt (INR (fact (l - m)) / INR (fact (l + m))) * associated l m t).
Proof.
  intros Hm. rewrite zrange_csum. set (M := sqrt (INR (fact (l + m)) * INR (fact (l - m)))).
  rewrite (csum_ext _ _ (fun n => Cmult (Cmult (RtoC ((-1) ^ l * (INR (fact l) / (4 ^ l * M)))) (expi (- (INR l * t))))
     (Cmult (RtoC (kr (l + m) (l - m) n * kr n (l + m + (l - m) - n) l)) ((Copp (expi t)) ^^ n)))).
  2: { intros n Hn. rewrite (table_product l n m) by lia. fold M. rewrite cpow_opp, expi_pow, minus_IZR, <- !INR_IZR_INZ.
       replace ((INR n - INR l) * t) with (- (INR l * t) + INR n * t) by ring. rewrite expi_plus, pow_add, !RtoC_mult. ring. }
  rewrite csum_scal_l. replace (S (l + l)) with (S (l + m + (l - m))) by lia.
  rewrite composed by lia. rewrite half_angle_coef by assumption. rewrite im_pow.
  unfold associated. rewrite dl_Derive_n, (dl_hom l m) by assumption.
  set (h := hom (l - m) (order_terms l m) (cos t)).
  assert (X1 : Cmult (expi (- (INR m * PI / 2))) (expi (INR m * PI / 2)) = RtoC 1) by (rewrite <- expi_plus, Rplus_opp_l; apply expi_0).
  assert (X2 : Cmult (expi (- (INR l * t))) (expi (INR l * t)) = RtoC 1) by (rewrite <- expi_plus, Rplus_opp_l; apply expi_0).
  transitivity (Cmult (Cmult (Cmult (expi (- (INR m * PI / 2))) (expi (INR m * PI / 2))) (Cmult (expi (- (INR l * t))) (expi (INR l * t))))
    (RtoC ((-1) ^ l * (INR (fact l) / (4 ^ l * M)) * ((-1) ^ (l + m) * 4 ^ l) * ((sin t / 2) ^ m * h)))).
  { rewrite !RtoC_mult. ring. }
  rewrite X1, X2, !Cmult_1_l. f_equal.
  rewrite pow_add. assert (Q : (-1) ^ l * (-1) ^ l = 1) by (rewrite <- Rpow_mult_distr; replace (-1 * -1) with 1 by ring; apply pow1).
  pose proof (INR_fact_lt_0 l) as F3. pose proof (INR_fact_lt_0 (l + m)) as F4. pose proof (INR_fact_lt_0 (l - m)) as F5.
  set (f3 := INR (fact l)) in *. set (f4 := INR (fact (l + m))) in *. set (f5 := INR (fact (l - m))) in *.
  assert (P4 : 0 < 4 ^ l) by (apply pow_lt; lra). assert (P2 : 0 < 2 ^ m) by (apply pow_lt; lra).
  assert (MP : 0 < M) by (apply sqrt_lt_R0, Rmult_lt_0_compat; assumption).
  assert (E : sqrt (f5 / f4) = f5 / M).
  { unfold M. rewrite sqrt_mult, sqrt_div by lra. pose proof (sqrt_lt_R0 f4 F4). pose proof (sqrt_lt_R0 f5 F5). pose proof (sqrt_sqrt f5 ltac:(lra)) as S5.
    rewrite <- S5 at 2. field. lra. }
  rewrite E. replace ((sin t / 2) ^ m) with (sin t ^ m * / 2 ^ m) by (unfold Rdiv; rewrite Rpow_mult_distr, pow_inv by lra; reflexivity).
  transitivity ((-1) ^ l * (-1) ^ l * (-1) ^ m * f3 / M * sin t ^ m / 2 ^ m * h); [field; lra|]. rewrite Q. field. lra.
Qed.

Lemma table_textbook L : textbook wigner_table L.
Proof.
  intros l m t f Hl Hm.
  assert (N : forall x y, 0 <= x -> 0 <= y -> sqrt (x * y) = sqrt x * sqrt y) by (intros; apply sqrt_mult; assumption).
  assert (P : 0 <= (2 * INR l + 1) / (4 * PI)) by (pose proof (pos_INR l); pose proof PI_RGT_0; apply Rlt_le, Rdiv_lt_0_compat; lra).
  assert (Q : 0 <= INR (fact (l - m)) / INR (fact (l + m))) by (apply Rlt_le, Rdiv_lt_0_compat; apply INR_fact_lt_0).
  assert (Z : IZR (2 * Z.of_nat l + 1) = 2 * INR l + 1) by (rewrite plus_IZR, mult_IZR, <- INR_IZR_INZ; reflexivity).
  pose proof (table_sum l m t Hm) as S.
  unfold harmonic, spherical_harmonic. rewrite Z, N by assumption. rewrite <- INR_IZR_INZ.
  set (a := sqrt ((2 * INR l + 1) / (4 * PI))). set (b := sqrt (INR (fact (l - m)) / INR (fact (l + m)))) in *.
  set (G := clsum _) in S. split.
  - transitivity (Cmult (Cmult (RtoC a) (Cmult (expi (- (INR m * PI / 2))) G)) (expi (INR m * f))); [unfold G; ring|].
    rewrite S, <- RtoC_mult. f_equal. f_equal. ring.
  - rewrite opp_IZR, <- INR_IZR_INZ.
    replace (clsum _) with G.
    2: { unfold G. rewrite !zrange_csum. apply csum_ext. intros n Hn. rewrite table_mirror by lia. reflexivity. }
    rewrite Cconj_mult, Cconj_R, <- expi_neg. replace (- (- INR m * PI / 2)) with (INR m * PI + - (INR m * PI / 2)) by field.
    rewrite expi_plus. replace (- INR m * f) with (- (INR m * f)) by ring.
    assert (E : expi (INR m * PI) = RtoC ((-1) ^ m)).
    { rewrite <- expi_pow, <- cpow_R. f_equal. apply C_ext; cbn; [apply cos_PI|apply sin_PI]. }
    rewrite E.
    transitivity (Cmult (RtoC ((-1) ^ m)) (Cmult (Cmult (RtoC a) (Cmult (expi (- (INR m * PI / 2))) G)) (expi (- (INR m * f))))); [ring|].
    rewrite S, <- RtoC_mult. f_equal. f_equal. f_equal. ring.
Qed.
