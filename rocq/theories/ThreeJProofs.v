(** * Ladder relations and orthogonality of Racah's sums. *)
From Coq Require Import List ZArith Arith Lia Bool Reals Lra.
From Coquelicot Require Import Coquelicot.
From Verif Require Import Base RSum CSum Numpy OrthoProofs SpecWigner WignerProofs.
Import ListNotations.
Local Open Scope R_scope.

Lemma zfact_step k : (0 < k)%Z -> zfact k = IZR k * zfact (k - 1).
Proof.
  intros H. unfold zfact. replace (Z.to_nat k) with (S (Z.to_nat (k - 1))) by lia.
  rewrite fact_simpl, mult_INR. f_equal. rewrite INR_IZR_INZ. f_equal. lia.
Qed.

Lemma inv_fact_step k : IZR k * inv_fact k = inv_fact (k - 1).
Proof.
  destruct (Z.lt_trichotomy k 0) as [H|[->|H]].
  - rewrite !inv_fact_neg by lia. ring.
  - rewrite (inv_fact_neg (0 - 1)) by lia. ring.
  - rewrite !inv_fact_nonneg by lia. rewrite (zfact_step k H). pose proof (zfact_pos (k - 1)).
    assert (IZR k <> 0) by (apply not_0_IZR; lia). field. split; [lra|assumption].
Qed.

Lemma pm1_succ k : pm1 (Z.succ k) = - pm1 k.
Proof. unfold pm1. rewrite Z.even_succ, <- Z.negb_even. destruct (Z.even k); cbn; lra. Qed.

Lemma alternating n (G : Z -> R) :
  rsum n (fun k => pm1 (Z.of_nat k) * (G (Z.of_nat k) + G (Z.of_nat k + 1)%Z)) = G 0%Z - pm1 (Z.of_nat n) * G (Z.of_nat n).
Proof.
  induction n as [|n IH]; [cbn; unfold pm1; cbn; ring|].
  cbn [rsum]. rewrite IH, Nat2Z.inj_succ, pm1_succ. unfold Z.succ. ring.
Qed.

Section ThreeJ.
  Variables l n p : Z.

  Definition term (m u t : Z) : R :=
    inv_fact t * inv_fact (l + n - p - t) * inv_fact (l - m - t) * inv_fact (n + u - t) * inv_fact (p - n + m + t) * inv_fact (p - l - u + t).

  Notation S := (racah_sum l n p).
  Let K := Z.to_nat (l + n - p + 1).

  Lemma S_term m u : S m u = rsum K (fun k => pm1 (Z.of_nat k) * term m u (Z.of_nat k)).
  Proof. reflexivity. Qed.

  Lemma ladder_up m u : IZR (l - m + 1) * S (m - 1)%Z u + IZR (n - u + 1) * S m (u - 1)%Z = IZR (p + m + u) * S m u.
  Proof.
    set (G := fun t => inv_fact (t - 1) * inv_fact (l + n - p - t) * inv_fact (l - m + 1 - t) * inv_fact (n + u - t) * inv_fact (p - n + m - 1 + t) * inv_fact (p - l - u + t)).
    pose proof (alternating K G) as T.
    assert (G0 : G 0%Z = 0) by (unfold G; rewrite (inv_fact_neg (0 - 1)) by lia; ring).
    assert (GK : G (Z.of_nat K) = 0).
    { unfold G. destruct (Z_le_gt_dec 0 (l + n - p)).
      - rewrite (inv_fact_neg (l + n - p - Z.of_nat K)) by (unfold K; lia). ring.
      - replace (Z.of_nat K) with 0%Z by (unfold K; lia). rewrite (inv_fact_neg (0 - 1)) by lia. ring. }
    rewrite G0, GK in T.
    enough (E : IZR (l - m + 1) * S (m - 1)%Z u + IZR (n - u + 1) * S m (u - 1)%Z - IZR (p + m + u) * S m u =
      rsum K (fun k => pm1 (Z.of_nat k) * (G (Z.of_nat k) + G (Z.of_nat k + 1)%Z))) by (rewrite T in E; lra).
    rewrite !S_term, <- !rsum_scal_l, <- rsum_plus, <- rsum_minus. apply rsum_ext. intros k _.
    set (t := Z.of_nat k).
    enough (E : IZR (l - m + 1) * term (m - 1) u t + IZR (n - u + 1) * term m (u - 1) t - IZR (p + m + u) * term m u t = G t + G (t + 1)%Z) by (rewrite <- E; ring).
    assert (A1 : IZR (l - m + 1 - t) * term (m - 1) u t = IZR (p - n + m + t) * term m u t).
    { unfold term. replace (l - (m - 1) - t)%Z with (l - m + 1 - t)%Z by lia. replace (p - n + (m - 1) + t)%Z with (p - n + m + t - 1)%Z by lia.
      rewrite <- (inv_fact_step (p - n + m + t)). replace (l - m - t)%Z with (l - m + 1 - t - 1)%Z by lia. rewrite <- (inv_fact_step (l - m + 1 - t)). ring. }
    assert (A2 : IZR (p - l - u + 1 + t) * term m (u - 1) t = IZR (n + u - t) * term m u t).
    { unfold term. replace (p - l - (u - 1) + t)%Z with (p - l - u + 1 + t)%Z by lia. replace (n + (u - 1) - t)%Z with (n + u - t - 1)%Z by lia.
      rewrite <- (inv_fact_step (n + u - t)). replace (p - l - u + t)%Z with (p - l - u + 1 + t - 1)%Z by lia. rewrite <- (inv_fact_step (p - l - u + 1 + t)). ring. }
    assert (B1 : IZR t * term (m - 1) u t = G t).
    { unfold term, G. replace (l - (m - 1) - t)%Z with (l - m + 1 - t)%Z by lia. replace (p - n + (m - 1) + t)%Z with (p - n + m - 1 + t)%Z by lia. rewrite <- (inv_fact_step t). ring. }
    assert (B2 : IZR (l + n - p - t) * term m (u - 1) t = G (t + 1)%Z).
    { unfold term, G. replace (t + 1 - 1)%Z with t by lia. replace (l + n - p - (t + 1))%Z with (l + n - p - t - 1)%Z by lia. rewrite <- (inv_fact_step (l + n - p - t)).
      replace (l - m + 1 - (t + 1))%Z with (l - m - t)%Z by lia. replace (n + u - (t + 1))%Z with (n + (u - 1) - t)%Z by lia.
      replace (p - n + m - 1 + (t + 1))%Z with (p - n + m + t)%Z by lia. replace (p - l - u + (t + 1))%Z with (p - l - (u - 1) + t)%Z by lia. ring. }
    replace (IZR (l - m + 1)) with (IZR (l - m + 1 - t) + IZR t) by (rewrite <- plus_IZR; f_equal; lia).
    replace (IZR (n - u + 1)) with (IZR (p - l - u + 1 + t) + IZR (l + n - p - t)) by (rewrite <- plus_IZR; f_equal; lia).
    replace (IZR (p + m + u)) with (IZR (p - n + m + t) + IZR (n + u - t)) by (rewrite <- plus_IZR; f_equal; lia).
    lra.
  Qed.

  Lemma ladder_down m u : IZR (l + m + 1) * S (m + 1)%Z u + IZR (n + u + 1) * S m (u + 1)%Z = IZR (p - m - u) * S m u.
  Proof.
    set (G := fun t => inv_fact (t - 1) * inv_fact (l + n - p - t) * inv_fact (l - m - t) * inv_fact (n + u + 1 - t) * inv_fact (p - n + m + t) * inv_fact (p - l - u - 1 + t)).
    pose proof (alternating K G) as T.
    assert (G0 : G 0%Z = 0) by (unfold G; rewrite (inv_fact_neg (0 - 1)) by lia; ring).
    assert (GK : G (Z.of_nat K) = 0).
    { unfold G. destruct (Z_le_gt_dec 0 (l + n - p)).
      - rewrite (inv_fact_neg (l + n - p - Z.of_nat K)) by (unfold K; lia). ring.
      - replace (Z.of_nat K) with 0%Z by (unfold K; lia). rewrite (inv_fact_neg (0 - 1)) by lia. ring. }
    rewrite G0, GK in T.
    enough (E : IZR (l + m + 1) * S (m + 1)%Z u + IZR (n + u + 1) * S m (u + 1)%Z - IZR (p - m - u) * S m u =
      rsum K (fun k => pm1 (Z.of_nat k) * (G (Z.of_nat k) + G (Z.of_nat k + 1)%Z))) by (rewrite T in E; lra).
    rewrite !S_term, <- !rsum_scal_l, <- rsum_plus, <- rsum_minus. apply rsum_ext. intros k _.
    set (t := Z.of_nat k).
    enough (E : IZR (l + m + 1) * term (m + 1) u t + IZR (n + u + 1) * term m (u + 1) t - IZR (p - m - u) * term m u t = G t + G (t + 1)%Z) by (rewrite <- E; ring).
    assert (A1 : IZR (p - n + m + 1 + t) * term (m + 1) u t = IZR (l - m - t) * term m u t).
    { unfold term. replace (l - (m + 1) - t)%Z with (l - m - t - 1)%Z by lia. replace (p - n + (m + 1) + t)%Z with (p - n + m + 1 + t)%Z by lia.
      rewrite <- (inv_fact_step (l - m - t)). replace (p - n + m + t)%Z with (p - n + m + 1 + t - 1)%Z by lia. rewrite <- (inv_fact_step (p - n + m + 1 + t)). ring. }
    assert (A2 : IZR (n + u + 1 - t) * term m (u + 1) t = IZR (p - l - u + t) * term m u t).
    { unfold term. replace (p - l - (u + 1) + t)%Z with (p - l - u + t - 1)%Z by lia. replace (n + (u + 1) - t)%Z with (n + u + 1 - t)%Z by lia.
      rewrite <- (inv_fact_step (p - l - u + t)). replace (n + u - t)%Z with (n + u + 1 - t - 1)%Z by lia. rewrite <- (inv_fact_step (n + u + 1 - t)). ring. }
    assert (B1 : IZR t * term m (u + 1) t = G t).
    { unfold term, G. replace (n + (u + 1) - t)%Z with (n + u + 1 - t)%Z by lia. replace (p - l - (u + 1) + t)%Z with (p - l - u - 1 + t)%Z by lia. rewrite <- (inv_fact_step t). ring. }
    assert (B2 : IZR (l + n - p - t) * term (m + 1) u t = G (t + 1)%Z).
    { unfold term, G. replace (t + 1 - 1)%Z with t by lia. replace (l + n - p - (t + 1))%Z with (l + n - p - t - 1)%Z by lia. rewrite <- (inv_fact_step (l + n - p - t)).
      replace (l - m - (t + 1))%Z with (l - (m + 1) - t)%Z by lia. replace (n + u + 1 - (t + 1))%Z with (n + u - t)%Z by lia.
      replace (p - n + m + (t + 1))%Z with (p - n + (m + 1) + t)%Z by lia. replace (p - l - u - 1 + (t + 1))%Z with (p - l - u + t)%Z by lia. ring. }
    replace (IZR (l + m + 1)) with (IZR (p - n + m + 1 + t) + IZR (l + n - p - t)) by (rewrite <- plus_IZR; f_equal; lia).
    replace (IZR (n + u + 1)) with (IZR (n + u + 1 - t) + IZR t) by (rewrite <- plus_IZR; f_equal; lia).
    replace (IZR (p - m - u)) with (IZR (l - m - t) + IZR (p - l - u + t)) by (rewrite <- plus_IZR; f_equal; lia).
    lra.
  Qed.

  (** The relation in the order alone: the total angular momentum. *)
  Lemma three_term m :
    IZR (n * (n + 1)) * S m 0%Z =
    IZR (l * (l + 1) + p * (p + 1) - 2 * m * m) * S m 0%Z
    - IZR ((p + m + 1) * (l + m + 1)) * S (m + 1)%Z 0%Z - IZR ((l - m + 1) * (p - m + 1)) * S (m - 1)%Z 0%Z.
  Proof.
    pose proof (ladder_up m 1) as U. pose proof (ladder_down m 0) as D1. pose proof (ladder_down (m - 1) 0) as D2.
    change (0 + 1)%Z with 1%Z in *. change (1 - 1)%Z with 0%Z in *. replace (m - 1 + 1)%Z with m in D2 by lia.
    rewrite ?plus_IZR, ?minus_IZR, ?mult_IZR, ?plus_IZR, ?minus_IZR in *. rewrite ?plus_IZR, ?minus_IZR in *.
    set (a := S m 0%Z) in *. set (b := S (m - 1)%Z 0%Z) in *. set (c := S (m + 1)%Z 0%Z) in *.
    set (e := S m 1%Z) in *. set (f := S (m - 1)%Z 1%Z) in *.
    assert (E1 : (IZR n + 1) * e = (IZR p - IZR m) * a - (IZR l + IZR m + 1) * c) by lra.
    assert (E2 : (IZR n + 1) * f = (IZR p - IZR m + 1) * b - (IZR l + IZR m) * a) by lra.
    assert (E3 : (IZR n + 1) * ((IZR l - IZR m + 1) * f + IZR n * a) = (IZR n + 1) * ((IZR p + IZR m + 1) * e)) by (f_equal; lra).
    assert (E4 : (IZR l - IZR m + 1) * ((IZR n + 1) * f) + IZR n * (IZR n + 1) * a = (IZR p + IZR m + 1) * ((IZR n + 1) * e)) by lra.
    rewrite E1, E2 in E4. repeat rewrite ?plus_IZR, ?minus_IZR, ?mult_IZR in *. lra.
  Qed.

  (** Outside the orders the sums vanish. *)
  Lemma S_outside m u : ((l < Z.abs m) \/ (p < Z.abs (m + u)))%Z -> S m u = 0.
  Proof.
    intros H. rewrite S_term. apply rsum_zero. intros k Hk. set (t := Z.of_nat k).
    assert (E : term m u t = 0); [|rewrite E; ring]. unfold term.
    destruct (Z_lt_dec (l - m - t) 0); [rewrite (inv_fact_neg (l - m - t)) by lia; ring|].
    destruct (Z_lt_dec (n + u - t) 0); [rewrite (inv_fact_neg (n + u - t)) by lia; ring|].
    destruct (Z_lt_dec (p - n + m + t) 0); [rewrite (inv_fact_neg (p - n + m + t)) by lia; ring|].
    destruct (Z_lt_dec (p - l - u + t) 0); [rewrite (inv_fact_neg (p - l - u + t)) by lia; ring|].
    unfold K in Hk. exfalso. lia.
  Qed.
End ThreeJ.

(** ** Sums over the orders *)

Definition osum (l : Z) (f : Z -> R) : R := rsum (Z.to_nat (2 * l + 1)) (fun i => f (Z.of_nat i - l)%Z).

Lemma osum_ext l f g : (forall m, (Z.abs m <= l)%Z -> f m = g m) -> osum l f = osum l g.
Proof. intros H. apply rsum_ext. intros i Hi. apply H. lia. Qed.
Lemma osum_plus l f g : osum l (fun m => f m + g m) = osum l f + osum l g.
Proof. apply (rsum_plus (Z.to_nat (2 * l + 1)) (fun i => f (Z.of_nat i - l)%Z) (fun i => g (Z.of_nat i - l)%Z)). Qed.
Lemma osum_minus l f g : osum l (fun m => f m - g m) = osum l f - osum l g.
Proof. apply (rsum_minus (Z.to_nat (2 * l + 1)) (fun i => f (Z.of_nat i - l)%Z) (fun i => g (Z.of_nat i - l)%Z)). Qed.
Lemma osum_scal l a f : osum l (fun m => a * f m) = a * osum l f.
Proof. apply (rsum_scal_l a (Z.to_nat (2 * l + 1)) (fun i => f (Z.of_nat i - l)%Z)). Qed.

Lemma osum_shift l f : (0 <= l)%Z -> f (- l)%Z = 0 -> f (l + 1)%Z = 0 -> osum l (fun m => f (m + 1)%Z) = osum l f.
Proof.
  intros Hl A B. unfold osum. replace (Z.to_nat (2 * l + 1)) with (S (Z.to_nat (2 * l))) by lia.
  rewrite (rsum_S_l _ (fun i => f (Z.of_nat i - l)%Z)). cbn [rsum].
  replace (Z.of_nat (Z.to_nat (2 * l)) - l + 1)%Z with (l + 1)%Z by lia. replace (Z.of_nat 0 - l)%Z with (- l)%Z by lia. rewrite A, B.
  replace (rsum _ (fun i => f (Z.of_nat i - l + 1)%Z)) with (rsum (Z.to_nat (2 * l)) (fun i => f (Z.of_nat (S i) - l)%Z)); [ring|].
  apply rsum_ext. intros i _. f_equal. lia.
Qed.

(** The number of ways to choose: (j + a)! / (j! a!). *)
Fixpoint bin (j a : nat) {struct j} : R :=
  match j with
  | O => 1
  | S j' => (fix go (a : nat) : R := match a with O => 1 | S a' => bin j' (S a') + go a' end) a
  end.
Lemma bin_0 a : bin 0 a = 1. Proof. reflexivity. Qed.
Lemma bin_n0 j : bin j 0 = 1. Proof. destruct j; reflexivity. Qed.
Lemma bin_SS j a : bin (S j) (S a) = bin j (S a) + bin (S j) a. Proof. reflexivity. Qed.

Lemma bin_fact j : forall a, bin j a * (INR (fact j) * INR (fact a)) = INR (fact (j + a)).
Proof.
  induction j as [|j IH]; intros a; [rewrite bin_0; cbn; ring|].
  induction a as [|a IHa]; [rewrite bin_n0, Nat.add_0_r; cbn; ring|].
  rewrite bin_SS. specialize (IH (S a)).
  replace (S j + S a)%nat with (S (S j + a)) by lia. rewrite (fact_simpl (S j + a)), mult_INR.
  replace (j + S a)%nat with (S j + a)%nat in IH by lia.
  replace (INR (S (S j + a))) with (INR (S j) + INR (S a)) by (rewrite <- plus_INR; f_equal; lia).
  rewrite Rmult_plus_distr_r, (Rmult_plus_distr_r (INR (S j))).
  rewrite <- IH at 1. rewrite <- IHa. rewrite (fact_simpl j), (fact_simpl a), !mult_INR. ring.
Qed.

Lemma vandermonde a b : forall N, rsum (S N) (fun j => bin j a * bin (N - j) b) = bin N (a + b + 1).
Proof.
  induction b as [|b IHb].
  - intros N. rewrite (rsum_ext _ _ (fun j => bin j a)) by (intros; rewrite bin_n0; ring). rewrite Nat.add_0_r.
    induction N as [|N IH]; [cbn; ring|].
    change (rsum (S (S N)) (fun j => bin j a)) with (rsum (S N) (fun j => bin j a) + bin (S N) a). rewrite IH.
    rewrite Nat.add_1_r, bin_SS. reflexivity.
  - induction N as [|N IH]; [cbn; ring|].
    change (rsum (S (S N)) (fun j => bin j a * bin (S N - j) (S b))) with
      (rsum (S N) (fun j => bin j a * bin (S N - j) (S b)) + bin (S N) a * bin (S N - S N) (S b)).
    rewrite (rsum_ext (S N) _ (fun j => bin j a * bin (N - j) (S b) + bin j a * bin (S N - j) b)).
    + rewrite rsum_plus, IH. replace (a + S b + 1)%nat with (S (a + b + 1)) by lia. rewrite bin_SS, <- IHb.
      change (rsum (S (S N)) (fun j => bin j a * bin (S N - j) b)) with
        (rsum (S N) (fun j => bin j a * bin (S N - j) b) + bin (S N) a * bin (S N - S N) b).
      rewrite Nat.sub_diag, !bin_0. ring.
    + intros j Hj. replace (S N - j)%nat with (S (N - j)) by lia. rewrite bin_SS. ring.
Qed.

Section Norm.
  Variables l n p : Z.
  Hypothesis Hl : (0 <= l)%Z.
  Hypothesis Hn : (0 <= n)%Z.
  Notation S := (racah_sum l n p).

  Definition rho (m u : Z) : R := zfact (l + m) * zfact (l - m) * zfact (p + m + u) * zfact (p - m - u).
  Definition norm (u : Z) : R := osum l (fun m => rho m u * (S m u * S m u)).

  Lemma norm_step u : IZR (n + u) * norm u = IZR (n - u + 1) * norm (u - 1)%Z.
  Proof.
    unfold norm. rewrite <- !osum_scal.
    set (f := fun m => rho m (u - 1) * IZR (l - m + 1) * S (m - 1)%Z u * S m (u - 1)%Z).
    rewrite (osum_ext l (fun m => IZR (n + u) * _) (fun m => rho m u * IZR (p - m - u + 1) * S m u * S m (u - 1)%Z - f (m + 1)%Z)).
    rewrite (osum_ext l (fun m => IZR (n - u + 1) * _) (fun m => rho m (u - 1)%Z * IZR (p + m + u) * S m u * S m (u - 1)%Z - f m)).
    - rewrite !osum_minus. f_equal.
      + apply osum_ext. intros m Hm.
        destruct (Z_lt_dec p (Z.abs (m + u))); [rewrite (S_outside l n p m u) by lia; ring|].
        destruct (Z_lt_dec p (Z.abs (m + (u - 1)))); [rewrite (S_outside l n p m (u - 1)) by lia; ring|].
        enough (E : rho m u * IZR (p - m - u + 1) = rho m (u - 1) * IZR (p + m + u)) by (rewrite E; reflexivity).
        unfold rho. replace (p - m - (u - 1))%Z with (p - m - u + 1)%Z by lia. replace (p + m + (u - 1))%Z with (p + m + u - 1)%Z by lia.
        rewrite (zfact_step (p + m + u)) by lia. rewrite (zfact_step (p - m - u + 1)) by lia. replace (p - m - u + 1 - 1)%Z with (p - m - u)%Z by lia. ring.
      + apply osum_shift; [exact Hl| |]; unfold f.
        * rewrite (S_outside l n p (- l - 1) u) by lia. ring.
        * rewrite (S_outside l n p (l + 1) (u - 1)) by lia. ring.
    - intros m Hm. unfold f. pose proof (ladder_up l n p m u) as U.
      transitivity (rho m (u - 1) * S m (u - 1)%Z * (IZR (n - u + 1) * S m (u - 1)%Z)); [ring|].
      replace (IZR (n - u + 1) * S m (u - 1)%Z) with (IZR (p + m + u) * S m u - IZR (l - m + 1) * S (m - 1)%Z u) by lra. ring.
    - intros m Hm. unfold f. pose proof (ladder_down l n p m (u - 1)) as D.
      replace (u - 1 + 1)%Z with u in D by lia. replace (n + (u - 1) + 1)%Z with (n + u)%Z in D by lia.
      transitivity (rho m u * S m u * (IZR (n + u) * S m u)); [ring|].
      replace (IZR (n + u) * S m u) with (IZR (p - m - (u - 1)) * S m (u - 1)%Z - IZR (l + m + 1) * S (m + 1)%Z (u - 1)%Z) by lra.
      replace (p - m - (u - 1))%Z with (p - m - u + 1)%Z by lia. replace (m + 1 - 1)%Z with m by lia.
      destruct (Z_lt_dec p (Z.abs (m + u))); [rewrite (S_outside l n p m u) by lia; ring|].
      destruct (Z.eq_dec m l) as [->|N]; [rewrite (S_outside l n p (l + 1) (u - 1)) by lia; ring|].
      enough (E : rho m u * IZR (l + m + 1) = rho (m + 1) (u - 1) * IZR (l - (m + 1) + 1)).
      { transitivity (rho m u * IZR (p - m - u + 1) * S m u * S m (u - 1)%Z - rho m u * IZR (l + m + 1) * S m u * S (m + 1)%Z (u - 1)%Z); [ring|]. rewrite E. reflexivity. }
      unfold rho. replace (p + (m + 1) + (u - 1))%Z with (p + m + u)%Z by lia. replace (p - (m + 1) - (u - 1))%Z with (p - m - u)%Z by lia.
      replace (l + (m + 1))%Z with (l + m + 1)%Z by lia. rewrite (zfact_step (l + m + 1)) by lia. replace (l + m + 1 - 1)%Z with (l + m)%Z by lia.
      replace (l - (m + 1) + 1)%Z with (l - m)%Z by lia. rewrite (zfact_step (l - m)) by lia. replace (l - (m + 1))%Z with (l - m - 1)%Z by lia. ring.
  Qed.

  Lemma norm_climb j : (Z.of_nat j <= 2 * n)%Z -> norm (- n + Z.of_nat j) * (zfact (Z.of_nat j) * zfact (2 * n - Z.of_nat j)) = norm (- n) * zfact (2 * n).
  Proof.
    induction j as [|j IH]; intros H.
    - replace (- n + Z.of_nat 0)%Z with (- n)%Z by lia. replace (2 * n - Z.of_nat 0)%Z with (2 * n)%Z by lia. unfold zfact at 1. cbn. ring.
    - rewrite <- IH by lia. pose proof (norm_step (- n + Z.of_nat (Datatypes.S j))) as E.
      replace (n + (- n + Z.of_nat (Datatypes.S j)))%Z with (Z.of_nat (Datatypes.S j)) in E by lia.
      replace (- n + Z.of_nat (Datatypes.S j) - 1)%Z with (- n + Z.of_nat j)%Z in E by lia.
      replace (n - (- n + Z.of_nat (Datatypes.S j)) + 1)%Z with (2 * n - Z.of_nat j)%Z in E by lia.
      rewrite (zfact_step (Z.of_nat (Datatypes.S j))) by lia. replace (Z.of_nat (Datatypes.S j) - 1)%Z with (Z.of_nat j) by lia.
      rewrite (zfact_step (2 * n - Z.of_nat j)) by lia. replace (2 * n - Z.of_nat j - 1)%Z with (2 * n - Z.of_nat (Datatypes.S j))%Z by lia.
      set (z := zfact (Z.of_nat j)). set (y := zfact (2 * n - Z.of_nat (Datatypes.S j))).
      transitivity (IZR (Z.of_nat (Datatypes.S j)) * norm (- n + Z.of_nat (Datatypes.S j)) * (z * y)); [ring|]. rewrite E. ring.
  Qed.

  Hypothesis tri : (Z.abs (l - n) <= p <= l + n)%Z.

  Lemma norm_bottom : norm (- n) * (zfact (l + n - p) * zfact (n + p - l) * zfact (l + p - n) * zfact (2 * n + 1)) = zfact (l + n + p + 1).
  Proof.
    set (a := Z.to_nat (l + n - p)). set (b := Z.to_nat (n + p - l)). set (N := Z.to_nat (l + p - n)).
    assert (SB : forall m, S m (- n)%Z = inv_fact (l + n - p) * inv_fact (l - m) * inv_fact (p - n + m) * inv_fact (n + p - l)).
    { intros m. rewrite S_term. rewrite (rsum_single _ 0%nat).
      - cbn [Z.of_nat]. unfold term. rewrite !Z.sub_0_r, !Z.add_0_r. replace (n + - n)%Z with 0%Z by lia. replace (p - l - - n)%Z with (n + p - l)%Z by lia.
        replace (inv_fact 0) with 1; [unfold pm1; cbn; ring|]. unfold inv_fact, zfact. cbn. field.
      - lia.
      - intros i _ Hi. unfold term. rewrite (inv_fact_neg (n + - n - Z.of_nat i)) by lia. ring. }
    assert (E : norm (- n) = inv_fact (l + n - p) * inv_fact (n + p - l) * bin N (a + b + 1)).
    { unfold norm, osum. replace (Z.to_nat (2 * l + 1)) with (a + Datatypes.S N)%nat by lia. rewrite rsum_app.
      rewrite (rsum_zero a).
      - rewrite Rplus_0_l, <- vandermonde, <- rsum_scal_l. apply rsum_ext. intros j Hj.
        rewrite SB. replace (Z.of_nat (a + j) - l)%Z with (n - p + Z.of_nat j)%Z by lia.
        pose proof (bin_fact j a) as BA. pose proof (bin_fact (N - j) b) as BB.
        unfold rho. rewrite !inv_fact_nonneg by lia. unfold zfact.
        replace (Z.to_nat (l + (n - p + Z.of_nat j))) with (j + a)%nat by lia.
        replace (Z.to_nat (l - (n - p + Z.of_nat j))) with (N - j)%nat by lia.
        replace (Z.to_nat (p + (n - p + Z.of_nat j) + - n)) with j by lia.
        replace (Z.to_nat (p - (n - p + Z.of_nat j) - - n)) with (N - j + b)%nat by lia.
        replace (Z.to_nat (p - n + (n - p + Z.of_nat j))) with j by lia. fold a. fold b.
        rewrite <- BA, <- BB. pose proof (INR_fact_neq_0 a). pose proof (INR_fact_neq_0 b). pose proof (INR_fact_neq_0 j). pose proof (INR_fact_neq_0 (N - j)).
        field. auto.
      - intros i Hi. rewrite SB, (inv_fact_neg (p - n + (Z.of_nat i - l))) by lia. ring. }
    rewrite E. pose proof (bin_fact N (a + b + 1)) as B. rewrite !inv_fact_nonneg by lia. unfold zfact.
    replace (Z.to_nat (l + n + p + 1)) with (N + (a + b + 1))%nat by lia. rewrite <- B. fold a. fold b. fold N.
    replace (Z.to_nat (2 * n + 1)) with (a + b + 1)%nat by lia.
    pose proof (INR_fact_neq_0 a). pose proof (INR_fact_neq_0 b). field. auto.
  Qed.

  (** The sum of squares over the orders. *)
  Lemma norm_zero : norm 0 * (zfact (l + n - p) * zfact (n + p - l) * zfact (l + p - n) * (IZR (2 * n + 1) * (zfact n * zfact n))) = zfact (l + n + p + 1).
  Proof.
    rewrite <- norm_bottom. pose proof (norm_climb (Z.to_nat n) ltac:(lia)) as C. rewrite Z2Nat.id in C by exact Hn.
    replace (- n + n)%Z with 0%Z in C by lia. replace (2 * n - n)%Z with n in C by lia.
    rewrite (zfact_step (2 * n + 1)) by lia. replace (2 * n + 1 - 1)%Z with (2 * n)%Z by lia.
    set (A := zfact (l + n - p)). set (B := zfact (n + p - l)). set (D := zfact (l + p - n)).
    transitivity (norm 0 * (zfact n * zfact n) * (A * B * D * IZR (2 * n + 1))); [ring|]. rewrite C. ring.
  Qed.

  Lemma norm_pos : 0 < norm 0.
  Proof.
    pose proof norm_zero as E. pose proof (zfact_pos (l + n - p)). pose proof (zfact_pos (n + p - l)). pose proof (zfact_pos (l + p - n)).
    pose proof (zfact_pos n). pose proof (zfact_pos (l + n + p + 1)). assert (0 < IZR (2 * n + 1)) by (apply IZR_lt; lia).
    set (Q := zfact (l + n - p) * zfact (n + p - l) * zfact (l + p - n) * (IZR (2 * n + 1) * (zfact n * zfact n))) in *.
    assert (0 < Q) by (unfold Q; repeat apply Rmult_lt_0_compat; assumption).
    assert (0 < norm 0 * Q) by lra. apply (Rmult_lt_reg_r Q); lra.
  Qed.
End Norm.

(** ** Orthogonality: the sums are eigenvectors of a symmetric operator *)

Definition osums (l p n m : Z) : R := racah_sum l n p m 0.
Definition onorm (l p n : Z) : R := norm l n p 0.

Section Jacobi.
  Variables l p : Z.
  Hypothesis Hl : (0 <= l)%Z.
  Hypothesis Hp : (l <= p)%Z.

  Definition jac (f : Z -> R) (m : Z) : R :=
    IZR (l * (l + 1) + p * (p + 1) - 2 * m * m) * f m
    - IZR ((p + m + 1) * (l + m + 1)) * f (m + 1)%Z - IZR ((l - m + 1) * (p - m + 1)) * f (m - 1)%Z.
  Definition weight (m : Z) : R := rho l p m 0.

  Lemma weight_pos m : 0 < weight m.
  Proof. unfold weight, rho. repeat apply Rmult_lt_0_compat; apply zfact_pos. Qed.

  Lemma weight_step m : (- l <= m < l)%Z -> weight (m + 1) * IZR ((l - (m + 1) + 1) * (p - (m + 1) + 1)) = weight m * IZR ((p + m + 1) * (l + m + 1)).
  Proof.
    intros H. unfold weight, rho. rewrite !Z.add_0_r, !Z.sub_0_r, !mult_IZR.
    replace (l - (m + 1) + 1)%Z with (l - m)%Z by lia. replace (p - (m + 1) + 1)%Z with (p - m)%Z by lia.
    replace (l + (m + 1))%Z with (l + m + 1)%Z by lia. replace (p + (m + 1))%Z with (p + m + 1)%Z by lia.
    rewrite (zfact_step (l + m + 1)), (zfact_step (p + m + 1)), (zfact_step (l - m)), (zfact_step (p - m)) by lia.
    replace (l + m + 1 - 1)%Z with (l + m)%Z by lia. replace (p + m + 1 - 1)%Z with (p + m)%Z by lia.
    replace (l - (m + 1))%Z with (l - m - 1)%Z by lia. replace (p - (m + 1))%Z with (p - m - 1)%Z by lia. ring.
  Qed.

  Lemma jac_sym f g : f (l + 1)%Z = 0 -> f (- l - 1)%Z = 0 -> g (l + 1)%Z = 0 -> g (- l - 1)%Z = 0 ->
    osum l (fun m => weight m * (g m * jac f m)) = osum l (fun m => weight m * (f m * jac g m)).
  Proof.
    intros F1 F2 G1 G2.
    set (q := fun m => weight m * (f m * g m) * IZR (l * (l + 1) + p * (p + 1) - 2 * m * m)).
    set (dn := fun (f g : Z -> R) m => weight m * f m * g (m - 1)%Z * IZR ((l - m + 1) * (p - m + 1))).
    assert (E : forall f g, f (l + 1)%Z = 0 -> f (- l - 1)%Z = 0 -> g (l + 1)%Z = 0 -> g (- l - 1)%Z = 0 ->
      osum l (fun m => weight m * (g m * jac f m)) =
      osum l (fun m => weight m * (f m * g m) * IZR (l * (l + 1) + p * (p + 1) - 2 * m * m)) - osum l (dn f g) - osum l (dn g f)).
    { clear f g F1 F2 G1 G2 q. intros f g F1 F2 G1 G2.
      rewrite <- (osum_shift l (dn f g) Hl).
      - rewrite <- !osum_minus. apply osum_ext. intros m Hm. unfold dn, jac. replace (m + 1 - 1)%Z with m by lia.
        destruct (Z.eq_dec m l) as [->|N].
        + rewrite F1. ring.
        + pose proof (weight_step m ltac:(lia)) as W.
          transitivity (weight m * (f m * g m) * IZR (l * (l + 1) + p * (p + 1) - 2 * m * m) - weight m * IZR ((p + m + 1) * (l + m + 1)) * (f (m + 1)%Z * g m) - weight m * g m * f (m - 1)%Z * IZR ((l - m + 1) * (p - m + 1))); [ring|].
          rewrite <- W. ring.
      - unfold dn. rewrite G2. ring.
      - unfold dn. rewrite F1. ring. }
    rewrite (E f g), (E g f) by assumption.
    rewrite (osum_ext l (fun m => weight m * (g m * f m) * _) (fun m => weight m * (f m * g m) * IZR (l * (l + 1) + p * (p + 1) - 2 * m * m))) by (intros; ring).
    ring.
  Qed.

  Notation S := (osums l p).

  Lemma jac_S n m : jac (S n) m = IZR (n * (n + 1)) * S n m.
  Proof. unfold jac, osums. rewrite three_term. reflexivity. Qed.

  Lemma S_edge n : S n (l + 1)%Z = 0 /\ S n (- l - 1)%Z = 0.
  Proof. split; apply S_outside; lia. Qed.

  Lemma S_ortho n n' : (0 <= n)%Z -> (0 <= n')%Z -> n <> n' -> osum l (fun m => weight m * (S n m * S n' m)) = 0.
  Proof.
    intros Hn Hn' N. destruct (S_edge n) as [A B]. destruct (S_edge n') as [A' B'].
    pose proof (jac_sym (S n) (S n') A B A' B') as E.
    rewrite (osum_ext l (fun m => weight m * (S n' m * jac (S n) m)) (fun m => IZR (n * (n + 1)) * (weight m * (S n m * S n' m)))) in E by (intros; rewrite jac_S; ring).
    rewrite (osum_ext l (fun m => weight m * (S n m * jac (S n') m)) (fun m => IZR (n' * (n' + 1)) * (weight m * (S n m * S n' m)))) in E by (intros; rewrite jac_S; ring).
    rewrite !osum_scal in E.
    assert (D : (IZR (n * (n + 1)) - IZR (n' * (n' + 1))) * osum l (fun m => weight m * (S n m * S n' m)) = 0) by lra.
    apply Rmult_integral in D. destruct D as [D|D]; [|exact D]. exfalso. apply Rminus_diag_uniq, eq_IZR in D. nia.
  Qed.
End Jacobi.

(** ** The orders are complete: the sums over the degrees *)
Section Dual.
  Variables l p : Z.
  Hypothesis Hl : (0 <= l)%Z.
  Hypothesis Hp : (l <= p)%Z.
  Notation S := (osums l p).
  Let K := Z.to_nat (2 * l + 1).
  Definition dsum (f : Z -> R) : R := rsum (Z.to_nat (2 * l + 1)) (fun k => f (p - l + Z.of_nat k)%Z).
  Notation M := (onorm l p).

  Let u (k i : nat) : C := RtoC (sqrt (weight l p (Z.of_nat i - l) / M (p - l + Z.of_nat k)%Z) * S (p - l + Z.of_nat k)%Z (Z.of_nat i - l)%Z).

  Lemma M_pos k : (k < K)%nat -> 0 < M (p - l + Z.of_nat k)%Z.
  Proof. intros Hk. apply norm_pos; unfold K in Hk; lia. Qed.

  Lemma u_ortho a b : (a < K)%nat -> (b < K)%nat -> ip K (u a) (u b) = if Nat.eqb a b then RtoC 1 else RtoC 0.
  Proof.
    intros Ha Hb. pose proof (M_pos a Ha) as Pa. pose proof (M_pos b Hb) as Pb.
    unfold ip. rewrite (csum_ext K _ (fun j => RtoC (/ sqrt (M (p - l + Z.of_nat a)%Z) * / sqrt (M (p - l + Z.of_nat b)%Z) *
      (weight l p (Z.of_nat j - l) * (S (p - l + Z.of_nat a)%Z (Z.of_nat j - l)%Z * S (p - l + Z.of_nat b)%Z (Z.of_nat j - l)%Z))))).
    - rewrite csum_RtoC, rsum_scal_l.
      change (rsum K _) with (osum l (fun m => weight l p m * (S (p - l + Z.of_nat a)%Z m * S (p - l + Z.of_nat b)%Z m))).
      destruct (Nat.eqb_spec a b) as [<-|N].
      + f_equal. change (osum l _) with (M (p - l + Z.of_nat a)%Z). set (x := M (p - l + Z.of_nat a)%Z) in *.
        rewrite <- Rinv_mult, sqrt_sqrt by lra. field. lra.
      + rewrite S_ortho by lia. f_equal. ring.
    - intros j Hj. unfold u. rewrite Cconj_R, <- RtoC_mult. f_equal.
      pose proof (weight_pos l p (Z.of_nat j - l)) as W.
      unfold Rdiv. rewrite !sqrt_mult, !sqrt_inv by (try (apply Rlt_le, Rinv_0_lt_compat; assumption); lra).
      set (w := weight l p (Z.of_nat j - l)) in *. pose proof (sqrt_sqrt w (Rlt_le _ _ W)) as Q. rewrite <- Q at 3. ring.
  Qed.

  Lemma S_dual m m' : (Z.abs m <= l)%Z -> (Z.abs m' <= l)%Z ->
    dsum (fun n => S n m * S n m' / M n) = if (m =? m')%Z then / weight l p m else 0.
  Proof.
    intros Hm Hm'. pose proof (completeness K u u_ortho (Z.to_nat (m + l)) (Z.to_nat (m' + l)) ltac:(unfold K; lia) ltac:(unfold K; lia)) as E.
    pose proof (weight_pos l p m) as W. pose proof (weight_pos l p m') as W'.
    rewrite (csum_ext K _ (fun k => RtoC (sqrt (weight l p m) * sqrt (weight l p m') * (S (p - l + Z.of_nat k)%Z m * S (p - l + Z.of_nat k)%Z m' / M (p - l + Z.of_nat k)%Z)))) in E.
    - rewrite csum_RtoC, rsum_scal_l in E. change (rsum K _) with (dsum (fun n => S n m * S n m' / M n)) in E.
      destruct (Z.eqb_spec m m') as [<-|N].
      + rewrite Nat.eqb_refl, sqrt_sqrt in E by lra. apply RtoC_inj in E. apply (Rmult_eq_reg_l (weight l p m)); [|lra]. rewrite E. field. lra.
      + rewrite (proj2 (Nat.eqb_neq _ _)) in E by lia. apply RtoC_inj, Rmult_integral in E. destruct E as [E|E]; [exfalso|exact E].
        pose proof (sqrt_lt_R0 _ W). pose proof (sqrt_lt_R0 _ W'). apply Rmult_integral in E. lra.
    - intros k Hk. unfold u. rewrite Cconj_R, <- RtoC_mult. f_equal.
      replace (Z.of_nat (Z.to_nat (m + l)) - l)%Z with m by lia. replace (Z.of_nat (Z.to_nat (m' + l)) - l)%Z with m' by lia.
      pose proof (M_pos k Hk) as P. unfold Rdiv. rewrite !sqrt_mult, !sqrt_inv by (try (apply Rlt_le, Rinv_0_lt_compat; assumption); lra).
      set (x := M (p - l + Z.of_nat k)%Z) in *. pose proof (sqrt_sqrt x (Rlt_le _ _ P)) as Q. pose proof (sqrt_lt_R0 _ P).
      rewrite <- Q at 3. field. lra.
  Qed.
End Dual.
