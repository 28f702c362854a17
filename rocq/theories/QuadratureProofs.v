From Coq Require Import List ZArith Arith Bool Reals Lra Lia.
From Coquelicot Require Import Coquelicot.
From Verif Require Import Base ListLemmas RSum Quadrature.
Import ListNotations.
Local Open Scope R_scope.

Lemma ediff_length a : length (ediff1d a) = (length a - 1)%nat.
Proof. unfold ediff1d. rewrite map_length, combine_length. destruct a; cbn [length tl]; lia. Qed.

Lemma last_default (a : list R) y d d' : last (y :: a) d = last (y :: a) d'.
Proof. revert y. induction a as [|z a IH]; intros y; [reflexivity|]. exact (IH z). Qed.

Lemma ediff_sum x a : rlsum (ediff1d (x :: a)) = last (x :: a) x - x.
Proof.
  revert x. induction a as [|y a IH]; intros x; [cbn; ring|].
  change (ediff1d (x :: y :: a)) with ((y - x) :: ediff1d (y :: a)). cbn [rlsum]. rewrite IH.
  assert (E : last (x :: y :: a) x = last (y :: a) y) by (apply (last_default a y x y)).
  rewrite E. ring.
Qed.

Lemma last_map_seq (f : nat -> R) n d : last (map f (seq 0 (S n))) d = f n.
Proof. rewrite seq_S, map_app. cbn. apply last_last. Qed.

(** Evenly spaced samples. *)
Lemma mean_ediff_even (h : R) n : (1 <= n)%nat ->
  mean_of (ediff1d (map (fun t => h * INR t) (seq 0 (S n)))) = h.
Proof.
  intros Hn. unfold mean_of. rewrite ediff_length, map_length, seq_length.
  replace (S n - 1)%nat with n by lia.
  cbn [seq map]. rewrite ediff_sum.
  change (h * INR 0 :: map (fun t => h * INR t) (seq 1 n)) with (map (fun t => h * INR t) (seq 0 (S n))).
  rewrite last_map_seq. pose proof (lt_0_INR n ltac:(lia)). cbn [INR]. field. lra.
Qed.

Lemma delta_theta_spec L : (1 <= L)%nat -> mean_of (ediff1d (thetas L)) = PI / INR L.
Proof.
  intros H. pose proof (lt_0_INR L ltac:(lia)).
  rewrite <- (mean_ediff_even (PI / INR L) L H). unfold thetas, n_theta.
  replace (L + 1)%nat with (S L) by lia. do 2 f_equal. apply map_ext. intros. field. lra.
Qed.

Lemma delta_phi_spec L : (1 <= L)%nat -> mean_of (ediff1d (phis L)) = PI / INR L.
Proof.
  intros H. pose proof (lt_0_INR L ltac:(lia)).
  rewrite <- (mean_ediff_even (PI / INR L) (2 * L - 1)) by lia. unfold phis, n_phi.
  replace (S (2 * L - 1)) with (2 * L)%nat by lia. do 2 f_equal. apply map_ext. intros. field. lra.
Qed.

Lemma weight_spec L : (1 <= L)%nat ->
  calc_integration_weight L
  = map (fun t => map (fun _ => sin (PI * INR t / INR L) * (PI / INR L) ^ 2) (seq 0 (2 * L)))
        (seq 0 (L + 1)).
Proof.
  intros H. unfold calc_integration_weight. rewrite delta_theta_spec, delta_phi_spec by exact H.
  unfold thetas, phis, n_theta, n_phi. rewrite map_map. apply map_ext. intros t. rewrite map_map.
  apply map_ext. intros p. ring.
Qed.

(** The sum of sines. *)
Lemma sin_sum x n : 2 * sin (x / 2) * rsum (S n) (fun t => sin (INR t * x))
  = cos (x / 2) - cos ((INR n + / 2) * x).
Proof.
  induction n as [|n IH].
  - cbn [rsum INR]. rewrite Rmult_0_l, sin_0.
    replace ((0 + / 2) * x) with (x / 2) by field. ring.
  - change (rsum (S (S n)) (fun t => sin (INR t * x)))
      with (rsum (S n) (fun t => sin (INR t * x)) + sin (INR (S n) * x)).
    rewrite Rmult_plus_distr_l, IH.
    replace ((INR n + / 2) * x) with (INR (S n) * x - x / 2) by (rewrite S_INR; field).
    replace ((INR (S n) + / 2) * x) with (INR (S n) * x + x / 2) by field.
    rewrite cos_minus, cos_plus. ring.
Qed.

Lemma half_angle L : (1 <= L)%nat -> 0 < PI / (2 * INR L) <= PI / 2.
Proof.
  intros H. pose proof PI_RGT_0. assert (1 <= INR L) by (apply (le_INR 1); lia). split.
  - apply Rdiv_lt_0_compat; lra.
  - unfold Rdiv. apply Rmult_le_compat_l; [lra|]. apply Rinv_le_contravar; lra.
Qed.

Lemma sin_half_pos L : (1 <= L)%nat -> 0 < sin (PI / (2 * INR L)).
Proof. intros H. pose proof (half_angle L H). pose proof PI_RGT_0. apply sin_gt_0; lra. Qed.

Lemma sin_grid_sum L : (1 <= L)%nat ->
  rsum (L + 1) (fun t => sin (PI * INR t / INR L)) = cos (PI / (2 * INR L)) / sin (PI / (2 * INR L)).
Proof.
  intros H. pose proof (lt_0_INR L ltac:(lia)) as HL. pose proof (sin_half_pos L H) as Hs.
  replace (L + 1)%nat with (S L) by lia.
  rewrite (rsum_ext _ _ (fun t => sin (INR t * (PI / INR L)))) by (intros; f_equal; field; lra).
  pose proof (sin_sum (PI / INR L) L) as E.
  replace (PI / INR L / 2) with (PI / (2 * INR L)) in E by (field; lra).
  replace ((INR L + / 2) * (PI / INR L)) with (PI / (2 * INR L) + PI) in E by (field; lra).
  rewrite neg_cos in E. apply (Rmult_eq_reg_l (2 * sin (PI / (2 * INR L)))); [|lra].
  rewrite E. field. lra.
Qed.

Lemma rlsum_concat (l : list (list R)) : rlsum (concat l) = rlsum (map rlsum l).
Proof. induction l as [|x l IH]; [reflexivity|]. cbn. rewrite rlsum_app, IH. reflexivity. Qed.

Lemma weight_sum L : (1 <= L)%nat ->
  rlsum (concat (calc_integration_weight L))
  = 2 * PI ^ 2 / INR L * (cos (PI / (2 * INR L)) / sin (PI / (2 * INR L))).
Proof.
  intros H. pose proof (lt_0_INR L ltac:(lia)) as HL. pose proof (sin_half_pos L H).
  rewrite weight_spec, rlsum_concat, map_map by exact H.
  rewrite (rlsum_map_ext _ (fun t => (2 * PI ^ 2 / INR L) * sin (PI * INR t / INR L))).
  - rewrite rlsum_map_scal_l, rlsum_map_seq, sin_grid_sum by exact H. reflexivity.
  - intros t _. rewrite rlsum_map_seq, rsum_const, mult_INR. cbn [INR]. field. lra.
Qed.

(** [y cos y < sin y]. *)
Lemma ycosy_lt_siny y : 0 < y <= PI / 2 -> y * cos y < sin y.
Proof.
  intros Hy. pose proof PI_RGT_0.
  destruct (MVT_cor2 (fun u => sin u - u * cos u) (fun u => u * sin u) 0 y) as (c & Hc & Hr); [lra| |].
  - intros c Hc. auto_derive; [trivial|]. ring.
  - cbn beta in Hc. rewrite sin_0, Rmult_0_l in Hc.
    assert (0 < c * sin c * (y - 0)).
    { apply Rmult_lt_0_compat; [|lra]. apply Rmult_lt_0_compat; [lra|]. apply sin_gt_0; lra. }
    lra.
Qed.

Lemma weight_sum_deficit L : (1 <= L)%nat -> rlsum (concat (calc_integration_weight L)) < 4 * PI.
Proof.
  intros H. rewrite weight_sum by exact H.
  pose proof (lt_0_INR L ltac:(lia)) as HL. pose proof PI_RGT_0.
  pose proof (half_angle L H) as Hy. pose proof (sin_half_pos L H) as Hs.
  pose proof (ycosy_lt_siny _ Hy) as E. set (y := PI / (2 * INR L)) in *.
  replace (2 * PI ^ 2 / INR L) with (4 * PI * y) by (unfold y; field; lra).
  assert (y * cos y / sin y < 1).
  { apply (Rmult_lt_reg_r (sin y)); [lra|]. replace (y * cos y / sin y * sin y) with (y * cos y) by (field; lra). lra. }
  replace (4 * PI * y * (cos y / sin y)) with (4 * PI * (y * cos y / sin y)) by (field; lra).
  rewrite <- (Rmult_1_r (4 * PI)) at 2. apply Rmult_lt_compat_l; lra.
Qed.

Lemma weight_nonneg L row w : (1 <= L)%nat ->
  In row (calc_integration_weight L) -> In w row -> 0 <= w.
Proof.
  intros H Hr Hw. rewrite weight_spec in Hr by exact H. apply in_map_iff in Hr.
  destruct Hr as (t & <- & Ht). apply in_map_iff in Hw. destruct Hw as (p & <- & _).
  apply in_seq in Ht. pose proof (lt_0_INR L ltac:(lia)) as HL. pose proof PI_RGT_0.
  apply Rmult_le_pos; [|apply pow2_ge_0]. pose proof (pos_INR t).
  assert (INR t <= INR L) by (apply le_INR; lia). apply sin_ge_0.
  - apply Rmult_le_pos; [|left; apply Rinv_0_lt_compat; lra]. apply Rmult_le_pos; lra.
  - apply (Rmult_le_reg_r (INR L)); [lra|]. replace (PI * INR t / INR L * INR L) with (PI * INR t) by (field; lra).
    apply Rmult_le_compat_l; lra.
Qed.

(** The sum tends to the exact area: the deficit is at most of order 1/L^2. *)
Lemma cos_lower y : 0 <= y -> 1 - y ^ 2 / 2 <= cos y.
Proof.
  intros Hy. replace y with (2 * (y / 2)) at 2 by field. rewrite cos_2a_sin.
  assert (sin (y / 2) * sin (y / 2) <= (y / 2) * (y / 2)).
  { assert (Rabs (sin (y / 2)) <= Rabs (y / 2)).
    { destruct (Req_dec y 0) as [->|N]; [replace (0/2) with 0 by field; rewrite sin_0; lra|].
      assert (0 < y / 2) by lra. pose proof (sin_lt_x (y / 2) H).
      rewrite (Rabs_right (y / 2)) by lra. apply Rabs_le. split; [|lra].
      destruct (Rle_dec (y / 2) PI).
      - pose proof (sin_ge_0 (y / 2)). lra.
      - pose proof (SIN_bound (y / 2)). pose proof PI2_3_2. lra. }
    rewrite <- (Rabs_pos_eq (sin (y/2) * sin (y/2))) by (apply Rle_0_sqr).
    rewrite <- (Rabs_pos_eq (y/2 * (y/2))) by (apply Rle_0_sqr). rewrite !Rabs_mult.
    apply Rmult_le_compat; auto using Rabs_pos. }
  lra.
Qed.

Lemma weight_sum_lower L : (1 <= L)%nat ->
  4 * PI * (1 - (PI / (2 * INR L)) ^ 2 / 2) <= rlsum (concat (calc_integration_weight L)).
Proof.
  intros H. rewrite weight_sum by exact H.
  pose proof (lt_0_INR L ltac:(lia)) as HL. pose proof PI_RGT_0.
  pose proof (half_angle L H) as Hy. pose proof (sin_half_pos L H) as Hs.
  set (y := PI / (2 * INR L)) in *.
  replace (2 * PI ^ 2 / INR L) with (4 * PI * y) by (unfold y; field; lra).
  pose proof (cos_lower y ltac:(lra)) as Hc. pose proof (sin_lt_x y ltac:(lra)) as Hx.
  replace (4 * PI * y * (cos y / sin y)) with (4 * PI * (y / sin y * cos y)) by (field; lra).
  apply Rmult_le_compat_l; [lra|].
  assert (1 <= y / sin y).
  { apply (Rmult_le_reg_r (sin y)); [lra|]. replace (y / sin y * sin y) with y by (field; lra). lra. }
  assert (0 <= cos y) by (apply cos_ge_0; lra).
  assert (cos y <= y / sin y * cos y) by (rewrite <- (Rmult_1_l (cos y)) at 1; apply Rmult_le_compat_r; lra).
  lra.
Qed.
