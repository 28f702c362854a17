From Coq Require Import List ZArith Arith Lia Bool Reals Lra.
From Verif Require Import Base RSum Wigner SpecWigner.
Import ListNotations.

Lemma gp_factorial_ok n : (0 <= n)%Z -> gp_factorial n = Ok (zfact n).
Proof. intros H. unfold gp_factorial. destruct (Z.ltb_spec n 0); [lia|reflexivity]. Qed.

Lemma zfact_pos n : (0 < zfact n)%R.
Proof. unfold zfact. apply INR_fact_lt_0. Qed.

Lemma inv_fact_nonneg k : (0 <= k)%Z -> inv_fact k = (/ zfact k)%R.
Proof. intros H. unfold inv_fact. destruct (Z.ltb_spec k 0); [lia|reflexivity]. Qed.

Lemma inv_fact_neg k : (k < 0)%Z -> inv_fact k = 0%R.
Proof. intros H. unfold inv_fact. destruct (Z.ltb_spec k 0); [reflexivity|lia]. Qed.

Lemma racah_term_ok t1 t2 t3 t4 t5 t :
  (0 <= t -> t1 <= t -> t2 <= t -> t <= t3 -> t <= t4 -> t <= t5 ->
  racah_term t1 t2 t3 t4 t5 t =
  Ok (pm1 t * (inv_fact t * inv_fact (t3 - t) * inv_fact (t4 - t) * inv_fact (t5 - t)
         * inv_fact (t - t1) * inv_fact (t - t2)))%R)%Z.
Proof.
  intros. unfold racah_term. rewrite !gp_factorial_ok by lia. cbn [rbind]. f_equal.
  rewrite !inv_fact_nonneg by lia. change (sgn t) with (pm1 t).
  pose proof (zfact_pos t). pose proof (zfact_pos (t - t1)). pose proof (zfact_pos (t - t2)).
  pose proof (zfact_pos (t3 - t)). pose proof (zfact_pos (t4 - t)). pose proof (zfact_pos (t5 - t)).
  field. repeat split; lra.
Qed.

Lemma sum_res_ok f g l :
  (forall t, In t l -> f t = Ok (g t)) -> sum_res f l = Ok (rlsum (map g l)).
Proof.
  intros H. unfold sum_res.
  assert (Hgen : forall a, fold_left (fun acc t => let* s := acc in let* x := f t in Ok (s + x)%R) l (Ok a)
                   = Ok (a + rlsum (map g l))%R).
  { induction l as [|t l IH]; intros a; simpl; [f_equal; lra|].
    rewrite H by (left; reflexivity). simpl. rewrite IH by (intros; apply H; right; assumption).
    f_equal. lra. }
  rewrite Hgen. f_equal. lra.
Qed.

Lemma in_zrange a b t : In t (zrange a b) <-> (a <= t < b)%Z.
Proof.
  unfold zrange. rewrite in_map_iff. split.
  - intros (k & <- & Hk). apply in_seq in Hk. lia.
  - intros H. exists (Z.to_nat (t - a)). split; [lia|]. apply in_seq. lia.
Qed.

(** A sum over [tmin..tmax] of a function vanishing outside equals the sum
    over [0..n-1]. *)
Lemma zrange_sum (g : Z -> R) a b n :
  (0 <= a)%Z -> (b <= Z.of_nat n)%Z ->
  (forall t, (0 <= t < Z.of_nat n)%Z -> (t < a \/ b <= t)%Z -> g t = 0%R) ->
  rlsum (map g (zrange a b)) = rsum n (fun k => g (Z.of_nat k)).
Proof.
  intros Ha Hb H. unfold zrange. rewrite map_map, rlsum_map_seq.
  destruct (Z.le_gt_cases b a) as [Hle|Hgt].
  - replace (Z.to_nat (b - a)) with 0 by lia. simpl. symmetry. apply rsum_zero.
    intros i Hi. apply H; lia.
  - set (p := Z.to_nat a). set (q := Z.to_nat (b - a)).
    replace n with (p + (q + (n - p - q))) by (unfold p, q; lia).
    rewrite rsum_app, (rsum_app q).
    rewrite (rsum_zero p) by (intros i Hi; apply H; unfold p, q in *; lia).
    rewrite (rsum_zero (n - p - q)) by (intros i Hi; apply H; unfold p, q in *; lia).
    rewrite Rplus_0_l, Rplus_0_r. apply rsum_ext. intros i Hi. f_equal. unfold p; lia.
Qed.

Lemma selection_dec l1 l2 l3 m1 m2 m3 :
  (negb (m1 + m2 + m3 =? 0)%Z || (l3 <? Z.abs (l1 - l2))%Z || (l3 >? l1 + l2)%Z
     || (Z.abs m1 >? Z.abs l1)%Z || (Z.abs m2 >? Z.abs l2)%Z || (Z.abs m3 >? Z.abs l3)%Z) = false
  <-> selection l1 l2 l3 m1 m2 m3.
Proof.
  unfold selection. rewrite !orb_false_iff, negb_false_iff, Z.eqb_eq, Z.ltb_ge, !Z.gtb_ltb, !Z.ltb_ge.
  lia.
Qed.

Lemma wigner3j_zero l1 l2 l3 m1 m2 m3 :
  ~ selection l1 l2 l3 m1 m2 m3 -> wigner3j l1 l2 l3 m1 m2 m3 = Ok 0%R.
Proof.
  intros H. unfold wigner3j. destruct (_ || _) eqn:E; [reflexivity|].
  apply selection_dec in E. contradiction.
Qed.

Lemma wigner3j_racah l1 l2 l3 m1 m2 m3 :
  selection l1 l2 l3 m1 m2 m3 -> wigner3j l1 l2 l3 m1 m2 m3 = Ok (racah l1 l2 l3 m1 m2 m3).
Proof.
  intros H. unfold wigner3j. rewrite (proj2 (selection_dec _ _ _ _ _ _) H).
  destruct H as (Hm & Hl & H1 & H2 & H3).
  set (t1 := (l2 - l3 - m1)%Z). set (t2 := (l1 - l3 + m2)%Z).
  set (t3 := (l1 + l2 - l3)%Z). set (t4 := (l1 - m1)%Z). set (t5 := (l2 + m2)%Z).
  cbv zeta.
  set (g := fun t => (pm1 t * (inv_fact t * inv_fact (t3 - t) * inv_fact (t4 - t) * inv_fact (t5 - t)
         * inv_fact (t - t1) * inv_fact (t - t2)))%R).
  rewrite (sum_res_ok _ g).
  2:{ intros t Ht. apply in_zrange in Ht. apply racah_term_ok; lia. }
  cbn [rbind]. rewrite !gp_factorial_ok by (unfold t3, t4, t5; lia). cbn [rbind]. f_equal.
  rewrite (zrange_sum g _ _ (Z.to_nat (l1 + l2 - l3 + 1))).
  - unfold racah, racah_sum. change sgn with pm1.
    rewrite (rsum_ext _ (fun k => g (Z.of_nat k))
      (fun k => let t := Z.of_nat k in
    pm1 t * (inv_fact t * inv_fact (l1 + l2 - l3 - t) * inv_fact (l1 - m1 - t)
             * inv_fact (l2 + m2 - t) * inv_fact (l3 - l2 + m1 + t)
             * inv_fact (l3 - l1 - m2 + t)))%R).
    + unfold t3, t4, t5.
      replace (zfact (l1 + m1) * zfact (l1 - m1) * zfact (l2 + m2) * zfact (l2 - m2)
               * zfact (l3 + m3) * zfact (l3 - m3))%R
        with (zfact (l1 + m1) * zfact (l1 - m1) * zfact (l2 + m2) * zfact (l2 - m2)
               * zfact (l3 + m3) * zfact (l3 - m3))%R by reflexivity.
      ring.
    + intros k Hk. unfold g, t1, t2, t3, t4, t5. cbv zeta.
      replace (Z.of_nat k - (l2 - l3 - m1))%Z with (l3 - l2 + m1 + Z.of_nat k)%Z by lia.
      replace (Z.of_nat k - (l1 - l3 + m2))%Z with (l3 - l1 - m2 + Z.of_nat k)%Z by lia.
      reflexivity.
  - lia.
  - unfold t3. lia.
  - intros t Ht Ho. unfold g.
    assert (Hn : (t3 - t < 0 \/ t4 - t < 0 \/ t5 - t < 0 \/ t - t1 < 0 \/ t - t2 < 0)%Z) by lia.
    destruct Hn as [Hn|[Hn|[Hn|[Hn|Hn]]]]; rewrite (inv_fact_neg _ Hn); ring.
Qed.

Lemma selection_em l1 l2 l3 m1 m2 m3 :
  selection l1 l2 l3 m1 m2 m3 \/ ~ selection l1 l2 l3 m1 m2 m3.
Proof. unfold selection. lia. Qed.

Lemma wigner3j_total l1 l2 l3 m1 m2 m3 : exists x, wigner3j l1 l2 l3 m1 m2 m3 = Ok x.
Proof.
  destruct (selection_em l1 l2 l3 m1 m2 m3) as [H|H].
  - eexists. apply wigner3j_racah, H.
  - eexists. apply wigner3j_zero, H.
Qed.

(** ** Symmetries of the Racah formula *)

Lemma pm1_even_diff a b : Z.even (a - b) = true -> pm1 a = pm1 b.
Proof.
  intros H. unfold pm1. replace a with (b + (a - b))%Z by lia.
  rewrite Z.even_add, H. destruct (Z.even b); reflexivity.
Qed.

Lemma pm1_add a b : pm1 (a + b) = (pm1 a * pm1 b)%R.
Proof. unfold pm1. rewrite Z.even_add. destruct (Z.even a), (Z.even b); simpl; lra. Qed.

Lemma pm1_sub a b : pm1 (a - b) = (pm1 a * pm1 b)%R.
Proof. unfold pm1. rewrite Z.even_sub. destruct (Z.even a), (Z.even b); simpl; lra. Qed.

Lemma pm1_sq a : (pm1 a * pm1 a)%R = 1%R.
Proof. unfold pm1. destruct (Z.even a); lra. Qed.

Lemma pm1_opp a : pm1 (- a) = pm1 a.
Proof. unfold pm1. rewrite Z.even_opp. reflexivity. Qed.

Lemma racah_sum_rev l1 l2 l3 m1 m2 :
  (0 <= l1 + l2 - l3)%Z ->
  racah_sum l1 l2 l3 m1 m2 =
  (pm1 (l1 + l2 - l3) * rsum (Z.to_nat (l1 + l2 - l3 + 1)) (fun k => let t := Z.of_nat k in
    pm1 t * (inv_fact t * inv_fact (l1 + l2 - l3 - t) * inv_fact (l3 - l2 - m1 + t)
             * inv_fact (l3 - l1 + m2 + t) * inv_fact (l1 + m1 - t)
             * inv_fact (l2 - m2 - t))))%R.
Proof.
  intros H. unfold racah_sum. rewrite rsum_rev, <- rsum_scal_l. apply rsum_ext.
  intros k Hk. cbv zeta.
  set (s := (l1 + l2 - l3)%Z) in *.
  replace (Z.of_nat (Z.to_nat (s + 1) - 1 - k)) with (s - Z.of_nat k)%Z by lia.
  set (t := Z.of_nat k). rewrite pm1_sub.
  replace (s - (s - t))%Z with t by lia.
  replace (l1 - m1 - (s - t))%Z with (l3 - l2 - m1 + t)%Z by (unfold s; lia).
  replace (l2 + m2 - (s - t))%Z with (l3 - l1 + m2 + t)%Z by (unfold s; lia).
  replace (l3 - l2 + m1 + (s - t))%Z with (l1 + m1 - t)%Z by (unfold s; lia).
  replace (l3 - l1 - m2 + (s - t))%Z with (l2 - m2 - t)%Z by (unfold s; lia).
  ring.
Qed.

Lemma racah_swap12 l1 l2 l3 m1 m2 m3 :
  (0 <= l1 + l2 - l3)%Z ->
  racah l2 l1 l3 m2 m1 m3 = (pm1 (l1 + l2 + l3) * racah l1 l2 l3 m1 m2 m3)%R.
Proof.
  intros H. unfold racah. rewrite (racah_sum_rev l1 l2 l3 m1 m2 H).
  replace (l2 + l1 - l3)%Z with (l1 + l2 - l3)%Z by lia.
  replace (l2 - l1 + l3)%Z with (- l1 + l2 + l3)%Z by lia.
  replace (- l2 + l1 + l3)%Z with (l1 - l2 + l3)%Z by lia.
  replace (l2 + l1 + l3 + 1)%Z with (l1 + l2 + l3 + 1)%Z by lia.
  replace (pm1 (l2 - l1 - m3)) with (pm1 (l1 - l2 - m3)).
  2:{ apply pm1_even_diff. replace (l1 - l2 - m3 - (l2 - l1 - m3))%Z with (2 * (l1 - l2))%Z by lia.
      apply Z.even_mul. }
  replace (pm1 (l1 + l2 + l3)) with (pm1 (l1 + l2 - l3)).
  2:{ apply pm1_even_diff. replace (l1 + l2 - l3 - (l1 + l2 + l3))%Z with (2 * (- l3))%Z by lia.
      apply Z.even_mul. }
  set (S0 := rsum _ _).
  replace (racah_sum l2 l1 l3 m2 m1) with S0.
  2:{ unfold S0, racah_sum. replace (l2 + l1 - l3)%Z with (l1 + l2 - l3)%Z by lia.
      apply rsum_ext. intros k _. cbv zeta.
      replace (l3 - l1 + m2 + Z.of_nat k)%Z with (l3 - l1 + m2 + Z.of_nat k)%Z by lia.
      replace (l3 - l2 - m1 + Z.of_nat k)%Z with (l3 - l2 - m1 + Z.of_nat k)%Z by lia.
      ring. }
  replace (zfact (l1 + l2 - l3) * zfact (- l1 + l2 + l3) * zfact (l1 - l2 + l3))%R
    with (zfact (l1 + l2 - l3) * zfact (l1 - l2 + l3) * zfact (- l1 + l2 + l3))%R by ring.
  replace (zfact (l2 + m2) * zfact (l2 - m2) * zfact (l1 + m1) * zfact (l1 - m1))%R
    with (zfact (l1 + m1) * zfact (l1 - m1) * zfact (l2 + m2) * zfact (l2 - m2))%R by ring.
  pose proof (pm1_sq (l1 + l2 - l3)) as Hs.
  set (e := pm1 (l1 + l2 - l3)) in *. set (a := pm1 _). set (b := sqrt _). set (c := sqrt _).
  replace (e * (a * b * c * (e * S0)))%R with (e * e * (a * b * c * S0))%R by ring.
  rewrite Hs. ring.
Qed.

Lemma racah_reflect l1 l2 l3 m1 m2 m3 :
  (0 <= l1 + l2 - l3)%Z ->
  racah l1 l2 l3 (- m1) (- m2) (- m3) = (pm1 (l1 + l2 + l3) * racah l1 l2 l3 m1 m2 m3)%R.
Proof.
  intros H. unfold racah. rewrite (racah_sum_rev l1 l2 l3 m1 m2 H).
  replace (pm1 (l1 - l2 - - m3)) with (pm1 (l1 - l2 - m3)).
  2:{ apply pm1_even_diff. replace (l1 - l2 - m3 - (l1 - l2 - - m3))%Z with (2 * (- m3))%Z by lia.
      apply Z.even_mul. }
  replace (pm1 (l1 + l2 + l3)) with (pm1 (l1 + l2 - l3)).
  2:{ apply pm1_even_diff. replace (l1 + l2 - l3 - (l1 + l2 + l3))%Z with (2 * (- l3))%Z by lia.
      apply Z.even_mul. }
  set (S0 := rsum _ _).
  replace (racah_sum l1 l2 l3 (- m1) (- m2)) with S0.
  2:{ unfold S0, racah_sum. apply rsum_ext. intros k _. cbv zeta.
      replace (l1 - - m1 - Z.of_nat k)%Z with (l1 + m1 - Z.of_nat k)%Z by lia.
      replace (l2 + - m2 - Z.of_nat k)%Z with (l2 - m2 - Z.of_nat k)%Z by lia.
      replace (l3 - l2 + - m1 + Z.of_nat k)%Z with (l3 - l2 - m1 + Z.of_nat k)%Z by lia.
      replace (l3 - l1 - - m2 + Z.of_nat k)%Z with (l3 - l1 + m2 + Z.of_nat k)%Z by lia.
      ring. }
  replace (l1 + - m1)%Z with (l1 - m1)%Z by lia. replace (l1 - - m1)%Z with (l1 + m1)%Z by lia.
  replace (l2 + - m2)%Z with (l2 - m2)%Z by lia. replace (l2 - - m2)%Z with (l2 + m2)%Z by lia.
  replace (l3 + - m3)%Z with (l3 - m3)%Z by lia. replace (l3 - - m3)%Z with (l3 + m3)%Z by lia.
  replace (zfact (l1 - m1) * zfact (l1 + m1) * zfact (l2 - m2) * zfact (l2 + m2)
           * zfact (l3 - m3) * zfact (l3 + m3))%R
    with (zfact (l1 + m1) * zfact (l1 - m1) * zfact (l2 + m2) * zfact (l2 - m2)
           * zfact (l3 + m3) * zfact (l3 - m3))%R by ring.
  pose proof (pm1_sq (l1 + l2 - l3)) as Hs.
  set (e := pm1 (l1 + l2 - l3)) in *. set (a := pm1 _). set (b := sqrt _). set (c := sqrt _).
  replace (e * (a * b * c * (e * S0)))%R with (e * e * (a * b * c * S0))%R by ring.
  rewrite Hs. ring.
Qed.

Definition wval (x : res R) : R := match x with Ok v => v | Err _ => 0%R end.

Lemma wigner3j_swap l1 l2 l3 m1 m2 m3 x :
  wigner3j l1 l2 l3 m1 m2 m3 = Ok x ->
  wigner3j l2 l1 l3 m2 m1 m3 = Ok (pm1 (l1 + l2 + l3) * x)%R.
Proof.
  destruct (selection_em l1 l2 l3 m1 m2 m3) as [H|H]; intros E.
  - rewrite wigner3j_racah in E by exact H. injection E as <-.
    rewrite wigner3j_racah by (unfold selection in *; lia).
    rewrite racah_swap12 by (unfold selection in *; lia). reflexivity.
  - rewrite wigner3j_zero in E by exact H. injection E as <-.
    rewrite wigner3j_zero by (unfold selection in *; lia). rewrite Rmult_0_r. reflexivity.
Qed.

Lemma wigner3j_reflect l1 l2 l3 m1 m2 m3 x :
  wigner3j l1 l2 l3 m1 m2 m3 = Ok x ->
  wigner3j l1 l2 l3 (- m1) (- m2) (- m3) = Ok (pm1 (l1 + l2 + l3) * x)%R.
Proof.
  destruct (selection_em l1 l2 l3 m1 m2 m3) as [H|H]; intros E.
  - rewrite wigner3j_racah in E by exact H. injection E as <-.
    rewrite wigner3j_racah by (unfold selection in *; lia).
    rewrite racah_reflect by (unfold selection in *; lia). reflexivity.
  - rewrite wigner3j_zero in E by exact H. injection E as <-.
    rewrite wigner3j_zero by (unfold selection in *; lia). rewrite Rmult_0_r. reflexivity.
Qed.

Lemma wigner3j_parity l1 l2 l3 :
  Z.odd (l1 + l2 + l3) = true -> wigner3j l1 l2 l3 0 0 0 = Ok 0%R.
Proof.
  intros Ho. destruct (wigner3j_total l1 l2 l3 0 0 0) as [x Hx].
  pose proof (wigner3j_reflect _ _ _ _ _ _ _ Hx) as Hr. simpl in Hr. rewrite Hx in Hr.
  assert (E : pm1 (l1 + l2 + l3) = (-1)%R).
  { unfold pm1. rewrite <- Z.negb_odd, Ho. reflexivity. }
  rewrite E in Hr. injection Hr as Hr. rewrite Hx. f_equal. lra.
Qed.
