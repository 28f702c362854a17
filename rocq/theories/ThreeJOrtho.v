(** * Orthogonality of the Wigner 3j symbols. *)
From Coq Require Import List ZArith Arith Lia Bool Reals Lra.
From Coquelicot Require Import Coquelicot.
From Verif Require Import Base ListLemmas RSum CSum Numpy OrthoProofs SpecWigner WignerProofs Wigner SpecHarmonics SpecLegendre LegendreProofs LatLonIntegrals CapProofs
  ThreeJProofs AssocProofs TextbookProofs.
Import ListNotations.
Local Open Scope R_scope.

(** ** Different degrees *)
Section Cross.
  Variables l p n n' : Z.
  Hypothesis Hl : (0 <= l)%Z.
  Hypothesis Hn : (0 <= n)%Z.
  Hypothesis Hn' : (0 <= n')%Z.
  Notation S := (racah_sum l n p).
  Notation S' := (racah_sum l n' p).
  Notation rho := (rho l p).

  Definition cross (u : Z) : R := osum l (fun m => rho m u * (S m u * S' m u)).

  Lemma cross_step u : IZR (n + u) * cross u = IZR (n' - u + 1) * cross (u - 1)%Z.
  Proof.
    unfold cross. rewrite <- !osum_scal.
    set (f := fun m => rho m (u - 1)%Z * IZR (l - m + 1) * S' (m - 1)%Z u * S m (u - 1)%Z).
    rewrite (osum_ext l (fun m => IZR (n + u) * _) (fun m => rho m u * IZR (p - m - u + 1) * S' m u * S m (u - 1)%Z - f (m + 1)%Z)).
    rewrite (osum_ext l (fun m => IZR (n' - u + 1) * _) (fun m => rho m (u - 1)%Z * IZR (p + m + u) * S' m u * S m (u - 1)%Z - f m)).
    - rewrite !osum_minus. f_equal.
      + apply osum_ext. intros m Hm.
        destruct (Z_lt_dec p (Z.abs (m + u))); [rewrite (S_outside l n' p m u) by lia; ring|].
        destruct (Z_lt_dec p (Z.abs (m + (u - 1)))); [rewrite (S_outside l n p m (u - 1)) by lia; ring|].
        enough (E : rho m u * IZR (p - m - u + 1) = rho m (u - 1)%Z * IZR (p + m + u)) by (rewrite E; reflexivity).
        unfold ThreeJProofs.rho. replace (p - m - (u - 1))%Z with (p - m - u + 1)%Z by lia. replace (p + m + (u - 1))%Z with (p + m + u - 1)%Z by lia.
        rewrite (zfact_step (p + m + u)) by lia. rewrite (zfact_step (p - m - u + 1)) by lia. replace (p - m - u + 1 - 1)%Z with (p - m - u)%Z by lia. ring.
      + apply osum_shift; [exact Hl| |]; unfold f.
        * rewrite (S_outside l n' p (- l - 1) u) by lia. ring.
        * rewrite (S_outside l n p (l + 1) (u - 1)) by lia. ring.
    - intros m Hm. unfold f. pose proof (ladder_up l n' p m u) as U.
      transitivity (rho m (u - 1)%Z * S m (u - 1)%Z * (IZR (n' - u + 1) * S' m (u - 1)%Z)); [ring|].
      replace (IZR (n' - u + 1) * S' m (u - 1)%Z) with (IZR (p + m + u) * S' m u - IZR (l - m + 1) * S' (m - 1)%Z u) by lra. ring.
    - intros m Hm. unfold f. pose proof (ladder_down l n p m (u - 1)) as D.
      replace (u - 1 + 1)%Z with u in D by lia. replace (n + (u - 1) + 1)%Z with (n + u)%Z in D by lia.
      transitivity (rho m u * S' m u * (IZR (n + u) * S m u)); [ring|].
      replace (IZR (n + u) * S m u) with (IZR (p - m - (u - 1)) * S m (u - 1)%Z - IZR (l + m + 1) * S (m + 1)%Z (u - 1)%Z) by lra.
      replace (p - m - (u - 1))%Z with (p - m - u + 1)%Z by lia. replace (m + 1 - 1)%Z with m by lia.
      destruct (Z_lt_dec p (Z.abs (m + u))); [rewrite (S_outside l n' p m u) by lia; ring|].
      destruct (Z.eq_dec m l) as [->|N]; [rewrite (S_outside l n p (l + 1) (u - 1)) by lia; ring|].
      enough (E : rho m u * IZR (l + m + 1) = rho (m + 1)%Z (u - 1)%Z * IZR (l - (m + 1) + 1)).
      { transitivity (rho m u * IZR (p - m - u + 1) * S' m u * S m (u - 1)%Z - rho m u * IZR (l + m + 1) * S' m u * S (m + 1)%Z (u - 1)%Z); [ring|]. rewrite E. reflexivity. }
      unfold ThreeJProofs.rho. replace (p + (m + 1) + (u - 1))%Z with (p + m + u)%Z by lia. replace (p - (m + 1) - (u - 1))%Z with (p - m - u)%Z by lia.
      replace (l + (m + 1))%Z with (l + m + 1)%Z by lia. rewrite (zfact_step (l + m + 1)) by lia. replace (l + m + 1 - 1)%Z with (l + m)%Z by lia.
      replace (l - (m + 1) + 1)%Z with (l - m)%Z by lia. rewrite (zfact_step (l - m)) by lia. replace (l - (m + 1))%Z with (l - m - 1)%Z by lia. ring.
  Qed.
End Cross.

Lemma cross_sym l p n n' u : cross l p n' n u = cross l p n n' u.
Proof. unfold cross. apply osum_ext. intros; ring. Qed.

Lemma cross_zero l p n n' u : (0 <= l)%Z -> (0 <= n)%Z -> (0 <= n')%Z -> n <> n' -> cross l p n n' u = 0.
Proof.
  intros Hl Hn Hn' N. pose proof (cross_step l p n n' Hl u) as A. pose proof (cross_step l p n' n Hl u) as B. rewrite (cross_sym l p n n' u), (cross_sym l p n n' (u - 1)%Z) in B.
  set (x := cross l p n n' u) in *. set (y := cross l p n n' (u - 1)%Z) in *.
  rewrite !plus_IZR, !minus_IZR in A, B.
  assert (D : IZR n - IZR n' <> 0) by (rewrite <- minus_IZR; apply not_0_IZR; lia).
  assert (P : 0 < IZR n + IZR n' + 1) by (rewrite <- !plus_IZR; apply IZR_lt; lia).
  assert (E : x = - y). { apply (Rmult_eq_reg_l (IZR n - IZR n')); [|exact D]. lra. }
  assert (Q : (IZR n + IZR n' + 1) * x = 0). { replace y with (- x) in A by lra. lra. }
  apply Rmult_integral in Q. lra.
Qed.

Lemma norm_order l n p u : (0 <= l)%Z -> (0 <= n)%Z -> (Z.abs (l - n) <= p <= l + n)%Z -> (Z.abs u <= n)%Z ->
  norm l n p u * (zfact (l + n - p) * zfact (n + p - l) * zfact (l + p - n) * (IZR (2 * n + 1) * (zfact (n + u) * zfact (n - u)))) = zfact (l + n + p + 1).
Proof.
  intros Hl Hn Ht Hu. rewrite <- (norm_bottom l n p Hl Ht). pose proof (norm_climb l n p Hl (Z.to_nat (n + u)) ltac:(lia)) as C.
  rewrite Z2Nat.id in C by lia. replace (- n + (n + u))%Z with u in C by lia. replace (2 * n - (n + u))%Z with (n - u)%Z in C by lia.
  rewrite (zfact_step (2 * n + 1)) by lia. replace (2 * n + 1 - 1)%Z with (2 * n)%Z by lia.
  set (A := zfact (l + n - p)). set (B := zfact (n + p - l)). set (D := zfact (l + p - n)).
  transitivity (norm l n p u * (zfact (n + u) * zfact (n - u)) * (A * B * D * IZR (2 * n + 1))); [ring|]. rewrite C. ring.
Qed.

(** ** The symbol as a scaled sum *)
Definition factor (l n p u : Z) : R :=
  sqrt (zfact (l + n - p) * zfact (l - n + p) * zfact (- l + n + p) / zfact (l + n + p + 1) * (zfact (n + u) * zfact (n - u))).

Lemma rho_pos l p m u : 0 < rho l p m u.
Proof. unfold rho. repeat apply Rmult_lt_0_compat; apply zfact_pos. Qed.

Lemma racah_factor l n p m u : racah l n p m u (- m - u) = pm1 (l - n) * factor l n p u * (pm1 (m + u) * (sqrt (rho l p m u) * racah_sum l n p m u)).
Proof.
  unfold racah, factor. replace (l - n - (- m - u))%Z with ((l - n) + (m + u))%Z by lia. rewrite WignerProofs.pm1_add.
  assert (D : 0 < zfact (l + n - p) * zfact (l - n + p) * zfact (- l + n + p) / zfact (l + n + p + 1))
    by (apply Rdiv_lt_0_compat; repeat apply Rmult_lt_0_compat; apply zfact_pos).
  set (d := zfact (l + n - p) * zfact (l - n + p) * zfact (- l + n + p) / zfact (l + n + p + 1)) in *.
  pose proof (zfact_pos (n + u)) as A. pose proof (zfact_pos (n - u)) as B. pose proof (rho_pos l p m u) as P.
  replace (zfact (l + m) * zfact (l - m) * zfact (n + u) * zfact (n - u) * zfact (p + (- m - u)) * zfact (p - (- m - u)))
    with ((zfact (n + u) * zfact (n - u)) * rho l p m u).
  - rewrite !sqrt_mult; try (apply Rlt_le; assumption); try (apply Rlt_le, Rmult_lt_0_compat; assumption). ring.
  - unfold rho. replace (p + (- m - u))%Z with (p - m - u)%Z by lia. replace (p - (- m - u))%Z with (p + m + u)%Z by lia. ring.
Qed.

(** The sum over the orders. *)
Lemma racah_orders l n n' p u : (0 <= l)%Z -> (0 <= n)%Z -> (0 <= n')%Z -> (Z.abs (l - n) <= p <= l + n)%Z -> (Z.abs u <= n)%Z ->
  osum l (fun m => racah l n p m u (- m - u) * racah l n' p m u (- m - u)) = if (n =? n')%Z then / IZR (2 * n + 1) else 0.
Proof.
  intros Hl Hn Hn' Ht Hu.
  rewrite (osum_ext l _ (fun m => pm1 (l - n) * factor l n p u * (pm1 (l - n') * factor l n' p u) * (rho l p m u * (racah_sum l n p m u * racah_sum l n' p m u)))).
  - rewrite osum_scal. destruct (Z.eqb_spec n n') as [<-|N].
    + change (osum l _) with (norm l n p u). pose proof (norm_order l n p u Hl Hn Ht Hu) as E.
      pose proof (zfact_pos (l + n - p)) as Z1. pose proof (zfact_pos (l - n + p)) as Z2. pose proof (zfact_pos (- l + n + p)) as Z3. pose proof (zfact_pos (l + n + p + 1)) as Z4.
      pose proof (zfact_pos (n + u)) as Z5. pose proof (zfact_pos (n - u)) as Z6. assert (N1 : 0 < IZR (2 * n + 1)) by (apply IZR_lt; lia).
      assert (F : factor l n p u * factor l n p u = zfact (l + n - p) * zfact (l - n + p) * zfact (- l + n + p) / zfact (l + n + p + 1) * (zfact (n + u) * zfact (n - u))).
      { unfold factor. apply sqrt_sqrt. apply Rlt_le, Rmult_lt_0_compat; [apply Rdiv_lt_0_compat; [repeat apply Rmult_lt_0_compat; assumption|assumption]|apply Rmult_lt_0_compat; assumption]. }
      transitivity (pm1 (l - n) * pm1 (l - n) * (factor l n p u * factor l n p u) * norm l n p u); [ring|]. rewrite WignerProofs.pm1_sq, F.
      replace (n + p - l)%Z with (- l + n + p)%Z in E by lia. replace (l + p - n)%Z with (l - n + p)%Z in E by lia.
      rewrite <- E. set (x := norm l n p u) in *.
      assert (X : x <> 0). { intros X0. rewrite X0 in E. lra. }
      field. repeat split; lra.
    + change (osum l _) with (cross l p n n' u). rewrite cross_zero by assumption. ring.
  - intros m _. rewrite !racah_factor. pose proof (WignerProofs.pm1_sq (m + u)) as Q. pose proof (sqrt_sqrt (rho l p m u) (Rlt_le _ _ (rho_pos l p m u))) as R.
    set (r := rho l p m u) in *. set (s := sqrt r) in *. set (e := pm1 (m + u)) in *.
    transitivity (pm1 (l - n) * factor l n p u * (pm1 (l - n') * factor l n' p u) * ((e * e) * (s * s) * (racah_sum l n p m u * racah_sum l n' p m u))); [ring|].
    rewrite Q, R. ring.
Qed.

Lemma racah_outside l n p m u : (p < Z.abs (m + u))%Z -> racah l n p m u (- m - u) = 0.
Proof. intros H. rewrite racah_factor, S_outside by lia. ring. Qed.

(** The sum over the degrees. *)
Section Degrees.
  Variables l p u : Z.
  Hypothesis Hl : (0 <= l)%Z.
  Hypothesis Hp : (0 <= p)%Z.
  Hypothesis Hu : (Z.abs u <= l + p)%Z.
  Let nlo := Z.max (Z.abs (l - p)) (Z.abs u).
  Let mlo := Z.max (- l) (- p - u).
  Let K := Z.to_nat (l + p - nlo + 1).

  Let v (k i : nat) : C := let n := (nlo + Z.of_nat k)%Z in let m := (mlo + Z.of_nat i)%Z in
    RtoC (sqrt (IZR (2 * n + 1)) * racah l n p m u (- m - u)).

  Lemma v_ortho a b : (a < K)%nat -> (b < K)%nat -> ip K (v a) (v b) = if Nat.eqb a b then RtoC 1 else RtoC 0.
  Proof.
    intros Ha Hb. set (n := (nlo + Z.of_nat a)%Z). set (n' := (nlo + Z.of_nat b)%Z).
    assert (P : 0 < IZR (2 * n + 1)) by (apply IZR_lt; unfold n, nlo; lia).
    unfold ip. rewrite (csum_ext K _ (fun i => RtoC (sqrt (IZR (2 * n + 1)) * sqrt (IZR (2 * n' + 1)) *
      ((fun m => racah l n p m u (- m - u) * racah l n' p m u (- m - u)) (mlo + Z.of_nat i)%Z)))).
    - rewrite csum_RtoC, rsum_scal_l.
      assert (E : rsum K (fun i => (fun m => racah l n p m u (- m - u) * racah l n' p m u (- m - u)) (mlo + Z.of_nat i)%Z) =
        osum l (fun m => racah l n p m u (- m - u) * racah l n' p m u (- m - u))).
      { unfold osum. set (f := fun m => racah l n p m u (- m - u) * racah l n' p m u (- m - u)).
        set (A := Z.to_nat (mlo + l)). set (B := (Z.to_nat (2 * l + 1) - A - K)%nat).
        replace (Z.to_nat (2 * l + 1)) with (A + (K + B))%nat by (unfold A, B, K, nlo, mlo; lia). rewrite !rsum_app.
        rewrite (rsum_zero A), (rsum_zero B), Rplus_0_l, Rplus_0_r.
        - apply rsum_ext. intros i _. change (f (mlo + Z.of_nat i)%Z = f (Z.of_nat (A + i) - l)%Z). replace (Z.of_nat (A + i) - l)%Z with (mlo + Z.of_nat i)%Z by (unfold A, mlo; lia). reflexivity.
        - intros i Hi. unfold f. rewrite (racah_outside l n p) by (unfold A, B, K, nlo, mlo in *; lia). ring.
        - intros i Hi. unfold f. rewrite (racah_outside l n p) by (unfold A, mlo in *; lia). ring. }
      rewrite E, racah_orders by (unfold n, n', K, nlo in *; lia).
      destruct (Nat.eqb_spec a b) as [<-|N].
      + unfold n'. fold n. rewrite Z.eqb_refl, sqrt_sqrt by lra. f_equal. field. lra.
      + rewrite (proj2 (Z.eqb_neq n n')) by (unfold n, n'; lia). f_equal. ring.
    - intros i _. unfold v. cbv zeta. rewrite Cconj_R, <- RtoC_mult. f_equal. fold n n'. ring.
  Qed.

  Lemma racah_degrees m m' : (Z.abs m <= l)%Z -> (Z.abs m' <= l)%Z -> (Z.abs (m + u) <= p)%Z -> (Z.abs (m' + u) <= p)%Z ->
    rsum K (fun k => let n := (nlo + Z.of_nat k)%Z in IZR (2 * n + 1) * (racah l n p m u (- m - u) * racah l n p m' u (- m' - u))) = if (m =? m')%Z then 1 else 0.
  Proof.
    intros A B A' B'. pose proof (completeness K v v_ortho (Z.to_nat (m - mlo)) (Z.to_nat (m' - mlo)) ltac:(unfold K, nlo, mlo; lia) ltac:(unfold K, nlo, mlo; lia)) as E.
    rewrite (csum_ext K _ (fun k => RtoC (let n := (nlo + Z.of_nat k)%Z in IZR (2 * n + 1) * (racah l n p m u (- m - u) * racah l n p m' u (- m' - u))))) in E.
    - rewrite csum_RtoC in E. cbv zeta in *. apply RtoC_inj. rewrite E. destruct (Z.eqb_spec m m') as [<-|N]; [rewrite Nat.eqb_refl; reflexivity|].
      rewrite (proj2 (Nat.eqb_neq _ _)) by (unfold mlo; lia). reflexivity.
    - intros k Hk. unfold v. cbv zeta. set (n := (nlo + Z.of_nat k)%Z).
      replace (mlo + Z.of_nat (Z.to_nat (m - mlo)))%Z with m by (unfold mlo; lia). replace (mlo + Z.of_nat (Z.to_nat (m' - mlo)))%Z with m' by (unfold mlo; lia).
      rewrite Cconj_R, <- RtoC_mult. f_equal. assert (P : 0 <= IZR (2 * n + 1)) by (apply IZR_le; unfold n, nlo; lia).
      pose proof (sqrt_sqrt _ P) as Q. rewrite <- Q at 3. ring.
  Qed.
End Degrees.

(** ** Exchanging the outer columns, middle order zero *)
Section Exchange.
  Variables l p n : Z.
  Hypothesis Hl : (0 <= l)%Z.
  Hypothesis Hp : (0 <= p)%Z.
  Hypothesis Hn : (0 <= n)%Z.
  Hypothesis tri : (Z.abs (l - n) <= p <= l + n)%Z.
  Let f m := racah_sum l n p m 0.
  Let g m := racah_sum p n l m 0.
  Let q := Z.min l p.

  Lemma recurrence h m c : IZR (n * (n + 1)) * h m = IZR (l * (l + 1) + p * (p + 1) - 2 * m * m) * h m
      - IZR ((p + m + 1) * (l + m + 1)) * h (m + 1)%Z - IZR ((l - m + 1) * (p - m + 1)) * h (m - 1)%Z ->
    (- q <= m)%Z -> h m = c * 0 -> h (m - 1)%Z = 0 -> h (m + 1)%Z = 0.
  Proof.
    intros E Hm H0 H1. rewrite H0, H1 in E.
    assert (N : IZR ((p + m + 1) * (l + m + 1)) <> 0) by (apply not_0_IZR; unfold q in Hm; nia).
    assert (Q : IZR ((p + m + 1) * (l + m + 1)) * h (m + 1)%Z = 0) by lra. apply Rmult_integral in Q. tauto.
  Qed.

  Lemma proportional m : g m * f (- q)%Z = f m * g (- q)%Z.
  Proof.
    set (h := fun m => g m * f (- q)%Z - f m * g (- q)%Z).
    assert (R : forall m, IZR (n * (n + 1)) * h m = IZR (l * (l + 1) + p * (p + 1) - 2 * m * m) * h m
      - IZR ((p + m + 1) * (l + m + 1)) * h (m + 1)%Z - IZR ((l - m + 1) * (p - m + 1)) * h (m - 1)%Z).
    { intros k. pose proof (three_term l n p k) as A. pose proof (three_term p n l k) as B. unfold h, f, g in *.
      replace (p * (p + 1) + l * (l + 1) - 2 * k * k)%Z with (l * (l + 1) + p * (p + 1) - 2 * k * k)%Z in B by lia.
      replace ((l + k + 1) * (p + k + 1))%Z with ((p + k + 1) * (l + k + 1))%Z in B by lia. replace ((p - k + 1) * (l - k + 1))%Z with ((l - k + 1) * (p - k + 1))%Z in B by lia.
      set (x := IZR (n * (n + 1))) in *. set (y := IZR (l * (l + 1) + p * (p + 1) - 2 * k * k)) in *. set (z := IZR ((p + k + 1) * (l + k + 1))) in *. set (w := IZR ((l - k + 1) * (p - k + 1))) in *.
      set (f0 := racah_sum l n p (- q) 0). set (g0 := racah_sum p n l (- q) 0).
      transitivity (f0 * (x * racah_sum p n l k 0) - g0 * (x * racah_sum l n p k 0)); [ring|]. rewrite A, B. ring. }
    assert (O : forall m, (m < - q)%Z -> h m = 0).
    { intros k Hk. unfold h, f, g. rewrite (S_outside l n p k 0), (S_outside p n l k 0) by (unfold q in Hk; lia). ring. }
    assert (Z0 : h (- q)%Z = 0) by (unfold h; ring).
    assert (I : forall j, h (- q + Z.of_nat j)%Z = 0 /\ h (- q + Z.of_nat j - 1)%Z = 0).
    { induction j as [|j [A B]].
      - replace (- q + Z.of_nat 0)%Z with (- q)%Z by lia. split; [exact Z0|apply O; lia].
      - replace (- q + Z.of_nat (S j))%Z with (- q + Z.of_nat j + 1)%Z by lia. split.
        + apply (recurrence h _ 0 (R _)); [lia|rewrite A; ring|exact B].
        + replace (- q + Z.of_nat j + 1 - 1)%Z with (- q + Z.of_nat j)%Z by lia. exact A. }
    assert (E : h m = 0). { destruct (Z_lt_dec m (- q)) as [H|H]; [apply O; exact H|]. replace m with (- q + Z.of_nat (Z.to_nat (m + q)))%Z by lia. apply I. }
    unfold h in E. lra.
  Qed.

  Lemma osum_cut a h : (q <= a)%Z -> (0 <= q)%Z -> (forall m, (q < Z.abs m)%Z -> h m = 0) -> osum a h = osum q h.
  Proof.
    intros A B Z. unfold osum. replace (Z.to_nat (2 * a + 1)) with (Z.to_nat (a - q) + (Z.to_nat (2 * q + 1) + Z.to_nat (a - q)))%nat by lia.
    rewrite !rsum_app, (rsum_zero (Z.to_nat (a - q)) (fun i => h (Z.of_nat i - a)%Z)), (rsum_zero (Z.to_nat (a - q)) (fun i => h (Z.of_nat (_ + (_ + i)) - a)%Z)).
    - rewrite Rplus_0_l, Rplus_0_r. apply rsum_ext. intros i _. f_equal. lia.
    - intros i Hi. apply Z. lia.
    - intros i Hi. apply Z. lia.
  Qed.

  Lemma exchange m : g m * g m = f m * f m.
  Proof.
    assert (Q0 : (0 <= q)%Z) by (unfold q; lia).
    assert (F : osum q (fun m => weight l p m * (f m * f m)) = norm l n p 0).
    { symmetry. unfold norm. fold f. change (osum l _) with (osum l (fun m => weight l p m * (f m * f m))).
      apply osum_cut; [unfold q; lia|exact Q0|]. intros k Hk. unfold f. rewrite S_outside by (unfold q in Hk; lia). ring. }
    assert (G : osum q (fun m => weight l p m * (g m * g m)) = norm p n l 0).
    { symmetry. unfold norm. change (osum p _) with (osum p (fun m => rho p l m 0 * (g m * g m))).
      rewrite (osum_ext p _ (fun m => weight l p m * (g m * g m))) by (intros k _; unfold weight, rho; rewrite ?Z.add_0_r, ?Z.sub_0_r; ring).
      apply osum_cut; [unfold q; lia|exact Q0|]. intros k Hk. unfold g. rewrite S_outside by (unfold q in Hk; lia). ring. }
    pose proof (norm_zero l n p Hl Hn tri) as NF. pose proof (norm_zero p n l Hp Hn ltac:(lia)) as NG.
    pose proof (norm_pos l n p Hl Hn tri) as PF.
    assert (NE : norm p n l 0 = norm l n p 0).
    { replace (p + n - l)%Z with (n + p - l)%Z in NG by lia. replace (n + l - p)%Z with (l + n - p)%Z in NG by lia. replace (p + l - n)%Z with (l + p - n)%Z in NG by lia.
      replace (p + n + l + 1)%Z with (l + n + p + 1)%Z in NG by lia. rewrite <- NF in NG.
      pose proof (zfact_pos (l + n - p)). pose proof (zfact_pos (n + p - l)). pose proof (zfact_pos (l + p - n)). pose proof (zfact_pos n). assert (0 < IZR (2 * n + 1)) by (apply IZR_lt; lia).
      set (A := zfact (l + n - p)) in *. set (B := zfact (n + p - l)) in *. set (D := zfact (l + p - n)) in *.
      assert (T : 0 < A * B * D * (IZR (2 * n + 1) * (zfact n * zfact n))) by (repeat apply Rmult_lt_0_compat; assumption).
      apply (Rmult_eq_reg_r (A * B * D * (IZR (2 * n + 1) * (zfact n * zfact n)))); [|lra]. rewrite <- NG. ring. }
    set (f0 := f (- q)%Z). set (g0 := g (- q)%Z).
    assert (SQ : f0 * f0 * norm p n l 0 = g0 * g0 * norm l n p 0).
    { rewrite <- F, <- G, <- !osum_scal. apply osum_ext. intros k _. pose proof (proportional k) as P. fold f0 g0 in P.
      transitivity (weight l p k * ((g k * f0) * (g k * f0))); [ring|]. rewrite P. ring. }
    rewrite NE in SQ. apply Rmult_eq_reg_r in SQ; [|lra].
    assert (N0 : f0 * f0 <> 0).
    { intros Z. assert (F0 : f0 = 0) by (apply Rmult_integral in Z; tauto). rewrite Z in SQ. symmetry in SQ. assert (G0 : g0 = 0) by (apply Rmult_integral in SQ; tauto).
      assert (A : forall j, f (- q + Z.of_nat j)%Z = 0 /\ f (- q + Z.of_nat j - 1)%Z = 0).
      { induction j as [|j [A B]].
        - replace (- q + Z.of_nat 0)%Z with (- q)%Z by lia. split; [exact F0|]. unfold f. apply S_outside. unfold q. lia.
        - replace (- q + Z.of_nat (S j))%Z with (- q + Z.of_nat j + 1)%Z by lia. split.
          + apply (recurrence f _ 0 (three_term l n p _)); [lia|rewrite A; ring|exact B].
          + replace (- q + Z.of_nat j + 1 - 1)%Z with (- q + Z.of_nat j)%Z by lia. exact A. }
      assert (V : osum q (fun m => weight l p m * (f m * f m)) = 0).
      { unfold osum. apply rsum_zero. intros i _. replace (Z.of_nat i - q)%Z with (- q + Z.of_nat i)%Z by lia. rewrite (proj1 (A i)). ring. }
      lra. }
    pose proof (proportional m) as P. fold f0 g0 in P.
    apply (Rmult_eq_reg_r (f0 * f0)); [|exact N0]. transitivity ((g m * f0) * (g m * f0)); [ring|]. rewrite P.
    transitivity (f m * f m * (g0 * g0)); [ring|]. rewrite <- SQ. ring.
  Qed.
End Exchange.
