(** * The integral of three Legendre polynomials. *)
From Coq Require Import List ZArith Arith Lia Bool Reals Lra.
From Coquelicot Require Import Coquelicot.
From Verif Require Import Base ListLemmas RSum CSum Numpy OrthoProofs SpecWigner WignerProofs Wigner SpecHarmonics SpecLegendre LegendreProofs LatLonIntegrals CapProofs
  ThreeJProofs AssocProofs TextbookProofs ThreeJOrtho.
Import ListNotations.
Local Open Scope R_scope.

Ltac rring := match goal with |- @eq _ ?a ?b => change (@eq R a b); ring end.

Lemma legendre_product l p x : (l <= p)%nat ->
  legendre l x * legendre p x = rsum (2 * l + 1) (fun k =>
    let n := (Z.of_nat p - Z.of_nat l + Z.of_nat k)%Z in
    IZR (2 * n + 1) * (racah (Z.of_nat l) n (Z.of_nat p) 0 0 0 * racah (Z.of_nat l) n (Z.of_nat p) 0 0 0) * legendre (Z.to_nat n) x).
Proof.
  intros H. pose proof (ph_expansion l p H 0%Z x ltac:(lia)) as E. cbv zeta in E.
  unfold ph in E. change (Z.abs_nat 0) with 0%nat in E. unfold pr in E. rewrite !dl_0, !Nat.add_0_r in E. cbn [pow] in E.
  pose proof (INR_fact_lt_0 l) as A. pose proof (INR_fact_lt_0 p) as B.
  assert (Q : legendre l x * legendre p x = INR (fact l) * INR (fact p) * (1 * legendre l x * legendre p x / (INR (fact l) * INR (fact p)))) by (field; lra).
  rewrite Q, E. unfold dsum. replace (Z.to_nat (2 * Z.of_nat l + 1)) with (2 * l + 1)%nat by lia. rewrite <- rsum_scal_l. apply rsum_ext. intros k Hk.
  cbv zeta. set (n := (Z.of_nat p - Z.of_nat l + Z.of_nat k)%Z).
  pose proof (racah_norm (Z.of_nat l) n (Z.of_nat p) 0 ltac:(lia) ltac:(lia) ltac:(unfold n; lia) ltac:(unfold n; lia)) as N.
  change (- 0)%Z with 0%Z in N. change (pm1 0) with 1 in N.
  replace (sqrt (weight (Z.of_nat l) (Z.of_nat p) 0)) with (INR (fact l) * INR (fact p)) in N.
  - unfold zfact in N. rewrite !Nat2Z.id in N. rewrite Rmult_assoc in N.
    transitivity (IZR (2 * n + 1) * (racah (Z.of_nat l) n (Z.of_nat p) 0 0 0 * racah (Z.of_nat l) n (Z.of_nat p) 0 0 0) * legendre (Z.to_nat n) x); [|reflexivity].
    rewrite N. ring.
  - pose proof (weight_nat l p 0 ltac:(lia) H) as W. change (Z.of_nat 0) with 0%Z in W. rewrite W, !Nat.add_0_r, !Nat.sub_0_r.
    replace (INR (fact l) * INR (fact l) * INR (fact p) * INR (fact p)) with ((INR (fact l) * INR (fact p)) * (INR (fact l) * INR (fact p))) by ring.
    rewrite sqrt_square; [reflexivity|]. apply Rlt_le, Rmult_lt_0_compat; assumption.
Qed.

Lemma edge_full n : edge n (cos PI) - edge n (cos 0) = if (n =? 0)%nat then 2 else 0.
Proof.
  rewrite edge_north, cos_PI. replace (edge n (-1)) with (edge n (- (1))) by (f_equal; ring). unfold edge. destruct n as [|n]; cbn [Nat.eqb].
  - rewrite legendre_1. ring.
  - rewrite !legendre_neg, !legendre_at_1. cbn [pow]. ring.
Qed.

Lemma legendre_ortho_le l p : (l <= p)%nat ->
  is_RInt (fun t => legendre l (cos t) * legendre p (cos t) * sin t) 0 PI (if (l =? p)%nat then 2 / (2 * INR l + 1) else 0).
Proof.
  intros H. set (n := fun k : nat => (Z.of_nat p - Z.of_nat l + Z.of_nat k)%Z). set (c := fun k => racah (Z.of_nat l) (n k) (Z.of_nat p) 0 0 0).
  apply (is_RInt_ext (fun t => rsum (2 * l + 1) (fun k => (c k * c k) * ((2 * INR (Z.to_nat (n k)) + 1) * legendre (Z.to_nat (n k)) (cos t) * sin t)))).
  - intros t _. rewrite legendre_product by exact H. rewrite <- rsum_scal_r. apply rsum_ext. intros k _. cbv zeta. fold (n k). fold (c k).
    rewrite plus_IZR, mult_IZR, INR_IZR_INZ, Z2Nat.id by (unfold n; lia). ring.
  - apply (is_RInt_val _ _ _ (rsum (2 * l + 1) (fun k => (c k * c k) * (edge (Z.to_nat (n k)) (cos PI) - edge (Z.to_nat (n k)) (cos 0))))).
    + rewrite (rsum_single _ 0%nat); [|lia|].
      * rewrite edge_full. unfold c, n. destruct (Nat.eqb_spec l p) as [<-|N].
        -- replace (Z.of_nat l - Z.of_nat l + Z.of_nat 0)%Z with 0%Z by lia. cbn [Z.to_nat Nat.eqb].
           pose proof (racah_l0l (Z.of_nat l) 0 ltac:(lia)) as Q. change (- 0)%Z with 0%Z in Q. rewrite Q.
           assert (P : 0 < IZR (2 * Z.of_nat l + 1)) by (apply IZR_lt; lia).
           pose proof (sqrt_sqrt _ (Rlt_le _ _ (Rinv_0_lt_compat _ P))) as S. pose proof (WignerProofs.pm1_sq (Z.of_nat l + 0)) as G.
           set (e := pm1 (Z.of_nat l + 0)) in *. set (s := sqrt (/ IZR (2 * Z.of_nat l + 1))) in *.
           transitivity ((e * e) * (s * s) * 2); [ring|]. rewrite G, S. rewrite plus_IZR, mult_IZR, <- INR_IZR_INZ. field. pose proof (pos_INR l). lra.
        -- rewrite (proj2 (Nat.eqb_neq _ _)) by lia. ring.
      * intros k _ Hk. rewrite edge_full, (proj2 (Nat.eqb_neq _ _)) by (unfold n; lia). ring.
    + apply is_RInt_rsum. intros k _. apply (is_RInt_scal (V := R_NormedModule)). apply legendre_integral.
Qed.

Lemma legendre_ortho l p : is_RInt (fun t => legendre l (cos t) * legendre p (cos t) * sin t) 0 PI (if (l =? p)%nat then 2 / (2 * INR l + 1) else 0).
Proof.
  destruct (le_lt_dec l p) as [H|H]; [apply legendre_ortho_le, H|].
  apply (is_RInt_ext (fun t => legendre p (cos t) * legendre l (cos t) * sin t)); [intros t _; apply Rmult_eq_compat_r, Rmult_comm|].
  pose proof (legendre_ortho_le p l ltac:(lia)) as E. rewrite (proj2 (Nat.eqb_neq l p)) by lia. rewrite (proj2 (Nat.eqb_neq p l)) in E by lia. exact E.
Qed.

Lemma triple_le l n p : (l <= p)%nat ->
  is_RInt (fun t => legendre l (cos t) * legendre n (cos t) * legendre p (cos t) * sin t) 0 PI
    (if (p - l <=? n)%nat && (n <=? p + l)%nat then 2 * (racah (Z.of_nat l) (Z.of_nat n) (Z.of_nat p) 0 0 0 * racah (Z.of_nat l) (Z.of_nat n) (Z.of_nat p) 0 0 0) else 0).
Proof.
  intros H. set (N := fun k : nat => (Z.of_nat p - Z.of_nat l + Z.of_nat k)%Z). set (c := fun k => racah (Z.of_nat l) (N k) (Z.of_nat p) 0 0 0).
  apply (is_RInt_ext (fun t => rsum (2 * l + 1) (fun k => (IZR (2 * N k + 1) * (c k * c k)) * (legendre (Z.to_nat (N k)) (cos t) * legendre n (cos t) * sin t)))).
  - intros t _. transitivity (legendre l (cos t) * legendre p (cos t) * (legendre n (cos t) * sin t)); [|rring].
    rewrite legendre_product by exact H. rewrite <- rsum_scal_r. apply rsum_ext. intros k _. cbv zeta. fold (N k). fold (c k). ring.
  - apply (is_RInt_val _ _ _ (rsum (2 * l + 1) (fun k => (IZR (2 * N k + 1) * (c k * c k)) * (if (Z.to_nat (N k) =? n)%nat then 2 / (2 * INR (Z.to_nat (N k)) + 1) else 0)))).
    + destruct (_ && _) eqn:B.
      * apply andb_true_iff in B. destruct B as [B1 B2]. apply Nat.leb_le in B1. apply Nat.leb_le in B2.
        rewrite (rsum_single _ (n - (p - l))%nat); [|lia|].
        -- unfold c. replace (N (n - (p - l))%nat) with (Z.of_nat n) by (unfold N; lia). rewrite Nat2Z.id, Nat.eqb_refl.
           rewrite plus_IZR, mult_IZR, <- INR_IZR_INZ. field. pose proof (pos_INR n). lra.
        -- intros k _ Hk. rewrite (proj2 (Nat.eqb_neq _ _)) by (unfold N; lia). ring.
      * apply rsum_zero. intros k Hk. rewrite (proj2 (Nat.eqb_neq _ _)); [ring|].
        intros E. apply andb_false_iff in B. rewrite !Nat.leb_gt in B. unfold N in E. lia.
    + apply is_RInt_rsum. intros k _. apply (is_RInt_scal (V := R_NormedModule)). apply legendre_ortho.
Qed.

Lemma racah_exchange l n p : (0 <= l)%Z -> (0 <= n)%Z -> (0 <= p)%Z -> (Z.abs (l - n) <= p <= l + n)%Z ->
  racah p n l 0 0 0 * racah p n l 0 0 0 = racah l n p 0 0 0 * racah l n p 0 0 0.
Proof.
  intros Hl Hn Hp T. pose proof (racah_factor p n l 0 0) as A. pose proof (racah_factor l n p 0 0) as B. change (- 0 - 0)%Z with 0%Z in A, B. rewrite A, B.
  pose proof (exchange l p n Hl Hp Hn T 0) as E. cbv beta in E.
  assert (F : factor p n l 0 = factor l n p 0).
  { unfold factor. f_equal. replace (p + n - l)%Z with (- l + n + p)%Z by lia. replace (- p + n + l)%Z with (l + n - p)%Z by lia. replace (p - n + l)%Z with (l - n + p)%Z by lia.
    replace (p + n + l + 1)%Z with (l + n + p + 1)%Z by lia. unfold Rdiv. ring. }
  assert (W : rho p l 0 0 = rho l p 0 0) by (unfold rho; rewrite !Z.add_0_r, !Z.sub_0_r; ring). rewrite F, W.
  pose proof (WignerProofs.pm1_sq (p - n)) as S1. pose proof (WignerProofs.pm1_sq (l - n)) as S2.
  set (e1 := pm1 (p - n)) in *. set (e2 := pm1 (l - n)) in *. set (f := factor l n p 0). set (s := sqrt (rho l p 0 0)). set (e := pm1 (0 + 0)).
  transitivity ((e1 * e1) * (f * f * (e * e) * (s * s)) * (racah_sum p n l 0 0 * racah_sum p n l 0 0)); [ring|]. rewrite S1, E.
  transitivity ((e2 * e2) * (f * f * (e * e) * (s * s)) * (racah_sum l n p 0 0 * racah_sum l n p 0 0)); [|ring]. rewrite S2. reflexivity.
Qed.

Lemma triple l n p :
  is_RInt (fun t => legendre l (cos t) * legendre n (cos t) * legendre p (cos t) * sin t) 0 PI
    (if (Z.abs (Z.of_nat l - Z.of_nat n) <=? Z.of_nat p)%Z && (p <=? l + n)%nat
     then 2 * (racah (Z.of_nat l) (Z.of_nat n) (Z.of_nat p) 0 0 0 * racah (Z.of_nat l) (Z.of_nat n) (Z.of_nat p) 0 0 0) else 0).
Proof.
  destruct (le_lt_dec l p) as [H|H].
  - eapply is_RInt_val; [|exact (triple_le l n p H)].
    replace ((p - l <=? n)%nat && (n <=? p + l)%nat) with ((Z.abs (Z.of_nat l - Z.of_nat n) <=? Z.of_nat p)%Z && (p <=? l + n)%nat); [reflexivity|].
    apply eq_iff_eq_true. rewrite !andb_true_iff, !Nat.leb_le, Z.leb_le. lia.
  - apply (is_RInt_ext (fun t => legendre p (cos t) * legendre n (cos t) * legendre l (cos t) * sin t)); [intros t _; apply Rmult_eq_compat_r; set (a := legendre p (cos t)); set (b := legendre n (cos t)); set (c := legendre l (cos t)); change (a * b * c = c * b * a); ring|].
    eapply is_RInt_val; [|exact (triple_le p n l ltac:(lia))].
    replace ((l - p <=? n)%nat && (n <=? l + p)%nat) with ((Z.abs (Z.of_nat l - Z.of_nat n) <=? Z.of_nat p)%Z && (p <=? l + n)%nat).
    + destruct (_ && _) eqn:B; [|reflexivity]. apply andb_true_iff in B. rewrite Nat.leb_le, Z.leb_le in B. f_equal. apply racah_exchange; lia.
    + apply eq_iff_eq_true. rewrite !andb_true_iff, !Nat.leb_le, Z.leb_le. lia.
Qed.
