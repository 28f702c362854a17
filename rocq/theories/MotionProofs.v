(** * Turning, mirroring and splitting a box; the matrices of related regions. *)
From Coq Require Import List ZArith Arith Bool Reals Lia Lra.
From Coquelicot Require Import Coquelicot.
From Verif Require Import Base ListLemmas RSum CSum OrthoProofs SpecEigen LatLon SpecLatLon LatLonIntegrals LatLonProofs SpecConcentration ConcentrationProofs
  SpecHarmonics LegendreProofs AssocProofs SpecLegendre CapProofs SpecWigner WignerProofs SpecWignerD SpectralProofs WeylProofs.
Import ListNotations.
Local Open Scope nat_scope.

(** ** Changes of variables *)
Lemma rint_shift (f : R -> R) d a b l : is_RInt f (a + d) (b + d) l -> is_RInt (fun x => f (x + d)%R) a b l.
Proof.
  intros H. assert (H' : is_RInt f (1 * a + d) (1 * b + d) l) by (rewrite !Rmult_1_l; exact H).
  refine (is_RInt_ext _ _ _ _ _ _ (is_RInt_comp_lin f 1 d a b l H')). intros x _. unfold scal; cbn; unfold mult; cbn. rewrite !Rmult_1_l. reflexivity.
Qed.

Lemma rint_mirror (f : R -> R) c a b l : is_RInt f (c - b) (c - a) l -> is_RInt (fun x => f (c - x)%R) a b l.
Proof.
  intros H. apply (is_RInt_swap (V := R_NormedModule)) in H.
  assert (H' : is_RInt f (-1 * a + c) (-1 * b + c) (opp l)) by (replace (-1 * a + c)%R with (c - a)%R by ring; replace (-1 * b + c)%R with (c - b)%R by ring; exact H).
  apply is_RInt_comp_lin in H'. apply (is_RInt_opp (V := R_NormedModule)) in H'.
  eapply is_RInt_val; [|refine (is_RInt_ext _ _ _ _ _ _ H')].
  - exact (Ropp_involutive l).
  - intros x _. unfold opp, scal; cbn; unfold mult; cbn. replace (-1 * x + c)%R with (c - x)%R by ring. ring.
Qed.

Lemma box_shift f d a b c e v : box_integral f a b (c + d) (e + d) v -> box_integral (fun t p => f t (p + d)%R) a b c e v.
Proof.
  intros (i & Hi & [H1 H2]). exists (fun p => i (p + d)%R). split; [intros p; apply Hi|].
  split; [exact (rint_shift _ _ _ _ _ H1)|exact (rint_shift _ _ _ _ _ H2)].
Qed.

Lemma box_mirror f k a b c e v : box_integral f (k - b) (k - a) c e v -> box_integral (fun t p => f (k - t)%R p) a b c e v.
Proof.
  intros (i & Hi & H). exists i. split; [|exact H]. intros p. destruct (Hi p) as [H1 H2].
  split; [exact (rint_mirror _ _ _ _ _ H1)|exact (rint_mirror _ _ _ _ _ H2)].
Qed.

(** ** The harmonics at the new points *)
Lemma dl_mirror m l : forall x, dl m l (- x) = ((-1) ^ (l + m) * dl m l x)%R.
Proof.
  induction m as [|m IH]; intros x.
  - rewrite !dl_0, Nat.add_0_r. apply legendre_neg.
  - pose proof (fun y => dl_derive m l y) as D.
    assert (E1 : is_derive (fun y => dl m l (- y)) x (- dl (S m) l (- x))%R).
    { pose proof (is_derive_comp (dl m l) Ropp x _ _ (D (- x)%R) (is_derive_opp (fun y => y) x 1%R (is_derive_id x))) as H.
      replace (- dl (S m) l (- x))%R with (scal (opp 1%R) (dl (S m) l (- x))); [exact H|]. unfold scal, opp; cbn; unfold mult; cbn. ring. }
    assert (E2 : is_derive (fun y => dl m l (- y)) x ((-1) ^ (l + m) * dl (S m) l x)%R).
    { apply (is_derive_ext (fun y => ((-1) ^ (l + m) * dl m l y)%R)); [intros y; symmetry; apply IH|]. apply is_derive_scal. apply D. }
    pose proof (is_derive_unique _ _ _ E1) as Q. rewrite (is_derive_unique _ _ _ E2) in Q.
    replace (l + S m) with (S (l + m)) by lia. cbn [pow]. lra.
Qed.

Lemma associated_mirror l m t : associated l m (PI - t) = ((-1) ^ (l + m) * associated l m t)%R.
Proof.
  unfold associated. rewrite sin_PI_x. rewrite !dl_Derive_n. replace (cos (PI - t)) with (- cos t)%R.
  - rewrite dl_mirror. ring.
  - replace (PI - t)%R with (- t + PI)%R by ring. rewrite neg_cos, cos_neg. reflexivity.
Qed.

Lemma ylm_mirror l m t p : (Z.abs m <= l)%Z -> ylm l m (PI - t) p = Cmult (RtoC (pm1 (l + m))) (ylm l m t p).
Proof.
  intros Hm. assert (S0 : forall a b, spherical_harmonic a b (PI - t) p = Cmult (RtoC ((-1) ^ (a + b))) (spherical_harmonic a b t p)).
  { intros a b. unfold spherical_harmonic. rewrite associated_mirror. rewrite !RtoC_mult. ring. }
  unfold ylm. destruct (0 <=? m)%Z eqn:E.
  - apply Z.leb_le in E. rewrite S0, CapProofs.pm1_pow. replace (Z.of_nat (Z.to_nat l + Z.to_nat m)) with (l + m)%Z by lia. reflexivity.
  - apply Z.leb_gt in E. rewrite S0, CapProofs.pm1_pow, Cconj_mult, Cconj_R. replace (Z.of_nat (Z.to_nat l + Z.to_nat (- m))) with (l - m)%Z by lia.
    replace (pm1 (l - m)) with (pm1 (l + m)) by (apply pm1_even_diff; replace (l + m - (l - m))%Z with (2 * m)%Z by ring; rewrite Z.even_mul; reflexivity). ring.
Qed.

Lemma ylm_turn l m d t p : ylm l m t (p + d) = Cmult (expi (IZR m * d)) (ylm l m t p).
Proof.
  assert (S0 : forall a b, spherical_harmonic a b t (p + d) = Cmult (expi (INR b * d)) (spherical_harmonic a b t p)).
  { intros a b. unfold spherical_harmonic. rewrite Rmult_plus_distr_l, expi_plus. ring. }
  unfold ylm. destruct (0 <=? m)%Z eqn:E.
  - apply Z.leb_le in E. rewrite S0, INR_IZR_INZ, Z2Nat.id by exact E. reflexivity.
  - apply Z.leb_gt in E. rewrite S0, INR_IZR_INZ, Z2Nat.id by lia. rewrite Cconj_mult, <- expi_neg, opp_IZR.
    replace (- (- IZR m * d))%R with (IZR m * d)%R by ring. ring.
Qed.

Definition order_of (i : nat) : Z := (Z.of_nat i - Z.of_nat (Nat.sqrt i) * Z.of_nat (Nat.sqrt i) - Z.of_nat (Nat.sqrt i))%Z.
Lemma order_bound i : (Z.abs (order_of i) <= Z.of_nat (Nat.sqrt i))%Z.
Proof. unfold order_of. pose proof (Nat.sqrt_spec i (Nat.le_0_l i)). nia. Qed.

Lemma number_turn i d t p : ylm_number i t (p + d) = Cmult (expi (IZR (order_of i) * d)) (ylm_number i t p).
Proof. exact (ylm_turn _ _ d t p). Qed.
Lemma number_mirror i t p : ylm_number i (PI - t) p = Cmult (RtoC (pm1 (Z.of_nat (Nat.sqrt i) + order_of i))) (ylm_number i t p).
Proof. exact (ylm_mirror _ _ t p (order_bound i)). Qed.

(** ** Matrices that differ by phases *)
Lemma decomposed_phase n K K' s evals rows : (forall i, i < n -> Cmult (s i) (Cconj (s i)) = RtoC 1) ->
  (forall i j, i < n -> j < n -> K' i j = Cmult (Cmult (s i) (Cconj (s j))) (K i j)) ->
  decomposed n K' evals rows ->
  decomposed n K evals (map (fun p => map (fun i => Cmult (s i) (nth i (nth p rows []) (RtoC 0))) (seq 0 n)) (seq 0 n)).
Proof.
  intros U EK (L1 & L2 & D & O & E). set (rows' := map _ _).
  assert (V : forall p i, p < n -> i < n -> nth i (nth p rows' []) (RtoC 0) = Cmult (s i) (nth i (nth p rows []) (RtoC 0))).
  { intros p i Hp Hi. unfold rows'. rewrite (nth_map_seq n (fun p => map (fun i => Cmult (s i) (nth i (nth p rows []) (RtoC 0))) (seq 0 n)) p [] Hp).
    exact (nth_map_seq n (fun i => Cmult (s i) (nth i (nth p rows []) (RtoC 0))) i (RtoC 0) Hi). }
  split; [exact L1|]. split; [unfold rows'; rewrite map_length, seq_length; reflexivity|]. split; [exact D|]. split.
  - intros p q Hp Hq. rewrite <- (O p q Hp Hq). unfold ip. apply csum_ext. intros i Hi. rewrite !V by assumption. rewrite Cconj_mult.
    transitivity (Cmult (Cmult (s i) (Cconj (s i))) (Cmult (nth i (nth p rows []) (RtoC 0)) (Cconj (nth i (nth q rows []) (RtoC 0))))); [ring|]. rewrite (U i Hi). ring.
  - intros p j Hp Hj. rewrite V by assumption.
    transitivity (Cmult (s j) (csum n (fun i => Cmult (nth i (nth p rows []) (RtoC 0)) (K' i j)))).
    + rewrite <- csum_scal_l. apply csum_ext. intros i Hi. rewrite V by assumption. rewrite EK by assumption.
      transitivity (Cmult (Cmult (s j) (Cconj (s j))) (Cmult (Cmult (s i) (nth i (nth p rows []) (RtoC 0))) (K i j))); [rewrite (U j Hj); ring|ring].
    + rewrite (E p j Hp Hj). ring.
Qed.

(** ** The complement *)
Lemma decomposed_complement n K K' evals rows : (forall i j, i < n -> j < n -> Cplus (K i j) (K' i j) = RtoC (if i =? j then 1 else 0)) ->
  decomposed n K evals rows -> decomposed n K' (rev (map (fun x => (1 - x)%R) evals)) (rev rows).
Proof.
  intros EK H. pose proof (decomposed_sorted _ _ _ _ H) as SD. destruct H as (L1 & L2 & D & O & E).
  assert (LM : length (map (fun x => (1 - x)%R) evals) = n) by (rewrite map_length; exact L1).
  assert (VE : forall p, p < n -> nth p (rev (map (fun x => (1 - x)%R) evals)) 0%R = (1 - nth (n - S p) evals 0)%R).
  { intros p Hp. rewrite rev_nth by (rewrite LM; exact Hp). rewrite LM.
    rewrite (nth_indep _ 0%R (1 - 0)%R) by (rewrite LM; lia). exact (map_nth (fun x => (1 - x)%R) evals 0%R (n - S p)). }
  assert (VR : forall p, p < n -> nth p (rev rows) [] = nth (n - S p) rows []) by (intros p Hp; rewrite rev_nth by (rewrite L2; exact Hp); rewrite L2; reflexivity).
  split; [rewrite rev_length; exact LM|]. split; [rewrite rev_length; exact L2|]. split; [|split].
  - intros p q a b Hpq Ha Hb. assert (Hq : q < n) by (rewrite <- LM, <- (rev_length (map _ _)); apply nth_error_Some; rewrite Hb; discriminate).
    apply (nth_error_nth _ _ 0%R) in Ha. apply (nth_error_nth _ _ 0%R) in Hb. rewrite VE in Ha by lia. rewrite VE in Hb by exact Hq. subst a b.
    pose proof (SD (n - S q) (n - S p) ltac:(lia) ltac:(lia)). lra.
  - intros p q Hp Hq. rewrite !VR by assumption. rewrite O by lia.
    destruct (Nat.eqb_spec (n - S p) (n - S q)); destruct (Nat.eqb_spec p q); try reflexivity; exfalso; lia.
  - intros p j Hp Hj. rewrite VR, VE by assumption. set (u := fun i => nth i (nth (n - S p) rows []) (RtoC 0)).
    pose proof (E (n - S p) j ltac:(lia) Hj) as Ep. fold (u j) in Ep.
    rewrite (csum_ext n _ (fun i => Cminus (Cmult (u i) (RtoC (if i =? j then 1 else 0))) (Cmult (u i) (K i j)))).
    + rewrite csum_minus. change (csum n (fun i => Cmult (u i) (K i j))) with (csum n (fun i => Cmult (nth i (nth (n - S p) rows []) (RtoC 0)) (K i j))). rewrite Ep.
      assert (SG : csum n (fun i => Cmult (u i) (RtoC (if i =? j then 1 else 0))) = u j).
      { rewrite (csum_single n j _ Hj); [rewrite Nat.eqb_refl; ring|]. intros i Hi N. destruct (Nat.eqb_spec i j); [contradiction|ring]. }
      rewrite SG.
      rewrite RtoC_minus. fold (u j). ring.
    + intros i Hi. change (nth i (nth (n - S p) rows []) (RtoC 0)) with (u i). rewrite <- (EK i j Hi Hj). ring.
Qed.
