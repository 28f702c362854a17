(** * A band-limited function that vanishes on a box vanishes. *)
From Coq Require Import List ZArith Arith Bool Reals Lra Lia Psatz Permutation.
From Coquelicot Require Import Coquelicot.
From Verif Require Import Base ListLemmas RSum CSum Numpy Index IndexProofs LatLon SpecLatLon LatLonIntegrals LatLonProofs SpecConcentration ConcentrationProofs
  SpecHarmonics TextbookProofs SpecWignerD WignerDProofs OrthoProofs PropLatLon PropWignerD.
Import ListNotations.
Local Open Scope R_scope.

(** ** Polynomials *)
Fixpoint zpow (z : C) (n : nat) : C := match n with O => RtoC 1 | S k => Cmult z (zpow z k) end.

Definition polynomial (n : nat) (c : nat -> C) (z : C) : C := csum n (fun k => Cmult (c k) (zpow z k)).

Lemma polynomial_S n c z : polynomial (S n) c z = Cplus (c 0%nat) (Cmult z (polynomial n (fun k => c (S k)) z)).
Proof.
  unfold polynomial. rewrite csum_S_l. cbn [zpow]. f_equal; [ring|]. rewrite <- csum_scal_l. apply csum_ext. intros k _. cbn [zpow]. ring.
Qed.

(** p(z) - p(w) is divisible by z - w. *)
Lemma divide n : forall c w, exists c', forall z, Cminus (polynomial (S n) c z) (polynomial (S n) c w) = Cmult (Cminus z w) (polynomial n c' z).
Proof.
  induction n as [|n IH]; intros c w.
  - exists c. intros z. unfold polynomial. cbn. ring.
  - destruct (IH (fun k => c (S k)) w) as (s & Hs).
    exists (fun k => Cplus (c (S k)) (if (k <? n)%nat then Cmult w (s k) else RtoC 0)). intros z.
    assert (E : polynomial (S n) (fun k => Cplus (c (S k)) (if (k <? n)%nat then Cmult w (s k) else RtoC 0)) z
       = Cplus (polynomial (S n) (fun k => c (S k)) z) (Cmult w (polynomial n s z))).
    { unfold polynomial. rewrite (csum_ext (S n) _ (fun k => Cplus (Cmult (c (S k)) (zpow z k)) (Cmult (if (k <? n)%nat then Cmult w (s k) else RtoC 0) (zpow z k))))
        by (intros; ring). rewrite csum_plus. f_equal. cbn [csum]. rewrite Nat.ltb_irrefl. rewrite <- csum_scal_l. 
      match goal with |- Cplus _ ?b = _ => replace b with (RtoC 0) by ring end. rewrite Cplus_0_r. apply csum_ext. intros k Hk.
      rewrite (proj2 (Nat.ltb_lt k n) Hk). ring. }
    rewrite E, (polynomial_S (S n) c z), (polynomial_S (S n) c w).
    specialize (Hs z). set (r := polynomial (S n) (fun k => c (S k))) in *.
    transitivity (Cplus (Cmult (Cminus z w) (r z)) (Cmult w (Cminus (r z) (r w)))); [ring|]. rewrite Hs. ring.
Qed.

(** More roots than the degree: zero. *)
Lemma many_roots n : forall c (x : nat -> C), (forall i j, (i < n)%nat -> (j < n)%nat -> x i = x j -> i = j) ->
  (forall i, (i < n)%nat -> polynomial n c (x i) = RtoC 0) -> forall z, polynomial n c z = RtoC 0.
Proof.
  induction n as [|n IH]; intros c x Hx H z; [reflexivity|].
  destruct (divide n c (x n)) as (c' & Hc). rewrite (H n ltac:(lia)) in Hc.
  assert (Q : polynomial n c' z = RtoC 0).
  { apply (IH c' x).
    - intros i j Hi Hj. apply Hx; lia.
    - intros i Hi. specialize (Hc (x i)). rewrite (H i ltac:(lia)) in Hc.
      assert (N : Cminus (x i) (x n) <> RtoC 0).
      { intros E. apply (Nat.lt_irrefl n). rewrite <- (Hx i n) at 1; [exact Hi|lia|lia|].
        transitivity (Cplus (Cminus (x i) (x n)) (x n)); [ring|rewrite E; ring]. }
      transitivity (Cmult (Cinv (Cminus (x i) (x n))) (Cmult (Cminus (x i) (x n)) (polynomial n c' (x i)))).
      + field. exact N.
      + rewrite <- Hc. ring. }
  specialize (Hc z). rewrite Q in Hc. transitivity (Cminus (polynomial (S n) c z) (RtoC 0)); [ring|]. rewrite Hc. ring.
Qed.

(** ** Trigonometric polynomials *)
Lemma zpow_expi n x : zpow (expi x) n = expi (INR n * x).
Proof.
  induction n as [|n IH]; [cbn [zpow INR]; rewrite Rmult_0_l, expi_0; reflexivity|].
  cbn [zpow]. rewrite IH, <- expi_plus, S_INR. f_equal. ring.
Qed.

Lemma expi_inj x y : expi x = expi y -> Rabs (x - y) < PI -> x = y.
Proof.
  intros E H. assert (S : sin (x - y) = 0).
  { unfold expi in E. injection E as Ec Es. rewrite sin_minus, Ec, Es. ring. }
  assert (B : - PI < x - y < PI) by (apply Rabs_def2 in H; lra).
  destruct (Rtotal_order (x - y) 0) as [L|[L|L]]; [|lra|].
  - pose proof (sin_gt_0 (- (x - y)) ltac:(lra) ltac:(lra)) as P. rewrite sin_neg in P. lra.
  - pose proof (sin_gt_0 (x - y) ltac:(lra) ltac:(lra)). lra.
Qed.

(** Frequencies from -N to N. *)
Definition trig (N : nat) (g : R -> C) : Prop :=
  exists c, forall x, Cmult (expi (INR N * x)) (g x) = polynomial (2 * N + 1) c (expi x).

Lemma trig_ext N f g : (forall x, f x = g x) -> trig N f -> trig N g.
Proof. intros E (c & H). exists c. intros x. rewrite <- E. apply H. Qed.

Lemma trig_zero N : trig N (fun _ => RtoC 0).
Proof. exists (fun _ => RtoC 0). intros x. unfold polynomial. rewrite csum_zero; [ring|]. intros; ring. Qed.

Lemma trig_plus N f g : trig N f -> trig N g -> trig N (fun x => Cplus (f x) (g x)).
Proof.
  intros (c & H) (c' & H'). exists (fun k => Cplus (c k) (c' k)). intros x. rewrite Cmult_plus_distr_l, H, H'. unfold polynomial.
  rewrite <- csum_plus. apply csum_ext. intros. ring.
Qed.

Lemma trig_scal N a f : trig N f -> trig N (fun x => Cmult a (f x)).
Proof.
  intros (c & H). exists (fun k => Cmult a (c k)). intros x. transitivity (Cmult a (Cmult (expi (INR N * x)) (f x))); [ring|]. rewrite H.
  unfold polynomial. rewrite <- csum_scal_l. apply csum_ext. intros. ring.
Qed.

Lemma trig_csum N n (f : nat -> R -> C) : (forall i, (i < n)%nat -> trig N (f i)) -> trig N (fun x => csum n (fun i => f i x)).
Proof.
  induction n as [|n IH]; intros H; [apply trig_zero|]. cbn [csum]. apply trig_plus; [apply IH; intros; apply H; lia|apply H; lia].
Qed.

Lemma trig_clsum {A} N (f : A -> R -> C) l : (forall a, In a l -> trig N (f a)) -> trig N (fun x => clsum (map (fun a => f a x) l)).
Proof.
  induction l as [|a l IH]; intros H; [apply trig_zero|]. cbn [map]. unfold clsum. cbn [fold_right].
  apply trig_plus; [apply H; left; reflexivity|apply IH; intros; apply H; right; assumption].
Qed.

Lemma trig_expi N k : (Z.abs k <= Z.of_nat N)%Z -> trig N (fun x => expi (IZR k * x)).
Proof.
  intros H. set (j := Z.to_nat (k + Z.of_nat N)). exists (fun i => if (i =? j)%nat then RtoC 1 else RtoC 0). intros x.
  unfold polynomial. rewrite (csum_single (2 * N + 1) j).
  - rewrite Nat.eqb_refl, zpow_expi, <- expi_plus. rewrite Cmult_1_l. f_equal.
    assert (E : INR j = IZR k + INR N) by (rewrite !INR_IZR_INZ; unfold j; rewrite Z2Nat.id by lia; rewrite plus_IZR; reflexivity). rewrite E. ring.
  - unfold j. lia.
  - intros i _ Ni. destruct (Nat.eqb_spec i j); [contradiction|ring].
Qed.

(** A trigonometric polynomial that vanishes on an interval vanishes. *)
Lemma trig_identity N g a b : trig N g -> a < b -> (forall x, a < x < b -> g x = RtoC 0) -> forall x, g x = RtoC 0.
Proof.
  intros (c & H) Hab Z x.
  set (n := (2 * N + 1)%nat) in *. set (w := Rmin (b - a) 1).
  assert (W : 0 < w <= b - a /\ w <= 1) by (unfold w, Rmin; destruct (Rle_dec (b - a) 1); lra).
  set (pt := fun i : nat => a + w * (INR (S i) / INR (S n))).
  assert (Pn : 0 < INR (S n)) by (apply lt_0_INR; lia).
  assert (B : forall i, (i < n)%nat -> 0 < INR (S i) / INR (S n) < 1).
  { intros i Hi. assert (0 < INR (S i)) by (apply lt_0_INR; lia). assert (INR (S i) < INR (S n)) by (apply lt_INR; lia).
    split; [apply Rdiv_lt_0_compat; assumption|]. apply (Rmult_lt_reg_r (INR (S n))); [assumption|]. unfold Rdiv. rewrite Rmult_assoc, Rinv_l by lra. lra. }
  assert (P : polynomial n c (expi x) = RtoC 0).
  { apply (many_roots n c (fun i => expi (pt i))).
    - intros i j Hi Hj E. pose proof (B i Hi). pose proof (B j Hj). pose proof PI2_1 as PB. apply expi_inj in E.
      + unfold pt in E. assert (E2 : INR (S i) / INR (S n) = INR (S j) / INR (S n)) by (apply (Rmult_eq_reg_l w); lra).
        apply (f_equal (fun r => r * INR (S n))) in E2. unfold Rdiv in E2. rewrite !Rmult_assoc, !Rinv_l, !Rmult_1_r in E2 by lra.
        apply INR_eq in E2. lia.
      + unfold pt. apply Rabs_def1; nra.
    - intros i Hi. pose proof (B i Hi). rewrite <- H. rewrite Z; [ring|]. unfold pt. nra. }
  rewrite <- H in P.
  transitivity (Cmult (expi (- (INR N * x))) (Cmult (expi (INR N * x)) (g x))).
  - rewrite Cmult_assoc, <- expi_plus. replace (- (INR N * x) + INR N * x) with 0 by ring. rewrite expi_0. ring.
  - rewrite P. ring.
Qed.

(** ** Band-limited functions *)
Section Limited.
  Variable d : Z -> Z -> Z -> R.
  Variable L : nat.
  Hypothesis HL : (1 <= L)%nat.

  Lemma number_range i : (i < L * L)%nat -> let l := Z.of_nat (Nat.sqrt i) in
    (0 <= l <= Z.of_nat (L - 1))%Z /\ (Z.abs (Z.of_nat i - l * l - l) <= l)%Z.
  Proof.
    intros Hi l. pose proof (Nat.sqrt_spec i ltac:(lia)) as Q.
    assert (Nat.sqrt i < L)%nat by (apply Nat.sqrt_lt_square; lia). unfold l. nia.
  Qed.

  Lemma trig_phi w theta : trig (L - 1) (fun phi => band_limited d (L * L) w theta phi).
  Proof.
    unfold band_limited. apply trig_csum. intros i Hi. destruct (number_range i Hi) as [B1 B2]. unfold harmonic_number, harmonic.
    set (l := Z.of_nat (Nat.sqrt i)) in *. apply trig_scal, trig_scal, trig_scal, trig_expi. lia.
  Qed.

  Lemma trig_theta w phi : trig (L - 1) (fun theta => band_limited d (L * L) w theta phi).
  Proof.
    unfold band_limited. apply trig_csum. intros i Hi. destruct (number_range i Hi) as [B1 B2]. unfold harmonic_number, harmonic.
    set (l := Z.of_nat (Nat.sqrt i)) in *. apply trig_scal, trig_scal.
    apply (trig_ext _ (fun theta => Cmult (expi (IZR (Z.of_nat i - l * l - l) * phi))
      (clsum (map (fun k => Cmult (RtoC (d l k (Z.of_nat i - l * l - l)%Z * d l k 0%Z)) (expi (IZR k * theta))) (zrange (- l) (l + 1))))));
      [intros; ring|].
    apply trig_scal. apply (trig_clsum _ (fun k theta => Cmult (RtoC (d l k (Z.of_nat i - l * l - l)%Z * d l k 0%Z)) (expi (IZR k * theta)))).
    intros k Hk. apply WignerProofs.in_zrange in Hk. apply trig_scal, trig_expi. lia.
  Qed.

  Lemma limited_identity w a b c e : a < b -> c < e ->
    (forall t p, a < t < b -> c < p < e -> band_limited d (L * L) w t p = RtoC 0) -> forall t p, band_limited d (L * L) w t p = RtoC 0.
  Proof.
    intros Hab Hce H.
    assert (H1 : forall t p, a < t < b -> band_limited d (L * L) w t p = RtoC 0).
    { intros t p Ht. apply (trig_identity (L - 1) (fun p => band_limited d (L * L) w t p) c e (trig_phi w t) Hce). intros; apply H; assumption. }
    intros t p. apply (trig_identity (L - 1) (fun t => band_limited d (L * L) w t p) a b (trig_theta w p) Hab). intros; apply H1; assumption.
  Qed.
End Limited.

(** ** An energy that vanishes *)
Lemma positive_near (f : R -> R) x : continuous f x -> 0 < f x -> exists r, 0 < r /\ forall y, Rabs (y - x) < r -> 0 < f y.
Proof.
  intros Hc P. destruct (Hc (ball (f x) (mkposreal _ P)) (locally_ball _ _)) as (r & Hr). exists (pos r). split; [apply cond_pos|].
  intros y Hy. specialize (Hr y Hy). unfold ball in Hr; cbn in Hr; unfold AbsRing_ball, abs, minus, plus, opp in Hr; cbn in Hr. apply Rabs_def2 in Hr. lra.
Qed.

Lemma zero_integral (f : R -> R) a b : a < b -> (forall x, continuous f x) -> (forall x, a <= x <= b -> 0 <= f x) ->
  is_RInt f a b 0 -> forall x, a < x < b -> f x = 0.
Proof.
  intros Hab Hc Hp Hi x Hx. destruct (Rle_lt_or_eq_dec 0 (f x) (Hp x ltac:(lra))) as [P|P]; [|symmetry; exact P]. exfalso.
  destruct (positive_near f x (Hc x) P) as (r & Pr & Hr).
  set (h := Rmin (r / 2) (Rmin ((x - a) / 2) ((b - x) / 2))).
  assert (Hh : 0 < h /\ h < r /\ h < x - a /\ h < b - x).
  { unfold h. repeat split.
    - repeat apply Rmin_pos; lra.
    - eapply Rle_lt_trans; [apply Rmin_l|lra].
    - eapply Rle_lt_trans; [apply Rmin_r|]. eapply Rle_lt_trans; [apply Rmin_l|lra].
    - eapply Rle_lt_trans; [apply Rmin_r|]. eapply Rle_lt_trans; [apply Rmin_r|lra]. }
  assert (EX : forall u v, ex_RInt f u v) by (intros; apply (ex_RInt_continuous (V := R_CompleteNormedModule)); intros; apply Hc).
  assert (NN : forall u v, a <= u <= v -> v <= b -> 0 <= RInt f u v).
  { intros u v Hu Hv. apply RInt_ge_0; [lra|apply EX|]. intros y Hy. apply Hp. lra. }
  assert (M : 0 < RInt f (x - h) (x + h)).
  { apply RInt_gt_0; [lra| |intros; apply Hc]. intros y Hy. apply Hr. apply Rabs_def1; lra. }
  assert (C1 : RInt f a (x - h) + RInt f (x - h) (x + h) = RInt f a (x + h)) by (apply (RInt_Chasles (V := R_CompleteNormedModule)); apply EX).
  assert (C2 : RInt f a (x + h) + RInt f (x + h) b = RInt f a b) by (apply (RInt_Chasles (V := R_CompleteNormedModule)); apply EX).
  assert (C3 : RInt f a b = 0) by (apply (is_RInt_unique (V := R_CompleteNormedModule)); exact Hi).
  pose proof (NN a (x - h) ltac:(lra) ltac:(lra)). pose proof (NN (x + h) b ltac:(lra) ltac:(lra)). lra.
Qed.

Definition ccont (f : R -> C) : Prop := forall x, continuous (fun y => Re (f y)) x /\ continuous (fun y => Im (f y)) x.

Lemma ccont_ext f g : (forall x, f x = g x) -> ccont f -> ccont g.
Proof. intros E H x. destruct (H x) as [A B]. split; [refine (continuous_ext _ _ x _ A)|refine (continuous_ext _ _ x _ B)]; intros; cbn beta; rewrite E; reflexivity. Qed.
Lemma ccont_const z : ccont (fun _ => z).
Proof. intros x. split; apply continuous_const. Qed.
Lemma ccont_real (f : R -> R) : (forall x, continuous f x) -> ccont (fun x => RtoC (f x)).
Proof. intros H x. split; [exact (H x)|apply continuous_const]. Qed.
Lemma ccont_plus f g : ccont f -> ccont g -> ccont (fun x => Cplus (f x) (g x)).
Proof. intros F G x. destruct (F x) as [A B], (G x) as [A' B']. split; [exact (continuous_plus _ _ x A A')|exact (continuous_plus _ _ x B B')]. Qed.
Lemma ccont_mult f g : ccont f -> ccont g -> ccont (fun x => Cmult (f x) (g x)).
Proof.
  intros F G x. destruct (F x) as [A B], (G x) as [A' B']. split.
  - exact (continuous_minus _ _ x (continuous_mult _ _ x A A') (continuous_mult _ _ x B B')).
  - exact (continuous_plus _ _ x (continuous_mult _ _ x A B') (continuous_mult _ _ x B A')).
Qed.
Lemma ccont_conj f : ccont f -> ccont (fun x => Cconj (f x)).
Proof. intros F x. destruct (F x) as [A B]. split; [exact A|exact (continuous_opp _ x B)]. Qed.
Lemma ccont_expi k : ccont (fun x => expi (k * x)).
Proof.
  intros x. split; cbn.
  - apply (continuous_comp (fun y => k * y) cos); [apply (continuous_mult (fun _ => k) (fun y => y)); [apply continuous_const|apply continuous_id]|apply continuous_cos].
  - apply (continuous_comp (fun y => k * y) sin); [apply (continuous_mult (fun _ => k) (fun y => y)); [apply continuous_const|apply continuous_id]|apply continuous_sin].
Qed.
Lemma ccont_csum n (f : nat -> R -> C) : (forall i, (i < n)%nat -> ccont (f i)) -> ccont (fun x => csum n (fun i => f i x)).
Proof.
  induction n as [|n IH]; intros H; [exact (ccont_const (RtoC 0))|]. cbn [csum]. apply ccont_plus; [apply IH; intros; apply H; lia|apply H; lia].
Qed.
Lemma ccont_clsum {A} (f : A -> R -> C) l : (forall a, ccont (f a)) -> ccont (fun x => clsum (map (fun a => f a x) l)).
Proof. intros H. induction l as [|a l IH]; [exact (ccont_const (RtoC 0))|]. cbn [map]. unfold clsum. cbn [fold_right]. apply ccont_plus; [apply H|apply IH]. Qed.

Lemma ccont_cint f a b : ccont f -> exists v, cint f a b v.
Proof.
  intros H. exists (RInt (fun x => Re (f x)) a b, RInt (fun x => Im (f x)) a b).
  split; apply (RInt_correct (V := R_CompleteNormedModule)), (ex_RInt_continuous (V := R_CompleteNormedModule)); intros; apply H.
Qed.

Lemma cint_csum n (F : nat -> R -> C) (v : nat -> C) a b : (forall i, (i < n)%nat -> cint (F i) a b (v i)) -> cint (fun x => csum n (fun i => F i x)) a b (csum n v).
Proof.
  induction n as [|n IH]; intros H; [apply cint_zero|]. cbn [csum]. apply cint_plus; [apply IH; intros; apply H; lia|apply H; lia].
Qed.

(** Functions with one factor for each angle. *)
Lemma separated n (u v : nat -> R -> C) a b : (forall i, (i < n)%nat -> ccont (u i) /\ ccont (v i)) ->
  exists g, ccont g /\ forall p, cint (fun t => RtoC (Cmod (csum n (fun i => Cmult (u i t) (v i p))) ^ 2 * sin t)) a b (g p).
Proof.
  intros H.
  assert (A : exists A : nat -> nat -> C, forall i j, (i < n)%nat -> (j < n)%nat ->
    cint (fun t => Cmult (Cmult (u i t) (Cconj (u j t))) (RtoC (sin t))) a b (A i j)).
  { exists (fun i j => (RInt (fun t => Re (Cmult (Cmult (u i t) (Cconj (u j t))) (RtoC (sin t)))) a b,
                        RInt (fun t => Im (Cmult (Cmult (u i t) (Cconj (u j t))) (RtoC (sin t)))) a b)).
    intros i j Hi Hj. assert (CC : ccont (fun t => Cmult (Cmult (u i t) (Cconj (u j t))) (RtoC (sin t)))).
    { apply ccont_mult; [apply ccont_mult; [apply H; exact Hi|apply ccont_conj, H; exact Hj]|apply ccont_real; intros; apply continuous_sin]. }
    split; apply (RInt_correct (V := R_CompleteNormedModule)), (ex_RInt_continuous (V := R_CompleteNormedModule)); intros; apply CC. }
  destruct A as (A & HA).
  exists (fun p => csum n (fun i => csum n (fun j => Cmult (Cmult (v i p) (Cconj (v j p))) (A i j)))). split.
  - apply ccont_csum. intros i Hi. apply ccont_csum. intros j Hj.
    apply ccont_mult; [apply ccont_mult; [apply H; exact Hi|apply ccont_conj, H; exact Hj]|apply ccont_const].
  - intros p. apply (cint_ext (fun t => csum n (fun i => csum n (fun j => Cmult (Cmult (v i p) (Cconj (v j p)))
      (Cmult (Cmult (u i t) (Cconj (u j t))) (RtoC (sin t))))))).
    + intros t. rewrite RtoC_mult, Cmod2, csum_conj, csum_mult, <- csum_scal_r. apply csum_ext. intros i _. rewrite <- csum_scal_r.
      apply csum_ext. intros j _. rewrite Cconj_mult. ring.
    + apply (cint_csum n (fun i t => csum n (fun j => Cmult (Cmult (v i p) (Cconj (v j p)))
        (Cmult (Cmult (u i t) (Cconj (u j t))) (RtoC (sin t)))))). intros i Hi.
      apply (cint_csum n (fun j t => Cmult (Cmult (v i p) (Cconj (v j p))) (Cmult (Cmult (u i t) (Cconj (u j t))) (RtoC (sin t))))). intros j Hj.
      apply cint_scal, HA; assumption.
Qed.

Lemma separated_zero n (u v : nat -> R -> C) a b c e : (forall i, (i < n)%nat -> ccont (u i) /\ ccont (v i)) ->
  0 <= a -> a < b -> b <= PI -> c < e -> energy (fun t p => csum n (fun i => Cmult (u i t) (v i p))) a b c e 0 ->
  forall t p, a < t < b -> c < p < e -> csum n (fun i => Cmult (u i t) (v i p)) = RtoC 0.
Proof.
  intros H Ha Hab Hb Hce (g' & Hg' & [G0 _]) t p Ht Hp. destruct (separated n u v a b H) as (g & Cg & Hg).
  assert (POS : forall p t, a <= t <= b -> 0 <= Cmod (csum n (fun i => Cmult (u i t) (v i p))) ^ 2 * sin t).
  { intros q s Hs. apply Rmult_le_pos; [apply pow2_ge_0|apply sin_ge_0; lra]. }
  assert (GE : forall q, g' q = g q) by (intros q; exact (cint_unique _ _ _ _ _ (Hg' q) (Hg q))).
  assert (Z : Re (g p) = 0).
  { apply (zero_integral (fun q => Re (g q)) c e Hce).
    - intros q. apply Cg.
    - intros q _. destruct (Hg q) as [Q _]. apply (is_RInt_le (fun _ => 0) (fun t => Cmod (csum n (fun i => Cmult (u i t) (v i q))) ^ 2 * sin t) a b 0 (Re (g q))); [lra| |exact Q|].
      + eapply is_RInt_val; [|exact (is_RInt_const a b 0)]. unfold scal; cbn; unfold mult; cbn; ring.
      + intros s Hs. apply POS. lra.
    - refine (is_RInt_ext _ _ _ _ _ _ G0). intros q _. cbn beta. rewrite GE. reflexivity.
    - exact Hp. }
  destruct (Hg p) as [Q _]. rewrite Z in Q.
  assert (T : Cmod (csum n (fun i => Cmult (u i t) (v i p))) ^ 2 * sin t = 0).
  { apply (zero_integral (fun t => Cmod (csum n (fun i => Cmult (u i t) (v i p))) ^ 2 * sin t) a b Hab).
    - intros s. assert (CC : ccont (fun t => Cmult (Cmult (csum n (fun i => Cmult (u i t) (v i p))) (Cconj (csum n (fun i => Cmult (u i t) (v i p))))) (RtoC (sin t)))).
      { assert (C1 : ccont (fun t => csum n (fun i => Cmult (u i t) (v i p)))).
        { apply (ccont_csum n (fun i t => Cmult (u i t) (v i p))). intros i Hi. apply ccont_mult; [apply H; exact Hi|apply ccont_const]. }
        apply ccont_mult; [apply ccont_mult; [exact C1|apply ccont_conj, C1]|apply ccont_real; intros; apply continuous_sin]. }
      refine (continuous_ext _ _ s _ (proj1 (CC s))). intros y. rewrite <- Cmod2, <- RtoC_mult. reflexivity.
    - intros s Hs. apply POS, Hs.
    - exact Q.
    - exact Ht. }
  pose proof (sin_gt_0 t ltac:(lra) ltac:(lra)) as SP. apply Rmult_integral in T. destruct T as [T|T]; [|lra].
  apply Cmod_eq_0. cbn in T. rewrite Rmult_1_r in T. apply Rmult_integral in T. tauto.
Qed.

Lemma limited_zero d L w a b c e : (1 <= L)%nat -> 0 <= a -> a < b -> b <= PI -> c < e ->
  energy (band_limited d (L * L) w) a b c e 0 -> forall t p, band_limited d (L * L) w t p = RtoC 0.
Proof.
  intros HL Ha Hab Hb Hce E. apply (limited_identity d L HL w a b c e Hab Hce).
  set (mm := fun i : nat => let l := Z.of_nat (Nat.sqrt i) in (Z.of_nat i - l * l - l)%Z).
  set (u := fun (i : nat) (t : R) => let l := Z.of_nat (Nat.sqrt i) in Cmult (Cmult (w i) (Cmult (RtoC (sqrt (IZR (2 * l + 1) / (4 * PI)))) (expi (- (IZR (mm i) * PI / 2)))))
    (clsum (map (fun k => Cmult (RtoC (d l k (mm i) * d l k 0%Z)) (expi (IZR k * t))) (zrange (- l) (l + 1))))).
  set (v := fun (i : nat) (p : R) => expi (IZR (mm i) * p)).
  assert (EQ : forall t p, band_limited d (L * L) w t p = csum (L * L) (fun i => Cmult (u i t) (v i p))).
  { intros t p. unfold band_limited. apply csum_ext. intros i _. unfold harmonic_number, harmonic, u, v, mm. cbv zeta. ring. }
  intros t p Ht Hp. rewrite EQ. apply (separated_zero (L * L) u v a b c e); try assumption.
  - intros i _. split; [|apply ccont_expi]. unfold u. apply ccont_mult; [apply ccont_const|].
    apply (ccont_clsum (fun k t => Cmult (RtoC (d _ k (mm i) * d _ k 0%Z)) (expi (IZR k * t)))). intros k. apply ccont_mult; [apply ccont_const|apply ccont_expi].
  - refine (energy_same _ _ _ _ _ _ _ EQ E).
Qed.
