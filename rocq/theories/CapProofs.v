(** * Overlaps of harmonics in polar caps. *)
From Coq Require Import List ZArith Arith Bool Reals Lia Lra FunctionalExtensionality.
From Coquelicot Require Import Coquelicot.
From Verif Require Import Base ListLemmas RSum CSum Numpy Index IndexProofs SpecWigner WignerProofs Wigner SpecPolar LatLon SpecLatLon LatLonIntegrals
  LatLonProofs SpecConcentration ConcentrationProofs SpecHarmonics SpecLegendre LegendreProofs.
Import ListNotations.
Local Open Scope R_scope.

(** ** A band of colatitudes, all longitudes *)
Definition band_value (l p m : Z) (a b : R) : R :=
  pm1 m / 2 * sqrt (IZR ((2 * l + 1) * (2 * p + 1))) *
  rsum (Z.to_nat (l + p - Z.abs (l - p) + 1)) (fun k =>
    let n := (Z.abs (l - p) + Z.of_nat k)%Z in
    racah l n p 0 0 0 * racah l n p (Z.abs m) 0 (- Z.abs m) * (edge (Z.to_nat n) (cos b) - edge (Z.to_nat n) (cos a))).

Lemma is_RInt_rsum n (F : nat -> R -> R) (v : nat -> R) a b : (forall k, (k < n)%nat -> is_RInt (F k) a b (v k)) ->
  is_RInt (fun t => rsum n (fun k => F k t)) a b (rsum n v).
Proof.
  induction n as [|n IH]; intros H; cbn [rsum].
  - apply (is_RInt_val _ _ _ ((b - a) * 0)); [ring|]. exact (is_RInt_const a b 0).
  - exact (is_RInt_plus _ _ _ _ _ _ (IH ltac:(intros; apply H; lia)) (H n ltac:(lia))).
Qed.

Lemma cint_real (f : R -> R) a b v : is_RInt f a b v -> cint (fun t => RtoC (f t)) a b (RtoC v).
Proof.
  intros H. split; [exact H|]. cbn. apply (is_RInt_val _ _ _ ((b - a) * 0)); [ring|]. exact (is_RInt_const a b 0).
Qed.

Lemma band_same d L l p m a b : product_formula d L -> (Z.abs m <= l)%Z -> (l <= p)%Z -> (p < Z.of_nat L)%Z ->
  box_integral (fun t ph => Cmult (Cmult (harmonic d l m t ph) (Cconj (harmonic d p m t ph))) (RtoC (sin t))) a b 0 (2 * PI)
    (RtoC (band_value l p m a b)).
Proof.
  intros PF Hm Hl Hp. pose proof PI_RGT_0 as P0.
  set (c := pm1 m * sqrt (IZR ((2 * l + 1) * (2 * p + 1))) / (4 * PI)).
  set (N := Z.to_nat (l + p - Z.abs (l - p) + 1)).
  set (w := fun k : nat => let n := (Z.abs (l - p) + Z.of_nat k)%Z in racah l n p 0 0 0 * racah l n p (Z.abs m) 0 (- Z.abs m)).
  set (e := fun k : nat => let n := (Z.abs (l - p) + Z.of_nat k)%Z in edge (Z.to_nat n) (cos b) - edge (Z.to_nat n) (cos a)).
  set (V := c * rsum N (fun k => w k * e k)).
  exists (fun _ => RtoC V). split.
  - intros ph. apply (cint_ext (fun t => RtoC (c * rsum N (fun k => IZR (2 * (Z.abs (l - p) + Z.of_nat k) + 1) * racah l (Z.abs (l - p) + Z.of_nat k) p 0 0 0
        * racah l (Z.abs (l - p) + Z.of_nat k) p (Z.abs m) 0 (- Z.abs m) * legendre (Z.to_nat (Z.abs (l - p) + Z.of_nat k)) (cos t)) * sin t)));
      [intros t; rewrite (PF l p m t ph Hm Hl Hp), RtoC_mult; reflexivity|].
    apply cint_real. unfold V.
    apply (is_RInt_ext (fun t => c * rsum N (fun k => w k * ((2 * INR (Z.to_nat (Z.abs (l - p) + Z.of_nat k)) + 1) * legendre (Z.to_nat (Z.abs (l - p) + Z.of_nat k)) (cos t) * sin t)))).
    + intros t _. rewrite (Rmult_assoc c), <- rsum_scal_r. f_equal. apply rsum_ext. intros k _. unfold w. cbv zeta.
      rewrite plus_IZR, mult_IZR, INR_IZR_INZ, Z2Nat.id by lia. ring.
    + apply (is_RInt_scal (V := R_NormedModule)). apply is_RInt_rsum. intros k _. apply (is_RInt_scal (V := R_NormedModule)). apply legendre_integral.
  - apply (cint_val _ _ _ (RtoC ((2 * PI - 0) * V))); [|apply cint_real; exact (is_RInt_const 0 (2 * PI) V)].
    change (band_value l p m a b) with (pm1 m / 2 * sqrt (IZR ((2 * l + 1) * (2 * p + 1))) * rsum N (fun k => w k * e k)).
    f_equal. unfold V, c. field. lra.
Qed.

Lemma full_circle r : r <> 0%Z -> S_of 0 (2 * PI) r = RtoC 0.
Proof.
  intros H. unfold S_of. rewrite (proj2 (Z.eqb_neq r 0) H).
  assert (A : cexp (IZR r * 0) = RtoC 1) by (rewrite Rmult_0_r; apply C_ext; cbn; [apply cos_0|apply sin_0]).
  assert (B : cexp (IZR r * (2 * PI)) = RtoC 1).
  { apply C_ext; cbn.
    - replace (IZR r * (2 * PI)) with (2 * (IZR r * PI)) by ring. rewrite cos_2a_sin, (sin_eq_0_1 (IZR r * PI)) by (exists r; reflexivity). ring.
    - replace (IZR r * (2 * PI)) with (2 * (IZR r * PI)) by ring. rewrite sin_2a, (sin_eq_0_1 (IZR r * PI)) by (exists r; reflexivity). ring. }
  rewrite A, B. ring.
Qed.

(** Any table of values as an array. *)
Definition tab (d : Z -> Z -> Z -> R) (L : nat) : array3 :=
  Build_array3 (Z.of_nat L) (2 * Z.of_nat L - 1) (2 * Z.of_nat L - 1)
    (fun l i j => d l (i - (Z.of_nat L - 1))%Z (j - (Z.of_nat L - 1))%Z).
Lemma table_tab d L : table (tab d L) (Z.of_nat L) = d.
Proof.
  extensionality l. extensionality k. extensionality m. unfold table, tab. cbn [a3_at]. f_equal; lia.
Qed.

Lemma clsum_zeros {A} (f : A -> C) xs : (forall x, f x = RtoC 0) -> clsum (map f xs) = RtoC 0.
Proof. intros H. induction xs as [|x xs IH]; [reflexivity|]. cbn [map clsum]. rewrite H, IH. ring. Qed.

Lemma band_other d l m p q a b : (0 <= l)%Z -> (0 <= p)%Z -> m <> q ->
  box_integral (fun t ph => Cmult (Cmult (harmonic d l m t ph) (Cconj (harmonic d p q t ph))) (RtoC (sin t))) a b 0 (2 * PI) (RtoC 0).
Proof.
  intros Hl Hp N. pose proof (entry_integral a b 0 (2 * PI) (tab d 1) (Z.of_nat 1) l m p q Hl Hp) as H. rewrite table_tab in H.
  replace (entry_of a b 0 (2 * PI) (tab d 1) (Z.of_nat 1) l p m q) with (RtoC 0) in H; [exact H|].
  unfold entry_of. rewrite clsum_zeros; [ring|]. intros k. unfold S1_of. rewrite clsum_zeros; [ring|].
  intros k'. unfold T_of. rewrite full_circle by lia. ring.
Qed.

(** The matrix of overlaps in a band. *)
Definition band_matrix (a b : R) (i j : nat) : C :=
  let (l, m) := ind2elm i in let (p, q) := ind2elm j in
  if (m =? q)%Z then RtoC (band_value (Z.of_nat (Nat.min l p)) (Z.of_nat (Nat.max l p)) m a b) else RtoC 0.

Lemma number_harmonic d i : harmonic_number d i = harmonic d (Z.of_nat (fst (ind2elm i))) (snd (ind2elm i)).
Proof. unfold harmonic_number, ind2elm. cbn [fst snd]. f_equal. lia. Qed.

Lemma band_overlap d L i j a b : product_formula d L -> (i < L * L)%nat -> (j < L * L)%nat ->
  overlap d i j a b 0 (2 * PI) (band_matrix a b i j).
Proof.
  intros PF Hi Hj. pose proof (ind2elm_lt L i Hi) as Li. pose proof (ind2elm_lt L j Hj) as Lj.
  pose proof (ind2elm_range i) as Ri. pose proof (ind2elm_range j) as Rj.
  unfold overlap, band_matrix. rewrite !number_harmonic.
  destruct (ind2elm i) as [l m]. destruct (ind2elm j) as [p q]. cbn [fst snd] in *.
  destruct (Z.eqb_spec m q) as [<-|N].
  - destruct (Nat.le_gt_cases l p) as [Q|Q].
    + rewrite Nat.min_l, Nat.max_r by lia. apply (band_same d L); [exact PF|lia|lia|lia].
    + rewrite Nat.min_r, Nat.max_l by lia.
      destruct (band_same d L (Z.of_nat p) (Z.of_nat l) m a b PF ltac:(lia) ltac:(lia) ltac:(lia)) as (inn & HI & HO).
      exists (fun ph => Cconj (inn ph)). split.
      * intros ph. eapply cint_ext; [|apply cint_conj, HI]. intros t. cbn beta. rewrite !Cconj_mult, Cconj_conj, Cconj_R. ring.
      * apply cint_conj in HO. rewrite Cconj_R in HO. exact HO.
  - apply band_other; [lia|lia|exact N].
Qed.

(** ** The published entry *)
Lemma racah_odd l n p : (Z.abs (l - n) <= p <= l + n)%Z -> (0 <= l)%Z -> (0 <= n)%Z -> (0 <= p)%Z -> Z.odd (l + n + p) = true -> racah l n p 0 0 0 = 0.
Proof.
  intros H Hl Hn Hp O. pose proof (wigner3j_parity l n p O) as E. rewrite wigner3j_racah in E by (unfold selection; lia).
  injection E as E. exact E.
Qed.

Lemma pm1_abs m : pm1 (Z.abs m) = pm1 m.
Proof. unfold pm1. destruct (Z.abs_spec m) as [[_ ->]|[_ ->]]; [reflexivity|]. rewrite Z.even_opp. reflexivity. Qed.

Lemma pm1_pow n : (-1) ^ n = pm1 (Z.of_nat n).
Proof.
  unfold pm1. induction n as [|n IH]; [reflexivity|]. cbn [pow]. rewrite IH, Nat2Z.inj_succ, Z.even_succ, <- Z.negb_even.
  destruct (Z.even (Z.of_nat n)); cbn; ring.
Qed.

Definition cap_P (Theta : R) (n : Z) : R := legendre (Z.to_nat n) (cos Theta).

Lemma edge_cap Theta n : (0 <= n)%Z ->
  edge (Z.to_nat n) (cos Theta) = (if (n =? 0)%Z then 1 else cap_P Theta (n - 1)) - cap_P Theta (n + 1).
Proof.
  intros H. unfold edge, cap_P. replace (Z.to_nat (n + 1)) with (S (Z.to_nat n)) by lia.
  destruct (Z.eqb_spec n 0) as [->|N]; [reflexivity|]. replace (Z.to_nat n) with (S (Z.to_nat (n - 1))) at 1 by lia. reflexivity.
Qed.

Lemma cap_entry_north Theta l p m : (0 <= l)%Z -> (0 <= p)%Z ->
  band_value l p m 0 Theta = polar_entry false (cap_P Theta) (Z.abs m) l p.
Proof.
  intros Hl Hp. unfold band_value, polar_entry, polar_sum. rewrite pm1_abs.
  rewrite Rmult_1_r. f_equal. apply rsum_ext. intros k _. cbv zeta. rewrite edge_north, Rminus_0_r, edge_cap by lia. reflexivity.
Qed.

Lemma cap_entry_gap Theta l p m : (0 <= l)%Z -> (0 <= p)%Z ->
  band_value l p m 0 Theta + band_value l p m (PI - Theta) PI = polar_entry true (cap_P Theta) (Z.abs m) l p.
Proof.
  intros Hl Hp. rewrite cap_entry_north by assumption.
  assert (E : band_value l p m (PI - Theta) PI = pm1 (l + p) * polar_entry false (cap_P Theta) (Z.abs m) l p).
  { unfold band_value, polar_entry, polar_sum. rewrite pm1_abs. cbv iota.
    transitivity (pm1 m / 2 * sqrt (IZR ((2 * l + 1) * (2 * p + 1))) *
      (pm1 (l + p) * rsum (Z.to_nat (l + p - Z.abs (l - p) + 1)) (fun k =>
        let n := (Z.abs (l - p) + Z.of_nat k)%Z in racah l n p 0 0 0 * racah l n p (Z.abs m) 0 (- Z.abs m)
          * ((if (n =? 0)%Z then 1 else cap_P Theta (n - 1)) - cap_P Theta (n + 1))))); [|cbv zeta; ring].
    f_equal. rewrite <- rsum_scal_l. apply rsum_ext. intros k Hk. cbv zeta. set (n := (Z.abs (l - p) + Z.of_nat k)%Z) in *.
    rewrite cos_PI. replace (cos (PI - Theta)) with (- cos Theta) by (rewrite cos_minus, cos_PI, sin_PI; ring).
    rewrite edge_south, <- edge_cap by (unfold n; lia). rewrite pm1_pow, Z2Nat.id by (unfold n; lia).
    destruct (Z.odd (l + n + p)) eqn:O.
    - rewrite racah_odd by (unfold n in *; try lia; exact O). ring.
    - assert (Q : pm1 n = pm1 (l + p)).
      { unfold pm1. rewrite <- Z.negb_even in O. apply negb_false_iff in O. rewrite !Z.even_add in *.
        destruct (Z.even n), (Z.even l), (Z.even p); try reflexivity; discriminate. }
      rewrite Q. ring. }
  rewrite E. unfold polar_entry. ring.
Qed.

(** The matrix of overlaps in the caps. *)
Definition cap_matrix (gap : bool) (Theta : R) (i j : nat) : C :=
  let (l, m) := ind2elm i in let (p, q) := ind2elm j in
  if (m =? q)%Z then RtoC (polar_entry gap (cap_P Theta) (Z.abs m) (Z.of_nat (Nat.min l p)) (Z.of_nat (Nat.max l p))) else RtoC 0.

Lemma cap_matrix_split gap Theta i j :
  cap_matrix gap Theta i j = if gap then Cplus (band_matrix 0 Theta i j) (band_matrix (PI - Theta) PI i j) else band_matrix 0 Theta i j.
Proof.
  unfold cap_matrix, band_matrix. destruct (ind2elm i) as [l m]. destruct (ind2elm j) as [p q]. destruct gap.
  - rewrite <- cap_entry_gap by lia. destruct (m =? q)%Z; [apply RtoC_plus|ring].
  - rewrite <- cap_entry_north by lia. reflexivity.
Qed.

Lemma cap_overlap d L gap Theta i j : product_formula d L -> (i < L * L)%nat -> (j < L * L)%nat ->
  caps_inner gap Theta (harmonic_number d i) (harmonic_number d j) (cap_matrix gap Theta i j).
Proof.
  intros PF Hi Hj. exists (band_matrix 0 Theta i j), (band_matrix (PI - Theta) PI i j).
  split; [exact (band_overlap d L i j _ _ PF Hi Hj)|]. split; [exact (band_overlap d L i j _ _ PF Hi Hj)|]. apply cap_matrix_split.
Qed.

Lemma gram_plus n K K' v w : gram n (fun i j => Cplus (K i j) (K' i j)) v w = Cplus (gram n K v w) (gram n K' v w).
Proof.
  unfold gram. rewrite <- csum_plus. apply csum_ext. intros i _. rewrite <- csum_plus. apply csum_ext. intros j _. ring.
Qed.
Lemma gram_ext n K K' v w : (forall i j, (i < n)%nat -> (j < n)%nat -> K i j = K' i j) -> gram n K v w = gram n K' v w.
Proof. intros H. apply csum_ext. intros i Hi. apply csum_ext. intros j Hj. rewrite H by assumption. reflexivity. Qed.

Lemma cap_gram d L gap Theta v w : product_formula d L ->
  caps_inner gap Theta (band_limited d (L * L) v) (band_limited d (L * L) w) (gram (L * L) (cap_matrix gap Theta) v w).
Proof.
  intros PF.
  exists (gram (L * L) (band_matrix 0 Theta) v w), (gram (L * L) (band_matrix (PI - Theta) PI) v w).
  split; [apply inner_gram; intros i j; apply band_overlap; exact PF|].
  split; [apply inner_gram; intros i j; apply band_overlap; exact PF|].
  rewrite (gram_ext _ _ _ v w (fun i j _ _ => cap_matrix_split gap Theta i j)). destruct gap; [apply gram_plus|reflexivity].
Qed.

Lemma caps_unique gap Theta f g v v' : caps_inner gap Theta f g v -> caps_inner gap Theta f g v' -> v = v'.
Proof.
  intros (a & b & A & B & ->) (a' & b' & A' & B' & ->). rewrite (inner_unique _ _ _ _ _ _ _ _ A A'), (inner_unique _ _ _ _ _ _ _ _ B B'). reflexivity.
Qed.

(** ** The whole sphere *)
Lemma racah_l0l l m : (Z.abs m <= l)%Z -> racah l 0 l m 0 (- m) = pm1 (l + m) * sqrt (/ IZR (2 * l + 1)).
Proof.
  intros H. unfold racah, racah_sum.
  replace (l + 0 - l)%Z with 0%Z by ring. replace (l - 0 + l)%Z with (2 * l)%Z by ring. replace (- l + 0 + l)%Z with 0%Z by ring.
  replace (l + 0 + l + 1)%Z with (2 * l + 1)%Z by ring. replace (l - 0 - - m)%Z with (l + m)%Z by ring. replace (l + - m)%Z with (l - m)%Z by ring.
  replace (l - - m)%Z with (l + m)%Z by ring. change (Z.to_nat (0 + 1)) with 1%nat. cbn [rsum Z.of_nat].
  replace (0 - 0)%Z with 0%Z by ring. replace (l - m - 0)%Z with (l - m)%Z by ring. replace (0 + 0 - 0)%Z with 0%Z by ring.
  replace (l - 0 + m + 0)%Z with (l + m)%Z by ring. replace (l - l - 0 + 0)%Z with 0%Z by ring. change (0 + 0)%Z with 0%Z. change (0 - 0)%Z with 0%Z.
  assert (F : forall k, 0 < zfact k) by (intros k; unfold zfact; apply lt_0_INR, lt_O_fact).
  assert (Z0 : zfact 0 = 1) by reflexivity. assert (I0 : inv_fact 0 = 1) by (unfold inv_fact; cbn [Z.ltb Z.compare]; rewrite Z0; field).
  assert (Q : zfact (2 * l + 1) = IZR (2 * l + 1) * zfact (2 * l)).
  { unfold zfact. replace (Z.to_nat (2 * l + 1)) with (S (Z.to_nat (2 * l))) by lia. rewrite fact_simpl, mult_INR. f_equal.
    rewrite INR_IZR_INZ. f_equal. lia. }
  assert (L0 : 0 < IZR (2 * l + 1)) by (apply IZR_lt; lia).
  rewrite Q, I0, Z0. pose proof (F (2 * l)%Z) as F2. pose proof (F (l + m)%Z) as F3. pose proof (F (l - m)%Z) as F4.
  replace (1 * zfact (2 * l) * 1 / (IZR (2 * l + 1) * zfact (2 * l))) with (/ IZR (2 * l + 1)) by (field; lra).
  replace (zfact (l + m) * zfact (l - m) * 1 * 1 * zfact (l - m) * zfact (l + m)) with ((zfact (l + m) * zfact (l - m)) * (zfact (l + m) * zfact (l - m))) by ring.
  rewrite sqrt_square by (apply Rlt_le, Rmult_lt_0_compat; assumption).
  unfold inv_fact. rewrite !(proj2 (Z.ltb_ge _ 0)) by lia. change (pm1 0) with 1. field. lra.
Qed.

Lemma pm1_sq k : pm1 k * pm1 k = 1.
Proof. unfold pm1. destruct (Z.even k); ring. Qed.
Lemma pm1_add a b : pm1 (a + b) = pm1 a * pm1 b.
Proof. unfold pm1. rewrite Z.even_add. destruct (Z.even a), (Z.even b); cbn; ring. Qed.

Lemma edge_sphere n : edge n (cos PI) - edge n (cos 0) = if (n =? 0)%nat then 2 else 0.
Proof.
  rewrite edge_north, cos_PI. destruct n as [|n]; cbn [Nat.eqb]; unfold edge; [rewrite legendre_1; ring|].
  replace (-1) with (- (1)) by ring. rewrite !legendre_neg, !legendre_at_1. cbn [pow]. ring.
Qed.

Lemma band_sphere l p m : (Z.abs m <= l)%Z -> (l <= p)%Z -> band_value l p m 0 PI = if (l =? p)%Z then 1 else 0.
Proof.
  intros Hm Hl. unfold band_value.
  rewrite (rsum_ext _ _ (fun k => racah l (Z.abs (l - p) + Z.of_nat k) p 0 0 0 * racah l (Z.abs (l - p) + Z.of_nat k) p (Z.abs m) 0 (- Z.abs m)
     * (if (Z.to_nat (Z.abs (l - p) + Z.of_nat k) =? 0)%nat then 2 else 0))) by (intros k _; cbv zeta; rewrite edge_sphere; reflexivity).
  destruct (Z.eqb_spec l p) as [<-|N].
  - rewrite (rsum_single _ 0%nat); [|lia|].
    + replace (l - l)%Z with 0%Z by ring. cbn [Z.abs Z.add Z.of_nat Z.to_nat Nat.eqb].
      change (racah l 0 l 0 0 0) with (racah l 0 l 0 0 (- 0)). rewrite !racah_l0l by lia.
      assert (L0 : 0 < IZR (2 * l + 1)) by (apply IZR_lt; lia).
      rewrite mult_IZR, sqrt_square by lra. rewrite !pm1_add, pm1_abs. change (pm1 0) with 1.
      transitivity (pm1 m * pm1 m * (pm1 l * pm1 l) * IZR (2 * l + 1) * (sqrt (/ IZR (2 * l + 1)) * sqrt (/ IZR (2 * l + 1)))); [field|].
      rewrite !pm1_sq, sqrt_sqrt by (apply Rlt_le, Rinv_0_lt_compat, L0). field. lra.
    + intros k Hk Nk. replace (Z.to_nat (Z.abs (l - l) + Z.of_nat k) =? 0)%nat with false by (symmetry; apply Nat.eqb_neq; lia). ring.
  - rewrite rsum_zero; [ring|]. intros k _. replace (Z.to_nat (Z.abs (l - p) + Z.of_nat k) =? 0)%nat with false by (symmetry; apply Nat.eqb_neq; lia). ring.
Qed.

(** The product formula makes the harmonics orthonormal. *)
Lemma product_orthonormal d L : product_formula d L -> orthonormal d (L * L).
Proof.
  intros PF i j Hi Hj. replace (RtoC (if (i =? j)%nat then 1 else 0)) with (band_matrix 0 PI i j); [exact (band_overlap d L i j 0 PI PF Hi Hj)|].
  unfold band_matrix. pose proof (ind2elm_range i) as Ri. pose proof (ind2elm_range j) as Rj.
  pose proof (elm2ind_ind2elm i) as Ei. pose proof (elm2ind_ind2elm j) as Ej.
  destruct (ind2elm i) as [l m]. destruct (ind2elm j) as [p q]. cbn [fst snd] in *.
  destruct (Z.eqb_spec m q) as [<-|N].
  - rewrite band_sphere by lia. f_equal. destruct (Z.eqb_spec (Z.of_nat (Nat.min l p)) (Z.of_nat (Nat.max l p))) as [Q|Q].
    + assert (l = p) as <- by lia. replace j with i by congruence. rewrite Nat.eqb_refl. reflexivity.
    + rewrite (proj2 (Nat.eqb_neq i j)); [reflexivity|]. intros ->. rewrite <- Ei in Ej. apply elm2ind_inj in Ej; lia.
  - f_equal. rewrite (proj2 (Nat.eqb_neq i j)); [reflexivity|]. intros ->. rewrite <- Ei in Ej. apply elm2ind_inj in Ej; lia.
Qed.

Lemma band_energy d L w a b : product_formula d L -> 0 <= a -> a <= b -> b <= PI ->
  exists e, 0 <= e /\ inner (band_limited d (L * L) w) (band_limited d (L * L) w) a b 0 (2 * PI) (RtoC e).
Proof.
  intros PF Ha Hab Hb. pose proof PI_RGT_0 as P0.
  pose proof (inner_gram d (L * L) (band_matrix a b) w w a b 0 (2 * PI) (fun i j Hi Hj => band_overlap d L i j a b PF Hi Hj)) as G.
  destruct (proj1 (inner_energy _ _ _ _ _ _) G) as [E Q]. exists (Re (gram (L * L) (band_matrix a b) w w)). split; [|rewrite <- Q; exact G].
  refine (box_nonneg _ _ _ _ _ _ _ _ _ E); [lra|lra|].
  intros t ph Ht. apply Rmult_le_pos; [apply pow2_ge_0|apply sin_ge_0; lra].
Qed.

Lemma inner_split f g a b c v w : inner f g a b 0 (2 * PI) v -> inner f g b c 0 (2 * PI) w -> inner f g a c 0 (2 * PI) (Cplus v w).
Proof. apply box_split_theta. Qed.

Lemma caps_range d L gap Theta w v t : product_formula d L -> 0 <= Theta <= PI -> (gap = true -> Theta <= PI / 2) ->
  let f := band_limited d (L * L) w in
  caps_inner gap Theta f f (RtoC v) -> inner f f 0 PI 0 (2 * PI) (RtoC t) -> 0 <= v <= t.
Proof.
  intros PF HT HG f (north & south & HN & HS & Ev) Ht. pose proof PI_RGT_0 as P0.
  destruct (band_energy d L w 0 Theta PF ltac:(lra) ltac:(lra) ltac:(lra)) as (e1 & P1 & E1). fold f in E1.
  pose proof (inner_unique _ _ _ _ _ _ _ _ HN E1) as Q1. subst north.
  destruct gap.
  - specialize (HG eq_refl).
    destruct (band_energy d L w Theta (PI - Theta) PF ltac:(lra) ltac:(lra) ltac:(lra)) as (e2 & P2 & E2). fold f in E2.
    destruct (band_energy d L w (PI - Theta) PI PF ltac:(lra) ltac:(lra) ltac:(lra)) as (e3 & P3 & E3). fold f in E3.
    pose proof (inner_unique _ _ _ _ _ _ _ _ HS E3) as Q3. subst south.
    pose proof (inner_unique _ _ _ _ _ _ _ _ Ht (inner_split _ _ _ _ _ _ _ (inner_split _ _ _ _ _ _ _ E1 E2) E3)) as Q.
    apply (f_equal Re) in Q, Ev. cbn in Q, Ev. lra.
  - destruct (band_energy d L w Theta PI PF ltac:(lra) ltac:(lra) ltac:(lra)) as (e2 & P2 & E2). fold f in E2.
    pose proof (inner_unique _ _ _ _ _ _ _ _ Ht (inner_split _ _ _ _ _ _ _ E1 E2)) as Q.
    apply (f_equal Re) in Q, Ev. cbn in Q, Ev. lra.
Qed.
