(** * C71: Wigner's formula gives the table from which the matrices of a box are
    built; the harmonics in all statements about Slepian functions are then the
    spherical harmonics of the textbooks, for every band limit. *)
From Coq Require Import List ZArith Arith Bool Reals Lia Lra Sorting.Permutation.
From Coquelicot Require Import Coquelicot.
From Verif Require Import Base ListLemmas RSum CSum Numpy Machine Job Mask Quadrature ArbitraryMatrix SpecArbitrary ArbitrarySolve Index IndexProofs Eigen SpecEigen LatLon SpecLatLon LatLonIntegrals LatLonProofs LatLonParallel LatLonSolve SpecConcentration ConcentrationProofs
  SpecHarmonics SpecLegendre LegendreProofs CapProofs TextbookProofs SpecWigner WignerProofs SpecWignerD WignerDProofs PropEigen PropLatLon PropConcentration PropCap PropArbitrary.
Import ListNotations.
Local Open Scope nat_scope.

(** ** The harmonics *)
Lemma textbook_ylm d L l m theta phi : textbook d L -> (Z.abs m <= l)%Z -> (l < Z.of_nat L)%Z ->
  harmonic d l m theta phi = ylm l m theta phi.
Proof.
  intros T Hm Hl. unfold ylm. destruct (Z.leb_spec 0 m) as [P|N].
  - destruct (T (Z.to_nat l) (Z.to_nat m) theta phi ltac:(lia) ltac:(lia)) as [E _]. rewrite !Z2Nat.id in E by lia. exact E.
  - destruct (T (Z.to_nat l) (Z.to_nat (- m)) theta phi ltac:(lia) ltac:(lia)) as [_ E]. rewrite !Z2Nat.id in E by lia.
    rewrite Z.opp_involutive in E. rewrite E. f_equal. f_equal. rewrite pm1_pow, Z2Nat.id by lia. apply pm1_opp.
Qed.

(** The Fourier sum over Wigner's values at pi/2 is the spherical harmonic: every
    degree, every order, every point. *)
Theorem C71_harmonics : forall l m theta phi, (Z.abs m <= l)%Z ->
  harmonic (fun l k m => wigner_d l k m (PI / 2)) l m theta phi = ylm l m theta phi.
Proof.
  intros l m theta phi Hm. apply (textbook_ylm _ (S (Z.to_nat l))); [apply table_textbook|exact Hm|lia].
Qed.
Print Assumptions C71_harmonics.

(** What [ssht.generate_dl] is documented to return: at [l, L - 1 + k, L - 1 + m]
    Wigner's value of degree [l] and orders [k], [m] at pi/2. *)
Definition wigner_generated (dl : array3) (L : nat) : Prop :=
  generated dl L /\
  forall l k m, (0 <= l < Z.of_nat L)%Z -> (Z.abs k <= l)%Z -> (Z.abs m <= l)%Z ->
    a3_at dl l (Z.of_nat L - 1 + k) (Z.of_nat L - 1 + m) = wigner_d l k m (PI / 2).

(** There is such a table for every band limit, and its harmonics are those of the
    textbooks. *)
Theorem C71_table : forall L, (exists dl, wigner_generated dl L) /\
  forall dl, wigner_generated dl L -> textbook (wigner_values dl L) L.
Proof.
  intros L. split.
  - exists {| a3_0 := Z.of_nat L; a3_1 := (2 * Z.of_nat L - 1)%Z; a3_2 := (2 * Z.of_nat L - 1)%Z;
              a3_at := fun l i j => wigner_d l (i - (Z.of_nat L - 1)) (j - (Z.of_nat L - 1)) (PI / 2) |}.
    split; [repeat split|]. intros l k m _ _ _. cbn [a3_at]. f_equal; lia.
  - intros dl [_ H] l m theta phi Hl Hm.
    assert (E : forall k, (Z.abs k <= Z.of_nat l)%Z -> harmonic (wigner_values dl L) (Z.of_nat l) k theta phi = harmonic wigner_table (Z.of_nat l) k theta phi).
    { intros k Hk. unfold harmonic. f_equal. f_equal. apply clsum_map_ext. intros j Hj. apply in_zrange in Hj.
      f_equal. f_equal. unfold wigner_values. rewrite !H by lia. reflexivity. }
    rewrite !E by lia. exact (table_textbook L l m theta phi Hl Hm).
Qed.
Print Assumptions C71_table.

Lemma number_ylm d L i theta phi : textbook d L -> i < L * L -> harmonic_number d i theta phi = ylm_number i theta phi.
Proof.
  intros T Hi. unfold harmonic_number, ylm_number. pose proof (Nat.sqrt_spec i ltac:(lia)) as Q.
  assert (Nat.sqrt i < L) by (apply Nat.sqrt_lt_square; lia). apply (textbook_ylm _ L); [exact T|nia|lia].
Qed.

Lemma limited_ylm d L w theta phi : textbook d L -> band_limited d (L * L) w theta phi = expansion (L * L) w theta phi.
Proof. intros T. apply csum_ext. intros i Hi. rewrite (number_ylm d L) by assumption. reflexivity. Qed.

Lemma inner_same f g f' g' a b c e v : (forall t p, f t p = f' t p) -> (forall t p, g t p = g' t p) -> inner f g a b c e v -> inner f' g' a b c e v.
Proof. intros F G. apply box_ext. intros t p. rewrite F, G. reflexivity. Qed.

Lemma energy_same f g a b c e v : (forall t p, f t p = g t p) -> energy f a b c e v -> energy g a b c e v.
Proof. intros F. apply box_ext. intros t p. rewrite F. reflexivity. Qed.

(** The spherical harmonics are orthonormal on the sphere. *)
Theorem C71_orthonormal : forall i j, inner (ylm_number i) (ylm_number j) 0 PI 0 (2 * PI) (RtoC (if i =? j then 1 else 0)).
Proof.
  intros i j. set (L := S (Nat.max i j)). pose proof (table_textbook L) as T. pose proof (textbook_orthonormal _ _ T) as ON.
  assert (Hi : i < L * L) by (unfold L; nia). assert (Hj : j < L * L) by (unfold L; nia).
  apply (inner_same (harmonic_number wigner_table i) (harmonic_number wigner_table j)); try (intros; apply (number_ylm _ L); assumption).
  exact (ON i j Hi Hj).
Qed.
Print Assumptions C71_orthonormal.

(** ** Boxes *)
(** Every entry of the matrix of a box is the overlap of two spherical harmonics,
    for any order of the parallel iterations. *)
Theorem C71_box : forall theta_min theta_max phi_min phi_max dl order L, 1 <= L ->
  wigner_generated dl L -> schedule order L ->
  exists K, create_K_matrix theta_min theta_max phi_min phi_max dl order (Z.of_nat L) = Ok K /\
    forall l m l' m', (Z.abs m <= l < Z.of_nat L)%Z -> (Z.abs m' <= l' < Z.of_nat L)%Z ->
      inner (ylm l m) (ylm l' m') theta_min theta_max phi_min phi_max (K (Z.to_nat (l * l + l + m)) (Z.to_nat (l' * l' + l' + m'))).
Proof.
  intros tmin tmax pmin pmax dl order L HL HW HO. pose proof (proj2 (C71_table L) dl HW) as T. destruct HW as [HG _].
  destruct (C05_matrix tmin tmax pmin pmax dl order L HL HG HO) as (K & E & H). exists K. split; [exact E|].
  intros l m l' m' Hl Hl'.
  assert (N : forall l m, (Z.abs m <= l < Z.of_nat L)%Z -> Z.to_nat (l * l + l + m) < L * L /\
     forall t p, harmonic_number (wigner_values dl L) (Z.to_nat (l * l + l + m)) t p = ylm l m t p).
  { intros a b Hab. split; [nia|]. intros t p. unfold harmonic_number.
    assert (Q : Nat.sqrt (Z.to_nat (a * a + a + b)) = Z.to_nat a) by (apply Nat.sqrt_unique; nia). rewrite Q.
    replace (Z.of_nat (Z.to_nat (a * a + a + b)) - Z.of_nat (Z.to_nat a) * Z.of_nat (Z.to_nat a) - Z.of_nat (Z.to_nat a))%Z with b by nia.
    rewrite Z2Nat.id by lia. apply (textbook_ylm _ L); [exact T|lia|lia]. }
  destruct (N l m Hl) as [B1 N1]. destruct (N l' m' Hl') as [B2 N2].
  exact (inner_same _ _ _ _ _ _ _ _ _ N1 N2 (H _ _ B1 B2)).
Qed.
Print Assumptions C71_box.

(** The external calls for one box: [np.argsort] sorts, [ssht.generate_dl] returns
    Wigner's values, [LA.eigh] decomposes the matrix. *)
Definition box_calls eigh argsort theta_min theta_max phi_min phi_max dl order L : Prop :=
  argsort_ok argsort /\ wigner_generated dl L /\ schedule order L /\
  forall K, create_K_matrix theta_min theta_max phi_min phi_max dl order (Z.of_nat L) = Ok K ->
    eigen_c (L * L) K (fst (eigh K)) (snd (eigh K)).

(** Row [p] of the eigenvectors as a function on the sphere. *)
Definition row_function (L : nat) (rows : list (list C)) (p : nat) : R -> R -> C :=
  expansion (L * L) (fun i => nth i (nth p rows []) (RtoC 0)).

(** The Slepian functions of a box in spherical harmonics: orthonormal on the
    sphere, orthogonal in the box, energy in the box the eigenvalue, and every
    band-limited function orthogonal to the first [p] is concentrated no better than
    the eigenvalue [p]. *)
Theorem C71_box_functions : forall eigh argsort theta_min theta_max phi_min phi_max dl order L, 1 <= L ->
  box_calls eigh argsort theta_min theta_max phi_min phi_max dl order L -> on_sphere theta_min theta_max phi_min phi_max ->
  exists evals rows, solve_lat_lon eigh argsort theta_min theta_max phi_min phi_max dl order L = Ok (evals, rows) /\
    length evals = L * L /\ length rows = L * L /\ descending evals /\
    (forall p q, p < L * L -> q < L * L ->
      inner (row_function L rows p) (row_function L rows q) 0 PI 0 (2 * PI) (RtoC (if p =? q then 1 else 0)) /\
      inner (row_function L rows p) (row_function L rows q) theta_min theta_max phi_min phi_max (RtoC (if p =? q then nth p evals 0%R else 0)) /\
      (0 <= nth p evals 0 <= 1)%R) /\
    (forall p w inside total, p < L * L ->
      (forall q, q < p -> inner (expansion (L * L) w) (row_function L rows q) 0 PI 0 (2 * PI) (RtoC 0)) ->
      energy (expansion (L * L) w) theta_min theta_max phi_min phi_max inside -> energy (expansion (L * L) w) 0 PI 0 (2 * PI) total ->
      (inside <= nth p evals 0 * total)%R).
Proof.
  intros eigh argsort tmin tmax pmin pmax dl order L HL (HA & HW & HO & HE) HS.
  pose proof (proj2 (C71_table L) dl HW) as T. pose proof (proj1 HW) as HG.
  assert (X : external_calls eigh argsort tmin tmax pmin pmax dl order L) 
    by (split; [exact HA|]; split; [exact HG|]; split; [exact HO|]; split; [exact T|exact HE]).
  destruct (C65_functions eigh argsort tmin tmax pmin pmax dl order L HL X HS) as (evals & rows & E & Hl & Hr & Hd & H).
  exists evals, rows. split; [exact E|]. split; [exact Hl|]. split; [exact Hr|]. split; [exact Hd|].
  assert (W : forall w t p, band_limited (wigner_values dl L) (L * L) w t p = expansion (L * L) w t p) by (intros; apply limited_ylm; exact T).
  split.
  - intros p q Hp Hq. destruct (H p q Hp Hq) as (H1 & H2 & H3).
    split; [exact (inner_same _ _ _ _ _ _ _ _ _ (W _) (W _) H1)|]. split; [exact (inner_same _ _ _ _ _ _ _ _ _ (W _) (W _) H2)|exact H3].
  - intros p w inside total Hp Hq EI ET.
    assert (V : forall w t p, expansion (L * L) w t p = band_limited (wigner_values dl L) (L * L) w t p) by (intros; symmetry; apply W).
    apply (C65_optimal eigh argsort tmin tmax pmin pmax dl order L evals rows w p inside total HL X E Hp).
    + intros q Hqp. exact (inner_same _ _ _ _ _ _ _ _ _ (V _) (V _) (Hq q Hqp)).
    + exact (energy_same _ _ _ _ _ _ _ (V _) EI).
    + exact (energy_same _ _ _ _ _ _ _ (V _) ET).
Qed.
Print Assumptions C71_box_functions.

(** ** Polar caps *)
(** The external calls for a cap or a polar gap: [np.argsort] sorts,
    [ssht.create_ylm] returns the harmonics of order 0 at the edge, all workers have
    finished, [LA.eigh] decomposes the matrix of every order. *)
Definition polar_calls eigh argsort (L : nat) (gap : bool) (Theta : R) ylm_edge (Dm : nat -> nat -> nat -> R) : Prop :=
  argsort_ok argsort /\ edge_harmonics L Theta ylm_edge /\
  (forall a, a < L -> finished_matrix L gap ylm_edge a (Dm a)) /\
  (forall a, a < L -> eigen_r (L - a) (Dm a) (fst (eigh (L - a) (Dm a))) (snd (eigh (L - a) (Dm a)))).

Lemma caps_same f g f' g' gap Theta v : (forall t p, f t p = f' t p) -> (forall t p, g t p = g' t p) -> caps_inner gap Theta f g v -> caps_inner gap Theta f' g' v.
Proof.
  intros F G (n & s & Hn & Hs & ->). exists n, s. split; [exact (inner_same _ _ _ _ _ _ _ _ _ F G Hn)|]. split; [exact (inner_same _ _ _ _ _ _ _ _ _ F G Hs)|reflexivity].
Qed.

(** The Slepian functions of a cap or gap in spherical harmonics. *)
Theorem C71_cap_functions : forall eigh argsort L gap Theta ylm_edge Dm, 1 <= L ->
  polar_calls eigh argsort L gap Theta ylm_edge Dm -> proper_cap gap Theta ->
  exists evals rows orders, solve_all_orders argsort eigh Dm L = Ok (evals, rows, orders) /\
    length evals = L * L /\ length rows = L * L /\ descending evals /\
    (forall p q, p < L * L -> q < L * L ->
      inner (row_function L rows p) (row_function L rows q) 0 PI 0 (2 * PI) (RtoC (if p =? q then 1 else 0)) /\
      caps_inner gap Theta (row_function L rows p) (row_function L rows q) (RtoC (if p =? q then nth p evals 0%R else 0)) /\
      (0 <= nth p evals 0 <= 1)%R) /\
    (forall p w inside total, p < L * L ->
      (forall q, q < p -> inner (expansion (L * L) w) (row_function L rows q) 0 PI 0 (2 * PI) (RtoC 0)) ->
      caps_inner gap Theta (expansion (L * L) w) (expansion (L * L) w) (RtoC inside) ->
      inner (expansion (L * L) w) (expansion (L * L) w) 0 PI 0 (2 * PI) (RtoC total) ->
      (inside <= nth p evals 0 * total)%R).
Proof.
  intros eigh argsort L gap Theta ylm_edge Dm HL (HA & HY & HD & HE) HP. pose proof (table_textbook L) as T.
  assert (X : cap_calls eigh argsort wigner_table L gap Theta ylm_edge Dm) by (split; [exact HA|]; split; [exact T|]; split; [exact HY|]; split; assumption).
  destruct (C66_functions eigh argsort wigner_table L gap Theta ylm_edge Dm HL X HP) as (evals & rows & orders & E & Hl & Hr & Hd & H).
  exists evals, rows, orders. split; [exact E|]. split; [exact Hl|]. split; [exact Hr|]. split; [exact Hd|].
  assert (W : forall w t p, band_limited wigner_table (L * L) w t p = expansion (L * L) w t p) by (intros; apply limited_ylm; exact T).
  split.
  - intros p q Hp Hq. destruct (H p q Hp Hq) as (H1 & H2 & H3).
    split; [exact (inner_same _ _ _ _ _ _ _ _ _ (W _) (W _) H1)|]. split; [exact (caps_same _ _ _ _ _ _ _ (W _) (W _) H2)|exact H3].
  - intros p w inside total Hp Hq EI ET.
    assert (V : forall w t p, expansion (L * L) w t p = band_limited wigner_table (L * L) w t p) by (intros; symmetry; apply W).
    apply (C66_optimal eigh argsort wigner_table L gap Theta ylm_edge Dm evals rows orders w p inside total HL X E Hp).
    + intros q Hqp. exact (inner_same _ _ _ _ _ _ _ _ _ (V _) (V _) (Hq q Hqp)).
    + exact (caps_same _ _ _ _ _ _ _ (V _) (V _) EI).
    + exact (inner_same _ _ _ _ _ _ _ _ _ (V _) (V _) ET).
Qed.
Print Assumptions C71_cap_functions.

(** ** Arbitrary regions *)
Lemma grid_same M inside f g f' g' : (forall t p, f t p = f' t p) -> (forall t p, g t p = g' t p) -> grid_inner M inside f g = grid_inner M inside f' g'.
Proof. intros F G. apply csum_ext. intros t _. apply csum_ext. intros p _. rewrite F, G. reflexivity. Qed.

Lemma grid_energy_same M inside f g : (forall t p, f t p = g t p) -> grid_energy M inside f = grid_energy M inside g.
Proof. intros F. apply rsum_ext. intros t _. apply rsum_ext. intros p _. rewrite F. reflexivity. Qed.

(** The external calls for a mask: [ssht.inverse] returns the harmonics at the
    samples, all threads have finished, [LA.eigh] decomposes the matrix. *)
Definition mask_calls eigh argsort L (mask : mask_array) samples_of ncpu garbage sched : Prop :=
  0 < ncpu /\ argsort_ok argsort /\ shape mask = repeat (4 * L) (2 * L + 1) /\
  (forall i s, i < L * L -> samples_of i s = ylm_number i (colatitude (2 * L) (s / (4 * L))) (longitude (2 * L) (s mod (4 * L)))) /\
  Machine.finished (arbitrary_job L (samples (2 * L)) (flat_mask mask) (flat_weight (2 * L)) samples_of ncpu garbage sched) /\
  forall D, solved_D_matrix L (samples (2 * L)) (flat_mask mask) (flat_weight (2 * L)) samples_of ncpu garbage sched = Ok D ->
    eigen_c (L * L) D (fst (eigh D)) (snd (eigh D)).

(** The Slepian functions of an arbitrary region in spherical harmonics. *)
Theorem C71_mask_functions : forall eigh argsort L mask samples_of ncpu garbage sched, 1 <= L ->
  mask_calls eigh argsort L mask samples_of ncpu garbage sched ->
  exists evals rows, solve_arbitrary eigh argsort L mask samples_of ncpu garbage sched = Ok (evals, rows) /\
    length evals = L * L /\ length rows = L * L /\ descending evals /\
    (forall p q, p < L * L -> q < L * L ->
      inner (row_function L rows p) (row_function L rows q) 0 PI 0 (2 * PI) (RtoC (if p =? q then 1 else 0)) /\
      grid_inner (2 * L) (masked mask) (row_function L rows p) (row_function L rows q) = RtoC (if p =? q then nth p evals 0%R else 0)) /\
    (forall p w total, p < L * L ->
      (forall q, q < p -> inner (expansion (L * L) w) (row_function L rows q) 0 PI 0 (2 * PI) (RtoC 0)) ->
      energy (expansion (L * L) w) 0 PI 0 (2 * PI) total ->
      (grid_energy (2 * L) (masked mask) (expansion (L * L) w) <= nth p evals 0 * total)%R).
Proof.
  intros eigh argsort L mask f ncpu garbage sched HL (HN & HA & HM & HF & HD & HE). pose proof (table_textbook L) as T.
  assert (X : arbitrary_calls eigh argsort wigner_table L mask f ncpu garbage sched).
  { split; [exact HN|]. split; [exact HA|]. split; [exact HM|]. split; [|split; [exact T|split; assumption]].
    intros i s Hi. rewrite (number_ylm _ L) by assumption. replace (2 * (2 * L)) with (4 * L) by lia. apply HF, Hi. }
  destruct (C67_functions eigh argsort wigner_table L mask f ncpu garbage sched HL X) as (evals & rows & E & Hl & Hr & Hd & H).
  exists evals, rows. split; [exact E|]. split; [exact Hl|]. split; [exact Hr|]. split; [exact Hd|].
  assert (W : forall w t p, band_limited wigner_table (L * L) w t p = expansion (L * L) w t p) by (intros; apply limited_ylm; exact T).
  split.
  - intros p q Hp Hq. destruct (H p q Hp Hq) as (H1 & H2 & _).
    split; [exact (inner_same _ _ _ _ _ _ _ _ _ (W _) (W _) H1)|]. rewrite <- H2. symmetry. apply grid_same; apply W.
  - intros p w total Hp Hq ET.
    assert (V : forall w t p, expansion (L * L) w t p = band_limited wigner_table (L * L) w t p) by (intros; symmetry; apply W).
    rewrite (grid_energy_same (2 * L) (masked mask) _ _ (V w)).
    apply (C67_optimal eigh argsort wigner_table L mask f ncpu garbage sched evals rows w p total HL X E Hp).
    + intros q Hqp. exact (inner_same _ _ _ _ _ _ _ _ _ (V _) (V _) (Hq q Hqp)).
    + exact (energy_same _ _ _ _ _ _ _ (V _) ET).
Qed.
Print Assumptions C71_mask_functions.

(** ** Cases *)
(** Degree 1: Wigner's values at pi/2, the signs included. *)
Module WignerDCases.
  Local Open Scope R_scope.
  Lemma four : sqrt (1 * 2 * 1 * 2) = 2. Proof. replace (1 * 2 * 1 * 2) with (2 * 2) by ring. apply sqrt_square. lra. Qed.
  Lemma z0 : zfact 0 = 1. Proof. reflexivity. Qed.
  Lemma z1 : zfact 1 = 1. Proof. reflexivity. Qed.
  Lemma z2 : zfact 2 = 2. Proof. unfold zfact. change (fact (Z.to_nat 2)) with 2%nat. rewrite INR_IZR_INZ. reflexivity. Qed.
  Lemma i0 : inv_fact 0 = 1. Proof. unfold inv_fact. cbn [Z.ltb Z.compare]. rewrite z0. field. Qed.
  Lemma i1 : inv_fact 1 = 1. Proof. unfold inv_fact. cbn [Z.ltb Z.compare]. rewrite z1. field. Qed.
  Lemma i2 : inv_fact 2 = / 2. Proof. unfold inv_fact. cbn [Z.ltb Z.compare]. rewrite z2. field. Qed.

  Example C71_value : wigner_d 1 1 0 (PI / 2) = - (1 / sqrt 2) /\ wigner_d 1 0 1 (PI / 2) = 1 / sqrt 2 /\ wigner_d 1 0 0 (PI / 2) = 0.
  Proof.
    pose proof (sqrt_lt_R0 2 ltac:(lra)) as S2. pose proof (sqrt_sqrt 2 ltac:(lra)) as SS. unfold wigner_d.
    replace (PI / 2 / 2) with (PI / 4) by field. rewrite cos_PI4, sin_PI4.
    change (Z.to_nat (2 * 1 + 1)) with 3%nat. unfold rsum. cbv zeta.
    repeat match goal with |- context [Z.to_nat ?x] => let v := eval vm_compute in (Z.to_nat x) in change (Z.to_nat x) with v end.
    repeat match goal with |- context [zfact ?x] => let v := eval vm_compute in x in progress change (zfact x) with (zfact v) end.
    repeat match goal with |- context [inv_fact ?x] => let v := eval vm_compute in x in progress change (inv_fact x) with (inv_fact v) end.
    repeat match goal with |- context [pm1 ?x] => let v := eval vm_compute in x in progress change (pm1 x) with (pm1 v) end.
    rewrite !z0, !z1, !z2, ?i0, ?i1, ?i2.
    assert (N1 : inv_fact (-1) = 0) by reflexivity. assert (N2 : inv_fact (-2) = 0) by reflexivity.
    assert (N3 : inv_fact (-3) = 0) by reflexivity. rewrite ?N1, ?N2, ?N3.
    change (pm1 0) with 1. change (pm1 1) with (-1). change (pm1 2) with 1. change (pm1 3) with (-1). change (pm1 (-1)) with (-1).
    replace (sqrt (2 * 1 * 1 * 1)) with (sqrt 2) by (f_equal; ring). replace (sqrt (1 * 1 * 2 * 1)) with (sqrt 2) by (f_equal; ring).
    split; [|split].
    - transitivity (- (sqrt 2 * (1 / sqrt 2 * (1 / sqrt 2)))); [ring|]. field. lra.
    - transitivity (sqrt 2 * (1 / sqrt 2 * (1 / sqrt 2))); [ring|]. field. lra.
    - ring.
  Qed.

  (** Y_11 = - sqrt(3/(8 pi)) sin(theta) exp(i phi) from the table of degree 1. *)
  Example C71_case : forall theta phi, harmonic (fun l k m => wigner_d l k m (PI / 2)) 1 1 theta phi =
    Cmult (RtoC (- (sqrt (3 / (4 * PI) * (1 / 2)) * sin theta))) (expi phi).
  Proof.
    intros theta phi. rewrite C71_harmonics by lia. unfold ylm. cbn [Z.leb Z.compare]. unfold spherical_harmonic.
    change (Z.to_nat 1) with 1%nat. rewrite ConcentrationCases.associated11. change (INR 1) with 1. rewrite Rmult_1_l.
    f_equal. f_equal. replace ((2 * 1 + 1) / (4 * PI) * (INR (fact (1 - 1)) / INR (fact (1 + 1)))) with (3 / (4 * PI) * (1 / 2)); [ring|].
    change (INR (fact (1 - 1))) with 1. change (INR (fact (1 + 1))) with 2. pose proof PI_RGT_0. field. lra.
  Qed.
End WignerDCases.
