(** * C84: band-limited functions are determined by their values in any box; the
    eigenvalues of boxes and caps lie strictly between 0 and 1 and grow strictly with
    the region; a mask has no more positive eigenvalues than samples. *)
From Coq Require Import List ZArith Arith Bool Reals Lia Lra Sorting.Permutation.
From Coquelicot Require Import Coquelicot.
From Verif Require Import Base ListLemmas RSum CSum Numpy SpecPolar OrthoProofs Machine Job Mask Quadrature ArbitraryMatrix SpecArbitrary ArbitrarySolve ArbitrarySolveProofs Index IndexProofs Eigen SpecEigen EigenProofs PolarEigenProofs
  LatLon SpecLatLon LatLonIntegrals LatLonProofs LatLonParallel LatLonSolve SpecConcentration ConcentrationProofs
  SpecHarmonics SpecLegendre LegendreProofs CapProofs TextbookProofs SpecWigner WignerProofs SpecWignerD WignerDProofs SpectralProofs WeylProofs MotionProofs
  PropEigen PropMatrix PropLatLon PropConcentration PropCap PropArbitrary PropWignerD PropSpectral IdentityProofs.
Import ListNotations.
Local Open Scope nat_scope.

(** ** Functions determined by a box *)
Lemma sphere_product L v w : inner (expansion (L * L) v) (expansion (L * L) w) 0 PI 0 (2 * PI) (ip (L * L) v w).
Proof.
  pose proof (table_textbook L) as T. rewrite <- gram_identity.
  refine (inner_same _ _ _ _ _ _ _ _ _ _ _ (inner_gram wigner_table (L * L) _ v w _ _ _ _ (textbook_orthonormal _ _ T))); intros; apply limited_ylm; exact T.
Qed.

Lemma vanishing_coefficients L w : (forall t p, expansion (L * L) w t p = RtoC 0) -> forall i, i < L * L -> w i = RtoC 0.
Proof.
  intros H. apply nrm2_zero. apply RtoC_inj. rewrite <- ip_self.
  apply (inner_unique _ _ _ _ _ _ _ _ (sphere_product L w w)). unfold inner.
  refine (box_ext (fun _ _ => RtoC 0) _ _ _ _ _ _ _ (box_zero _ _ _ _)). intros t p. rewrite H. ring.
Qed.

(** Two band-limited functions that agree in some box of positive size have the same
    coefficients, hence agree everywhere. *)
Theorem C84_identity : forall L v w theta_min theta_max phi_min phi_max, 1 <= L -> (theta_min < theta_max)%R -> (phi_min < phi_max)%R ->
  (forall t p, (theta_min < t < theta_max)%R -> (phi_min < p < phi_max)%R -> expansion (L * L) v t p = expansion (L * L) w t p) ->
  forall i, i < L * L -> v i = w i.
Proof.
  intros L v w a b c e HL Hab Hce H i Hi. pose proof (table_textbook L) as T.
  set (z := fun i => Cminus (v i) (w i)).
  assert (D : forall t p, expansion (L * L) z t p = Cminus (expansion (L * L) v t p) (expansion (L * L) w t p)).
  { intros t p. unfold expansion. rewrite <- csum_minus. apply csum_ext. intros j _. unfold z. ring. }
  assert (Z : z i = RtoC 0).
  { apply (vanishing_coefficients L); [|exact Hi]. intros t p. rewrite <- (limited_ylm _ L z t p T).
    apply (limited_identity wigner_table L HL z a b c e Hab Hce). intros s q Hs Hq. rewrite (limited_ylm _ L z s q T), D, H by assumption. ring. }
  unfold z in Z. transitivity (Cplus (Cminus (v i) (w i)) (w i)); [ring|rewrite Z; ring].
Qed.
Print Assumptions C84_identity.

(** Every band-limited function other than 0 has energy in every box. *)
Theorem C84_positive : forall L w theta_min theta_max phi_min phi_max e, 1 <= L ->
  (0 <= theta_min < theta_max)%R -> (theta_max <= PI)%R -> (phi_min < phi_max)%R ->
  energy (expansion (L * L) w) theta_min theta_max phi_min phi_max e ->
  (exists i, i < L * L /\ w i <> RtoC 0) -> (0 < e)%R.
Proof.
  intros L w a b c d e HL Ha Hb Hc E (i & Hi & N). pose proof (table_textbook L) as T.
  assert (P : (0 <= e)%R).
  { apply (box_nonneg (fun t p => (Cmod (expansion (L * L) w t p) ^ 2 * sin t)%R) a b c d e); [lra|lra| |exact E].
    intros t q Ht. apply Rmult_le_pos; [apply pow2_ge_0|apply sin_ge_0; lra]. }
  destruct (Req_dec e 0) as [Z|]; [|lra]. exfalso. subst e. apply N. apply (vanishing_coefficients L); [|exact Hi].
  intros t p. rewrite <- (limited_ylm _ L w t p T). apply (limited_zero wigner_table L w a b c d HL); try lra.
  refine (energy_same _ _ _ _ _ _ _ _ E). intros s q. symmetry. apply limited_ylm, T.
Qed.
Print Assumptions C84_positive.

(** A box properly inside another one: less energy. *)
Definition properly (a b c e a' b' c' e' : R) : Prop := (a' < a \/ b < b' \/ c' < c \/ e < e')%R.

Lemma nested_strict L w a b c e a' b' c' e' v v' : 1 <= L -> (0 <= a' <= a)%R -> (a <= b)%R -> (b <= b' <= PI)%R -> (c' <= c)%R -> (c <= e)%R -> (e <= e')%R ->
  (a' < b')%R -> (c' < e')%R -> properly a b c e a' b' c' e' -> (exists i, i < L * L /\ w i <> RtoC 0) ->
  energy (expansion (L * L) w) a b c e v -> energy (expansion (L * L) w) a' b' c' e' v' -> (v < v')%R.
Proof.
  intros HL Ha Hab Hb Hc Hce He Hab' Hce' PR NZ E E'. set (f := expansion (L * L) w) in *.
  assert (P : forall t p, (0 <= t <= PI)%R -> (0 <= Cmod (f t p) ^ 2 * sin t)%R).
  { intros t p Ht. apply Rmult_le_pos; [apply pow2_ge_0|apply sin_ge_0; lra]. }
  assert (POS : forall a b c e v, (0 <= a)%R -> (a < b)%R -> (b <= PI)%R -> (c < e)%R -> energy f a b c e v -> (0 < v)%R).
  { intros a1 b1 c1 e1 v1 H1 H2 H3 H4 Q. exact (C84_positive L w a1 b1 c1 e1 v1 HL (conj H1 H2) H3 H4 Q NZ). }
  destruct PR as [PR|[PR|[PR|PR]]].
  - destruct (expansion_energy L w a' a c' e' HL) as (v1 & E1). destruct (expansion_energy L w a b' c' e' HL) as (v2 & E2).
    pose proof (box_integral_unique _ _ _ _ _ _ _ (box_split_theta _ _ _ _ _ _ _ _ E1 E2) E') as Q. apply (f_equal Re) in Q. cbn in Q.
    assert (0 < v1)%R by (apply (POS a' a c' e' v1); lra || exact E1).
    assert (v <= v2)%R by (apply (nested_energy L w a b c e a b' c' e' v v2); lra || lia || assumption). lra.
  - destruct (expansion_energy L w a' b c' e' HL) as (v1 & E1). destruct (expansion_energy L w b b' c' e' HL) as (v2 & E2).
    pose proof (box_integral_unique _ _ _ _ _ _ _ (box_split_theta _ _ _ _ _ _ _ _ E1 E2) E') as Q. apply (f_equal Re) in Q. cbn in Q.
    assert (0 < v2)%R by (apply (POS b b' c' e' v2); lra || exact E2).
    assert (v <= v1)%R by (apply (nested_energy L w a b c e a' b c' e' v v1); lra || lia || assumption). lra.
  - destruct (expansion_energy L w a' b' c' c HL) as (v1 & E1). destruct (expansion_energy L w a' b' c e' HL) as (v2 & E2).
    pose proof (box_integral_unique _ _ _ _ _ _ _ (box_split_phi _ _ _ _ _ _ _ _ E1 E2) E') as Q. apply (f_equal Re) in Q. cbn in Q.
    assert (0 < v1)%R by (apply (POS a' b' c' c v1); lra || exact E1).
    assert (v <= v2)%R by (apply (nested_energy L w a b c e a' b' c e' v v2); lra || lia || assumption). lra.
  - destruct (expansion_energy L w a' b' c' e HL) as (v1 & E1). destruct (expansion_energy L w a' b' e e' HL) as (v2 & E2).
    pose proof (box_integral_unique _ _ _ _ _ _ _ (box_split_phi _ _ _ _ _ _ _ _ E1 E2) E') as Q. apply (f_equal Re) in Q. cbn in Q.
    assert (0 < v2)%R by (apply (POS a' b' e e' v2); lra || exact E2).
    assert (v <= v1)%R by (apply (nested_energy L w a b c e a' b' c' e v v1); lra || lia || assumption). lra.
Qed.

(** ** Rows *)
Lemma row_nonzero n K evals rows p : decomposed n K evals rows -> p < n -> exists i, i < n /\ nth i (nth p rows []) (RtoC 0) <> RtoC 0.
Proof.
  intros (_ & _ & _ & O & _) Hp. specialize (O p p Hp Hp). rewrite Nat.eqb_refl in O.
  destruct (Classical_Prop.classic (exists i, i < n /\ nth i (nth p rows []) (RtoC 0) <> RtoC 0)) as [Y|N]; [exact Y|exfalso].
  unfold ip in O. rewrite csum_zero in O; [injection O; lra|]. intros i Hi.
  destruct (Classical_Prop.classic (nth i (nth p rows []) (RtoC 0) = RtoC 0)) as [Z|Z]; [rewrite Z; ring|exfalso; apply N; exists i; split; assumption].
Qed.

Lemma row_form n K evals rows p : decomposed n K evals rows -> p < n ->
  gram n K (fun i => nth i (nth p rows []) (RtoC 0)) (fun i => nth i (nth p rows []) (RtoC 0)) = RtoC (nth p evals 0%R).
Proof.
  intros (_ & _ & _ & O & E) Hp. pose proof (gram_rows n K (fun p i => nth i (nth p rows []) (RtoC 0)) (fun p => nth p evals 0%R) O E p p Hp Hp) as Q.
  rewrite Nat.eqb_refl in Q. exact Q.
Qed.

Lemma row_product n K evals rows w p : decomposed n K evals rows -> p < n ->
  gram n K w (fun i => nth i (nth p rows []) (RtoC 0)) = Cmult (RtoC (nth p evals 0%R)) (ip n w (fun i => nth i (nth p rows []) (RtoC 0))).
Proof.
  intros D Hp. pose proof (decomposed_hermitian _ _ _ _ D) as HH. destruct D as (_ & _ & _ & _ & EI). set (u := fun i => nth i (nth p rows []) (RtoC 0)).
  transitivity (Cconj (gram n K u w)).
  - unfold gram. rewrite csum_conj, csum_swap. apply csum_ext. intros j Hj. rewrite csum_conj. apply csum_ext. intros i Hi.
    rewrite !Cconj_mult, Cconj_conj. rewrite (HH i j Hi Hj). ring.
  - pose proof (gram_row n K (fun p i => nth i (nth p rows []) (RtoC 0)) (fun p => nth p evals 0%R) EI p w Hp) as GR. cbv beta in GR. fold u in GR. rewrite GR.
    rewrite Cconj_mult, Cconj_R, ip_conj. reflexivity.
Qed.

Lemma weyl_strict n K K' evals rows evals' rows' : decomposed n K evals rows -> decomposed n K' evals' rows' ->
  (forall w, (exists i, i < n /\ w i <> RtoC 0) -> (Re (gram n K w w) < Re (gram n K' w w))%R) ->
  forall p, p < n -> (nth p evals 0 < nth p evals' 0)%R.
Proof.
  intros H H' LT p Hp. pose proof (decomposed_sorted _ _ _ _ H) as S. pose proof (decomposed_sorted _ _ _ _ H') as S'.
  destruct H as (L1 & _ & _ & O1 & E1). destruct H' as (L2 & _ & _ & O2 & E2).
  set (u := fun p i => nth i (nth p rows []) (RtoC 0)) in *. set (v := fun p i => nth i (nth p rows' []) (RtoC 0)) in *.
  destruct (common_zero (p + 1) p (fun q s => ip n (u s) (v q)) ltac:(lia)) as (x & (j0 & Hj0 & Nj0) & Hx).
  set (a := fun s => if s <? p + 1 then x s else RtoC 0).
  set (w := fun i => csum n (fun s => Cmult (a s) (u s i))).
  assert (W : forall q, q < n -> ip n w (u q) = a q) by (intros q Hq; apply (ip_comb n n u O1 a q Hq)).
  assert (NW : nrm2 n w = nrm2 n a) by (apply (nrm2_comb n n u O1 a)).
  assert (UP : (Re (gram n K' w w) <= nth p evals' 0 * nrm2 n w)%R).
  { apply (gram_bound n K' v (fun q => nth q evals' 0%R) O2 E2 w p Hp); [exact S'|].
    intros q Hq. unfold w. rewrite ip_sum_l. replace n with (p + 1 + (n - (p + 1))) at 1 by lia. rewrite csum_app, (csum_zero (n - (p + 1))).
    - rewrite <- (Hx q Hq) at 2. rewrite (csum_ext (p + 1) _ (fun s => Cmult (x s) (ip n (u s) (v q)))); [ring|].
      intros s Hs. unfold a. rewrite (proj2 (Nat.ltb_lt s (p + 1))) by exact Hs. reflexivity.
    - intros s _. unfold a. rewrite (proj2 (Nat.ltb_ge (p + 1 + s) (p + 1))) by lia. ring. }
  assert (LO : (nth p evals 0 * nrm2 n w <= Re (gram n K w w))%R).
  { rewrite (gram_form n K u (fun q => nth q evals 0%R) O1 E1 w). cbn [Re RtoC fst]. rewrite NW. unfold nrm2. rewrite <- rsum_scal_l. apply rsum_le.
    intros q Hq. rewrite (W q Hq). change (Re (a q) ^ 2 + Im (a q) ^ 2)%R with (abs2 (a q)). destruct (Nat.lt_ge_cases q (p + 1)) as [Q|Q].
    - apply Rmult_le_compat_r; [apply abs2_nonneg|]. apply S; lia.
    - unfold a. rewrite (proj2 (Nat.ltb_ge q (p + 1))) by exact Q. unfold abs2. cbn. right. ring. }
  assert (POS : (0 < nrm2 n w)%R).
  { rewrite NW. pose proof (nrm2_nonneg n a) as G. destruct (Req_dec (nrm2 n a) 0) as [Z|]; [|lra]. exfalso. apply Nj0.
    pose proof (nrm2_zero n a Z j0 ltac:(lia)) as X. unfold a in X. rewrite (proj2 (Nat.ltb_lt j0 (p + 1))) in X by exact Hj0. exact X. }
  assert (NZ : exists i, i < n /\ w i <> RtoC 0).
  { destruct (Classical_Prop.classic (exists i, i < n /\ w i <> RtoC 0)) as [Y|N]; [exact Y|exfalso].
    assert (Z : nrm2 n w = 0%R); [|lra]. unfold nrm2. apply rsum_zero. intros i Hi.
    destruct (Classical_Prop.classic (w i = RtoC 0)) as [Z|Z]; [rewrite Z; cbn; ring|exfalso; apply N; exists i; split; assumption]. }
  specialize (LT w NZ). apply (Rmult_lt_reg_r (nrm2 n w)); [exact POS|]. lra.
Qed.

(** ** Boxes *)
(** The eigenvalues of a box are positive exactly if the box has an interior, and
    below 1 exactly if something is outside. *)
Theorem C84_box : forall eigh argsort theta_min theta_max phi_min phi_max dl order L evals rows p, 1 <= L ->
  box_calls eigh argsort theta_min theta_max phi_min phi_max dl order L -> on_sphere theta_min theta_max phi_min phi_max ->
  solve_lat_lon eigh argsort theta_min theta_max phi_min phi_max dl order L = Ok (evals, rows) -> p < L * L ->
  ((0 < nth p evals 0)%R <-> (theta_min < theta_max /\ phi_min < phi_max)%R) /\
  ((nth p evals 0 < 1)%R <-> (0 < theta_min \/ theta_max < PI \/ 0 < phi_min \/ phi_max < 2 * PI)%R).
Proof.
  intros eigh argsort a b c e dl order L evals rows p HL X (S1 & S2 & S3 & S4) E Hp. pose proof PI_RGT_0 as PP.
  destruct (box_run _ _ _ _ _ _ _ _ _ _ _ HL X E) as (K & HK & D).
  set (w := fun i => nth i (nth p rows []) (RtoC 0)).
  pose proof (row_nonzero _ _ _ _ _ D Hp) as NZ. fold w in NZ. pose proof (row_form _ _ _ _ _ D Hp) as RF. fold w in RF.
  pose proof (form_box L K w a b c e HK) as EB. rewrite RF in EB. cbn [Re RtoC fst] in EB.
  assert (ES : energy (expansion (L * L) w) 0 PI 0 (2 * PI) 1).
  { pose proof (sphere_product L w w) as Q. destruct D as (_ & _ & _ & O & _). specialize (O p p Hp Hp). rewrite Nat.eqb_refl in O. fold w in O. rewrite O in Q.
    apply inner_energy in Q. exact (proj1 Q). }
  split; split.
  - intros P. destruct (Rle_lt_or_eq_dec _ _ (proj2 S1)) as [LA|LA]; [destruct (Rle_lt_or_eq_dec _ _ (proj2 S3)) as [LB|LB]; [split; assumption|]|]; exfalso.
    + subst e. pose proof (box_split_phi _ _ _ _ _ _ _ _ EB EB) as Q. pose proof (box_integral_unique _ _ _ _ _ _ _ Q EB) as Q2. apply (f_equal Re) in Q2. cbn in Q2. lra.
    + subst b. pose proof (box_split_theta _ _ _ _ _ _ _ _ EB EB) as Q. pose proof (box_integral_unique _ _ _ _ _ _ _ Q EB) as Q2. apply (f_equal Re) in Q2. cbn in Q2. lra.
  - intros [LA LB]. exact (C84_positive L w a b c e _ HL (conj (proj1 S1) LA) S2 LB EB NZ).
  - intros P. destruct (Rle_lt_or_eq_dec _ _ (proj1 S1)) as [LA|LA]; [left; exact LA|]. destruct (Rle_lt_or_eq_dec _ _ S2) as [LB|LB]; [right; left; exact LB|].
    destruct (Rle_lt_or_eq_dec _ _ (proj1 S3)) as [LC|LC]; [right; right; left; exact LC|]. destruct (Rle_lt_or_eq_dec _ _ S4) as [LD|LD]; [right; right; right; exact LD|].
    exfalso. subst a c b e. pose proof (box_integral_unique _ _ _ _ _ _ _ EB ES) as Q. apply RtoC_inj in Q. lra.
  - intros PR. apply (nested_strict L w a b c e 0 PI 0 (2 * PI) _ 1 HL); try lra; assumption.
Qed.
Print Assumptions C84_box.

(** A box properly inside another one has the smaller eigenvalues, every one of them. *)
Theorem C84_box_grows : forall eigh argsort dl order eigh' argsort' dl' order' L theta_min theta_max phi_min phi_max theta_min' theta_max' phi_min' phi_max' evals rows evals' rows' p,
  1 <= L -> on_sphere theta_min' theta_max' phi_min' phi_max' -> (theta_min' < theta_max')%R -> (phi_min' < phi_max')%R ->
  (theta_min' <= theta_min <= theta_max)%R -> (theta_max <= theta_max')%R -> (phi_min' <= phi_min <= phi_max)%R -> (phi_max <= phi_max')%R ->
  (theta_min' < theta_min \/ theta_max < theta_max' \/ phi_min' < phi_min \/ phi_max < phi_max')%R ->
  box_calls eigh argsort theta_min theta_max phi_min phi_max dl order L ->
  box_calls eigh' argsort' theta_min' theta_max' phi_min' phi_max' dl' order' L ->
  solve_lat_lon eigh argsort theta_min theta_max phi_min phi_max dl order L = Ok (evals, rows) ->
  solve_lat_lon eigh' argsort' theta_min' theta_max' phi_min' phi_max' dl' order' L = Ok (evals', rows') ->
  p < L * L -> (nth p evals 0 < nth p evals' 0)%R.
Proof.
  intros eigh argsort dl order eigh' argsort' dl' order' L a b c e a' b' c' e' evals rows evals' rows' p HL (S1 & S2 & S3 & S4) I1 I2 Ha Hb Hc He PR X X' E E' Hp.
  destruct (box_run _ _ _ _ _ _ _ _ _ _ _ HL X E) as (K & HK & D). destruct (box_run _ _ _ _ _ _ _ _ _ _ _ HL X' E') as (K' & HK' & D').
  apply (weyl_strict (L * L) K K' evals rows evals' rows' D D'); [|exact Hp].
  intros w NZ. pose proof (form_box L K w _ _ _ _ HK) as F. pose proof (form_box L K' w _ _ _ _ HK') as F'.
  apply (nested_strict L w a b c e a' b' c' e' _ _ HL); try lra; assumption.
Qed.
Print Assumptions C84_box_grows.

(** ** Caps *)
Lemma cap_forms L gap Theta evals rows p : 1 <= L -> decomposed (L * L) (cap_matrix gap Theta) evals rows -> p < L * L ->
  exists w north south, (exists i, i < L * L /\ w i <> RtoC 0) /\ energy (expansion (L * L) w) 0 PI 0 (2 * PI) 1 /\
    energy (expansion (L * L) w) 0 Theta 0 (2 * PI) north /\ energy (expansion (L * L) w) (PI - Theta) PI 0 (2 * PI) south /\
    nth p evals 0%R = if gap then (north + south)%R else north.
Proof.
  intros HL D Hp. set (w := fun i => nth i (nth p rows []) (RtoC 0)).
  destruct (cap_form L gap Theta w HL) as (n & s & Hn & Hs & Q). exists w, n, s. split; [exact (row_nonzero _ _ _ _ _ D Hp)|]. split.
  - pose proof (sphere_product L w w) as P. destruct D as (_ & _ & _ & O & _). specialize (O p p Hp Hp). rewrite Nat.eqb_refl in O. fold w in O. rewrite O in P.
    apply inner_energy in P. exact (proj1 P).
  - split; [exact Hn|]. split; [exact Hs|]. rewrite <- Q. unfold w. rewrite (row_form _ _ _ _ _ D Hp). reflexivity.
Qed.

Lemma no_width L w a c e v : energy (expansion (L * L) w) a a c e v -> v = 0%R.
Proof.
  intros E. pose proof (box_split_theta _ _ _ _ _ _ _ _ E E) as Q. pose proof (box_integral_unique _ _ _ _ _ _ _ Q E) as Q2. apply (f_equal Re) in Q2. cbn in Q2. lra.
Qed.

(** The eigenvalues of a cap or a pair of caps are positive exactly if the angle is,
    and below 1 exactly if the caps leave something out. *)
Theorem C84_cap : forall eigh argsort L gap Theta ylm_edge Dm evals rows orders p, 1 <= L ->
  polar_calls eigh argsort L gap Theta ylm_edge Dm -> proper_cap gap Theta ->
  solve_all_orders argsort eigh Dm L = Ok (evals, rows, orders) -> p < L * L ->
  ((0 < nth p evals 0)%R <-> (0 < Theta)%R) /\
  ((nth p evals 0 < 1)%R <-> (Theta < if gap then PI / 2 else PI)%R).
Proof.
  intros eigh argsort L gap Theta ylm Dm evals rows orders p HL X [HT HG] E Hp. pose proof PI_RGT_0 as PP.
  pose proof (proj2 (caps_run _ _ _ _ _ _ _ _ _ _ HL X E)) as D.
  destruct (cap_forms L gap Theta evals rows p HL D Hp) as (w & n & s & NZ & ET & EN & ES & Q).
  assert (POS : forall a b v, (0 <= a)%R -> (a <= b)%R -> (b <= PI)%R -> energy (expansion (L * L) w) a b 0 (2 * PI) v -> (0 <= v)%R).
  { intros a b v H1 H2 H3 H. apply (box_nonneg (fun t q => (Cmod (expansion (L * L) w t q) ^ 2 * sin t)%R) a b 0 (2 * PI) v); [lra|lra| |exact H].
    intros t q Ht. apply Rmult_le_pos; [apply pow2_ge_0|apply sin_ge_0; lra]. }
  assert (N0 : (0 <= n)%R) by (apply (POS 0%R Theta n); lra || exact EN).
  assert (S0 : (0 <= s)%R) by (apply (POS (PI - Theta)%R PI s); lra || exact ES).
  split; split.
  - intros P. destruct (Rle_lt_or_eq_dec _ _ (proj1 HT)) as [L0|Z]; [exact L0|exfalso]. subst Theta.
    rewrite Rminus_0_r in ES. apply no_width in EN. apply no_width in ES. rewrite Q in P. destruct gap; lra.
  - intros P. assert (0 < n)%R by (apply (C84_positive L w 0 Theta 0 (2 * PI) n HL); lra || assumption). rewrite Q. destruct gap; lra.
  - intros P. destruct gap.
    + specialize (HG eq_refl). destruct (Rle_lt_or_eq_dec _ _ HG) as [L0|Z]; [exact L0|exfalso]. subst Theta. replace (PI - PI / 2)%R with (PI / 2)%R in ES by lra.
      pose proof (box_integral_unique _ _ _ _ _ _ _ (box_split_theta _ _ _ _ _ _ _ _ EN ES) ET) as U. apply (f_equal Re) in U. cbn in U. lra.
    + destruct (Rle_lt_or_eq_dec _ _ (proj2 HT)) as [L0|Z]; [exact L0|exfalso]. subst Theta.
      pose proof (box_integral_unique _ _ _ _ _ _ _ EN ET) as U. apply RtoC_inj in U. lra.
  - intros P. destruct gap.
    + destruct (expansion_energy L w Theta (PI - Theta) 0 (2 * PI) HL) as (m & EM).
      pose proof (box_integral_unique _ _ _ _ _ _ _ (box_split_theta _ _ _ _ _ _ _ _ (box_split_theta _ _ _ _ _ _ _ _ EN EM) ES) ET) as U. apply (f_equal Re) in U. cbn in U.
      assert (0 < m)%R by (apply (C84_positive L w Theta (PI - Theta) 0 (2 * PI) m HL); lra || assumption). lra.
    + rewrite Q. apply (nested_strict L w 0 Theta 0 (2 * PI) 0 PI 0 (2 * PI) n 1 HL); try lra; try assumption. right; left; lra.
Qed.
Print Assumptions C84_cap.

(** A larger angle gives larger eigenvalues, every one of them. *)
Theorem C84_cap_grows : forall eigh argsort ylm_edge Dm eigh' argsort' ylm_edge' Dm' L gap Theta Theta' evals rows orders evals' rows' orders' p,
  1 <= L -> (0 <= Theta < Theta')%R -> (Theta' <= PI)%R ->
  polar_calls eigh argsort L gap Theta ylm_edge Dm -> polar_calls eigh' argsort' L gap Theta' ylm_edge' Dm' ->
  solve_all_orders argsort eigh Dm L = Ok (evals, rows, orders) -> solve_all_orders argsort' eigh' Dm' L = Ok (evals', rows', orders') ->
  p < L * L -> (nth p evals 0 < nth p evals' 0)%R.
Proof.
  intros eigh argsort ylm Dm eigh' argsort' ylm' Dm' L gap Theta Theta' evals rows orders evals' rows' orders' p HL HT HP X X' E E' Hp. pose proof PI_RGT_0 as PP.
  pose proof (proj2 (caps_run _ _ _ _ _ _ _ _ _ _ HL X E)) as D. pose proof (proj2 (caps_run _ _ _ _ _ _ _ _ _ _ HL X' E')) as D'.
  apply (weyl_strict (L * L) _ _ evals rows evals' rows' D D'); [|exact Hp]. intros w NZ.
  destruct (cap_form L gap Theta w HL) as (n & s & Hn & Hs & ->). destruct (cap_form L gap Theta' w HL) as (n' & s' & Hn' & Hs' & ->).
  assert (n < n')%R by (apply (nested_strict L w 0 Theta 0 (2 * PI) 0 Theta' 0 (2 * PI) n n' HL); try lra; try assumption; right; left; lra).
  assert (s <= s')%R by (apply (nested_energy L w (PI - Theta) PI 0 (2 * PI) (PI - Theta') PI 0 (2 * PI) s s' HL); try lra; assumption).
  destruct gap; lra.
Qed.
Print Assumptions C84_cap_grows.

(** ** Coefficients from the region *)
(** A Slepian coefficient of a band-limited function is its product with the Slepian
    function over the box alone divided by the eigenvalue, for every [p] and every
    box with an interior (the formula of [_integrate_region], whose divisor is never
    0 here) ... *)
Theorem C84_box_coefficient : forall eigh argsort theta_min theta_max phi_min phi_max dl order L evals rows w p inside total, 1 <= L ->
  box_calls eigh argsort theta_min theta_max phi_min phi_max dl order L -> on_sphere theta_min theta_max phi_min phi_max ->
  (theta_min < theta_max)%R -> (phi_min < phi_max)%R ->
  solve_lat_lon eigh argsort theta_min theta_max phi_min phi_max dl order L = Ok (evals, rows) -> p < L * L ->
  inner (expansion (L * L) w) (row_function L rows p) theta_min theta_max phi_min phi_max inside ->
  inner (expansion (L * L) w) (row_function L rows p) 0 PI 0 (2 * PI) total ->
  total = Cdiv inside (RtoC (nth p evals 0%R)).
Proof.
  intros eigh argsort a b c e dl order L evals rows w p vi vt HL X OS LA LB E Hp HI HT.
  pose proof (proj2 (proj1 (C84_box _ _ _ _ _ _ _ _ _ _ _ _ HL X OS E Hp)) (conj LA LB)) as P.
  destruct (box_run _ _ _ _ _ _ _ _ _ _ _ HL X E) as (K & HK & D).
  pose proof (table_textbook L) as T. set (u := fun i => nth i (nth p rows []) (RtoC 0)).
  assert (V : forall w t q, band_limited wigner_table (L * L) w t q = expansion (L * L) w t q) by (intros; apply limited_ylm; exact T).
  assert (G : inner (expansion (L * L) w) (row_function L rows p) a b c e (gram (L * L) K w u)).
  { refine (inner_same _ _ _ _ _ _ _ _ _ (V w) (V u) (inner_gram wigner_table (L * L) K w u a b c e _)).
    intros i j Hi Hj. refine (inner_same _ _ _ _ _ _ _ _ _ _ _ (HK i j Hi Hj)); intros t q; symmetry; apply (number_ylm _ L); assumption. }
  rewrite (inner_unique _ _ _ _ _ _ _ _ HI G), (inner_unique _ _ _ _ _ _ _ _ HT (sphere_product L w u)).
  pose proof (row_product _ _ _ _ w p D Hp) as RP. fold u in RP. rewrite RP. field. intros Z. apply RtoC_inj in Z. lra.
Qed.
Print Assumptions C84_box_coefficient.

(** ... and every cap or pair of caps. *)
Theorem C84_cap_coefficient : forall eigh argsort L gap Theta ylm_edge Dm evals rows orders w p inside total, 1 <= L ->
  polar_calls eigh argsort L gap Theta ylm_edge Dm -> proper_cap gap Theta -> (0 < Theta)%R ->
  solve_all_orders argsort eigh Dm L = Ok (evals, rows, orders) -> p < L * L ->
  caps_inner gap Theta (expansion (L * L) w) (row_function L rows p) inside ->
  inner (expansion (L * L) w) (row_function L rows p) 0 PI 0 (2 * PI) total ->
  total = Cdiv inside (RtoC (nth p evals 0%R)).
Proof.
  intros eigh argsort L gap Theta ylm Dm evals rows orders w p vi vt HL X PC P E Hp (north & south & HN & HS & ->) HT.
  pose proof (proj2 (proj1 (C84_cap _ _ _ _ _ _ _ _ _ _ _ HL X PC E Hp)) P) as PL.
  pose proof (proj2 (caps_run _ _ _ _ _ _ _ _ _ _ HL X E)) as D.
  pose proof (table_textbook L) as T. set (u := fun i => nth i (nth p rows []) (RtoC 0)).
  assert (V : forall w t q, band_limited wigner_table (L * L) w t q = expansion (L * L) w t q) by (intros; apply limited_ylm; exact T).
  destruct (cap_gram wigner_table L gap Theta w u (textbook_product _ _ T)) as (n & s & Hn & Hs & Q).
  rewrite (inner_unique _ _ _ _ _ _ _ _ HN (inner_same _ _ _ _ _ _ _ _ _ (V w) (V u) Hn)), (inner_unique _ _ _ _ _ _ _ _ HS (inner_same _ _ _ _ _ _ _ _ _ (V w) (V u) Hs)).
  rewrite <- Q, (inner_unique _ _ _ _ _ _ _ _ HT (sphere_product L w u)).
  pose proof (row_product _ _ _ _ w p D Hp) as RP. fold u in RP. rewrite RP. field. intros Z. apply RtoC_inj in Z. lra.
Qed.
Print Assumptions C84_cap_coefficient.

(** ** Masks *)
(** The masked samples away from the poles. *)
Definition inner_samples (L : nat) (mask : mask_array) : list (nat * nat) :=
  filter (fun s => masked mask (fst s) (snd s)) (list_prod (seq 1 (2 * L - 1)) (seq 0 (4 * L))).

(** The eigenvalues of a mask are not negative, and beyond the number of its samples
    they are 0. *)
Theorem C84_mask : forall eigh argsort L mask samples_of ncpu garbage sched evals rows p, 1 <= L ->
  mask_calls eigh argsort L mask samples_of ncpu garbage sched ->
  solve_arbitrary eigh argsort L mask samples_of ncpu garbage sched = Ok (evals, rows) -> p < L * L ->
  (0 <= nth p evals 0)%R /\ (length (inner_samples L mask) <= p -> nth p evals 0%R = 0%R).
Proof.
  intros eigh argsort L mask f ncpu garbage sched evals rows p HL X E Hp. pose proof (mask_run _ _ _ _ _ _ _ _ _ _ HL X E) as D.
  set (K := fun i j => grid_inner (2 * L) (masked mask) (ylm_number i) (ylm_number j)) in *.
  assert (NN : forall w, (0 <= grid_energy (2 * L) (masked mask) (expansion (L * L) w))%R).
  { intros w. unfold grid_energy. apply rsum_nonneg. intros t Ht. apply rsum_nonneg. intros q _. destruct (masked mask t q); [|lra].
    apply Rmult_le_pos; [apply pow2_ge_0|apply cell_nonneg; lia]. }
  assert (P0 : (0 <= nth p evals 0)%R).
  { pose proof (row_form _ _ _ _ _ D Hp) as Q. apply (f_equal Re) in Q. unfold K in Q. rewrite grid_form in Q. cbn [Re RtoC fst] in Q. rewrite <- Q. apply NN. }
  split; [exact P0|]. intros HK. apply Rle_antisym; [|exact P0].
  pose proof (decomposed_sorted _ _ _ _ D) as S. destruct D as (L1 & _ & _ & O1 & E1).
  set (u := fun p i => nth i (nth p rows []) (RtoC 0)) in *. set (pts := inner_samples L mask) in *.
  set (at_ := fun q => (colatitude (2 * L) (fst (nth q pts (0, 0))), longitude (2 * L) (snd (nth q pts (0, 0))))).
  destruct (common_zero (p + 1) (length pts) (fun q s => expansion (L * L) (u s) (fst (at_ q)) (snd (at_ q))) ltac:(lia)) as (x & (j0 & Hj0 & Nj0) & Hx).
  set (a := fun s => if s <? p + 1 then x s else RtoC 0).
  set (w := fun i => csum (L * L) (fun s => Cmult (a s) (u s i))).
  assert (W : forall q, q < L * L -> ip (L * L) w (u q) = a q) by (intros q Hq; apply (ip_comb (L * L) (L * L) u O1 a q Hq)).
  assert (EXP : forall t q, expansion (L * L) w t q = csum (p + 1) (fun s => Cmult (x s) (expansion (L * L) (u s) t q))).
  { intros t q. unfold expansion, w. rewrite (csum_ext (L * L) _ (fun i => csum (L * L) (fun s => Cmult (a s) (Cmult (u s i) (ylm_number i t q)))))
      by (intros; rewrite <- csum_scal_r; apply csum_ext; intros; ring).
    rewrite csum_swap. replace (L * L) with (p + 1 + (L * L - (p + 1))) at 1 by lia. rewrite csum_app, (csum_zero (L * L - (p + 1))).
    - rewrite (csum_ext (p + 1) _ (fun s => Cmult (x s) (csum (L * L) (fun i => Cmult (u s i) (ylm_number i t q))))); [ring|].
      intros s Hs. rewrite csum_scal_l. unfold a. rewrite (proj2 (Nat.ltb_lt s (p + 1))) by exact Hs. reflexivity.
    - intros s _. rewrite csum_scal_l. unfold a. rewrite (proj2 (Nat.ltb_ge (p + 1 + s) (p + 1))) by lia. ring. }
  assert (GZ : grid_energy (2 * L) (masked mask) (expansion (L * L) w) = 0%R).
  { unfold grid_energy. apply rsum_zero. intros t Ht. apply rsum_zero. intros q Hq. destruct (masked mask t q) eqn:M; [|reflexivity].
    destruct (Nat.eq_dec t 0) as [->|N0].
    { unfold cell, colatitude. cbn [INR]. replace (PI * 0 / INR (2 * L))%R with 0%R by (unfold Rdiv; ring).
      rewrite ?Rmult_0_l, ?Rmult_0_r. unfold Rdiv. rewrite ?Rmult_0_l, sin_0. ring. }
    destruct (Nat.eq_dec t (2 * L)) as [->|N1].
    { unfold cell. replace (colatitude (2 * L) (2 * L)) with PI; [rewrite sin_PI; ring|]. unfold colatitude. field. apply not_0_INR. lia. }
    assert (I : In (t, q) pts) by (apply filter_In; split; [apply in_prod; apply in_seq; lia|exact M]).
    destruct (In_nth _ _ (0, 0) I) as (k & Hk & Ek).
    rewrite EXP. specialize (Hx k Hk). unfold at_ in Hx. rewrite Ek in Hx. cbn [fst snd] in Hx. rewrite Hx, Cmod_0. ring. }
  pose proof (gram_form (L * L) K u (fun q => nth q evals 0%R) O1 E1 w) as GF. apply (f_equal Re) in GF. unfold K in GF at 1. rewrite grid_form, GZ in GF. cbn [Re RtoC fst] in GF.
  assert (LO : (nth p evals 0 * nrm2 (L * L) a <= 0)%R).
  { eapply Rle_trans; [|right; symmetry; exact GF]. unfold nrm2. rewrite <- rsum_scal_l. apply rsum_le.
    intros q Hq. rewrite (W q Hq). change (Re (a q) ^ 2 + Im (a q) ^ 2)%R with (abs2 (a q)). destruct (Nat.lt_ge_cases q (p + 1)) as [Q|Q].
    - apply Rmult_le_compat_r; [apply abs2_nonneg|]. apply S; lia.
    - unfold a. rewrite (proj2 (Nat.ltb_ge q (p + 1))) by exact Q. unfold abs2. cbn. right. ring. }
  assert (POS : (0 < nrm2 (L * L) a)%R).
  { pose proof (nrm2_nonneg (L * L) a) as G. destruct (Req_dec (nrm2 (L * L) a) 0) as [Z|]; [|lra]. exfalso. apply Nj0.
    pose proof (nrm2_zero (L * L) a Z j0 ltac:(lia)) as Y. unfold a in Y. rewrite (proj2 (Nat.ltb_lt j0 (p + 1))) in Y by exact Hj0. exact Y. }
  apply Rnot_lt_le. intros LT. pose proof (Rmult_lt_0_compat _ _ LT POS). lra.
Qed.
Print Assumptions C84_mask.

(** ** Cases *)
Module StrictCases.
  (** A quarter of a band of latitude, at every band limit: all eigenvalues are
      strictly between 0 and 1. *)
  Example C84_box_case : forall L, 1 <= L -> exists eigh argsort dl order evals rows,
    box_calls eigh argsort (PI / 6) (PI / 3) (PI / 4) PI dl order L /\
    solve_lat_lon eigh argsort (PI / 6) (PI / 3) (PI / 4) PI dl order L = Ok (evals, rows) /\
    forall p, p < L * L -> (0 < nth p evals 0 < 1)%R.
  Proof.
    intros L HL. pose proof PI_RGT_0 as PP. destruct (SpectralCases.C73_box_case L HL) as (eigh & argsort & dl & order & evals & rows & X & E & _).
    exists eigh, argsort, dl, order, evals, rows. split; [exact X|]. split; [exact E|]. intros p Hp.
    destruct (C84_box _ _ _ _ _ _ _ _ _ _ _ p HL X ltac:(repeat split; lra) E Hp) as [[_ A] [_ B]].
    split; [apply A; split; lra|apply B; left; lra].
  Qed.

  (** The hemisphere at band limit 2: every eigenvalue of a larger cap is larger. *)
  Example C84_cap_case : forall eigh argsort ylm_edge Dm Theta evals rows orders, (PI / 2 < Theta < PI)%R ->
    polar_calls eigh argsort 2 false Theta ylm_edge Dm -> solve_all_orders argsort eigh Dm 2 = Ok (evals, rows, orders) ->
    (1 / 2 + sqrt 3 / 4 < nth 0 evals 0 < 1)%R /\ (1 / 2 < nth 2 evals 0 < 1)%R.
  Proof.
    intros eigh argsort ylm Dm Theta evals rows orders HT X E. pose proof PI_RGT_0 as P.
    destruct SpectralCases.C73_cap_case as (_ & _ & _ & _ & (eigh2 & argsort2 & Dm2 & X2) & V).
    destruct (C73_cap_determined false (PI / 2) 2 ltac:(lia)) as (evals2 & _ & H). destruct (H _ _ _ _ X2) as (rows2 & orders2 & E2).
    pose proof (V _ _ _ _ _ _ _ X2 E2) as EV. subst evals2.
    assert (PC : proper_cap false Theta) by (split; [lra|discriminate]).
    pose proof (fun p Hp => C84_cap_grows _ _ _ _ _ _ _ _ 2 false (PI / 2) Theta _ _ _ _ _ _ p ltac:(lia) ltac:(lra) ltac:(lra) X2 X E2 E Hp) as G.
    pose proof (fun p Hp => proj2 (proj2 (C84_cap _ _ 2 false Theta _ _ _ _ _ p ltac:(lia) X PC E Hp))) as B. cbv beta iota in B.
    pose proof (G 0 ltac:(cbn; lia)) as G0. pose proof (G 2 ltac:(cbn; lia)) as G2. cbn [SpectralCases.hemisphere nth] in G0, G2.
    pose proof (B 0 ltac:(cbn; lia) ltac:(lra)). pose proof (B 2 ltac:(cbn; lia) ltac:(lra)). lra.
  Qed.

  (** One sample at band limit 2: three of the four eigenvalues are 0, the first is not. *)
  Definition one_sample : mask_array := map (fun t => map (fun q => (t =? 2) && (q =? 3)) (seq 0 8)) (seq 0 5).

  Example C84_mask_case : exists eigh argsort samples_of sched evals rows,
    mask_calls eigh argsort 2 one_sample samples_of 1 (fun _ _ _ => 0%R) sched /\
    solve_arbitrary eigh argsort 2 one_sample samples_of 1 (fun _ _ _ => 0%R) sched = Ok (evals, rows) /\
    (0 < nth 0 evals 0)%R /\ forall p, 1 <= p < 4 -> nth p evals 0%R = 0%R.
  Proof.
    destruct (C73_mask_answers 2 one_sample 1 (fun _ _ _ => 0%R) [] ltac:(lia) ltac:(lia) eq_refl) as (eigh & argsort & f & more & X).
    destruct (C73_mask_determined one_sample 2 ltac:(lia) eq_refl) as (evals & Hl & H). destruct (H _ _ _ _ _ _ X) as (rows & E).
    exists eigh, argsort, f, more, evals, rows. split; [exact X|]. split; [exact E|]. split.
    - pose proof (mask_run _ _ _ _ _ _ _ _ _ _ (le_S _ _ (le_n 1)) X E) as D. set (K := fun i j => _) in D.
      pose proof (decomposed_sorted _ _ _ _ D) as S.
      destruct (C84_mask _ _ _ _ _ _ _ _ _ _ 0 (le_S _ _ (le_n 1)) X E ltac:(cbn; lia)) as [P0 _].
      destruct (Req_dec (nth 0 evals 0%R) 0) as [Z|]; [exfalso|lra].
      destruct D as (_ & _ & _ & O1 & E1).
      pose proof (gram_trace (2 * 2) K (fun p i => nth i (nth p rows []) (RtoC 0)) (fun p => nth p evals 0%R) O1 E1) as T.
      rewrite rsum_zero in T.
      + assert (B : (0 < Re (K 0%nat 0%nat))%R /\ forall i, i < 4 -> (0 <= Re (K i i))%R).
        { assert (F : forall i, K i i = RtoC (Cmod (ylm_number i (colatitude 4 2) (longitude 4 3)) ^ 2 * cell 4 2)).
          { intros i. unfold K, grid_inner. cbn [csum Nat.mul Nat.add masked one_sample map seq nth Nat.eqb andb]. rewrite RtoC_mult, Cmod2. ring. }
          assert (CP : (0 < cell 4 2)%R).
          { unfold cell, colatitude. apply Rmult_lt_0_compat; [|apply pow_lt, Rdiv_lt_0_compat; [apply PI_RGT_0|apply lt_0_INR; lia]].
            pose proof PI_RGT_0 as PP. apply sin_gt_0; cbn [INR]; lra. }
          split.
          - rewrite F. cbn [Re RtoC fst]. apply Rmult_lt_0_compat; [|exact CP]. apply pow_lt.
            apply Cmod_gt_0. unfold ylm_number, ylm. cbn [Nat.sqrt Nat.sqrt_iter Z.of_nat Z.mul Z.sub Z.add Z.opp Z.leb Z.compare Z.to_nat Pos.to_nat].
            unfold spherical_harmonic, associated. cbn [Derive_n pow fact Nat.sub Nat.add INR]. rewrite legendre_0, Rmult_0_l, expi_0.
            intros A. apply (f_equal Re) in A. cbn in A. pose proof PI_RGT_0 as PP.
            assert (0 < sqrt ((2 * 0 + 1) / (4 * PI) * (1 / 1)))%R by (apply sqrt_lt_R0, Rmult_lt_0_compat; [apply Rdiv_lt_0_compat; lra|lra]). lra.
          - intros i _. rewrite F. cbn [Re RtoC fst]. apply Rmult_le_pos; [apply pow2_ge_0|lra]. }
        destruct B as [B0 B]. 
        assert (R4 : forall g : nat -> C, Re (csum (2 * 2) g) = (Re (g 0%nat) + Re (g 1%nat) + Re (g 2%nat) + Re (g 3%nat))%R) by (intros g; cbn; unfold Re; ring).
        apply (f_equal Re) in T. rewrite (R4 (fun i => K i i)) in T. change (Re (RtoC 0)) with 0%R in T.
        pose proof (B 1 ltac:(lia)). pose proof (B 2 ltac:(lia)). pose proof (B 3 ltac:(lia)). cbv beta in T. lra.
      + intros p Hp. destruct (C84_mask _ _ _ _ _ _ _ _ _ _ p (le_S _ _ (le_n 1)) X E Hp) as [Pp _].
        pose proof (S 0 p ltac:(lia) Hp). lra.
    - intros p Hp. apply (C84_mask _ _ _ _ _ _ _ _ _ _ p (le_S _ _ (le_n 1)) X E); [cbn; lia|].
      change (length (inner_samples 2 one_sample)) with 1. lia.
  Qed.
End StrictCases.
