(** * C66: the polar-cap matrix holds the overlaps of harmonics, and the Slepian
    functions of a cap are orthonormal, concentrated and optimal. *)
From Coq Require Import List ZArith Arith Bool Reals Lia Lra Sorting.Permutation.
From Coquelicot Require Import Coquelicot.
From Verif Require Import Base ListLemmas RSum CSum Numpy OrthoProofs Parallel Machine Job Index IndexProofs Eigen SpecEigen EigenProofs PolarEigenProofs PropEigen
  Region RegionProofs PolarMatrix PolarMatrixProofs SpecPolar PropMatrix LatLon SpecLatLon LatLonIntegrals LatLonProofs SpecConcentration ConcentrationProofs SpecHarmonics SpecLegendre LegendreProofs CapProofs TextbookProofs SpecWigner PropLatLon PropConcentration.
Import ListNotations.
Local Open Scope nat_scope.

(** What [ssht.create_ylm] returns at the edge of the cap, for order 0. *)
Definition edge_harmonics (L : nat) (Theta : R) (ylm_edge : nat -> R) : Prop :=
  forall n, n < 2 * L -> ylm_edge (n * n + n) = Re (spherical_harmonic n 0 Theta 0).

Lemma edge_value L Theta ylm n : edge_harmonics L Theta ylm -> n < 2 * L ->
  ylm (n * n + n) = (sqrt ((2 * INR n + 1) / (4 * PI)) * legendre n (cos Theta))%R.
Proof.
  intros H Hn. rewrite (H n Hn). apply harmonic_zero.
Qed.

(** [D] is the result of a finished run for order [a]: any number of workers,
    any schedule, any previous contents of the shared memory. *)
Definition finished_matrix (L : nat) (gap : bool) (ylm_edge : nat -> R) (a : nat) (D : nat -> nat -> R) : Prop :=
  exists ncpu garbage sched y, 0 < ncpu /\ dm_state L gap ylm_edge a ncpu garbage sched = Ok y /\ finished y /\
    create_Dm_matrix L gap ylm_edge a ncpu garbage sched = Ok D.

Lemma matrix_value L gap Theta ylm_edge a D r c : a < L -> edge_harmonics L Theta ylm_edge -> finished_matrix L gap ylm_edge a D ->
  r < L - a -> c < L - a ->
  D r c = polar_entry gap (cap_P Theta) (Z.of_nat a) (Z.of_nat (a + Nat.min r c)) (Z.of_nat (a + Nat.max r c)).
Proof.
  intros Ha HY (ncpu & garbage & sched & y & Hn & ES & F & EM) Hr Hc.
  destruct (C02_polar_matrix_any_schedule L a gap ylm_edge (cap_P Theta) ncpu garbage sched y Ha Hn) as (D' & ED & HD).
  - intros n Hlt. unfold cap_P. rewrite Nat2Z.id. apply (edge_value L Theta ylm_edge n HY Hlt).
  - exact ES.
  - exact F.
  - rewrite EM in ED. injection ED as <-. apply HD; assumption.
Qed.

(** Entry (r, c) of the order-|m| matrix is the overlap of the harmonics of
    degrees |m| + r and |m| + c and order m in the cap or the two caps. *)
Theorem C66_entry : forall d L gap Theta ylm_edge m D r c, Z.abs_nat m < L ->
  textbook d L -> edge_harmonics L Theta ylm_edge -> finished_matrix L gap ylm_edge (Z.abs_nat m) D ->
  r < L - Z.abs_nat m -> c < L - Z.abs_nat m ->
  caps_inner gap Theta (harmonic d (Z.abs m + Z.of_nat r) m) (harmonic d (Z.abs m + Z.of_nat c) m) (RtoC (D r c)).
Proof.
  intros d L gap Theta ylm m D r c Hm TB HY HD Hr Hc. pose proof (textbook_product d L TB) as PF.
  rewrite (matrix_value L gap Theta ylm _ D r c Hm HY HD Hr Hc).
  pose proof (cap_overlap d L gap Theta (elm2ind (Z.abs_nat m + r) m) (elm2ind (Z.abs_nat m + c) m) PF
    (elm2ind_lt L (Z.abs_nat m + r) m ltac:(lia) ltac:(lia)) (elm2ind_lt L (Z.abs_nat m + c) m ltac:(lia) ltac:(lia))) as G.
  rewrite !number_harmonic in G. unfold cap_matrix in G. rewrite !ind2elm_elm2ind in G by lia. cbn [fst snd] in G. rewrite Z.eqb_refl in G.
  replace (Z.of_nat (Z.abs_nat m + r)) with (Z.abs m + Z.of_nat r)%Z in G by lia.
  replace (Z.of_nat (Z.abs_nat m + c)) with (Z.abs m + Z.of_nat c)%Z in G by lia.
  replace (Z.of_nat (Z.abs_nat m)) with (Z.abs m) by lia.
  replace (Z.abs_nat m + Nat.min r c) with (Nat.min (Z.abs_nat m + r) (Z.abs_nat m + c)) by lia.
  replace (Z.abs_nat m + Nat.max r c) with (Nat.max (Z.abs_nat m + r) (Z.abs_nat m + c)) by lia. exact G.
Qed.
Print Assumptions C66_entry.

(** Harmonics of different orders do not overlap in the caps, so solving order by
    order loses nothing. *)
Theorem C66_orders : forall d gap Theta l m p q, (0 <= l)%Z -> (0 <= p)%Z -> m <> q ->
  caps_inner gap Theta (harmonic d l m) (harmonic d p q) (RtoC 0).
Proof.
  intros d gap Theta l m p q Hl Hp N. exists (RtoC 0), (RtoC 0).
  split; [apply band_other; assumption|]. split; [apply band_other; assumption|]. destruct gap; [apply C_ext; cbn; lra|reflexivity].
Qed.
Print Assumptions C66_orders.

(** What is assumed of the external calls: [np.argsort] sorts, the harmonics are
    those of the textbooks, and [LA.eigh] decomposes the matrix of every order. *)
Definition cap_calls eigh argsort d (L : nat) (gap : bool) (Theta : R) ylm_edge (Dm : nat -> nat -> nat -> R) : Prop :=
  argsort_ok argsort /\ textbook d L /\ edge_harmonics L Theta ylm_edge /\
  (forall a, a < L -> finished_matrix L gap ylm_edge a (Dm a)) /\
  (forall a, a < L -> eigen_r (L - a) (Dm a) (fst (eigh (L - a) (Dm a))) (snd (eigh (L - a) (Dm a)))).

(** A cap; the two caps of a gap do not overlap. *)
Definition proper_cap (gap : bool) (Theta : R) : Prop := (0 <= Theta <= PI)%R /\ (gap = true -> (Theta <= PI / 2)%R).

Lemma cap_solved eigh argsort d L gap Theta ylm Dm : 1 <= L -> cap_calls eigh argsort d L gap Theta ylm Dm ->
  exists evals rows orders, solve_all_orders argsort eigh Dm L = Ok (evals, rows, orders) /\
    length evals = L * L /\ length rows = L * L /\ length orders = L * L /\ descending evals /\
    let u := fun p i => nth i (nth p rows []) (RtoC 0) in let lam := fun p => nth p evals 0%R in
    (forall p q, p < L * L -> q < L * L -> ip (L * L) (u p) (u q) = if Nat.eqb p q then RtoC 1 else RtoC 0) /\
    (forall p j, p < L * L -> j < L * L -> csum (L * L) (fun i => Cmult (u p i) (cap_matrix gap Theta i j)) = Cmult (RtoC (lam p)) (u p j)) /\
    (forall p j, p < L * L -> j < L * L -> snd (ind2elm j) <> nth p orders 0%Z -> u p j = RtoC 0).
Proof.
  intros HL (HA & _ & HY & HD & HE).
  destruct (C17_all_orders argsort HA eigh Dm L HL HE) as (evals & rows & orders & E & L1 & L2 & L3 & Hd & Ho & Hrow & _).
  exists evals, rows, orders. do 5 (split; [assumption|]). cbv zeta.
  assert (NE : forall p, p < L * L -> nth_error evals p = Some (nth p evals 0%R)) by (intros p Hp; apply nth_error_nth'; lia).
  assert (NR : forall p, p < L * L -> nth_error rows p = Some (nth p rows [])) by (intros p Hp; apply nth_error_nth'; lia).
  assert (NO : forall p, p < L * L -> nth_error orders p = Some (nth p orders 0%Z)) by (intros p Hp; apply nth_error_nth'; lia).
  split; [intros p q Hp Hq; exact (Ho p q _ _ (NR p Hp) (NR q Hq))|].
  assert (SUP : forall p j, p < L * L -> j < L * L -> snd (ind2elm j) <> nth p orders 0%Z -> nth j (nth p rows []) (RtoC 0) = RtoC 0).
  { intros p j Hp Hj N. destruct (Hrow p _ _ _ (NE p Hp) (NR p Hp) (NO p Hp)) as (_ & _ & S & _). apply S; assumption. }
  split; [|exact SUP].
  intros p j Hp Hj. destruct (Hrow p _ _ _ (NE p Hp) (NR p Hp) (NO p Hp)) as (Hm & _ & _ & EQ).
  set (m := nth p orders 0%Z) in *. set (a := Z.abs_nat m) in *.
  assert (OFF : forall i, i < L * L -> snd (ind2elm i) <> m -> Cmult (nth i (nth p rows []) (RtoC 0)) (cap_matrix gap Theta i j) = RtoC 0).
  { intros i Hi N. rewrite (SUP p i Hp Hi N). ring. }
  destruct (Z.eq_dec (snd (ind2elm j)) m) as [Ej|Nj].
  - rewrite (csum_order L m _ OFF). fold a.
    pose proof (ind2elm_range j) as Rj. pose proof (ind2elm_lt L j Hj) as Lj. pose proof (elm2ind_ind2elm j) as Ij.
    set (t := fst (ind2elm j) - a). rewrite Ej in Ij, Rj.
    assert (Jt : j = elm2ind (a + t) m) by (rewrite <- Ij; f_equal; unfold t, a; lia).
    specialize (EQ t ltac:(unfold t; lia)). rewrite <- Jt in EQ. rewrite <- EQ. apply csum_ext. intros s Hs.
    rewrite Cmult_comm. f_equal. rewrite (matrix_value L gap Theta ylm a (Dm a) t s Hm HY (HD a Hm)) by (unfold t; lia).
    rewrite Jt. unfold cap_matrix. rewrite !ind2elm_elm2ind by (unfold a, t; lia). rewrite Z.eqb_refl.
    do 2 f_equal; unfold a; lia.
  - rewrite (SUP p j Hp Hj Nj). rewrite Cmult_0_r. apply csum_zero. intros i Hi.
    destruct (Z.eq_dec (snd (ind2elm i)) m) as [Ei|Ni]; [|exact (OFF i Hi Ni)].
    unfold cap_matrix. destruct (ind2elm i) as [l q]. destruct (ind2elm j) as [l' q']. cbn [snd] in *.
    rewrite (proj2 (Z.eqb_neq q q')) by congruence. ring.
Qed.

(** Solving all orders succeeds; the functions are orthonormal on the sphere, and
    orthogonal in the caps with the eigenvalue as energy; the eigenvalues decrease
    and lie between 0 and 1. *)
Theorem C66_functions : forall eigh argsort d L gap Theta ylm_edge Dm, 1 <= L ->
  cap_calls eigh argsort d L gap Theta ylm_edge Dm -> proper_cap gap Theta ->
  exists evals rows orders, solve_all_orders argsort eigh Dm L = Ok (evals, rows, orders) /\
    length evals = L * L /\ length rows = L * L /\ descending evals /\
    let S := slepian_function d (L * L) rows in
    forall p q, p < L * L -> q < L * L ->
      inner (S p) (S q) 0 PI 0 (2 * PI) (RtoC (if p =? q then 1 else 0)) /\
      caps_inner gap Theta (S p) (S q) (RtoC (if p =? q then nth p evals 0%R else 0)) /\
      (0 <= nth p evals 0 <= 1)%R.
Proof.
  intros eigh argsort d L gap Theta ylm Dm HL HX (B1 & B2).
  destruct (cap_solved eigh argsort d L gap Theta ylm Dm HL HX) as (evals & rows & orders & E & Hl & Hr & Hlo & Hd & Ho & He & _).
  destruct HX as (_ & TB & _). pose proof (textbook_product d L TB) as PF. pose proof (product_orthonormal d L PF) as ON.
  exists evals, rows, orders. split; [exact E|]. split; [exact Hl|]. split; [exact Hr|]. split; [exact Hd|]. intros S.
  assert (SP : forall p q, p < L * L -> q < L * L -> inner (S p) (S q) 0 PI 0 (2 * PI) (RtoC (if p =? q then 1 else 0))).
  { intros p q Hp Hq.
    pose proof (inner_gram d (L * L) (fun i j => RtoC (if i =? j then 1 else 0)) (fun i => nth i (nth p rows []) (RtoC 0)) (fun i => nth i (nth q rows []) (RtoC 0)) _ _ _ _ ON) as G.
    rewrite gram_identity in G. cbv zeta in Ho. rewrite Ho in G by assumption.
    replace (RtoC (if p =? q then 1 else 0)) with (if p =? q then RtoC 1 else RtoC 0) by (destruct (p =? q); reflexivity). exact G. }
  assert (SB : forall p q, p < L * L -> q < L * L -> caps_inner gap Theta (S p) (S q) (RtoC (if p =? q then nth p evals 0%R else 0))).
  { intros p q Hp Hq.
    pose proof (cap_gram d L gap Theta (fun i => nth i (nth p rows []) (RtoC 0)) (fun i => nth i (nth q rows []) (RtoC 0)) PF) as G.
    rewrite (gram_rows (L * L) (cap_matrix gap Theta) _ _ Ho He p q Hp Hq) in G.
    replace (RtoC (if p =? q then nth p evals 0%R else 0)) with (if p =? q then RtoC (nth p evals 0%R) else RtoC 0) by (destruct (p =? q); reflexivity). exact G. }
  intros p q Hp Hq. split; [apply SP; assumption|]. split; [apply SB; assumption|].
  pose proof (SP p p Hp Hp) as T. pose proof (SB p p Hp Hp) as I. rewrite Nat.eqb_refl in T, I.
  exact (caps_range d L gap Theta _ _ _ PF B1 B2 I T).
Qed.
Print Assumptions C66_functions.

(** Every function is built from one order: rotating the sphere about its axis
    only changes its phase. *)
Theorem C66_rotation : forall eigh argsort d L gap Theta ylm_edge Dm evals rows orders p alpha theta phi, 1 <= L ->
  cap_calls eigh argsort d L gap Theta ylm_edge Dm -> solve_all_orders argsort eigh Dm L = Ok (evals, rows, orders) -> p < L * L ->
  slepian_function d (L * L) rows p theta (phi + alpha) =
  Cmult (expi (IZR (nth p orders 0%Z) * alpha)) (slepian_function d (L * L) rows p theta phi).
Proof.
  intros eigh argsort d L gap Theta ylm Dm evals rows orders p alpha theta phi HL HX E Hp.
  destruct (cap_solved eigh argsort d L gap Theta ylm Dm HL HX) as (evals' & rows' & orders' & E' & _ & _ & _ & _ & _ & _ & SUP).
  rewrite E in E'. injection E' as <- <- <-. cbv zeta in SUP.
  unfold slepian_function, band_limited. rewrite <- csum_scal_l. apply csum_ext. intros i Hi.
  destruct (Z.eq_dec (snd (ind2elm i)) (nth p orders 0%Z)) as [Q|N]; [|rewrite (SUP p i Hp Hi N); ring].
  rewrite !number_harmonic, Q. set (m := nth p orders 0%Z). unfold harmonic. rewrite Rmult_plus_distr_l, expi_plus. ring.
Qed.
Print Assumptions C66_rotation.

(** A band-limited function orthogonal to the first [p] Slepian functions has at
    most the fraction [lambda_p] of its energy in the caps. *)
Theorem C66_optimal : forall eigh argsort d L gap Theta ylm_edge Dm evals rows orders w p inside total, 1 <= L ->
  cap_calls eigh argsort d L gap Theta ylm_edge Dm -> solve_all_orders argsort eigh Dm L = Ok (evals, rows, orders) -> p < L * L ->
  let f := band_limited d (L * L) w in
  (forall q, q < p -> inner f (slepian_function d (L * L) rows q) 0 PI 0 (2 * PI) (RtoC 0)) ->
  caps_inner gap Theta f f (RtoC inside) -> inner f f 0 PI 0 (2 * PI) (RtoC total) ->
  (inside <= nth p evals 0 * total)%R.
Proof.
  intros eigh argsort d L gap Theta ylm Dm evals rows orders w p inside total HL HX E Hp f Hq EI ET.
  destruct (cap_solved eigh argsort d L gap Theta ylm Dm HL HX) as (evals' & rows' & orders' & E' & Hl & Hr & Hlo & Hd & Ho & He & _).
  rewrite E in E'. injection E' as <- <- <-. destruct HX as (_ & TB & _). pose proof (textbook_product d L TB) as PF. pose proof (product_orthonormal d L PF) as ON.
  pose proof (caps_unique _ _ _ _ _ _ EI (cap_gram d L gap Theta w w PF)) as Q1.
  pose proof (inner_gram _ _ (fun i j => RtoC (if i =? j then 1 else 0)) w w _ _ _ _ ON) as GT. rewrite gram_identity, ip_self in GT.
  pose proof (inner_unique _ _ _ _ _ _ _ _ ET GT) as Q2. apply RtoC_inj in Q2.
  apply (f_equal Re) in Q1. cbn [Re RtoC fst] in Q1. rewrite Q1, Q2. apply (gram_bound (L * L) (cap_matrix gap Theta) _ _ Ho He w p Hp).
  - intros q q' Hqq Hq'. apply (descending_nth evals Hd); [exact Hqq|rewrite Hl; exact Hq'].
  - intros q Hqp. pose proof (inner_gram _ _ (fun i j => RtoC (if i =? j then 1 else 0)) w (fun i => nth i (nth q rows []) (RtoC 0)) _ _ _ _ ON) as G.
    rewrite gram_identity in G. exact (inner_unique _ _ _ _ _ _ _ _ G (Hq q Hqp)).
Qed.
Print Assumptions C66_optimal.

(** For one cap the eigenvalues add up to the Shannon number before rounding; for
    two caps to twice the number the code computes. *)
Theorem C66_shannon : forall eigh argsort d L gap Theta ylm_edge Dm evals rows orders, 1 <= L ->
  cap_calls eigh argsort d L gap Theta ylm_edge Dm ->
  solve_all_orders argsort eigh Dm L = Ok (evals, rows, orders) ->
  let area := calculate_area 0 (SlepianPolarCap Theta gap) in
  rlsum evals = ((if gap then 2 else 1) * (area * (INR L * INR L) / (4 * PI)))%R /\
  (gap = false -> (Rabs (IZR (shannon area L) - rlsum evals) <= 1 / 2)%R).
Proof.
  intros eigh argsort d L gap Theta ylm Dm evals rows orders HL HX E area.
  destruct (cap_solved eigh argsort d L gap Theta ylm Dm HL HX) as (evals' & rows' & orders' & E' & Hl & Hr & Hlo & Hd & Ho & He & _).
  rewrite E in E'. injection E' as <- <- <-. destruct HX as (_ & TB & _). pose proof (textbook_product d L TB) as PF. pose proof (textbook_degree d L TB) as W.
  assert (S : rlsum evals = ((if gap then 2 else 1) * (area * (INR L * INR L) / (4 * PI)))%R).
  { rewrite rlsum_nth, Hl. apply RtoC_inj. rewrite (gram_trace (L * L) (cap_matrix gap Theta) _ _ Ho He).
    rewrite (csum_ext _ _ _ (fun i _ => cap_matrix_split gap Theta i i)).
    pose proof (csum_box_sum d L 0 Theta 0 (2 * PI) _ W (fun i j Hi Hj => band_overlap d L i j 0 Theta PF Hi Hj)) as N1.
    pose proof (csum_box_sum d L (PI - Theta) PI 0 (2 * PI) _ W (fun i j Hi Hj => band_overlap d L i j (PI - Theta) PI PF Hi Hj)) as N2.
    replace (cos (PI - Theta) - cos PI)%R with (1 - cos Theta)%R in N2 by (rewrite cos_minus, cos_PI, sin_PI; ring).
    rewrite cos_0 in N1. unfold area, calculate_area, polar_area. destruct gap.
    - rewrite csum_plus, N1, N2, <- RtoC_plus. f_equal. pose proof PI_RGT_0. field. lra.
    - rewrite N1. f_equal. pose proof PI_RGT_0. field. lra. }
  split; [exact S|]. intros ->. rewrite S, Rmult_1_l. apply shannon_close.
Qed.
Print Assumptions C66_shannon.

(** ** Cases: band limit 2; the hemisphere, and two caps of 60 degrees *)
Module CapCases.
  Import LatLonCases.
  Local Open Scope R_scope.

  Ltac norm_fact :=
    repeat match goal with
    | |- context [zfact ?k] => let k' := eval compute in k in progress change (zfact k) with (zfact k')
    | |- context [inv_fact ?k] => let k' := eval compute in k in progress change (inv_fact k) with (inv_fact k')
    | |- context [pm1 ?k] => let k' := eval compute in (Z.even k) in change (pm1 k) with (if k' then 1 else -1)
    | |- context [Z.to_nat ?k] => let k' := eval compute in (Z.to_nat k) in change (Z.to_nat k) with k'
    end.
  Lemma z0 : zfact 0 = 1. Proof. reflexivity. Qed.
  Lemma z1 : zfact 1 = 1. Proof. reflexivity. Qed.
  Lemma z2 : zfact 2 = 2. Proof. unfold zfact. change (fact (Z.to_nat 2)) with 2%nat. rewrite INR_IZR_INZ. reflexivity. Qed.
  Lemma z3 : zfact 3 = 6. Proof. unfold zfact. change (fact (Z.to_nat 3)) with 6%nat. rewrite INR_IZR_INZ. reflexivity. Qed.
  Lemma z5 : zfact 5 = 120. Proof. unfold zfact. change (fact (Z.to_nat 5)) with 120%nat. rewrite INR_IZR_INZ. reflexivity. Qed.
  Lemma i0 : inv_fact 0 = 1. Proof. unfold inv_fact. cbn [Z.ltb Z.compare]. rewrite z0. field. Qed.
  Lemma i1 : inv_fact 1 = 1. Proof. unfold inv_fact. cbn [Z.ltb Z.compare]. rewrite z1. field. Qed.
  Lemma i2 : inv_fact 2 = / 2. Proof. unfold inv_fact. cbn [Z.ltb Z.compare]. rewrite z2. field. Qed.
  Lemma im1 : inv_fact (-1) = 0. Proof. reflexivity. Qed.
  Lemma im2 : inv_fact (-2) = 0. Proof. reflexivity. Qed.

  Lemma r000 : racah 0 0 0 0 0 0 = 1.
  Proof. change (racah 0 0 0 0 0 0) with (racah 0 0 0 0 0 (Z.opp 0)). rewrite racah_l0l by lia. change (pm1 (0 + 0)) with 1. change (IZR (2 * 0 + 1)) with 1. rewrite Rinv_1, sqrt_1. ring. Qed.
  Lemma r011 : racah 0 1 1 0 0 0 = - sqrt (1 / 3).
  Proof.
    unfold racah, racah_sum. cbn beta zeta. norm_fact. cbn [rsum Z.of_nat Pos.of_succ_nat Pos.succ]. norm_fact. rewrite ?z0, ?z1, ?z2, ?z3, ?i0, ?i1, ?i2, ?im1.
    replace (1 * 1 * 2 / 6) with (1 / 3) by field. replace (1 * 1 * 1 * 1 * 1 * 1) with 1 by ring. rewrite sqrt_1. ring.
  Qed.
  Lemma r101 : racah 1 0 1 0 0 0 = - sqrt (1 / 3).
  Proof. change (racah 1 0 1 0 0 0) with (racah 1 0 1 0 0 (Z.opp 0)). rewrite racah_l0l by lia. change (pm1 (1 + 0)) with (-1). change (2 * 1 + 1)%Z with 3%Z. replace (/ 3) with (1 / 3) by field. ring. Qed.
  Lemma r101' : racah 1 0 1 1 0 (-1) = sqrt (1 / 3).
  Proof. change (racah 1 0 1 1 0 (-1)) with (racah 1 0 1 1 0 (Z.opp 1)). rewrite racah_l0l by lia. change (pm1 (1 + 1)) with 1. change (2 * 1 + 1)%Z with 3%Z. replace (/ 3) with (1 / 3) by field. ring. Qed.
  Lemma r111 : racah 1 1 1 0 0 0 = 0.
  Proof. apply racah_odd; try lia. reflexivity. Qed.
  Lemma r121 : racah 1 2 1 0 0 0 = 2 * sqrt (1 / 30).
  Proof.
    unfold racah, racah_sum. cbn beta zeta. norm_fact. cbn [rsum Z.of_nat Pos.of_succ_nat Pos.succ]. norm_fact. rewrite ?z0, ?z1, ?z2, ?z3, ?z5, ?i0, ?i1, ?i2, ?im1.
    replace (2 * 1 * 2 / 120) with (1 / 30) by field. replace (1 * 1 * 2 * 2 * 1 * 1) with (2 * 2) by ring. rewrite sqrt_square by lra. ring.
  Qed.
  Lemma r121' : racah 1 2 1 1 0 (-1) = sqrt (1 / 30).
  Proof.
    unfold racah, racah_sum. cbn beta zeta. norm_fact. cbn [rsum Z.of_nat Pos.of_succ_nat Pos.succ]. norm_fact. rewrite ?z0, ?z1, ?z2, ?z3, ?z5, ?i0, ?i1, ?i2, ?im1, ?im2.
    replace (2 * 1 * 2 / 120) with (1 / 30) by field. replace (2 * 1 * 2 * 2 * 1 * 2) with (4 * 4) by ring. rewrite sqrt_square by lra. field.
  Qed.
  Lemma s3 : sqrt (1 / 3) * sqrt (1 / 3) = 1 / 3. Proof. apply sqrt_sqrt. lra. Qed.
  Lemma s30 : sqrt (1 / 30) * sqrt (1 / 30) = 1 / 30. Proof. apply sqrt_sqrt. lra. Qed.

  (** The sums over n of the three pairs of degrees. *)
  Lemma sum_pair (l p m : Z) (g : Z -> R) : 
    (l = 0 /\ p = 0 /\ m = 0 \/ l = 0 /\ p = 1 /\ m = 0 \/ l = 1 /\ p = 1 /\ m = 0 \/ l = 1 /\ p = 1 /\ m = 1)%Z ->
    rsum (Z.to_nat (l + p - Z.abs (l - p) + 1)) (fun k => let n := (Z.abs (l - p) + Z.of_nat k)%Z in racah l n p 0 0 0 * racah l n p m 0 (- m) * g n) =
    if (p =? 0)%Z then g 0%Z else if (l =? 0)%Z then 1 / 3 * g 1%Z else if (m =? 0)%Z then 1 / 3 * g 0%Z + 2 / 15 * g 2%Z else - 1 / 3 * g 0%Z + 1 / 15 * g 2%Z.
  Proof.
    pose proof s3. pose proof s30.
    intros [(-> & -> & ->)|[(-> & -> & ->)|[(-> & -> & ->)|(-> & -> & ->)]]]; cbn [Z.eqb].
    - change (Z.to_nat (0 + 0 - Z.abs (0 - 0) + 1)) with 1%nat. cbn [rsum]. change (Z.abs (0 - 0) + Z.of_nat 0)%Z with 0%Z. change (- 0)%Z with 0%Z. cbv zeta. rewrite r000. ring.
    - change (Z.to_nat (0 + 1 - Z.abs (0 - 1) + 1)) with 1%nat. cbn [rsum]. change (Z.abs (0 - 1) + Z.of_nat 0)%Z with 1%Z. change (- 0)%Z with 0%Z. cbv zeta. rewrite r011.
      replace (- sqrt (1 / 3) * - sqrt (1 / 3)) with (sqrt (1 / 3) * sqrt (1 / 3)) by ring. rewrite s3. ring.
    - change (Z.to_nat (1 + 1 - Z.abs (1 - 1) + 1)) with 3%nat. cbn [rsum]. change (Z.abs (1 - 1) + Z.of_nat 0)%Z with 0%Z. change (Z.abs (1 - 1) + Z.of_nat 1)%Z with 1%Z. change (Z.abs (1 - 1) + Z.of_nat 2)%Z with 2%Z.
      change (- 0)%Z with 0%Z. cbv zeta. rewrite r101, r111, r121.
      replace (- sqrt (1 / 3) * - sqrt (1 / 3)) with (sqrt (1 / 3) * sqrt (1 / 3)) by ring. replace (2 * sqrt (1 / 30) * (2 * sqrt (1 / 30))) with (4 * (sqrt (1 / 30) * sqrt (1 / 30))) by ring.
      rewrite s3, s30. field.
    - change (Z.to_nat (1 + 1 - Z.abs (1 - 1) + 1)) with 3%nat. cbn [rsum]. change (Z.abs (1 - 1) + Z.of_nat 0)%Z with 0%Z. change (Z.abs (1 - 1) + Z.of_nat 1)%Z with 1%Z. change (Z.abs (1 - 1) + Z.of_nat 2)%Z with 2%Z.
      change (- (1))%Z with (-1)%Z. cbv zeta. rewrite r101, r101', r111, r121, r121'.
      replace (- sqrt (1 / 3) * sqrt (1 / 3)) with (- (sqrt (1 / 3) * sqrt (1 / 3))) by ring. replace (2 * sqrt (1 / 30) * sqrt (1 / 30)) with (2 * (sqrt (1 / 30) * sqrt (1 / 30))) by ring.
      rewrite s3, s30. field.
  Qed.

  Lemma leg2 x : legendre 2 x = (3 * x * x - 1) / 2.
  Proof. rewrite legendre_SS, legendre_1, legendre_0. cbn [INR]. field. Qed.
  Lemma leg3 x : legendre 3 x = (5 * x * x * x - 3 * x) / 2.
  Proof. rewrite legendre_SS, leg2, legendre_1. cbn [INR]. field. Qed.

  (** The edge values as the library returns them. *)
  Definition ylm (Theta : R) (i : nat) : R := let n := Nat.sqrt i in sqrt ((2 * INR n + 1) / (4 * PI)) * legendre n (cos Theta).
  Lemma ylm_ok L Theta : edge_harmonics L Theta (ylm Theta).
  Proof. intros n _. rewrite harmonic_zero. unfold ylm. replace (Nat.sqrt (n * n + n)) with n; [reflexivity|]. symmetry. apply Nat.sqrt_unique. lia. Qed.

  (** A matrix of a run with two workers. *)
  Lemma matrix_exists L gap Theta a : (a < L)%nat -> exists D, finished_matrix L gap (ylm Theta) a D.
  Proof.
    intros H. destruct (C02_polar_can_finish L a gap (ylm Theta) 2 (fun _ _ _ => 7) []) as (sched & y & E & F).
    destruct (C02_polar_matrix_any_schedule L a gap (ylm Theta) (cap_P Theta) 2 (fun _ _ _ => 7) ([] ++ sched) y H ltac:(lia)) as (D & ED & _).
    - intros n Hn. unfold cap_P. rewrite Nat2Z.id. apply (edge_value L Theta _ n (ylm_ok L Theta) Hn).
    - exact E.
    - exact F.
    - exists D. exists 2%nat, (fun _ _ _ => 7), ([] ++ sched), y. split; [lia|]. split; [exact E|]. split; [exact F|exact ED].
  Qed.

  Lemma polar_pair Theta (l p m : Z) :
    (l = 0 /\ p = 0 /\ m = 0 \/ l = 0 /\ p = 1 /\ m = 0 \/ l = 1 /\ p = 1 /\ m = 0 \/ l = 1 /\ p = 1 /\ m = 1)%Z ->
    polar_sum (cap_P Theta) m l p =
    if (p =? 0)%Z then edge 0 (cos Theta) else if (l =? 0)%Z then 1 / 3 * edge 1 (cos Theta)
    else if (m =? 0)%Z then 1 / 3 * edge 0 (cos Theta) + 2 / 15 * edge 2 (cos Theta) else - 1 / 3 * edge 0 (cos Theta) + 1 / 15 * edge 2 (cos Theta).
  Proof.
    intros H. unfold polar_sum.
    rewrite (rsum_ext _ _ (fun k => let n := (Z.abs (l - p) + Z.of_nat k)%Z in
       racah l n p 0 0 0 * racah l n p m 0 (- m) * edge (Z.to_nat n) (cos Theta))) by (intros k _; cbv zeta; rewrite edge_cap by lia; reflexivity).
    exact (sum_pair l p m (fun n => edge (Z.to_nat n) (cos Theta)) H).
  Qed.

  Lemma entry2 gap Theta a D r c : (a < 2)%nat -> finished_matrix 2 gap (ylm Theta) a D -> (r < 2 - a)%nat -> (c < 2 - a)%nat ->

    D r c = (if gap then 1 + pm1 (Z.of_nat (r + c)) else 1) *
      match a, r, c with
      | O, O, O => edge 0 (cos Theta) / 2
      | O, S _, S _ => edge 0 (cos Theta) / 2 + edge 2 (cos Theta) / 5
      | O, _, _ => sqrt 3 / 6 * edge 1 (cos Theta)
      | _, _, _ => edge 0 (cos Theta) / 2 - edge 2 (cos Theta) / 10
      end.
  Proof.
    intros Ha HD Hr Hc. rewrite (matrix_value 2 gap Theta (ylm Theta) a D r c Ha (ylm_ok 2 Theta) HD Hr Hc).
    unfold polar_entry. rewrite polar_pair by lia.
    assert (S9 : sqrt 9 = 3) by (replace 9 with (3 * 3) by ring; apply sqrt_square; lra).
    assert (A : (a = 0 /\ r = 0 /\ c = 0 \/ a = 0 /\ r = 0 /\ c = 1 \/ a = 0 /\ r = 1 /\ c = 0 \/ a = 0 /\ r = 1 /\ c = 1 \/ a = 1 /\ r = 0 /\ c = 0)%nat) by lia.
    destruct A as [(-> & -> & ->)|[(-> & -> & ->)|[(-> & -> & ->)|[(-> & -> & ->)|(-> & -> & ->)]]]];
      cbn [Nat.min Nat.max Nat.add Z.of_nat Pos.of_succ_nat Z.eqb Z.add]; destruct gap;
      change (IZR ((2 * 0 + 1) * (2 * 0 + 1))) with 1; change (IZR ((2 * 0 + 1) * (2 * 1 + 1))) with 3; change (IZR ((2 * 1 + 1) * (2 * 1 + 1))) with 9;
      rewrite ?S9, ?sqrt_1; change (Z.pos (1 + 1)) with 2%Z; change (Z.pos (Pos.succ 1)) with 2%Z;
      change (pm1 0) with 1; change (pm1 1) with (-1); change (pm1 2) with 1; field.
  Qed.

  Lemma eigen_sym2 D x y : D 0%nat 0%nat = x -> D 1%nat 1%nat = x -> D 0%nat 1%nat = y -> D 1%nat 0%nat = y ->
    eigen_r 2 D [x - y; x + y] [[/ sqrt 2; - / sqrt 2]; [/ sqrt 2; / sqrt 2]].
  Proof.
    intros H00 H11 H01 H10. pose proof half2 as Q.
    split; [reflexivity|]. split; [reflexivity|]. split; [|split].
    - intros [|[|[|k]]] v H; cbn in H; try discriminate; injection H as <-; reflexivity.
    - intros [|[|[|k]]] v [|[|r]] H Hr; cbn in H; try discriminate; try lia; injection H as <-; cbn; rewrite ?H00, ?H11, ?H01, ?H10; ring.
    - intros [|[|[|j]]] [|[|[|k]]] u v H H'; cbn in H, H'; try discriminate; injection H as <-; injection H' as <-; cbn; lra.
  Qed.
  Lemma eigen_diag2 D x z : D 0%nat 0%nat = x -> D 1%nat 1%nat = z -> D 0%nat 1%nat = 0 -> D 1%nat 0%nat = 0 ->
    eigen_r 2 D [x; z] [[1; 0]; [0; 1]].
  Proof.
    intros H00 H11 H01 H10.
    split; [reflexivity|]. split; [reflexivity|]. split; [|split].
    - intros [|[|[|k]]] v H; cbn in H; try discriminate; injection H as <-; reflexivity.
    - intros [|[|[|k]]] v [|[|r]] H Hr; cbn in H; try discriminate; try lia; injection H as <-; cbn; rewrite ?H00, ?H11, ?H01, ?H10; ring.
    - intros [|[|[|j]]] [|[|[|k]]] u v H H'; cbn in H, H'; try discriminate; injection H as <-; injection H' as <-; cbn; ring.
  Qed.
  Lemma eigen_one D x : D 0%nat 0%nat = x -> eigen_r 1 D [x] [[1]].
  Proof.
    intros H00. split; [reflexivity|]. split; [reflexivity|]. split; [|split].
    - intros [|[|k]] v H; cbn in H; try discriminate; injection H as <-; reflexivity.
    - intros [|[|k]] v [|r] H Hr; cbn in H, Hr; try discriminate; try lia; injection H as <-; cbn; rewrite H00; ring.
    - intros [|[|j]] [|[|k]] u v H H'; cbn in H, H'; try discriminate; injection H as <-; injection H' as <-; cbn; ring.
  Qed.

  (** Eigensolvers for the two regions. *)
  Definition eigh_hemisphere (n : nat) (_ : nat -> nat -> R) : list R * list (list R) :=
    if (n =? 2)%nat then ([1 / 2 - sqrt 3 / 4; 1 / 2 + sqrt 3 / 4], [[/ sqrt 2; - / sqrt 2]; [/ sqrt 2; / sqrt 2]]) else ([1 / 2], [[1]]).
  Definition eigh_caps (n : nat) (_ : nat -> nat -> R) : list R * list (list R) :=
    if (n =? 2)%nat then ([1 / 2; 7 / 8], [[1; 0]; [0; 1]]) else ([5 / 16], [[1]]).

  Lemma two_matrices gap Theta : exists Dm, forall a, (a < 2)%nat -> finished_matrix 2 gap (ylm Theta) a (Dm a).
  Proof.
    destruct (matrix_exists 2 gap Theta 0 ltac:(lia)) as (D0 & H0). destruct (matrix_exists 2 gap Theta 1 ltac:(lia)) as (D1 & H1).
    exists (fun a => match a with O => D0 | _ => D1 end). intros [|[|a]] Ha; [exact H0|exact H1|lia].
  Qed.

  Lemma hemisphere_calls : exists Dm, cap_calls eigh_hemisphere insertion_argsort d2 2 false (PI / 2) (ylm (PI / 2)) Dm.
  Proof.
    destruct (two_matrices false (PI / 2)) as (Dm & H). exists Dm.
    split; [exact insertion_argsort_ok|]. split; [exact ConcentrationCases.textbook2|]. split; [apply ylm_ok|]. split; [exact H|].
    assert (E : forall a r c, (a < 2)%nat -> (r < 2 - a)%nat -> (c < 2 - a)%nat -> _) by (intros a r c Ha; exact (entry2 false (PI / 2) a (Dm a) r c Ha (H a Ha))).
    rewrite cos_PI2 in E. unfold edge in E. rewrite ?leg2, ?leg3, ?legendre_1, ?legendre_0 in E. cbv iota in E.
    intros [|[|a]] Ha; [| |lia].
    - apply eigen_sym2; rewrite E by lia; field.
    - apply eigen_one. rewrite E by lia. field.
  Qed.

  Lemma caps_calls : exists Dm, cap_calls eigh_caps insertion_argsort d2 2 true (PI / 3) (ylm (PI / 3)) Dm.
  Proof.
    destruct (two_matrices true (PI / 3)) as (Dm & H). exists Dm.
    split; [exact insertion_argsort_ok|]. split; [exact ConcentrationCases.textbook2|]. split; [apply ylm_ok|]. split; [exact H|].
    assert (E : forall a r c, (a < 2)%nat -> (r < 2 - a)%nat -> (c < 2 - a)%nat -> _) by (intros a r c Ha; exact (entry2 true (PI / 3) a (Dm a) r c Ha (H a Ha))).
    rewrite cos_PI3 in E. unfold edge in E. rewrite ?leg2, ?leg3, ?legendre_1, ?legendre_0 in E. cbv iota in E.
    intros [|[|a]] Ha; [| |lia].
    - apply eigen_diag2; rewrite E by lia; cbn [Nat.add Z.of_nat Pos.of_succ_nat Pos.succ]; change (pm1 0) with 1; change (pm1 1) with (-1); change (pm1 2) with 1; field.
    - apply eigen_one. rewrite E by lia. cbn [Nat.add Z.of_nat]. change (pm1 0) with 1. field.
  Qed.

  Example C66_case : exists Dm evals rows orders,
    cap_calls eigh_hemisphere insertion_argsort d2 2 false (PI / 2) (ylm (PI / 2)) Dm /\ proper_cap false (PI / 2) /\
    solve_all_orders insertion_argsort eigh_hemisphere Dm 2 = Ok (evals, rows, orders) /\ rlsum evals = 2.
  Proof.
    destruct hemisphere_calls as (Dm & H). pose proof PI_RGT_0 as P.
    assert (B : proper_cap false (PI / 2)) by (split; [lra|discriminate]).
    destruct (C66_functions _ _ _ 2%nat _ _ _ Dm ltac:(lia) H B) as (evals & rows & orders & E & _).
    exists Dm, evals, rows, orders. split; [exact H|]. split; [exact B|]. split; [exact E|].
    rewrite (proj1 (C66_shannon _ _ _ 2%nat _ _ _ _ _ _ _ ltac:(lia) H E)).
    unfold calculate_area, polar_area. rewrite cos_PI2. cbn [INR]. field. lra.
  Qed.

  Example C66_gap_case : exists Dm evals rows orders,
    cap_calls eigh_caps insertion_argsort d2 2 true (PI / 3) (ylm (PI / 3)) Dm /\ proper_cap true (PI / 3) /\
    solve_all_orders insertion_argsort eigh_caps Dm 2 = Ok (evals, rows, orders) /\ rlsum evals = 2 /\
    calculate_area 0 (SlepianPolarCap (PI / 3) true) * (INR 2 * INR 2) / (4 * PI) = 1.
  Proof.
    destruct caps_calls as (Dm & H). pose proof PI_RGT_0 as P.
    assert (B : proper_cap true (PI / 3)) by (split; [lra|intros _; lra]).
    destruct (C66_functions _ _ _ 2%nat _ _ _ Dm ltac:(lia) H B) as (evals & rows & orders & E & _).
    exists Dm, evals, rows, orders. split; [exact H|]. split; [exact B|]. split; [exact E|].
    rewrite (proj1 (C66_shannon _ _ _ 2%nat _ _ _ _ _ _ _ ltac:(lia) H E)).
    unfold calculate_area, polar_area. rewrite cos_PI3. cbn [INR]. split; field; lra.
  Qed.
End CapCases.
