(** * C78: rounding errors of the eigensolver only change the results a little. *)
From Coq Require Import List ZArith Arith Bool Reals Lia Lra Sorting.Permutation.
From Coquelicot Require Import Coquelicot.
From Verif Require Import Base ListLemmas RSum CSum Numpy SpecPolar OrthoProofs Machine Job Mask Quadrature ArbitraryMatrix SpecArbitrary ArbitrarySolve ArbitrarySolveProofs Index IndexProofs Eigen SpecEigen EigenProofs PolarEigenProofs
  LatLon SpecLatLon LatLonIntegrals LatLonProofs LatLonParallel LatLonSolve SpecConcentration ConcentrationProofs
  SpecHarmonics SpecLegendre LegendreProofs CapProofs TextbookProofs SpecWigner WignerProofs SpecWignerD WignerDProofs SpectralProofs WeylProofs SpecRounding RoundingProofs
  PropEigen PropMatrix PropLatLon PropConcentration PropCap PropArbitrary PropWignerD PropSpectral.
Import ListNotations.
Local Open Scope nat_scope.

(** ** The eigensolver *)
(** No error: the exact decomposition. *)
Theorem C78_exact : forall n M evals cols, eigen_near_c 0 n M evals cols <-> eigen_c n M evals cols.
Proof.
  assert (Z : forall z w : C, (Cmod (Cminus z w) <= 0)%R -> z = w).
  { intros z w H. pose proof (Cmod_ge_0 (Cminus z w)). assert (E : Cminus z w = RtoC 0) by (apply Cmod_eq_0; lra).
    transitivity (Cplus (Cminus z w) w); [ring|]. rewrite E. ring. }
  assert (Z' : forall z w : C, z = w -> (Cmod (Cminus z w) <= 0)%R).
  { intros z w ->. replace (Cminus w w) with (RtoC 0) by ring. rewrite Cmod_0. lra. }
  intros n M evals cols. split; intros (H1 & H2 & H3 & H4 & H5); (split; [exact H1|]); (split; [exact H2|]); (split; [exact H3|]); split.
  - intros k v r Hk Hr. apply Z. apply H4; assumption.
  - intros j k u v Hj Hk. apply Z. apply H5; assumption.
  - intros k v r Hk Hr. apply Z'. apply H4; assumption.
  - intros j k u v Hj Hk. apply Z'. apply H5; assumption.
Qed.
Print Assumptions C78_exact.

(** A matrix computed with errors up to [delta] in its entries and then decomposed
    with errors up to [eta]: a decomposition of the exact matrix, with a larger
    error. *)
Theorem C78_matrix : forall eta delta n M M' evals cols, (0 <= delta)%R ->
  (forall r c, r < n -> c < n -> (Cmod (Cminus (M' r c) (M r c)) <= delta)%R) ->
  eigen_near_c eta n M' evals cols -> eigen_near_c (eta + delta * (INR n + 1 + eta) / 2) n M evals cols.
Proof.
  intros eta delta n M M' evals cols Hd HM (H1 & H2 & H3 & H4 & H5). split; [exact H1|]. split; [exact H2|]. split; [exact H3|].
  assert (EP : forall k v, nth_error cols k = Some v -> (0 <= eta)%R).
  { intros k v Hk. eapply Rle_trans; [|exact (H5 k k v v Hk Hk)]. apply Cmod_ge_0. }
  assert (N0 : (0 <= INR n)%R) by apply pos_INR.
  split.
  - intros k v r Hk Hr. pose proof (EP k v Hk) as E0. set (f := fun c => nth c v (RtoC 0)).
    assert (T : (total n f <= (INR n + 1 + eta) / 2)%R).
    { pose proof (total_one n f) as T. specialize (H5 k k v v Hk Hk). rewrite Nat.eqb_refl in H5. change (cdot n v v) with (ip n f f) in H5. rewrite ip_self in H5.
      replace (Cminus (RtoC (nrm2 n f)) (RtoC 1)) with (RtoC (nrm2 n f - 1)) in H5 by (rewrite RtoC_minus; reflexivity). rewrite Cmod_R in H5.
      apply Rabs_le_between in H5. lra. }
    specialize (H4 k v r Hk Hr).
    replace (Cminus (csum n (fun c => Cmult (M r c) (nth c v (RtoC 0)))) (Cmult (RtoC (nth k evals 0%R)) (nth r v (RtoC 0))))
      with (Cplus (Cminus (csum n (fun c => Cmult (M' r c) (nth c v (RtoC 0)))) (Cmult (RtoC (nth k evals 0%R)) (nth r v (RtoC 0))))
                  (Copp (csum n (fun c => Cmult (Cminus (M' r c) (M r c)) (f c))))).
    + eapply Rle_trans; [apply Cmod_triangle|]. rewrite Cmod_opp. apply Rplus_le_compat; [exact H4|].
      eapply Rle_trans; [apply Cmod_csum|]. unfold Rdiv. rewrite Rmult_assoc. eapply Rle_trans; [|apply Rmult_le_compat_l; [exact Hd|exact T]].
      unfold total. rewrite <- rsum_scal_l. apply rsum_le. intros c Hc. rewrite Cmod_mult. apply Rmult_le_compat_r; [apply Cmod_ge_0|]. apply HM; assumption.
    + rewrite (csum_ext n (fun c => Cmult (Cminus (M' r c) (M r c)) (f c)) (fun c => Cminus (Cmult (M' r c) (nth c v (RtoC 0))) (Cmult (M r c) (nth c v (RtoC 0)))))
        by (intros c _; unfold f; ring). rewrite csum_minus. ring.
  - intros j k u v Hj Hk. pose proof (EP j u Hj) as E0. eapply Rle_trans; [exact (H5 j k u v Hj Hk)|].
    assert (0 <= delta * (INR n + 1 + eta))%R by (apply Rmult_le_pos; lra). lra.
Qed.
Print Assumptions C78_matrix.

(** ** Near solutions *)
(** [evals], [F]: computed; [lam], [G]: exact; [L * L] of each; [region f g v]: the
    inner product of [f] and [g] in the region is [v]; [B]: a bound of the exact
    eigenvalues.  The functions computed are orthonormal up to [eta] and orthogonal in
    the region with energy the eigenvalue up to a multiple of [eta]; the eigenvalues
    are those of the exact solution, rank by rank; a function computed contains little
    of the exact functions of other eigenvalues; and it is, up to a small energy, a
    combination of the exact functions whose eigenvalues are closer than [g]. *)
Definition near_solution (eta B : R) (L : nat) (region : (R -> R -> C) -> (R -> R -> C) -> C -> Prop)
    (evals : list R) (F : nat -> R -> R -> C) (lam : list R) (G : nat -> R -> R -> C) : Prop :=
  (forall p q, p < L * L -> q < L * L -> exists s, inner (F p) (F q) 0 PI 0 (2 * PI) s /\ (Cmod (Cminus s (RtoC (if p =? q then 1 else 0))) <= eta)%R) /\
  (forall p q, p < L * L -> q < L * L -> exists s, region (F p) (F q) s /\ (Cmod (Cminus s (RtoC (if p =? q then nth p evals 0%R else 0))) <= 6 * B * INR L * eta)%R) /\
  (forall p, p < L * L -> (Rabs (nth p evals 0 - nth p lam 0) <= 7 * B * INR (L * L) * eta)%R) /\
  (forall p q, p < L * L -> q < L * L -> exists s, inner (F p) (G q) 0 PI 0 (2 * PI) s /\ (Rabs (nth q lam 0 - nth p evals 0) * Cmod s <= INR L * eta)%R) /\
  (forall p g, p < L * L -> (0 < g)%R -> exists a e, (forall q, q < L * L -> (g <= Rabs (nth q lam 0 - nth p evals 0))%R -> a q = RtoC 0) /\
     energy (fun theta phi => Cminus (F p theta phi) (csum (L * L) (fun q => Cmult (a q) (G q theta phi)))) 0 PI 0 (2 * PI) e /\
     (e <= (INR L * eta / g) ^ 2)%R).

Lemma sphere_gram L v w : inner (expansion (L * L) v) (expansion (L * L) w) 0 PI 0 (2 * PI) (ip (L * L) v w).
Proof.
  pose proof (table_textbook L) as T. pose proof (textbook_orthonormal _ _ T) as ON.
  pose proof (inner_gram wigner_table (L * L) (fun i j => RtoC (if i =? j then 1 else 0)) v w _ _ _ _ ON) as G. rewrite gram_identity in G.
  exact (inner_same _ _ _ _ _ _ _ _ _ (fun t p => limited_ylm _ L v t p T) (fun t p => limited_ylm _ L w t p T) G).
Qed.

Lemma near_decomposed_solution eta B L K (region : (R -> R -> C) -> (R -> R -> C) -> C -> Prop) evals rows lam exact : 1 <= L ->
  (forall v w, region (expansion (L * L) v) (expansion (L * L) w) (gram (L * L) K v w)) ->
  near_decomposed eta (L * L) K evals rows -> decomposed (L * L) K lam exact ->
  (forall p, p < L * L -> (0 <= nth p lam 0 <= B)%R) -> (1 <= B)%R -> (INR (L * L) * eta <= 1 / 2)%R ->
  near_solution eta B L region evals (row_function L rows) lam (row_function L exact).
Proof.
  intros HL HR HN HD RG AB SM. assert (N1 : 1 <= L * L) by nia. pose proof (eta_pos _ _ _ _ _ HN N1) as E0. pose proof (n_pos _ N1) as NP.
  assert (RL : root (L * L) = INR L) by (unfold root; rewrite mult_INR; apply sqrt_square, pos_INR).
  split; [|split; [|split; [|split]]].
  - intros p q Hp Hq. eexists. split; [apply sphere_gram|].
    pose proof (ortho_near _ _ _ _ _ HN p q Hp Hq) as O. cbn beta in O.
    replace (RtoC (if p =? q then 1 else 0)) with (if p =? q then RtoC 1 else RtoC 0) by (destruct (p =? q); reflexivity). exact O.
  - intros p q Hp Hq. eexists. split; [apply HR|].
    pose proof (gram_near _ _ _ _ _ _ _ _ HN HD RG AB N1 SM p q Hp Hq) as O. cbn beta in O. rewrite RL in O. assert (L0 : (0 <= INR L)%R) by apply pos_INR.
    replace (RtoC (if p =? q then nth p evals 0%R else 0)) with (if p =? q then RtoC (nth p evals 0%R) else RtoC 0) by (destruct (p =? q); reflexivity).
    eapply Rle_trans; [exact O|]. assert (0 <= B * INR L * eta)%R by (apply Rmult_le_pos; [apply Rmult_le_pos; lra|exact E0]). lra.
  - intros p Hp. pose proof (eigenvalue_near _ _ _ _ _ _ _ _ HN HD RG AB N1 SM p Hp) as O. cbn beta in O. eapply Rle_trans; [exact O|].
    assert (0 <= B * INR (L * L) * eta)%R by (apply Rmult_le_pos; [apply Rmult_le_pos; lra|exact E0]). lra.
  - intros p q Hp Hq. eexists. split; [apply sphere_gram|]. rewrite <- RL. exact (component_near _ _ _ _ _ _ _ HN HD N1 p q Hp Hq).
  - intros p g Hp Hg. set (n := L * L) in *. set (v := fun i => nth i (nth p rows []) (RtoC 0)). set (u := fun q i => nth i (nth q exact []) (RtoC 0)).
    set (near := fun q => if Rlt_dec (Rabs (nth q lam 0 - nth p evals 0)%R) g then true else false).
    set (a := fun q => if near q then ip n v (u q) else RtoC 0).
    set (w := fun i => Cminus (v i) (csum n (fun q => if near q then Cmult (ip n v (u q)) (u q i) else RtoC 0))).
    exists a, (nrm2 n w). split; [|split].
    + intros q Hq G. unfold a, near. destruct (Rlt_dec _ _); [lra|reflexivity].
    + pose proof (sphere_gram L w w) as G. fold n in G. rewrite ip_self in G. apply inner_energy in G. destruct G as [G _]. revert G. apply energy_same.
      intros t ph. unfold row_function, expansion. fold n.
      rewrite (csum_ext n (fun q => Cmult (a q) (csum n (fun i => Cmult (nth i (nth q exact []) (RtoC 0)) (ylm_number i t ph)))) (fun q => csum n (fun i => Cmult (if near q then Cmult (ip n v (u q)) (u q i) else RtoC 0) (ylm_number i t ph)))).
      * rewrite csum_swap, <- csum_minus. apply csum_ext. intros i _. rewrite csum_scal_r. unfold w, v. ring.
      * intros q _. rewrite <- csum_scal_l. apply csum_ext. intros i _. unfold a. fold (u q i). destruct (near q); ring.
    + rewrite <- RL. apply (defect_near eta n K evals rows lam exact HN HD p g near Hp Hg). intros q Hq Hnear. unfold near in Hnear. destruct (Rlt_dec _ _); [discriminate|lra].
Qed.

(** ** Boxes *)
(** As [box_calls], but [LA.eigh] makes errors. *)
Definition box_calls_rounded eta eigh argsort theta_min theta_max phi_min phi_max dl order L : Prop :=
  argsort_ok argsort /\ wigner_generated dl L /\ schedule order L /\
  forall K, create_K_matrix theta_min theta_max phi_min phi_max dl order (Z.of_nat L) = Ok K ->
    eigen_near_c eta (L * L) K (fst (eigh K)) (snd (eigh K)).

Theorem C78_box : forall eta eigh argsort dl order eigh' argsort' dl' order' theta_min theta_max phi_min phi_max L lam exact, 1 <= L ->
  on_sphere theta_min theta_max phi_min phi_max -> (INR (L * L) * eta <= 1 / 2)%R ->
  box_calls_rounded eta eigh argsort theta_min theta_max phi_min phi_max dl order L ->
  box_calls eigh' argsort' theta_min theta_max phi_min phi_max dl' order' L ->
  solve_lat_lon eigh' argsort' theta_min theta_max phi_min phi_max dl' order' L = Ok (lam, exact) ->
  exists evals rows, solve_lat_lon eigh argsort theta_min theta_max phi_min phi_max dl order L = Ok (evals, rows) /\
    length evals = L * L /\ length rows = L * L /\ descending evals /\
    near_solution eta 1 L (fun f g v => inner f g theta_min theta_max phi_min phi_max v) evals (row_function L rows) lam (row_function L exact).
Proof.
  intros eta eigh argsort dl order eigh' argsort' dl' order' tmin tmax pmin pmax L lam exact HL HS SM (HA & HW & HO & HE) X' E'.
  destruct (box_run _ _ _ _ _ _ _ _ _ _ _ HL X' E') as (K' & HK' & D').
  destruct (C05_matrix tmin tmax pmin pmax dl order L HL (proj1 HW) HO) as (K & E & HK). pose proof (proj2 (C71_table L) dl HW) as T.
  pose proof (C05_hermitian tmin tmax pmin pmax dl order L K HL (proj1 HW) HO E) as HH.
  destruct (near_family eta (L * L) K _ _ (near_lat_lon argsort HA eta (L * L) K _ _ (HE K E) HH)) as (evals & rows & ER & ND).
  exists evals, rows. unfold solve_lat_lon. rewrite E. cbn [rbind]. split; [exact ER|].
  split; [apply ND|]. split; [apply ND|]. split; [apply ND|].
  assert (QK : forall i j, i < L * L -> j < L * L -> K' i j = K i j).
  { intros i j Hi Hj. apply (inner_unique _ _ _ _ _ _ _ _ (HK' i j Hi Hj)).
    exact (inner_same _ _ _ _ _ _ _ _ _ (fun t p => number_ylm _ L i t p T Hi) (fun t p => number_ylm _ L j t p T Hj) (HK i j Hi Hj)). }
  apply (near_decomposed_solution eta 1 L K _ evals rows lam exact HL); [|exact ND|exact (decomposed_ext _ _ _ _ _ QK D')| |lra|exact SM].
  - intros v w. pose proof (inner_gram (wigner_values dl L) (L * L) K v w _ _ _ _ HK) as G.
    exact (inner_same _ _ _ _ _ _ _ _ _ (fun t p => limited_ylm _ L v t p T) (fun t p => limited_ylm _ L w t p T) G).
  - destruct (C71_box_functions _ _ _ _ _ _ _ _ L HL X' HS) as (ev & rw & E'' & _ & _ & _ & H & _). rewrite E' in E''. injection E'' as <- <-.
    intros p Hp. exact (proj2 (proj2 (H p p Hp Hp))).
Qed.
Print Assumptions C78_box.

(** ** Polar caps *)
Definition polar_calls_rounded eta eigh argsort (L : nat) (gap : bool) (Theta : R) ylm_edge (Dm : nat -> nat -> nat -> R) : Prop :=
  argsort_ok argsort /\ edge_harmonics L Theta ylm_edge /\
  (forall a, a < L -> finished_matrix L gap ylm_edge a (Dm a)) /\
  (forall a, a < L -> eigen_near_r eta (L - a) (Dm a) (fst (eigh (L - a) (Dm a))) (snd (eigh (L - a) (Dm a)))).

Lemma caps_near eta eigh argsort L gap Theta ylm_edge Dm : 1 <= L -> polar_calls_rounded eta eigh argsort L gap Theta ylm_edge Dm ->
  exists evals rows orders, solve_all_orders argsort eigh Dm L = Ok (evals, rows, orders) /\ length orders = L * L /\ near_decomposed eta (L * L) (cap_matrix gap Theta) evals rows /\
    (forall p j, p < L * L -> j < L * L -> snd (ind2elm j) <> nth p orders 0%Z -> nth j (nth p rows []) (RtoC 0) = RtoC 0).
Proof.
  intros HL (HA & HY & HD & HE).
  destruct (near_all_orders argsort HA eigh Dm eta L HL HE) as (evals & rows & orders & E & L1 & L2 & L3 & Hd & Ho & Hrow).
  pose proof (near_eta eigh Dm eta L HL HE) as E0.
  exists evals, rows, orders. split; [exact E|]. split; [exact L3|].
  assert (NE : forall p, p < L * L -> nth_error evals p = Some (nth p evals 0%R)) by (intros p Hp; apply nth_error_nth'; lia).
  assert (NR : forall p, p < L * L -> nth_error rows p = Some (nth p rows [])) by (intros p Hp; apply nth_error_nth'; lia).
  assert (NO : forall p, p < L * L -> nth_error orders p = Some (nth p orders 0%Z)) by (intros p Hp; apply nth_error_nth'; lia).
  assert (SUP : forall p j, p < L * L -> j < L * L -> snd (ind2elm j) <> nth p orders 0%Z -> nth j (nth p rows []) (RtoC 0) = RtoC 0).
  { intros p j Hp Hj N. destruct (Hrow p _ _ _ (NE p Hp) (NR p Hp) (NO p Hp)) as (_ & _ & S & _). apply S; assumption. }
  split; [|exact SUP]. split; [exact L1|]. split; [exact L2|]. split; [exact Hd|].
  split; [intros p q Hp Hq; exact (Ho p q _ _ (NR p Hp) (NR q Hq))|].
  intros p j Hp Hj. destruct (Hrow p _ _ _ (NE p Hp) (NR p Hp) (NO p Hp)) as (Hm & _ & _ & EQ).
  set (m := nth p orders 0%Z) in *. set (a := Z.abs_nat m) in *.
  assert (OFF : forall i, i < L * L -> snd (ind2elm i) <> m -> Cmult (nth i (nth p rows []) (RtoC 0)) (cap_matrix gap Theta i j) = RtoC 0).
  { intros i Hi N. rewrite (SUP p i Hp Hi N). ring. }
  destruct (Z.eq_dec (snd (ind2elm j)) m) as [Ej|Nj].
  - rewrite (csum_order L m _ OFF). fold a.
    pose proof (ind2elm_range j) as Rj. pose proof (ind2elm_lt L j Hj) as Lj. pose proof (elm2ind_ind2elm j) as Ij.
    set (t := fst (ind2elm j) - a). rewrite Ej in Ij, Rj.
    assert (Jt : j = elm2ind (a + t) m) by (rewrite <- Ij; f_equal; unfold t, a; lia).
    specialize (EQ t ltac:(unfold t; lia)). rewrite <- Jt in EQ.
    rewrite (csum_ext (L - a) _ (fun s => Cmult (RtoC (Dm a t s)) (nth (elm2ind (a + s) m) (nth p rows []) (RtoC 0)))); [exact EQ|]. intros s Hs.
    rewrite Cmult_comm. f_equal. rewrite (matrix_value L gap Theta ylm_edge a (Dm a) t s Hm HY (HD a Hm)) by (unfold t; lia).
    rewrite Jt. unfold cap_matrix. rewrite !ind2elm_elm2ind by (unfold a, t; lia). rewrite Z.eqb_refl.
    do 2 f_equal; unfold a; lia.
  - rewrite (SUP p j Hp Hj Nj). rewrite Cmult_0_r. rewrite (csum_zero (L * L)).
    + replace (Cminus (RtoC 0) (RtoC 0)) with (RtoC 0) by ring. rewrite Cmod_0. exact E0.
    + intros i Hi. destruct (Z.eq_dec (snd (ind2elm i)) m) as [Ei|Ni]; [|exact (OFF i Hi Ni)].
      unfold cap_matrix. destruct (ind2elm i) as [l1 m1]. destruct (ind2elm j) as [l2 m2]. cbn [snd] in Ei, Nj. rewrite (proj2 (Z.eqb_neq m1 m2)) by congruence. ring.
Qed.

(** The order of every function remains exact. *)
Theorem C78_cap : forall eta eigh argsort ylm_edge Dm eigh' argsort' ylm_edge' Dm' L gap Theta lam exact orders', 1 <= L ->
  proper_cap gap Theta -> (INR (L * L) * eta <= 1 / 2)%R ->
  polar_calls_rounded eta eigh argsort L gap Theta ylm_edge Dm ->
  polar_calls eigh' argsort' L gap Theta ylm_edge' Dm' ->
  solve_all_orders argsort' eigh' Dm' L = Ok (lam, exact, orders') ->
  exists evals rows orders, solve_all_orders argsort eigh Dm L = Ok (evals, rows, orders) /\
    length evals = L * L /\ length rows = L * L /\ length orders = L * L /\ descending evals /\
    near_solution eta 1 L (caps_inner gap Theta) evals (row_function L rows) lam (row_function L exact) /\
    (forall p alpha theta phi, p < L * L ->
      row_function L rows p theta (phi + alpha) = Cmult (expi (IZR (nth p orders 0%Z) * alpha)) (row_function L rows p theta phi)).
Proof.
  intros eta eigh argsort ylm Dm eigh' argsort' ylm' Dm' L gap Theta lam exact orders' HL HP SM X X' E'.
  destruct (caps_run _ _ _ _ _ _ _ _ _ _ HL X' E') as [_ D'].
  destruct (caps_near _ _ _ _ _ _ _ _ HL X) as (evals & rows & orders & E & LO & ND & SUP). pose proof (table_textbook L) as T.
  exists evals, rows, orders. split; [exact E|]. split; [apply ND|]. split; [apply ND|]. split; [exact LO|]. split; [apply ND|]. split.
  - apply (near_decomposed_solution eta 1 L (cap_matrix gap Theta) _ evals rows lam exact HL); [|exact ND|exact D'| |lra|exact SM].
    + intros v w. pose proof (cap_gram wigner_table L gap Theta v w (textbook_product _ _ T)) as G.
      exact (caps_same _ _ _ _ _ _ _ (fun t p => limited_ylm _ L v t p T) (fun t p => limited_ylm _ L w t p T) G).
    + destruct (C71_cap_functions _ _ L gap Theta _ _ HL X' HP) as (ev & rw & od & E'' & _ & _ & _ & H & _). rewrite E' in E''. injection E'' as <- <- <-.
      intros p Hp. exact (proj2 (proj2 (H p p Hp Hp))).
  - intros p alpha theta phi Hp. unfold row_function. rewrite <- !(limited_ylm wigner_table L _ _ _ T). unfold band_limited. rewrite <- csum_scal_l. apply csum_ext. intros i Hi.
    destruct (Z.eq_dec (snd (ind2elm i)) (nth p orders 0%Z)) as [Q|N]; [|rewrite (SUP p i Hp Hi N); ring].
    rewrite !number_harmonic, Q. set (m := nth p orders 0%Z). unfold harmonic. rewrite Rmult_plus_distr_l, expi_plus. ring.
Qed.
Print Assumptions C78_cap.

(** ** Arbitrary regions *)
Definition mask_calls_rounded eta eigh argsort L (mask : mask_array) samples_of ncpu garbage sched : Prop :=
  0 < ncpu /\ argsort_ok argsort /\ shape mask = repeat (4 * L) (2 * L + 1) /\
  (forall i s, i < L * L -> samples_of i s = ylm_number i (colatitude (2 * L) (s / (4 * L))) (longitude (2 * L) (s mod (4 * L)))) /\
  Machine.finished (arbitrary_job L (samples (2 * L)) (flat_mask mask) (flat_weight (2 * L)) samples_of ncpu garbage sched) /\
  forall D, solved_D_matrix L (samples (2 * L)) (flat_mask mask) (flat_weight (2 * L)) samples_of ncpu garbage sched = Ok D ->
    eigen_near_c eta (L * L) D (fst (eigh D)) (snd (eigh D)).

(** The exact eigenvalues of a mask can exceed 1 (C67), so the bounds involve the
    largest. *)
Theorem C78_mask : forall eta eigh argsort samples_of ncpu garbage sched eigh' argsort' samples_of' ncpu' garbage' sched' L mask lam exact, 1 <= L ->
  (INR (L * L) * eta <= 1 / 2)%R ->
  mask_calls_rounded eta eigh argsort L mask samples_of ncpu garbage sched ->
  mask_calls eigh' argsort' L mask samples_of' ncpu' garbage' sched' ->
  solve_arbitrary eigh' argsort' L mask samples_of' ncpu' garbage' sched' = Ok (lam, exact) ->
  exists evals rows, solve_arbitrary eigh argsort L mask samples_of ncpu garbage sched = Ok (evals, rows) /\
    length evals = L * L /\ length rows = L * L /\ descending evals /\
    near_solution eta (Rmax 1 (nth 0 lam 0%R)) L (fun f g v => grid_inner (2 * L) (masked mask) f g = v) evals (row_function L rows) lam (row_function L exact).
Proof.
  intros eta eigh argsort f ncpu garbage sched eigh' argsort' f' ncpu' garbage' sched' L mask lam exact HL SM (HN & HA & HM & HF & HJ & HE) X' E'.
  pose proof (mask_run _ _ _ _ _ _ _ _ _ _ HL X' E') as D'. pose proof (table_textbook L) as T.
  set (M := 2 * L) in *. assert (HM1 : 1 <= M) by (unfold M; lia).
  assert (F : fits M mask) by (unfold fits; rewrite HM; f_equal; unfold M; lia).
  assert (SYM : forall el m s, el < L -> (Z.abs m <= Z.of_nat el)%Z -> f (elm2ind el (- m)) s = (RtoC (pm1 m) * Cconj (f (elm2ind el m) s))%C).
  { intros el m s Hel Hm. assert (B : forall k, (Z.abs k <= Z.of_nat el)%Z -> elm2ind el k < L * L) by (intros k Hk; unfold elm2ind; nia).
    rewrite !HF by (apply B; lia). rewrite <- !(number_ylm wigner_table L _ _ _ T) by (apply B; lia). rewrite !harmonic_number_elm by lia. unfold pm1. apply (textbook_conjugate _ L T); lia. }
  destruct (C03_arbitrary_matrix_any_schedule L _ _ _ f ncpu HL HN garbage SYM sched HJ) as (D & ED & HD).
  assert (HG : forall i j, i < L * L -> j < L * L -> grid_inner M (masked mask) (ylm_number i) (ylm_number j) = D i j).
  { intros i j Hi Hj. rewrite HD by assumption. symmetry. apply (region_sum M mask); [exact HM1|exact F| |];
      intros t p Ht Hp; rewrite HF by assumption; replace (4 * L) with (2 * M) by (unfold M; lia);
      rewrite (Nat.add_comm (t * (2 * M))), Nat.div_add, Nat.mod_add, Nat.div_small, Nat.mod_small by lia; reflexivity. }
  assert (HH : hermitian (L * L) D).
  { intros r c Hr Hc. rewrite !HD by assumption. rewrite csum_conj. apply csum_ext. intros s _. rewrite !Cconj_mult, Cconj_conj, Cconj_R. ring. }
  destruct (near_family eta (L * L) D _ _ (near_arbitrary argsort HA eta (L * L) D _ _ (HE D ED) HH)) as (evals & rows & ER & ND).
  exists evals, rows. unfold solve_arbitrary. change (resolution_of L) with M. rewrite ED. cbn [rbind]. split; [exact ER|].
  split; [apply ND|]. split; [apply ND|]. split; [apply ND|].
  pose proof (decomposed_ext _ _ _ _ _ HG D') as D2.
  apply (near_decomposed_solution eta _ L D _ evals rows lam exact HL); [|exact ND|exact D2| |apply Rmax_l|exact SM].
  - intros v w. assert (HG' : forall i j, i < L * L -> j < L * L -> D i j = grid_inner M (masked mask) (harmonic_number wigner_table i) (harmonic_number wigner_table j)).
    { intros i j Hi Hj. rewrite <- (HG i j Hi Hj). apply grid_same; intros t p; symmetry; apply (number_ylm _ L); assumption. }
    rewrite <- (grid_inner_gram M (masked mask) wigner_table (L * L) D v w HG'). apply grid_same; intros t p; symmetry; apply limited_ylm; exact T.
  - assert (X2 : arbitrary_calls eigh' argsort' wigner_table L mask f' ncpu' garbage' sched').
    { destruct X' as (HN' & HA' & HM' & HF' & HJ' & HE'). split; [exact HN'|]. split; [exact HA'|]. split; [exact HM'|]. split; [|split; [exact T|split; assumption]].
      intros i s Hi. rewrite (number_ylm _ L) by assumption. replace (2 * (2 * L)) with (4 * L) by lia. apply HF', Hi. }
    destruct (C67_functions _ _ _ _ _ _ _ _ _ HL X2) as (ev & rw & E'' & _ & _ & _ & H). rewrite E' in E''. injection E'' as <- <-.
    intros p Hp. split; [exact (proj1 (proj2 (proj2 (H p p Hp Hp))))|]. eapply Rle_trans; [|apply Rmax_r]. apply (decomposed_sorted _ _ _ _ D2); lia.
Qed.
Print Assumptions C78_mask.

(** ** Cases *)
Module RoundingCases.
  Lemma unit_entry n f r : r < n -> nrm2 n f = 1%R -> (Cmod (f r) <= 1)%R.
  Proof.
    intros Hr N. pose proof (Cmod_ge_0 (f r)) as C0. apply Rsqr_incr_0_var; [|lra]. rewrite !Rsqr_pow2, pow1, <- N, nrm2_Cmod.
    apply (CompactProofs.rsum_term n (fun i => (Cmod (f i) ^ 2)%R) r Hr). intros. apply pow2_ge_0.
  Qed.

  (** A solver whose eigenvalues are all too large by [eta]. *)
  Lemma shifted eta n M evals cols : (0 <= eta)%R -> eigen_c n M evals cols -> eigen_near_c eta n M (map (fun x => (x + eta)%R) evals) cols.
  Proof.
    intros He (H1 & H2 & H3 & H4 & H5). split; [rewrite map_length; exact H1|]. split; [exact H2|]. split; [exact H3|]. split.
    - intros k v r Hk Hr. assert (Kn : k < length evals) by (rewrite H1, <- H2; apply nth_error_Some; congruence).
      rewrite (nth_indep _ 0%R ((fun x => (x + eta)%R) 0%R)) by (rewrite map_length; exact Kn). rewrite (map_nth (fun x => (x + eta)%R)). cbn beta.
      rewrite (H4 k v r Hk Hr). rewrite RtoC_plus. match goal with |- (Cmod ?z <= _)%R => replace z with (Copp (Cmult (RtoC eta) (nth r v (RtoC 0)))) by ring end.
      rewrite Cmod_opp, Cmod_mult, Cmod_R, Rabs_pos_eq by exact He.
      assert (U : nrm2 n (fun i => nth i v (RtoC 0)) = 1%R).
      { apply RtoC_inj. rewrite <- ip_self. specialize (H5 k k v v Hk Hk). rewrite Nat.eqb_refl in H5. exact H5. }
      pose proof (unit_entry n _ r Hr U) as Q. cbn beta in Q. pose proof (Rmult_le_compat_l eta _ _ He Q). lra.
    - intros j k u v Hj Hk. rewrite (H5 j k u v Hj Hk). destruct (j =? k);
        (replace (Cminus _ _) with (RtoC 0) by ring); rewrite Cmod_0; exact He.
  Qed.

  (** The theorem for boxes applies to it, whatever the band limit. *)
  Example C78_box_case : forall L eta, 1 <= L -> (0 <= eta)%R -> exists eigh argsort dl order,
    box_calls_rounded eta eigh argsort (PI / 6) (PI / 3) (PI / 4) PI dl order L /\
    ((0 < eta)%R -> ~ box_calls eigh argsort (PI / 6) (PI / 3) (PI / 4) PI dl order L).
  Proof.
    intros L eta HL He. destruct (SpectralCases.C73_box_case L HL) as (eigh & argsort & dl & order & evals & rows & (HA & HW & HO & HE) & E & _).
    exists (fun K => (map (fun x => (x + eta)%R) (fst (eigh K)), snd (eigh K))), argsort, dl, order. cbn [fst snd]. split.
    - split; [exact HA|]. split; [exact HW|]. split; [exact HO|]. intros K EK. cbn [fst snd]. apply shifted; [exact He|exact (HE K EK)].
    - intros Hp (_ & _ & _ & HE'). destruct (C05_matrix (PI / 6) (PI / 3) (PI / 4) PI dl order L HL (proj1 HW) HO) as (K & EK & _).
      specialize (HE K EK). specialize (HE' K EK). cbn [fst snd] in HE'. destruct HE as (H1 & H2 & H3 & H4 & H5). destruct HE' as (_ & _ & _ & H4' & _).
      assert (LL : 1 <= L * L) by nia. destruct (snd (eigh K)) as [|v vs] eqn:EV; [cbn in H2; lia|].
      destruct (fst (eigh K)) as [|w ws] eqn:EW; [cbn in H1; lia|]. specialize (H5 0 0 v v eq_refl eq_refl). cbn [Nat.eqb] in H5.
      assert (Z : forall r, r < L * L -> nth r v (RtoC 0) = RtoC 0).
      { intros r Hr. specialize (H4 0 v r eq_refl Hr). specialize (H4' 0 v r eq_refl Hr). cbn [nth map] in H4, H4'. rewrite H4, RtoC_plus in H4'.
        assert (Q : Cmult (RtoC eta) (nth r v (RtoC 0)) = RtoC 0).
        { transitivity (Cminus (Cmult (Cplus (RtoC w) (RtoC eta)) (nth r v (RtoC 0))) (Cmult (RtoC w) (nth r v (RtoC 0)))); [ring|]. rewrite <- H4'. ring. }
        apply Cmod_eq_0. apply (f_equal Cmod) in Q. rewrite Cmod_mult, Cmod_R, Cmod_0, Rabs_pos_eq in Q by lra.
        apply Rmult_integral in Q. destruct Q as [Q|Q]; [lra|exact Q]. }
      unfold cdot in H5. rewrite csum_zero in H5 by (intros i Hi; rewrite (Z i Hi); ring). apply RtoC_inj in H5. lra.
  Qed.

  Example C78_mask_case : forall L eta, 1 <= L -> (0 <= eta)%R -> exists eigh argsort samples_of sched,
    mask_calls_rounded eta eigh argsort L (map (fun t => map (fun q => t + q <? 2 * L) (seq 0 (4 * L))) (seq 0 (2 * L + 1))) samples_of 3 (fun _ _ _ => 7%R) sched.
  Proof.
    intros L eta HL He. destruct (SpectralCases.C73_mask_case L HL) as (eigh & argsort & f & sched & evals & rows & X & _). destruct X as (HN & HA & HM & HF & HJ & HE).
    exists (fun K => (map (fun x => (x + eta)%R) (fst (eigh K)), snd (eigh K))), argsort, f, sched.
    split; [exact HN|]. split; [exact HA|]. split; [exact HM|]. split; [exact HF|]. split; [exact HJ|]. intros D ED. cbn [fst snd]. apply shifted; [exact He|exact (HE D ED)].
  Qed.

  (** Exact calls for a cap are within any error. *)
  Example C78_exact_calls : forall eta eigh argsort L gap Theta ylm_edge Dm, (0 <= eta)%R ->
    polar_calls eigh argsort L gap Theta ylm_edge Dm -> polar_calls_rounded eta eigh argsort L gap Theta ylm_edge Dm.
  Proof.
    intros eta eigh argsort L gap Theta ylm Dm He (HA & HY & HD & HE). split; [exact HA|]. split; [exact HY|]. split; [exact HD|].
    intros a Ha. destruct (HE a Ha) as (H1 & H2 & H3 & H4 & H5). split; [exact H1|]. split; [exact H2|]. split; [exact H3|]. split.
    - intros k v r Hk Hr. rewrite (H4 k v r Hk Hr). rewrite Rminus_eq_0, Rabs_R0. exact He.
    - intros j k u v Hj Hk. rewrite (H5 j k u v Hj Hk). rewrite Rminus_eq_0, Rabs_R0. exact He.
  Qed.

  (** The hemisphere at band limit 2, solved with errors up to [10 ^ -12]: the
      eigenvalues are those of C73 up to [10 ^ -10], and the best function is a
      multiple of the exact one up to an energy of [10 ^ -22]. *)
  Example C78_cap_case : forall eta eigh argsort ylm_edge Dm, (eta <= 1 / 10 ^ 12)%R ->
    polar_calls_rounded eta eigh argsort 2 false (PI / 2) ylm_edge Dm ->
    exists evals rows orders, solve_all_orders argsort eigh Dm 2 = Ok (evals, rows, orders) /\
      (Rabs (nth 0 evals 0 - (1 / 2 + sqrt 3 / 4)) <= 1 / 10 ^ 10)%R /\ (Rabs (nth 1 evals 0 - 1 / 2) <= 1 / 10 ^ 10)%R /\
      (Rabs (nth 2 evals 0 - 1 / 2) <= 1 / 10 ^ 10)%R /\ (Rabs (nth 3 evals 0 - (1 / 2 - sqrt 3 / 4)) <= 1 / 10 ^ 10)%R /\
      exists G a e, caps_inner false (PI / 2) G G (RtoC (1 / 2 + sqrt 3 / 4)) /\ inner G G 0 PI 0 (2 * PI) (RtoC 1) /\
        energy (fun theta phi => Cminus (row_function 2 rows 0 theta phi) (Cmult a (G theta phi))) 0 PI 0 (2 * PI) e /\ (e <= 1 / 10 ^ 22)%R.
  Proof.
    intros eta eigh argsort ylm Dm He X. pose proof PI_RGT_0 as P.
    destruct SpectralCases.C73_cap_case as (_ & _ & _ & _ & (eigh2 & argsort2 & Dm2 & X2) & V).
    destruct (C73_cap_determined false (PI / 2) 2 ltac:(lia)) as (evals2 & _ & H). destruct (H _ _ _ _ X2) as (rows2 & orders2 & E2).
    pose proof (V _ _ _ _ _ _ _ X2 E2) as EV. subst evals2. clear V H.
    assert (PC : proper_cap false (PI / 2)) by (split; [lra|discriminate]).
    assert (SM : (INR (2 * 2) * eta <= 1 / 2)%R) by (cbn [Nat.mul Nat.add INR]; lra).
    destruct (C71_cap_functions _ _ 2 false (PI / 2) _ _ ltac:(lia) X2 PC) as (ev & rw & od & E'' & _ & _ & _ & FN & _). rewrite E2 in E''. injection E'' as <- <- <-.
    destruct (C78_cap eta eigh argsort ylm Dm eigh2 argsort2 _ Dm2 2 false (PI / 2) _ rows2 orders2 ltac:(lia) PC SM X X2 E2) as (evals & rows & orders & E & _ & _ & _ & _ & (N1 & _ & N3 & _ & N5) & _).
    exists evals, rows, orders. split; [exact E|].
    assert (E0 : (0 <= eta)%R) by (destruct (N1 0 0 ltac:(lia) ltac:(lia)) as (s & _ & Q); eapply Rle_trans; [apply Cmod_ge_0|exact Q]).
    assert (V : forall p, p < 4 -> (Rabs (nth p evals 0 - nth p SpectralCases.hemisphere 0) <= 1 / 10 ^ 10)%R).
    { intros p Hp. eapply Rle_trans; [apply (N3 p Hp)|]. cbn [Nat.mul Nat.add INR]. lra. }
    assert (S3 : (17 / 10 < sqrt 3)%R) by (rewrite <- (sqrt_square (17 / 10)) by lra; apply sqrt_lt_1_alt; lra).
    pose proof (V 0 ltac:(lia)) as V0. pose proof (V 1 ltac:(lia)) as V1. pose proof (V 2 ltac:(lia)) as V2. pose proof (V 3 ltac:(lia)) as V3.
    split; [exact V0|]. split; [exact V1|]. split; [exact V2|]. split; [exact V3|].
    destruct (N5 0 (2 / 5)%R ltac:(lia) ltac:(lra)) as (a & e & A & EN & EB).
    destruct (FN 0 0 ltac:(lia) ltac:(lia)) as (F1 & F2 & _). cbn [Nat.eqb] in F1, F2.
    exists (row_function 2 rows2 0), (a 0), e. split; [exact F2|]. split; [exact F1|]. split.
    - revert EN. apply energy_same. intros t ph. cbn [Nat.mul Nat.add csum].
      assert (Z : forall q, 1 <= q -> q < 4 -> a q = RtoC 0).
      { intros q Q1 Q2. apply A; [lia|]. cbn [SpectralCases.hemisphere nth] in V0 |- *. apply Rabs_le_between in V0. rewrite Rabs_left1; destruct q as [|[|[|[|q]]]]; cbn [nth]; try lia; lra. }
      rewrite (Z 1), (Z 2), (Z 3) by lia. ring.
    - eapply Rle_trans; [exact EB|]. cbn [INR]. assert (0 <= (1 + 1) * eta / (2 / 5) <= 1 / 10 ^ 11)%R by lra.
      eapply Rle_trans; [apply (pow_incr _ (1 / 10 ^ 11)%R); exact H|]. lra.
  Qed.
End RoundingCases.
