(** * Proofs: the matrix of an arbitrary region in terms of grid sums. *)
From Coq Require Import List ZArith Arith Bool Reals Lia Lra.
From Coquelicot Require Import Coquelicot.
From Verif Require Import Base ListLemmas RSum CSum OrthoProofs SpecEigen Index IndexProofs Quadrature QuadratureProofs Mask Region
  SpecLatLon LatLonIntegrals LatLonProofs SpecConcentration ConcentrationProofs SpecArbitrary ArbitrarySolve.
Import ListNotations.
Local Open Scope nat_scope.

Lemma csum_rect n m f : csum (n * m) f = csum n (fun t => csum m (fun p => f (t * m + p))).
Proof.
  induction n as [|n IH]; [reflexivity|]. cbn [Nat.mul csum]. rewrite Nat.add_comm, csum_app, IH. reflexivity.
Qed.
Lemma rsum_rect n m f : rsum (n * m) f = rsum n (fun t => rsum m (fun p => f (t * m + p))).
Proof.
  induction n as [|n IH]; [reflexivity|]. cbn [Nat.mul rsum]. rewrite Nat.add_comm, rsum_app, IH. reflexivity.
Qed.

(** ** Rows of a flattened array *)
Lemma nth_concat {A} (m : list (list A)) w d t p : List.Forall (fun r => length r = w) m -> t < length m -> p < w ->
  nth (t * w + p) (concat m) d = nth p (nth t m []) d.
Proof.
  revert t. induction m as [|r m IH]; intros t H Ht Hp; [cbn in Ht; lia|]. inversion H as [|? ? Hr Hm]; subst. cbn [concat].
  destruct t as [|t].
  - cbn [nth Nat.mul Nat.add]. apply app_nth1. exact Hp.
  - rewrite app_nth2 by (cbn [Nat.mul]; lia). cbn [nth]. cbn [length] in Ht.
    replace (S t * length r + p - length r) with (t * length r + p) by (cbn [Nat.mul]; lia).
    apply IH; [exact Hm|lia|exact Hp].
Qed.

Lemma concat_length {A} (m : list (list A)) w : List.Forall (fun r => length r = w) m -> length (concat m) = length m * w.
Proof. induction 1 as [|r m Hr _ IH]; [reflexivity|]. cbn [concat length Nat.mul]. rewrite app_length, IH, Hr. reflexivity. Qed.

Lemma flat_weight_at M t p : 1 <= M -> t < M + 1 -> p < 2 * M -> flat_weight M (t * (2 * M) + p) = cell M t.
Proof.
  intros HM Ht Hp. unfold flat_weight. rewrite weight_spec by exact HM.
  rewrite (nth_concat _ (2 * M)).
  - rewrite (nth_indep _ [] (map (fun _ => (sin (PI * INR 0 / INR M) * (PI / INR M) ^ 2)%R) (seq 0 (2 * M)))) by (rewrite map_length, seq_length; exact Ht).
    rewrite (map_nth (fun t => map (fun _ => (sin (PI * INR t / INR M) * (PI / INR M) ^ 2)%R) (seq 0 (2 * M)))), seq_nth by exact Ht.
    rewrite (nth_indep _ 0%R (sin (PI * INR (0 + t) / INR M) * (PI / INR M) ^ 2)%R) by (rewrite map_length, seq_length; exact Hp).
    rewrite (map_nth (fun _ => (sin (PI * INR (0 + t) / INR M) * (PI / INR M) ^ 2)%R) _ 0). reflexivity.
  - apply Forall_map. apply Forall_forall. intros k _. rewrite map_length, seq_length. reflexivity.
  - rewrite map_length, seq_length. exact Ht.
  - exact Hp.
Qed.

Lemma cell_nonneg M t : 1 <= M -> t < M + 1 -> (0 <= cell M t)%R.
Proof.
  intros HM Ht. unfold cell, colatitude. pose proof (lt_0_INR M HM) as P. pose proof PI_RGT_0 as PP.
  apply Rmult_le_pos; [|apply pow2_ge_0]. apply sin_ge_0.
  - apply Rdiv_le_0_compat; [|exact P]. apply Rmult_le_pos; [lra|apply pos_INR].
  - apply (Rmult_le_reg_r (INR M)); [exact P|]. unfold Rdiv. rewrite Rmult_assoc, Rinv_l, Rmult_1_r by lra.
    apply Rmult_le_compat_l; [lra|]. apply le_INR. lia.
Qed.

(** A mask has the shape of the grid. *)
Definition fits (M : nat) (mask : mask_array) : Prop := shape mask = repeat (2 * M) (M + 1).

Lemma fits_rows M mask : fits M mask -> List.Forall (fun r => length r = 2 * M) mask /\ length mask = M + 1.
Proof.
  intros H. unfold fits, shape in H. split.
  - apply Forall_forall. intros r Hr. apply (in_map (@length bool)) in Hr. rewrite H in Hr. exact (repeat_spec _ _ _ Hr).
  - apply (f_equal (@length nat)) in H. rewrite map_length, repeat_length in H. exact H.
Qed.

(** The Boolean of row [t], column [p]. *)
Definition inside (mask : mask_array) (t p : nat) : bool := nth p (nth t mask []) false.

Lemma flat_mask_at M mask t p : fits M mask -> t < M + 1 -> p < 2 * M ->
  flat_mask mask (t * (2 * M) + p) = mask_value (inside mask t p).
Proof.
  intros F Ht Hp. destruct (fits_rows M mask F) as [F1 F2]. unfold flat_mask, inside.
  rewrite (nth_concat mask (2 * M)) by (assumption || lia). reflexivity.
Qed.

(** ** Grid sums *)
Lemma grid_inner_gram M ins d n K v w :
  (forall i j, i < n -> j < n -> K i j = grid_inner M ins (harmonic_number d i) (harmonic_number d j)) ->
  grid_inner M ins (band_limited d n v) (band_limited d n w) = gram n K v w.
Proof.
  intros H. unfold gram.
  rewrite (csum_ext n _ (fun i => csum n (fun j => csum (M + 1) (fun t => csum (2 * M) (fun p =>
     Cmult (Cmult (v i) (Cconj (w j))) (if ins t p then
      Cmult (Cmult (harmonic_number d i (colatitude M t) (longitude M p)) (Cconj (harmonic_number d j (colatitude M t) (longitude M p)))) (RtoC (cell M t))
     else RtoC 0)))))).
  2: { intros i Hi. apply csum_ext. intros j Hj. rewrite H by assumption. unfold grid_inner. rewrite <- csum_scal_l. apply csum_ext. intros t _.
       rewrite <- csum_scal_l. reflexivity. }
  unfold grid_inner. symmetry.
  rewrite (csum_ext n _ (fun i => csum (M + 1) (fun t => csum n (fun j => csum (2 * M) (fun p =>
     Cmult (Cmult (v i) (Cconj (w j))) (if ins t p then
      Cmult (Cmult (harmonic_number d i (colatitude M t) (longitude M p)) (Cconj (harmonic_number d j (colatitude M t) (longitude M p)))) (RtoC (cell M t))
     else RtoC 0)))))) by (intros i _; rewrite csum_swap; reflexivity).
  rewrite csum_swap. apply csum_ext. intros t _.
  rewrite (csum_ext n _ (fun i => csum (2 * M) (fun p => csum n (fun j =>
     Cmult (Cmult (v i) (Cconj (w j))) (if ins t p then
      Cmult (Cmult (harmonic_number d i (colatitude M t) (longitude M p)) (Cconj (harmonic_number d j (colatitude M t) (longitude M p)))) (RtoC (cell M t))
     else RtoC 0))))) by (intros i _; rewrite csum_swap; reflexivity).
  rewrite csum_swap. apply csum_ext. intros p _.
  symmetry. destruct (ins t p).
  - unfold band_limited. rewrite csum_conj, <- !csum_scal_r. apply csum_ext. intros i _.
    rewrite <- csum_scal_l, <- csum_scal_r. apply csum_ext. intros j _. rewrite Cconj_mult. ring.
  - symmetry. apply csum_zero. intros i _. apply csum_zero. intros j _. ring.
Qed.

Lemma grid_inner_energy M ins f : grid_inner M ins f f = RtoC (grid_energy M ins f).
Proof.
  unfold grid_inner, grid_energy. rewrite <- csum_RtoC. apply csum_ext. intros t _. rewrite <- csum_RtoC. apply csum_ext. intros p _.
  destruct (ins t p); [|reflexivity]. rewrite RtoC_mult, Cmod2. reflexivity.
Qed.

Lemma grid_energy_bounds M ins f : 1 <= M -> (0 <= grid_energy M ins f <= grid_energy M everywhere f)%R.
Proof.
  intros HM. unfold grid_energy.
  assert (P : forall t p, t < M + 1 -> (0 <= Cmod (f (colatitude M t) (longitude M p)) ^ 2 * cell M t)%R).
  { intros t p Ht. apply Rmult_le_pos; [apply pow2_ge_0|apply cell_nonneg; assumption]. }
  split.
  - apply rsum_nonneg. intros t Ht. apply rsum_nonneg. intros p _. destruct (ins t p); [apply P; exact Ht|lra].
  - apply rsum_le. intros t Ht. apply rsum_le. intros p _. unfold everywhere. destruct (ins t p); [lra|apply P; exact Ht].
Qed.

(** ** The matrix *)
Lemma region_sum M mask (f g : nat -> C) (F G : R -> R -> C) : 1 <= M -> fits M mask ->
  (forall t p, t < M + 1 -> p < 2 * M -> f (t * (2 * M) + p) = F (colatitude M t) (longitude M p)) ->
  (forall t p, t < M + 1 -> p < 2 * M -> g (t * (2 * M) + p) = G (colatitude M t) (longitude M p)) ->
  csum (samples M) (fun s => Cmult (Cmult (RtoC (flat_mask mask s * flat_weight M s)) (f s)) (Cconj (g s)))
  = grid_inner M (inside mask) F G.
Proof.
  intros HM Fi Hf Hg. unfold samples, n_theta, n_phi. rewrite csum_rect. unfold grid_inner. apply csum_ext. intros t Ht. apply csum_ext. intros p Hp.
  rewrite flat_weight_at, (flat_mask_at M) by assumption. rewrite Hf, Hg by assumption. unfold mask_value. destruct (inside mask t p).
  - rewrite Rmult_1_l. ring.
  - rewrite Rmult_0_l. ring.
Qed.

Lemma harmonic_number_elm d el m : (Z.abs m <= Z.of_nat el)%Z -> harmonic_number d (elm2ind el m) = harmonic d (Z.of_nat el) m.
Proof.
  intros H. unfold harmonic_number. pose proof (ind2elm_elm2ind el m H) as E. unfold ind2elm in E. injection E as E1 E2.
  rewrite E1. rewrite E1 in E2. f_equal. lia.
Qed.

(** ** Area *)
Lemma masked_area_sum (a b : list R) n : length a = n -> length b = n ->
  masked_area a b = rsum n (fun k => (nth k a 0 * nth k b 0)%R).
Proof.
  revert a b. induction n as [|n IH]; intros a b Ha Hb.
  - destruct a; [|discriminate]. reflexivity.
  - destruct a as [|x a]; [discriminate|]. destruct b as [|y b]; [discriminate|]. rewrite rsum_S_l. cbn [nth].
    rewrite <- (IH a b) by (cbn in Ha, Hb; lia). reflexivity.
Qed.

Lemma arbitrary_area_grid L mask : 1 <= L -> fits (resolution_of L) mask ->
  arbitrary_area L mask = grid_area (resolution_of L) (inside mask).
Proof.
  intros HL F. set (M := resolution_of L) in *. assert (HM : 1 <= M) by (unfold M, resolution_of; lia).
  destruct (fits_rows M mask F) as [F1 F2]. unfold arbitrary_area. fold M.
  rewrite (masked_area_sum _ _ ((M + 1) * (2 * M))).
  - rewrite rsum_rect. unfold grid_area. apply rsum_ext. intros t Ht. apply rsum_ext. intros p Hp.
    change (nth (t * (2 * M) + p) (concat (calc_integration_weight M)) 0%R) with (flat_weight M (t * (2 * M) + p)).
    rewrite flat_weight_at by assumption.
    rewrite (nth_indep _ 0%R (mask_value false)) by (rewrite map_length, (concat_length mask (2 * M)) by exact F1; nia).
    rewrite map_nth. change (mask_value (nth (t * (2 * M) + p) (concat mask) false)) with (flat_mask mask (t * (2 * M) + p)).
    rewrite (flat_mask_at M) by assumption. unfold mask_value. destruct (inside mask t p); ring.
  - rewrite map_length, (concat_length mask (2 * M)) by exact F1. rewrite F2. reflexivity.
  - rewrite weight_spec by exact HM. rewrite (concat_length _ (2 * M)).
    + rewrite map_length, seq_length. reflexivity.
    + apply Forall_map. apply Forall_forall. intros k _. rewrite map_length, seq_length. reflexivity.
Qed.

Lemma grid_trace d L M ins : degree_sums d L ->
  csum (L * L) (fun i => grid_inner M ins (harmonic_number d i) (harmonic_number d i)) = RtoC (grid_area M ins * (INR L * INR L) / (4 * PI)).
Proof.
  intros W. unfold grid_inner. rewrite csum_swap.
  rewrite (csum_ext (M + 1) _ (fun t => RtoC (Rmult (rsum (2 * M) (fun p => if ins t p then cell M t else 0%R)) (INR L * INR L / (4 * PI))))).
  - rewrite csum_RtoC, rsum_scal_r. f_equal. unfold grid_area, Rdiv. ring.
  - intros t _. rewrite csum_swap. rewrite <- rsum_scal_r, <- csum_RtoC. apply csum_ext. intros p _. destruct (ins t p).
    + rewrite csum_scal_r, (addition d L L) by (assumption || lia). rewrite <- RtoC_mult. f_equal. ring.
    + rewrite csum_zero by reflexivity. f_equal. ring.
Qed.
