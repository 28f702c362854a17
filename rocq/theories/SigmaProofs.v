(** * Lemmas: second moments of linear forms in the noise. *)
From Coq Require Import List ZArith Arith Bool Reals Lra Lia.
From Coquelicot Require Import Complex.
From Verif Require Import Base ListLemmas RSum CSum PyNum Index Numpy SpecField Noise NoiseProofs OrthoProofs ConvolutionProofs.
Import ListNotations.
Local Open Scope nat_scope.

(** Unit variance, no correlation. *)
Definition decorrelated (E : ensemble) (n : nat) : Prop :=
  forall i j, i < n -> j < n -> mean E (fun X => X i * X j)%R = if i =? j then 1%R else 0%R.

Lemma mean_ext E q q' : (forall X, q X = q' X) -> mean E q = mean E q'.
Proof. intros H. unfold mean. apply rlsum_map_ext. intros e _. rewrite H. reflexivity. Qed.

Lemma mean_plus E q q' : mean E (fun X => q X + q' X)%R = (mean E q + mean E q')%R.
Proof. unfold mean. rewrite <- rlsum_map_plus. apply rlsum_map_ext. intros. ring. Qed.

Lemma mean_square E n r : decorrelated E n ->
  mean E (fun X => (rsum n (fun k => r k * X k) ^ 2)%R) = rsum n (fun k => r k ^ 2)%R.
Proof.
  intros H. transitivity (mean E (fun X => rsum n (fun i => rsum n (fun j => (r i * r j) * (X i * X j))%R))).
  - apply mean_ext. intros X. cbn [pow]. rewrite Rmult_1_r, rsum_mult. apply rsum_ext. intros i _.
    apply rsum_ext. intros j _. ring.
  - rewrite mean_rsum. apply rsum_ext. intros i Hi. rewrite mean_rsum.
    rewrite (rsum_single n i).
    + rewrite mean_scal, H by assumption. rewrite Nat.eqb_refl. ring.
    + exact Hi.
    + intros j Hj Hne. rewrite mean_scal, H by assumption. destruct (Nat.eqb_spec i j); [congruence|]. ring.
Qed.

Lemma mean_linear E n (c : nat -> C) : decorrelated E n ->
  mean E (fun X => (Cmod (csum n (fun k => Cmult (c k) (RtoC (X k)))) ^ 2)%R) = nrm2 n c.
Proof.
  intros H. transitivity (mean E (fun X => (rsum n (fun k => Re (c k) * X k) ^ 2 + rsum n (fun k => Im (c k) * X k) ^ 2)%R)).
  - apply mean_ext. intros X. rewrite Cmod_sq, csum_re, csum_im. f_equal; f_equal; apply rsum_ext; intros k _; destruct (c k); cbn; ring.
  - rewrite mean_plus, !mean_square by exact H. unfold nrm2. rewrite <- rsum_plus. reflexivity.
Qed.

Lemma csum_centre el g :
  csum (2 * el + 1) g = Cplus (g el) (csum el (fun j => Cplus (g (el + S j)) (g (el - S j)))).
Proof.
  replace (2 * el + 1) with (el + S el) by lia. rewrite csum_app, (csum_S_l el), csum_plus.
  rewrite (csum_rev el g). rewrite Nat.add_0_r.
  rewrite (csum_ext el (fun i => g (el - 1 - i)) (fun j => g (el - S j))) by (intros; f_equal; lia).
  ring.
Qed.

Lemma csum_pairs n h : csum (2 * n + 1) h = Cplus (h 0) (csum n (fun j => Cplus (h (2 * j + 1)) (h (2 * j + 2)))).
Proof.
  induction n as [|n IH]; [cbn [csum Nat.mul Nat.add]; ring|].
  replace (2 * S n + 1) with (S (S (2 * n + 1))) by lia.
  cbn [csum]. rewrite IH. replace (S (2 * n + 1)) with (2 * n + 2) by lia. ring.
Qed.

(** One degree. *)
Definition block (sigma : R) (b : Z -> C) (k : nat) : C :=
  let m := (k + 1) / 2 in
  let s := RtoC ((-1) ^ m) in
  if k =? 0 then Cmult (RtoC sigma) (b 0%Z)
  else if Nat.odd k then Cmult (RtoC (sigma / sqrt 2)) (Cplus (b (Z.of_nat m)) (Cmult s (b (- Z.of_nat m)%Z)))
  else Cmult (Cmult Ci (RtoC (sigma / sqrt 2))) (Cminus (b (Z.of_nat m)) (Cmult s (b (- Z.of_nat m)%Z))).

Lemma block_odd sigma b j : block sigma b (2 * j + 1)
  = Cmult (RtoC (sigma / sqrt 2)) (Cplus (b (Z.of_nat (S j))) (Cmult (RtoC ((-1) ^ S j)) (b (- Z.of_nat (S j))%Z))).
Proof.
  unfold block. destruct (Nat.eqb_spec (2 * j + 1) 0); [lia|].
  replace (Nat.odd (2 * j + 1)) with true by (symmetry; apply Nat.odd_spec; exists j; reflexivity).
  replace ((2 * j + 1 + 1) / 2) with (S j); [reflexivity|].
  replace (2 * j + 1 + 1) with (S j * 2) by lia. rewrite Nat.div_mul by lia. reflexivity.
Qed.

Lemma block_even sigma b j : block sigma b (2 * j + 2)
  = Cmult (Cmult Ci (RtoC (sigma / sqrt 2))) (Cminus (b (Z.of_nat (S j))) (Cmult (RtoC ((-1) ^ S j)) (b (- Z.of_nat (S j))%Z))).
Proof.
  unfold block. destruct (Nat.eqb_spec (2 * j + 2) 0); [lia|].
  replace (Nat.odd (2 * j + 2)) with false by (symmetry; rewrite <- Nat.negb_even; apply negb_false_iff, Nat.even_spec; exists (j + 1); lia).
  replace ((2 * j + 2 + 1) / 2) with (S j); [reflexivity|].
  apply (Nat.div_unique _ 2 _ 1); lia.
Qed.

Lemma block_sum sigma b X base el :
  csum (2 * el + 1) (fun k => Cmult (b (Z.of_nat k - Z.of_nat el)%Z) (field_entry sigma X base (Z.of_nat k - Z.of_nat el)))
  = csum (2 * el + 1) (fun k => Cmult (block sigma b k) (RtoC (X (base + k)))).
Proof.
  rewrite csum_centre, csum_pairs. f_equal.
  - replace (Z.of_nat el - Z.of_nat el)%Z with 0%Z by lia. unfold field_entry, block. cbn [Z.eqb Nat.eqb].
    rewrite Nat.add_0_r. destruct (b 0%Z). apply C_ext; cbn; ring.
  - apply csum_ext. intros j Hj. rewrite block_odd, block_even.
    replace (Z.of_nat (el + S j) - Z.of_nat el)%Z with (Z.of_nat (S j)) by lia.
    replace (Z.of_nat (el - S j) - Z.of_nat el)%Z with (- Z.of_nat (S j))%Z by lia.
    unfold field_entry.
    destruct (Z.eqb_spec (Z.of_nat (S j)) 0); [lia|]. destruct (Z.eqb_spec (- Z.of_nat (S j)) 0); [lia|].
    destruct (Z.ltb_spec 0 (Z.of_nat (S j))); [|lia]. destruct (Z.ltb_spec 0 (- Z.of_nat (S j))); [lia|].
    replace (Z.abs_nat (Z.of_nat (S j))) with (S j) by lia. replace (Z.abs_nat (- Z.of_nat (S j))) with (S j) by lia.
    replace (base + 2 * S j - 1) with (base + (2 * j + 1)) by lia. replace (base + 2 * S j) with (base + (2 * j + 2)) by lia.
    unfold mirror. generalize (X (base + (2 * j + 1))) (X (base + (2 * j + 2))) ((-1) ^ S j)%R (sigma / sqrt 2)%R.
    destruct (b (Z.of_nat (S j))), (b (- Z.of_nat (S j))%Z). intros x y s t. apply C_ext; cbn; ring.
Qed.

Lemma block_norm sigma b el :
  nrm2 (2 * el + 1) (block sigma b)
  = (sigma ^ 2 * nrm2 (2 * el + 1) (fun k => b (Z.of_nat k - Z.of_nat el)%Z))%R.
Proof.
  unfold nrm2. rewrite rsum_pairs, rsum_centre, Rmult_plus_distr_l, <- rsum_scal_l. f_equal.
  - replace (Z.of_nat el - Z.of_nat el)%Z with 0%Z by lia. unfold block. cbn [Nat.eqb]. apply norm2_scal.
  - apply rsum_ext. intros j Hj. rewrite block_odd, block_even.
    replace (Z.of_nat (el + S j) - Z.of_nat el)%Z with (Z.of_nat (S j)) by lia.
    replace (Z.of_nat (el - S j) - Z.of_nat el)%Z with (- Z.of_nat (S j))%Z by lia.
    pose proof (neg1_pow_sq (S j)) as Hs. pose proof (sq_div_sqrt2 sigma) as Ht. revert Hs Ht.
    generalize ((-1) ^ S j)%R (sigma / sqrt 2)%R. destruct (b (Z.of_nat (S j))) as [x y], (b (- Z.of_nat (S j))%Z) as [u v].
    intros s t Hs Ht. cbn [Re Im Cmult Cplus Cminus Copp Ci RtoC fst snd] in *.
    transitivity (2 * t ^ 2 * (x ^ 2 + y ^ 2 + (s * s) * (u ^ 2 + v ^ 2)))%R; [ring|].
    rewrite Hs, Ht. field.
Qed.

(** The noise is a linear function of the stream, and its adjoint scales norms
    by the deviation. *)
Lemma noise_linear sigma (b : nat -> Z -> C) L : exists c : nat -> C,
  nrm2 (L * L) c = (sigma ^ 2 * rsum L (fun el => nrm2 (2 * el + 1) (fun k => b el (Z.of_nat k - Z.of_nat el)%Z)))%R /\
  forall X, csum L (fun el => csum (2 * el + 1) (fun k =>
      Cmult (b el (Z.of_nat k - Z.of_nat el)%Z) (field_entry sigma X (el * el) (Z.of_nat k - Z.of_nat el))))
    = csum (L * L) (fun k => Cmult (c k) (RtoC (X k))).
Proof.
  induction L as [|L (c & Hc & H)].
  - exists (fun _ => RtoC 0). split; [cbn; ring|]. reflexivity.
  - exists (fun k => if k <? L * L then c k else block sigma (b L) (k - L * L)).
    replace (S L * S L) with (L * L + (2 * L + 1)) by lia. split.
    + unfold nrm2 in *. rewrite rsum_app. cbn [rsum]. rewrite Rmult_plus_distr_l, <- Hc. f_equal.
      * apply rsum_ext. intros i Hi. destruct (Nat.ltb_spec i (L * L)); [reflexivity|lia].
      * pose proof (block_norm sigma (b L) L) as B. unfold nrm2 in B. rewrite <- B. apply rsum_ext. intros i Hi.
        destruct (Nat.ltb_spec (L * L + i) (L * L)); [lia|]. replace (L * L + i - L * L) with i by lia. reflexivity.
    + intros X. rewrite csum_app. cbn [csum]. rewrite H, block_sum. f_equal.
      * apply csum_ext. intros i Hi. destruct (Nat.ltb_spec i (L * L)); [reflexivity|lia].
      * apply csum_ext. intros i Hi. destruct (Nat.ltb_spec (L * L + i) (L * L)); [lia|].
        replace (L * L + i - L * L) with i by lia. reflexivity.
Qed.

(** Sums over degrees and orders. *)
Lemma csum_degrees L f :
  csum (L * L) f = csum L (fun el => csum (2 * el + 1) (fun k => f (el * el + k))).
Proof.
  induction L as [|L IH]; [reflexivity|].
  replace (S L * S L) with (L * L + (2 * L + 1)) by lia. rewrite csum_app, IH. reflexivity.
Qed.

Lemma noise_second_moment E L signal snr_in (nlm : (nat -> R) -> list C) (b : nat -> Z -> C) :
  (forall X, create_noise (fun _ => X) L signal snr_in = Ok (nlm X)) ->
  decorrelated E (L * L) ->
  mean E (fun X => (Cmod (csum L (fun el => csum (2 * el + 1) (fun k =>
     let m := (Z.of_nat k - Z.of_nat el)%Z in Cmult (b el m) (coeff (nlm X) el m)))) ^ 2)%R)
  = (compute_sigma_noise signal snr_in None ^ 2
     * rsum L (fun el => nrm2 (2 * el + 1) (fun k => b el (Z.of_nat k - Z.of_nat el)%Z)))%R.
Proof.
  intros HX HE. set (sigma := compute_sigma_noise signal snr_in None).
  destruct (noise_linear sigma b L) as (c & Hc & H). rewrite <- Hc, <- (mean_linear E (L * L) c HE).
  apply mean_ext. intros X. rewrite <- H. do 2 f_equal. apply csum_ext. intros el Hel. apply csum_ext. intros k Hk. cbv zeta.
  f_equal. destruct (create_noise_spec (fun _ => X) L signal snr_in) as (n' & E' & _ & Hn). rewrite HX in E'.
  injection E' as <-. apply Hn. split; lia.
Qed.

(** An ensemble with these moments. *)
Definition spikes (n : nat) : ensemble :=
  map (fun i => (1 / INR n, fun k => if k =? i then sqrt (INR n) else 0)%R) (seq 0 n).

Lemma spikes_decorrelated n : 1 <= n -> decorrelated (spikes n) n.
Proof.
  intros Hn i j Hi Hj. assert (P : (0 < INR n)%R) by (apply lt_0_INR; lia).
  unfold mean, spikes. rewrite map_map, rlsum_map_seq. rewrite (rsum_single n i); [|exact Hi|].
  - cbn [fst snd]. rewrite Nat.eqb_refl. rewrite (Nat.eqb_sym j i). destruct (i =? j).
    + rewrite sqrt_sqrt by lra. field. lra.
    + ring.
  - intros k _ Hk. cbn [fst snd]. destruct (Nat.eqb_spec i k); [congruence|]. ring.
Qed.
