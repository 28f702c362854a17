(** * C87: the wavelets made from the generators of s2let. *)
From Coq Require Import List ZArith Arith Bool Reals Lra Lia.
From Coquelicot Require Import Complex.
From Verif Require Import Base ListLemmas RSum CSum PyNum Index IndexProofs Numpy NoiseProofs Eigen SpecField EigenProofs
  Convolution ConvolutionProofs Transform SpecTransform TransformProofs Functions FunctionsProofs Wavelet WaveletProofs
  SpecTiling TilingProofs PropWavelet.
Import ListNotations.
Local Open Scope nat_scope.

Section Rows.
  Variables (k : R -> R) (B xlim j_min J : nat).
  Hypothesis T : tiling B k.
  Hypothesis CV : covers B xlim j_min J.
  Let n := J + 1 - j_min.
  Let k0 := fst (fst (generators k B xlim j_min J)).
  Let ks := snd (generators k B xlim j_min J).

  Lemma gen_first p : p < xlim -> nth p k0 0%R = sqrt (k (INR p / INR B ^ j_min)).
  Proof. intros H. unfold k0. cbn [generators fst]. exact (nth_map_seq (fun p => sqrt (k (INR p / INR B ^ j_min))) xlim p _ H). Qed.

  Lemma gen_row p : p < xlim -> nth p ks [] = map (fun j => sqrt (difference B k p (j_min + j))) (seq 0 n).
  Proof.
    intros H. unfold ks. cbn [generators snd].
    exact (nth_map_seq (fun p => map (fun j => sqrt (k (INR p / INR B ^ (j_min + j + 1)) - k (INR p / INR B ^ (j_min + j)))) (seq 0 n)) xlim p _ H).
  Qed.
  Lemma gen_entry p j : p < xlim -> j < n -> nth j (nth p ks []) 0%R = sqrt (difference B k p (j_min + j)).
  Proof. intros Hp Hj. rewrite gen_row by exact Hp. exact (nth_map_seq (fun j => sqrt (difference B k p (j_min + j))) n j _ Hj). Qed.

  Lemma gen_lengths : length k0 = xlim /\ length ks = xlim /\ forall row, In row ks -> length row = n.
  Proof.
    unfold k0, ks. cbn [generators fst snd]. rewrite !map_length, !seq_length. split; [reflexivity|]. split; [reflexivity|].
    intros row H. apply in_map_iff in H. destruct H as (p & <- & _). rewrite map_length, seq_length. reflexivity.
  Qed.

  Lemma gen_squares p : p < xlim -> (nth p k0 0 ^ 2 + rlsum (map (fun x => x ^ 2) (nth p ks [])))%R = 1%R.
  Proof.
    intros Hp. rewrite gen_first, gen_row by exact Hp. rewrite map_map, pow2_sqrt by apply (k_range B k T), (ratio_pos B k T).
    rewrite (map_ext _ (fun j => difference B k p (j_min + j))) by (intros j; apply pow2_sqrt, (difference_range B k T)).
    rewrite rlsum_map_seq, (telescope B k). exact (covered B k T p xlim j_min J CV Hp).
  Qed.

  Lemma gen_band p j : p < xlim -> j < n -> (nth j (nth p ks []) 0 <> 0)%R <-> B ^ (j_min + j) < B * p /\ p < B ^ (j_min + j + 1).
  Proof.
    intros Hp Hj. rewrite gen_entry by assumption. rewrite <- (difference_band B k T). pose proof (difference_range B k T p (j_min + j)) as [D0 _]. split.
    - intros H. destruct D0 as [D0|D0]; [exact D0|]. exfalso. apply H. rewrite <- D0. apply sqrt_0.
    - intros H E. pose proof (sqrt_lt_R0 _ H). lra.
  Qed.
End Rows.

(** The generators: squares add up to one at every degree; scale [j] is confined to the
    degrees between the powers [j_min + j - 1] and [j_min + j + 1] of [B], and is nowhere
    zero there. *)
Theorem C87_generators : forall awl k B xlim j_min J, tiling B k -> covers B xlim j_min J ->
  awl (Z.of_nat B) xlim (Z.of_nat j_min) = generators k B xlim j_min J ->
  let kappas := create_kappas awl xlim (Z.of_nat B) (Z.of_nat j_min) in
  length kappas = J - j_min + 2 /\ (forall row, In row kappas -> length row = xlim) /\
  (forall p, p < xlim -> rlsum (map (fun row => (nth p row 0 ^ 2)%R) kappas) = 1%R) /\
  (forall p j, p < xlim -> j <= J - j_min ->
     (nth p (nth (j + 1) kappas []) 0 <> 0)%R <-> B ^ (j_min + j) < B * p /\ p < B ^ (j_min + j + 1)).
Proof.
  intros awl k B xlim jm J T CV E kappas. set (n := J + 1 - jm). destruct CV as [CV1 CV2].
  destruct (gen_lengths k B xlim jm J) as (L0 & L1 & L2).
  set (k0 := fst (fst (generators k B xlim jm J))) in *. set (ks := snd (generators k B xlim jm J)) in *.
  assert (EK : kappas = k0 :: map (fun j => map (fun row => nth j row 0%R) ks) (seq 0 n)) by (unfold kappas, create_kappas; rewrite E; reflexivity).
  assert (EN : forall p j, p < xlim -> j < n -> nth p (nth (j + 1) kappas []) 0%R = nth j (nth p ks []) 0%R).
  { intros p j Hp Hj. rewrite EK, Nat.add_1_r. cbn [nth]. rewrite (nth_map_seq (fun j => map (fun row => nth j row 0%R) ks)) by exact Hj.
    rewrite (nth_indep _ 0%R (nth j [] 0%R)) by (rewrite map_length, L1; exact Hp). exact (map_nth (fun row => nth j row 0%R) ks [] p). }
  split; [rewrite EK; cbn [length]; rewrite map_length, seq_length; unfold n; lia|]. split; [|split].
  - intros row. rewrite EK. intros [<-|H]; [exact L0|]. apply in_map_iff in H. destruct H as (j & <- & _). rewrite map_length. exact L1.
  - intros p Hp. rewrite <- (gen_squares k B xlim jm J T (conj CV1 CV2) p Hp). rewrite EK. cbn [map rlsum fold_right]. fold k0 ks. 
    change (fold_right Rplus 0%R) with rlsum. f_equal. rewrite map_map, rlsum_map_seq.
    pose proof (gen_row k B xlim jm J p Hp) as GR. fold ks n in GR. rewrite GR, map_map, rlsum_map_seq. apply rsum_ext. intros j Hj. f_equal.
    specialize (EN p j Hp Hj). rewrite EK, Nat.add_1_r in EN. cbn [nth] in EN. rewrite (nth_map_seq (fun j => map (fun row => nth j row 0%R) ks)) in EN by exact Hj.
    rewrite EN. exact (gen_entry k B xlim jm J p j Hp Hj).
  - intros p j Hp Hj. rewrite EN by (exact Hp || unfold n; lia). exact (gen_band k B xlim jm J T p j Hp ltac:(lia)).
Qed.
Print Assumptions C87_generators.

(** With them every signal survives the axisymmetric wavelet transform and its inverse. *)
Theorem C87_axisymmetric : forall awl k B L j_min J flm, tiling B k -> covers B L j_min J ->
  awl (Z.of_nat B) L (Z.of_nat j_min) = generators k B L j_min J -> length flm = L * L ->
  exists wavelets W, create_axisymmetric_wavelets awl L (Z.of_nat B) (Z.of_nat j_min) = Ok wavelets /\ tight L wavelets /\
    axisymmetric_wavelet_forward L flm wavelets = Ok W /\ axisymmetric_wavelet_inverse L W wavelets = Ok flm.
Proof.
  intros awl k B L jm J flm T CV E Hf. destruct (C87_generators awl k B L jm J T CV E) as (_ & Hl & Hs & _).
  destruct (C27_wavelets awl L (Z.of_nat B) (Z.of_nat jm) Hl) as (ws & Ew & Hm & _ & _ & Ht).
  pose proof (proj2 Ht Hs) as TI. destruct (C27_round_trip L flm ws Hf Hm TI) as (W & EF & EI).
  exists ws, W. repeat split; assumption.
Qed.
Print Assumptions C87_axisymmetric.

(** One axisymmetric wavelet per scale after the scaling function: its coefficients are
    non-zero exactly at order zero and the degrees of its band. *)
Theorem C87_axisymmetric_band : forall awl k B L j_min J, tiling B k -> covers B L j_min J ->
  awl (Z.of_nat B) L (Z.of_nat j_min) = generators k B L j_min J ->
  exists wavelets, create_axisymmetric_wavelets awl L (Z.of_nat B) (Z.of_nat j_min) = Ok wavelets /\
    length wavelets = J - j_min + 2 /\
    forall j el m, j <= J - j_min -> valid L el m ->
      (coeff (nth (j + 1) wavelets []) el m <> RtoC 0 <-> m = 0%Z /\ B ^ (j_min + j) < B * el /\ el < B ^ (j_min + j + 1)).
Proof.
  intros awl k B L jm J T CV E. destruct (C87_generators awl k B L jm J T CV E) as (Hn & Hl & _ & Hb).
  destruct (C27_wavelets awl L (Z.of_nat B) (Z.of_nat jm) Hl) as (ws & Ew & _ & Hc & _).
  assert (LW : length ws = J - jm + 2).
  { pose proof (create_axisymmetric_ok awl L (Z.of_nat B) (Z.of_nat jm) Hl) as X. rewrite Ew in X. injection X as ->. rewrite map_length. exact Hn. }
  exists ws. split; [exact Ew|]. split; [exact LW|]. intros j el m Hj V. rewrite Hc by (exact V || lia).
  assert (Hel : el < L) by apply V. rewrite <- (Hb el j Hel Hj). destruct (Z.eqb_spec m 0) as [->|N].
  - assert (P : (0 < sqrt ((2 * INR el + 1) / (4 * PI)))%R).
    { apply sqrt_lt_R0. pose proof PI_RGT_0. pose proof (pos_INR el). apply Rdiv_lt_0_compat; lra. }
    split.
    + intros H. split; [reflexivity|]. intros Z. apply H. rewrite Z, Rmult_0_r. reflexivity.
    + intros [_ H] X. apply RtoC_inj in X. apply Rmult_integral in X. destruct X as [X|X]; [lra|exact (H X)].
  - split; [intros H; destruct (H eq_refl)|intros [X _]; contradiction].
Qed.
Print Assumptions C87_axisymmetric_band.

Lemma rows_entry (kappas : list (list R)) i p : at_ (map (map RtoC) kappas) i p = RtoC (nth p (nth i kappas []) 0%R).
Proof. change (@nil C) with (map RtoC []). rewrite map_nth. exact (map_nth RtoC _ 0%R p). Qed.

(** The scales that reach the first [N] ranks come first. *)
Lemma scales_prefix awl k B xlim j_min J N : tiling B k -> covers B xlim j_min J -> 1 <= N <= xlim ->
  awl (Z.of_nat B) xlim (Z.of_nat j_min) = generators k B xlim j_min J ->
  let rows := map (map RtoC) (create_kappas awl xlim (Z.of_nat B) (Z.of_nat j_min)) in
  matrix xlim rows /\ length rows = J - j_min + 2 /\ admissible N rows /\
  exists c, c <= J + 1 - j_min /\
    (forall j, j < length rows -> ((exists p, p < N /\ at_ rows j p <> RtoC 0) <-> j < c + 1)) /\
    (forall j, j < J + 1 - j_min -> (B ^ (j_min + j) < B * (N - 1) <-> j < c)).
Proof.
  intros T CV HN E rows. pose proof CV as [CV1 CV2]. set (n := J + 1 - j_min).
  destruct (C87_generators awl k B xlim j_min J T CV E) as (Hl & Hr & Hs & Hb).
  set (kappas := create_kappas awl xlim (Z.of_nat B) (Z.of_nat j_min)) in *.
  assert (Hl' : length rows = J - j_min + 2) by (unfold rows; rewrite map_length; exact Hl).
  split; [intros r X; apply in_map_iff in X; destruct X as (row & <- & X); rewrite map_length; exact (Hr row X)|].
  split; [exact Hl'|]. split.
  { intros p Hp. rewrite (csum_ext _ _ (fun j => RtoC (nth p (nth j kappas []) 0 ^ 2)%R)).
    - rewrite csum_RtoC. f_equal. rewrite <- (Hs p ltac:(lia)), rlsum_nth. unfold rows. rewrite !map_length. apply rsum_ext. intros j Hj.
      rewrite (nth_indep (map (fun row => (nth p row 0 ^ 2)%R) kappas) 0%R ((fun row => (nth p row 0 ^ 2)%R) [])) by (rewrite map_length; exact Hj). symmetry. exact (map_nth (fun row => (nth p row 0 ^ 2)%R) kappas [] j).
    - intros j _. unfold rows. rewrite rows_entry. apply injective_projections; cbn; ring. }
  destruct (prefix_count (fun j => B ^ (j_min + j) <? B * (N - 1)) n) as (c & Hc & Hcount).
  { intros i j Hij. rewrite !Nat.ltb_lt. intros H. eapply Nat.le_lt_trans; [|exact H]. apply Nat.pow_le_mono_r; [destruct T; lia|lia]. }
  assert (Hcount' : forall j, j < n -> (B ^ (j_min + j) < B * (N - 1) <-> j < c)) by (intros j Hj; rewrite <- (Hcount j Hj), Nat.ltb_lt; reflexivity).
  exists c. split; [exact Hc|]. split; [|exact Hcount']. rewrite Hl'. intros j Hj. destruct j as [|j].
  - split; [lia|]. intros _. exists 0. split; [lia|]. unfold rows. rewrite rows_entry.
    assert (K0 : nth 0 kappas [] = fst (fst (generators k B xlim j_min J))) by (unfold kappas, create_kappas; rewrite E; reflexivity).
    rewrite K0, gen_first by lia. cbn [INR]. unfold Rdiv. rewrite Rmult_0_l.
    destruct T as (_ & K1 & _). rewrite K1 by lra. rewrite sqrt_1. intros X. apply RtoC_inj in X. lra.
  - assert (Hj' : j < n) by (unfold n; lia). transitivity (j < c); [|lia]. rewrite <- (Hcount' j Hj'), <- (reaches B k T N (j_min + j)).
    replace (S j) with (j + 1) by lia. unfold rows. split; intros (p & Hp & H); exists p; (split; [exact Hp|]).
    + apply (Hb p j); [lia|lia|]. intros Z. apply H. rewrite rows_entry, Z. reflexivity.
    + apply (Hb p j) in H; [|lia|lia]. rewrite rows_entry. intros Z. apply RtoC_inj in Z. exact (H Z).
Qed.

(** The transform of a signal without zeros: its scales, and its inverse. *)
Lemma scales_transform awl k B xlim j_min J N f : tiling B k -> covers B xlim j_min J -> 1 <= N <= xlim ->
  awl (Z.of_nat B) xlim (Z.of_nat j_min) = generators k B xlim j_min J ->
  N <= length f -> (forall p, p < N -> nthC f p <> RtoC 0) ->
  let kappas := create_kappas awl xlim (Z.of_nat B) (Z.of_nat j_min) in
  let wavelets := A2 xlim (map (map RtoC) kappas) in
  exists W, slepian_wavelet_forward f wavelets (Z.of_nat N) = Ok (A2 N W) /\
    slepian_wavelet_inverse (A2 N W) wavelets (Z.of_nat N) = Ok (firstn N f) /\
    forall j, j <= J - j_min ->
    (B ^ (j_min + j) < B * (N - 1) -> exists w, select_scale W (Some (Z.of_nat j)) = Ok w /\
       forall p, p < N -> nthC w p = Cmult (RtoC (nth p (nth (j + 1) kappas []) 0%R)) (Cconj (nthC f p))) /\
    (B * (N - 1) <= B ^ (j_min + j) -> select_scale W (Some (Z.of_nat j)) = Err IndexError).
Proof.
  intros T CV HN E Hf HZ kappas wavelets.
  destruct (scales_prefix awl k B xlim j_min J N T CV HN E) as (Hm & Hl & Ha & c & Hc & H & Hcount). pose proof CV as [CV1 CV2].
  set (rows := map (map RtoC) (create_kappas awl xlim (Z.of_nat B) (Z.of_nat j_min))) in *.
  destruct (C26_full_signal N xlim rows f (c + 1) Hm ltac:(lia) Hf Ha HZ ltac:(lia) H) as (W0 & EF0 & EI).
  destruct (C26_forward N xlim rows f Hm ltac:(lia) Hf) as (W & sc & EF & _). rewrite EF0 in EF. injection EF as ->.
  exists W. split; [exact EF0|]. split; [exact EI|]. intros j Hj.
  assert (DL : dead_last N rows f (c + 1)).
  { split; [lia|]. intros i Hi. rewrite <- (H i Hi). split; intros (p & Hp & X); exists p; split; try exact Hp; [exact (proj1 X)|split; [exact X|exact (HZ p Hp)]]. }
  split.
  - intros HB. apply Hcount in HB; [|lia].
    destruct (C54_coefficients N xlim rows f W (j + 1) Hm ltac:(lia) Hf EF0 ltac:(lia)) as (w & Ew & Hw).
    + intros i Hi. apply (proj2 DL); lia.
    + exists w. replace (j + 1 =? 0) with false in Ew by (symmetry; apply Nat.eqb_neq; lia). replace (Z.of_nat (j + 1) - 1)%Z with (Z.of_nat j) in Ew by lia. split; [exact Ew|].
      intros p Hp. rewrite (Hw p Hp). unfold rows. rewrite rows_entry. reflexivity.
  - intros HB. destruct (C54_index_error_refuted N xlim rows f (c + 1) (j + 1) Hm ltac:(lia) Hf DL) as (W' & EF' & Q).
    + destruct (Nat.lt_ge_cases j c) as [X|X]; [|lia]. apply Hcount in X; lia.
    + lia.
    + rewrite EF0 in EF'. injection EF' as <-. replace (Z.of_nat (j + 1) - 1)%Z with (Z.of_nat j) in Q by lia. exact Q.
Qed.

(** A signal without zero coefficients below the Shannon number survives the Slepian
    wavelet transform, although the scales beyond that number are dropped. *)
Theorem C87_slepian : forall awl k B L j_min J N f, tiling B k -> covers B (L * L) j_min J -> 1 <= N <= L * L ->
  awl (Z.of_nat B) (L * L) (Z.of_nat j_min) = generators k B (L * L) j_min J ->
  N <= length f -> (forall p, p < N -> nthC f p <> RtoC 0) ->
  let wavelets := create_slepian_wavelets awl L (Z.of_nat B) (Z.of_nat j_min) in
  exists W, slepian_wavelet_forward f wavelets (Z.of_nat N) = Ok W /\ slepian_wavelet_inverse W wavelets (Z.of_nat N) = Ok (firstn N f).
Proof.
  intros awl k B L jm J N f T CV HN E Hf HZ wavelets.
  destruct (scales_transform awl k B (L * L) jm J N f T CV HN E Hf HZ) as (W & EF & EI & _). exists (A2 N W). split; assumption.
Qed.
Print Assumptions C87_slepian.

(** Which of its scales can be selected: exactly those whose band begins below the
    Shannon number.  The check of the argument accepts all [j <= J - j_min], so the others
    end with an IndexError. *)
Theorem C87_scales : forall awl k B L j_min J N f j, tiling B k -> covers B (L * L) j_min J -> 1 <= N <= L * L ->
  awl (Z.of_nat B) (L * L) (Z.of_nat j_min) = generators k B (L * L) j_min J ->
  N <= length f -> (forall p, p < N -> nthC f p <> RtoC 0) -> j <= J - j_min ->
  exists W, slepian_wavelet_forward f (create_slepian_wavelets awl L (Z.of_nat B) (Z.of_nat j_min)) (Z.of_nat N) = Ok (A2 N W) /\
    (B ^ (j_min + j) < B * (N - 1) -> exists w, select_scale W (Some (Z.of_nat j)) = Ok w /\
       forall p, p < N -> nthC w p = Cmult (RtoC (nth p (nth (j + 1) (create_kappas awl (L * L) (Z.of_nat B) (Z.of_nat j_min)) []) 0%R)) (Cconj (nthC f p))) /\
    (B * (N - 1) <= B ^ (j_min + j) -> select_scale W (Some (Z.of_nat j)) = Err IndexError).
Proof.
  intros awl k B L jm J N f j T CV HN E Hf HZ Hj.
  destruct (scales_transform awl k B (L * L) jm J N f T CV HN E Hf HZ) as (W & EF & _ & H). exists W. split; [exact EF|exact (H j Hj)].
Qed.
Print Assumptions C87_scales.

(** ** A kernel and generators meeting the hypotheses. *)

(** One up to [1/2], then falling in a straight line to zero at one. *)
Definition ramp (t : R) : R := if Rle_dec t (1 / 2) then 1%R else if Rle_dec t 1 then (2 - 2 * t)%R else 0%R.

Example ramp_tiling : tiling 2 ramp.
Proof.
  unfold tiling, ramp. cbn [INR]. split; [lia|]. split; [|split].
  - intros t H0 H1. destruct (Rle_dec t (1 / 2)); lra.
  - intros t H. destruct (Rle_dec t (1 / 2)); [lra|]. destruct (Rle_dec t 1); lra.
  - intros s t H0 H1 H2. repeat destruct Rle_dec; lra.
Qed.

(** Band limit 4, lowest scale 0: sixteen ranks, five scales and the scaling function.
    With a Shannon number of 7 the scales 0 to 3 can be selected and scale 4 cannot. *)
Example ramp_covers : covers 2 (4 * 4) 0 4 /\ covers 2 4 0 2. Proof. unfold covers. cbn. lia. Qed.

Definition ramp_awl (B : Z) (xlim : nat) (j_min : Z) : list R * nat * list (list R) :=
  generators ramp (Z.to_nat B) xlim (Z.to_nat j_min) (if xlim =? 16 then 4 else 2).

Definition ones : list C := repeat (RtoC 1) 16.
Lemma ones_nonzero : forall p, p < 7 -> nthC ones p <> RtoC 0.
Proof. intros p H. do 7 (destruct p as [|p]; [cbn; intros X; apply RtoC_inj in X; lra|]). lia. Qed.

Example C87_generators_case :
  let kappas := create_kappas ramp_awl 4 2%Z 0%Z in
  length kappas = 4 /\ rlsum (map (fun row => (nth 3 row 0 ^ 2)%R) kappas) = 1%R /\
  nth 3 (nth 1 kappas []) 0%R = 0%R /\ (nth 3 (nth 2 kappas []) 0 <> 0)%R /\ (nth 3 (nth 3 kappas []) 0 <> 0)%R.
Proof.
  intros kappas. destruct (C87_generators ramp_awl ramp 2 4 0 2 ramp_tiling (proj2 ramp_covers) eq_refl) as (H1 & _ & H2 & H3).
  split; [exact H1|]. split; [exact (H2 3 ltac:(lia))|]. split; [|split].
  - destruct (Req_dec (nth 3 (nth 1 kappas []) 0%R) 0%R) as [X|X]; [exact X|]. apply (H3 3 0 ltac:(lia) ltac:(lia)) in X. cbn in X. lia.
  - apply (H3 3 1 ltac:(lia) ltac:(lia)). cbn. lia.
  - apply (H3 3 2 ltac:(lia) ltac:(lia)). cbn. lia.
Qed.

Example C87_axisymmetric_case : exists wavelets W, create_axisymmetric_wavelets ramp_awl 4 2%Z 0%Z = Ok wavelets /\ tight 4 wavelets /\
  axisymmetric_wavelet_forward 4 ones wavelets = Ok W /\ axisymmetric_wavelet_inverse 4 W wavelets = Ok ones.
Proof. exact (C87_axisymmetric ramp_awl ramp 2 4 0 2 ones ramp_tiling (proj2 ramp_covers) eq_refl eq_refl). Qed.

Example C87_axisymmetric_band_case : exists wavelets, create_axisymmetric_wavelets ramp_awl 4 2%Z 0%Z = Ok wavelets /\ length wavelets = 4 /\
  coeff (nth 2 wavelets []) 3 0%Z <> RtoC 0 /\ coeff (nth 1 wavelets []) 3 0%Z = RtoC 0 /\ coeff (nth 2 wavelets []) 3 1%Z = RtoC 0.
Proof.
  destruct (C87_axisymmetric_band ramp_awl ramp 2 4 0 2 ramp_tiling (proj2 ramp_covers) eq_refl) as (ws & E & Hl & H).
  exists ws. split; [exact E|]. split; [exact Hl|].
  assert (V : forall m, (-3 <= m <= 3)%Z -> valid 4 3 m) by (intros m Hm; split; lia).
  split; [|split].
  - apply (H 1 3 0%Z ltac:(lia) (V 0%Z ltac:(lia))). cbn. lia.
  - destruct (Ceq_dec (coeff (nth 1 ws []) 3 0%Z) (RtoC 0)) as [X|X]; [exact X|].
    apply (H 0 3 0%Z ltac:(lia) (V 0%Z ltac:(lia))) in X. cbn in X. lia.
  - destruct (Ceq_dec (coeff (nth 2 ws []) 3 1%Z) (RtoC 0)) as [X|X]; [exact X|].
    apply (H 1 3 1%Z ltac:(lia) (V 1%Z ltac:(lia))) in X. destruct X as [X _]. discriminate X.
Qed.

Example C87_slepian_case : exists W, slepian_wavelet_forward ones (create_slepian_wavelets ramp_awl 4 2%Z 0%Z) 7%Z = Ok W /\
  slepian_wavelet_inverse W (create_slepian_wavelets ramp_awl 4 2%Z 0%Z) 7%Z = Ok (repeat (RtoC 1) 7).
Proof.
  exact (C87_slepian ramp_awl ramp 2 4 0 4 7 ones ramp_tiling (proj1 ramp_covers) ltac:(lia) eq_refl ltac:(cbn; lia) ones_nonzero).
Qed.

Example C87_scales_case : exists W, slepian_wavelet_forward ones (create_slepian_wavelets ramp_awl 4 2%Z 0%Z) 7%Z = Ok (A2 7 W) /\
  (exists w, select_scale W (Some 3%Z) = Ok w) /\ select_scale W (Some 4%Z) = Err IndexError.
Proof.
  pose proof (C87_scales ramp_awl ramp 2 4 0 4 7 ones) as H.
  destruct (H 3 ramp_tiling (proj1 ramp_covers) ltac:(lia) eq_refl ltac:(cbn; lia) ones_nonzero ltac:(lia)) as (W & E & H1 & _).
  destruct (H 4 ramp_tiling (proj1 ramp_covers) ltac:(lia) eq_refl ltac:(cbn; lia) ones_nonzero ltac:(lia)) as (W' & E' & _ & H2).
  rewrite E in E'. injection E' as <-. exists W. split; [exact E|]. split.
  - destruct H1 as (w & Hw & _); [cbn; lia|]. exists w. exact Hw.
  - apply H2. cbn. lia.
Qed.
