(** * Hard thresholding: property C22. *)
From Coq Require Import List ZArith Arith Bool Reals Lra Lia.
From Coquelicot Require Import Complex.
From Verif Require Import Base ListLemmas RSum CSum PyNum Numpy NoiseProofs Eigen EigenProofs Quadrature
  Convolution ConvolutionProofs Transform SpecTransform TransformProofs PropTransform Threshold.
Import ListNotations.
Local Open Scope nat_scope.

(** [g] is [f] with the values below the threshold [t k] set to zero. *)
Definition thresholded (t : nat -> R) (f g : list C) : Prop :=
  length g = length f /\
  forall k, k < length f ->
    ((t k <= Cmod (nthC f k))%R -> nthC g k = nthC f k) /\
    ((Cmod (nthC f k) < t k)%R -> nthC g k = RtoC 0).

(** The threshold at sample [k]: a scalar (one-element) deviation is used for
    every sample. *)
Definition level (sigma : list R) (n_sigma : Z) (k : nat) : R :=
  (IZR n_sigma * match sigma with [x] => x | _ => nth k sigma 0%R end)%R.

(** A deviation per sample, or a single one. *)
Definition fits (sigma : list R) (f : list C) : Prop := length sigma = length f \/ exists x, sigma = [x].

Lemma nth_zip2 {A B} (op : A -> B -> C) (a : list A) (b : list B) da db k :
  length a = length b -> k < length a ->
  nth k (map (fun p => op (fst p) (snd p)) (combine a b)) (RtoC 0) = op (nth k a da) (nth k b db).
Proof.
  intros H Hk. apply nth_error_nth. rewrite nth_error_map.
  rewrite (nth_error_nth' _ (da, db)) by (rewrite combine_length; lia).
  rewrite combine_nth by exact H. reflexivity.
Qed.

Lemma cut_cases z t : ((t <= Cmod z)%R -> (if Rltb (Cmod z) t then RtoC 0 else z) = z) /\
  ((Cmod z < t)%R -> (if Rltb (Cmod z) t then RtoC 0 else z) = RtoC 0).
Proof. unfold Rltb. destruct (Rlt_dec (Cmod z) t); split; intros; try lra; reflexivity. Qed.

Lemma scalar_case {A} (f : list A) (x : R) : length f <> 1 ->
  forall op : A -> R -> C, broadcast op f [x] = Ok (map (fun z => op z x) f).
Proof.
  intros H op. unfold broadcast. cbn [length]. destruct (Nat.eqb_spec (length f) 1); [contradiction|].
  destruct f as [|a [|b f]]; [reflexivity|cbn in H; lia|reflexivity].
Qed.

(** Values of magnitude at least [n_sigma * sigma] are kept, all others become
    zero. *)
Theorem C22_pointwise : forall f sigma n_sigma, fits sigma f ->
  exists g, perform_hard_thresholding f sigma n_sigma = Ok g /\ thresholded (level sigma n_sigma) f g.
Proof.
  intros f sigma n Hfit. unfold perform_hard_thresholding.
  set (op := fun (z : C) (t : R) => if Rltb (Cmod z) t then RtoC 0 else z).
  assert (Same : length sigma = length f -> exists g, broadcast op f (map (Rmult (IZR n)) sigma) = Ok g /\
            thresholded (fun k => (IZR n * nth k sigma 0)%R) f g).
  { intros Hl. unfold broadcast. rewrite map_length, Hl, Nat.eqb_refl. eexists. split; [reflexivity|].
    split; [rewrite map_length, combine_length, map_length; lia|]. intros k Hk.
    rewrite (nth_zip2 op f _ (RtoC 0) 0%R) by (rewrite ?map_length; lia).
    assert (E : nth k (map (Rmult (IZR n)) sigma) 0%R = (IZR n * nth k sigma 0)%R).
    { rewrite (nth_indep _ 0%R (IZR n * 0)%R) by (rewrite map_length; lia). apply map_nth. }
    rewrite E. apply cut_cases. }
  destruct Hfit as [Hl|[x ->]].
  - destruct (Same Hl) as (g & E & Hg & H). exists g. split; [exact E|]. split; [exact Hg|]. intros k Hk.
    replace (level sigma n k) with (IZR n * nth k sigma 0)%R; [apply H, Hk|].
    unfold level. destruct sigma as [|a [|b l]]; [reflexivity|cbn in Hl; destruct k; [reflexivity|lia]|reflexivity].
  - destruct (Nat.eq_dec (length f) 1) as [E1|E1].
    + destruct (Same ltac:(cbn; lia)) as (g & E & Hg & H). exists g. split; [exact E|]. split; [exact Hg|].
      intros k Hk. replace (level [x] n k) with (IZR n * nth k [x] 0)%R; [apply H, Hk|].
      destruct k; [reflexivity|lia].
    + cbn [map]. rewrite scalar_case by exact E1. eexists. split; [reflexivity|].
      split; [apply map_length|]. intros k Hk.
      assert (Ek : nthC (map (fun z => op z (IZR n * x)%R) f) k = op (nthC f k) (IZR n * x)%R).
      { rewrite (nth_indep _ (RtoC 0) (op (RtoC 0) (IZR n * x)%R)) by (rewrite map_length; exact Hk).
        apply (map_nth (fun z => op z (IZR n * x)%R)). }
      rewrite Ek. apply cut_cases.
Qed.
Print Assumptions C22_pointwise.

Lemma level_length f g sigma : length g = length f -> fits sigma f -> fits sigma g.
Proof. intros H [E|E]; [left; congruence|right; exact E]. Qed.

(** Deviations of another shape are rejected. *)
Theorem C22_mismatch : forall f sigma n_sigma, ~ fits sigma f -> length f <> 1 ->
  perform_hard_thresholding f sigma n_sigma = Err ValueError.
Proof.
  intros f sigma n H H1. unfold perform_hard_thresholding, broadcast. rewrite map_length.
  destruct (Nat.eqb_spec (length f) (length sigma)); [exfalso; apply H; left; congruence|].
  destruct f as [|a [|b f]]; [|cbn in H1; lia|].
  - destruct sigma as [|x [|y s]]; [cbn in *; lia|exfalso; apply H; right; exists x; reflexivity|reflexivity].
  - destruct sigma as [|x [|y s]]; [reflexivity|exfalso; apply H; right; exists x; reflexivity|reflexivity].
Qed.
Print Assumptions C22_mismatch.

(** No magnitude grows. *)
Theorem C22_shrinks : forall f sigma n_sigma g k, fits sigma f ->
  perform_hard_thresholding f sigma n_sigma = Ok g -> (Cmod (nthC g k) <= Cmod (nthC f k))%R.
Proof.
  intros f sigma n g k Hf E. destruct (C22_pointwise f sigma n Hf) as (g' & E' & Hl & H).
  rewrite E in E'. injection E' as <-. destruct (lt_dec k (length f)) as [Hk|Hk].
  - destruct (H k Hk) as [H1 H2]. destruct (Rle_dec (level sigma n k) (Cmod (nthC f k))) as [C1|C1].
    + rewrite H1 by exact C1. lra.
    + rewrite H2 by lra. rewrite Cmod_0. apply Cmod_ge_0.
  - rewrite !nth_overflow by lia. lra.
Qed.
Print Assumptions C22_shrinks.

(** Thresholding twice is thresholding once. *)
Theorem C22_idempotent : forall f sigma n_sigma g, fits sigma f ->
  perform_hard_thresholding f sigma n_sigma = Ok g ->
  perform_hard_thresholding g sigma n_sigma = Ok g.
Proof.
  intros f sigma n g Hf E. destruct (C22_pointwise f sigma n Hf) as (g' & E' & Hl & H).
  rewrite E in E'. injection E' as <-.
  destruct (C22_pointwise g sigma n (level_length f g sigma Hl Hf)) as (h & Eh & Hlh & Hh).
  rewrite Eh. f_equal. apply (nth_ext _ _ (RtoC 0) (RtoC 0)); [exact Hlh|]. intros k Hk. rewrite Hlh in Hk.
  destruct (H k ltac:(lia)) as [H1 H2]. destruct (Hh k Hk) as [H3 H4].
  destruct (Rle_dec (level sigma n k) (Cmod (nthC f k))) as [C1|C1].
  - rewrite H3; [reflexivity|]. rewrite H1 by exact C1. exact C1.
  - assert (Z : nthC g k = RtoC 0) by (apply H2; lra).
    destruct (Rle_dec (level sigma n k) (Cmod (nthC g k))) as [C2|C2]; [apply H3, C2|].
    rewrite H4 by lra. rewrite Z. reflexivity.
Qed.
Print Assumptions C22_idempotent.

(** ** The loops *)

Lemma in_place_app {S A} (body : S -> A -> res S) l l' s :
  in_place body (l ++ l') s
  = match in_place body l s with (s', Ok _) => in_place body l' s' | (s', Err e) => (s', Err e) end.
Proof.
  revert s. induction l as [|x l IH]; intros s; [reflexivity|]. cbn [app in_place].
  destruct (body s x); [apply IH|reflexivity].
Qed.

(** A body that replaces row [j + o] by a function of it. *)
Lemma in_place_rows {A} (body : list A -> nat -> res (list A)) o (h : nat -> A -> A) n s wav :
  (forall wav' j r, s <= j < s + n -> nth_error wav (j + o) = Some r -> nth_error wav' (j + o) = Some r ->
     length wav' = length wav -> body wav' j = Ok (set_nth (j + o) (h j r) wav')) ->
  s + n + o <= length wav ->
  exists wav', in_place body (seq s n) wav = (wav', Ok tt) /\ length wav' = length wav /\
    forall i, nth_error wav' i
      = if ((s + o <=? i) && (i <? s + n + o))%bool then option_map (h (i - o)) (nth_error wav i) else nth_error wav i.
Proof.
  revert s wav. induction n as [|n IH]; intros s wav Hb Hl.
  - exists wav. split; [reflexivity|]. split; [reflexivity|]. intros i.
    destruct (Nat.leb_spec (s + o) i), (Nat.ltb_spec i (s + 0 + o)); cbn [andb]; try reflexivity; lia.
  - cbn [seq in_place].
    destruct (nth_error wav (s + o)) as [r|] eqn:Er; [|apply nth_error_None in Er; lia].
    rewrite (Hb wav s r) by (first [lia|exact Er|reflexivity]).
    destruct (IH (S s) (set_nth (s + o) (h s r) wav)) as (wav' & E & Hlen & H).
    + intros wav' j r' Hj Hr Hr' Hlen. rewrite nth_error_set_nth_neq in Hr by lia.
      rewrite set_nth_length in Hlen. apply Hb; [lia|exact Hr|exact Hr'|exact Hlen].
    + rewrite set_nth_length. lia.
    + exists wav'. split; [exact E|]. rewrite set_nth_length in Hlen. split; [exact Hlen|]. intros i. rewrite H.
      destruct (Nat.eq_dec i (s + o)) as [->|Hne].
      * destruct (Nat.leb_spec (S s + o) (s + o)); [lia|]. cbn [andb]. rewrite nth_error_set_nth_eq by lia.
        destruct (Nat.leb_spec (s + o) (s + o)); [|lia]. destruct (Nat.ltb_spec (s + o) (s + S n + o)); [|lia].
        cbn [andb]. rewrite Er. cbn. do 2 f_equal. lia.
      * rewrite nth_error_set_nth_neq by lia.
        destruct (Nat.leb_spec (S s + o) i), (Nat.leb_spec (s + o) i), (Nat.ltb_spec i (S s + n + o)),
          (Nat.ltb_spec i (s + S n + o)); cbn [andb]; try reflexivity; lia.
Qed.

Definition the {A} (d : A) (x : res A) : A := match x with Ok a => a | Err _ => d end.

(** Row [j + 1] after thresholding with the deviation of its scale. *)
Definition harmonic_row (inverse forward : nat -> list C -> list C) L sigma_j n_sigma (j : nat) (r : list C) : list C :=
  forward L (the [] (perform_hard_thresholding (inverse L r) [nth j sigma_j 0%R] n_sigma)).

(** The external transform returns arrays of the right length. *)
Definition lengths (L : nat) (inverse forward : nat -> list C -> list C) : Prop :=
  (forall v, length v = L * L -> length (inverse L v) = samples L) /\
  (forall f, length f = samples L -> length (forward L f) = L * L).

Lemma harmonic_body inverse forward L sigma_j n_sigma wav j r : lengths L inverse forward ->
  nth_error wav (j + 1) = Some r -> length r = L * L -> j < length sigma_j ->
  harmonic_threshold_row inverse forward L sigma_j n_sigma wav j
  = Ok (set_nth (j + 1) (harmonic_row inverse forward L sigma_j n_sigma j r) wav).
Proof.
  intros [Hi Hfw] Er Hr Hj. unfold harmonic_threshold_row, harmonic_row. rewrite (np_get_ok _ _ _ Er). cbn [rbind].
  rewrite (np_get_ok _ _ _ (nth_error_nth' sigma_j 0%R Hj)). cbn [rbind].
  destruct (C22_pointwise (inverse L r) [nth j sigma_j 0%R] n_sigma) as (g & Eg & Hg & _); [right; eexists; reflexivity|].
  rewrite Eg. cbn [rbind the]. unfold np_fill. rewrite Hr, Hfw by (rewrite Hg; apply Hi, Hr). rewrite Nat.eqb_refl. cbn [rbind].
  rewrite np_set_ok; [reflexivity|]. apply nth_error_Some. congruence.
Qed.

(** The harmonic version: the array of the caller is changed in place; the
    scaling row is untouched, every other row is the transform of the
    thresholded field of that row. *)
Theorem C22_harmonic : forall inverse forward L wav sigma_j n_sigma,
  lengths L inverse forward -> (forall r, In r wav -> length r = L * L) ->
  length wav <= length sigma_j + 1 ->
  exists wav', harmonic_hard_thresholding inverse forward L wav sigma_j n_sigma = (wav', Ok tt) /\
    length wav' = length wav /\ nth_error wav' 0 = nth_error wav 0 /\
    forall j r, nth_error wav (S j) = Some r -> exists g,
      thresholded (level [nth j sigma_j 0%R] n_sigma) (inverse L r) g /\
      nth_error wav' (S j) = Some (forward L g).
Proof.
  intros inverse forward L wav sigma n HL Hw Hs. unfold harmonic_hard_thresholding.
  destruct wav as [|w0 ws].
  { exists []. cbn. split; [reflexivity|]. split; [reflexivity|]. split; [reflexivity|].
    intros j r E. destruct j; discriminate. }
  destruct (in_place_rows (harmonic_threshold_row inverse forward L sigma n) 1
              (harmonic_row inverse forward L sigma n) (length (w0 :: ws) - 1) 0 (w0 :: ws)) as (wav' & E & Hl & H).
  - intros wav' j r Hj Er Er' Hlen. apply harmonic_body; [exact HL|exact Er'| |cbn in *; lia].
    apply Hw. apply (nth_error_In _ _ Er).
  - cbn. lia.
  - exists wav'. split; [exact E|]. split; [exact Hl|]. split; [rewrite H; reflexivity|].
    intros j r Er. destruct (C22_pointwise (inverse L r) [nth j sigma 0%R] n) as (g & Eg & Hg); [right; eexists; reflexivity|].
    exists g. split; [exact Hg|]. rewrite H.
    assert (Hj : S j < length (w0 :: ws)) by (apply nth_error_Some; congruence).
    destruct (Nat.leb_spec (0 + 1) (S j)); [|lia]. destruct (Nat.ltb_spec (S j) (0 + (length (w0 :: ws) - 1) + 1)); [|lia].
    cbn [andb]. rewrite Er. cbn [option_map]. f_equal. unfold harmonic_row.
    replace (S j - 1) with j by lia. rewrite Eg. reflexivity.
Qed.
Print Assumptions C22_harmonic.

(** Too few deviations: the call fails with [IndexError], after the first
    scales of the caller's array have already been overwritten. *)
Theorem C22_harmonic_short : forall inverse forward L wav sigma_j n_sigma,
  lengths L inverse forward -> (forall r, In r wav -> length r = L * L) ->
  length sigma_j + 1 < length wav ->
  exists wav', harmonic_hard_thresholding inverse forward L wav sigma_j n_sigma = (wav', Err IndexError) /\
    length wav' = length wav /\
    forall i r, nth_error wav i = Some r -> nth_error wav' i
      = Some (if ((1 <=? i) && (i <=? length sigma_j))%bool then harmonic_row inverse forward L sigma_j n_sigma (i - 1) r else r).
Proof.
  intros inverse forward L wav sigma n HL Hw Hs. unfold harmonic_hard_thresholding.
  replace (length wav - 1) with (length sigma + S (length wav - 2 - length sigma)) by lia.
  rewrite seq_app, in_place_app.
  destruct (in_place_rows (harmonic_threshold_row inverse forward L sigma n) 1
              (harmonic_row inverse forward L sigma n) (length sigma) 0 wav) as (wav' & E & Hl & H).
  - intros wav' j r Hj Er Er' Hlen. apply harmonic_body; [exact HL|exact Er'| |lia].
    apply Hw. apply (nth_error_In _ _ Er).
  - lia.
  - rewrite E. cbn [seq in_place Nat.add]. exists wav'. split; [|split; [exact Hl|]].
    + unfold harmonic_threshold_row, np_get.
      destruct (nth_error wav' (length sigma + 1)) as [r|] eqn:Er; [|apply nth_error_None in Er; lia].
      cbn [rbind]. rewrite (proj2 (nth_error_None sigma (length sigma)) (Nat.le_refl _)). reflexivity.
    + intros i r Er. rewrite H, Er. cbn [option_map Nat.add].
      destruct (Nat.leb_spec 1 i), (Nat.ltb_spec i (length sigma + 1)), (Nat.leb_spec i (length sigma)); cbn [andb]; try reflexivity; lia.
Qed.
Print Assumptions C22_harmonic_short.

Lemma zero_threshold f sigma n g : fits sigma f -> (forall k, (level sigma n k <= 0)%R) ->
  thresholded (level sigma n) f g -> g = f.
Proof.
  intros _ H [Hl Hk]. apply (nth_ext _ _ (RtoC 0) (RtoC 0)); [exact Hl|]. intros k Hi. rewrite Hl in Hi.
  apply Hk; [exact Hi|]. specialize (H k). pose proof (Cmod_ge_0 (nthC f k)). lra.
Qed.

(** A threshold of zero changes nothing in the harmonic version ... *)
Theorem C22_harmonic_zero : forall inverse forward L wav sigma_j,
  lengths L inverse forward -> sampling_theorem L inverse forward -> (forall r, In r wav -> length r = L * L) ->
  length wav <= length sigma_j + 1 ->
  harmonic_hard_thresholding inverse forward L wav sigma_j 0 = (wav, Ok tt).
Proof.
  intros inverse forward L wav sigma HL HS Hw Hs.
  destruct (C22_harmonic inverse forward L wav sigma 0 HL Hw Hs) as (wav' & E & Hl & H0 & H). rewrite E. f_equal.
  apply nth_error_ext. intros [|i]; [exact H0|].
  destruct (nth_error wav (S i)) as [r|] eqn:Er.
  - destruct (H i r Er) as (g & Hg & E'). rewrite E'. f_equal.
    rewrite (zero_threshold (inverse L r) [nth i sigma 0%R] 0 g); [|right; eexists; reflexivity| |exact Hg].
    + apply HS. apply Hw, (nth_error_In _ _ Er).
    + intros k. unfold level. rewrite Rmult_0_l. lra.
  - apply nth_error_None in Er. apply nth_error_None. lia.
Qed.
Print Assumptions C22_harmonic_zero.

(** ** The Slepian versions *)

Definition slepian_row inverse L sigma_j n_sigma s (j : nat) (r : list C) : list C :=
  the [] (let* f := slepian_inverse inverse r L s in
          let* g := perform_hard_thresholding f (nth j sigma_j []) n_sigma in
          slepian_forward inverse L s (of_f g) None).

(** Every row is replaced by the Slepian coefficients (on the whole sphere) of
    its thresholded field. *)
Theorem C22_slepian : forall inverse L wav sigma_j n_sigma s Y,
  synthesis L Y inverse -> slepian_basis L s -> length (s_evals s) = length (s_evecs s) ->
  (forall r, In r wav -> length r = Nn s) -> length wav <= length sigma_j ->
  (forall sg, In sg sigma_j -> length sg = samples L) ->
  exists wav', slepian_wavelet_hard_thresholding inverse L wav sigma_j n_sigma s = (wav', Ok tt) /\
    length wav' = length wav /\
    forall j r, nth_error wav j = Some r -> exists f g x,
      slepian_inverse inverse r L s = Ok f /\
      thresholded (level (nth j sigma_j []) n_sigma) f g /\
      slepian_forward inverse L s (of_f g) None = Ok x /\ nth_error wav' j = Some x.
Proof.
  intros inverse L wav sigma n s Y HY HB He Hw Hs Hsg. unfold slepian_wavelet_hard_thresholding.
  destruct HB as (HN & HB'). assert (HB : slepian_basis L s) by (split; assumption).
  assert (Row : forall j r, length r = Nn s -> j < length sigma -> exists f g x,
     slepian_inverse inverse r L s = Ok f /\
     perform_hard_thresholding f (nth j sigma []) n = Ok g /\
     thresholded (level (nth j sigma []) n) f g /\
     slepian_forward inverse L s (of_f g) None = Ok x /\ length x = Nn s).
  { intros j r Hr Hj. set (f := inverse L (expand L s r)).
    assert (Ef : slepian_inverse inverse r L s = Ok f) by (apply (slepian_inverse_ok inverse L Y); [exact HY|exact HB|lia]).
    assert (Hf : length f = samples L).
    { unfold f. rewrite (HY _ (expand_length L s r)), map_length, seq_length. reflexivity. }
    assert (Fits : fits (nth j sigma []) f) by (left; rewrite Hf; apply Hsg, nth_In, Hj).
    destruct (C22_pointwise f (nth j sigma []) n Fits) as (g & Eg & Hg).
    assert (Hgl : length g = samples L) by (rewrite <- Hf; apply Hg).
    exists f, g, (map (entry inverse L s (of_f g)) (seq 0 (Nn s))).
    split; [exact Ef|]. split; [exact Eg|]. split; [exact Hg|].
    split; [|rewrite map_length, seq_length; reflexivity].
    apply (forward_ok inverse L s (of_f g) None HB He).
    - split; [intros ? H; discriminate H|]. split; [intros ? H; injection H as <-; exact Hgl|intros ? H; discriminate H].
    - right. discriminate.
    - apply HB'. }
  destruct (in_place_rows (slepian_threshold_row inverse L sigma n s) 0 (slepian_row inverse L sigma n s)
              (length wav) 0 wav) as (wav' & E & Hl & H).
  - intros wav' j r Hj Er Er' Hlen. rewrite Nat.add_0_r in *. unfold slepian_threshold_row, slepian_row.
    assert (Hr : length r = Nn s) by (apply Hw, (nth_error_In _ _ Er)).
    destruct (Row j r Hr ltac:(lia)) as (f & g & x & E1 & E2 & _ & E3 & Hx).
    rewrite (np_get_ok _ _ _ Er'). cbn [rbind]. rewrite E1. cbn [rbind].
    rewrite (np_get_ok _ _ _ (nth_error_nth' sigma [] (n := j) ltac:(lia))). cbn [rbind].
    rewrite E2. cbn [rbind]. rewrite E3. cbn [rbind the]. unfold np_fill. rewrite Hr, Hx, Nat.eqb_refl. cbn [rbind].
    rewrite np_set_ok; [reflexivity|lia].
  - lia.
  - exists wav'. split; [exact E|]. split; [exact Hl|]. intros j r Er.
    assert (Hj : j < length wav) by (apply nth_error_Some; congruence).
    destruct (Row j r (Hw r (nth_error_In _ _ Er)) ltac:(lia)) as (f & g & x & E1 & E2 & Hg & E3 & Hx).
    exists f, g, x. repeat (split; [assumption|]). rewrite H.
    destruct (Nat.leb_spec (0 + 0) j); [|lia]. destruct (Nat.ltb_spec j (0 + length wav + 0)); [|lia].
    cbn [andb]. rewrite Er. cbn [option_map]. f_equal. rewrite Nat.sub_0_r. unfold slepian_row.
    rewrite E1. cbn [rbind]. rewrite E2. cbn [rbind]. rewrite E3. reflexivity.
Qed.
Print Assumptions C22_slepian.

(** The same for one vector of Slepian coefficients. *)
Theorem C22_slepian_function : forall inverse L coefficients sigma n_sigma s Y,
  synthesis L Y inverse -> slepian_basis L s -> length (s_evals s) = length (s_evecs s) ->
  Nn s <= length coefficients -> length sigma = samples L ->
  exists f g x,
    slepian_inverse inverse coefficients L s = Ok f /\ thresholded (level sigma n_sigma) f g /\
    slepian_function_hard_thresholding inverse L coefficients sigma n_sigma s = Ok x /\ length x = Nn s /\
    forall p, p < Nn s ->
      nthC x p = csum (samples L) (fun k => Cmult (Cmult (nthC g k) (Cconj (nthC (inverse L (evec s p)) k)))
                                                  (RtoC (flat_weight L k))).
Proof.
  intros inverse L v sigma n s Y HY HB He Hv Hs. set (f := inverse L (expand L s v)).
  assert (Ef : slepian_inverse inverse v L s = Ok f) by (apply (slepian_inverse_ok inverse L Y); assumption).
  assert (Hf : length f = samples L).
  { unfold f. rewrite (HY _ (expand_length L s v)), map_length, seq_length. reflexivity. }
  destruct (C22_pointwise f sigma n) as (g & Eg & Hg); [left; congruence|].
  assert (Hgl : length g = samples L) by (rewrite <- Hf; apply Hg).
  exists f, g, (map (entry inverse L s (of_f g)) (seq 0 (Nn s))). split; [exact Ef|]. split; [exact Hg|].
  unfold slepian_function_hard_thresholding. rewrite Ef. cbn [rbind]. rewrite Eg. cbn [rbind].
  split; [|split; [rewrite map_length, seq_length; reflexivity|]].
  - apply (forward_ok inverse L s (of_f g) None HB He).
    + split; [intros ? H; discriminate H|]. split; [intros ? H; injection H as <-; exact Hgl|intros ? H; discriminate H].
    + right. discriminate.
    + apply HB.
  - intros p Hp. rewrite nth_map_seq by exact Hp. reflexivity.
Qed.
Print Assumptions C22_slepian_function.

(** ... but not in the Slepian version: with a zero threshold the coefficient of
    the constant function still shrinks, because the weights do not integrate
    the sphere exactly (C51). *)
Theorem C22_slepian_zero_refuted : exists inverse L Y s wav sigma_j x,
  synthesis L Y inverse /\ slepian_basis L s /\ length (s_evals s) = length (s_evecs s) /\
  (forall r, In r wav -> length r = Nn s) /\ length wav <= length sigma_j /\
  (forall sg, In sg sigma_j -> length sg = samples L) /\
  wav = [[RtoC 1]] /\
  slepian_wavelet_hard_thresholding inverse L wav sigma_j 0 s = ([[RtoC x]], Ok tt) /\ (x < 1)%R.
Proof.
  assert (HY : synthesis 2 mono_Y mono_inverse) by (intros v _; reflexivity).
  destruct (C25_sphere_is_harmonic_sum_refuted mono_inverse 2 mono_Y point_slepian (RtoC 1 :: repeat (RtoC 0) 3) 0)
    as (x & E & Hx & _); try reflexivity; try assumption; [lia|exact point_basis|cbn; lia|].
  assert (Hsp : Forall (fun sg => length sg = samples 2) [repeat 0%R (samples 2)]).
  { repeat constructor. }
  assert (Hw : forall r, In r [[RtoC 1]] -> length r = Nn point_slepian) by (intros r [<-|[]]; reflexivity).
  assert (Hsg : forall sg, In sg [repeat 0%R (samples 2)] -> length sg = samples 2) by (intros sg [<-|[]]; reflexivity).
  exists mono_inverse, 2, mono_Y, point_slepian, [[RtoC 1]], [repeat 0%R (samples 2)], x.
  repeat (split; [first [assumption|exact point_basis|reflexivity|cbn; lia]|]). split; [|exact Hx].
  destruct (C22_slepian mono_inverse 2 [[RtoC 1]] [repeat 0%R (samples 2)] 0 point_slepian mono_Y HY point_basis
              eq_refl Hw (le_n 1) Hsg) as (wav' & Ew & Hl & H).
  rewrite Ew. f_equal. destruct wav' as [|w [|w' t]]; [discriminate| |discriminate].
  destruct (H 0 [RtoC 1] eq_refl) as (f & g & y & E1 & Hg & E3 & E4). cbn in E4. injection E4 as ->. f_equal.
  rewrite (slepian_inverse_ok mono_inverse 2 mono_Y point_slepian [RtoC 1] HY point_basis (le_n 1)) in E1.
  injection E1 as <-.
  assert (Ex : expand 2 point_slepian [RtoC 1] = RtoC 1 :: repeat (RtoC 0) 3).
  { unfold expand. change (Nn point_slepian) with 1. cbn [Nat.mul Nat.add seq map csum repeat].
    assert (Q : forall a b c d a' b' c' d' : C, a = a' -> b = b' -> c = c' -> d = d' -> [a; b; c; d] = [a'; b'; c'; d'])
      by (intros; congruence).
    apply Q; apply C_ext; cbn; ring. }
  rewrite Ex in Hg.
  assert (g = mono_inverse 2 (RtoC 1 :: repeat (RtoC 0) 3)) as ->.
  { apply (zero_threshold _ (repeat 0%R (samples 2)) 0 g); [| |exact Hg].
    - left. rewrite repeat_length. reflexivity.
    - intros k. unfold level. rewrite Rmult_0_l. lra. }
  unfold slepian_forward in E3. cbn [detect_method of_f sg_f sg_flm sg_mask rbind] in E3.
  unfold decompose_all in E3. change (s_N point_slepian) with 1%Z in E3. cbn [Z.ltb] in E3.
  change (Z.to_nat 1) with 1 in E3. cbn [Z.compare seq rmap] in E3.
  change (Z.of_nat 0) with 0%Z in *. rewrite E in E3. cbn [rbind] in E3. injection E3 as <-. reflexivity.
Qed.
Print Assumptions C22_slepian_zero_refuted.

(** ** Cases *)

Example C22_case_pointwise :
  perform_hard_thresholding [RtoC 1; (0, 3)%R; RtoC 2; RtoC (-5)] [1%R] 2 = Ok [RtoC 0; (0, 3)%R; RtoC 2; RtoC (-5)].
Proof.
  destruct (C22_pointwise [RtoC 1; (0, 3)%R; RtoC 2; RtoC (-5)] [1%R] 2) as (g & E & Hl & H); [right; eexists; reflexivity|].
  rewrite E. f_equal. cbn [length] in *. destruct g as [|a [|b [|c [|d [|]]]]]; try discriminate.
  pose proof (H 0 ltac:(lia)) as [_ H0]. pose proof (H 1 ltac:(lia)) as [H1 _].
  pose proof (H 2 ltac:(lia)) as [H2 _]. pose proof (H 3 ltac:(lia)) as [H3 _].
  unfold level in *. cbn [nth] in *. rewrite Cmod_R in H0, H2, H3.
  assert (M : Cmod (0, 3)%R = 3%R).
  { unfold Cmod. cbn [fst snd]. replace (0 ^ 2 + 3 ^ 2)%R with (3 * 3)%R by ring. apply sqrt_square. lra. }
  rewrite M in H1. rewrite Rabs_R1 in H0. rewrite (Rabs_right 2) in H2 by lra. rewrite (Rabs_left (-5)) in H3 by lra.
  rewrite H0, H1, H2, H3 by lra. reflexivity.
Qed.

(** A transform that is its own inverse at [L = 1]: one coefficient, and the
    [samples 1] values on the grid. *)
Definition flat_inverse (L : nat) (v : list C) : list C := repeat (nthC v 0) (samples L).
Definition flat_forward (L : nat) (f : list C) : list C := repeat (nthC f 0) (L * L).
Example C22_case_harmonic : lengths 1 flat_inverse flat_forward /\ sampling_theorem 1 flat_inverse flat_forward /\
  harmonic_hard_thresholding flat_inverse flat_forward 1 [[RtoC 1]; [RtoC 1]; [RtoC 4]] [1%R; 1%R] 3
  = ([[RtoC 1]; [RtoC 0]; [RtoC 4]], Ok tt) /\
  harmonic_hard_thresholding flat_inverse flat_forward 1 [[RtoC 1]; [RtoC 1]; [RtoC 4]] [1%R] 3
  = ([[RtoC 1]; [RtoC 0]; [RtoC 4]], Err IndexError).
Proof.
  assert (HL : lengths 1 flat_inverse flat_forward).
  { split; intros v _; unfold flat_inverse, flat_forward; apply repeat_length. }
  split; [exact HL|]. split.
  { intros [|a [|b v]] Hv; try discriminate. reflexivity. }
  assert (B1 : (if Rltb (Cmod (RtoC 1)) (3 * 1) then RtoC 0 else RtoC 1) = RtoC 0).
  { rewrite Cmod_R, Rabs_R1. unfold Rltb. destruct (Rlt_dec 1 (3 * 1)); [reflexivity|lra]. }
  assert (B4 : (if Rltb (Cmod (RtoC 4)) (3 * 1) then RtoC 0 else RtoC 4) = RtoC 4).
  { rewrite Cmod_R, Rabs_right by lra. unfold Rltb. destruct (Rlt_dec 4 (3 * 1)); [lra|reflexivity]. }
  split.
  - transitivity ([[RtoC 1]; [if Rltb (Cmod (RtoC 1)) (3 * 1) then RtoC 0 else RtoC 1];
                   [if Rltb (Cmod (RtoC 4)) (3 * 1) then RtoC 0 else RtoC 4]], Ok tt); [reflexivity|].
    rewrite B1, B4. reflexivity.
  - transitivity ([[RtoC 1]; [if Rltb (Cmod (RtoC 1)) (3 * 1) then RtoC 0 else RtoC 1]; [RtoC 4]], @Err unit IndexError);
      [reflexivity|]. rewrite B1. reflexivity.
Qed.
