(** * Wavelet transforms: properties C26, C27 and C54, and the ridgelets of C53. *)
From Coq Require Import List ZArith Arith Bool Reals Lra Lia Sorted.
From Coquelicot Require Import Complex.
From Verif Require Import Base ListLemmas RSum CSum PyNum Index IndexProofs Numpy NoiseProofs Eigen SpecField EigenProofs
  Convolution ConvolutionProofs Transform SpecTransform TransformProofs Functions FunctionsProofs
  Wavelet WaveletProofs.
Import ListNotations.
Local Open Scope nat_scope.

(** Entry [p] of row [j]. *)
Notation at_ rows j p := (nth p (nth j rows []) (RtoC 0)).

(** The squared generators sum to one at each rank below [N]. *)
Definition admissible (N : nat) (rows : list (list C)) : Prop :=
  forall p, p < N -> csum (length rows) (fun j => Cmult (at_ rows j p) (Cconj (at_ rows j p))) = RtoC 1.

(** Scale [j] sees the signal. *)
Definition alive (N : nat) (rows : list (list C)) (f : list C) (j : nat) : Prop :=
  exists p, p < N /\ at_ rows j p <> RtoC 0 /\ nthC f p <> RtoC 0.

(** Only the last scales do not. *)
Definition dead_last (N : nat) (rows : list (list C)) (f : list C) (k : nat) : Prop :=
  k <= length rows /\ forall j, j < length rows -> (alive N rows f j <-> j < k).

Definition matrix (cols : nat) (rows : list (list C)) : Prop := forall r, In r rows -> length r = cols.

(** ** C26 *)

Lemma forward_rows N cols rows f : matrix cols rows -> N <= cols -> N <= length f ->
  slepian_wavelet_forward f (A2 cols rows) (Z.of_nat N)
  = Ok (A2 N (filter (existsb Cnonzero) (map (fun row => cmul (firstn N row) (firstn N f)) rows))).
Proof.
  intros Hr Hc Hf. unfold slepian_wavelet_forward. rewrite sifting_row by assumption. reflexivity.
Qed.

Lemma Cmult_zero a b : Cmult a b = RtoC 0 -> a = RtoC 0 \/ b = RtoC 0.
Proof.
  intros E. apply (f_equal Cmod) in E. rewrite Cmod_mult, Cmod_0 in E. apply Rmult_integral in E.
  destruct E; [left|right]; apply Cmod_eq_0; assumption.
Qed.

Lemma row_alive N cols rows f j : matrix cols rows -> N <= cols -> N <= length f -> j < length rows ->
  existsb Cnonzero (cmul (firstn N (nth j rows [])) (firstn N f)) = true <-> alive N rows f j.
Proof.
  intros Hr Hc Hf Hj. assert (Hl : length (nth j rows []) = cols) by (apply Hr, nth_In, Hj).
  assert (Hlen : length (cmul (firstn N (nth j rows [])) (firstn N f)) = N).
  { rewrite cmul_length, !firstn_length. lia. }
  split.
  - intros E. destruct (Classical_Prop.classic (alive N rows f j)) as [|Hn]; [assumption|exfalso].
    assert (X : existsb Cnonzero (cmul (firstn N (nth j rows [])) (firstn N f)) = false); [|congruence].
    apply dead_row. rewrite Hlen. intros p Hp. rewrite nth_cmul by (try lia; exact Hf).
    destruct (Classical_Prop.classic (at_ rows j p = RtoC 0)) as [->|H1]; [ring|].
    destruct (Classical_Prop.classic (nthC f p = RtoC 0)) as [->|H2]; [rewrite Cconj_R; ring|].
    exfalso. apply Hn. exists p. split; [exact Hp|]. split; assumption.
  - intros (p & Hp & H1 & H2). destruct (existsb _ _) eqn:E; [reflexivity|exfalso].
    rewrite dead_row, Hlen in E. specialize (E p Hp). rewrite nth_cmul in E by (try lia; exact Hf).
    apply Cmult_zero in E. destruct E as [E|E]; [contradiction|]. apply H2.
    rewrite <- (Cconj_conj (nthC f p)), E, Cconj_R. reflexivity.
Qed.

Lemma filter_map_seq {A} (h : nat -> A) (q : A -> bool) l :
  filter q (map h l) = map h (filter (fun j => q (h j)) l).
Proof. induction l as [|x l IH]; [reflexivity|]. cbn [map filter]. rewrite IH. destruct (q (h x)); reflexivity. Qed.

Lemma filter_sorted q s n : StronglySorted lt (filter q (seq s n)).
Proof.
  revert s. induction n as [|n IH]; intros s; [constructor|]. cbn [seq filter]. destruct (q s); [|apply IH].
  constructor; [apply IH|]. apply Forall_forall. intros x Hx. apply filter_In in Hx. destruct Hx as [Hx _].
  apply in_seq in Hx. lia.
Qed.

(** The forward transform consists of the products with the conjugated signal,
    of the scales that see the signal, in order. *)
Theorem C26_forward : forall N cols rows f, matrix cols rows -> N <= cols -> N <= length f ->
  exists W scales, slepian_wavelet_forward f (A2 cols rows) (Z.of_nat N) = Ok (A2 N W) /\
    StronglySorted lt scales /\
    (forall j, In j scales <-> j < length rows /\ alive N rows f j) /\
    length W = length scales /\
    forall i, i < length scales -> length (nth i W []) = N /\
      forall p, p < N -> at_ W i p = Cmult (at_ rows (nth i scales 0) p) (Cconj (nthC f p)).
Proof.
  intros N cols rows f Hr Hc Hf.
  set (h := fun j => cmul (firstn N (nth j rows [])) (firstn N f)).
  set (sc := filter (fun j => existsb Cnonzero (h j)) (seq 0 (length rows))).
  exists (map h sc), sc.
  assert (E : map (fun row => cmul (firstn N row) (firstn N f)) rows = map h (seq 0 (length rows))).
  { unfold h. rewrite <- (map_map (fun j => nth j rows []) (fun r => cmul (firstn N r) (firstn N f))).
    f_equal. symmetry. apply map_nth_seq. }
  assert (Hsc : forall j, In j sc <-> j < length rows /\ alive N rows f j).
  { intros j. unfold sc. rewrite filter_In, in_seq. split.
    - intros [H1 H2]. split; [lia|]. apply (row_alive N cols); try assumption. lia.
    - intros [H1 H2]. split; [lia|]. apply (row_alive N cols); assumption. }
  split; [|split; [apply filter_sorted|split; [exact Hsc|split; [apply map_length|]]]].
  - rewrite forward_rows by assumption. rewrite E, filter_map_seq. reflexivity.
  - intros i Hi. assert (Hj : nth i sc 0 < length rows) by (apply Hsc, nth_In, Hi).
    assert (Hl : length (nth (nth i sc 0) rows []) = cols) by (apply Hr, nth_In, Hj).
    assert (En : nth i (map h sc) [] = h (nth i sc 0)).
    { rewrite (nth_indep _ [] (h 0)) by (rewrite map_length; exact Hi). apply map_nth. }
    rewrite En. unfold h. split; [rewrite cmul_length, !firstn_length; lia|].
    intros p Hp. apply nth_cmul; lia.
Qed.
Print Assumptions C26_forward.

Lemma scaled_sum (l : list (list C)) (F : C) (p : nat) :
  clsum (map (fun r => Cmult (nth p r (RtoC 0)) (Cconj (Cmult (nth p r (RtoC 0)) (Cconj F)))) l)
  = Cmult F (clsum (map (fun r => Cmult (nth p r (RtoC 0)) (Cconj (nth p r (RtoC 0)))) l)).
Proof.
  rewrite <- clsum_map_scal_l. apply clsum_map_ext. intros r _. rewrite Cconj_mult, Cconj_conj. ring.
Qed.

(** The round trip, for admissible wavelets when only the last scales miss the
    signal. *)
Theorem C26_round_trip : forall N cols rows f k, matrix cols rows -> N <= cols -> N <= length f ->
  admissible N rows -> dead_last N rows f k ->
  exists W, slepian_wavelet_forward f (A2 cols rows) (Z.of_nat N) = Ok W /\
    slepian_wavelet_inverse W (A2 cols rows) (Z.of_nat N) = Ok (firstn N f).
Proof.
  intros N cols rows f k Hr Hc Hf Ha [Hk Hd].
  set (h := fun row => cmul (firstn N row) (firstn N f)).
  exists (A2 N (firstn k (map h rows))). split.
  { rewrite forward_rows by assumption. do 2 f_equal. apply (filter_prefix _ _ k (h [])).
    - rewrite map_length. exact Hk.
    - intros j Hj. rewrite map_length in Hj. rewrite map_nth.
      pose proof (row_alive N cols rows f j Hr Hc Hf Hj) as RA. fold (h (nth j rows [])) in RA.
      change (existsb Cnonzero (h (nth j rows [])) = (j <? k)).
      destruct (Nat.ltb_spec j k).
      + apply RA, Hd; assumption.
      + destruct (existsb Cnonzero (h (nth j rows []))) eqn:E; [|reflexivity].
        assert (j < k); [|lia]. apply Hd; [exact Hj|]. apply RA. reflexivity. }
  unfold slepian_wavelet_inverse. cbn [arr_len]. rewrite firstn_length, map_length, Nat.min_l by exact Hk.
  cbn [arr_prefix py_prefix_opt]. unfold py_prefix. destruct (Z.leb_spec 0 (Z.of_nat k)); [|lia]. rewrite Nat2Z.id.
  assert (P : forall r, In r (firstn k rows) -> length r = cols).
  { intros r Hin. apply Hr. rewrite <- (firstn_skipn k rows). apply in_or_app. left. exact Hin. }
  rewrite (sifting_rows N cols N).
  2:{ exact P. }
  2:{ intros r Hin. rewrite firstn_map in Hin. apply in_map_iff in Hin. destruct Hin as (row & <- & Hin).
      unfold h. rewrite cmul_length, !firstn_length, (P row Hin). lia. }
  2: exact Hc. 2: lia. 2: rewrite !firstn_length, map_length; lia.
  cbn [rbind arr_sum0]. f_equal. rewrite firstn_map.
  rewrite <- (map_id (firstn k rows)) at 1. rewrite combine_map_map, map_map. cbn [fst snd].
  unfold sum_axis0. apply (nth_ext _ _ (RtoC 0) (RtoC 0)).
  { rewrite map_length, seq_length, firstn_length. lia. }
  intros p Hp. rewrite map_length, seq_length in Hp. rewrite nth_map_seq, nth_firstn_lt by exact Hp. rewrite map_map.
  rewrite (clsum_map_ext _ (fun r => Cmult (nth p r (RtoC 0)) (Cconj (Cmult (nth p r (RtoC 0)) (Cconj (nthC f p)))))).
  2:{ intros r Hin. rewrite nth_cmul; [|rewrite (P r Hin); exact Hc|unfold h; rewrite cmul_length, !firstn_length, (P r Hin); lia|exact Hp].
      do 2 f_equal. unfold h. rewrite nth_cmul; [reflexivity|rewrite (P r Hin); exact Hc|exact Hf|exact Hp]. }
  transitivity (clsum (map (fun r => Cmult (nth p r (RtoC 0)) (Cconj (Cmult (nth p r (RtoC 0)) (Cconj (nthC f p))))) rows)).
  - rewrite <- (firstn_skipn k rows) at 2. rewrite map_app, clsum_app.
    rewrite (clsum_zero (map _ (skipn k rows))); [ring|]. intros x Hx. apply in_map_iff in Hx. destruct Hx as (r & <- & Hin).
    apply (In_nth _ _ []) in Hin. destruct Hin as (i & Hi & <-). rewrite skipn_length in Hi.
    assert (Hnth : nth i (skipn k rows) [] = nth (k + i) rows []).
    { rewrite <- (firstn_skipn k rows) at 2. rewrite app_nth2 by (rewrite firstn_length; lia).
      f_equal. rewrite firstn_length. lia. }
    rewrite Hnth.
    destruct (Classical_Prop.classic (at_ rows (k + i) p = RtoC 0)) as [E0|H1]; [rewrite !E0; ring|].
    destruct (Classical_Prop.classic (nthC f p = RtoC 0)) as [E0|H2]; [rewrite !E0; rewrite Cconj_mult, Cconj_conj; ring|].
    exfalso. assert (X : k + i < k); [|lia]. apply Hd; [lia|]. exists p. split; [exact Hp|split; assumption].
  - rewrite scaled_sum. specialize (Ha p Hp). rewrite clsum_nth, map_length.
    rewrite (csum_ext _ _ (fun j => Cmult (at_ rows j p) (Cconj (at_ rows j p)))).
    + rewrite Ha. ring.
    + intros j Hj. rewrite (nth_indep _ (RtoC 0) (Cmult (nth p [] (RtoC 0)) (Cconj (nth p [] (RtoC 0))))) by (rewrite map_length; exact Hj).
      rewrite (map_nth (fun r => Cmult (nth p r (RtoC 0)) (Cconj (nth p r (RtoC 0))))). reflexivity.
Qed.
Print Assumptions C26_round_trip.

(** In particular for signals without zero coefficients, when the generators
    that vanish below [N] are the last ones. *)
Theorem C26_full_signal : forall N cols rows f k, matrix cols rows -> N <= cols -> N <= length f ->
  admissible N rows -> (forall p, p < N -> nthC f p <> RtoC 0) -> k <= length rows ->
  (forall j, j < length rows -> ((exists p, p < N /\ at_ rows j p <> RtoC 0) <-> j < k)) ->
  exists W, slepian_wavelet_forward f (A2 cols rows) (Z.of_nat N) = Ok W /\
    slepian_wavelet_inverse W (A2 cols rows) (Z.of_nat N) = Ok (firstn N f).
Proof.
  intros N cols rows f k Hr Hc Hf Ha Hnz Hk H. apply (C26_round_trip N cols rows f k); try assumption.
  split; [exact Hk|]. intros j Hj. rewrite <- (H j Hj). split.
  - intros (p & Hp & H1 & _). exists p. auto.
  - intros (p & Hp & H1). exists p. auto.
Qed.
Print Assumptions C26_full_signal.

(** The energy of the wavelet coefficients is that of the signal, dropped
    scales or not. *)
Lemma rlsum_filter {A} (q : A -> bool) (g : A -> R) l : (forall x, In x l -> q x = false -> g x = 0%R) ->
  rlsum (map g (filter q l)) = rlsum (map g l).
Proof.
  induction l as [|x l IH]; intros H; [reflexivity|]. cbn [filter map]. destruct (q x) eqn:E; cbn [map rlsum].
  - rewrite IH by (intros; apply H; [right; assumption|assumption]). reflexivity.
  - rewrite IH by (intros; apply H; [right; assumption|assumption]). rewrite (H x (or_introl eq_refl) E). ring.
Qed.

Lemma Cmod_conj z : Cmod (Cconj z) = Cmod z.
Proof. destruct z. unfold Cmod, Cconj. cbn [fst snd]. f_equal. ring. Qed.
Lemma Cmod2_mult z : Cmult z (Cconj z) = RtoC (Cmod z ^ 2)%R.
Proof.
  destruct z as [a b]. assert (E : (Cmod (a, b) ^ 2)%R = (a * a + b * b)%R).
  { unfold Cmod. cbn [fst snd]. rewrite pow2_sqrt; [ring|]. nra. }
  rewrite E. apply C_ext; cbn; ring.
Qed.

Theorem C26_energy : forall N cols rows f W, matrix cols rows -> N <= cols -> N <= length f ->
  admissible N rows -> slepian_wavelet_forward f (A2 cols rows) (Z.of_nat N) = Ok (A2 N W) ->
  rlsum (map (fun w => rsum N (fun p => (Cmod (nthC w p) ^ 2)%R)) W)
  = rsum N (fun p => (Cmod (nthC f p) ^ 2)%R).
Proof.
  intros N cols rows f W Hr Hc Hf Ha E. rewrite forward_rows in E by assumption. injection E as <-.
  rewrite rlsum_filter.
  2:{ intros r Hin Hd. apply in_map_iff in Hin. destruct Hin as (row & <- & Hin).
      rewrite dead_row in Hd. apply rsum_zero. intros p Hp. rewrite Hd.
      - rewrite Cmod_0. ring.
      - rewrite cmul_length, !firstn_length, (Hr row Hin). lia. }
  rewrite map_map, rlsum_nth, map_length.
  rewrite (rsum_ext _ _ (fun j => rsum N (fun p => (Cmod (nthC f p) ^ 2 * Cmod (at_ rows j p) ^ 2)%R))).
  2:{ intros j Hj. rewrite (nth_indep _ 0%R (rsum N (fun p => (Cmod (nthC (cmul (firstn N []) (firstn N f)) p) ^ 2)%R)))
        by (rewrite map_length; exact Hj).
      rewrite (map_nth (fun row => rsum N (fun p => (Cmod (nthC (cmul (firstn N row) (firstn N f)) p) ^ 2)%R))).
      apply rsum_ext. intros p Hp. rewrite nth_cmul; [|rewrite (Hr _ (nth_In _ _ Hj)); exact Hc|exact Hf|exact Hp].
      rewrite Cmod_mult, Cmod_conj. ring. }
  rewrite rsum_swap. apply rsum_ext. intros p Hp. rewrite rsum_scal_l.
  specialize (Ha p Hp). rewrite (csum_ext _ _ (fun j => RtoC (Cmod (at_ rows j p) ^ 2)%R)) in Ha by (intros; apply Cmod2_mult).
  rewrite csum_RtoC in Ha. apply RtoC_inj in Ha. rewrite Ha. ring.
Qed.
Print Assumptions C26_energy.

(** A scale that misses the signal before one that does not: its row is dropped,
    the later rows are paired with the wrong wavelets, and the round trip loses
    the signal. *)
Definition units3 : list (list C) :=
  [[RtoC 1; RtoC 0; RtoC 0]; [RtoC 0; RtoC 1; RtoC 0]; [RtoC 0; RtoC 0; RtoC 1]].

Lemma units3_admissible : matrix 3 units3 /\ admissible 3 units3.
Proof.
  split; [intros r [<-|[<-|[<-|[]]]]; reflexivity|].
  intros p Hp. destruct p as [|[|[|p]]]; [| | |lia]; unfold csum; apply C_ext; cbn; ring.
Qed.

Theorem C26_round_trip_refuted : forall a b, a <> RtoC 0 -> b <> RtoC 0 ->
  exists W, slepian_wavelet_forward [a; RtoC 0; b] (A2 3 units3) 3 = Ok W /\
    slepian_wavelet_inverse W (A2 3 units3) 3 = Ok [a; RtoC 0; RtoC 0].
Proof.
  intros a b Ha Hb.
  assert (Za : Cnonzero (Cmult (RtoC 1) (Cconj a)) = true).
  { destruct (Cnonzero _) eqn:E; [reflexivity|]. apply Cnonzero_false in E. exfalso. apply Ha.
    rewrite <- (Cconj_conj a). replace (Cconj a) with (Cmult (RtoC 1) (Cconj a)) by ring. rewrite E. apply Cconj_R. }
  assert (Zb : Cnonzero (Cmult (RtoC 1) (Cconj b)) = true).
  { destruct (Cnonzero (Cmult (RtoC 1) (Cconj b))) eqn:E; [reflexivity|]. apply Cnonzero_false in E. exfalso. apply Hb.
    rewrite <- (Cconj_conj b). replace (Cconj b) with (Cmult (RtoC 1) (Cconj b)) by ring. rewrite E. apply Cconj_R. }
  assert (Z0 : forall x, Cnonzero (Cmult (RtoC 0) x) = false).
  { intros x. apply Cnonzero_false. ring. }
  assert (Z1 : Cnonzero (Cmult (RtoC 1) (Cconj (RtoC 0))) = false).
  { apply Cnonzero_false. rewrite Cconj_R. ring. }
  exists (A2 3 [map (fun x => Cmult (fst x) (Cconj (snd x))) (combine [RtoC 1; RtoC 0; RtoC 0] [a; RtoC 0; b]);
                map (fun x => Cmult (fst x) (Cconj (snd x))) (combine [RtoC 0; RtoC 0; RtoC 1] [a; RtoC 0; b])]).
  split.
  - change 3%Z with (Z.of_nat 3). rewrite (forward_rows 3 3 units3); [|apply units3_admissible|lia|cbn; lia].
    unfold units3, cmul, zip. cbn [map firstn combine filter existsb fst snd]. rewrite Za, Zb, Z1, !Z0.
    cbn [orb]. reflexivity.
  - unfold slepian_wavelet_inverse. cbn [map combine fst snd arr_len length arr_prefix py_prefix_opt].
    change (py_prefix (Z.of_nat 2) units3) with (firstn 2 units3). unfold units3 at 1. cbn [firstn].
    change 3%Z with (Z.of_nat 3). rewrite (sifting_rows 3 3 3).
    + cbn [rbind arr_sum0 map combine fst snd firstn]. unfold cmul, zip, sum_axis0.
      cbn [map combine fst snd seq nth clsum fold_right]. f_equal.
      repeat match goal with |- _ :: _ = _ :: _ => f_equal end;
        destruct a, b; apply C_ext; cbn; ring.
    + intros r [<-|[<-|[]]]; reflexivity.
    + intros r [<-|[<-|[]]]; reflexivity.
    + lia.
    + lia.
    + reflexivity.
Qed.
Print Assumptions C26_round_trip_refuted.

Example C26_case : exists W,
  slepian_wavelet_forward [RtoC 5; RtoC 7; RtoC 0] (A2 3 units3) 3 = Ok W /\
  slepian_wavelet_inverse W (A2 3 units3) 3 = Ok [RtoC 5; RtoC 7; RtoC 0].
Proof.
  assert (N5 : RtoC 5 <> RtoC 0) by (intros E; apply RtoC_inj in E; lra).
  assert (N7 : RtoC 7 <> RtoC 0) by (intros E; apply RtoC_inj in E; lra).
  assert (N1 : RtoC 1 <> RtoC 0) by (intros E; apply RtoC_inj in E; lra).
  apply (C26_round_trip 3 3 units3 [RtoC 5; RtoC 7; RtoC 0] 2);
    [apply units3_admissible|lia|cbn; lia|apply units3_admissible|].
  split; [cbn; lia|]. intros j Hj. cbn in Hj. split.
  - intros (p & Hp & H1 & H2). destruct j as [|[|[|j]]]; try lia.
    destruct p as [|[|[|p]]]; cbn in H1, H2; try lia; contradiction.
  - intros Hj2. destruct j as [|[|j]]; [exists 0|exists 1|lia]; cbn; (split; [lia|]); split; assumption.
Qed.

(** ** C27 *)

(** A single wavelet given as a one-dimensional array is rejected (there is no
    axis to search for zero rows). *)
Theorem C26_one_dimensional : forall N w f, length w = length f -> N <= length w ->
  slepian_wavelet_forward f (A1 w) (Z.of_nat N) = Err ValueError.
Proof.
  intros N w f H HN. unfold slepian_wavelet_forward. rewrite sifting_1d_prefix by lia.
  rewrite sifting_1d by (rewrite !firstn_length; lia). reflexivity.
Qed.
Print Assumptions C26_one_dimensional.

(** The Slepian wavelets are those of the library for the band limit [L * L],
    one row per scale with the scaling function first; when the library's
    squares sum to one at each of the [L * L] indices, the transforms above
    reconstruct. *)
Theorem C26_slepian_wavelets : forall awl L B j_min k0 n k,
  awl B (L * L) j_min = (k0, n, k) -> length k0 = L * L -> length k = L * L ->
  (forall row, In row k -> length row = n) ->
  exists rows, create_slepian_wavelets awl L B j_min = A2 (L * L) rows /\
    length rows = n + 1 /\ matrix (L * L) rows /\
    (forall p, p < L * L -> at_ rows 0 p = RtoC (nth p k0 0%R) /\
       forall j, j < n -> at_ rows (j + 1) p = RtoC (nth j (nth p k []) 0%R)) /\
    ((forall p, p < L * L -> (nth p k0 0 ^ 2 + rlsum (map (fun x => x ^ 2) (nth p k [])))%R = 1%R) ->
     admissible (L * L) rows).
Proof.
  intros awl L B jm k0 n k E L0 Lk Hk. unfold create_slepian_wavelets, create_kappas. rewrite E.
  eexists. split; [reflexivity|]. split; [cbn [map length]; rewrite !map_length, seq_length; lia|].
  assert (H0 : forall p, p < L * L -> nthC (map RtoC k0) p = RtoC (nth p k0 0%R)).
  { intros p Hp. unfold nthC. exact (map_nth RtoC k0 0%R p). }
  assert (H1 : forall p j, p < L * L -> j < n ->
    at_ (map (map RtoC) (k0 :: map (fun j => map (fun row => nth j row 0%R) k) (seq 0 n))) (j + 1) p
    = RtoC (nth j (nth p k []) 0%R)).
  { intros p j Hp Hj. unfold at_. rewrite Nat.add_1_r. cbn [map nth]. rewrite map_map.
    rewrite (nth_map_seq (fun j => map RtoC (map (fun row => nth j row 0%R) k))) by exact Hj. unfold nthC.
    change (RtoC 0) with (RtoC 0%R). rewrite map_map.
    rewrite (nth_indep _ (RtoC 0) (RtoC (nth j [] 0%R))) by (rewrite map_length; lia).
    exact (map_nth (fun row => RtoC (nth j row 0%R)) k [] p). }
  split; [|split].
  - intros r Hr. cbn [map] in Hr. destruct Hr as [<-|Hr]; [rewrite map_length; exact L0|].
    rewrite map_map in Hr. apply in_map_iff in Hr. destruct Hr as (j & <- & _). rewrite !map_length. exact Lk.
  - intros p Hp. split; [apply H0, Hp|intros j Hj; apply H1; assumption].
  - intros Ht p Hp. rewrite <- (Ht p Hp).
    cbn [map length]. rewrite !map_length, seq_length.
    rewrite (csum_ext _ _ (fun j => RtoC (Cmod (nth p (nth j (map RtoC k0 :: map (map RtoC) (map (fun j => map (fun row => nth j row 0%R) k) (seq 0 n))) []) (RtoC 0)) ^ 2))) by (intros j _; apply Cmod2_mult).
    rewrite csum_RtoC, rsum_S_l. do 2 f_equal.
    + unfold at_. cbn [nth]. rewrite H0 by exact Hp. rewrite Cmod_R, pow2_abs. reflexivity.
    + assert (Ln : length (nth p k []) = n) by (apply Hk, nth_In; lia).
      rewrite rlsum_nth, map_length, Ln. apply rsum_ext. intros j Hj.
      replace (S j) with (j + 1) by lia. assert (A := H1 p j Hp Hj). cbn [map] in A. rewrite A, Cmod_R, pow2_abs.
      rewrite (nth_indep (map (fun x => (x ^ 2)%R) (nth p k [])) 0%R (0 ^ 2)%R) by (rewrite map_length; lia).
      symmetry. exact (map_nth (fun x => (x ^ 2)%R) (nth p k []) 0%R j).
Qed.
Print Assumptions C26_slepian_wavelets.

(** Generators whose squares sum to one at each degree. *)
Definition tight (L : nat) (wavelets : list (list C)) : Prop :=
  forall el, el < L ->
    rsum (length wavelets) (fun j => (4 * PI / (2 * INR el + 1) * Cmod (coeff (nth j wavelets []) el 0) ^ 2)%R) = 1%R.

Theorem C27_forward : forall L flm wavelets, length flm = L * L -> matrix (L * L) wavelets ->
  exists W, axisymmetric_wavelet_forward L flm wavelets = Ok W /\ length W = length wavelets /\
    forall j, j < length wavelets -> length (nth j W []) = L * L /\
      forall el m, valid L el m -> coeff (nth j W []) el m
        = Cmult (Cmult (RtoC (sqrt (4 * PI / (2 * INR el + 1)))) (Cconj (coeff (nth j wavelets []) el 0))) (coeff flm el m).
Proof.
  intros L flm wavelets Hf Hw. eexists. split; [apply axisymmetric_forward_ok; assumption|].
  split; [apply map_length|]. intros j Hj.
  set (h := fun psi => table L (fun el m => Cmult (Cmult (RtoC (sqrt (4 * PI / (2 * INR el + 1)))) (Cconj (coeff psi el 0))) (coeff flm el m))).
  rewrite (nth_indep _ [] (h [])) by (rewrite map_length; exact Hj). rewrite (map_nth h). unfold h.
  split; [apply table_length|]. intros el m V. rewrite coeff_table by exact V. reflexivity.
Qed.
Print Assumptions C27_forward.

Lemma sqrt_norm el : (0 < 4 * PI / (2 * INR el + 1))%R.
Proof.
  pose proof PI_RGT_0. pose proof (pos_INR el).
  apply Rmult_lt_0_compat; [lra|]. apply Rinv_0_lt_compat. lra.
Qed.

Theorem C27_round_trip : forall L flm wavelets, length flm = L * L -> matrix (L * L) wavelets ->
  tight L wavelets ->
  exists W, axisymmetric_wavelet_forward L flm wavelets = Ok W /\
    axisymmetric_wavelet_inverse L W wavelets = Ok flm.
Proof.
  intros L flm wavelets Hf Hw Ht.
  destruct (C27_forward L flm wavelets Hf Hw) as (W & E & HW & H). exists W. split; [exact E|].
  assert (HR : forall r, In r W -> length r = L * L).
  { intros r Hr. apply (In_nth _ _ []) in Hr. destruct Hr as (j & Hj & <-). apply H. congruence. }
  rewrite (axisymmetric_inverse_ok L W wavelets HW HR Hw). f_equal.
  apply (coeff_ext L); [apply table_length|exact Hf|]. intros el m V. rewrite coeff_table by exact V.
  rewrite HW. rewrite (csum_ext _ _ (fun j => Cmult (RtoC (4 * PI / (2 * INR el + 1) * Cmod (coeff (nth j wavelets []) el 0) ^ 2)) (coeff flm el m))).
  - rewrite csum_scal_r, csum_RtoC, (Ht el) by apply V. ring.
  - intros j Hj. destruct (H j Hj) as [_ Hc]. rewrite (Hc el m V). rewrite RtoC_mult, <- Cmod2_mult.
    rewrite <- (sqrt_sqrt (4 * PI / (2 * INR el + 1))) at 3 by (apply Rlt_le, sqrt_norm). rewrite RtoC_mult. ring.
Qed.
Print Assumptions C27_round_trip.

(** The wavelets built by the library: tight exactly when the squared generating
    functions sum to one, and real fields as flagged. *)
Theorem C27_wavelets : forall awl L B j_min,
  (forall k, In k (create_kappas awl L B j_min) -> length k = L) ->
  exists wavelets, create_axisymmetric_wavelets awl L B j_min = Ok wavelets /\ matrix (L * L) wavelets /\
    (forall j el m, j < length wavelets -> valid L el m -> coeff (nth j wavelets []) el m
       = if (m =? 0)%Z then RtoC (sqrt ((2 * INR el + 1) / (4 * PI)) * nth el (nth j (create_kappas awl L B j_min) []) 0%R) else RtoC 0) /\
    (axisymmetric_wavelets_reality = true -> forall w, In w wavelets -> reality L w) /\
    (tight L wavelets <-> forall el, el < L ->
       rlsum (map (fun k => (nth el k 0 ^ 2)%R) (create_kappas awl L B j_min)) = 1%R).
Proof.
  intros awl L B jm Hk. set (ks := create_kappas awl L B jm) in *.
  set (h := fun k => table L (fun el m => if (m =? 0)%Z then RtoC (sqrt ((2 * INR el + 1) / (4 * PI)) * nth el k 0%R) else RtoC 0)).
  exists (map h ks). split; [apply create_axisymmetric_ok, Hk|].
  assert (Hc : forall j el m, j < length (map h ks) -> valid L el m -> coeff (nth j (map h ks) []) el m
       = if (m =? 0)%Z then RtoC (sqrt ((2 * INR el + 1) / (4 * PI)) * nth el (nth j ks []) 0%R) else RtoC 0).
  { intros j el m Hj V. rewrite (nth_indep _ [] (h [])) by exact Hj. rewrite (map_nth h). unfold h. apply coeff_table, V. }
  split; [intros r Hr; apply in_map_iff in Hr; destruct Hr as (k & <- & _); apply table_length|].
  split; [exact Hc|]. split.
  - intros _ w Hw. apply in_map_iff in Hw. destruct Hw as (k & <- & _).
    apply (m0_reality L _ (fun el => (sqrt ((2 * INR el + 1) / (4 * PI)) * nth el k 0)%R)).
    intros el m V. unfold h. apply coeff_table, V.
  - assert (S : forall el, el < L -> rsum (length (map h ks)) (fun j => (4 * PI / (2 * INR el + 1) * Cmod (coeff (nth j (map h ks) []) el 0) ^ 2)%R)
       = rlsum (map (fun k => (nth el k 0 ^ 2)%R) ks)).
    { intros el Hel. rewrite rlsum_nth, !map_length. apply rsum_ext. intros j Hj.
      rewrite (Hc j el 0%Z) by (first [rewrite map_length; exact Hj | split; lia]). cbn [Z.eqb].
      rewrite (nth_indep (map (fun k => (nth el k 0 ^ 2)%R) ks) 0%R (nth el [] 0 ^ 2)%R) by (rewrite map_length; exact Hj).
      rewrite (map_nth (fun k => (nth el k 0 ^ 2)%R)).
      rewrite Cmod_R, pow2_abs, Rpow_mult_distr, pow2_sqrt.
      - pose proof PI_RGT_0. pose proof (pos_INR el). field. lra.
      - pose proof PI_RGT_0. pose proof (pos_INR el). apply Rmult_le_pos; [lra|]. apply Rlt_le, Rinv_0_lt_compat. lra. }
    split; intros HT el Hel; [rewrite <- S by exact Hel; apply HT, Hel|].
    unfold tight. rewrite S by exact Hel. apply HT, Hel.
Qed.
Print Assumptions C27_wavelets.

(** ** C53: ridgelets *)

Theorem C53_ridgelets : forall awl gammaln L B j_min spin ring,
  (forall k, In k (create_kappas awl L B j_min) -> length k = L) ->
  compute_ring gammaln L spin = Ok ring -> length ring = L * L ->
  exists wavelets, create_ridgelets awl gammaln L B j_min spin = Ok wavelets /\
    length wavelets = length (create_kappas awl L B j_min) /\
    forall j el m, j < length wavelets -> valid L el m -> coeff (nth j wavelets []) el m
      = if (m =? 0)%Z
        then Cmult (Cdiv (RtoC (nth el (nth j (create_kappas awl L B j_min) []) 0%R)) (RtoC (if j =? 0 then 1 else sqrt (2 * PI))))
                   (coeff ring el 0)
        else RtoC 0.
Proof.
  intros awl gammaln L B jm spin ring Hk Er Hr.
  destruct (create_ridgelets_ok awl gammaln L B jm spin ring Hk Er Hr) as (k0 & ks & Ek & E).
  rewrite E. eexists. split; [reflexivity|]. rewrite Ek. split; [cbn; rewrite map_length; reflexivity|].
  intros j el m Hj V. destruct j as [|j].
  - cbn [nth Nat.eqb]. rewrite coeff_table by exact V. destruct (m =? 0)%Z; [|reflexivity].
    destruct (coeff ring el 0). apply C_ext; cbn; field.
  - cbn [nth Nat.eqb]. cbn in Hj. rewrite map_length in Hj.
    set (h := fun k => table L (fun el m =>
      if (m =? 0)%Z then Cdiv (Cmult (RtoC (nth el k 0%R)) (coeff ring el 0)) (RtoC (sqrt (2 * PI))) else RtoC 0)).
    rewrite (nth_indep _ [] (h [])) by (rewrite map_length; lia). rewrite (map_nth h). unfold h.
    rewrite coeff_table by exact V. destruct (m =? 0)%Z; [|reflexivity]. unfold Cdiv. ring.
Qed.
Print Assumptions C53_ridgelets.

(** ** C54: which scale is selected *)

(** The external library provides [j_max - j_min + 1] wavelets. *)
Definition scales_of (awl : Z -> nat -> Z -> list R * nat * list (list R)) (jmax : Z -> nat -> Z -> Z) : Prop :=
  forall B xlim j_min, Z.of_nat (snd (fst (awl B xlim j_min))) = (jmax B xlim j_min - j_min + 1)%Z.

(** An accepted scale always exists among the wavelets, and is the one
    generated for it: the scaling function without a scale. *)
Theorem C54_wavelets : forall awl jmax xlim B j_min j, scales_of awl jmax ->
  check_j jmax xlim B j_min j = Ok j ->
  select_scale (create_kappas awl xlim B j_min) j
  = Ok (match j with
        | None => fst (fst (awl B xlim j_min))
        | Some j => map (fun row => nth (Z.to_nat j) row 0%R) (snd (awl B xlim j_min))
        end).
Proof.
  intros awl jmax xlim B jm j Hs Hc. unfold create_kappas. specialize (Hs B xlim jm).
  destruct (awl B xlim jm) as [[k0 n] ks]. cbn [fst snd] in *. unfold select_scale, py_index.
  destruct j as [j|]; [|reflexivity]. unfold check_j in Hc.
  destruct (Z.ltb_spec j 0); [discriminate|]. destruct (Z.ltb_spec (jmax B xlim jm - jm) j); [discriminate|].
  destruct (Z.leb_spec 0 (j + 1)); [|lia]. destruct (Z.ltb_spec (j + 1) 0); [lia|].
  replace (Z.to_nat (j + 1)) with (S (Z.to_nat j)) by lia. cbn [nth_error].
  rewrite nth_error_map_seq by lia. reflexivity.
Qed.
Print Assumptions C54_wavelets.

(** Scales outside the range are rejected. *)
Theorem C54_rejected : forall jmax xlim B j_min j, (j < 0 \/ jmax B xlim j_min - j_min < j)%Z ->
  check_j jmax xlim B j_min (Some j) = Err ValueError.
Proof.
  intros jmax xlim B jm j H. unfold check_j. destruct (Z.ltb_spec j 0); [reflexivity|].
  destruct (Z.ltb_spec (jmax B xlim jm - jm) j); [reflexivity|lia].
Qed.
Print Assumptions C54_rejected.

(** The wavelet coefficients of an accepted scale are those of that scale when
    no scale up to it misses the signal. *)
Theorem C54_coefficients : forall N cols rows f W jth, matrix cols rows -> N <= cols -> N <= length f ->
  slepian_wavelet_forward f (A2 cols rows) (Z.of_nat N) = Ok (A2 N W) ->
  jth < length rows -> (forall j, j <= jth -> alive N rows f j) ->
  exists w, select_scale W (if jth =? 0 then None else Some (Z.of_nat jth - 1)%Z) = Ok w /\
    forall p, p < N -> nthC w p = Cmult (at_ rows jth p) (Cconj (nthC f p)).
Proof.
  intros N cols rows f W jth Hr Hc Hf E Hj Hal.
  destruct (C26_forward N cols rows f Hr Hc Hf) as (W' & sc & E' & Hs & Hin & Hl & H). rewrite E in E'. injection E' as <-.
  assert (Hnth : forall n, n <= jth -> n < length sc /\ nth n sc 0 = n).
  { (* the sorted list of the living scales starts with 0, 1, ..., jth *)
    assert (Gen : forall l a, StronglySorted lt l -> (forall x, In x l -> a <= x) ->
              forall n, (forall j, a <= j <= a + n -> In j l) -> n < length l /\ nth n l 0 = a + n).
    { induction l as [|x l IH]; intros a Hso Hge n Hall.
      - exfalso. apply (Hall a). lia.
      - inversion Hso as [|? ? Hso' Hfa]; subst. rewrite Forall_forall in Hfa.
        assert (Hx : x = a).
        { pose proof (Hge x (or_introl eq_refl)). destruct (Hall a) as [->|Hin2]; [lia|reflexivity|].
          specialize (Hfa a Hin2). lia. }
        subst x. destruct n as [|n]; [cbn; split; lia|]. cbn [length nth].
        destruct (IH (S a)) with (n := n) as [H1 H2].
        + exact Hso'.
        + intros y Hy. apply Hfa in Hy. lia.
        + intros j Hj2. destruct (Hall j) as [<-|Hin2]; [lia|lia|exact Hin2].
        + split; lia. }
    intros n Hn. apply (Gen sc 0 Hs); [intros; lia|]. intros j Hj2. apply Hin. split; [lia|]. apply Hal. lia. }
  destruct (Hnth jth (Nat.le_refl _)) as [H1 H2]. exists (nth jth W []). split.
  - unfold select_scale, py_index.
    replace (match (if jth =? 0 then None else Some (Z.of_nat jth - 1)%Z) with None => 0%Z | Some j => (j + 1)%Z end) with (Z.of_nat jth)
      by (destruct (Nat.eqb_spec jth 0); [subst; reflexivity|lia]).
    destruct (Z.leb_spec 0 (Z.of_nat jth)); [|lia]. destruct (Z.ltb_spec (Z.of_nat jth) 0); [lia|].
    rewrite Nat2Z.id, (nth_error_nth' W []) by lia. reflexivity.
  - intros p Hp. destruct (H jth H1) as [_ Hp']. rewrite (Hp' p Hp), H2. reflexivity.
Qed.
Print Assumptions C54_coefficients.

(** Otherwise an accepted scale can raise [IndexError] ... *)
Theorem C54_index_error_refuted : forall N cols rows f k jth, matrix cols rows -> N <= cols -> N <= length f ->
  dead_last N rows f k -> k <= jth -> 1 <= jth ->
  exists W, slepian_wavelet_forward f (A2 cols rows) (Z.of_nat N) = Ok (A2 N W) /\
    select_scale W (Some (Z.of_nat jth - 1)%Z) = Err IndexError.
Proof.
  intros N cols rows f k jth Hr Hc Hf [Hk Hd] Hj H1.
  destruct (C26_forward N cols rows f Hr Hc Hf) as (W & sc & E & Hs & Hin & Hl & _).
  exists W. split; [exact E|]. unfold select_scale, py_index.
  replace (Z.of_nat jth - 1 + 1)%Z with (Z.of_nat jth) by lia.
  destruct (Z.leb_spec 0 (Z.of_nat jth)); [|lia]. destruct (Z.ltb_spec (Z.of_nat jth) 0); [lia|]. rewrite Nat2Z.id.
  assert (Hlen : length W <= k).
  { rewrite Hl. rewrite <- (seq_length k 0). apply NoDup_incl_length.
    - clear - Hs. induction Hs as [|x l Hs IH Hf]; constructor; [|exact IH].
      intros X. rewrite Forall_forall in Hf. apply Hf in X. lia.
    - intros j X. apply Hin in X. apply in_seq. destruct X as [X1 X2]. apply (Hd j X1) in X2. lia. }
  destruct (nth_error W jth) eqn:En; [|reflexivity]. assert (Hn : nth_error W jth <> None) by congruence.
  apply nth_error_Some in Hn. lia.
Qed.
Print Assumptions C54_index_error_refuted.

(** ... or return the coefficients of another scale: here the second wavelet
    scale is returned for the first. *)
Theorem C54_wrong_scale_refuted : forall a b, a <> RtoC 0 -> b <> RtoC 0 ->
  exists W w, slepian_wavelet_forward [a; RtoC 0; b] (A2 3 units3) 3 = Ok (A2 3 W) /\
    select_scale W (Some 0%Z) = Ok w /\
    nthC w 2 = Cmult (at_ units3 2 2) (Cconj b) /\ nthC w 2 <> Cmult (at_ units3 1 2) (Cconj b).
Proof.
  intros a b Ha Hb.
  destruct (C26_forward 3 3 units3 [a; RtoC 0; b]) as (W & sc & E & Hs & Hin & Hl & H); [apply units3_admissible|lia|cbn; lia|].
  assert (N1 : RtoC 1 <> RtoC 0) by (intros X; apply RtoC_inj in X; lra).
  assert (A0 : In 0 sc). { apply Hin. split; [cbn; lia|]. exists 0. cbn. split; [lia|split; assumption]. }
  assert (A2' : In 2 sc). { apply Hin. split; [cbn; lia|]. exists 2. cbn. split; [lia|split; assumption]. }
  assert (A1' : ~ In 1 sc).
  { intros X. apply Hin in X. destruct X as [_ (p & Hp & X1 & X2)]. destruct p as [|[|[|p]]]; cbn in X1, X2; try lia; contradiction. }
  assert (Ebd : forall x, In x sc -> x < 3) by (intros x X; apply Hin in X; apply X).
  assert (Es : sc = [0; 2]).
  { destruct Hs as [|x l Hs Hf]; [destruct A0|]. rewrite Forall_forall in Hf.
    assert (x = 0). { destruct A0 as [|A0]; [assumption|]. apply Hf in A0. lia. } subst x.
    destruct Hs as [|y l Hs Hf']; [destruct A2' as [|[]]; discriminate|]. rewrite Forall_forall in Hf'.
    assert (y = 2).
    { assert (y <> 1) by (intros ->; apply A1'; right; left; reflexivity).
      assert (0 < y) by (apply Hf; left; reflexivity).
      assert (y < 3) by (apply Ebd; right; left; reflexivity). lia. } subst y.
    destruct l as [|z l]; [reflexivity|]. exfalso.
    assert (2 < z) by (apply Hf'; left; reflexivity).
    assert (z < 3) by (apply Ebd; right; right; left; reflexivity). lia. }
  subst sc. destruct W as [|w0 [|w1 W]]; cbn in Hl; try lia. destruct (H 1 ltac:(cbn; lia)) as [_ Hp].
  exists (w0 :: w1 :: W), w1. split; [exact E|]. split; [reflexivity|].
  specialize (Hp 2 ltac:(lia)). cbn in Hp. split; [exact Hp|]. rewrite Hp. cbn.
  intros X. apply Hb. rewrite <- (Cconj_conj b).
  replace (Cconj b) with (Cmult (RtoC 1) (Cconj b)) by ring. rewrite X.
  replace (Cmult (RtoC 0) (Cconj b)) with (RtoC 0) by ring. apply Cconj_R.
Qed.
Print Assumptions C54_wrong_scale_refuted.

(** A concrete family: one degree, a scaling function and two wavelets. *)
Definition awl_example (B : Z) (xlim : nat) (j_min : Z) : list R * nat * list (list R) :=
  (repeat 1%R xlim, 2, repeat [0; 0]%R xlim).
Example C54_case :
  scales_of awl_example (fun _ _ j_min => j_min + 1)%Z /\
  check_j (fun _ _ j_min => j_min + 1)%Z 4 3 2 (Some 1%Z) = Ok (Some 1%Z) /\
  select_scale (create_kappas awl_example 2 3 2) (Some 1%Z) = Ok [0; 0]%R.
Proof. split; [intros B x j; cbn; lia|split; reflexivity]. Qed.
Example C26_slepian_case : exists rows, create_slepian_wavelets awl_example 3 3 2 = A2 9 rows /\ length rows = 3 /\ admissible 9 rows.
Proof.
  destruct (C26_slepian_wavelets awl_example 3 3 2 (repeat 1%R 9) 2 (repeat [0; 0]%R 9)) as (rows & E & Hl & _ & _ & H);
    [reflexivity|reflexivity|reflexivity| |].
  - intros row Hr. apply repeat_spec in Hr. subst. reflexivity.
  - exists rows. split; [exact E|]. split; [exact Hl|]. apply H. intros p Hp.
    do 9 (destruct p as [|p]; [cbn; ring|]). lia.
Qed.
Example C27_case : exists wavelets W,
  create_axisymmetric_wavelets awl_example 2 3 2 = Ok wavelets /\ tight 2 wavelets /\
  axisymmetric_wavelet_forward 2 [RtoC 1; RtoC 2; RtoC 3; RtoC 4] wavelets = Ok W /\
  axisymmetric_wavelet_inverse 2 W wavelets = Ok [RtoC 1; RtoC 2; RtoC 3; RtoC 4].
Proof.
  destruct (C27_wavelets awl_example 2 3 2) as (w & E & Hm & _ & _ & Ht).
  { intros k Hk. cbn in Hk. destruct Hk as [<-|[<-|[<-|[]]]]; reflexivity. }
  assert (T : tight 2 w).
  { apply Ht. intros el Hel. destruct el as [|[|el]]; [| |lia]; cbn; ring. }
  destruct (C27_round_trip 2 [RtoC 1; RtoC 2; RtoC 3; RtoC 4] w eq_refl Hm T) as (W & E1 & E2).
  exists w, W. auto.
Qed.
(** The accepted scale 1 of Slepian wavelets that vanish there. *)
Example C54_index_error_case :
  check_j (fun _ _ j_min => j_min + 1)%Z 4 3 2 (Some 1%Z) = Ok (Some 1%Z) /\
  exists W, slepian_wavelet_forward [RtoC 5] (create_slepian_wavelets awl_example 2 3 2) 1 = Ok (A2 1 W) /\
    select_scale W (Some 1%Z) = Err IndexError.
Proof.
  split; [reflexivity|].
  apply (C54_index_error_refuted 1 4 (map (map RtoC) (create_kappas awl_example 4 3 2)) [RtoC 5] 1 2); try lia.
  - intros r Hr. cbn in Hr. destruct Hr as [<-|[<-|[<-|[]]]]; reflexivity.
  - cbn. lia.
  - split; [cbn; lia|]. intros j Hj. cbn in Hj. split.
    + intros (p & Hp & H1 & _). destruct p as [|p]; [|lia]. destruct j as [|[|[|j]]]; cbn in H1; try lia; contradiction.
    + intros Hj1. destruct j as [|j]; [|lia]. exists 0. cbn. split; [lia|].
      split; intros X; apply RtoC_inj in X; lra.
Qed.
