(** * Creating the functions: lemmas. *)
From Coq Require Import List ZArith QArith Arith Bool Reals Qreals String Lra Lia.
From Coquelicot Require Import Complex.
From Verif Require Import Base ListLemmas RSum CSum PyNum Index IndexProofs Region Mask RegionProofs MaskProofs SpecRegion Numpy Eigen
  Quadrature Noise NoiseProofs EarthProofs Convolution Transform TransformProofs SpecTransform Functions FunctionsProofs
  Wavelet WaveletProofs Names FnNames Mesh Args Plot PlotProofs Cli SpecField SpecObjects Objects.
Import ListNotations.
Local Open Scope string_scope.
Local Open Scope list_scope.
Local Open Scope nat_scope.

(** ** Loops that keep the length of an array *)
Lemma rfold_inv {S A} (P : S -> Prop) (f : S -> A -> res S) l : forall s s',
  (forall s x s', P s -> f s x = Ok s' -> P s') -> P s -> rfold f l s = Ok s' -> P s'.
Proof.
  induction l as [|x l IH]; intros s s' H Hs E; cbn [rfold] in E; [congruence|].
  destruct (f s x) as [s1|] eqn:E1; [|discriminate E]. cbn [rbind] in E.
  apply (IH s1); [exact H|exact (H _ _ _ Hs E1)|exact E].
Qed.

Lemma np_set_length {A} i (x : A) a a' : np_set i x a = Ok a' -> List.length a' = List.length a.
Proof. unfold np_set. destruct (i <? List.length a); [|discriminate]. intros [= <-]. apply set_nth_length. Qed.

Lemma gaussian_length L sigma flm : gaussian_coefficients L sigma = Ok flm -> List.length flm = L * L.
Proof.
  unfold gaussian_coefficients. apply (rfold_inv (fun a : list C => List.length a = L * L)).
  - intros s x s' Hs E. destruct (py_div _ _); [|discriminate E]. cbn [rbind] in E. rewrite (np_set_length _ _ _ _ E). exact Hs.
  - apply repeat_length.
Qed.

Lemma harmonic_gaussian_length L a b flm : harmonic_gaussian_coefficients L a b = Ok flm -> List.length flm = L * L.
Proof.
  unfold harmonic_gaussian_coefficients. apply (rfold_inv (fun a : list C => List.length a = L * L)).
  - intros s x s' Hs E. destruct (py_div _ _); [|discriminate E]. cbn [rbind] in E. revert E.
    apply (rfold_inv (fun a : list C => List.length a = L * L)); [|exact Hs].
    intros s1 y s2 Hs1 E1. destruct (py_div _ _); [|discriminate E1]. cbn [rbind] in E1. rewrite (np_set_length _ _ _ _ E1). exact Hs1.
  - apply repeat_length.
Qed.

Lemma ring_length gammaln L spin ring : compute_ring gammaln L spin = Ok ring -> List.length ring = L * L.
Proof.
  unfold compute_ring. apply (rfold_inv (fun a : list C => List.length a = L * L)).
  - intros s x s' Hs E. rewrite (np_set_length _ _ _ _ E). exact Hs.
  - apply repeat_length.
Qed.

Lemma earth_ok table L smoothing flm : L * L <= List.length table ->
  create_earth_flm table L smoothing = Ok flm ->
  List.length flm = L * L /\ ((forall k, Im (coeff table k 0) = 0%R) -> reality L flm).
Proof.
  intros Ht E. destruct (create_earth_spec table L Ht) as (f & Ef & Lf & _).
  pose proof (fun H0 => earth_reality table L f Ht H0 Ef) as Rf. unfold create_earth_flm in *.
  destruct (rfold _ _ table) as [t|]; [|discriminate E]. cbn [rbind] in *.
  destruct smoothing as [s|].
  - unfold apply_gaussian_smoothing in E. destruct (_ =? 0)%Z; [discriminate E|]. injection E as <-. injection Ef as <-.
    split; [rewrite smoothing_length; exact Lf|]. intros H0. apply smoothing_reality; [lia|apply Rf, H0].
  - assert (flm = f) by congruence. subst flm. split; [exact Lf|exact Rf].
Qed.

Lemma py_index_In {A} (l : list A) i x : py_index l i = Ok x -> In x l.
Proof.
  unfold py_index. destruct ((if (0 <=? i)%Z then i else _) <? 0)%Z; [discriminate|].
  destruct (nth_error l _) eqn:E; [|discriminate]. intros [= <-]. exact (nth_error_In _ _ E).
Qed.

Lemma concat_length {A} (m : list (list A)) h w : shape m = repeat w h -> List.length (List.concat m) = h * w.
Proof.
  intros H. destruct (shape_rows m h w H) as [<- Hr]. clear H. induction m as [|r m IH]; [reflexivity|].
  cbn [List.concat List.length Nat.mul]. rewrite app_length, IH by (intros; apply Hr; right; assumption).
  rewrite (Hr r) by (left; reflexivity). reflexivity.
Qed.

Lemma sample_concat {A} (m : list (list A)) h w i j x d : shape m = repeat w h -> i < h -> j < w ->
  sample m i j = Some x -> nth (i * w + j) (List.concat m) d = x.
Proof.
  intros Sm Hi Hj. destruct (shape_rows m h w Sm) as [Hh Hr]. clear Sm. revert i Hi. subst h.
  unfold sample. induction m as [|row m IH]; intros i Hi M; [cbn in Hi; lia|].
  assert (Lr : List.length row = w) by (apply Hr; left; reflexivity).
  cbn [List.concat]. destruct i as [|i].
  - cbn [nth_error] in M. rewrite app_nth1 by lia. exact (nth_error_nth _ _ _ M).
  - cbn [nth_error] in M. rewrite app_nth2 by nia. rewrite Lr.
    replace (S i * w + j - w) with (i * w + j) by nia. apply IH.
    + intros; apply Hr; right; assumption.
    + cbn in Hi. lia.
    + exact M.
Qed.

Lemma where_mask_ok L mask f out : where_mask L mask f = Ok out ->
  shape mask = repeat (n_phi L) (n_theta L) /\ List.length f = samples L /\ List.length out = samples L /\
  forall k, k < samples L -> nth k out (RtoC 0) = if nth k (List.concat mask) false then nth k f (RtoC 0) else RtoC 0.
Proof.
  unfold where_mask. destruct (shape_eqb _ _) eqn:S; [|discriminate]. cbn [andb].
  destruct (Nat.eqb_spec (List.length f) (samples L)) as [Lf|]; [|discriminate]. intros [= <-].
  apply shape_eqb_spec in S. pose proof (concat_length mask _ _ S) as Lm. split; [exact S|]. split; [exact Lf|].
  change (n_theta L * n_phi L) with (samples L) in Lm.
  split; [rewrite map_length, combine_length; lia|]. intros k Hk.
  rewrite (nth_indep _ (RtoC 0) ((fun p : bool * C => if fst p then snd p else RtoC 0) (false, RtoC 0)))
    by (rewrite map_length, combine_length; lia).
  rewrite (map_nth (fun p : bool * C => if fst p then snd p else RtoC 0)). rewrite combine_nth by lia. reflexivity.
Qed.

Lemma where_mask_real L mask f out : where_mask L mask f = Ok out -> all_real f -> all_real out.
Proof.
  unfold where_mask. destruct (_ && _)%bool; [|discriminate]. intros [= <-] H z Hz.
  apply in_map_iff in Hz as ([b x] & <- & Hx). apply in_combine_r in Hx. cbn [fst snd]. destruct b; [exact (H x Hx)|reflexivity].
Qed.

(** ** Position of the greatest sample *)
Definition Cle_lex (x y : C) : Prop := (fst x < fst y \/ fst x = fst y /\ snd x <= snd y)%R.
Lemma Cltb_spec x y : Cltb x y = true <-> ~ Cle_lex y x.
Proof.
  unfold Cltb, Cle_lex. destruct x as [a b], y as [c d]. cbn [fst snd].
  rewrite orb_true_iff, andb_true_iff. rb. split.
  - intros [H|[H1 H2]]; lra.
  - intros H. destruct (Rtotal_order a c) as [|[|]]; [left; lra|right|].
    + split; [lra|]. destruct (Rle_or_lt d b); [|lra]. exfalso. apply H. right. split; lra.
    + exfalso. apply H. left. lra.
Qed.
Lemma Cle_lex_refl x : Cle_lex x x.
Proof. right. split; lra. Qed.
Lemma Cle_lex_trans x y z : Cle_lex x y -> Cle_lex y z -> Cle_lex x z.
Proof. unfold Cle_lex. intros. lra. Qed.

Definition first_max (l : list C) (k : nat) : Prop :=
  k < List.length l /\ (forall i, i < List.length l -> Cle_lex (nth i l (RtoC 0)) (nth k l (RtoC 0))) /\
  (forall i, i < k -> ~ Cle_lex (nth k l (RtoC 0)) (nth i l (RtoC 0))).

Lemma first_greatest_spec l : forall pre best x, first_max pre best -> nth best pre (RtoC 0) = x ->
  first_max (pre ++ l) (first_greatest (List.length pre) best x l).
Proof.
  induction l as [|y l IH]; intros pre best x (Hb & Hm & Hf) Hx; cbn [first_greatest].
  - rewrite app_nil_r. split; [exact Hb|]. split; assumption.
  - replace (pre ++ y :: l) with ((pre ++ [y]) ++ l) by (rewrite <- app_assoc; reflexivity).
    assert (Ll : List.length (pre ++ [y]) = S (List.length pre)) by (rewrite app_length; cbn; lia).
    assert (Ny : nth (List.length pre) (pre ++ [y]) (RtoC 0) = y) by (rewrite app_nth2, Nat.sub_diag by lia; reflexivity).
    rewrite <- Ll. destruct (Cltb x y) eqn:C.
    + apply Cltb_spec in C. apply IH; [|exact Ny]. rewrite <- Hx in C. clear IH.
      assert (Hxy : Cle_lex (nth best pre (RtoC 0)) y) by (unfold Cle_lex in *; lra).
      unfold first_max. rewrite Ll, Ny. split; [lia|]. split.
      * intros i Hi. destruct (Nat.lt_ge_cases i (List.length pre)) as [H|H].
        -- rewrite app_nth1 by exact H. eapply Cle_lex_trans; [apply Hm, H|exact Hxy].
        -- replace i with (List.length pre) by lia. rewrite Ny. apply Cle_lex_refl.
      * intros i Hi H. rewrite app_nth1 in H by exact Hi. apply C. eapply Cle_lex_trans; [exact H|apply Hm, Hi].
    + apply IH; [|rewrite app_nth1 by exact Hb; exact Hx]. unfold first_max. rewrite Ll. split; [lia|].
      rewrite (app_nth1 pre [y] (RtoC 0) Hb). split.
      * intros i Hi. destruct (Nat.lt_ge_cases i (List.length pre)) as [H|H].
        -- rewrite app_nth1 by exact H. apply Hm, H.
        -- replace i with (List.length pre) by lia. rewrite Ny, Hx.
           destruct (Rtotal_order (fst x) (fst y)) as [|[|]]; unfold Cle_lex.
           ++ exfalso. assert (T : Cltb x y = true) by (apply Cltb_spec; unfold Cle_lex; lra). congruence.
           ++ destruct (Rle_or_lt (snd y) (snd x)); [lra|].
              exfalso. assert (T : Cltb x y = true) by (apply Cltb_spec; unfold Cle_lex; lra). congruence.
           ++ lra.
      * intros i Hi H. rewrite app_nth1 in H by lia. exact (Hf i Hi H).
Qed.

Lemma argmax_spec l k : argmax l = Ok k -> first_max l k.
Proof.
  destruct l as [|x t]; [discriminate|]. intros [= <-]. apply (first_greatest_spec t [x] 0 x); [|reflexivity].
  split; [cbn; lia|]. split; [intros [|i] Hi; [apply Cle_lex_refl|cbn in Hi; lia]|intros i Hi; lia].
Qed.
Lemma argmax_ok l : l <> [] -> exists k, argmax l = Ok k.
Proof. destruct l; [congruence|]. intros _. eexists. reflexivity. Qed.

Lemma grid_flat L k : k < samples L ->
  nth_error (List.concat (sample_grid L)) k
  = Some ((PI * INR (k / n_phi L) / INR L)%R, (PI * INR (k mod n_phi L) / INR L)%R).
Proof.
  intros Hk. unfold samples in Hk. assert (Hp : 0 < n_phi L) by nia.
  assert (Hi : k / n_phi L < n_theta L) by (apply Nat.div_lt_upper_bound; lia).
  assert (Hj : k mod n_phi L < n_phi L) by (apply Nat.mod_upper_bound; lia).
  pose proof (grid_sample L _ _ Hi Hj) as G.
  rewrite <- G. unfold sample.
  assert (Hr := grid_lengths L). assert (Hh := grid_height L).
  rewrite (Nat.div_mod k (n_phi L)) at 1 by lia. revert Hi. generalize (k mod n_phi L) Hj (k / n_phi L).
  clear G. rewrite <- Hh. clear Hh Hk Hj k. intros j Hj. induction (sample_grid L) as [|r g IH]; intros i Hi; [cbn in Hi; lia|].
  cbn [List.concat]. destruct i as [|i].
  - rewrite Nat.mul_0_r. cbn [Nat.add nth_error]. rewrite nth_error_app1 by (rewrite (Hr r); [exact Hj|left; reflexivity]). reflexivity.
  - rewrite nth_error_app2 by (rewrite (Hr r) by (left; reflexivity); nia). rewrite (Hr r) by (left; reflexivity).
    replace (n_phi L * S i + j - n_phi L) with (n_phi L * i + j) by nia. cbn [nth_error]. apply IH.
    + intros; apply Hr; right; assumption.
    + cbn in Hi. lia.
Qed.
