(** * The sifting convolution: property C23. *)
From Coq Require Import List ZArith Arith Bool Reals Lra Lia.
From Coquelicot Require Import Complex.
From Verif Require Import Base ListLemmas RSum CSum Numpy Eigen Convolution ConvolutionProofs.
Import ListNotations.
Local Open Scope nat_scope.

(** Specification: [h] is the sifting convolution of [f] and [g] on the first
    [n] coefficients. *)
Definition sifted (n : nat) (f g h : list C) : Prop :=
  length h = n /\
  forall i, i < n -> nth i h (RtoC 0) = Cmult (nth i f (RtoC 0)) (Cconj (nth i g (RtoC 0))).

(** The number of coefficients used: all of them, or the Shannon number. *)
Definition used (shannon : option nat) (p : nat) : nat :=
  match shannon with None => p | Some n => Nat.min n p end.

Lemma kept_used s p : kept (option_map Z.of_nat s) p = used s p.
Proof.
  destruct s as [n|]; [|reflexivity]. cbn. destruct (Z.leb_spec 0 (Z.of_nat n)); [|lia].
  rewrite Nat2Z.id. reflexivity.
Qed.
Lemma used_le s p : used s p <= p.
Proof. rewrite <- kept_used. apply kept_le. Qed.

Lemma zip_sifted s f g : length f = length g ->
  sifted (used s (length f)) f g
    (firstn (used s (length f)) (zip (fun x y => Cmult x (Cconj y)) f g)).
Proof.
  intros H. pose proof (used_le s (length f)). split.
  - rewrite firstn_length, zip_length. lia.
  - intros i Hi. rewrite nth_firstn_lt by exact Hi. apply nth_zip; [exact H|lia].
Qed.

(** The convolution of two coefficient arrays of the same length: the first
    [N] entries (all, without a Shannon number) of [f conj(g)]. *)
Theorem C23_entries : forall f g s, length f = length g -> exists h,
  sifting_convolution (A1 f) (A1 g) (option_map Z.of_nat s) = Ok (A1 h) /\
  sifted (used s (length f)) f g h.
Proof.
  intros f g s H. eexists. split; [apply sifting_1d, H|]. rewrite kept_used. apply zip_sifted, H.
Qed.
Print Assumptions C23_entries.

Lemma sifted_unique n f g h h' : sifted n f g h -> sifted n f g h' -> h = h'.
Proof.
  intros [L1 H1] [L2 H2]. apply (nth_ext _ _ (RtoC 0) (RtoC 0)); [congruence|].
  intros i Hi. rewrite H1, H2 by congruence. reflexivity.
Qed.

(** Inversion: a successful call returns the specified array. *)
Lemma conv_sifted f g s h : length f = length g ->
  sifting_convolution (A1 f) (A1 g) (option_map Z.of_nat s) = Ok (A1 h) ->
  sifted (used s (length f)) f g h.
Proof.
  intros H E. destruct (C23_entries f g s H) as (h' & E' & S'). rewrite E in E'. injection E' as <-. exact S'.
Qed.

(** Linear combinations of coefficient arrays. *)
Definition comb (a : C) (f : list C) (b : C) (f' : list C) : list C :=
  map (fun p => Cplus (Cmult a (fst p)) (Cmult b (snd p))) (combine f f').
Lemma comb_length a f b f' : length f = length f' -> length (comb a f b f') = length f.
Proof. intros. unfold comb. rewrite map_length, combine_length. lia. Qed.
Lemma nth_comb a f b f' i : length f = length f' ->
  nth i (comb a f b f') (RtoC 0)
  = Cplus (Cmult a (nth i f (RtoC 0))) (Cmult b (nth i f' (RtoC 0))).
Proof.
  intros H. destruct (lt_dec i (length f)) as [Hi|Hi].
  - apply nth_error_nth. unfold comb. rewrite nth_error_map.
    rewrite (nth_error_nth' _ (RtoC 0, RtoC 0)) by (rewrite combine_length; lia).
    rewrite combine_nth by exact H. reflexivity.
  - rewrite !nth_overflow by (rewrite ?comb_length; lia). ring.
Qed.

(** Linear in the first argument. *)
Theorem C23_linear : forall f f' g s a b h h', length f = length g -> length f' = length g ->
  sifting_convolution (A1 f) (A1 g) (option_map Z.of_nat s) = Ok (A1 h) ->
  sifting_convolution (A1 f') (A1 g) (option_map Z.of_nat s) = Ok (A1 h') ->
  sifting_convolution (A1 (comb a f b f')) (A1 g) (option_map Z.of_nat s) = Ok (A1 (comb a h b h')).
Proof.
  intros f f' g s a b h h' H H' E E'.
  apply conv_sifted in E; [|exact H]. apply conv_sifted in E'; [|exact H'].
  assert (Hc : length (comb a f b f') = length f) by (apply comb_length; congruence).
  destruct (C23_entries (comb a f b f') g s ltac:(congruence)) as (h'' & E'' & S''). rewrite E''.
  do 2 f_equal. rewrite Hc in S''. rewrite H' in E'. rewrite H in *.
  eapply sifted_unique; [exact S''|]. destruct E as [L1 S1], E' as [L2 S2]. split.
  - rewrite comb_length by congruence. exact L1.
  - intros i Hi. rewrite !nth_comb by congruence. rewrite S1, S2 by exact Hi. ring.
Qed.
Print Assumptions C23_linear.

(** Conjugate-linear in the second argument. *)
Theorem C23_conjugate_linear : forall f g g' s a b h h', length f = length g -> length f = length g' ->
  sifting_convolution (A1 f) (A1 g) (option_map Z.of_nat s) = Ok (A1 h) ->
  sifting_convolution (A1 f) (A1 g') (option_map Z.of_nat s) = Ok (A1 h') ->
  sifting_convolution (A1 f) (A1 (comb a g b g')) (option_map Z.of_nat s)
  = Ok (A1 (comb (Cconj a) h (Cconj b) h')).
Proof.
  intros f g g' s a b h h' H H' E E'.
  apply conv_sifted in E; [|exact H]. apply conv_sifted in E'; [|exact H'].
  assert (Hc : length (comb a g b g') = length f) by (rewrite comb_length; congruence).
  destruct (C23_entries f (comb a g b g') s ltac:(congruence)) as (h'' & E'' & S''). rewrite E''.
  do 2 f_equal. eapply sifted_unique; [exact S''|]. destruct E as [L1 S1], E' as [L2 S2]. split.
  - rewrite comb_length by congruence. exact L1.
  - intros i Hi. rewrite !nth_comb by congruence. rewrite S1, S2 by exact Hi.
    rewrite Cconj_plus, !Cconj_mult. ring.
Qed.
Print Assumptions C23_conjugate_linear.

(** The all-ones array is a right unit (up to truncation). *)
Theorem C23_unit : forall f s,
  sifting_convolution (A1 f) (A1 (repeat (RtoC 1) (length f))) (option_map Z.of_nat s)
  = Ok (A1 (firstn (used s (length f)) f)).
Proof.
  intros f s. destruct (C23_entries f (repeat (RtoC 1) (length f)) s) as (h & E & Hs).
  { rewrite repeat_length. reflexivity. }
  rewrite E. do 2 f_equal. eapply sifted_unique; [exact Hs|]. pose proof (used_le s (length f)). split.
  - rewrite firstn_length. lia.
  - intros i Hi. rewrite nth_firstn_lt by exact Hi.
    assert (N1 : nth i (repeat (RtoC 1) (length f)) (RtoC 0) = RtoC 1).
    { apply nth_error_nth, nth_error_repeat. lia. }
    rewrite N1, Cconj_R. ring.
Qed.
Print Assumptions C23_unit.

(** Exchanging the arguments conjugates the result. *)
Theorem C23_swap : forall f g s h, length f = length g ->
  sifting_convolution (A1 f) (A1 g) (option_map Z.of_nat s) = Ok (A1 h) ->
  sifting_convolution (A1 g) (A1 f) (option_map Z.of_nat s) = Ok (A1 (map Cconj h)).
Proof.
  intros f g s h H E. apply conv_sifted in E; [|exact H].
  destruct (C23_entries g f s ltac:(congruence)) as (h' & E' & S'). rewrite E'. do 2 f_equal.
  rewrite <- H in S'. eapply sifted_unique; [exact S'|]. destruct E as [L1 S1]. split.
  - rewrite map_length. exact L1.
  - intros i Hi. rewrite <- (Cconj_R 0), map_nth, S1 by exact Hi.
    rewrite Cconj_mult, Cconj_conj, !Cconj_R. ring.
Qed.
Print Assumptions C23_swap.

(** Truncation commutes with the convolution: truncating the arguments (which
    may then have different lengths) or the result is the same. *)
Theorem C23_truncation : forall f g n, n <= length f -> n <= length g ->
  sifting_convolution (A1 f) (A1 g) (Some (Z.of_nat n))
  = sifting_convolution (A1 (firstn n f)) (A1 (firstn n g)) None /\
  (length f = length g -> forall h, sifting_convolution (A1 f) (A1 g) None = Ok (A1 h) ->
   sifting_convolution (A1 f) (A1 g) (Some (Z.of_nat n)) = Ok (A1 (firstn n h))).
Proof.
  intros f g n Hf Hg. split; [apply sifting_1d_prefix; assumption|].
  intros H h E. apply (conv_sifted f g None h H) in E. destruct E as [L1 S1]. cbn [used] in *.
  destruct (C23_entries f g (Some n) H) as (h' & E' & S'). cbn [option_map used] in *. rewrite E'.
  do 2 f_equal. replace (Nat.min n (length f)) with n in S' by lia.
  eapply sifted_unique; [exact S'|]. split.
  - rewrite firstn_length. lia.
  - intros i Hi. rewrite nth_firstn_lt by exact Hi. apply S1. lia.
Qed.
Print Assumptions C23_truncation.

(** Every row of a two-dimensional first argument is convolved with a
    one-dimensional second one, and with the corresponding row of a
    two-dimensional one. *)
Theorem C23_rows : forall cols rows g s,
  (forall r, In r rows -> length r = cols) -> length g = cols -> exists rows',
  sifting_convolution (A2 cols rows) (A1 g) (option_map Z.of_nat s) = Ok (A2 (used s cols) rows') /\
  length rows' = length rows /\
  forall j, j < length rows -> sifted (used s cols) (nth j rows []) g (nth j rows' []).
Proof.
  intros cols rows g s Hr Hg. eexists. split; [rewrite <- kept_used; apply sifting_2d_1d; assumption|].
  split; [apply map_length|]. intros j Hj.
  destruct (nth_error rows j) as [r|] eqn:E; [|apply nth_error_None in E; lia].
  rewrite (nth_error_nth _ _ _ E).
  rewrite (nth_error_nth (map _ rows) j [] (map_nth_error _ _ _ E)).
  pose proof (Hr r (nth_error_In _ _ E)) as Hl. rewrite kept_used, <- Hl. apply zip_sifted. congruence.
Qed.
Print Assumptions C23_rows.

Theorem C23_row_pairs : forall cols rows grows s,
  (forall r, In r rows -> length r = cols) -> (forall r, In r grows -> length r = cols) ->
  length rows = length grows -> exists rows',
  sifting_convolution (A2 cols rows) (A2 cols grows) (option_map Z.of_nat s) = Ok (A2 (used s cols) rows') /\
  length rows' = length rows /\
  forall j, j < length rows -> sifted (used s cols) (nth j rows []) (nth j grows []) (nth j rows' []).
Proof.
  intros cols rows grows s Hr Hg Hl. eexists. split; [rewrite <- kept_used; apply sifting_2d_2d; assumption|].
  split; [rewrite map_length, combine_length; lia|]. intros j Hj.
  assert (Hc : nth_error (combine rows grows) j = Some (nth j (combine rows grows) ([], []))).
  { apply nth_error_nth'. rewrite combine_length. lia. }
  rewrite (nth_error_nth (map _ (combine rows grows)) j [] (map_nth_error _ _ _ Hc)).
  rewrite combine_nth by exact Hl. cbn [fst snd].
  pose proof (Hr (nth j rows []) (nth_In _ _ Hj)) as H1.
  assert (Hj' : j < length grows) by lia.
  pose proof (Hg (nth j grows []) (nth_In _ _ Hj')) as H2.
  rewrite kept_used, <- H1. apply zip_sifted. congruence.
Qed.
Print Assumptions C23_row_pairs.

(** Arrays of different lengths (neither of length one) are rejected. *)
Theorem C23_mismatch : forall f g, length f <> length g -> length f <> 1 -> length g <> 1 ->
  sifting_convolution (A1 f) (A1 g) None = Err ValueError.
Proof. exact sifting_1d_mismatch. Qed.
Print Assumptions C23_mismatch.

(** Concrete cases. *)
Example C23_example : exists h,
  sifting_convolution (A1 [(1, 2); (3, 4); (5, 6)]%R) (A1 [(0, 1); (1, 1); (7, 7)]%R) (Some 2%Z) = Ok (A1 h) /\
  h = [(2, -1); (7, 1)]%R.
Proof.
  eexists. split; [reflexivity|].
  cbn [map combine py_prefix_opt py_prefix Z.leb Z.compare Z.to_nat fst snd transpose seq nth length].
  try change (Pos.to_nat 2) with 2. cbn [Nat.eqb map combine firstn fst snd transpose seq nth].
  repeat match goal with |- _ :: _ = _ :: _ => f_equal end; apply C_ext; cbn; ring.
Qed.
Example C23_example_rows : exists rows,
  sifting_convolution (A2 2 [[(1, 0); (2, 0)]; [(3, 0); (0, 1)]]%R) (A1 [(0, 1); (1, 0)]%R) None = Ok (A2 2 rows) /\
  rows = [[(0, -1); (2, 0)]; [(0, -3); (0, 1)]]%R.
Proof.
  eexists. split; [reflexivity|].
  cbn [map combine py_prefix_opt py_prefix Z.leb Z.compare Z.to_nat fst snd transpose seq nth length].
  try change (Pos.to_nat 2) with 2. cbn [Nat.eqb map combine firstn fst snd transpose seq nth].
  repeat match goal with |- _ :: _ = _ :: _ => f_equal end; apply C_ext; cbn; ring.
Qed.
