(** * Proofs about the numpy helpers of the plotting code. *)
From Coq Require Import List ZArith Arith Bool Reals Lia Lra Psatz String.
From Coquelicot Require Import Complex.
From Verif Require Import Base RSum CSum PyNum PyNumProofs Region Mask MaskProofs Numpy Eigen EigenProofs NoiseProofs
  Quadrature Transform Functions Mesh Plot.
Import ListNotations.
Local Open Scope nat_scope.
Local Open Scope list_scope.
Notation length := List.length.
Notation concat := List.concat.

(** Position [b] holds the least entry of [l], and the entries before it are
    larger. *)
Definition first_least (l : list R) (b : nat) : Prop :=
  b < length l /\ (forall k, k < length l -> (nth b l 0 <= nth k l 0)%R) /\
  (forall k, k < b -> (nth b l 0 < nth k l 0)%R).

Lemma argmin_from_spec l : forall pre i best least, length pre = i -> nth best pre 0%R = least ->
  first_least pre best -> first_least (pre ++ l) (argmin_from i best least l).
Proof.
  induction l as [|y t IH]; intros pre i best least Hi Hb (B & M & F); cbn [argmin_from].
  { rewrite app_nil_r. repeat split; assumption. }
  replace (pre ++ y :: t) with ((pre ++ [y]) ++ t) by (rewrite <- app_assoc; reflexivity).
  assert (Hl : length (pre ++ [y]) = S i) by (rewrite app_length; cbn; lia).
  assert (Hy : nth i (pre ++ [y]) 0%R = y) by (rewrite app_nth2, Hi, Nat.sub_diag by lia; reflexivity).
  assert (Hp : forall k, k < i -> nth k (pre ++ [y]) 0%R = nth k pre 0%R) by (intros; apply app_nth1; lia).
  destruct (Rltb y least) eqn:E.
  - apply Rltb_spec in E. apply IH; [exact Hl|exact Hy|]. repeat split.
    + lia.
    + intros k Hk. rewrite Hy. destruct (Nat.eq_dec k i) as [->|]; [rewrite Hy; lra|].
      rewrite Hp by lia. specialize (M k). rewrite Hb in M. assert (k < length pre) by lia. specialize (M H). lra.
    + intros k Hk. rewrite Hy, Hp by lia. specialize (M k). rewrite Hb in M. assert (k < length pre) by lia.
      specialize (M H). lra.
  - apply Rltb_false in E. apply IH; [exact Hl|rewrite Hp by lia; exact Hb|]. repeat split.
    + lia.
    + intros k Hk. rewrite (Hp best) by lia. rewrite Hb. destruct (Nat.eq_dec k i) as [->|]; [rewrite Hy; lra|].
      rewrite Hp by lia. rewrite <- Hb. apply M. lia.
    + intros k Hk. rewrite (Hp best), (Hp k) by lia. apply F. exact Hk.
Qed.

Lemma argmin_ok l : l <> [] -> exists b, argmin l = Ok b /\ first_least l b.
Proof.
  destruct l as [|x t]; [congruence|]. intros _. exists (argmin_from 1 0 x t). split; [reflexivity|].
  apply (argmin_from_spec t [x] 1 0 x); [reflexivity|reflexivity|].
  repeat split; cbn [length]; [lia| |]; intros k Hk; [assert (k = 0) by lia; subst; lra|lia].
Qed.

Lemma first_least_unique l a b : first_least l a -> first_least l b -> a = b.
Proof.
  intros (A & MA & FA) (B & MB & FB). destruct (Nat.lt_trichotomy a b) as [H|[H|H]]; [|exact H|].
  - specialize (FB a H). specialize (MA b B). lra.
  - specialize (FA b H). specialize (MB a A). lra.
Qed.

Lemma fold_max_spec t : forall x, let m := fold_left Rmax t x in
  In m (x :: t) /\ forall y, In y (x :: t) -> (y <= m)%R.
Proof.
  induction t as [|y t IH]; intros x; cbn [fold_left].
  - split; [left; reflexivity|]. intros y [->|[]]. lra.
  - destruct (IH (Rmax x y)) as [I M]. split.
    + destruct I as [I|I]; [|right; right; exact I]. rewrite <- I. unfold Rmax. destruct (Rle_dec x y); cbn; auto.
    + intros z [->|[->|Hz]].
      * eapply Rle_trans; [apply Rmax_l|apply M; left; reflexivity].
      * eapply Rle_trans; [apply Rmax_r|apply M; left; reflexivity].
      * apply M. right. exact Hz.
Qed.

Lemma fold_min_spec t : forall x, let m := fold_left Rmin t x in
  In m (x :: t) /\ forall y, In y (x :: t) -> (m <= y)%R.
Proof.
  induction t as [|y t IH]; intros x; cbn [fold_left].
  - split; [left; reflexivity|]. intros y [->|[]]. lra.
  - destruct (IH (Rmin x y)) as [I M]. split.
    + destruct I as [I|I]; [|right; right; exact I]. rewrite <- I. unfold Rmin. destruct (Rle_dec x y); cbn; auto.
    + intros z [->|[->|Hz]].
      * eapply Rle_trans; [apply M; left; reflexivity|apply Rmin_l].
      * eapply Rle_trans; [apply M; left; reflexivity|apply Rmin_r].
      * apply M. right. exact Hz.
Qed.

(** [m] is the largest (smallest) entry of [l]. *)
Definition is_max (l : list R) (m : R) : Prop := In m l /\ forall y, In y l -> (y <= m)%R.
Definition is_min (l : list R) (m : R) : Prop := In m l /\ forall y, In y l -> (m <= y)%R.

Lemma np_max_ok l : l <> [] -> exists m, np_max l = Ok m /\ is_max l m.
Proof. destruct l as [|x t]; [congruence|]. intros _. eexists. split; [reflexivity|apply fold_max_spec]. Qed.
Lemma np_min_ok l : l <> [] -> exists m, np_min l = Ok m /\ is_min l m.
Proof. destruct l as [|x t]; [congruence|]. intros _. eexists. split; [reflexivity|apply fold_min_spec]. Qed.
Lemma np_max_spec l m : np_max l = Ok m -> is_max l m.
Proof. destruct l as [|x t]; [discriminate|]. intros [= <-]. apply fold_max_spec. Qed.
Lemma np_min_spec l m : np_min l = Ok m -> is_min l m.
Proof. destruct l as [|x t]; [discriminate|]. intros [= <-]. apply fold_min_spec. Qed.

Lemma allclose_spec f x : allclose f x = true <->
  forall y, In y f -> (Rabs (y - x) <= 1 / 10 ^ 8 + 1 / 10 ^ 5 * Rabs x)%R.
Proof.
  unfold allclose. rewrite forallb_forall. split; intros H y Hy; specialize (H y Hy); apply Rleb_spec; exact H.
Qed.

Lemma all_zero_spec f : forallb (fun y => Reqb y 0) f = true <-> forall y, In y f -> y = 0%R.
Proof. rewrite forallb_forall. split; intros H y Hy; specialize (H y Hy); apply Reqb_spec; exact H. Qed.

(** Closing: every row of [w] entries gets its first entry appended. *)
Lemma insert_first_ok {A} (w : nat) (a : list (list A)) : 1 <= w -> (forall row, In row a -> length row = w) ->
  insert_first_column w a = Ok (map (fun row => row ++ firstn 1 row) a).
Proof.
  intros Hw H. unfold insert_first_column. apply rmap_ok. intros row Hr. specialize (H row Hr).
  destruct row as [|x t]; [cbn in H; lia|]. unfold np_get. cbn [nth_error rbind].
  rewrite H, Nat.leb_refl. rewrite firstn_all2, skipn_all2 by lia. reflexivity.
Qed.

Lemma sample_closed {A} (w : nat) (a : list (list A)) i j : 1 <= w -> (forall row, In row a -> length row = w) ->
  sample (map (fun row => row ++ firstn 1 row) a) i j =
  if j <? w then sample a i j else if j =? w then sample a i 0 else None.
Proof.
  intros Hw H. unfold sample. rewrite nth_error_map. destruct (nth_error a i) as [row|] eqn:E; cbn [option_map].
  2:{ destruct (j <? w); [reflexivity|]. destruct (j =? w); reflexivity. }
  assert (Hr : length row = w) by (apply H; eapply nth_error_In; exact E).
  destruct (Nat.ltb_spec j w).
  - apply nth_error_app1. lia.
  - rewrite nth_error_app2 by lia. rewrite Hr. destruct row as [|x t]; [cbn in Hr; lia|].
    cbn [firstn nth_error]. destruct (Nat.eqb_spec j w) as [->|].
    + rewrite Nat.sub_diag. reflexivity.
    + destruct (j - w) as [|[|k]] eqn:E'; [lia|reflexivity|reflexivity].
Qed.

Lemma sample_where cond a x out i j : where_rows cond a x = Ok out ->
  sample out i j = match sample cond i j, sample a i j with
                   | Some true, Some y => Some y
                   | Some false, Some _ => Some x
                   | _, _ => None
                   end.
Proof.
  unfold where_rows. destruct (shape_eqb _ _) eqn:E; [|discriminate]. apply shape_eqb_spec in E. intros [= <-].
  unfold sample. rewrite nth_error_map.
  revert a E i. induction cond as [|c cond IH]; intros [|r a] E i; try discriminate E.
  - destruct i; reflexivity.
  - unfold shape in E. cbn [map] in E. injection E as E1 E2. destruct i as [|i]; cbn [combine nth_error option_map].
    + cbn [fst snd]. clear -E1. revert r E1 j. induction c as [|b c IH]; intros [|y r] E1 j; try discriminate E1.
      * destruct j; reflexivity.
      * destruct j as [|j]; cbn; [destruct b; reflexivity|]. apply IH. cbn in E1. lia.
    + apply (IH a E2 i).
Qed.

Lemma where_ok cond a x : shape cond = shape a -> exists out, where_rows cond a x = Ok out /\ shape out = shape a.
Proof.
  intros E. unfold where_rows. rewrite (proj2 (shape_eqb_spec _ _) E). eexists. split; [reflexivity|].
  revert a E. induction cond as [|c cond IH]; intros [|r a] E; try discriminate E; [reflexivity|].
  unfold shape in *. cbn [map] in E. injection E as E1 E2. cbn [combine map fst snd]. f_equal; [|apply IH; exact E2].
  rewrite map_length, combine_length. lia.
Qed.

Lemma sample_rows_of {A} (h w : nat) (l : list A) i j : i < h -> j < w ->
  sample (rows_of h w l) i j = nth_error l (i * w + j).
Proof.
  intros Hi Hj. unfold sample, rows_of. rewrite nth_error_map.
  rewrite (nth_error_nth' (seq 0 h) 0) by (rewrite seq_length; exact Hi). rewrite seq_nth by exact Hi. cbn [option_map Nat.add].
  revert Hj. generalize (i * w). intros o Hj. revert l j Hj. induction o as [|o IH]; intros l j Hj.
  - rewrite skipn_O. cbn [Nat.add]. revert l w Hj. induction j as [|j IHj]; intros [|x l] [|w] Hj; try lia; try reflexivity.
    cbn [firstn nth_error]. apply IHj. lia.
  - destruct l as [|x l]; [rewrite skipn_nil, firstn_nil; destruct j; reflexivity|]. cbn [skipn Nat.add nth_error]. apply IH. exact Hj.
Qed.

Lemma rows_of_lengths {A} (h w : nat) (l : list A) : length l = h * w -> forall row, In row (rows_of h w l) -> length row = w.
Proof.
  intros Hl row H. unfold rows_of in H. apply in_map_iff in H as (i & <- & Hi). apply in_seq in Hi.
  rewrite firstn_length, skipn_length. nia.
Qed.

Lemma rows_of_height {A} (h w : nat) (l : list A) : length (rows_of h w l) = h.
Proof. unfold rows_of. rewrite map_length, seq_length. reflexivity. Qed.

Lemma rows_of_concat {A} (h w : nat) : forall l : list A, length l = h * w -> concat (rows_of h w l) = l.
Proof.
  unfold rows_of. induction h as [|h IH]; intros l Hl.
  - destruct l; [reflexivity|cbn in Hl; lia].
  - cbn [seq map concat]. rewrite Nat.mul_0_l, skipn_O.
    rewrite <- (firstn_skipn w l) at 2. f_equal. rewrite <- seq_shift, map_map.
    rewrite <- (IH (skipn w l)) by (rewrite skipn_length; nia). f_equal. apply map_ext. intros i.
    f_equal. cbn [Nat.mul]. clear. generalize (i * w). intros o. revert l. induction w as [|w IHw]; intros l; [reflexivity|].
    destruct l as [|x l]; [cbn; rewrite !skipn_nil; reflexivity|]. cbn [Nat.add skipn]. apply IHw.
Qed.

Lemma grid_lengths L row : In row (sample_grid L) -> length row = n_phi L.
Proof.
  unfold sample_grid. intros H. apply in_map_iff in H as (t & <- & _). unfold phis. rewrite !map_length, seq_length. reflexivity.
Qed.
Lemma grid_height L : length (sample_grid L) = n_theta L.
Proof. unfold sample_grid, thetas. rewrite !map_length, seq_length. reflexivity. Qed.

Lemma grid_sample L i j : i < n_theta L -> j < n_phi L ->
  sample (sample_grid L) i j = Some ((PI * INR i / INR L)%R, (PI * INR j / INR L)%R).
Proof.
  intros Hi Hj. unfold sample, sample_grid, thetas. rewrite map_map, nth_error_map.
  rewrite (nth_error_nth' (seq 0 (n_theta L)) 0) by (rewrite seq_length; exact Hi). rewrite seq_nth by exact Hi. cbn [option_map].
  unfold phis. rewrite map_map, nth_error_map, (nth_error_nth' (seq 0 (n_phi L)) 0) by (rewrite seq_length; exact Hj).
  rewrite seq_nth by exact Hj. reflexivity.
Qed.

Lemma grid_shape L : shape (sample_grid L) = repeat (n_phi L) (n_theta L).
Proof.
  unfold shape. rewrite <- grid_height. generalize (grid_lengths L). induction (sample_grid L) as [|r g IH]; intros H; [reflexivity|].
  cbn [map length repeat]. f_equal; [apply H; left; reflexivity|apply IH; intros; apply H; right; assumption].
Qed.

Lemma shape_lengths {A} (a : list (list A)) h w : length a = h -> (forall row, In row a -> length row = w) -> shape a = repeat w h.
Proof.
  intros <- H. unfold shape. induction a as [|r a IH]; [reflexivity|]. cbn [map length repeat].
  f_equal; [apply H; left; reflexivity|apply IH; intros; apply H; right; assumption].
Qed.

Lemma shape_rows {A} (a : list (list A)) h w : shape a = repeat w h -> length a = h /\ forall row, In row a -> length row = w.
Proof.
  unfold shape. intros H. split.
  - rewrite <- (map_length (@length A) a), H. apply repeat_length.
  - intros row Hr. apply (repeat_spec h w). rewrite <- H. apply in_map. exact Hr.
Qed.
