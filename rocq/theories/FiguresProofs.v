(** * Lemmas on the figures. *)
From Coq Require Import List ZArith Arith Bool Reals Lia Lra String Sorting.Permutation Sorting.Sorted.
From Coquelicot Require Import Complex.
From Verif Require Import Base ListLemmas RSum CSum PyNum Numpy Quadrature SpecEigen Eigen EigenProofs SelectProofs Cache Plot Figures.
Import ListNotations.
Local Open Scope nat_scope.
Local Open Scope list_scope.

Lemma ceiling_unique x z : (IZR z - 1 < x <= IZR z)%R -> ceiling x = z.
Proof.
  intros H. unfold ceiling. pose proof (base_Int_part (- x)) as [A B].
  assert (P : (IZR (- z) - 1 < IZR (Int_part (- x)))%R) by (rewrite opp_IZR; lra).
  assert (Q : (IZR (Int_part (- x)) < IZR (- z) + 1)%R) by (rewrite opp_IZR; lra).
  rewrite <- minus_IZR in P. rewrite <- plus_IZR in Q. apply lt_IZR in P. apply lt_IZR in Q. lia.
Qed.

Lemma ceiling_nat x n : (INR n - 1 < x <= INR n)%R -> Z.to_nat (ceiling x) = n.
Proof. rewrite INR_IZR_INZ. intros H. rewrite (ceiling_unique _ _ H). apply Nat2Z.id. Qed.

Lemma np_arange_ok start stop step n : (0 < step)%R -> (INR n - 1 < (stop - start) / step <= INR n)%R ->
  np_arange start stop step = map (fun k => start + INR k * step)%R (seq 0 n).
Proof. intros _ H. unfold np_arange. rewrite (ceiling_nat _ n H). reflexivity. Qed.

Lemma points_ok {A} (x : list R) (y : list A) : List.length x = List.length y -> points x y = Ok (combine x y).
Proof. intros H. unfold points. rewrite H, Nat.eqb_refl. reflexivity. Qed.

(** An increasing list is cut at the number of entries below the bound. *)
Lemma below_cut (l : list R) (c : R) : StronglySorted Rlt l ->
  let i := List.length (filter (fun t => Rltb t c) l) in
  i <= List.length l /\ Forall (fun t => (t < c)%R) (firstn i l) /\ Forall (fun t => (c <= t)%R) (skipn i l).
Proof.
  cbv zeta. induction 1 as [|a l HS IH HF]; cbn [filter].
  - cbn. repeat split; constructor.
  - destruct (Rltb a c) eqn:E.
    + cbn [List.length firstn skipn]. destruct IH as (A & B & D). split; [lia|]. split; [|exact D].
      constructor; [|exact B]. unfold Rltb in E. destruct (Rlt_dec a c); [assumption|discriminate].
    + assert (Z0 : filter (fun t => Rltb t c) l = []).
      { unfold Rltb in E. destruct (Rlt_dec a c) as [|N]; [discriminate|].
        clear - N HF. induction HF as [|b l Hb HF IH]; [reflexivity|]. cbn [filter]. unfold Rltb at 1. destruct (Rlt_dec b c); [lra|exact IH]. }
      rewrite Z0. cbn [List.length firstn skipn]. split; [lia|]. split; [constructor|].
      unfold Rltb in E. destruct (Rlt_dec a c) as [|N]; [discriminate|].
      constructor; [lra|]. eapply Forall_impl; [|exact HF]. intros b Hb. cbn in Hb. lra.
Qed.

Lemma sorted_map_seq (f : nat -> R) : (forall i j, i < j -> (f i < f j)%R) -> forall n s, StronglySorted Rlt (map f (seq s n)).
Proof.
  intros H. induction n as [|n IH]; intros s; cbn; constructor; [apply IH|].
  apply Forall_forall. intros x Hx. apply in_map_iff in Hx. destruct Hx as (k & <- & Hk). apply in_seq in Hk. apply H. lia.
Qed.

(** Entries of the positions found by [np.where]. *)
Lemma fancy_nth {A} (d : A) l : forall idx out k, fancy l idx = Ok out -> k < List.length idx -> nth k out d = nth (nth k idx 0) l d.
Proof.
  induction idx as [|i idx IH]; intros out k H Hk; [cbn in Hk; lia|].
  unfold fancy in H. cbn [rmap] in H. destruct (nth_error l i) as [a|] eqn:E; [|discriminate H]. cbn [rbind] in H.
  destruct (rmap _ idx) as [o|] eqn:E2; [|discriminate H]. cbn [rbind] in H. injection H as <-.
  destruct k as [|k]; cbn [nth]; [symmetry; apply (nth_error_nth l i d E)|]. apply IH; [exact E2|cbn in Hk; lia].
Qed.

Lemma fancy_length {A} (l : list A) : forall idx out, fancy l idx = Ok out -> List.length out = List.length idx.
Proof.
  induction idx as [|i idx IH]; intros out H; unfold fancy in H; cbn [rmap] in H; [injection H as <-; reflexivity|].
  destruct (nth_error l i) as [a|]; [|discriminate H]. cbn [rbind] in H.
  destruct (rmap _ idx) as [o|] eqn:E2; [|discriminate H]. cbn [rbind] in H. injection H as <-. cbn. f_equal. apply IH. exact E2.
Qed.

(** The [rank]-th marked position has [rank] marked positions before it. *)
Lemma where_rank (mask : list bool) : forall k p, nth_error (np_where mask) k = Some p ->
  nth_error mask p = Some true /\ List.length (filter (fun b => b) (firstn p mask)) = k.
Proof.
  induction mask as [|b mask IH]; intros k p H; [destruct k; discriminate H|].
  rewrite np_where_cons in H. destruct b; cbn [app] in H.
  - destruct k as [|k]; [injection H as <-; split; reflexivity|]. cbn [nth_error] in H.
    rewrite nth_error_map in H. destruct (nth_error (np_where mask) k) as [q|] eqn:E; [|discriminate H]. injection H as <-.
    destruct (IH k q E) as [A B]. split; [exact A|]. cbn [firstn filter List.length]. f_equal. exact B.
  - rewrite nth_error_map in H. destruct (nth_error (np_where mask) k) as [q|] eqn:E; [|discriminate H]. injection H as <-.
    destruct (IH k q E) as [A B]. split; [exact A|]. cbn [firstn filter]. exact B.
Qed.

(** Sorting. *)
Lemma np_sort_perm argsort a : argsort_ok argsort -> Permutation (np_sort argsort a) a.
Proof.
  intros HA. destruct (HA a) as [P _]. unfold np_sort. rewrite P.
  assert (E : map (fun i => nth i a 0%R) (seq 0 (List.length a)) = a); [|rewrite E; reflexivity].
  apply (nth_ext _ _ 0%R 0%R); [rewrite map_length, seq_length; reflexivity|].
  intros k Hk. rewrite map_length, seq_length in Hk.
  rewrite (nth_indep _ 0%R (nth 0 a 0%R)) by (rewrite map_length, seq_length; exact Hk).
  rewrite (map_nth (fun i => nth i a 0%R)), seq_nth by exact Hk. reflexivity.
Qed.

Lemma np_sort_desc argsort a : argsort_ok argsort -> descending (rev (np_sort argsort a)).
Proof.
  intros HA. unfold np_sort. rewrite <- map_rev. exact (idx_descending argsort HA a).
Qed.

(** The ticks. *)
Lemma log2_up_bounds n : 1 <= n -> (INR (Nat.log2_up n) - 1 < ln (INR n) / ln 2 <= INR (Nat.log2_up n))%R.
Proof.
  intros Hn. assert (P2 : (0 < ln 2)%R) by (rewrite <- ln_1; apply ln_increasing; lra).
  assert (PN : (0 < INR n)%R) by (apply lt_0_INR; lia).
  assert (LP : forall k, ln (INR (2 ^ k)) = (INR k * ln 2)%R).
  { intros k. rewrite pow_INR. replace (INR 2) with 2%R by (cbn; ring).
    induction k as [|k IH]; [cbn; rewrite ln_1; ring|]. rewrite S_INR. cbn [pow]. rewrite ln_mult, IH by (try apply pow_lt; lra). ring. }
  destruct (Nat.eq_dec n 1) as [->|N1].
  - change (Nat.log2_up 1) with 0. cbn [INR]. rewrite ln_1. unfold Rdiv. rewrite Rmult_0_l. lra.
  - destruct (Nat.log2_up_spec n ltac:(lia)) as [A B]. set (k := Nat.log2_up n) in *.
    assert (K1 : 1 <= k) by (pose proof (Nat.log2_up_pos n ltac:(lia)); unfold k; lia).
    split.
    + replace (INR k - 1)%R with (INR (pred k)) by (replace (pred k) with (k - 1) by lia; rewrite minus_INR by lia; cbn; ring).
      apply (Rmult_lt_reg_r (ln 2)); [exact P2|]. unfold Rdiv. rewrite Rmult_assoc, Rinv_l, Rmult_1_r by lra.
      rewrite <- LP. apply ln_increasing; [apply lt_0_INR; pose proof (Nat.pow_nonzero 2 (pred k)); lia|apply lt_INR; exact A].
    + apply (Rmult_le_reg_r (ln 2)); [exact P2|]. unfold Rdiv. rewrite Rmult_assoc, Rinv_l, Rmult_1_r by lra.
      rewrite <- LP. destruct (Nat.eq_dec n (2 ^ k)) as [E|E]; [rewrite <- E; lra|]. apply Rlt_le, ln_increasing; [exact PN|apply lt_INR; lia].
Qed.

Lemma ticks_value n : 1 <= n -> ticks n = map (fun k => 2 ^ k) (seq 0 (S (Nat.log2_up n))).
Proof.
  intros Hn. unfold ticks. rewrite (ceiling_nat _ (S (Nat.log2_up n))); [reflexivity|].
  pose proof (log2_up_bounds n Hn). rewrite S_INR. lra.
Qed.
