(** Proofs about [split_arr_into_chunks]. *)
From Coq Require Import List Arith Lia Permutation Sorted Bool ZArith.
From Coq Require Import ZifyBool ZifyNat.
From Verif Require Import Base Parallel.
Import ListNotations.

(** ** Insertion sort *)
Lemma insert_nat_perm x l : Permutation (insert_nat x l) (x :: l).
Proof.
  induction l as [|y t IH]; simpl; [reflexivity|].
  destruct (x <=? y); [reflexivity|].
  rewrite IH. apply perm_swap.
Qed.

Lemma sort_nat_perm l : Permutation (sort_nat l) l.
Proof.
  induction l as [|x t IH]; simpl; [reflexivity|].
  rewrite insert_nat_perm, IH. reflexivity.
Qed.

Lemma insert_nat_sorted x l :
  StronglySorted le l -> StronglySorted le (insert_nat x l).
Proof.
  induction l as [|y t IH]; simpl; intros H.
  - repeat constructor.
  - inversion H as [|? ? Ht Hy]; subst.
    destruct (x <=? y) eqn:E.
    + constructor; [exact H|]. constructor; [lia|].
      rewrite Forall_forall in *. intros z Hz. specialize (Hy z Hz). lia.
    + constructor; [apply IH; exact Ht|].
      rewrite Forall_forall in *. intros z Hz.
      apply (Permutation_in _ (insert_nat_perm x t)) in Hz.
      destruct Hz as [<-|Hz]; [lia|]. apply Hy; exact Hz.
Qed.

Lemma sort_nat_sorted l : StronglySorted le (sort_nat l).
Proof.
  induction l as [|x t IH]; simpl; [constructor|]. apply insert_nat_sorted, IH.
Qed.

Lemma sorted_nodup_strict l :
  StronglySorted le l -> NoDup l -> StronglySorted lt l.
Proof.
  induction 1 as [|x t Ht IH Hx]; intros Hn; [constructor|].
  inversion Hn as [|? ? Hnin Hnt]; subst.
  constructor; [apply IH; exact Hnt|].
  rewrite Forall_forall in *. intros y Hy.
  specialize (Hx y Hy). assert (x <> y) by (intros ->; contradiction). lia.
Qed.

(** ** The folded range *)
Lemma folded_range_perm n : Permutation (folded_range n) (seq 0 n).
Proof.
  unfold folded_range, arange. rewrite seq_length.
  rewrite <- Permutation_rev, firstn_skipn. reflexivity.
Qed.

Lemma folded_range_length n : length (folded_range n) = n.
Proof. rewrite (Permutation_length (folded_range_perm n)). apply seq_length. Qed.

(** ** Partition by a key *)
Lemma filter_key_partition {A} (f : A -> nat) (k : nat) (l : list A) :
  Forall (fun p => f p < k) l ->
  Permutation (concat (map (fun i => filter (fun p => f p =? i) l) (seq 0 k))) l.
Proof.
  induction l as [|a t IH]; intros H.
  - simpl. clear. induction (seq 0 k) as [|x s IHs]; simpl; [reflexivity|exact IHs].
  - inversion H as [|? ? Ha Ht]; subst. specialize (IH Ht).
    etransitivity; [|apply perm_skip; exact IH]. clear IH.
    assert (Hk : k = f a + (1 + (k - f a - 1))) by lia.
    rewrite Hk. generalize (k - f a - 1). intros r.
    rewrite !seq_app, !map_app, !concat_app. simpl.
    rewrite Nat.eqb_refl.
    assert (E1 : forall s, ~ In (f a) s ->
       map (fun i => if f a =? i then a :: filter (fun p => f p =? i) t
                     else filter (fun p => f p =? i) t) s
       = map (fun i => filter (fun p => f p =? i) t) s).
    { intros s Hs. apply map_ext_in. intros i Hi.
      destruct (f a =? i) eqn:E; [|reflexivity].
      apply Nat.eqb_eq in E. subst. contradiction. }
    rewrite !E1; try (intros Hin; apply in_seq in Hin; lia).
    symmetry. apply Permutation_middle.
Qed.

Lemma combine_seq_fst {A} (l : list A) s :
  map fst (combine (seq s (length l)) l) = seq s (length l).
Proof.
  revert s. induction l as [|x t IH]; intros s; simpl; [reflexivity|].
  f_equal. apply IH.
Qed.

Lemma combine_seq_snd {A} (l : list A) s :
  map snd (combine (seq s (length l)) l) = l.
Proof.
  revert s. induction l as [|x t IH]; intros s; simpl; [reflexivity|].
  f_equal. apply IH.
Qed.

Lemma stride_key {A} i k (l : list A) :
  i < k ->
  stride i k l
  = map snd (filter (fun p => fst p mod k =? i) (combine (seq 0 (length l)) l)).
Proof.
  intros Hi. unfold stride. f_equal. apply filter_ext. intros [p x]. simpl.
  destruct (i <=? p) eqn:E; simpl.
  - assert (Hp : p = i + (p - i)) by lia.
    rewrite Hp at 2. generalize (p - i). intros d.
    apply eq_iff_eq_true. rewrite !Nat.eqb_eq.
    assert (Hk : k <> 0) by lia.
    rewrite <- Nat.add_mod_idemp_r by exact Hk.
    assert (Hd : d mod k < k) by (apply Nat.mod_upper_bound; exact Hk).
    split; intros H.
    + rewrite H, Nat.add_0_r. apply Nat.mod_small; lia.
    + destruct (Nat.lt_ge_cases (i + d mod k) k) as [Hlt|Hge].
      * rewrite Nat.mod_small in H by exact Hlt. lia.
      * assert (Heq : (i + d mod k) mod k = i + d mod k - k).
        { replace (i + d mod k) with ((i + d mod k - k) + 1 * k) at 1 by lia.
          rewrite Nat.mod_add by exact Hk. apply Nat.mod_small; lia. }
        lia.
  - symmetry. apply Nat.eqb_neq. rewrite Nat.mod_small; lia.
Qed.

Lemma strides_partition {A} k (l : list A) :
  0 < k ->
  Permutation (concat (map (fun i => stride i k l) (seq 0 k))) l.
Proof.
  intros Hk.
  rewrite (map_ext_in _ (fun i => map snd
     (filter (fun p => fst p mod k =? i) (combine (seq 0 (length l)) l)))).
  2:{ intros i Hi. apply in_seq in Hi. apply stride_key. lia. }
  rewrite <- (map_map (fun i => filter (fun p => fst p mod k =? i)
                (combine (seq 0 (length l)) l)) (map snd)).
  rewrite <- concat_map.
  rewrite (filter_key_partition (fun p => fst p mod k)).
  - rewrite combine_seq_snd. reflexivity.
  - apply Forall_forall. intros p _. apply Nat.mod_upper_bound. lia.
Qed.

(** ** Sizes *)
Lemma div_intro a k q r : r < k -> a = k * q + r -> a / k = q.
Proof. intros H1 H2. symmetry. apply Nat.div_unique with r; assumption. Qed.

Lemma div_step k i s :
  i < k ->
  (S s + k - 1 - i) / k
  = (s + k - 1 - i) / k + (if s mod k =? i then 1 else 0).
Proof.
  intros Hi.
  assert (Hk : k <> 0) by lia.
  pose proof (Nat.div_mod s k Hk) as Hs.
  pose proof (Nat.mod_upper_bound s k Hk) as Hr.
  set (q := s / k) in *. set (r := s mod k) in *. clearbody q r.
  assert (Hq : k * (q + 1) = k * q + k) by lia.
  destruct (Nat.lt_trichotomy r i) as [Hlt|[Heq|Hgt]].
  - rewrite (div_intro (S s + k - 1 - i) k q (r + k - i)) by lia.
    rewrite (div_intro (s + k - 1 - i) k q (r + k - 1 - i)) by lia.
    destruct (r =? i) eqn:E; lia.
  - rewrite (div_intro (S s + k - 1 - i) k (q + 1) 0) by lia.
    rewrite (div_intro (s + k - 1 - i) k q (k - 1)) by lia.
    destruct (r =? i) eqn:E; lia.
  - rewrite (div_intro (S s + k - 1 - i) k (q + 1) (r - i)) by lia.
    rewrite (div_intro (s + k - 1 - i) k (q + 1) (r - i - 1)) by lia.
    destruct (r =? i) eqn:E; lia.
Qed.

Lemma filter_mod_count k i n s :
  i < k ->
  length (filter (fun p => p mod k =? i) (seq s n)) + (s + k - 1 - i) / k
  = (s + n + k - 1 - i) / k.
Proof.
  intros Hi. revert s. induction n as [|n IH]; intros s.
  - simpl. rewrite Nat.add_0_r. reflexivity.
  - specialize (IH (S s)). rewrite div_step in IH by exact Hi.
    replace (s + S n + k - 1 - i) with (S s + n + k - 1 - i) by lia.
    rewrite <- IH. cbn [seq filter].
    destruct (s mod k =? i); cbn [length]; lia.
Qed.

Lemma stride_length {A} i k (l : list A) :
  i < k -> length (stride i k l) = (length l + k - 1 - i) / k.
Proof.
  intros Hi. rewrite stride_key by exact Hi. rewrite map_length.
  rewrite <- (map_length fst).
  assert (E : map fst (filter (fun p : nat * A => fst p mod k =? i)
                 (combine (seq 0 (length l)) l))
              = filter (fun p => p mod k =? i) (seq 0 (length l))).
  { rewrite <- (combine_seq_fst l 0) at 2.
    generalize (combine (seq 0 (length l)) l) as c.
    induction c as [|[p x] c IH]; simpl; [reflexivity|].
    destruct (p mod k =? i); simpl; rewrite IH; reflexivity. }
  rewrite E. pose proof (filter_mod_count k i (length l) 0 Hi) as H.
  rewrite (Nat.div_small (0 + k - 1 - i)) in H by lia.
  rewrite Nat.add_0_r in H. exact H.
Qed.

(** ** The chunks *)
Lemma chunks_count n k : length (split_arr_into_chunks n k) = k.
Proof. unfold split_arr_into_chunks. rewrite map_length, seq_length. reflexivity. Qed.

Lemma concat_map_perm {A B} (f g : A -> list B) l :
  (forall x, Permutation (f x) (g x)) ->
  Permutation (concat (map f l)) (concat (map g l)).
Proof.
  intros H. induction l as [|x t IH]; simpl; [reflexivity|].
  rewrite H, IH. reflexivity.
Qed.

Lemma chunks_perm n k :
  0 < k -> Permutation (concat (split_arr_into_chunks n k)) (seq 0 n).
Proof.
  intros Hk. unfold split_arr_into_chunks.
  rewrite (concat_map_perm _ (fun i => stride i k (folded_range n)))
    by (intros; apply sort_nat_perm).
  rewrite strides_partition by exact Hk. apply folded_range_perm.
Qed.

Lemma chunk_nodup n k c : 0 < k -> In c (split_arr_into_chunks n k) -> NoDup c.
Proof.
  intros Hk Hc.
  assert (H : NoDup (concat (split_arr_into_chunks n k))).
  { eapply Permutation_NoDup; [symmetry; apply chunks_perm; exact Hk|]. apply seq_NoDup. }
  revert H. clear Hk. induction (split_arr_into_chunks n k) as [|d t IH]; [contradiction|].
  simpl. intros H. destruct Hc as [->|Hc].
  - revert H. generalize (concat t). clear. intros r H.
    induction c as [|x c IH]; [constructor|].
    simpl in H. inversion H; subst. constructor; [|apply IH; assumption].
    intros Hx. apply H2. apply in_or_app. left. exact Hx.
  - apply IH; [exact Hc|].
    revert H. clear. generalize (concat t). intros r H.
    induction d as [|x d IH]; [exact H|]. simpl in H. inversion H; subst. apply IH; assumption.
Qed.

Lemma chunk_sorted n k c :
  0 < k -> In c (split_arr_into_chunks n k) -> StronglySorted lt c.
Proof.
  intros Hk Hc. apply sorted_nodup_strict; [|eapply chunk_nodup; eauto].
  unfold split_arr_into_chunks in Hc. apply in_map_iff in Hc.
  destruct Hc as [i [<- _]]. apply sort_nat_sorted.
Qed.

Lemma chunk_size n k c :
  0 < k -> In c (split_arr_into_chunks n k) ->
  n / k <= length c <= n / k + 1.
Proof.
  intros Hk Hc. unfold split_arr_into_chunks in Hc. apply in_map_iff in Hc.
  destruct Hc as [i [<- Hi]]. apply in_seq in Hi.
  rewrite (Permutation_length (sort_nat_perm _)), stride_length by lia.
  rewrite folded_range_length.
  assert (Hk0 : k <> 0) by lia.
  pose proof (Nat.div_mod n k Hk0) as Hn.
  pose proof (Nat.mod_upper_bound n k Hk0) as Hr.
  set (q := n / k) in *. set (r := n mod k) in *. clearbody q r.
  split.
  - apply Nat.div_le_lower_bound; lia.
  - assert ((n + k - 1 - i) / k < q + 2); [|lia].
    apply Nat.div_lt_upper_bound; [lia|]. rewrite Nat.mul_add_distr_l. lia.
Qed.

Lemma chunk_balance n k c d :
  0 < k -> In c (split_arr_into_chunks n k) -> In d (split_arr_into_chunks n k) ->
  length c <= length d + 1.
Proof.
  intros Hk Hc Hd. pose proof (chunk_size n k c Hk Hc). pose proof (chunk_size n k d Hk Hd). lia.
Qed.
