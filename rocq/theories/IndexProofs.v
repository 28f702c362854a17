From Coq Require Import List ZArith Arith Lia Bool.
From Verif Require Import Base ListLemmas Index.
Import ListNotations.

Lemma elm2ind_bounds el m :
  (Z.abs m <= Z.of_nat el)%Z -> el * el <= elm2ind el m < (el + 1) * (el + 1).
Proof. intros H. unfold elm2ind. nia. Qed.

Lemma elm2ind_lt L el m :
  el < L -> (Z.abs m <= Z.of_nat el)%Z -> elm2ind el m < L * L.
Proof. intros HL H. apply elm2ind_bounds in H. nia. Qed.

Lemma sqrt_elm2ind el m : (Z.abs m <= Z.of_nat el)%Z -> Nat.sqrt (elm2ind el m) = el.
Proof.
  intros H. apply elm2ind_bounds in H. apply Nat.sqrt_unique. simpl.
  rewrite Nat.add_1_r in H. simpl in H. lia.
Qed.

Lemma ind2elm_elm2ind el m :
  (Z.abs m <= Z.of_nat el)%Z -> ind2elm (elm2ind el m) = (el, m).
Proof.
  intros H. unfold ind2elm. rewrite sqrt_elm2ind by exact H. f_equal.
  unfold elm2ind. rewrite Z2Nat.id by lia. lia.
Qed.

Lemma ind2elm_range i : (Z.abs (snd (ind2elm i)) <= Z.of_nat (fst (ind2elm i)))%Z.
Proof. unfold ind2elm. simpl. pose proof (Nat.sqrt_spec i ltac:(lia)). lia. Qed.

Lemma elm2ind_ind2elm i : elm2ind (fst (ind2elm i)) (snd (ind2elm i)) = i.
Proof. unfold ind2elm, elm2ind. simpl. lia. Qed.

Lemma ind2elm_lt L i : i < L * L -> fst (ind2elm i) < L.
Proof.
  intros H. unfold ind2elm. simpl. pose proof (Nat.sqrt_spec i ltac:(lia)).
  destruct (le_lt_dec L (Nat.sqrt i)); [nia|assumption].
Qed.

Lemma elm2ind_inj el m el' m' :
  (Z.abs m <= Z.of_nat el)%Z -> (Z.abs m' <= Z.of_nat el')%Z ->
  elm2ind el m = elm2ind el' m' -> el = el' /\ m = m'.
Proof.
  intros H H' E. apply (f_equal ind2elm) in E.
  rewrite !ind2elm_elm2ind in E by assumption. injection E. auto.
Qed.

(** ** The order vector *)

Lemma zrange_length a b : length (zrange a b) = Z.to_nat (b - a).
Proof. unfold zrange. rewrite map_length, seq_length. reflexivity. Qed.

Lemma nth_error_zrange a b i :
  i < Z.to_nat (b - a) -> nth_error (zrange a b) i = Some (a + Z.of_nat i)%Z.
Proof.
  intros H. unfold zrange. rewrite nth_error_map.
  rewrite (nth_error_nth' _ 0) by (rewrite seq_length; exact H).
  rewrite seq_nth by exact H. reflexivity.
Qed.

Lemma slice_assign_ok {A} k M (xs a : list A) :
  length xs = M -> k + M <= length a ->
  exists a', slice_assign k M xs a = Ok a' /\ length a' = length a /\
    (forall i, k <= i < k + M -> nth_error a' i = nth_error xs (i - k)) /\
    (forall i, i < k \/ k + M <= i -> nth_error a' i = nth_error a i).
Proof.
  intros Hx Hl. unfold slice_assign.
  assert (E : length (firstn M (skipn k a)) =? length xs = true).
  { apply Nat.eqb_eq. rewrite firstn_length, skipn_length. lia. }
  rewrite E. eexists. split; [reflexivity|].
  assert (Hk : length (firstn k a) = k) by (rewrite firstn_length; lia).
  split; [|split].
  - rewrite !app_length, skipn_length, Hk. lia.
  - intros i Hi. rewrite nth_error_app2 by lia. rewrite Hk.
    rewrite nth_error_app1 by lia. reflexivity.
  - intros i [Hi|Hi].
    + rewrite nth_error_app1 by lia. apply nth_error_firstn. exact Hi.
    + rewrite nth_error_app2 by lia. rewrite Hk, nth_error_app2 by lia.
      rewrite nth_error_skipn. f_equal. lia.
Qed.

Lemma emm_loop L n :
  n <= 2 * L ->
  exists emm, fold_left emm_step (seq 0 n) (Ok (0, repeat 0%Z (2 * L * 2 * L)))
              = Ok (n * n, emm) /\ length emm = 2 * L * 2 * L /\
    (forall i, i < n * n -> nth_error emm i = Some (snd (ind2elm i))).
Proof.
  induction n as [|n IH]; intros Hn.
  - simpl. eexists. split; [reflexivity|]. split; [apply repeat_length|]. intros; lia.
  - destruct IH as (emm & E & Hlen & Hv); [lia|].
    rewrite seq_S, fold_left_app, E. cbn [fold_left plus emm_step rbind].
    destruct (slice_assign_ok (n * n) (2 * n + 1)
                (zrange (- Z.of_nat n) (Z.of_nat n + 1)) emm) as (a & Ea & Hla & Hin & Hout).
    { rewrite zrange_length. lia. }
    { rewrite Hlen. nia. }
    unfold emm_step. cbn [rbind]. replace (0 + n) with n by lia. rewrite Ea. cbn [rbind].
    exists a. split; [f_equal; f_equal; nia|]. split; [lia|].
    intros i Hi. destruct (le_lt_dec (n * n) i) as [Hge|Hlt].
    + rewrite Hin by nia. rewrite nth_error_zrange by nia. f_equal.
      assert (Es : Nat.sqrt i = n) by (apply Nat.sqrt_unique; nia).
      unfold ind2elm. rewrite Es. simpl. nia.
    + rewrite Hout by lia. apply Hv. exact Hlt.
Qed.

Lemma emm_vector_spec L :
  exists emm, create_emm_vector L = Ok emm /\ length emm = 2 * L * 2 * L /\
    (forall i, i < 2 * L * 2 * L -> nth_error emm i = Some (snd (ind2elm i))).
Proof.
  destruct (emm_loop L (2 * L) ltac:(lia)) as (emm & E & Hl & Hv).
  exists emm. unfold create_emm_vector. rewrite E. simpl. split; [reflexivity|].
  split; [exact Hl|]. intros i Hi. apply Hv. nia.
Qed.

(** [emm_ok] gives the vector as a map, convenient for later proofs. *)
Lemma emm_vector_map L :
  create_emm_vector L = Ok (map (fun i => snd (ind2elm i)) (seq 0 (2 * L * 2 * L))).
Proof.
  destruct (emm_vector_spec L) as (emm & E & Hl & Hv). rewrite E. f_equal.
  apply nth_error_ext. intros i.
  destruct (le_lt_dec (2 * L * 2 * L) i) as [Hge|Hlt].
  - rewrite (proj2 (nth_error_None emm i)) by lia.
    symmetry. apply nth_error_None. rewrite map_length, seq_length. exact Hge.
  - rewrite Hv by exact Hlt. rewrite nth_error_map.
    rewrite (nth_error_nth' _ 0) by (rewrite seq_length; exact Hlt).
    rewrite seq_nth by exact Hlt. reflexivity.
Qed.

(** Indices below [L^2] of order [m]: one per degree [|m| .. L-1]. *)
Lemma filter_order L m :
  filter (fun i => (snd (ind2elm i) =? m)%Z) (seq 0 (L * L))
  = map (fun el => elm2ind el m) (seq (Z.abs_nat m) (L - Z.abs_nat m)).
Proof.
  induction L as [|L IH]; [reflexivity|].
  replace (S L * S L) with (L * L + (2 * L + 1)) by lia.
  rewrite seq_app, filter_app, IH. rewrite Nat.add_0_l.
  assert (Hb : forall i, In i (seq (L * L) (2 * L + 1)) ->
                 snd (ind2elm i) = (Z.of_nat i - Z.of_nat (L * L + L))%Z).
  { intros i Hi. apply in_seq in Hi. unfold ind2elm.
    assert (Es : Nat.sqrt i = L) by (apply Nat.sqrt_unique; nia). rewrite Es. reflexivity. }
  rewrite (filter_ext_in _ (fun i => (Z.of_nat i =? Z.of_nat (L * L + L) + m)%Z)).
  2:{ intros i Hi. rewrite (Hb i Hi). apply Bool.eq_true_iff_eq.
      rewrite !Z.eqb_eq. lia. }
  assert (Hgen : forall s n k,
    filter (fun i => (Z.of_nat i =? k)%Z) (seq s n) =
    if ((Z.of_nat s <=? k) && (k <? Z.of_nat (s + n)))%Z then [Z.to_nat k] else []).
  { intros s n. revert s. induction n as [|n IHn]; intros s k.
    - simpl. destruct (Z.leb_spec (Z.of_nat s) k), (Z.ltb_spec k (Z.of_nat (s + 0))); simpl; auto; lia.
    - simpl. destruct (Z.eqb_spec (Z.of_nat s) k) as [He|He].
      + rewrite IHn.
        destruct (Z.leb_spec (Z.of_nat (S s)) k); [lia|].
        destruct (Z.leb_spec (Z.of_nat s) k), (Z.ltb_spec k (Z.of_nat (s + S n))); simpl; try lia.
        f_equal. lia.
      + rewrite IHn.
        destruct (Z.leb_spec (Z.of_nat s) k), (Z.ltb_spec k (Z.of_nat (s + S n))),
          (Z.leb_spec (Z.of_nat (S s)) k), (Z.ltb_spec k (Z.of_nat (S s + n))); simpl; auto; lia. }
  rewrite Hgen.
  destruct (le_lt_dec (Z.abs_nat m) L) as [Hm|Hm].
  - replace (S L - Z.abs_nat m) with (S (L - Z.abs_nat m)) by lia.
    rewrite seq_S, map_app. f_equal.
    replace (Z.abs_nat m + (L - Z.abs_nat m)) with L by lia. cbn [map].
    assert (E : ((Z.of_nat (L * L) <=? Z.of_nat (L * L + L) + m)
              && (Z.of_nat (L * L + L) + m <? Z.of_nat (L * L + (2 * L + 1))))%Z = true).
    { apply andb_true_intro. split; [apply Z.leb_le|apply Z.ltb_lt]; lia. }
    rewrite E. reflexivity.
  - replace (S L - Z.abs_nat m) with 0 by lia. replace (L - Z.abs_nat m) with 0 by lia. cbn [seq map app].
    assert (E : ((Z.of_nat (L * L) <=? Z.of_nat (L * L + L) + m)
              && (Z.of_nat (L * L + L) + m <? Z.of_nat (L * L + (2 * L + 1))))%Z = false).
    { apply andb_false_iff.
      destruct (Z.le_gt_cases 0 m); [right; apply Z.ltb_ge|left; apply Z.leb_gt]; lia. }
    rewrite E. reflexivity.
Qed.

Lemma order_count L m :
  length (filter (fun i => (snd (ind2elm i) =? m)%Z) (seq 0 (L * L))) = L - Z.abs_nat m.
Proof. rewrite filter_order, map_length, seq_length. reflexivity. Qed.

(** Counting in the vector itself. *)
Lemma emm_order_count L emm m :
  create_emm_vector L = Ok emm ->
  length (filter (Z.eqb m) (firstn (L * L) emm)) = L - Z.abs_nat m.
Proof.
  rewrite emm_vector_map. intros H.
  assert (E : emm = map (fun i => snd (ind2elm i)) (seq 0 (2 * L * 2 * L))) by congruence.
  subst emm. rewrite firstn_map. rewrite <- (order_count L m).
  rewrite firstn_seq by nia.
  induction (seq 0 (L * L)) as [|i t IH]; [reflexivity|].
  cbn [map filter]. rewrite (Z.eqb_sym m (snd (ind2elm i))).
  destruct (snd (ind2elm i) =? m)%Z; cbn [length]; rewrite IH; reflexivity.
Qed.

Lemma emm_vector_entry L : exists emm,
  create_emm_vector L = Ok emm /\ length emm = 2 * L * 2 * L /\
  forall el m, el < 2 * L -> (Z.abs m <= Z.of_nat el)%Z ->
    nth_error emm (Z.to_nat (Z.of_nat (el * el + el) + m)) = Some m.
Proof.
  destruct (emm_vector_spec L) as (emm & E & Hl & Hv). exists emm.
  split; [exact E|]. split; [exact Hl|]. intros el m He Hm.
  change (nth_error emm (elm2ind el m) = Some m).
  rewrite Hv.
  - rewrite ind2elm_elm2ind by exact Hm. reflexivity.
  - pose proof (elm2ind_lt (2 * L) el m He Hm). lia.
Qed.
