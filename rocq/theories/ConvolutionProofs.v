From Coq Require Import List ZArith Arith Bool Reals Lia.
From Coquelicot Require Import Complex.
From Verif Require Import Base ListLemmas RSum CSum Numpy Eigen EigenProofs Convolution EarthProofs.
Import ListNotations.
Local Open Scope nat_scope.

(** Number of entries kept by [[:n]] of an array of length [p]. *)
Definition kept (n : option Z) (p : nat) : nat :=
  match n with
  | None => p
  | Some k => if (0 <=? k)%Z then Nat.min (Z.to_nat k) p else p - Z.to_nat (- k)
  end.

Lemma py_prefix_firstn {A} n (l : list A) : py_prefix_opt n l = firstn (kept n (length l)) l.
Proof.
  unfold py_prefix_opt, py_prefix, kept. destruct n as [k|]; [|symmetry; apply firstn_all].
  destruct (0 <=? k)%Z.
  - destruct (Nat.min_spec (Z.to_nat k) (length l)) as [[H ->]|[H ->]]; [reflexivity|].
    rewrite firstn_all. apply firstn_all2. exact H.
  - reflexivity.
Qed.

Lemma kept_le n p : kept n p <= p.
Proof. unfold kept. destruct n as [k|]; [destruct (0 <=? k)%Z|]; lia. Qed.

Definition zip {A B D} (op : A -> B -> D) (a : list A) (b : list B) : list D :=
  map (fun p => op (fst p) (snd p)) (combine a b).

Lemma zip_length {A B D} (op : A -> B -> D) a b : length (zip op a b) = Nat.min (length a) (length b).
Proof. unfold zip. rewrite map_length. apply combine_length. Qed.

Lemma combine_firstn' {A B} n (a : list A) (b : list B) :
  combine (firstn n a) (firstn n b) = firstn n (combine a b).
Proof. symmetry. apply combine_firstn. Qed.

(** One-dimensional convolution. *)
Lemma sifting_1d f g n : length f = length g ->
  sifting_convolution (A1 f) (A1 g) n
  = Ok (A1 (firstn (kept n (length f)) (zip (fun x y => Cmult x (Cconj y)) f g))).
Proof.
  intros H. unfold sifting_convolution. cbn [ndim Nat.ltb Nat.leb arr_T arr_conj arr_prefix arr_mul].
  rewrite !py_prefix_firstn, map_length, H.
  rewrite broadcast_same by (rewrite !firstn_length, map_length; lia).
  cbn [rbind arr_T]. do 2 f_equal. unfold zip.
  rewrite combine_firstn', <- firstn_map. f_equal.
  clear. revert g. induction f as [|x f IH]; intros [|y g]; [reflexivity..|].
  cbn. rewrite IH. reflexivity.
Qed.

(** ** Two dimensions *)

Definition regular (cols : nat) (rows : list (list C)) : Prop :=
  forall r, In r rows -> length r = cols.

Lemma map_nth_full (r : list C) c : length r = c -> map (fun j => nth j r (RtoC 0)) (seq 0 c) = r.
Proof. intros <-. apply map_nth_seq. Qed.

Lemma transpose_length cols rows : length (transpose cols rows) = cols.
Proof. unfold transpose. rewrite map_length, seq_length. reflexivity. Qed.

Lemma transpose_firstn n cols rows :
  firstn n (transpose cols rows) = map (fun j => map (fun row => nth j row (RtoC 0)) rows) (seq 0 (Nat.min n cols)).
Proof.
  unfold transpose. rewrite firstn_map. f_equal.
  destruct (Nat.min_spec n cols) as [[H ->]|[H ->]].
  - apply firstn_seq. lia.
  - apply firstn_all2. rewrite seq_length. exact H.
Qed.

Lemma nth_map_seq {A} (h : nat -> A) n i d : i < n -> nth i (map h (seq 0 n)) d = h i.
Proof. intros H. apply nth_error_nth. rewrite nth_error_map_seq by exact H. reflexivity. Qed.

Lemma transpose_of_map (h : nat -> list C) (rows_of : list (nat -> C)) k :
  (forall j, j < k -> h j = map (fun u => u j) rows_of) ->
  transpose (length rows_of) (map h (seq 0 k))
  = map (fun u => map u (seq 0 k)) rows_of.
Proof.
  intros H. unfold transpose.
  apply (nth_ext _ _ [] []).
  - rewrite !map_length, seq_length. reflexivity.
  - intros i Hi. rewrite map_length, seq_length in Hi.
    rewrite (nth_map_seq (fun j => map (fun row => nth j row (RtoC 0)) (map h (seq 0 k)))) by exact Hi.
    rewrite map_map.
    destruct (nth_error rows_of i) as [u|] eqn:E.
    2:{ apply nth_error_None in E. lia. }
    assert (E' : nth i (map (fun u => map u (seq 0 k)) rows_of) [] = map u (seq 0 k)).
    { apply nth_error_nth. rewrite nth_error_map, E. reflexivity. }
    rewrite E'. apply map_ext_in. intros j Hj. apply in_seq in Hj. rewrite H by lia.
    apply nth_error_nth. rewrite nth_error_map, E. reflexivity.
Qed.

(** A two-dimensional [f] and a one-dimensional [g] of the same row length:
    every row is convolved with [g]. *)
Lemma sifting_2d_1d cols rows g n : regular cols rows -> length g = cols ->
  sifting_convolution (A2 cols rows) (A1 g) n
  = Ok (A2 (kept n cols)
          (map (fun row => firstn (kept n cols) (zip (fun x y => Cmult x (Cconj y)) row g)) rows)).
Proof.
  intros Hr Hg. unfold sifting_convolution.
  cbn [ndim Nat.ltb Nat.leb arr_newaxis arr_T arr_conj arr_prefix arr_mul map length].
  rewrite !py_prefix_firstn, !transpose_length.
  rewrite Hg. pose proof (kept_le n cols) as Hk.
  rewrite !transpose_firstn. replace (Nat.min (kept n cols) cols) with (kept n cols) by lia.
  set (k := kept n cols) in *.
  unfold mul2. replace ((length rows =? 1) || (length rows =? 1) || (1 =? 1)) with true
    by (rewrite orb_true_r; reflexivity).
  rewrite broadcast_same by (rewrite !map_length; reflexivity).
  cbn [rbind].
  assert (E : map (fun p : list C * list C => (fst p, snd p))
     (combine (map (fun j => map (fun row => nth j row (RtoC 0)) rows) (seq 0 k))
              (map (fun j => map (fun row => nth j row (RtoC 0)) [map Cconj g]) (seq 0 k)))
   = map (fun j => (map (fun row => nth j row (RtoC 0)) rows, [nth j (map Cconj g) (RtoC 0)])) (seq 0 k)).
  { generalize (seq 0 k). induction l as [|j l IH]; [reflexivity|]. cbn in *. rewrite IH. reflexivity. }
  rewrite E. clear E.
  rewrite (rmap_ok _ (fun p => map (fun x => Cmult x (hd (RtoC 0) (snd p))) (fst p))).
  2:{ intros p Hp. apply in_map_iff in Hp. destruct Hp as (j & <- & _). cbn [fst snd hd].
      unfold broadcast. destruct (Nat.eqb_spec (length (map (fun row => nth j row (RtoC 0)) rows)) (length [nth j (map Cconj g) (RtoC 0)])) as [H1|H1].
      - rewrite map_length in H1. destruct rows as [|r [|]]; try discriminate H1. reflexivity.
      - rewrite map_length in H1. destruct rows as [|r [|r' rows']]; [reflexivity|cbn in H1; lia|reflexivity]. }
  cbn [rbind arr_T]. rewrite map_map. cbn [fst snd hd].
  replace (if length rows =? 1 then length rows else if length rows =? 1 then 1 else length rows)
    with (length (map (fun r j => Cmult (nth j r (RtoC 0)) (nth j (map Cconj g) (RtoC 0))) rows)).
  2:{ rewrite map_length. destruct (length rows =? 1); reflexivity. }
  rewrite map_length at 1. rewrite seq_length.
  rewrite transpose_of_map.
  2:{ intros j Hj. rewrite !map_map. reflexivity. }
  do 2 f_equal. rewrite map_map. apply map_ext_in. intros r Hin.
  specialize (Hr r Hin).
  apply (nth_ext _ _ (RtoC 0) (RtoC 0)).
  - rewrite map_length, seq_length, firstn_length, zip_length. lia.
  - intros j Hj. rewrite map_length, seq_length in Hj. rewrite nth_map_seq by exact Hj.
    symmetry. apply nth_error_nth. rewrite nth_error_firstn by exact Hj. unfold zip.
    rewrite nth_error_map.
    assert (H1 : nth_error (combine r g) j = Some (nth j r (RtoC 0), nth j g (RtoC 0))).
    { rewrite <- (combine_nth r g) by congruence. apply nth_error_nth'. rewrite combine_length. lia. }
    rewrite H1. cbn. rewrite nth_map_C by apply Cconj_R. reflexivity.
Qed.

(** Two two-dimensional arrays of the same shape: row by row. *)
Lemma sifting_2d_2d cols rows rows' n :
  regular cols rows -> regular cols rows' -> length rows = length rows' ->
  sifting_convolution (A2 cols rows) (A2 cols rows') n
  = Ok (A2 (kept n cols)
          (map (fun p => firstn (kept n cols) (zip (fun x y => Cmult x (Cconj y)) (fst p) (snd p)))
               (combine rows rows'))).
Proof.
  intros Hr Hr' Hl. unfold sifting_convolution.
  cbn [ndim Nat.ltb Nat.leb arr_newaxis arr_T arr_conj arr_prefix arr_mul].
  rewrite !py_prefix_firstn, !transpose_length, map_length, <- Hl.
  pose proof (kept_le n cols) as Hk.
  rewrite !transpose_firstn. replace (Nat.min (kept n cols) cols) with (kept n cols) by lia.
  set (k := kept n cols) in *.
  unfold mul2. rewrite Nat.eqb_refl. cbn [orb].
  rewrite broadcast_same by (rewrite !map_length; reflexivity).
  cbn [rbind].
  assert (E : map (fun p : list C * list C => (fst p, snd p))
     (combine (map (fun j => map (fun row => nth j row (RtoC 0)) rows) (seq 0 k))
              (map (fun j => map (fun row => nth j row (RtoC 0)) (map (map Cconj) rows')) (seq 0 k)))
   = map (fun j => (map (fun row => nth j row (RtoC 0)) rows,
                    map (fun row => nth j row (RtoC 0)) (map (map Cconj) rows'))) (seq 0 k)).
  { generalize (seq 0 k). induction l as [|j l IH]; [reflexivity|]. cbn in *. rewrite IH. reflexivity. }
  rewrite E. clear E.
  rewrite (rmap_ok _ (fun p => zip Cmult (fst p) (snd p))).
  2:{ intros p Hp. apply in_map_iff in Hp. destruct Hp as (j & <- & _). cbn [fst snd].
      apply broadcast_same. rewrite !map_length. exact Hl. }
  cbn [rbind arr_T]. rewrite map_map. cbn [fst snd].
  replace (length rows)
    with (length (map (fun p j => Cmult (nth j (fst p) (RtoC 0)) (Cconj (nth j (snd p) (RtoC 0)))) (combine rows rows')))
    by (rewrite map_length, combine_length; lia).
  rewrite map_length at 1. rewrite seq_length.
  rewrite transpose_of_map.
  2:{ intros j Hj. rewrite map_map. clear -Hl. revert rows' Hl. induction rows as [|r rows IH]; intros [|r' rows'] Hl; try discriminate Hl; [reflexivity|].
      unfold zip in *. cbn [map combine fst snd]. rewrite IH by (injection Hl as Hl; exact Hl).
      rewrite nth_map_C by apply Cconj_R. reflexivity. }
  do 2 f_equal. rewrite map_map. apply map_ext_in. intros [r r'] Hin. cbn [fst snd].
  pose proof (in_combine_l _ _ _ _ Hin) as H1. pose proof (in_combine_r _ _ _ _ Hin) as H2.
  specialize (Hr r H1). specialize (Hr' r' H2).
  apply (nth_ext _ _ (RtoC 0) (RtoC 0)).
  - rewrite map_length, seq_length, firstn_length, zip_length. lia.
  - intros j Hj. rewrite map_length, seq_length in Hj. rewrite nth_map_seq by exact Hj.
    symmetry. apply nth_error_nth. rewrite nth_error_firstn by exact Hj. unfold zip.
    rewrite nth_error_map.
    assert (H3 : nth_error (combine r r') j = Some (nth j r (RtoC 0), nth j r' (RtoC 0))).
    { rewrite <- (combine_nth r r') by congruence. apply nth_error_nth'. rewrite combine_length. lia. }
    rewrite H3. reflexivity.
Qed.

(** Entries of [zip]. *)
Lemma nth_zip (op : C -> C -> C) f g i : length f = length g -> i < length f ->
  nth i (zip op f g) (RtoC 0) = op (nth i f (RtoC 0)) (nth i g (RtoC 0)).
Proof.
  intros H Hi. apply nth_error_nth. unfold zip. rewrite nth_error_map.
  rewrite (nth_error_nth' _ (RtoC 0, RtoC 0)) by (rewrite combine_length; lia).
  rewrite combine_nth by exact H. reflexivity.
Qed.

Lemma nth_firstn_lt {A} n i (l : list A) d : i < n -> nth i (firstn n l) d = nth i l d.
Proof.
  revert i l. induction n as [|n IH]; intros [|i] [|x l] H; try lia; try reflexivity. cbn. apply IH. lia.
Qed.

(** Only the truncated arrays matter. *)
Lemma sifting_1d_prefix f g n : n <= length f -> n <= length g ->
  sifting_convolution (A1 f) (A1 g) (Some (Z.of_nat n))
  = sifting_convolution (A1 (firstn n f)) (A1 (firstn n g)) None.
Proof.
  intros Hf Hg. rewrite (sifting_1d (firstn n f)) by (rewrite !firstn_length; lia).
  unfold sifting_convolution. cbn [ndim Nat.ltb Nat.leb arr_T arr_conj arr_prefix arr_mul].
  rewrite !py_prefix_firstn, map_length. unfold kept.
  destruct (Z.leb_spec 0 (Z.of_nat n)); [|lia]. rewrite Nat2Z.id.
  replace (Nat.min n (length f)) with n by lia. replace (Nat.min n (length g)) with n by lia.
  rewrite broadcast_same by (rewrite !firstn_length, map_length; lia).
  cbn [rbind arr_T]. do 2 f_equal.
  rewrite (firstn_all2 (n:=length (firstn n f))) by (rewrite zip_length; rewrite !firstn_length; lia).
  unfold zip. rewrite firstn_map.
  generalize (firstn n f) (firstn n g). clear. induction l as [|x l IH]; intros [|y l']; [reflexivity..|].
  cbn. rewrite IH. reflexivity.
Qed.

Lemma sifting_1d_mismatch f g : length f <> length g -> length f <> 1 -> length g <> 1 ->
  sifting_convolution (A1 f) (A1 g) None = Err ValueError.
Proof.
  intros H Hf Hg. unfold sifting_convolution. cbn [ndim Nat.ltb Nat.leb arr_T arr_conj arr_prefix arr_mul py_prefix_opt].
  rewrite broadcast_fail by (rewrite ?map_length; assumption). reflexivity.
Qed.
