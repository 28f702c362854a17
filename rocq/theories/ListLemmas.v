(** General list lemmas (no model content). *)
From Coq Require Import List ZArith Arith Lia Bool.
From Verif Require Import Base.
Import ListNotations.

Lemma nth_error_ext {A} (l l' : list A) :
  (forall i, nth_error l i = nth_error l' i) -> l = l'.
Proof.
  revert l'. induction l as [|x l IH]; intros [|y l'] H.
  - reflexivity.
  - specialize (H 0). discriminate.
  - specialize (H 0). discriminate.
  - pose proof (H 0) as H0. simpl in H0. injection H0 as <-. f_equal. apply IH.
    intros i. exact (H (S i)).
Qed.

Lemma nth_error_firstn {A} n i (l : list A) :
  i < n -> nth_error (firstn n l) i = nth_error l i.
Proof.
  revert i l. induction n as [|n IH]; intros i l H; [lia|].
  destruct l; simpl; [destruct i; reflexivity|]. destruct i; simpl; [reflexivity|].
  apply IH. lia.
Qed.

Lemma nth_error_firstn_none {A} n i (l : list A) :
  n <= i -> nth_error (firstn n l) i = None.
Proof. intros H. apply nth_error_None. rewrite firstn_length. lia. Qed.

Lemma nth_error_skipn {A} n i (l : list A) :
  nth_error (skipn n l) i = nth_error l (n + i).
Proof.
  revert l. induction n as [|n IH]; intros l; [reflexivity|].
  destruct l; simpl; [destruct i; reflexivity|]. apply IH.
Qed.

Lemma nth_error_seq s n i : i < n -> nth_error (seq s n) i = Some (s + i).
Proof.
  intros H. rewrite (nth_error_nth' _ 0) by (rewrite seq_length; exact H).
  rewrite seq_nth by exact H. reflexivity.
Qed.

Lemma nth_error_map_seq {A} (f : nat -> A) s n i :
  i < n -> nth_error (map f (seq s n)) i = Some (f (s + i)).
Proof. intros H. rewrite nth_error_map, nth_error_seq by exact H. reflexivity. Qed.

Lemma nth_error_set_nth_eq {A} k (x : A) l :
  k < length l -> nth_error (set_nth k x l) k = Some x.
Proof.
  revert k. induction l as [|y l IH]; intros [|k] H; simpl in *; try lia; auto.
  apply IH. lia.
Qed.

Lemma nth_error_set_nth_neq {A} k j (x : A) l :
  j <> k -> nth_error (set_nth k x l) j = nth_error l j.
Proof.
  revert k j. induction l as [|y l IH]; intros [|k] [|j] H; simpl; auto; try lia.
Qed.

Lemma set_nth_length {A} k (x : A) l : length (set_nth k x l) = length l.
Proof. revert k. induction l as [|y l IH]; intros [|k]; simpl; auto. Qed.

Lemma list_as_map {A} (l : list A) n (f : nat -> A) :
  length l = n -> (forall i, i < n -> nth_error l i = Some (f i)) -> l = map f (seq 0 n).
Proof.
  intros Hl H. apply nth_error_ext. intros i. destruct (le_lt_dec n i).
  - rewrite (proj2 (nth_error_None l i)) by lia. symmetry. apply nth_error_None.
    rewrite map_length, seq_length. lia.
  - rewrite H, nth_error_map_seq by assumption. reflexivity.
Qed.

Lemma firstn_seq n m s : n <= m -> firstn n (seq s m) = seq s n.
Proof.
  intros H. replace m with (n + (m - n)) by lia. rewrite seq_app, firstn_app, seq_length.
  rewrite Nat.sub_diag. simpl. rewrite app_nil_r, firstn_all2; [reflexivity|].
  rewrite seq_length. lia.
Qed.
