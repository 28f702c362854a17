(** C01: splitting the work is an exact partition. *)
From Coq Require Import List Arith Sorting.Permutation Sorting.Sorted.
From Verif Require Import Base Parallel ParallelProofs.
Import ListNotations.

(** Exactly [ncpu] chunks are returned. *)
Theorem C01_chunk_count : forall n ncpu,
  length (split_arr_into_chunks n ncpu) = ncpu.
Proof. exact chunks_count. Qed.
Print Assumptions C01_chunk_count.

(** All chunks together hold each of [0..n-1] exactly once and nothing else. *)
Theorem C01_partition : forall n ncpu, 0 < ncpu ->
  Permutation (concat (split_arr_into_chunks n ncpu)) (seq 0 n).
Proof. exact chunks_perm. Qed.
Print Assumptions C01_partition.

(** Every chunk is strictly increasing. *)
Theorem C01_chunk_increasing : forall n ncpu c, 0 < ncpu ->
  In c (split_arr_into_chunks n ncpu) -> StronglySorted lt c.
Proof. exact chunk_sorted. Qed.
Print Assumptions C01_chunk_increasing.

(** Chunk sizes differ by at most one. *)
Theorem C01_balanced : forall n ncpu c d, 0 < ncpu ->
  In c (split_arr_into_chunks n ncpu) -> In d (split_arr_into_chunks n ncpu) ->
  length c <= length d + 1.
Proof.
  intros n k c d Hk Hc Hd.
  exact (chunk_balance n k c d Hk Hc Hd).
Qed.
Print Assumptions C01_balanced.

(** Non-trivial instance: 7 items over 3 workers. *)
Example C01_instance : split_arr_into_chunks 7 3 = [[0; 3; 6]; [1; 5]; [2; 4]].
Proof. reflexivity. Qed.
