(** * A matrix filled by index-parallel workers.

    Common shape of [_create_Dm_matrix] (polar cap), [_create_D_matrix]
    (arbitrary region) and [_create_D_matrix] (mesh):
    /repo/src/sleplet/slepian/slepian_polar_cap.py lines 190-230,
    /repo/src/sleplet/slepian/slepian_arbitrary.py lines 113-158,
    /repo/src/sleplet/meshes/mesh_slepian.py lines 104-141. *)
From Coq Require Import List Arith Reals.
From Verif Require Import Base Parallel Machine.
Import ListNotations.

Section Job.
  Context {F : Type}.
  Variable nb : nat.                     (* number of shared blocks *)
  Variable seg : nat -> list (instr F).  (* helper called for one index *)

  (** The nested worker function [func(chunk)]: attach, handle each index of
      the chunk, close. *)
  Definition worker_code (chunk : list nat) : list (instr F) :=
    map IAttach (seq 0 nb) ++ flat_map seg chunk ++ map IClose (seq 0 nb).

  (** One worker call per chunk; [n] is the matrix size. *)
  Definition job_codes (n ncpu : nat) : list (list (instr F)) :=
    map worker_code (split_arr_into_chunks n ncpu).

  (** The state reached under schedule [sched] from memory [garbage]. *)
  Definition job_run (compute : nat -> F) (n ncpu : nat)
      (garbage : nat -> nat -> nat -> R) (sched : list who) : system F :=
    run_system n compute nb (job_codes n ncpu) sched (init_system nb garbage).
End Job.
