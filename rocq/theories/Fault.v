(** * Worker failures.

    [faults k = Some (n, e)]: worker [k] raises exception [e] instead of
    executing its instruction number [n] (out of memory in the pool of
    workers, no file descriptor left for the mapping, ...). *)
From Coq Require Import List Arith Reals.
From Verif Require Import Base Parallel Machine Job.
Import ListNotations.

Definition cut_code {F} (f : option (nat * exn)) (c : list (instr F)) : list (instr F) :=
  match f with
  | Some (n, e) => firstn n c ++ [IRaise e]
  | None => c
  end.

Fixpoint inject {F} (faults : nat -> option (nat * exn)) (k : nat) (codes : list (list (instr F)))
  : list (list (instr F)) :=
  match codes with
  | [] => []
  | c :: cs => cut_code (faults k) c :: inject faults (S k) cs
  end.

(** The jobs of [Job], with failing workers. *)
Definition faulty_run {F} (nb : nat) (seg : nat -> list (instr F)) (compute : nat -> F)
    (n ncpu : nat) (faults : nat -> option (nat * exn))
    (garbage : nat -> nat -> nat -> R) (sched : list who) : system F :=
  run_system n compute nb (inject faults 0 (job_codes nb seg n ncpu)) sched
    (init_system nb garbage).
