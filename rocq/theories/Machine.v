(** * Worker threads over shared memory blocks.

    Models the way [_create_Dm_matrix], [_create_D_matrix] (sphere and mesh)
    run their workers: a [ThreadPoolExecutor] runs one worker function per
    chunk; each worker attaches to the shared blocks, performs element reads
    and writes through its own mapping, and closes the mapping.  Instructions
    are the atomic steps; a schedule is any list of worker numbers. *)
From Coq Require Import List Arith Bool Reals.
From Verif Require Import Base.
Import ListNotations.

Section Machine.
  (** Type of the values kept in the dictionary [self._fields]. *)
  Context {F : Type}.

  (** State visible to all threads.
      [cells b r c]: element [r,c] of the array placed in shared block [b];
      [linked b]: the block exists and has not been unlinked;
      [memo]: the dictionary [self._fields]
      (/repo/src/sleplet/slepian/slepian_arbitrary.py line 110). *)
  Record shared := mkShared {
    cells : nat -> nat -> nat -> R;
    linked : nat -> bool;
    memo : nat -> option F;
  }.

  (** Private state of a worker: the blocks it has mapped, a scalar register,
      the outcome of the last dictionary membership test, and the two field
      operands of the integral. *)
  Record local := mkLocal {
    mapped : nat -> bool;
    reg : R;
    missing : bool;
    fa : option F;
    fb : option F;
  }.

  Definition local0 : local :=
    mkLocal (fun _ => false) 0%R false None None.

  (** Atomic steps.
      - [IAttach b]: [SharedMemory(name=...)],
        /repo/src/sleplet/_parallel_methods.py lines 35-43
      - [IClose b]: [shm.close()], lines 46-49
      - [IWrite b r c v]: store into element [r,c]
      - [ILoad b r c]: read element [r,c] into the register
      - [ICheck k] / [ISet k]: [if k not in self._fields:
        self._fields[k] = ...], slepian_arbitrary.py lines 197-208 (the test
        and the store are separate steps)
      - [IGetA k] / [IGetB k]: [self._fields[k]] as first / second operand,
        lines 212-213
      - [IRaise e]: an exception raised inside the worker function. *)
  Inductive instr :=
  | IAttach (b : nat)
  | IClose (b : nat)
  | IWrite (b r c : nat) (v : local -> R)
  | ILoad (b r c : nat)
  | ICheck (k : nat)
  | ISet (k : nat)
  | IGetA (k : nat)
  | IGetB (k : nat)
  | IRaise (e : exn).

  Definition upd1 {A} (f : nat -> A) (b : nat) (x : A) : nat -> A :=
    fun b' => if b' =? b then x else f b'.

  Definition upd3 (f : nat -> nat -> nat -> R) (b r c : nat) (x : R)
    : nat -> nat -> nat -> R :=
    fun b' r' c' =>
      if (b' =? b) && (r' =? r) && (c' =? c) then x else f b' r' c'.

  Variable dim : nat.              (* the arrays have shape (dim, dim) *)
  Variable compute : nat -> F.     (* value stored for a missing key *)

  Definition exec (i : instr) (l : local) (s : shared) : res (local * shared) :=
    match i with
    | IAttach b =>
        if linked s b
        then Ok (mkLocal (upd1 (mapped l) b true) (reg l) (missing l) (fa l) (fb l), s)
        else Err FileNotFoundError
    | IClose b =>
        Ok (mkLocal (upd1 (mapped l) b false) (reg l) (missing l) (fa l) (fb l), s)
    | IWrite b r c v =>
        if mapped l b then
          if (r <? dim) && (c <? dim)
          then Ok (l, mkShared (upd3 (cells s) b r c (v l)) (linked s) (memo s))
          else Err IndexError
        else Err Segfault
    | ILoad b r c =>
        if mapped l b then
          if (r <? dim) && (c <? dim)
          then Ok (mkLocal (mapped l) (cells s b r c) (missing l) (fa l) (fb l), s)
          else Err IndexError
        else Err Segfault
    | ICheck k =>
        Ok (mkLocal (mapped l) (reg l)
              (match memo s k with None => true | Some _ => false end)
              (fa l) (fb l), s)
    | ISet k =>
        Ok (l, if missing l
               then mkShared (cells s) (linked s) (upd1 (memo s) k (Some (compute k)))
               else s)
    | IGetA k =>
        match memo s k with
        | Some x => Ok (mkLocal (mapped l) (reg l) (missing l) (Some x) (fb l), s)
        | None => Err KeyError
        end
    | IGetB k =>
        match memo s k with
        | Some x => Ok (mkLocal (mapped l) (reg l) (missing l) (fa l) (Some x), s)
        | None => Err KeyError
        end
    | IRaise e => Err e
    end.

  (** A worker thread: its remaining code and how it failed, if it did. *)
  Record thread := mkThread {
    tloc : local;
    code : list instr;
    failed : option exn;
  }.

  Definition start (c : list instr) : thread := mkThread local0 c None.

  (** One step of a thread; an exception ends the worker function. *)
  Definition step1 (t : thread) (s : shared) : thread * shared :=
    match code t with
    | [] => (t, s)
    | i :: c =>
        match exec i (tloc t) s with
        | Ok (l', s') => (mkThread l' c (failed t), s')
        | Err e => (mkThread (tloc t) [] (Some e), s)
        end
    end.

  (** [with ThreadPoolExecutor(...)] leaves the block when every worker
      function has returned or raised. *)
  Definition all_done (ts : list thread) : Prop := Forall (fun t => code t = []) ts.
  Definition all_doneb (ts : list thread) : bool :=
    forallb (fun t => match code t with [] => true | _ => false end) ts.

  (** ** The calling thread

      Steps of [_create_Dm_matrix] / [_create_D_matrix] themselves
      (/repo/src/sleplet/slepian/slepian_polar_cap.py lines 190-230,
      /repo/src/sleplet/slepian/slepian_arbitrary.py lines 113-158,
      /repo/src/sleplet/meshes/mesh_slepian.py lines 104-141).
      - [PCreate b]: [create_shared_memory_array],
        /repo/src/sleplet/_parallel_methods.py lines 14-28.  A block of size
        zero is refused by [SharedMemory]; a fresh block is zero filled.
      - [PSpawn]: [ThreadPoolExecutor(max_workers=ncpu)] (refused for
        [ncpu = 0]) and [e.map(func, chunks)], which submits every chunk.
      - [PJoin]: leaving the [with] block, which waits for all workers.  The
        iterator returned by [e.map] is never consumed, so an exception of a
        worker is not re-raised here.
      - [PCopy]: the expression that copies the shared arrays.
      - [PClose b], [PUnlink b]: [free_shared_memory], [release_shared_memory],
        lines 46-57. *)
  Inductive pinstr :=
  | PCreate (b : nat) | PSpawn | PJoin | PCopy | PClose (b : nat) | PUnlink (b : nat).

  Record parent := mkParent {
    pcode : list pinstr;
    pmapped : nat -> bool;
    pcopy : option (nat -> nat -> nat -> R);
    pfail : option exn;
  }.

  Record system := mkSys { par : parent; pool : list thread; sh : shared }.

  Variable nb : nat.                     (* number of shared blocks *)
  Variable codes : list (list instr).    (* one worker function call per chunk *)

  Definition parent_prog : list pinstr :=
    map PCreate (seq 0 nb) ++ [PSpawn; PJoin; PCopy]
      ++ map PClose (seq 0 nb) ++ map PUnlink (seq 0 nb).

  Definition zero_block (f : nat -> nat -> nat -> R) (b : nat) : nat -> nat -> nat -> R :=
    fun b' r c => if b' =? b then 0%R else f b' r c.

  Definition fail_parent (e : exn) (y : system) : system :=
    mkSys (mkParent [] (pmapped (par y)) (pcopy (par y)) (Some e)) (pool y) (sh y).

  Definition step_parent (y : system) : system :=
    let p := par y in
    let s := sh y in
    match pcode p with
    | [] => y
    | i :: c =>
        match i with
        | PCreate b =>
            if dim =? 0 then fail_parent ValueError y
            else mkSys (mkParent c (upd1 (pmapped p) b true) (pcopy p) (pfail p)) (pool y)
                   (mkShared (zero_block (cells s) b) (upd1 (linked s) b true) (memo s))
        | PSpawn =>
            match codes with
            | [] => fail_parent ValueError y
            | _ => mkSys (mkParent c (pmapped p) (pcopy p) (pfail p)) (map start codes) s
            end
        | PJoin =>
            if all_doneb (pool y)
            then mkSys (mkParent c (pmapped p) (pcopy p) (pfail p)) (pool y) s
            else y
        | PCopy =>
            if forallb (pmapped p) (seq 0 nb)
            then mkSys (mkParent c (pmapped p) (Some (cells s)) (pfail p)) (pool y) s
            else fail_parent Segfault y
        | PClose b =>
            mkSys (mkParent c (upd1 (pmapped p) b false) (pcopy p) (pfail p)) (pool y) s
        | PUnlink b =>
            if linked s b
            then mkSys (mkParent c (pmapped p) (pcopy p) (pfail p)) (pool y)
                   (mkShared (cells s) (upd1 (linked s) b false) (memo s))
            else fail_parent FileNotFoundError y
        end
    end.

  Definition step_worker (k : nat) (y : system) : system :=
    match nth_error (pool y) k with
    | None => y
    | Some t => let (t', s') := step1 t (sh y) in
                mkSys (par y) (set_nth k t' (pool y)) s'
    end.

  (** A schedule names at each point who moves: the caller or a worker. *)
  Inductive who := Caller | Worker (k : nat).

  Definition step (w : who) (y : system) : system :=
    match w with Caller => step_parent y | Worker k => step_worker k y end.

  Definition run_system (sched : list who) (y : system) : system :=
    fold_left (fun a w => step w a) sched y.

  (** Start: no block exists, memory holds anything, the dictionary is empty. *)
  Definition init_system (garbage : nat -> nat -> nat -> R) : system :=
    mkSys (mkParent parent_prog (fun _ => false) None None) []
      (mkShared garbage (fun _ => false) (fun _ => None)).

  Definition finished (y : system) : Prop := pcode (par y) = [].

  (** What the caller hands on: the copied arrays, or the exception it raised. *)
  Definition outcome (y : system) : res (nat -> nat -> nat -> R) :=
    match pfail (par y), pcopy (par y) with
    | Some e, _ => Err e
    | None, Some m => Ok m
    | None, None => Err RuntimeError
    end.

End Machine.
Arguments shared : clear implicits.
Arguments local : clear implicits.
Arguments instr : clear implicits.
Arguments thread : clear implicits.
Arguments system : clear implicits.
