(** * Model of the polar-cap matrix construction.
    /repo/src/sleplet/slepian/slepian_polar_cap.py lines 140-269. *)
From Coq Require Import List ZArith Arith Bool Reals.
From Verif Require Import Base Parallel Machine Job Index Wigner.
Import ListNotations.

(** [a[mask]] for a boolean mask: IndexError unless the lengths agree. *)
Definition bool_index {A} (a : list A) (mask : list bool) : res (list A) :=
  if length a =? length mask
  then Ok (map fst (filter snd (combine a mask)))
  else Err IndexError.

(** [Pl[ell == n]] in [_dm_matrix_helper], lines 258 and 262.  [ell] is
    [arange(2L)], so the result has one element, or none when [n] is out of
    range; storing the empty result into [Dm[i, j]] is a ValueError. *)
Definition pl_get (Pl : list R) (n : Z) : res R :=
  if (n <? 0)%Z then Err ValueError
  else match nth_error Pl (Z.to_nat n) with
       | Some x => Ok x
       | None => Err ValueError
       end.

Section Polar.
  Variable L : nat.
  Variable gap : bool.
  (** Real part of [ssht.create_ylm(theta_max, 0, 2L).reshape(-1)]: the
      harmonics at the edge of the cap, by index (external library). *)
  Variable ylm_edge : nat -> R.

  (** [_create_legendre_polynomials_table], lines 232-241. *)
  Definition legendre_table (emm : list Z) : res (list R) :=
    let Plm := map ylm_edge (seq 0 (2 * L * (2 * L))) in
    let* sel := bool_index Plm (map (fun m => Z.eqb m 0) emm) in
    if length sel =? 2 * L
    then Ok (map (fun p => (sqrt (4 * PI / (2 * INR (fst p) + 1)) * snd p)%R)
               (combine (seq 0 (2 * L)) sel))
    else Err ValueError.   (* shapes cannot be broadcast *)

  Section Order.
    Variable m : nat.          (* [abs(m)], line 146 *)
    Variable Pl : list R.

    (** [lvec[i]] with [lvec = np.arange(m, L)], line 188. *)
    Definition lvec (i : nat) : res Z :=
      py_index (zrange (Z.of_nat m) (Z.of_nat L)) (Z.of_nat i).

    (** The inner loop over [n], lines 257-263. *)
    Definition dm_sum (el p : Z) : res R :=
      sum_res (fun n =>
        let* A := if (n =? 0)%Z then Ok 1%R else pl_get Pl (n - 1) in
        let* w0 := wigner3j el n p 0 0 0 in
        let* w1 := wigner3j el n p (Z.of_nat m) 0 (- Z.of_nat m) in
        let* B := pl_get Pl (n + 1) in
        Ok (w0 * w1 * (A - B))%R)
      (zrange (Z.abs (el - p)) (el + p + 1)).

    (** Right-hand side of lines 264-268. *)
    Definition dm_value (i j : nat) : res R :=
      let* el := lvec i in
      let* p := lvec j in
      let* c := dm_sum el p in
      Ok (polar_gap_modification gap el p * sqrt (IZR ((2 * el + 1) * (2 * p + 1))) * c)%R.

    (** [_dm_matrix_helper(Dm, i, ...)], lines 243-269. *)
    Definition dm_matrix_helper (i : nat) : list (instr unit) :=
      flat_map (fun j =>
        match dm_value i j with
        | Ok v => [IWrite 0 i j (fun _ => v); ILoad 0 i j; IWrite 0 j i (fun l => reg l)]
        | Err e => [IRaise e]
        end) (seq i (L - m - i)).

    (** The parallel part of [_create_Dm_matrix], lines 190-223. *)
    Definition dm_job (ncpu : nat) (garbage : nat -> nat -> nat -> R) (sched : list who)
      : system unit :=
      job_run 1 dm_matrix_helper (fun _ => tt) (L - m) ncpu garbage sched.
  End Order.

  (** Caller, workers and shared memory after schedule [sched], lines 145 and
      166-230. *)
  Definition dm_state (m ncpu : nat) (garbage : nat -> nat -> nat -> R) (sched : list who)
    : res (system unit) :=
    let* emm := create_emm_vector L in
    let* Pl := legendre_table emm in
    Ok (dm_job m Pl ncpu garbage sched).

  (** [Dm_ext * (-1) ** m / 2], line 225. *)
  Definition dm_scaled (m : nat) (a : nat -> nat -> nat -> R) : nat -> nat -> R :=
    fun r c => (a 0%nat r c * sgn (Z.of_nat m) / 2)%R.

  (** [_create_Dm_matrix(m, emm)] under schedule [sched], lines 166-230,
      called with [emm = _create_emm_vector(L)] (line 145). *)
  Definition create_Dm_matrix (m ncpu : nat) (garbage : nat -> nat -> nat -> R)
      (sched : list who) : res (nat -> nat -> R) :=
    let* y := dm_state m ncpu garbage sched in
    let* a := outcome y in
    Ok (dm_scaled m a).
End Polar.
