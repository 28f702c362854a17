(** * The latitude-longitude matrix with interleaved iterations.

    [numba.prange] gives the iterations to threads.  Here every iteration is a
    thread of its own (merging several into one thread only removes
    interleavings) and an addition into the matrix is two instructions: load the
    cell into a register, store the new value. *)
From Coq Require Import List ZArith Arith Bool Reals.
From Coquelicot Require Import Complex.
From Verif Require Import Base CSum Numpy ArbitraryMatrix LatLon.
Import ListNotations.
Local Open Scope Z_scope.

Inductive instr :=
  | Load (row col : Z)
  | Store (row col : Z) (f : C -> res C).

(** One instruction on the matrix and the register of the thread. *)
Definition exec (i : instr) (s : array2 * C) : res (array2 * C) :=
  match i with
  | Load row col => let* v := get2 (fst s) row col in Ok (fst s, v)
  | Store row col f =>
      let* v := f (snd s) in
      let* K := set2 (fst s) row col v in
      Ok (K, snd s)
  end.

Section Program.
  Variable dl : array3.
  Variable N : Z.
  Variable G : array2.

  (** src/sleplet/slepian/slepian_limit_lat_lon.py:184-207, one entry *)
  Definition entry_program (ell p m q : Z) : list instr :=
    let C1 := (sqrt (IZR ((2 * ell + 1) * (2 * p + 1))) / (4 * PI))%R in
    let ind_lm := ell * (ell + 1) + m in
    let ind_pq := p * (p + 1) + q in
    let row := m - q in
    let C2 := cpow (Copp im) row in
    flat_map (fun mp =>
      [ Load ind_lm ind_pq;
        Store ind_lm ind_pq (fun old =>
          let* x := get3 dl ell (N + mp) (N + m) in
          let* y := get3 dl ell (N + mp) N in
          let* S1 := sum_qp dl N G p q mp row in
          Ok (Cplus old (Cmult (RtoC (x * y)) S1))) ])
      (zrange (- ell) (ell + 1)) ++
    [ Load ind_lm ind_pq; Store ind_lm ind_pq (fun old => Ok (Cmult old (Cmult (RtoC C1) C2))) ].

  (** lines 183-207, one iteration of the parallel loop *)
  Definition program (ell : Z) : list instr :=
    flat_map (fun p =>
      flat_map (fun m =>
        flat_map (fun q => entry_program ell p m q) (zrange (- p) (p + 1)))
        (zrange (- ell) (ell + 1)))
      (zrange 0 (ell + 1)).

  Record pstate := { ps_K : array2; ps_todo : nat -> list instr; ps_reg : nat -> C }.

  (** Thread [t] takes one step, if it has one left. *)
  Definition par_step (s : pstate) (t : nat) : res pstate :=
    match ps_todo s t with
    | [] => Ok s
    | i :: rest =>
        let* kr := exec i (ps_K s, ps_reg s t) in
        Ok {| ps_K := fst kr;
              ps_todo := fun u => if (u =? t)%nat then rest else ps_todo s u;
              ps_reg := fun u => if (u =? t)%nat then snd kr else ps_reg s u |}
    end.

  (** Registers hold anything at the start. *)
  Definition par_init (L : nat) (K : array2) (reg : nat -> C) : pstate :=
    {| ps_K := K; ps_todo := fun t => if (t <? L)%nat then program (Z.of_nat t) else []; ps_reg := reg |}.

  (** lines 180-208; the loop ends when no thread has anything left to do. *)
  Definition finished (s : pstate) : Prop := forall t, ps_todo s t = [].
  Definition slepian_matrix_par (schedule : list nat) (reg : nat -> C) (L : nat) : res pstate :=
    let* K := zeros2 (Z.of_nat L ^ 2) (Z.of_nat L ^ 2) in
    rfold par_step schedule (par_init L K reg).
End Program.

(** [_create_K_matrix] (lines 85-97) with a schedule of elementary steps; the
    state of the threads is returned too. *)
Definition create_K_matrix_par (theta_min theta_max phi_min phi_max : R) (dl : array3) (schedule : list nat)
  (reg : nat -> C) (L : nat) : res (pstate * (nat -> nat -> C)) :=
  let* G := slepian_integral theta_min theta_max phi_min phi_max (Z.of_nat L) in
  let* s := slepian_matrix_par dl (Z.of_nat L - 1) G schedule reg L in
  Ok (s, fill_upper (L * L) (fun r c => a2_at (ps_K s) (Z.of_nat r) (Z.of_nat c))).
