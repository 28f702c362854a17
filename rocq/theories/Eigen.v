(** * Putting eigendecompositions into order: the cleaning functions.

    [LA.eigh] (LAPACK) and numpy's [argsort] are external.  A matrix of
    eigenvectors is kept as the list of its columns, because every use in the
    code selects columns and transposes. *)
From Coq Require Import List ZArith Arith Bool Reals.
From Coquelicot Require Import Complex.
From Verif Require Import Base PyNum Index.
Import ListNotations.

(** Python comprehension with a body that may raise. *)
Fixpoint rmap {A B} (f : A -> res B) (l : list A) : res (list B) :=
  match l with
  | [] => Ok []
  | x :: t => let* y := f x in let* ys := rmap f t in Ok (y :: ys)
  end.

(** [a[idx]] with an integer index array (all indices non-negative here). *)
Definition fancy {A} (a : list A) (idx : list nat) : res (list A) :=
  rmap (fun i => match nth_error a i with Some x => Ok x | None => Err IndexError end) idx.

(** [x < 0] on numpy complex numbers: lexicographic on (real, imaginary). *)
Definition Cltb0 (x : C) : bool :=
  Rltb (fst x) 0 || (Reqb (fst x) 0 && Rltb (snd x) 0).

(** [eigenvectors *= np.where(eigenvectors[:, 0] < 0, -1, 1)[:, np.newaxis]] on
    one row.  (An array without columns would raise; every caller has at least
    one.) *)
Definition fix_sign (row : list C) : list C :=
  match row with
  | [] => []
  | x :: _ => map (fun y => Cmult (if Cltb0 x then RtoC (-1) else RtoC 1) y) row
  end.

Section Clean.
  Variable argsort : list R -> list nat.   (* numpy, ascending *)

  (** src/sleplet/slepian/slepian_limit_lat_lon.py:210-231
      [SlepianLimitLatLon._clean_evals_and_evecs] *)
  Definition clean_lat_lon (evals : list R) (cols : list (list C))
      : res (list R * list (list C)) :=
    let idx := rev (argsort evals) in
    let* evals' := fancy evals idx in
    let* cols' := fancy cols idx in
    let rows := map (map Cconj) cols' in
    Ok (evals', map fix_sign rows).

  (** src/sleplet/_slepian_arbitrary_methods.py:9 *)
  Definition MACHINE_EPSILON : R := (1 / 100000000000000)%R.

  (** [np.where(np.abs(np.diff(l)) < eps)[0] + 1] *)
  Definition close_pairs (l : list R) : list nat :=
    filter (fun p => Rltb (Rabs (nth p l 0%R - nth (p - 1) l 0%R)) MACHINE_EPSILON)
      (seq 1 (length l - 1)).

  (** [rows[pairs] *= 1j] *)
  Definition times_i (pairs : list nat) (rows : list (list C)) : list (list C) :=
    map (fun p => if existsb (Nat.eqb (fst p)) pairs
                  then map (fun y => Cmult Ci y) (snd p) else snd p)
        (combine (seq 0 (length rows)) rows).

  (** src/sleplet/_slepian_arbitrary_methods.py:12-34 [clean_evals_and_evecs] *)
  Definition clean_arbitrary (evals : list R) (cols : list (list C))
      : res (list R * list (list C)) :=
    let idx := rev (argsort evals) in
    let* evals' := fancy evals idx in
    let* cols' := fancy cols idx in
    let rows := map fix_sign (map (map Cconj) cols') in
    Ok (evals', times_i (close_pairs evals') rows).

  (** src/sleplet/meshes/mesh_slepian.py:163-175
      [MeshSlepian._clean_evals_and_evecs] *)
  Definition clean_mesh (evals : list R) (cols : list (list R))
      : res (list R * list (list R)) :=
    let idx := rev (argsort evals) in
    let* evals' := fancy evals idx in
    let* rows := fancy cols idx in
    Ok (evals', rows).

  (** [a[ind] = vals] for a Boolean array, on the flattened arrays: the marked
      positions receive the values in order; numpy raises ValueError when the
      number of values differs from the number of marked positions. *)
  Fixpoint scatter (mask : list bool) (vals a : list C) : res (list C) :=
    match mask, a with
    | [], [] => match vals with [] => Ok [] | _ => Err ValueError end
    | true :: mask', _ :: a' =>
        match vals with
        | [] => Err ValueError
        | v :: vals' => let* r := scatter mask' vals' a' in Ok (v :: r)
        end
    | false :: mask', x :: a' => let* r := scatter mask' vals a' in Ok (x :: r)
    | _, _ => Err IndexError
    end.

  (** [a.reshape(n, w)] of a flat array of [n*w] entries. *)
  Fixpoint reshape {A} (n w : nat) (l : list A) : list (list A) :=
    match n with
    | O => []
    | S n' => firstn w l :: reshape n' w (skipn w l)
    end.

  (** src/sleplet/slepian/slepian_polar_cap.py:375-401
      [SlepianPolarCap._clean_evals_and_evecs] *)
  Definition clean_polar (L : nat) (evals : list R) (gl : list (list R)) (emm : list Z) (m : Z)
      : res (list R * list (list C)) :=
    let idx := rev (argsort evals) in
    let* evals' := fancy evals idx in
    let* gl' := fancy gl idx in
    let n := L - Z.abs_nat m in
    let row_mask := map (fun k => Z.eqb k m) (firstn (L * L) emm) in
    let ind := concat (repeat row_mask n) in
    let* flat := scatter ind (map RtoC (concat gl')) (repeat (RtoC 0) (n * (L * L))) in
    let rows := map fix_sign (reshape n (L * L) flat) in
    Ok (evals', if (m <? 0)%Z then map (map (fun y => Cmult Ci y)) rows else rows).

  (** src/sleplet/slepian/slepian_polar_cap.py:140-149
      [_solve_eigenproblem_order]; [eigh] returns eigenvalues and columns,
      [Dm] is the matrix of order [abs(m)]. *)
  Definition solve_order (eigh : nat -> (nat -> nat -> R) -> list R * list (list R))
      (Dm : nat -> nat -> nat -> R) (L : nat) (m : Z) : res (list R * list (list C)) :=
    let* emm := create_emm_vector L in
    let a := Z.abs_nat m in
    let (evals, gl) := eigh (L - a) (Dm a) in
    clean_polar L evals gl emm m.

  (** src/sleplet/slepian/slepian_polar_cap.py:109-129: all orders, then
      [_sort_all_evals_and_evecs] (lines 151-164). *)
  Definition solve_all_orders (eigh : nat -> (nat -> nat -> R) -> list R * list (list R))
      (Dm : nat -> nat -> nat -> R) (L : nat)
      : res (list R * list (list C) * list Z) :=
    let ms := zrange (- (Z.of_nat L - 1)) (Z.of_nat L) in
    let* parts := rmap (fun m => let* (ev, rows) := solve_order eigh Dm L m in
                                 Ok (ev, rows, repeat m (length ev))) ms in
    let evals_all := concat (map (fun p => fst (fst p)) parts) in
    let evecs_all := concat (map (fun p => snd (fst p)) parts) in
    let emm_all := concat (map (fun p => snd p) parts) in
    let idx := rev (argsort evals_all) in
    let* evals := fancy evals_all idx in
    let* evecs := fancy evecs_all idx in
    let* orders := fancy emm_all idx in
    Ok (evals, evecs, orders).
End Clean.
