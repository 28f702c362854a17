(** * The sifting convolution. *)
From Coq Require Import List ZArith Arith Bool Reals.
From Coquelicot Require Import Complex.
From Verif Require Import Base RSum CSum Numpy Eigen.
Import ListNotations.
Local Open Scope nat_scope.

(** A numpy array with one or two axes; the second axis length is kept
    separately because there may be no rows. *)
Inductive arr : Type :=
| A1 (v : list C)
| A2 (cols : nat) (rows : list (list C)).

Definition ndim (a : arr) : nat := match a with A1 _ => 1 | A2 _ _ => 2 end.

(** [a.T] *)
Definition transpose (cols : nat) (rows : list (list C)) : list (list C) :=
  map (fun j => map (fun row => nth j row (RtoC 0)) rows) (seq 0 cols).
Definition arr_T (a : arr) : arr :=
  match a with A1 v => A1 v | A2 cols rows => A2 (length rows) (transpose cols rows) end.

(** [a[:n]] ([None]: everything) *)
Definition arr_prefix (n : option Z) (a : arr) : arr :=
  match a with
  | A1 v => A1 (py_prefix_opt n v)
  | A2 cols rows => A2 cols (py_prefix_opt n rows)
  end.

(** [a[np.newaxis]] of a one-dimensional array; [a.conj()] *)
Definition arr_newaxis (a : arr) : arr :=
  match a with A1 v => A2 (length v) [v] | A2 c r => A2 c r end.
Definition arr_conj (a : arr) : arr :=
  match a with A1 v => A1 (map Cconj v) | A2 c r => A2 c (map (map Cconj) r) end.

(** [a * b] with broadcasting: axes are aligned from the last one. *)
Definition mul2 (c : nat) (r : list (list C)) (c' : nat) (r' : list (list C)) : res arr :=
  if (c =? c') || (c =? 1) || (c' =? 1) then
    let* rows := broadcast (fun x y => (x, y)) r r' in
    let* rows := rmap (fun p => broadcast Cmult (fst p) (snd p)) rows in
    Ok (A2 (if c =? c' then c else if c =? 1 then c' else c) rows)
  else Err ValueError.
Definition arr_mul (a b : arr) : res arr :=
  match a, b with
  | A1 v, A1 w => let* x := broadcast Cmult v w in Ok (A1 x)
  | A1 v, A2 c r => mul2 (length v) [v] c r
  | A2 c r, A1 w => mul2 c r (length w) [w]
  | A2 c r, A2 c' r' => mul2 c r c' r'
  end.

(** src/sleplet/_convolution_methods.py:5-19 [sifting_convolution] *)
Definition sifting_convolution (f g : arr) (shannon : option Z) : res arr :=
  let g_reshape := if ndim g <? ndim f then arr_newaxis g else g in
  let* x := arr_mul (arr_prefix shannon (arr_T f))
                    (arr_prefix shannon (arr_T (arr_conj g_reshape))) in
  Ok (arr_T x).
