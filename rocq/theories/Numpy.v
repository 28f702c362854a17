(** * One-dimensional numpy arrays as lists.

    This file models no sleplet function.  It fixes the meaning of item
    assignment, element-wise arithmetic with broadcasting, [np.where] and
    [np.pad], as used by the functions modelled later. *)
From Coq Require Import List ZArith Arith Bool Reals.
From Coquelicot Require Import Complex.
From Verif Require Import Base RSum CSum.
Import ListNotations.

(** [a[i] = x] for [i >= 0]. *)
Definition np_set {A} (i : nat) (x : A) (a : list A) : res (list A) :=
  if i <? length a then Ok (set_nth i x a) else Err IndexError.

(** [a[i]] for [i >= 0]. *)
Definition np_get {A} (a : list A) (i : nat) : res A :=
  match nth_error a i with Some x => Ok x | None => Err IndexError end.

(** Element-wise [op] with numpy's broadcasting rule for two one-dimensional
    arrays: equal lengths, or one of them has length one. *)
Definition broadcast {A B D} (op : A -> B -> D) (a : list A) (b : list B) : res (list D) :=
  if length a =? length b then Ok (map (fun p => op (fst p) (snd p)) (combine a b))
  else match a, b with
       | [x], _ => Ok (map (op x) b)
       | _, [y] => Ok (map (fun x => op x y) a)
       | _, _ => Err ValueError
       end.

(** [a[:] = b]: the right-hand side must have the length of [a], or length
    one. *)
Definition np_fill {A} (a b : list A) : res (list A) :=
  if length b =? length a then Ok b
  else match b with [x] => Ok (repeat x (length a)) | _ => Err ValueError end.

(** A Python [for] loop whose body may raise. *)
Fixpoint rfold {S A} (f : S -> A -> res S) (l : list A) (s : S) : res S :=
  match l with [] => Ok s | x :: t => let* s' := f s x in rfold f t s' end.

(** [np.abs(a) ** 2] summed. *)
Definition sum_abs2 (l : list C) : R := rlsum (map (fun z => (Cmod z ^ 2)%R) l).

(** [(-1) ** m] for an integer [m >= 0]. *)
Definition neg1_pow (m : nat) : R := ((-1) ^ m)%R.
