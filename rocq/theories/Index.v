(** * Harmonic index arithmetic and the order vector. *)
From Coq Require Import List ZArith Arith.
From Verif Require Import Base.
Import ListNotations.

(** [ssht.elm2ind(el, m)] (external C function used all over the code, for
    example /repo/src/sleplet/noise.py line 85): [el^2 + el + m].  Callers only
    use [|m| <= el]; elsewhere the model returns a clipped value. *)
Definition elm2ind (el : nat) (m : Z) : nat :=
  Z.to_nat (Z.of_nat (el * el + el) + m).

(** [ssht.ind2elm(ind)] (external, used in
    /repo/src/sleplet/slepian/slepian_arbitrary.py lines 176, 179):
    [el = floor(sqrt(ind))], [m = ind - el^2 - el]. *)
Definition ind2elm (ind : nat) : nat * Z :=
  let el := Nat.sqrt ind in
  (el, (Z.of_nat ind - Z.of_nat (el * el + el))%Z).

(** numpy [a[k:k+M] = xs]: the slice is clipped to the array; numpy raises
    ValueError unless the lengths agree (a length-one right-hand side would be
    broadcast; here it has length [M] always). *)
Definition slice_assign {A} (k M : nat) (xs a : list A) : res (list A) :=
  let old := firstn M (skipn k a) in
  if length old =? length xs
  then Ok (firstn k a ++ xs ++ skipn (k + length xs) a)
  else Err ValueError.

(** Body of the loop of [_create_emm_vector],
    /repo/src/sleplet/harmonic_methods.py lines 104-107. *)
Definition emm_step (st : res (nat * list Z)) (ell : nat) : res (nat * list Z) :=
  let* (k, emm) := st in
  let M := 2 * ell + 1 in
  let* emm' := slice_assign k M (zrange (- Z.of_nat ell) (Z.of_nat ell + 1)) emm in
  Ok (k + M, emm').

(** [_create_emm_vector], /repo/src/sleplet/harmonic_methods.py lines 99-108.
    (The entries are floats holding integers; modelled as integers.) *)
Definition create_emm_vector (L : nat) : res (list Z) :=
  let* (_, emm) := fold_left emm_step (seq 0 (2 * L)) (Ok (0, repeat 0%Z (2 * L * 2 * L))) in
  Ok emm.
