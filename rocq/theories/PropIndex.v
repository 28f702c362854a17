(** C19: harmonic index bijection and order vector. *)
From Coq Require Import List ZArith Arith.
From Verif Require Import Base Index IndexProofs.
Import ListNotations.

(** Degree/order pairs below bandlimit [L] go to indices below [L^2] and come
    back unchanged. *)
Theorem C19_degree_order_round_trip : forall L el m,
  el < L -> (Z.abs m <= Z.of_nat el)%Z ->
  elm2ind el m < L * L /\ ind2elm (elm2ind el m) = (el, m).
Proof.
  intros L el m HL Hm.
  exact (conj (elm2ind_lt L el m HL Hm) (ind2elm_elm2ind el m Hm)).
Qed.
Print Assumptions C19_degree_order_round_trip.

(** Every index below [L^2] is the index of a valid pair below [L]. *)
Theorem C19_index_round_trip : forall L i, i < L * L ->
  let (el, m) := ind2elm i in
  el < L /\ (Z.abs m <= Z.of_nat el)%Z /\ elm2ind el m = i.
Proof.
  intros L i Hi. exact (conj (ind2elm_lt L i Hi)
                          (conj (ind2elm_range i) (elm2ind_ind2elm i))).
Qed.
Print Assumptions C19_index_round_trip.

(** The order vector never fails, has [4 L^2] entries, and entry [i] is the
    order of index [i]: for [|m| <= el < 2L] entry [el^2+el+m] is [m]. *)
Theorem C19_order_vector : forall L, exists emm,
  create_emm_vector L = Ok emm /\ length emm = 2 * L * 2 * L /\
  forall el m, el < 2 * L -> (Z.abs m <= Z.of_nat el)%Z ->
    nth_error emm (Z.to_nat (Z.of_nat (el * el + el) + m)) = Some m.
Proof. exact emm_vector_entry. Qed.
Print Assumptions C19_order_vector.

(** Exactly [L - |m|] of the first [L^2] entries hold order [m]. *)
Theorem C19_order_count : forall L emm m,
  create_emm_vector L = Ok emm ->
  length (filter (Z.eqb m) (firstn (L * L) emm)) = L - Z.abs_nat m.
Proof. exact emm_order_count. Qed.
Print Assumptions C19_order_count.

Example C19_instance :
  create_emm_vector 1 = Ok [0; -1; 0; 1]%Z /\ ind2elm 7 = (2, 1%Z) /\ elm2ind 2 (-2) = 4.
Proof. repeat split. Qed.
