(** * Racah's formula for the Wigner 3j symbol, independent of the code.

    [1/k!] is read as 0 for negative [k], the usual convention, so the sum can
    run over all [t] from 0 to [l1 + l2 - l3]. *)
From Coq Require Import ZArith Reals.
From Verif Require Import RSum.
Local Open Scope R_scope.

Definition zfact (k : Z) : R := INR (fact (Z.to_nat k)).
Definition inv_fact (k : Z) : R := if (k <? 0)%Z then 0 else / zfact k.
Definition pm1 (k : Z) : R := if Z.even k then 1 else -1.

Definition selection (l1 l2 l3 m1 m2 m3 : Z) : Prop :=
  (m1 + m2 + m3 = 0 /\ Z.abs (l1 - l2) <= l3 <= l1 + l2 /\
   Z.abs m1 <= l1 /\ Z.abs m2 <= l2 /\ Z.abs m3 <= l3)%Z.

Definition racah_sum (l1 l2 l3 m1 m2 : Z) : R :=
  rsum (Z.to_nat (l1 + l2 - l3 + 1)) (fun k => let t := Z.of_nat k in
    pm1 t * (inv_fact t * inv_fact (l1 + l2 - l3 - t) * inv_fact (l1 - m1 - t)
             * inv_fact (l2 + m2 - t) * inv_fact (l3 - l2 + m1 + t)
             * inv_fact (l3 - l1 - m2 + t))).

Definition racah (l1 l2 l3 m1 m2 m3 : Z) : R :=
  pm1 (l1 - l2 - m3)
  * sqrt (zfact (l1 + l2 - l3) * zfact (l1 - l2 + l3) * zfact (- l1 + l2 + l3)
          / zfact (l1 + l2 + l3 + 1))
  * sqrt (zfact (l1 + m1) * zfact (l1 - m1) * zfact (l2 + m2) * zfact (l2 - m2)
          * zfact (l3 + m3) * zfact (l3 - m3))
  * racah_sum l1 l2 l3 m1 m2.
