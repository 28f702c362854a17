(** * Model of [SlepianPolarCap._wigner3j] and [_polar_gap_modification]. *)
From Coq Require Import List ZArith Arith Bool Reals.
From Verif Require Import Base.
Import ListNotations.

(** [gmpy2.factorial(n)]: rejects negative arguments.  (The result is an mpfr
    float; modelled as an exact real.) *)
Definition gp_factorial (n : Z) : res R :=
  if (n <? 0)%Z then Err ValueError else Ok (INR (fact (Z.to_nat n))).

(** [(-1) ** k] and [np.float_power(-1, k)] for an integer [k]. *)
Definition sgn (k : Z) : R := if Z.even k then 1%R else (-1)%R.

(** One summand, /repo/src/sleplet/slepian/slepian_polar_cap.py lines 330-338. *)
Definition racah_term (t1 t2 t3 t4 t5 t : Z) : res R :=
  let* a := gp_factorial t in
  let* b := gp_factorial (t - t1) in
  let* c := gp_factorial (t - t2) in
  let* d := gp_factorial (t3 - t) in
  let* e := gp_factorial (t4 - t) in
  let* f := gp_factorial (t5 - t) in
  Ok (sgn t / (a * b * c * d * e * f))%R.

Definition sum_res (f : Z -> res R) (l : list Z) : res R :=
  fold_left (fun acc t => let* s := acc in let* x := f t in Ok (s + x)%R) l (Ok 0%R).

(** [_wigner3j], /repo/src/sleplet/slepian/slepian_polar_cap.py lines 271-362.
    Every caller passes integers, so the half-integer test of lines 299-308 and
    the integrality test of line 317 (both true for integers) are left out. *)
Definition wigner3j (l1 l2 l3 m1 m2 m3 : Z) : res R :=
  if negb (m1 + m2 + m3 =? 0)%Z
     || (l3 <? Z.abs (l1 - l2))%Z
     || (l3 >? l1 + l2)%Z
     || (Z.abs m1 >? Z.abs l1)%Z
     || (Z.abs m2 >? Z.abs l2)%Z
     || (Z.abs m3 >? Z.abs l3)%Z
  then Ok 0%R
  else
    let t1 := (l2 - l3 - m1)%Z in
    let t2 := (l1 - l3 + m2)%Z in
    let t3 := (l1 + l2 - l3)%Z in
    let t4 := (l1 - m1)%Z in
    let t5 := (l2 + m2)%Z in
    let tmin := Z.max 0 (Z.max t1 t2) in
    let tmax := Z.min t3 (Z.min t4 t5) in
    let* s := sum_res (racah_term t1 t2 t3 t4 t5) (zrange tmin (tmax + 1)) in
    let* a := gp_factorial t3 in
    let* b := gp_factorial (l1 - l2 + l3) in
    let* c := gp_factorial (- l1 + l2 + l3) in
    let* d := gp_factorial (l1 + l2 + l3 + 1) in
    let triangle_coefficient := (a * b * c / d)%R in
    let* e1 := gp_factorial (l1 + m1) in
    let* e2 := gp_factorial t4 in
    let* e3 := gp_factorial t5 in
    let* e4 := gp_factorial (l2 - m2) in
    let* e5 := gp_factorial (l3 + m3) in
    let* e6 := gp_factorial (l3 - m3) in
    Ok (s * (sgn (l1 - l2 - m3) * sqrt triangle_coefficient
             * sqrt (e1 * e2 * e3 * e4 * e5 * e6)))%R.

(** [_polar_gap_modification],
    /repo/src/sleplet/slepian/slepian_polar_cap.py lines 364-373. *)
Definition polar_gap_modification (gap : bool) (ell1 ell2 : Z) : R :=
  (1 + (if gap then 1 else 0) * sgn (ell1 + ell2))%R.
