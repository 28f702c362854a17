(** * Model of the Slepian matrix of a latitude-longitude box.

    Arrays have a shape and a content; reading or writing follows numpy's index
    rule.  [ssht.generate_dl] is external: the table is an argument. *)
From Coq Require Import List ZArith Arith Bool Reals.
From Coquelicot Require Import Complex.
From Verif Require Import Base CSum Numpy ArbitraryMatrix.
Import ListNotations.
Local Open Scope Z_scope.

(** ** Arrays *)
(** Position of index [i] on an axis with [n] entries; negative indices count
    from the end.  (numba does not check the bounds: what raises here is
    undefined there.) *)
Definition axis_index (n i : Z) : res Z :=
  if (0 <=? i) && (i <? n) then Ok i
  else if (- n <=? i) && (i <? 0) then Ok (i + n)
  else Err IndexError.

Record array2 := { a2_rows : Z; a2_cols : Z; a2_at : Z -> Z -> C }.
Record array3 := { a3_0 : Z; a3_1 : Z; a3_2 : Z; a3_at : Z -> Z -> Z -> R }.

(** [np.zeros((h, w), dtype=np.complex128)] *)
Definition zeros2 (h w : Z) : res array2 :=
  if (h <? 0) || (w <? 0) then Err ValueError
  else Ok {| a2_rows := h; a2_cols := w; a2_at := fun _ _ => RtoC 0 |}.

(** [a[i, j]] *)
Definition get2 (a : array2) (i j : Z) : res C :=
  let* i := axis_index (a2_rows a) i in
  let* j := axis_index (a2_cols a) j in
  Ok (a2_at a i j).

(** [a[i, j] = x] *)
Definition set2 (a : array2) (i j : Z) (x : C) : res array2 :=
  let* i := axis_index (a2_rows a) i in
  let* j := axis_index (a2_cols a) j in
  Ok {| a2_rows := a2_rows a; a2_cols := a2_cols a;
        a2_at := fun r c => if (r =? i) && (c =? j) then x else a2_at a r c |}.

(** [a[i, j, k]] *)
Definition get3 (a : array3) (i j k : Z) : res R :=
  let* i := axis_index (a3_0 a) i in
  let* j := axis_index (a3_1 a) j in
  let* k := axis_index (a3_2 a) k in
  Ok (a3_at a i j k).

(** ** Numbers *)
(** [np.exp(1j * x)] *)
Definition cexp (x : R) : C := (cos x, sin x).
Definition im : C := (0, 1)%R.

(** [1 / n] for a Python integer *)
Definition int_inverse (n : Z) : res R :=
  if n =? 0 then Err ZeroDivisionError else Ok (/ IZR n)%R.

(** [z ** n] for an integer [n] *)
Fixpoint cpow_nat (z : C) (n : nat) : C :=
  match n with O => RtoC 1 | S k => Cmult z (cpow_nat z k) end.
Definition cpow (z : C) (n : Z) : C :=
  if 0 <=? n then cpow_nat z (Z.to_nat n) else Cinv (cpow_nat z (Z.to_nat (- n))).

Section Box.
  Variables theta_min theta_max phi_min phi_max : R.

  (** src/sleplet/slepian/slepian_limit_lat_lon.py:118-138: the function
      [helper] inside [_slepian_integral] *)
  Definition integral_helper (L : Z) (G : array2) (row col : Z) (S : C) : res array2 :=
    let Q :=
      match int_inverse (col ^ 2 - 1) with
      | Ok inv =>
          Cmult (RtoC inv)
            (Cplus
               (Cmult (cexp (IZR col * theta_min))
                  (Cminus (Cmult (Cmult im (RtoC (IZR col))) (RtoC (sin theta_min))) (RtoC (cos theta_min))))
               (Cmult (cexp (IZR col * theta_max))
                  (Cminus (RtoC (cos theta_max)) (Cmult (Cmult im (RtoC (IZR col))) (RtoC (sin theta_max))))))
      | Err _ =>     (* except ZeroDivisionError *)
          Cmult (RtoC (1 / 4))
            (Cminus
               (Cplus (Cmult (Cmult (Cmult (RtoC 2) im) (RtoC (IZR col))) (RtoC (theta_max - theta_min)))
                  (cexp (2 * IZR col * theta_min)))
               (cexp (2 * IZR col * theta_max)))
      end in
    let* G := set2 G (2 * (L - 1) + row) (2 * (L - 1) + col) (Cmult Q S) in
    let* v := get2 G (2 * (L - 1) + row) (2 * (L - 1) + col) in
    set2 G (2 * (L - 1) - row) (2 * (L - 1) - col) (Cconj v).

  (** src/sleplet/slepian/slepian_limit_lat_lon.py:99-153 [_slepian_integral] *)
  Definition slepian_integral (L : Z) : res array2 :=
    let* G := zeros2 (4 * L - 3) (4 * L - 3) in
    (* for row equal to zero *)
    let S := RtoC (phi_max - phi_min) in
    let* G := rfold (fun G col => integral_helper L G 0 col S) (zrange (- 2 * (L - 1)) 1) G in
    (* for row not equal to zero *)
    rfold (fun G row =>
      let S := Cmult (Cdiv im (RtoC (IZR row)))
                 (Cminus (cexp (IZR row * phi_min)) (cexp (IZR row * phi_max))) in
      rfold (fun G col => integral_helper L G row col S) (zrange (- 2 * (L - 1)) (2 * (L - 1) + 1)) G)
      (zrange (- 2 * (L - 1)) 0) G.

  (** ** The matrix: src/sleplet/slepian/slepian_limit_lat_lon.py:155-208
      [_slepian_matrix], loop by loop *)
  Section Matrix.
    Variable dl : array3.
    Variable N : Z.
    Variable G : array2.

    (** The sum [S1] over [qp], lines 197-203 *)
    Definition sum_qp (p q mp row : Z) : res C :=
      rfold (fun S1 qp =>
        let col := mp - qp in
        let* x := get3 dl p (N + qp) (N + q) in
        let* y := get3 dl p (N + qp) N in
        let C4 := (x * y)%R in
        let* g := get2 G (2 * N + row) (2 * N + col) in
        Ok (Cplus S1 (Cmult (RtoC C4) g))) (zrange (- p) (p + 1)) (RtoC 0).

    (** One entry, lines 184-207 *)
    Definition matrix_entry (ell p m q : Z) (K : array2) : res array2 :=
      let C1 := (sqrt (IZR ((2 * ell + 1) * (2 * p + 1))) / (4 * PI))%R in
      let ind_lm := ell * (ell + 1) + m in
      let ind_pq := p * (p + 1) + q in
      let row := m - q in
      let C2 := cpow (Copp im) row in
      let* K := rfold (fun K mp =>
          let* x := get3 dl ell (N + mp) (N + m) in
          let* y := get3 dl ell (N + mp) N in
          let C3 := (x * y)%R in
          let* S1 := sum_qp p q mp row in
          let* old := get2 K ind_lm ind_pq in
          set2 K ind_lm ind_pq (Cplus old (Cmult (RtoC C3) S1)))
        (zrange (- ell) (ell + 1)) K in
      let* old := get2 K ind_lm ind_pq in
      set2 K ind_lm ind_pq (Cmult old (Cmult (RtoC C1) C2)).

    (** One iteration of the parallel loop, lines 182-207 *)
    Definition matrix_ell (K : array2) (ell : Z) : res array2 :=
      rfold (fun K p =>
        rfold (fun K m =>
          rfold (fun K q => matrix_entry ell p m q K) (zrange (- p) (p + 1)) K)
          (zrange (- ell) (ell + 1)) K)
        (zrange 0 (ell + 1)) K.

    (** [numba.prange] runs the iterations in any order: [order] lists them in
        the order taken.  Each iteration runs without interruption here. *)
    Definition slepian_matrix (order : list Z) (L : Z) : res array2 :=
      let* K := zeros2 (L ^ 2) (L ^ 2) in
      rfold matrix_ell order K.
  End Matrix.

  (** src/sleplet/slepian/slepian_limit_lat_lon.py:85-97 [_create_K_matrix]; the
      upper triangle is filled in place by [fill_upper] of ArbitraryMatrix.v. *)
  Definition create_K_matrix (dl_array : array3) (order : list Z) (L : Z) : res (nat -> nat -> C) :=
    let* G := slepian_integral L in
    let* K := slepian_matrix dl_array (L - 1) G order L in
    Ok (fill_upper (Z.to_nat (L ^ 2)) (fun r c => a2_at K (Z.of_nat r) (Z.of_nat c))).
End Box.
