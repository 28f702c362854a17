(** * Wavelets and wavelet coefficients. *)
From Coq Require Import List ZArith Arith Bool Reals.
From Coquelicot Require Import Complex.
From Verif Require Import Base RSum CSum PyNum Index Numpy Eigen Convolution Transform Functions.
Import ListNotations.
Local Open Scope nat_scope.

(** A number is false in [any] when it is zero. *)
Definition Cnonzero (z : C) : bool := negb (Reqb (Re z) 0 && Reqb (Im z) 0).

(** [len(a)], [a.sum(axis=0)] *)
Definition arr_len (a : arr) : nat := match a with A1 v => length v | A2 _ rows => length rows end.
Definition arr_sum0 (a : arr) : list C :=
  match a with A1 v => [clsum v] | A2 cols rows => sum_axis0 cols rows end.

(** src/sleplet/wavelet_methods.py:148-163 [find_non_zero_wavelet_coefficients]
    with [axis=1] (there is no axis 1 in a one-dimensional array) *)
Definition find_non_zero_wavelet_coefficients (a : arr) : res arr :=
  match a with
  | A1 _ => Err ValueError
  | A2 cols rows => Ok (A2 cols (filter (existsb Cnonzero) rows))
  end.

(** src/sleplet/wavelet_methods.py:13-36 [slepian_wavelet_forward] *)
Definition slepian_wavelet_forward (f_p : list C) (wavelets : arr) (shannon : Z) : res arr :=
  let* w := sifting_convolution wavelets (A1 f_p) (Some shannon) in
  find_non_zero_wavelet_coefficients w.

(** src/sleplet/wavelet_methods.py:39-62 [slepian_wavelet_inverse] *)
Definition slepian_wavelet_inverse (wav_coeffs wavelets : arr) (shannon : Z) : res (list C) :=
  let wavelets_shannon := arr_prefix (Some (Z.of_nat (arr_len wav_coeffs))) wavelets in
  let* x := sifting_convolution wavelets_shannon wav_coeffs (Some shannon) in
  Ok (arr_sum0 x).

(** [w[:, i]] and [w[:, i] = col] of a matrix given by its rows *)
Definition np_col (w : list (list C)) (i : nat) : res (list C) := rmap (fun row => np_get row i) w.
Definition np_set_col (i : nat) (col : list C) (w : list (list C)) : res (list (list C)) :=
  if length col =? length w
  then rmap (fun p => np_set i (snd p) (fst p)) (combine w col)
  else Err ValueError.

(** src/sleplet/wavelet_methods.py:65-88 [axisymmetric_wavelet_forward];
    [np.zeros(wavelets.shape)] *)
Definition axisymmetric_wavelet_forward (L : nat) (flm : list C) (wavelets : list (list C)) : res (list (list C)) :=
  rfold (fun w ell =>
           let* col := np_col wavelets (elm2ind ell 0) in
           let wav_0 := map (fun x => Cmult (RtoC (sqrt (4 * PI / (2 * INR ell + 1)))) (Cconj x)) col in
           rfold (fun w m =>
                    let* x := np_get flm (elm2ind ell m) in
                    np_set_col (elm2ind ell m) (map (fun y => Cmult y x) wav_0) w)
                 (zrange (- Z.of_nat ell) (Z.of_nat ell + 1)) w)
        (seq 0 L) (map (fun row => zeros (length row)) wavelets).

(** src/sleplet/wavelet_methods.py:91-114 [axisymmetric_wavelet_inverse] *)
Definition axisymmetric_wavelet_inverse (L : nat) (wav_coeffs wavelets : list (list C)) : res (list C) :=
  rfold (fun flm ell =>
           let* col := np_col wavelets (elm2ind ell 0) in
           let wav_0 := map (Cmult (RtoC (sqrt (4 * PI / (2 * INR ell + 1))))) col in
           rfold (fun flm m =>
                    let* c := np_col wav_coeffs (elm2ind ell m) in
                    let* p := broadcast Cmult c wav_0 in
                    np_set (elm2ind ell m) (clsum p) flm)
                 (zrange (- Z.of_nat ell) (Z.of_nat ell + 1)) flm)
        (seq 0 L) (zeros (L * L)).

Section Kappas.
  (** [pys2let.axisym_wav_l(B, xlim, j_min)]: the scaling function, and the
      wavelets as a matrix with one row per degree and the given number of
      columns, one per scale; [pys2let.pys2let_j_max(B, xlim, j_min)]. *)
  Variable axisym_wav_l : Z -> nat -> Z -> list R * nat * list (list R).
  Variable pys2let_j_max : Z -> nat -> Z -> Z.

  (** src/sleplet/wavelet_methods.py:132-145 [create_kappas] *)
  Definition create_kappas (xlim : nat) (B j_min : Z) : list (list R) :=
    let '(kappa0, scales, kappa) := axisym_wav_l B xlim j_min in
    kappa0 :: map (fun j => map (fun row => nth j row 0%R) kappa) (seq 0 scales).

  (** src/sleplet/wavelet_methods.py:117-129 [_create_axisymmetric_wavelets] *)
  Definition create_axisymmetric_wavelets (L : nat) (B j_min : Z) : res (list (list C)) :=
    let kappas := create_kappas L B j_min in
    rfold (fun w ell =>
             let factor := sqrt ((2 * INR ell + 1) / (4 * PI)) in
             let* col := rmap (fun row => np_get row ell) kappas in
             np_set_col (elm2ind ell 0) (map (fun k => RtoC (factor * k)) col) w)
          (seq 0 L) (map (fun _ => zeros (L * L)) kappas).

  (** src/sleplet/functions/ridgelets.py:74-83 [Ridgelets._create_wavelets] *)
  Definition create_ridgelets (gammaln : R -> R) (L : nat) (B j_min spin : Z) : res (list (list C)) :=
    let* ring_lm := compute_ring gammaln L spin in
    let kappas := create_kappas L B j_min in
    rfold (fun w ell =>
             let* x := np_get ring_lm (elm2ind ell 0) in
             match kappas, w with
             | k0 :: ks, w0 :: ws =>
                 let* k := np_get k0 ell in
                 let* w0 := np_set (elm2ind ell 0) (Cmult (RtoC k) x) w0 in
                 let* col := rmap (fun row => np_get row ell) ks in
                 let* ws := np_set_col (elm2ind ell 0)
                              (map (fun k => Cdiv (Cmult (RtoC k) x) (RtoC (sqrt (2 * PI)))) col) ws in
                 Ok (w0 :: ws)
             | _, _ => Err IndexError
             end)
          (seq 0 L) (map (fun _ => zeros (L * L)) kappas).

  (** src/sleplet/functions/slepian_wavelets.py:67-69
      [SlepianWavelets._create_wavelets] *)
  Definition create_slepian_wavelets (L : nat) (B j_min : Z) : arr :=
    A2 (L * L) (map (map RtoC) (create_kappas (L * L) B j_min)).

  (** src/sleplet/functions/axisymmetric_wavelets.py:78-96 [_check_j], the same
      in the other wavelet classes; [xlim] is [L] there, and [L**2] in
      src/sleplet/functions/slepian_wavelets.py:72-90 and
      src/sleplet/functions/slepian_wavelet_coefficients_africa.py:99-117.
      A rejected value raises a [ValidationError], a subclass of
      [ValueError]. *)
  Definition check_j (xlim : nat) (B j_min : Z) (j : option Z) : res (option Z) :=
    let j_max := pys2let_j_max B xlim j_min in
    match j with
    | None => Ok None
    | Some v =>
        if (v <? 0)%Z then Err ValueError
        else if (j_max - j_min <? v)%Z then Err ValueError
        else Ok (Some v)
    end.
End Kappas.

(** src/sleplet/functions/axisymmetric_wavelets.py:44-45, ridgelets.py:48-49,
    slepian_wavelets.py:41-42, slepian_wavelet_coefficients_africa.py:50-51:
    the row selected by [j]. *)
Definition select_scale {A} (rows : list A) (j : option Z) : res A :=
  let jth := match j with None => 0%Z | Some j => (j + 1)%Z end in
  py_index rows jth.

(** [_set_reality]: src/sleplet/functions/axisymmetric_wavelets.py:55-56 *)
Definition axisymmetric_wavelets_reality : bool := true.
