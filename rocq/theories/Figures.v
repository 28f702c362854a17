(** * The remaining figures of the examples folder.

    Each definition returns the data handed to matplotlib, seaborn or plotly:
    points of curves, labels and positions of marks.  Axis limits, colours,
    layout and printed progress are left out. *)
From Coq Require Import List ZArith Arith Bool Reals String.
From Coquelicot Require Import Complex.
From Verif Require Import Base RSum CSum PyNum Index Numpy Eigen Integration Quadrature Noise Convolution Functions Transform Wavelet Plot Cache.
Import ListNotations.
Local Open Scope nat_scope.
Local Open Scope list_scope.

(** [np.linspace(start, stop, num)] for [num >= 2] *)
Definition np_linspace (start stop : R) (num : nat) : list R :=
  map (fun k => start + INR k * ((stop - start) / INR (num - 1)))%R (seq 0 num).

(** [np.ceil] as an integer, and [np.arange(start, stop, step)] for [step > 0] *)
Definition ceiling (x : R) : Z := (- Int_part (- x))%Z.
Definition np_arange (start stop step : R) : list R :=
  map (fun k => start + INR k * step)%R (seq 0 (Z.to_nat (ceiling ((stop - start) / step)))).

(** [np.rad2deg] *)
Definition rad2deg (x : R) : R := (x * (180 / PI))%R.

(** [ax.plot(x, y)], [plt.semilogx(x, y)], [sns.scatterplot(x=.., y=..)]: arrays
    of different lengths are rejected. *)
Definition points {A} (x : list R) (y : list A) : res (list (R * A)) :=
  if List.length x =? List.length y then Ok (combine x y) else Err ValueError.

(** [2 ** np.arange(np.log2(n) + 1, dtype=int)]: the ticks of
    examples/polar_cap/eigenvalues.py:27,
    examples/arbitrary/africa/eigenvalues_africa.py:26,
    examples/arbitrary/south_america/eigenvalues_south_america.py:26,
    examples/arbitrary/eigenvalues_combined.py:38,
    examples/mesh/mesh_slepian_eigenvalues.py:38 and of the tilings below *)
Definition ticks (n : nat) : list nat :=
  map (fun k => 2 ^ k) (seq 0 (Z.to_nat (ceiling (ln (INR n) / ln 2 + 1)))).

(** examples/polar_cap/eigenvalues.py:15-28,
    examples/arbitrary/africa/eigenvalues_africa.py:14-27,
    examples/arbitrary/south_america/eigenvalues_south_america.py:14-27,
    examples/arbitrary/eigenvalues_combined.py:19-28 (one region): the points,
    the position of the vertical line and the ticks *)
Definition eigenvalue_plot (L : nat) (evals : list R) (N : Z) : res (list (R * R) * R * list nat) :=
  let* pts := points (map INR (arange (L * L))) evals in
  Ok (pts, IZR N, ticks (L * L)).

(** ** Slepian functions of a polar cap along a meridian *)
Section Meridian.
  Variable inverse : nat -> list C -> list C.   (* ssht.inverse *)

  (** [f[:, q]] for a field given by its samples in row order *)
  Definition field_column (resolution q : nat) (f : list C) : list C :=
    map (fun t => nth (t * n_phi resolution + q) f (RtoC 0)) (seq 0 (n_theta resolution)).

  (** examples/polar_cap/simons_5_1.py:30-31, 62-72 and
      examples/polar_cap/eigenfunctions.py:32-33, 63-68: the two curves and the
      eigenvalue written beside them *)
  Definition meridian_plot (evals : list R) (rows : list (list C)) (L : nat) (theta_max : Z) (sign : Z) (rank : nat)
      : res (list (R * R) * list (R * R) * R) :=
    let resolution := Z.to_nat (calc_plot_resolution (Z.of_nat L)) in
    let x := np_linspace 0 (rad2deg PI) (resolution + 1) in
    let i := List.length (filter (fun t => Rltb t (IZR theta_max)) x) in
    let* v := np_get rows rank in
    let flm := map (fun z => Cmult z (RtoC (IZR sign))) v in
    let* lam := np_get evals rank in
    let* f := invert_flm_boosted inverse flm L resolution in
    let column := map Re (field_column resolution 0 f) in
    let* inside := points (firstn i x) (firstn i column) in
    let* outside := points (skipn i x) (skipn i column) in
    Ok (inside, outside, lam).
End Meridian.

(** examples/polar_cap/eigenfunctions.py:78-94 [_find_p_value]; [fetch] is the
    file of the registry with this name *)
Definition find_p_value (fetch : string -> res (list Z)) (L : nat) (theta_max order : Z) (rank : nat) (shannon : Z) : res nat :=
  let* orders := fetch ("slepian_eigensolutions_D_polar" ++ zstr theta_max ++ "_L" ++ zstr (Z.of_nat L)
                        ++ "_N" ++ zstr shannon ++ "_orders.npy")%string in
  np_get (np_where (map (fun m => Z.eqb m order) orders)) rank.

(** examples/polar_cap/simons_5_3.py:45-59: the points with their labels and the
    position of the vertical line *)
Definition ranked_plot (evals : list R) (order : list Z) (N : Z) (ranks : nat) : res (list (R * (R * string)) * R) :=
  let orders := map Z.abs (firstn ranks order) in
  let labels := map (fun m => if (m =? 0)%Z then zstr m else "$\pm$" ++ zstr m)%string orders in
  let* y := points (firstn ranks evals) labels in
  let* pts := points (map INR (arange ranks)) y in
  Ok (pts, (IZR N - 1)%R).

(** ** Sorted magnitudes *)
Section Sorted.
  Variable argsort : list R -> list nat.        (* np.argsort *)

  (** [np.sort(a)] *)
  Definition np_sort (a : list R) : list R := map (fun i => nth i a 0%R) (argsort a).

  (** examples/polar_cap/slepian_coefficients.py:14-23, 26-36, 41-46: the points
      of the Slepian and of the harmonic coefficients; [a[::-1].sort()] sorts
      the reversed array in place *)
  Definition coefficient_plot (inverse : nat -> list C -> list C) (L : nat) (s : slepian) (N : Z) (flm : list C)
      : res (list (R * R) * list (R * R)) :=
    let coefficients := rev (np_sort (rev (map Cmod flm))) in
    let flm_N := py_prefix N coefficients in
    let* f_p := slepian_forward inverse L s (of_flm flm) None in
    let f_p := rev (np_sort (map Cmod f_p)) in
    let x := map INR (arange (Z.to_nat N)) in
    let* a := points x f_p in
    let* b := points x flm_N in
    Ok (a, b).

  (** examples/arbitrary/africa/sparsity_wavelet_slepian_comparison_africa.py:29-35,
      46-52 and the same lines of
      examples/arbitrary/south_america/sparsity_wavelet_slepian_comparison_south_america.py
      (lines 29-35, 50-56): the curves of the Slepian wavelet coefficients and of
      the axisymmetric ones, the scaling coefficients first *)
  Definition sparsity_curves (w_p w_lm : list (list C)) (shannon : Z) : list (list R) * list (list R) :=
    (map (fun row => rev (np_sort (map Cmod row))) w_p,
     map (fun row => py_prefix shannon (rev (np_sort (map Cmod row)))) w_lm).
End Sorted.

(** ** Tilings *)
Section Tiling.
  Variable axisym_wav_l : Z -> nat -> Z -> list R * nat * list (list R).    (* pys2let *)
  Variable pchip : list R -> list R -> R -> R.                              (* scipy.interpolate.pchip *)

  (** examples/wavelets/axisymmetric_tiling.py:18-29 ([xlim] is [L]),
      examples/arbitrary/africa/tiling_africa.py:18-39 and
      examples/arbitrary/south_america/tiling_south_america.py:18-39 ([L**2]),
      examples/mesh/mesh_tiling.py:32-60 (the number of basis functions): the
      curves, the scaling function first; the step is 0.01 *)
  Definition tiling_curves (xlim : nat) (B j_min : Z) : res (list (list (R * R)) * list nat) :=
    let x := map INR (arange xlim) in
    let xi := np_arange 0 (INR xlim - 1 + 1 / 100) (1 / 100) in
    let* curves := rmap (fun k => points xi (map (pchip x k) xi)) (create_kappas axisym_wav_l xlim B j_min) in
    Ok (curves, ticks xlim).
End Tiling.

(** ** Reconstruction *)
Section Reconstruction.
  Variable inverse : nat -> list C -> list C.   (* ssht.inverse *)

  (** examples/arbitrary/africa/slepian_reconstruction_africa.py:15,
      examples/arbitrary/south_america/slepian_reconstruction_south_america.py:19 and
      examples/polar_cap/fried_egg.py:21-25: the field that is plotted *)
  Definition slepian_reconstruction (coefficients : list C) (L : nat) (s : slepian) : res (list C) :=
    slepian_inverse inverse coefficients L s.

  (** examples/arbitrary/africa/wavelet_reconstruction_africa.py:20-27 and
      examples/arbitrary/south_america/wavelet_reconstruction_south_america.py:20-27 *)
  Definition wavelet_reconstruction (wavelet_coefficients wavelets : arr) (L : nat) (s : slepian) : res (list C) :=
    let* f_p := slepian_wavelet_inverse wavelet_coefficients wavelets (s_N s) in
    slepian_inverse inverse f_p L s.

  (** examples/polar_cap/slepian_error.py:52-62 [_helper_sphere] and 65-77
      [_helper_region] (with [mask]): relative errors of the magnitudes.  Where the
      denominator is 0 numpy gives inf or nan with a warning; the value here is
      then meaningless. *)
  Definition relative_errors (L : nat) (s : slepian) (f : list C) (mask : option (list R)) (flm : list C) : res (list R) :=
    let* output := slepian_forward inverse L s {| sg_f := Some f; sg_flm := None; sg_mask := mask |} None in
    let* desired := slepian_forward inverse L s (of_flm flm) None in
    let* difference := broadcast Rminus (map Cmod output) (map Cmod desired) in
    broadcast Rdiv (map Rabs difference) (map Cmod desired).

  (** examples/polar_cap/slepian_error.py:17-41 [main]: the two curves, region first *)
  Definition error_curves (L : nat) (s : slepian) (mask : list R) (N : Z) (flm : list C) : res (list (R * R) * list (R * R)) :=
    let field := inverse L flm in
    let* region := relative_errors L s field (Some mask) flm in
    let* sphere := relative_errors L s field None flm in
    let* region := points (map INR (arange (Z.to_nat N))) region in
    let* sphere := points (map INR (arange (Z.to_nat N))) sphere in
    Ok (region, sphere).
End Reconstruction.

(** ** Miscellaneous *)

(** examples/misc/translation_normalisation.py:17-26
    [compute_translation_normalisation_theta] *)
Definition translation_norms (create_ylm : R -> R -> nat -> list C) (coefficients : list C) (L : nat) (alpha : R)
    : res (list (R * R)) :=
  let* norm := rmap (fun theta => let* x := broadcast Cmult coefficients (create_ylm theta alpha L) in
                                  Ok (sqrt (sum_abs2 x))) (thetas L) in
  points (map rad2deg (thetas L)) norm.

(** examples/misc/wavelet_transform.py:29-34 [_ricker] *)
Definition ricker_value (freq t : R) : R :=
  ((1 - 2 * PI ^ 2 * freq ^ 2 * t ^ 2) * exp (- (PI ^ 2 * freq ^ 2 * t ^ 2)))%R.
Definition ricker (length delta_t freq : R) : list R :=
  map (ricker_value freq) (np_arange (- length / 2) ((length - delta_t) / 2) delta_t).

(** examples/misc/wavelet_transform.py:13-19 [main]: the array that is plotted *)
Definition ricker_plot (length delta_t : R) (frequencies : list R) : res (list R) :=
  let size := Z.to_nat (Int_part (length / delta_t)) in
  rfold (fun amplitude p => let* slot := np_fill (firstn size (skipn (size * fst p) amplitude)) (ricker length delta_t (snd p)) in
                            Ok (firstn (size * fst p) amplitude ++ slot ++ skipn (size * S (fst p)) amplitude))
        (combine (seq 0 (List.length frequencies)) frequencies) (repeat 0%R (size * List.length frequencies)).
