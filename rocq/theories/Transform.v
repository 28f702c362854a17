(** * Slepian transforms on the sphere.

    A field is the list of its samples on the grid in row order.  The harmonic
    transforms of pyssht are external functions on such lists. *)
From Coq Require Import List ZArith Arith Bool Reals.
From Coquelicot Require Import Complex.
From Verif Require Import Base RSum CSum Index Numpy Eigen Integration Quadrature Noise Convolution.
Import ListNotations.
Local Open Scope nat_scope.

(** The fields of a Slepian object used by the transforms
    (src/sleplet/slepian/slepian_functions.py:24-62): Shannon number,
    eigenvalues and eigenvectors (one row per rank). *)
Record slepian := { s_N : Z; s_evals : list R; s_evecs : list (list C) }.

(** [rows.sum(axis=0)] of rows with [width] entries *)
Definition sum_axis0 (width : nat) (rows : list (list C)) : list C :=
  map (fun k => clsum (map (fun r => nth k r (RtoC 0)) rows)) (seq 0 width).

(** [np.pad(a, (0, n), "constant")]; a negative width raises.
    src/sleplet/harmonic_methods.py:30-35 [_boost_coefficient_resolution] *)
Definition boost_coefficient_resolution (flm : list C) (boost : Z) : res (list C) :=
  if (boost <? 0)%Z then Err ValueError
  else Ok (flm ++ repeat (RtoC 0) (Z.to_nat boost)).

(** Names of the decomposition methods,
    src/sleplet/slepian/_slepian_decomposition.py:105-122 *)
Inductive method := Harmonic_sum | Integrate_sphere | Integrate_region.

Section Sphere.
  Variable inverse forward : nat -> list C -> list C.   (* ssht.inverse / ssht.forward at L *)

  (** src/sleplet/slepian_methods.py:127-152 [compute_s_p_omega]; the zero array
      of a negative first dimension raises. *)
  Definition compute_s_p_omega (L : nat) (s : slepian) : res (list (list C)) :=
    if (s_N s <? 0)%Z then Err ValueError
    else rmap (fun p => let* v := np_get (s_evecs s) p in Ok (inverse L v))
              (seq 0 (Z.to_nat (s_N s))).

  (** src/sleplet/slepian_methods.py:72-90 [slepian_inverse] *)
  Definition slepian_inverse (f_p : list C) (L : nat) (s : slepian) : res (list C) :=
    let f_p_reshape := py_prefix (s_N s) f_p in
    let* s_p := compute_s_p_omega L s in
    let* rows := broadcast (fun c row => map (Cmult c) row) f_p_reshape s_p in
    Ok (sum_axis0 (samples L) rows).

  (** The arguments of [SlepianDecomposition] beside [L] and [slepian],
      src/sleplet/slepian/_slepian_decomposition.py:20-27. *)
  Record signal := { sg_f : option (list C); sg_flm : option (list C); sg_mask : option (list R) }.

  (** src/sleplet/slepian/_slepian_decomposition.py:105-122 [_detect_method] *)
  Definition detect_method (g : signal) : res method :=
    match sg_flm g with
    | Some _ => Ok Harmonic_sum
    | None =>
        match sg_f g with
        | Some _ => match sg_mask g with None => Ok Integrate_sphere | Some _ => Ok Integrate_region end
        | None => Err RuntimeError
        end
    end.

  (** src/sleplet/slepian/_slepian_decomposition.py:124-131 [_validate_rank] *)
  Definition validate_rank (L : nat) (rank : Z) : res unit :=
    if (rank <? 0)%Z then Err ValueError
    else if (Z.of_nat (L * L) <=? rank)%Z then Err ValueError
    else Ok tt.

  (** An array used on the grid must have its shape (numpy's broadcasting of
      degenerate shapes is left out). *)
  Definition on_grid {A} (L : nat) (a : list A) : res (list A) :=
    if length a =? samples L then Ok a else Err ValueError.

  (** src/sleplet/slepian/_slepian_decomposition.py:57-76 [_integrate_region] *)
  Definition integrate_region (L : nat) (s : slepian) (f : list C) (mask : list R) (rank : nat) : res C :=
    let* v := np_get (s_evecs s) rank in
    let s_p := inverse L v in
    let* f := on_grid L f in
    let* mask := on_grid L mask in
    let integration := integrate_region_sphere (samples L) (fun k => nth k mask 0%R) (flat_weight L)
                         (fun k => nth k f (RtoC 0)) [fun k => nth k (map Cconj s_p) (RtoC 0)] in
    let* lam := np_get (s_evals s) rank in
    Ok (Cdiv integration (RtoC lam)).

  (** src/sleplet/slepian/_slepian_decomposition.py:78-94 [_integrate_sphere] *)
  Definition integrate_sphere (L : nat) (s : slepian) (f : list C) (rank : nat) : res C :=
    let* v := np_get (s_evecs s) rank in
    let s_p := inverse L v in
    let* f := on_grid L f in
    Ok (integrate_whole_sphere (samples L) (flat_weight L)
          (fun k => nth k f (RtoC 0)) [fun k => nth k (map Cconj s_p) (RtoC 0)]).

  (** src/sleplet/slepian/_slepian_decomposition.py:96-103 [_harmonic_sum] *)
  Definition harmonic_sum (s : slepian) (flm : list C) (rank : nat) : res C :=
    let* v := np_get (s_evecs s) rank in
    let* x := broadcast Cmult flm (map Cconj v) in
    Ok (clsum x).

  (** src/sleplet/slepian/_slepian_decomposition.py:32-45 [decompose]; the last
      case of the [match] cannot be reached because the method was detected. *)
  Definition decompose (L : nat) (s : slepian) (g : signal) (m : method) (rank : Z) : res C :=
    let* _ := validate_rank L rank in
    match m, sg_flm g, sg_f g, sg_mask g with
    | Harmonic_sum, Some flm, _, _ => harmonic_sum s flm (Z.to_nat rank)
    | Integrate_sphere, _, Some f, _ => integrate_sphere L s f (Z.to_nat rank)
    | Integrate_region, _, Some f, Some mask => integrate_region L s f mask (Z.to_nat rank)
    | _, _, _, _ => Err TypeError     (* arithmetic on None *)
    end.

  (** src/sleplet/slepian/_slepian_decomposition.py:47-55 [decompose_all] *)
  Definition decompose_all (L : nat) (s : slepian) (g : signal) (m : method) (n : Z) : res (list C) :=
    if (n <? 0)%Z then Err ValueError       (* np.zeros of a negative dimension *)
    else rmap (fun rank => decompose L s g m (Z.of_nat rank)) (seq 0 (Z.to_nat n)).

  (** src/sleplet/slepian_methods.py:93-124 [slepian_forward] *)
  Definition slepian_forward (L : nat) (s : slepian) (g : signal) (n_coeffs : option Z) : res (list C) :=
    let* m := detect_method g in
    let n := match n_coeffs with None => s_N s | Some n => n end in
    decompose_all L s g m n.

  Definition of_flm (flm : list C) : signal := {| sg_f := None; sg_flm := Some flm; sg_mask := None |}.
  Definition of_f (f : list C) : signal := {| sg_f := Some f; sg_flm := None; sg_mask := None |}.

  (** src/sleplet/functions/slepian.py:44-56 [Slepian._create_coefficients] (the
      log message reads the eigenvalue of the rank) *)
  Definition slepian_function_coefficients (L : nat) (s : slepian) (rank : Z) : res (list C) :=
    let* _ := py_index (s_evals s) rank in
    let* v := py_index (s_evecs s) rank in
    slepian_forward L s (of_flm v) None.

  (** src/sleplet/slepian_methods.py:155-169 [_compute_s_p_omega_prime]; [p] and
      [q] are the sample indices returned by ssht for the two angles. *)
  Definition compute_s_p_omega_prime (L : nat) (p q : nat) (s : slepian) : res (list C) :=
    let* sp_omega := compute_s_p_omega L s in
    let* sp := if (p <? n_theta L) && (q <? n_phi L)
               then Ok (map (fun row => nth (p * n_phi L + q) row (RtoC 0)) sp_omega)
               else Err IndexError in
    boost_coefficient_resolution sp (Z.of_nat (L * L) - s_N s).

  (** src/sleplet/functions/flm.py:33-38 [Flm._translation_helper]; [ylm] is
      [ssht.create_ylm(beta, alpha, L)] flattened. *)
  Definition flm_translation_helper (ylm : list C) : res (list C) := Ok (map Cconj ylm).

  (** src/sleplet/functions/fp.py:52-62 [Fp._translation_helper] *)
  Definition fp_translation_helper (L : nat) (p q : nat) (s : slepian) : res (list C) :=
    let* x := compute_s_p_omega_prime L p q s in Ok (map Cconj x).

  (** src/sleplet/functions/coefficients.py:75-98 [Coefficients.translate];
      [is_dirac] is ["dirac_delta" in self.name], [helper] the result of
      [_translation_helper]. *)
  Definition translate (is_dirac : bool) (coefficients : list C) (helper : res (list C))
      (shannon : option Z) : res arr :=
    let* g := helper in
    if is_dirac then Ok (A1 g) else sifting_convolution (A1 coefficients) (A1 g) shannon.

  (** src/sleplet/noise.py:99-112 [_create_slepian_noise] *)
  Definition create_slepian_noise (normal : Z -> nat -> R) (L : nat) (slepian_signal : list C)
      (s : slepian) (snr_in : R) : res (list C) :=
    let* f := slepian_inverse slepian_signal L s in
    let flm := forward L f in
    let* nlm := create_noise normal L flm snr_in in
    slepian_forward L s (of_flm nlm) None.

  (** src/sleplet/functions/fp.py:64-80 [Fp._add_noise_to_signal] *)
  Definition fp_add_noise (normal : Z -> nat -> R) (L : nat) (s : slepian) (coefficients : list C)
      (noise : option R) : res (list C * option (list C) * option R) :=
    match noise with
    | None => Ok (coefficients, None, None)
    | Some snr_in =>
        let unnoised := coefficients in
        let* n_p := create_slepian_noise normal L coefficients s snr_in in
        let snr := compute_snr coefficients n_p in
        let* coefficients := broadcast Cplus coefficients n_p in
        Ok (coefficients, Some unnoised, Some snr)
    end.
End Sphere.

(** src/sleplet/functions/dirac_delta.py:22-29 [DiracDelta._create_coefficients] *)
Definition dirac_delta_coefficients (L : nat) : res (list C) :=
  rfold (fun flm ell => np_set (elm2ind ell 0) (RtoC (sqrt ((2 * INR ell + 1) / (4 * PI)))) flm)
        (seq 0 L) (repeat (RtoC 0) (L * L)).

(** src/sleplet/functions/slepian_identity.py:22-25 *)
Definition slepian_identity_coefficients (L : nat) : list C := repeat (RtoC 1) (L * L).
