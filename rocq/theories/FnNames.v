(** * Names of the functions.

    They name the figures, and parts of the code read them: the masking of
    regions, translations and the rotation of the Earth. *)
From Coq Require Import List ZArith QArith Arith Bool String Ascii.
From Coq Require Import Reals.
From Verif Require Import Base PyNum Names Args.
Import ListNotations.
Local Open Scope string_scope.
Local Open Scope list_scope.
Local Open Scope Z_scope.

(** [s.split("_")] *)
Fixpoint split_underscore (s : string) : list string :=
  match s with
  | EmptyString => [EmptyString]
  | String c t =>
      if Ascii.eqb c "_" then EmptyString :: split_underscore t
      else match split_underscore t with
           | w :: r => String c w :: r
           | [] => [String c EmptyString]
           end
  end.

(** [w in s] for strings *)
Fixpoint contains (w s : string) : bool :=
  prefix w s || match s with EmptyString => false | String _ t => contains w t end.

(** [s.replace(".", "-").replace("+", "")] *)
Fixpoint clean_number (s : string) : string :=
  match s with
  | EmptyString => EmptyString
  | String c t =>
      if Ascii.eqb c "." then String "-" (clean_number t)
      else if Ascii.eqb c "+" then clean_number t
      else String c (clean_number t)
  end.

(** The fields in the name: src/sleplet/functions/gaussian.py:34-38,
    harmonic_gaussian.py:42-47, elongated_gaussian.py:41-46,
    squashed_gaussian.py:41-46, noise_earth.py:34-38 (and the other noises),
    spherical_harmonic.py:31-36, axisymmetric_wavelets.py:47-53 (and the other
    wavelets), ridgelets.py:51-58 *)
Definition params_name (c : cls) (p : params) : string :=
  match p with
  | No_params => ""
  | Sigma sigma => filename_args sigma "sig"
  | Two_sigmas x y =>
      match c with
      | HarmonicGaussian => filename_args x "lsig" ++ filename_args y "msig"
      | SquashedGaussian => filename_args x "tsig" ++ filename_args y "freq"
      | _ => filename_args x "tsig" ++ filename_args y "psig"
      end
  | Snr SNR => filename_args SNR "snr"
  | Degree_order ell m => filename_args (inject_Z ell) "l" ++ filename_args (inject_Z m) "m"
  | Scale B j_min j => filename_args (inject_Z B) "B" ++ filename_args (inject_Z j_min) "jmin" ++ wavelet_ending j_min j
  | Spin_scale B j_min spin j =>
      filename_args (inject_Z B) "B" ++ filename_args (inject_Z j_min) "jmin"
      ++ filename_args (inject_Z spin) "spin" ++ wavelet_ending j_min j
  | Rank _ => ""
  end%string.

(** [_create_name] of every class but [Slepian]; [ending] is
    [slepian.region._name_ending]: also
    src/sleplet/functions/slepian_dirac_delta.py:42-46,
    slepian_identity.py:25-29, slepian_wavelets.py:44-51 *)
Definition create_name (c : cls) (p : params) (ending : string) : string :=
  (convert_camel_case_to_snake_case (class_name c)
   ++ (match c with SlepianDiracDelta | SlepianIdentity | SlepianWavelets => "_" ++ ending | _ => "" end)
   ++ params_name c p)%string.

(** src/sleplet/functions/slepian.py:29-43 [Slepian._create_name]; [fmt_e] is
    the format [:e], [order] the attribute of the polar functions. *)
Definition slepian_create_name (fmt_e : R -> string) (slepian_name : string) (order : option (list Z))
    (eigenvalues : list R) (rank : Z) : res string :=
  let* order := match order with
                | Some order => let* m := py_index order rank in Ok ("_m" ++ zstr m)%string
                | None => Ok ""
                end in
  let* lam := py_index eigenvalues rank in
  Ok (clean_number (slepian_name ++ order ++ "_rank" ++ zstr rank ++ "_lam" ++ fmt_e lam)%string).

(** src/sleplet/functions/coefficients.py:17 *)
Definition COEFFICIENTS_TO_NOT_MASK : list string := ["slepian"; "south"; "america"].

(** src/sleplet/functions/coefficients.py:126-142 [_add_details_to_name];
    [region] is the name ending of the region, if there is one. *)
Definition add_details_to_name (name : string) (region : option string) (noise : option Q)
    (smoothing : option Z) (L : nat) : string :=
  let name :=
    match region with
    | Some ending =>
        if existsb (fun w => str_in w COEFFICIENTS_TO_NOT_MASK) (split_underscore name) then name
        else (name ++ "_" ++ ending)%string
    | None => name
    end in
  let name := (name ++ match noise with Some x => filename_args x "noise" | None => "" end)%string in
  let name := (name ++ match smoothing with Some x => filename_args (inject_Z x) "smoothed" | None => "" end)%string in
  (name ++ "_L" ++ zstr (Z.of_nat L))%string.

(** The name of a harmonic function, coefficients.py:66-73. *)
Definition function_name (c : cls) (p : params) (region : option string) (noise : option Q)
    (smoothing : option Z) (L : nat) : string :=
  add_details_to_name (create_name c p "") region noise smoothing L.

(** The name of a Slepian function other than those of [Slepian];
    src/sleplet/functions/fp.py:29-39: there is always a region. *)
Definition slepian_function_name (c : cls) (p : params) (ending : string) (noise : option Q)
    (smoothing : option Z) (L : nat) : string :=
  add_details_to_name (create_name c p ending) (Some ending) noise smoothing L.

(** Mesh functions: src/sleplet/meshes/mesh_field.py:28-29,
    mesh_slepian_field.py:37-38, mesh_noise_field.py:34-38,
    mesh_slepian_noise_field.py:44-48, mesh_slepian_wavelets.py:44-50,
    mesh_slepian_wavelet_coefficients.py:46-52, mesh_basis_functions.py:40-48,
    mesh_slepian_functions.py:43-51; [lam] is the formatted eigenvalue. *)
Definition mesh_create_name (c : mesh_cls) (mesh_name lam : string) (p : params) : string :=
  match c, p with
  | MeshField, _ => mesh_name ++ "_field"
  | MeshSlepianField, _ => "slepian_" ++ mesh_name ++ "_field"
  | MeshNoiseField, Snr x => mesh_name ++ "_noise_field" ++ filename_args x "snr"
  | MeshSlepianNoiseField, Snr x => "slepian_" ++ mesh_name ++ "_noise_field" ++ filename_args x "snr"
  | MeshSlepianWavelets, Scale B j_min j =>
      "slepian_wavelets_" ++ mesh_name ++ filename_args (inject_Z B) "B"
      ++ filename_args (inject_Z j_min) "jmin" ++ wavelet_ending j_min j
  | MeshSlepianWaveletCoefficients, Scale B j_min j =>
      "slepian_wavelet_coefficients_" ++ mesh_name ++ filename_args (inject_Z B) "B"
      ++ filename_args (inject_Z j_min) "jmin" ++ wavelet_ending j_min j
  | MeshBasisFunctions, Rank r => clean_number (mesh_name ++ "_rank" ++ zstr r ++ "_lam" ++ lam)
  | MeshSlepianFunctions, Rank r => clean_number ("slepian_" ++ mesh_name ++ "_rank" ++ zstr r ++ "_lam" ++ lam)
  | _, _ => ""
  end%string.

(** src/sleplet/meshes/mesh_coefficients.py:66-73 [_add_details_to_name]; the
    test reads the name of the mesh, not of the function. *)
Definition mesh_add_details (name mesh_name : string) (region : bool) (noise : option Q) (zoom : bool) : string :=
  (name ++ (if region && negb (contains "slepian" mesh_name) then "_region" else "")
   ++ match noise with Some x => filename_args x "noise" | None => "" end
   ++ (if zoom then "_zoom" else ""))%string.
