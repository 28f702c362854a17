(** * Parameters of the coefficient classes: keywords, [extra_args], the checks.

    A value of a field of type [int] is an integer, of type [float] a rational;
    [np.float_power(10, x)] is the exact power.  pydantic (external) checks the
    fields in the order of their definition, each with the values of the
    earlier fields that passed ([info.data]), defaults included
    ([validate_default]), and checks again on every assignment
    ([validate_assignment]); src/sleplet/_validation.py:3-7. *)
From Coq Require Import List ZArith QArith Qpower Qabs Arith Bool String.
From Coq Require Import Reals.
From Coquelicot Require Import Complex.
From Verif Require Import Base Numpy Index PyNum Wavelet Names Mesh.
Import ListNotations.
Local Open Scope string_scope.
Local Open Scope list_scope.
Local Open Scope Z_scope.

(** The fields that a class adds, by kind:
    [Gaussian]: [sigma]; the other three Gaussians: two numbers; the noises:
    [SNR]; [SphericalHarmonic]: [ell], [m]; the wavelets: [B], [j_min], [j];
    [Ridgelets]: [B], [j_min], [spin], [j]; [Slepian]: [rank]. *)
Inductive params : Type :=
| No_params
| Sigma (sigma : Q)
| Two_sigmas (first second : Q)
| Snr (SNR : Q)
| Degree_order (ell m : Z)
| Scale (B j_min : Z) (j : option Z)
| Spin_scale (B j_min spin : Z) (j : option Z)
| Rank (rank : Z).

(** The defaults: src/sleplet/functions/gaussian.py:19-20,
    harmonic_gaussian.py:23-26, elongated_gaussian.py:23-26,
    squashed_gaussian.py:23-26, noise_earth.py:19-21,
    slepian_noise_africa.py:23-25, slepian_noise_south_america.py:23-25,
    spherical_harmonic.py:20-23, axisymmetric_wavelets.py:27-33 (and the other
    wavelet classes), ridgelets.py:29-37, slepian.py:21-23 *)
Definition default_params (c : cls) : params :=
  match c with
  | Africa | DiracDelta | Earth | Identity | SouthAmerica | Wmap
  | SlepianAfrica | SlepianDiracDelta | SlepianIdentity | SlepianSouthAmerica => No_params
  | Gaussian => Sigma 10
  | HarmonicGaussian => Two_sigmas 10 10
  | ElongatedGaussian => Two_sigmas 1 (1 # 10)
  | SquashedGaussian => Two_sigmas 1 (1 # 10)
  | NoiseEarth => Snr 10
  | SlepianNoiseAfrica | SlepianNoiseSouthAmerica => Snr (-10)
  | SphericalHarmonic => Degree_order 0 0
  | AxisymmetricWavelets | AxisymmetricWaveletCoefficientsAfrica | AxisymmetricWaveletCoefficientsEarth
  | AxisymmetricWaveletCoefficientsSouthAmerica | SlepianWavelets | SlepianWaveletCoefficientsAfrica
  | SlepianWaveletCoefficientsSouthAmerica => Scale 3 2 None
  | Ridgelets => Spin_scale 3 2 2 None
  | Slepian => Rank 0
  end.

(** [np.float_power(10, x)] *)
Definition float_power_10 (x : Z) : Q := Qpower 10 x.

(** src/sleplet/functions/spherical_harmonic.py:52-64 [_check_ell] *)
Definition check_ell (L : nat) (v : Z) : res Z :=
  if v <? 0 then Err ValueError
  else if Z.of_nat L <=? v then Err ValueError
  else Ok v.
(** src/sleplet/functions/spherical_harmonic.py:66-75 [_check_m];
    [info.data["ell"]] is absent when [ell] was rejected. *)
Definition check_m (ell : option Z) (v : Z) : res Z :=
  match ell with
  | None => Err KeyError
  | Some ell => if ell <? Z.abs v then Err ValueError else Ok v
  end.
(** src/sleplet/functions/slepian.py:80-88 [_check_rank] *)
Definition check_rank (v : Z) : res Z := if v <? 0 then Err ValueError else Ok v.

(** [L] or [L**2] of [_check_j] *)
Definition wavelet_limit (c : cls) (L : nat) : nat :=
  match c with
  | SlepianWavelets | SlepianWaveletCoefficientsAfrica | SlepianWaveletCoefficientsSouthAmerica => (L * L)%nat
  | _ => L
  end.

Section Construct.
  Variable pys2let_j_max : Z -> nat -> Z -> Z.

  (** The checks of the fields when the object is created. *)
  Definition validate_fields (c : cls) (L : nat) (p : params) : res unit :=
    match p with
    | Degree_order ell m =>
        match check_ell L ell with
        | Ok ell => let* _ := check_m (Some ell) m in Ok tt
        | Err e => let* _ := check_m None m in Err e
        end
    | Scale B j_min j => let* _ := check_j pys2let_j_max (wavelet_limit c L) B j_min j in Ok tt
    | Spin_scale B j_min _ j => let* _ := check_j pys2let_j_max (wavelet_limit c L) B j_min j in Ok tt
    | Rank r => let* _ := check_rank r in Ok tt
    | _ => Ok tt
    end.

  (** src/sleplet/functions/slepian.py:72-78 [_validate_rank] *)
  Definition slepian_validate_rank (L : nat) (extra_args : option (list Z)) : res unit :=
    match extra_args with
    | None => Ok tt
    | Some [] => Err IndexError
    | Some (r :: _) => if Z.of_nat (L * L) <=? r then Err ValueError else Ok tt
    end.

  (** [_setup_args]: src/sleplet/functions/africa.py:51-54 (and the other
      classes without arguments), gaussian.py:46-52, harmonic_gaussian.py:55-63,
      elongated_gaussian.py:54-62, squashed_gaussian.py:54-60,
      noise_earth.py:46-52 (and the other noises), spherical_harmonic.py:44-50,
      axisymmetric_wavelets.py:61-67 (and the other wavelets),
      ridgelets.py:66-72, slepian.py:64-70.  Assignments are checked one after
      the other. *)
  Definition setup_args (c : cls) (L : nat) (p : params) (extra_args : option (list Z)) : res params :=
    match extra_args with
    | None => Ok p
    | Some args =>
        match p, args with
        | No_params, _ => Err TypeError
        | Sigma _, [x] => Ok (Sigma (float_power_10 x))
        | Two_sigmas _ _, [x; y] => Ok (Two_sigmas (float_power_10 x) (float_power_10 y))
        | Snr _, [x] => Ok (Snr (inject_Z x))
        | Degree_order _ _, [x; y] =>
            let* ell := check_ell L x in
            let* m := check_m (Some ell) y in
            Ok (Degree_order ell m)
        | Scale _ _ _, [x; y; z] =>
            let* j := check_j pys2let_j_max (wavelet_limit c L) x y (Some z) in
            Ok (Scale x y j)
        | Spin_scale _ _ _ _, [x; y; z; w] =>
            let* j := check_j pys2let_j_max (wavelet_limit c L) x y (Some w) in
            Ok (Spin_scale x y z j)
        | Rank _, [x] => let* r := check_rank x in Ok (Rank r)
        | _, _ => Err ValueError
        end
    end.

  (** Are the keywords those of the class?  An unknown keyword is a
      [TypeError]. *)
  Definition same_fields (p q : params) : bool :=
    match p, q with
    | No_params, No_params | Sigma _, Sigma _ | Two_sigmas _ _, Two_sigmas _ _ | Snr _, Snr _
    | Degree_order _ _, Degree_order _ _ | Scale _ _ _, Scale _ _ _
    | Spin_scale _ _ _ _, Spin_scale _ _ _ _ | Rank _, Rank _ => true
    | _, _ => false
    end.

  (** The parameters of [c(L, extra_args=..., **keywords)]: creation, then
      [__post_init__], slepian.py:25-27, coefficients.py:66-67. *)
  Definition construct (c : cls) (L : nat) (keywords : params) (extra_args : option (list Z)) : res params :=
    if same_fields (default_params c) keywords then
      let* _ := validate_fields c L keywords in
      let* _ := match c with Slepian => slepian_validate_rank L extra_args | _ => Ok tt end in
      setup_args c L keywords extra_args
    else Err TypeError.

  (** An assignment to a field of an existing object, e.g. [f.ell = 2]. *)
  Definition assign_ell (L : nat) (p : params) (v : Z) : res params :=
    match p with
    | Degree_order _ m => let* v := check_ell L v in Ok (Degree_order v m)
    | _ => Err AttributeError
    end.
  Definition assign_m (p : params) (v : Z) : res params :=
    match p with
    | Degree_order ell _ => let* v := check_m (Some ell) v in Ok (Degree_order ell v)
    | _ => Err AttributeError
    end.

  (** The mesh classes.  Defaults: src/sleplet/meshes/mesh_noise_field.py:19,
      mesh_slepian_noise_field.py:22, mesh_slepian_wavelets.py:24-30,
      mesh_slepian_wavelet_coefficients.py:26-32, mesh_basis_functions.py:21-23,
      mesh_slepian_functions.py:21-23.
      [_setup_args]: mesh_field.py:31-34, mesh_slepian_field.py:40-43,
      mesh_noise_field.py:46-52, mesh_slepian_noise_field.py:56-62,
      mesh_slepian_wavelets.py:52-58, mesh_slepian_wavelet_coefficients.py:54-60.
      [_check_j]: mesh_slepian_wavelets.py:68-87,
      mesh_slepian_wavelet_coefficients.py:82-101. *)
  Definition mesh_default_params (c : mesh_cls) : params :=
    match c with
    | MeshField | MeshSlepianField => No_params
    | MeshNoiseField => Snr 10
    | MeshSlepianNoiseField => Snr (-5)
    | MeshSlepianWavelets | MeshSlepianWaveletCoefficients => Scale 3 2 None
    | MeshBasisFunctions | MeshSlepianFunctions => Rank 0
    end.
  Definition mesh_construct (c : mesh_cls) (m : mesh) (keywords : params) (extra_args : option (list Z)) : res params :=
    if same_fields (mesh_default_params c) keywords then
      match keywords with
      | Rank r =>
          let* r := check_mesh_rank r in
          let* _ := match c with MeshBasisFunctions => mesh_basis_validate_rank m extra_args | _ => Ok tt end in
          let* r := mesh_rank_setup_args r extra_args in
          Ok (Rank r)
      | Scale B j_min j =>
          let* _ := check_j pys2let_j_max (List.length (m_evals m)) B j_min j in
          match extra_args with
          | None => Ok keywords
          | Some [x; y; z] =>
              let* j := check_j pys2let_j_max (List.length (m_evals m)) x y (Some z) in Ok (Scale x y j)
          | Some _ => Err ValueError
          end
      | Snr _ =>
          match extra_args with
          | None => Ok keywords
          | Some [x] => Ok (Snr (inject_Z x))
          | Some _ => Err ValueError
          end
      | _ => match extra_args with None => Ok keywords | Some _ => Err TypeError end
      end
    else Err TypeError.
End Construct.

(** src/sleplet/harmonic_methods.py:23-27 [_create_spherical_harmonic] *)
Definition create_spherical_harmonic (L ind : nat) : res (list C) :=
  np_set ind (RtoC 1) (repeat (RtoC 0) (L * L)).

(** src/sleplet/functions/spherical_harmonic.py:25-29
    [SphericalHarmonic._create_coefficients] *)
Definition spherical_harmonic_coefficients (L : nat) (ell m : Z) : res (list C) :=
  create_spherical_harmonic L (elm2ind (Z.to_nat ell) m).

(** The check of the region after everything else:
    src/sleplet/functions/slepian_africa.py:23-30,
    slepian_noise_africa.py:27-34, slepian_wavelet_coefficients_africa.py:35-42,
    slepian_south_america.py:22-29, slepian_noise_south_america.py:27-34,
    slepian_wavelet_coefficients_south_america.py:35-42 *)
Definition check_region_name (c : cls) (name_ending : string) : res unit :=
  match c with
  | SlepianAfrica | SlepianNoiseAfrica | SlepianWaveletCoefficientsAfrica =>
      if String.eqb name_ending "africa" then Ok tt else Err RuntimeError
  | SlepianSouthAmerica | SlepianNoiseSouthAmerica | SlepianWaveletCoefficientsSouthAmerica =>
      if String.eqb name_ending "south_america" then Ok tt else Err RuntimeError
  | _ => Ok tt
  end.
