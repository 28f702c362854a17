(** * Names: fractions in file names, snake case, class lists, and the checks of
    the command line.

    Strings are ASCII.  A number ([int] or [float], which is a dyadic rational)
    is a rational; NaN and infinities are not modelled. *)
From Coq Require Import List ZArith QArith Qabs Arith Bool String Ascii.
From Verif Require Import Base PyNum.
Import ListNotations.
Local Open Scope string_scope.
Local Open Scope list_scope.
Local Open Scope Z_scope.

(** ** Fractions *)

(** [fractions.Fraction.limit_denominator] with its default bound (Python's
    standard library): the loop over the convergents, [p0, q0, p1, q1, n, d];
    the first argument bounds the number of iterations. *)
Definition MAX_DENOMINATOR : Z := 1000000.
Fixpoint convergents (fuel : nat) (p0 q0 p1 q1 n d : Z) : Z * Z * Z * Z :=
  match fuel with
  | O => (p0, q0, p1, q1)
  | S fuel =>
      let a := n / d in
      let q2 := q0 + a * q1 in
      if MAX_DENOMINATOR <? q2 then (p0, q0, p1, q1)
      else convergents fuel p1 q1 (p0 + a * p1) q2 d (n - a * d)
  end.
Definition limit_denominator (x : Q) : Q :=
  let x := Qred x in
  if Zpos (Qden x) <=? MAX_DENOMINATOR then x
  else
    let '(p0, q0, p1, q1) :=
      convergents (2 * Z.to_nat (Z.log2 (Zpos (Qden x))) + 3)%nat 0 1 1 0 (Qnum x) (Zpos (Qden x)) in
    let k := (MAX_DENOMINATOR - q0) / q1 in
    let bound1 := Qmake (p0 + k * p1) (Z.to_pos (q0 + k * q1)) in
    let bound2 := Qmake p1 (Z.to_pos q1) in
    Qred (if Qle_bool (Qabs (bound2 - x)) (Qabs (bound1 - x)) then bound2 else bound1).

(** src/sleplet/_string_methods.py:12-15 [_get_angle_num_dem] *)
Definition get_angle_num_dem (angle_fraction : Q) : Z * Z :=
  let angle := limit_denominator angle_fraction in (Qnum angle, Zpos (Qden angle)).

(** src/sleplet/_string_methods.py:18-24 [_pi_in_filename] *)
Definition pi_in_filename (numerator denominator : Z) : string :=
  (zstr numerator ++ "pi" ++ (if (denominator =? 1)%Z then "" else zstr denominator))%string.

(** src/sleplet/_string_methods.py:27-34 [filename_args] *)
Definition Qlt_bool (x y : Q) : bool := negb (Qle_bool y x).
Definition filename_args (value : Q) (arg_name : string) : string :=
  let (num, dem) := get_angle_num_dem value in
  ("_" ++ zstr num ++ arg_name
   ++ (if Qlt_bool (Qabs value) 1 && negb (Qeq_bool value 0) then zstr dem else ""))%string.

(** src/sleplet/_string_methods.py:37-64 [filename_angle] *)
Definition filename_angle (alpha beta gamma : Q) : string :=
  let (alpha_num, alpha_den) := get_angle_num_dem alpha in
  let (beta_num, beta_den) := get_angle_num_dem beta in
  let (gamma_num, gamma_den) := get_angle_num_dem gamma in
  let filename :=
    match alpha_num =? 0, beta_num =? 0 with
    | true, true => "alpha0_beta0"
    | true, false => ("alpha0_beta" ++ pi_in_filename beta_num beta_den)%string
    | false, true => ("alpha" ++ pi_in_filename alpha_num alpha_den ++ "_beta0")%string
    | false, false => ("alpha" ++ pi_in_filename alpha_num alpha_den
                       ++ "_beta" ++ pi_in_filename beta_num beta_den)%string
    end in
  if gamma_num =? 0 then filename
  else (filename ++ "_gamma" ++ pi_in_filename gamma_num gamma_den)%string.

(** src/sleplet/_string_methods.py:81-83 [wavelet_ending] *)
Definition wavelet_ending (j_min : Z) (j : option Z) : string :=
  match j with
  | None => "_scaling"
  | Some j => filename_args (inject_Z (j + j_min)) "j"
  end.

(** ** Snake case *)

Definition is_upper (c : ascii) : bool := ((65 <=? nat_of_ascii c) && (nat_of_ascii c <=? 90))%nat.
Definition lower (c : ascii) : ascii := if is_upper c then ascii_of_nat (nat_of_ascii c + 32) else c.

(** src/sleplet/_string_methods.py:86-88 [_convert_camel_case_to_snake_case]:
    an underscore before each capital that is not at the start, then lower
    case. *)
Fixpoint snake (start : bool) (name : string) : string :=
  match name with
  | "" => ""
  | String c t =>
      let rest := String (lower c) (snake false t) in
      if is_upper c && negb start then String "_" rest else rest
  end%string.
Definition convert_camel_case_to_snake_case (name : string) : string := snake true name.

(** [str.removeprefix] *)
Definition removeprefix (word s : string) : string :=
  if prefix word s then substring (String.length word) (String.length s - String.length word) s else s.

(** src/sleplet/_string_methods.py:91-103 [convert_classes_list_to_snake_case];
    [names] are the [__name__]s. *)
Definition convert_classes_list_to_snake_case (names : list string) (word_to_remove : string) : list string :=
  map (fun n => convert_camel_case_to_snake_case (removeprefix word_to_remove n)) names.

(** ** Class lists *)

(** src/sleplet/_class_lists.py:47-65 [FLM] and 67-78 [FP] *)
Inductive cls : Type :=
| Africa | AxisymmetricWaveletCoefficientsAfrica | AxisymmetricWaveletCoefficientsEarth
| AxisymmetricWaveletCoefficientsSouthAmerica | AxisymmetricWavelets | DiracDelta | Earth
| ElongatedGaussian | Gaussian | HarmonicGaussian | Identity | NoiseEarth | Ridgelets | SouthAmerica
| SphericalHarmonic | SquashedGaussian | Wmap
| Slepian | SlepianAfrica | SlepianDiracDelta | SlepianIdentity | SlepianNoiseAfrica
| SlepianNoiseSouthAmerica | SlepianSouthAmerica | SlepianWaveletCoefficientsAfrica
| SlepianWaveletCoefficientsSouthAmerica | SlepianWavelets.
Definition FLM : list cls :=
  [Africa; AxisymmetricWaveletCoefficientsAfrica; AxisymmetricWaveletCoefficientsEarth;
   AxisymmetricWaveletCoefficientsSouthAmerica; AxisymmetricWavelets; DiracDelta; Earth;
   ElongatedGaussian; Gaussian; HarmonicGaussian; Identity; NoiseEarth; Ridgelets; SouthAmerica;
   SphericalHarmonic; SquashedGaussian; Wmap].
Definition FP : list cls :=
  [Slepian; SlepianAfrica; SlepianDiracDelta; SlepianIdentity; SlepianNoiseAfrica;
   SlepianNoiseSouthAmerica; SlepianSouthAmerica; SlepianWaveletCoefficientsAfrica;
   SlepianWaveletCoefficientsSouthAmerica; SlepianWavelets].
(** Lines 80 and 82-86. *)
Definition COEFFICIENTS : list cls := FLM ++ FP.
Definition MAPS_LM : list cls := [Earth; SouthAmerica; Wmap].

(** [cls.__name__] *)
Definition class_name (c : cls) : string :=
  match c with
  | Africa => "Africa"
  | AxisymmetricWaveletCoefficientsAfrica => "AxisymmetricWaveletCoefficientsAfrica"
  | AxisymmetricWaveletCoefficientsEarth => "AxisymmetricWaveletCoefficientsEarth"
  | AxisymmetricWaveletCoefficientsSouthAmerica => "AxisymmetricWaveletCoefficientsSouthAmerica"
  | AxisymmetricWavelets => "AxisymmetricWavelets"
  | DiracDelta => "DiracDelta"
  | Earth => "Earth"
  | ElongatedGaussian => "ElongatedGaussian"
  | Gaussian => "Gaussian"
  | HarmonicGaussian => "HarmonicGaussian"
  | Identity => "Identity"
  | NoiseEarth => "NoiseEarth"
  | Ridgelets => "Ridgelets"
  | SouthAmerica => "SouthAmerica"
  | SphericalHarmonic => "SphericalHarmonic"
  | SquashedGaussian => "SquashedGaussian"
  | Wmap => "Wmap"
  | Slepian => "Slepian"
  | SlepianAfrica => "SlepianAfrica"
  | SlepianDiracDelta => "SlepianDiracDelta"
  | SlepianIdentity => "SlepianIdentity"
  | SlepianNoiseAfrica => "SlepianNoiseAfrica"
  | SlepianNoiseSouthAmerica => "SlepianNoiseSouthAmerica"
  | SlepianSouthAmerica => "SlepianSouthAmerica"
  | SlepianWaveletCoefficientsAfrica => "SlepianWaveletCoefficientsAfrica"
  | SlepianWaveletCoefficientsSouthAmerica => "SlepianWaveletCoefficientsSouthAmerica"
  | SlepianWavelets => "SlepianWavelets"
  end.

(** src/sleplet/_class_lists.py:88-104 [MESH_HARMONIC], [MESH_SLEPIAN],
    [MESH_COEFFICIENTS] *)
Inductive mesh_cls : Type :=
| MeshBasisFunctions | MeshField | MeshNoiseField | MeshSlepianField | MeshSlepianFunctions
| MeshSlepianNoiseField | MeshSlepianWaveletCoefficients | MeshSlepianWavelets.
Definition MESH_COEFFICIENTS : list mesh_cls :=
  [MeshBasisFunctions; MeshField; MeshNoiseField]
  ++ [MeshSlepianField; MeshSlepianFunctions; MeshSlepianNoiseField; MeshSlepianWaveletCoefficients;
      MeshSlepianWavelets].
Definition mesh_class_name (c : mesh_cls) : string :=
  match c with
  | MeshBasisFunctions => "MeshBasisFunctions"
  | MeshField => "MeshField"
  | MeshNoiseField => "MeshNoiseField"
  | MeshSlepianField => "MeshSlepianField"
  | MeshSlepianFunctions => "MeshSlepianFunctions"
  | MeshSlepianNoiseField => "MeshSlepianNoiseField"
  | MeshSlepianWaveletCoefficients => "MeshSlepianWaveletCoefficients"
  | MeshSlepianWavelets => "MeshSlepianWavelets"
  end.
(** Lines 42-45: the stems of src/sleplet/_data/*.toml *)
Definition MESHES : list string := ["bird"; "cheetah"; "cube"; "dragon"; "homer"; "teapot"].

(** ** Command line *)

(** [x in l], [l.index(x)] *)
Definition str_in (x : string) (l : list string) : bool := existsb (String.eqb x) l.
Fixpoint str_index (x : string) (l : list string) : res nat :=
  match l with
  | [] => Err ValueError
  | y :: t => if String.eqb x y then Ok 0%nat else let* n := str_index x t in Ok (S n)
  end.

(** src/sleplet/_scripts/plotting_on_sphere.py:34-41 [valid_maps], 44-51
    [valid_plotting]; src/sleplet/_scripts/plotting_on_mesh.py:14-19
    [valid_meshes], 22-30 [valid_methods] *)
Definition valid_name (names : list string) (name : string) : res string :=
  if str_in name names then Ok name else Err ValueError.
Definition sphere_names : list string := convert_classes_list_to_snake_case (map class_name COEFFICIENTS) "".
Definition map_names : list string := convert_classes_list_to_snake_case (map class_name MAPS_LM) "".
Definition mesh_method_names : list string :=
  convert_classes_list_to_snake_case (map mesh_class_name MESH_COEFFICIENTS) "Mesh".
Definition valid_maps := valid_name map_names.
Definition valid_plotting := valid_name sphere_names.
Definition valid_meshes := valid_name MESHES.
Definition valid_methods := valid_name mesh_method_names.

(** The choice of the class in [main], plotting_on_sphere.py:360-364 and
    372-378, plotting_on_mesh.py:115-120. *)
Definition choose_class (name : string) : res cls :=
  let* i := str_index name sphere_names in py_index COEFFICIENTS (Z.of_nat i).
Definition choose_map (name : string) : res cls :=
  let* i := str_index name map_names in py_index MAPS_LM (Z.of_nat i).
Definition choose_mesh_class (name : string) : res mesh_cls :=
  let* i := str_index name mesh_method_names in py_index MESH_COEFFICIENTS (Z.of_nat i).
