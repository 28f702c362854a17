(** * Regions, solver choice, areas, Shannon number, matrix file names. *)
From Coq Require Import ZArith Reals String Bool List.
From Verif Require Import Base PyNum.
Open Scope string_scope.
Open Scope R_scope.

(** src/sleplet/_vars.py:5-11 *)
Definition PHI_MAX_DEFAULT : R := 2 * PI.
Definition PHI_MIN_DEFAULT : R := 0.
Definition THETA_MAX_DEFAULT : R := PI.
Definition THETA_MIN_DEFAULT : R := 0.

(** src/sleplet/_bool_methods.py:4-16 *)
Definition is_polar_cap (phi_min phi_max theta_min theta_max : R) : bool :=
  Reqb phi_min PHI_MIN_DEFAULT && Reqb phi_max PHI_MAX_DEFAULT
  && Reqb theta_min THETA_MIN_DEFAULT && negb (Reqb theta_max THETA_MAX_DEFAULT).

(** src/sleplet/_bool_methods.py:19-33.  Python's [and] binds tighter than
    [or]. *)
Definition is_limited_lat_lon (phi_min phi_max theta_min theta_max : R) : bool :=
  (negb (is_polar_cap phi_min phi_max theta_min theta_max)
   && negb (Reqb phi_min PHI_MIN_DEFAULT))
  || negb (Reqb phi_max PHI_MAX_DEFAULT)
  || negb (Reqb theta_min THETA_MIN_DEFAULT).

(** src/sleplet/_string_methods.py angle_as_degree: [round(np.rad2deg(x))] *)
Definition angle_as_degree (x : R) : Z := py_round (x * 180 / PI).

(** The three region types of src/sleplet/slepian/region.py:46-93; the code
    stores them as the strings "polar", "lim_lat_lon", "arbitrary". *)
Inductive region_type : Type := Polar | LimLatLon | Arbitrary.

(** src/sleplet/slepian/region.py:16-44, the fields of a constructed [Region]. *)
Record region : Type := mk_region {
  r_gap : bool;
  r_mask_name : string;
  r_phi_max : R;
  r_phi_min : R;
  r_theta_max : R;
  r_theta_min : R;
  r_name_ending : string;
  r_region_type : region_type
}.

(** src/sleplet/slepian/region.py:46-93 [_identify_region] *)
Definition identify_region (gap : bool) (mask_name : string)
    (phi_max phi_min theta_max theta_min : R) : res (region_type * string) :=
  if is_polar_cap phi_min phi_max theta_min theta_max then
    Ok (Polar, "polar" ++ (if gap then "_gap" else "") ++ zstr (angle_as_degree theta_max))
  else if is_limited_lat_lon phi_min phi_max theta_min theta_max then
    Ok (LimLatLon,
        "theta" ++ zstr (angle_as_degree theta_min) ++ "-" ++ zstr (angle_as_degree theta_max)
        ++ "_phi" ++ zstr (angle_as_degree phi_min) ++ "-" ++ zstr (angle_as_degree phi_max))
  else if negb (String.eqb mask_name "") then
    Ok (Arbitrary, mask_name)
  else Err AttributeError.

(** src/sleplet/slepian/region.py:95-157, the four field validators.  pydantic
    collects the [ValueError]s of all fields and raises a [ValidationError],
    which is a [ValueError]. *)
Definition check_phi_max (x : R) : bool :=
  negb (Rltb x PHI_MIN_DEFAULT) && negb (Rltb PHI_MAX_DEFAULT x).
Definition check_phi_min (x : R) : bool :=
  negb (Rltb x PHI_MIN_DEFAULT) && negb (Rltb PHI_MAX_DEFAULT x).
Definition check_theta_max (x : R) : bool :=
  negb (Rltb x THETA_MIN_DEFAULT) && negb (Rltb THETA_MAX_DEFAULT x).
Definition check_theta_min (x : R) : bool :=
  negb (Rltb x THETA_MIN_DEFAULT) && negb (Rltb THETA_MAX_DEFAULT x).

(** [Region(gap=.., mask_name=.., phi_max=.., phi_min=.., theta_max=..,
    theta_min=..)]: validators first, then [__post_init__] (region.py:43-44). *)
Definition make_region (gap : bool) (mask_name : string)
    (phi_max phi_min theta_max theta_min : R) : res region :=
  if check_phi_max phi_max && check_phi_min phi_min
     && check_theta_max theta_max && check_theta_min theta_min
  then
    let* (ty, ending) := identify_region gap mask_name phi_max phi_min theta_max theta_min in
    Ok (mk_region gap mask_name phi_max phi_min theta_max theta_min ending ty)
  else Err ValueError.

(** The solver objects, as far as region, area, Shannon number and file names
    go.  Eigenproblems are in other files. *)
Inductive solver : Type :=
| SlepianPolarCap (theta_max : R) (gap : bool)
| SlepianLimitLatLon (phi_max phi_min theta_max theta_min : R)
| SlepianArbitrary (mask_name : string).

(** [_create_region] of each solver:
    slepian_polar_cap.py:60-61 (with the validator [_check_theta_max],
    slepian_polar_cap.py:414-419, which runs first),
    slepian_limit_lat_lon.py:51-57, slepian_arbitrary.py:52-53. *)
Definition create_region (s : solver) : res region :=
  match s with
  | SlepianPolarCap theta_max gap =>
      if Reqb theta_max 0 then Err ValueError
      else make_region gap "" PHI_MAX_DEFAULT PHI_MIN_DEFAULT theta_max THETA_MIN_DEFAULT
  | SlepianLimitLatLon phi_max phi_min theta_max theta_min =>
      make_region false "" phi_max phi_min theta_max theta_min
  | SlepianArbitrary mask_name =>
      make_region false mask_name PHI_MAX_DEFAULT PHI_MIN_DEFAULT THETA_MAX_DEFAULT
        THETA_MIN_DEFAULT
  end.

(** src/sleplet/slepian_methods.py:24-69 [choose_slepian_method], the choice of
    class and arguments (the bandlimit is passed through unchanged). *)
Definition choose_slepian_method (r : region) : solver :=
  match r_region_type r with
  | Polar => SlepianPolarCap (r_theta_max r) (r_gap r)
  | LimLatLon =>
      SlepianLimitLatLon (r_phi_max r) (r_phi_min r) (r_theta_max r) (r_theta_min r)
  | Arbitrary => SlepianArbitrary (r_mask_name r)
  end.

(** [_calculate_area]: slepian_polar_cap.py:63-64, slepian_limit_lat_lon.py
    (area of the box), slepian_arbitrary.py:58-62 (sum of the mask times the
    integration weights; the two arrays are flattened here and are arguments). *)
Definition polar_area (theta_max : R) : R := 2 * PI * (1 - cos theta_max).
Definition lat_lon_area (phi_max phi_min theta_max theta_min : R) : R :=
  (phi_max - phi_min) * (cos theta_min - cos theta_max).
Definition masked_area (mask weight : list R) : R :=
  fold_right Rplus 0 (map (fun p => fst p * snd p) (combine mask weight)).

(** slepian_functions.py:53-64: [N = round(area * L**2 / (4 * np.pi))] *)
Definition shannon (area : R) (L : nat) : Z :=
  py_round (area * (INR L * INR L) / (4 * PI)).

(** [_create_matrix_location]: slepian_polar_cap.py, slepian_limit_lat_lon.py
    ([region._name_ending]), slepian_arbitrary.py:64-65 ([mask_name]). *)
Definition matrix_location (ending : string) (L : nat) (N : Z) : string :=
  "slepian_eigensolutions_D_" ++ ending ++ "_L" ++ zstr (Z.of_nat L) ++ "_N" ++ zstr N.

(** Area of a solver (the arbitrary solver integrates its mask). *)
Definition calculate_area (mask_area : R) (s : solver) : R :=
  match s with
  | SlepianPolarCap theta_max _ => polar_area theta_max
  | SlepianLimitLatLon phi_max phi_min theta_max theta_min =>
      lat_lon_area phi_max phi_min theta_max theta_min
  | SlepianArbitrary _ => mask_area
  end.

(** slepian_functions.py:53-64 up to [matrix_location]: the file-name stem used
    by a solver for bandlimit [L].  The mask files and the integration weights
    (slepian_arbitrary.py) only enter through [mask_area]. *)
Definition solver_location (mask_area : R) (s : solver) (L : nat) : res string :=
  let* r := create_region s in
  let N := shannon (calculate_area mask_area s) L in
  Ok (matrix_location
        (match s with SlepianArbitrary m => m | _ => r_name_ending r end) L N).

(** src/sleplet/_mask_methods.py:25-68 [create_mask_region], one sample of the
    grid at [(theta, phi)].  The arbitrary case loads a file and is not a
    formula. *)
Definition polar_mask (gap : bool) (theta_max theta : R) : bool :=
  Rleb theta theta_max || (gap && Rleb (PI - theta_max) theta).
Definition lat_lon_mask (phi_max phi_min theta_max theta_min theta phi : R) : bool :=
  Rleb theta_min theta && Rleb theta theta_max && Rleb phi_min phi && Rleb phi phi_max.
