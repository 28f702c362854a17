(** * Masks on the sphere. *)
From Coq Require Import ZArith Reals String Bool List.
From Verif Require Import Base PyNum Region.
Import ListNotations.
Open Scope string_scope.
Open Scope R_scope.

(** A sampling grid as returned by [ssht.sample_positions(L, Grid=True)]: the
    two arrays [thetas] and [phis] have the same shape and are kept as one array
    of pairs.  A mask is a Boolean array. *)
Definition grid : Type := list (list (R * R)).
Definition mask_array : Type := list (list bool).

(** [a.shape] of a two-dimensional array kept as a list of rows: number of rows
    and the row lengths. *)
Definition shape {A} (a : list (list A)) : list nat := map (@length A) a.
Definition shape_eqb (s t : list nat) : bool :=
  if list_eq_dec PeanoNat.Nat.eq_dec s t then true else false.

Definition grid_map (f : R -> R -> bool) (g : grid) : mask_array :=
  map (map (fun p => f (fst p) (snd p))) g.

(** The files below the data directory that matter here: masks by file name. *)
Definition mask_files : Type := string -> option mask_array.
Definition put_mask (fs : mask_files) (name : string) (m : mask_array) : mask_files :=
  fun n => if String.eqb n name then Some m else fs n.

(** src/sleplet/_mask_methods.py:154-187 [_create_africa_mask],
    [_create_south_america_mask]: colatitude at most 41 (40) degrees and
    non-negative topography.  The rotated topography [earth_f] is an argument
    (ssht is external). *)
Definition AFRICA_RANGE : R := 41 * PI / 180.
Definition SOUTH_AMERICA_RANGE : R := 40 * PI / 180.
Definition land_mask (range : R) (g : grid) (earth_f : list (list R)) : mask_array :=
  map (fun rows => map (fun p => Rleb (fst (fst p)) range && Rleb 0 (snd p))
                       (combine (fst rows) (snd rows)))
      (combine g earth_f).

(** src/sleplet/_mask_methods.py:194-207 [create_mask]; [land name L] is the
    rotated topography of that continent at bandlimit [L]. *)
Definition create_mask (land : bool -> nat -> list (list R)) (L : nat) (g : grid)
    (mask_name : string) (fs : mask_files) : res (mask_array * mask_files) :=
  let* m :=
    (if String.eqb mask_name ("africa_L" ++ zstr (Z.of_nat L) ++ ".npy") then
       Ok (land_mask AFRICA_RANGE g (land true L))
     else if String.eqb mask_name ("south_america_L" ++ zstr (Z.of_nat L) ++ ".npy") then
       Ok (land_mask SOUTH_AMERICA_RANGE g (land false L))
     else Err ValueError) in
  Ok (m, put_mask fs ("slepian_masks_" ++ mask_name) m).

(** src/sleplet/_mask_methods.py:71-76 [_load_mask] *)
Definition load_mask (land : bool -> nat -> list (list R)) (L : nat) (g : grid)
    (mask_name : string) (fs : mask_files) : res (mask_array * mask_files) :=
  match fs ("slepian_masks_" ++ mask_name) with
  | None => create_mask land L g mask_name fs
  | Some m => Ok (m, fs)
  end.

(** src/sleplet/_mask_methods.py:25-68 [create_mask_region]; [g] is the grid for
    bandlimit [L].  Also returns the files, because a missing mask is written. *)
Definition create_mask_region (land : bool -> nat -> list (list R)) (L : nat) (g : grid)
    (r : region) (fs : mask_files) : res (mask_array * mask_files) :=
  match r_region_type r with
  | Arbitrary =>
      let* (m, fs') := load_mask land L g
                         (r_mask_name r ++ "_L" ++ zstr (Z.of_nat L) ++ ".npy") fs in
      if shape_eqb (shape m) (shape g) then Ok (m, fs') else Err AssertionError
  | LimLatLon =>
      Ok (grid_map (fun theta phi =>
            lat_lon_mask (r_phi_max r) (r_phi_min r) (r_theta_max r) (r_theta_min r) theta phi) g,
          fs)
  | Polar =>
      Ok (grid_map (fun theta _ => polar_mask (r_gap r) (r_theta_max r) theta) g, fs)
  end.

(** [os.getenv(name, default)] and [int(..)]: the environment holds strings;
    [int] is an argument because Python's parser is not modelled. *)
Definition getenv (env : string -> option string) (name default : string) : string :=
  match env name with Some v => v | None => default end.

(** src/sleplet/_mask_methods.py:106-115 [create_default_region].
    [lower] is [str.lower], [to_int] is [int] on strings (which may raise
    [ValueError]). *)
Definition deg2rad (d : Z) : R := IZR d * PI / 180.
Definition create_default_region (lower : string -> string) (to_int : string -> res Z)
    (env : string -> option string) : res region :=
  let gap := String.eqb (lower (getenv env "POLAR_GAP" "False")) "true" in
  let mask_name := getenv env "SLEPIAN_MASK" "south_america" in
  let* phi_max := to_int (getenv env "PHI_MAX" "360") in
  let* phi_min := to_int (getenv env "PHI_MIN" "0") in
  let* theta_max := to_int (getenv env "THETA_MAX" "180") in
  let* theta_min := to_int (getenv env "THETA_MIN" "0") in
  make_region gap mask_name (deg2rad phi_max) (deg2rad phi_min) (deg2rad theta_max)
    (deg2rad theta_min).
