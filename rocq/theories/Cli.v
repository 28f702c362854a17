(** * The plotting commands: from a function to the figure and its file name.

    pyssht's rotation, spherical harmonics and sample indices are external.
    Angles are given in units of pi and are rational numbers. *)
From Coq Require Import List ZArith QArith Arith Bool Reals Qreals String.
From Coquelicot Require Import Complex.
From Verif Require Import Base CSum PyNum Region Mask Numpy Eigen Quadrature Convolution Transform Functions Names
  FnNames Mesh Plot.
Import ListNotations.
Local Open Scope string_scope.
Local Open Scope list_scope.
Local Open Scope nat_scope.

(** The attributes of a function that plotting reads (coefficients.py:25-64,
    fp.py:19-38); [fn_slepian] is [None] when there is no such attribute. *)
Record fn := {
  fn_name : string;
  fn_L : nat;
  fn_coefficients : list C;
  fn_slepian : option slepian;
  fn_region : option region;
  fn_reality : bool;
  fn_spin : Z
}.

Definition set_reality (b : bool) (f : fn) : fn :=
  {| fn_name := fn_name f; fn_L := fn_L f; fn_coefficients := fn_coefficients f; fn_slepian := fn_slepian f;
     fn_region := fn_region f; fn_reality := b; fn_spin := fn_spin f |}.

(** The keyword arguments of [plot], plotting_on_sphere.py:174-187. *)
Record plot_args := {
  pa_alpha : Q; pa_beta : Q; pa_gamma : Q;
  pa_annotations : bool;
  pa_normalise : bool;
  pa_method : string;
  pa_type : string;
  pa_upsample : bool;
  pa_view : string;
  pa_amplitude : option R
}.

Section Sphere.
  Variable inverse forward : Z -> bool -> nat -> list C -> list C.  (* ssht, by spin, reality and L *)
  Variable rotate_flms : list C -> R -> R -> R -> nat -> res (list C).
  Variable create_ylm : R -> R -> nat -> list C.                    (* of theta, phi and L, flattened *)
  Variable theta_to_index phi_to_index : R -> nat -> nat.

  (** src/sleplet/harmonic_methods.py:15-20, 176-196
      [rotate_earth_to_south_america], 199-213 [rotate_earth_to_africa] *)
  Definition rotate_earth_to_south_america (earth_flm : list C) (L : nat) : res (list C) :=
    rotate_flms earth_flm (deg2rad 54) (deg2rad 108) (deg2rad 63) L.
  Definition rotate_earth_to_africa (earth_flm : list C) (L : nat) : res (list C) :=
    rotate_flms earth_flm (deg2rad 44) (deg2rad 87) (deg2rad 341) L.

  (** [rotate]: src/sleplet/functions/flm.py:23-31, fp.py:41-50 *)
  Definition fn_rotate (f : fn) (alpha beta gamma : R) : res (list C) :=
    match fn_slepian f with
    | None => rotate_flms (fn_coefficients f) alpha beta gamma (fn_L f)
    | Some _ => Err NotImplementedError
    end.

  (** [_translation_helper]: src/sleplet/functions/flm.py:33-38, fp.py:52-62 *)
  Definition fn_translation_helper (f : fn) (alpha beta : R) : res (list C) :=
    match fn_slepian f with
    | None => flm_translation_helper (create_ylm beta alpha (fn_L f))
    | Some s => fp_translation_helper (inverse 0%Z false) (fn_L f) (theta_to_index beta (fn_L f))
                  (phi_to_index alpha (fn_L f)) s
    end.

  (** src/sleplet/functions/coefficients.py:100-124 [convolve] of one-dimensional
      arrays; the flag of the function is set. *)
  Definition fn_convolve (f : fn) (f_coefficient g_coefficient : list C) (shannon : option Z) : res (list C * fn) :=
    let* h := sifting_convolution (A1 f_coefficient) (A1 g_coefficient) shannon in
    match h with
    | A1 h => Ok (h, set_reality false f)
    | A2 _ _ => Err TypeError     (* does not happen: both arguments have one axis *)
    end.

  (** src/sleplet/functions/coefficients.py:75-98 [translate] *)
  Definition fn_translate (f : fn) (alpha beta : R) (shannon : option Z) : res (list C * fn) :=
    let* g_coefficients := fn_translation_helper f alpha beta in
    if contains "dirac_delta" (fn_name f) then Ok (g_coefficients, f)
    else fn_convolve f (fn_coefficients f) g_coefficients shannon.

  (** src/sleplet/_scripts/plotting_on_sphere.py:268-296 [_rotation_helper] *)
  Definition rotation_helper (f : fn) (filename : string) (alpha_pi_frac beta_pi_frac gamma_pi_frac : Q)
      : res (list C * string) :=
    let filename := (filename ++ "_rotate_" ++ filename_angle alpha_pi_frac beta_pi_frac gamma_pi_frac)%string in
    let* (alpha, beta) := calc_nearest_grid_point (fn_L f) (Q2R alpha_pi_frac) (Q2R beta_pi_frac) in
    let gamma := (Q2R gamma_pi_frac * PI)%R in
    let* coefficients := fn_rotate f alpha beta gamma in
    Ok (coefficients, filename).

  (** src/sleplet/_scripts/plotting_on_sphere.py:299-333 [_translation_helper];
      of the annotation only its position is kept. *)
  Definition translation_helper (f : fn) (filename : string) (alpha_pi_frac beta_pi_frac : Q) (shannon : option Z)
      : res (list C * string * (R * R * R) * fn) :=
    let filename := (filename ++ "_translate_" ++ filename_angle alpha_pi_frac beta_pi_frac 0)%string in
    let* (alpha, beta) := calc_nearest_grid_point (fn_L f) (Q2R alpha_pi_frac) (Q2R beta_pi_frac) in
    let* (coefficients, f) := fn_translate f alpha beta shannon in
    Ok (coefficients, filename, s2_to_cart (beta, alpha), f).

  (** src/sleplet/_scripts/plotting_on_sphere.py:336-352 [_convolution_helper] *)
  Definition convolution_helper (f g : fn) (coefficients : list C) (shannon : option Z) (filename : string)
      : res (list C * string * fn) :=
    let* g_coefficients :=
      match fn_slepian f with
      | Some s => slepian_forward (inverse 0%Z false) (fn_L f) s (of_flm (fn_coefficients g)) None
      | None => Ok (fn_coefficients g)
      end in
    let* (coefficients, f) := fn_convolve f g_coefficients coefficients shannon in
    Ok (coefficients, (filename ++ "_convolved_" ++ fn_name g)%string, f).

  (** src/sleplet/_scripts/plotting_on_sphere.py:174-248: [plot] up to the
      computation of the field *)
  Definition plot_coefficients (f : fn) (g : option fn) (a : plot_args)
      : res (list C * string * list (R * R * R) * fn) :=
    let filename := fn_name f in
    let coefficients := fn_coefficients f in
    let shannon := match fn_slepian f with Some s => Some (s_N s) | None => None end in
    let* (coefficients, filename, annotation, f) :=
      if String.eqb (pa_method a) "rotate" then
        let* (coefficients, filename) := rotation_helper f filename (pa_alpha a) (pa_beta a) (pa_gamma a) in
        Ok (coefficients, filename, [], f)
      else if String.eqb (pa_method a) "translate" then
        let* (coefficients, filename, trans_annotation, f) :=
          translation_helper f filename (pa_alpha a) (pa_beta a) shannon in
        Ok (coefficients, filename, if pa_annotations a then [trans_annotation] else [], f)
      else Ok (coefficients, filename, [], f) in
    let* (coefficients, filename, f) :=
      match g with
      | Some g => convolution_helper f g coefficients shannon filename
      | None => Ok (coefficients, filename, f)
      end in
    let* (coefficients, filename) :=
      if contains "earth" filename then
        if String.eqb (pa_view a) "africa" then
          let* coefficients := rotate_earth_to_africa coefficients (fn_L f) in
          Ok (coefficients, (filename ++ "_africa")%string)
        else if String.eqb (pa_view a) "south_america" then
          let* coefficients := rotate_earth_to_south_america coefficients (fn_L f) in
          Ok (coefficients, filename)
        else Ok (coefficients, filename)
      else Ok (coefficients, filename) in
    Ok (coefficients, filename, annotation, f).

  (** The name of the figure's file,
      src/sleplet/plotting/_create_plot_sphere.py:51-61 [PlotSphere.__post_init__] *)
  Definition figure_name (filename : string) (L : nat) (upsample : bool) (plot_type : string) (normalise : bool) : string :=
    (filename ++ (if upsample then "_res" ++ zstr (Z.of_nat (plot_resolution L upsample)) else "")
     ++ "_" ++ plot_type ++ (if normalise then "_norm" else ""))%string.

  (** src/sleplet/_scripts/plotting_on_sphere.py:174-265 [plot]: the figure, its
      file name and the annotations *)
  Definition plot (land : bool -> nat -> list (list R)) (f : fn) (g : option fn) (a : plot_args) (fs : mask_files)
      : res (figure * string * list (R * R * R) * mask_files) :=
    let* (coefficients, filename, annotation, f) := plot_coefficients f g a in
    let* field := coefficients_to_field_sphere inverse (fn_slepian f) (fn_L f) (fn_reality f) (fn_spin f) coefficients in
    let* (fig, fs) :=
      plot_sphere inverse forward land field (fn_L f) (pa_amplitude a) (pa_normalise a) (pa_type a) (fn_reality f)
        (match fn_slepian f with Some _ => fn_region f | None => None end) (fn_spin f) (pa_upsample a) fs in
    Ok (fig, figure_name filename (fn_L f) (pa_upsample a) (pa_type a) (pa_normalise a), annotation, fs).
End Sphere.

(** The mesh command, src/sleplet/_scripts/plotting_on_mesh.py:90-105 [plot] and
    src/sleplet/plotting/_create_plot_mesh.py:47-49. *)
Definition mesh_plot (m : mesh) (name : string) (s : option mesh_slepian) (coefficients : list R) (normalise : bool)
    (amplitude : option R) : res (mesh_figure * string) :=
  let* field := coefficients_to_field_mesh m s coefficients in
  let* fig := plot_mesh m field amplitude normalise (match s with Some _ => true | None => false end) in
  Ok (fig, (name ++ if normalise then "_norm" else "")%string).
