(** * Plot helpers: resolution, nearest sample, normalisation, closing, masks,
    colour limits, and the data handed to plotly.

    A field on the sphere is the list of its samples in row order, or a list of
    rows where the code inserts columns.  NaN and infinities are not modelled. *)
From Coq Require Import List ZArith Arith Bool Reals String.
From Coquelicot Require Import Complex.
From Verif Require Import Base RSum CSum PyNum Region Mask Numpy Eigen Quadrature Transform Functions Mesh.
Import ListNotations.
Local Open Scope nat_scope.
Local Open Scope list_scope.

(** src/sleplet/plot_methods.py:21-40 [calc_plot_resolution] *)
Definition res_dict : list (Z * Z) := [(1, 6); (2, 5); (3, 4); (7, 3); (9, 2); (10, 1)]%Z.
Definition calc_plot_resolution (L : Z) : Z :=
  match find (fun p : Z * Z => (L <? 2 ^ fst p)%Z) res_dict with
  | Some p => (L * 2 ^ snd p)%Z
  | None => L
  end.

(** [a.argmin()]: the first position of the least entry; empty arrays raise. *)
Fixpoint argmin_from (i best : nat) (least : R) (l : list R) : nat :=
  match l with
  | [] => best
  | y :: t => if Rltb y least then argmin_from (S i) i y t else argmin_from (S i) best least t
  end.
Definition argmin (l : list R) : res nat :=
  match l with [] => Err ValueError | x :: t => Ok (argmin_from 1 0 x t) end.

(** src/sleplet/plot_methods.py:43-60 [_calc_nearest_grid_point] *)
Definition calc_nearest_grid_point (L : nat) (alpha_pi_fraction beta_pi_fraction : R) : res (R * R) :=
  let* pix_j := argmin (map (fun x => Rabs (x - alpha_pi_fraction * PI)) (phis L)) in
  let* pix_i := argmin (map (fun x => Rabs (x - beta_pi_fraction * PI)) (thetas L)) in
  let* alpha := np_get (phis L) pix_j in
  let* beta := np_get (thetas L) pix_i in
  Ok (alpha, beta).

(** src/sleplet/plot_methods.py:112-125 [_create_plot_type] *)
Definition create_plot_type (field : list C) (plot_type : string) : res (list R) :=
  if String.eqb plot_type "abs" then Ok (map Cmod field)
  else if String.eqb plot_type "imag" then Ok (map Im field)
  else if String.eqb plot_type "real" then Ok (map Re field)
  else if String.eqb plot_type "sum" then Ok (map (fun z => (Re z + Im z)%R) field)
  else Err KeyError.

(** [a.max()], [a.min()]; empty arrays raise. *)
Definition np_max (l : list R) : res R :=
  match l with [] => Err ValueError | x :: t => Ok (fold_left Rmax t x) end.
Definition np_min (l : list R) : res R :=
  match l with [] => Err ValueError | x :: t => Ok (fold_left Rmin t x) end.

(** [np.allclose(f, x)] with the default tolerances *)
Definition allclose (f : list R) (x : R) : bool :=
  forallb (fun y => Rleb (Rabs (y - x)) (1 / 10 ^ 8 + 1 / 10 ^ 5 * Rabs x)%R) f.

(** [f / x].  numpy does not raise for [x == 0] but fills the result with NaN or
    infinities; that outcome is [Err ZeroDivisionError] here. *)
Definition np_div (f : list R) (x : R) : res (list R) :=
  if Reqb x 0 then Err ZeroDivisionError else Ok (map (fun y => (y / x)%R) f).

(** src/sleplet/plot_methods.py:148-160 [_normalise_function] *)
Definition normalise_function (f : list R) (normalise : bool) : res (list R) :=
  if negb normalise then Ok f
  else if forallb (fun y => Reqb y 0) f then Ok (map (fun y => (y + 1 / 2)%R) f)
  else
    let* mx := np_max f in
    if allclose f mx then np_div f mx
    else let* mn := np_min f in np_div (map (fun y => (y - mn)%R) f) (mx - mn)%R.

(** [np.insert(a, pos, a[:, 0], axis=1)] for rows of equal length *)
Definition insert_first_column {A} (pos : nat) (a : list (list A)) : res (list (list A)) :=
  rmap (fun row => let* x := np_get row 0 in
                   if pos <=? List.length row then Ok (firstn pos row ++ x :: skipn pos row)
                   else Err IndexError) a.

(** src/sleplet/_vars.py:8 *)
Definition SPHERE_UNSEEN : R := (- (156 / 100) * 10 ^ 30)%R.

(** [np.where(cond, a, x)] on arrays of one shape *)
Definition where_rows (cond : list (list bool)) (a : list (list R)) (x : R) : res (list (list R)) :=
  if shape_eqb (shape cond) (shape a)
  then Ok (map (fun rows => map (fun p : bool * R => if fst p then snd p else x)
                                (combine (fst rows) (snd rows)))
               (combine cond a))
  else Err ValueError.

(** The grid of [ssht.sample_positions(L, Grid=True)]: one row per colatitude. *)
Definition sample_grid (L : nat) : grid :=
  map (fun theta => map (fun phi => (theta, phi)) (phis L)) (thetas L).

(** src/sleplet/plot_methods.py:128-145 [_set_outside_region_to_minimum] (the
    mask files may change because a missing continent mask is written) *)
Definition set_outside_region_to_minimum (land : bool -> nat -> list (list R)) (f_plot : list (list R))
    (L : nat) (r : region) (fs : mask_files) : res (list (list R) * mask_files) :=
  let* (mask, fs') := create_mask_region land L (sample_grid L) r fs in
  let* closed_mask := insert_first_column (n_phi L) mask in
  let* out := where_rows closed_mask f_plot SPHERE_UNSEEN in
  Ok (out, fs').

(** A flat field as rows of [width] samples ([f[k]] for [k] in row order). *)
Definition rows_of {A} (height width : nat) (l : list A) : list (list A) :=
  map (fun i => firstn width (skipn (i * width) l)) (seq 0 height).

(** [ssht.s2_to_cart] *)
Definition s2_to_cart (p : R * R) : R * R * R :=
  ((sin (fst p) * cos (snd p))%R, (sin (fst p) * sin (snd p))%R, cos (fst p)).

(** src/sleplet/plotting/_create_plot_sphere.py:123-194 [_setup_plot] with the
    arguments of its only call (no [color_range], not [parametric], [close]);
    [f] is two-dimensional. *)
Definition setup_plot (f : list (list R)) (resolution : nat)
    : res (list (list (R * R * R)) * list (list R) * R * R) :=
  if negb (List.length (List.concat f) =? samples resolution) then Err AttributeError
  else
    let* vmax := np_max (List.concat f) in
    let* vmin := np_min (List.concat f) in
    let* f_plot := insert_first_column (n_phi resolution) f in
    let* pos := insert_first_column (n_phi resolution) (sample_grid resolution) in
    Ok (map (map s2_to_cart) pos, f_plot, vmin, vmax).

(** src/sleplet/_plotly_methods.py:53-60 [create_tick_mark] *)
Definition create_tick_mark (fmin fmax : R) (amplitude : option R) : R :=
  match amplitude with Some a => a | None => Rmax (Rabs fmin) (Rabs fmax) end.

(** The part of [create_colour_bar] that depends on the data,
    src/sleplet/_plotly_methods.py:63-80: [tick0] and [dtick]. *)
Definition create_colour_bar (tick_mark : R) (normalise : bool) : option R * option R :=
  if normalise then (None, None) else (Some (- tick_mark)%R, Some tick_mark).

(** The data of the plotly figure of a surface. *)
Record figure := {
  fg_pos : list (list (R * R * R));
  fg_colour : list (list R);
  fg_cmin : R; fg_cmid : R; fg_cmax : R;
  fg_bar : option R * option R
}.

Section PlotSphere.
  Variable inverse forward : Z -> bool -> nat -> list C -> list C.  (* ssht, by spin, reality and L *)

  (** src/sleplet/plot_methods.py:163-188 [_boost_field] *)
  Definition boost_field (field : list C) (L resolution : nat) (reality : bool) (spin : Z)
      (upsample : bool) : res (list C) :=
    if negb upsample then Ok field
    else
      let flm := forward spin reality L field in
      invert_flm_boosted (inverse spin reality) flm L resolution.

  (** The resolution chosen by [PlotSphere.__post_init__],
      src/sleplet/plotting/_create_plot_sphere.py:51-61 *)
  Definition plot_resolution (L : nat) (upsample : bool) : nat :=
    if upsample then Z.to_nat (calc_plot_resolution (Z.of_nat L)) else L.

  (** src/sleplet/plotting/_create_plot_sphere.py:196-216 [_prepare_field] *)
  Definition prepare_field (f : list C) (L : nat) (reality : bool) (spin : Z) (upsample : bool)
      (plot_type : string) (normalise : bool) : res (list R) :=
    let* boosted_field := boost_field f L (plot_resolution L upsample) reality spin upsample in
    let* field_space := create_plot_type boosted_field plot_type in
    normalise_function field_space normalise.

  (** src/sleplet/plotting/_create_plot_sphere.py:63-120 [execute] up to the
      construction of the figure *)
  Definition plot_sphere (land : bool -> nat -> list (list R)) (f : list C) (L : nat)
      (amplitude : option R) (normalise : bool) (plot_type : string) (reality : bool)
      (r : option region) (spin : Z) (upsample : bool) (fs : mask_files) : res (figure * mask_files) :=
    let resolution := plot_resolution L upsample in
    let* f := prepare_field f L reality spin upsample plot_type normalise in
    let* (pos, f_plot, vmin, vmax) :=
      setup_plot (rows_of (n_theta resolution) (n_phi resolution) f) resolution in
    let* (f_plot, fs) :=
      match r with
      | Some reg => set_outside_region_to_minimum land f_plot resolution reg fs
      | None => Ok (f_plot, fs)
      end in
    let tick_mark := create_tick_mark vmin vmax amplitude in
    Ok ({| fg_pos := pos; fg_colour := f_plot;
           fg_cmin := if normalise then 0%R else (- tick_mark)%R;
           fg_cmid := if normalise then (1 / 2)%R else 0%R;
           fg_cmax := if normalise then 1%R else tick_mark;
           fg_bar := create_colour_bar tick_mark normalise |}, fs).

  (** src/sleplet/plot_methods.py:241-256 [_coefficients_to_field_sphere]; [s] is
      the [slepian] attribute when there is one.  [slepian_inverse] transforms
      with the default spin and reality flags. *)
  Definition coefficients_to_field_sphere (s : option slepian) (L : nat) (reality : bool) (spin : Z)
      (coefficients : list C) : res (list C) :=
    match s with
    | Some s => slepian_inverse (inverse 0%Z false) coefficients L s
    | None => Ok (inverse spin reality L coefficients)
    end.

  (** src/sleplet/plot_methods.py:63-109 [find_max_amplitude] *)
  Definition find_max_amplitude (s : option slepian) (L : nat) (reality : bool) (spin : Z)
      (coefficients : list C) (plot_type : string) (upsample : bool) : res R :=
    let* field := match s with
                  | Some s => slepian_inverse (inverse 0%Z false) coefficients L s
                  | None => Ok (inverse 0%Z false L coefficients)
                  end in
    let resolution := plot_resolution L upsample in
    let* boosted_field := boost_field field L resolution reality spin upsample in
    let* x := create_plot_type boosted_field plot_type in
    np_max (map Rabs x).

  (** src/sleplet/plot_methods.py:222-238 [compute_amplitude_for_noisy_sphere_plots] *)
  Definition compute_amplitude_for_noisy_sphere_plots (s : option slepian) (L : nat) (reality : bool)
      (spin : Z) (unnoised : option (list C)) : res (option R) :=
    match unnoised with
    | None => Ok None
    | Some coefficients =>
        let* field := coefficients_to_field_sphere s L reality spin coefficients in
        let* a := np_max (map Cmod field) in
        Ok (Some a)
    end.
End PlotSphere.

(** src/sleplet/_mesh_methods.py:19-38 [average_functions_on_vertices_to_faces]
    for one function: [igl.average_onto_faces] is the mean over the vertices of
    each face. *)
Definition average_onto_faces (faces : list (list nat)) (f : list R) : res (list R) :=
  rmap (fun face => let* xs := rmap (np_get f) face in Ok (rlsum xs / INR (List.length face))%R) faces.

(** src/sleplet/plotting/_create_plot_mesh.py:22 *)
Definition MESH_UNSEEN : R := (- 10 ^ 5)%R.

(** src/sleplet/plotting/_create_plot_mesh.py:118-129
    [_set_outside_region_to_minimum] *)
Definition mesh_outside_region (m : mesh) (f : list R) : res (list R) :=
  broadcast (fun c x => if Reqb c 0 then MESH_UNSEEN else x) (convert_region_on_vertices_to_faces m) f.

(** The data of the plotly figure of a mesh: where the vertices are drawn, the
    triangles between them and one colour per triangle. *)
Record mesh_figure := {
  mf_points : list (R * R * R); mf_triangles : list (list nat);
  mf_intensity : list R; mf_cmin : R; mf_cmid : R; mf_cmax : R; mf_bar : option R * option R
}.

(** src/sleplet/plotting/_create_plot_mesh.py:47-103 [execute] and 105-116
    [_prepare_field] *)
Definition plot_mesh (m : mesh) (f : list R) (amplitude : option R) (normalise region : bool)
    : res mesh_figure :=
  let* vmin := np_min f in
  let* vmax := np_max f in
  let* on_faces := average_onto_faces (m_faces m) f in
  let* f := normalise_function on_faces normalise in
  let* f := if region then mesh_outside_region m f else Ok f in
  let tick_mark := create_tick_mark vmin vmax amplitude in
  Ok {| mf_points := map (fun v : R * R * R => let '(x, y, z) := v in (x, z, y)) (m_vertices m);
        mf_triangles := m_faces m;
        mf_intensity := f;
        mf_cmin := if normalise then 0%R else (- tick_mark)%R;
        mf_cmid := if normalise then (1 / 2)%R else 0%R;
        mf_cmax := if normalise then 1%R else tick_mark;
        mf_bar := create_colour_bar tick_mark normalise |}.

(** src/sleplet/plot_methods.py:210-219 [_coefficients_to_field_mesh] *)
Definition coefficients_to_field_mesh (m : mesh) (s : option mesh_slepian) (coefficients : list R)
    : res (list R) :=
  match s with
  | Some s => slepian_mesh_inverse s coefficients
  | None => mesh_inverse m coefficients
  end.

(** src/sleplet/plot_methods.py:191-207 [compute_amplitude_for_noisy_mesh_plots] *)
Definition compute_amplitude_for_noisy_mesh_plots (m : mesh) (s : option mesh_slepian)
    (unnoised : option (list R)) : res (option R) :=
  match unnoised with
  | None => Ok None
  | Some coefficients =>
      let* field := coefficients_to_field_mesh m s coefficients in
      let* a := np_max (map Rabs field) in
      Ok (Some a)
  end.
