(** * Creating the functions on a mesh, the command that plots them, and the
    demonstrations on meshes.

    [MeshSlepian(mesh)] is external here ([Mesh.v] builds it): it is asked more
    than once for the same mesh and is taken to give the same answer, although the
    second time it comes from the cache with [N] functions only. *)
From Coq Require Import List ZArith QArith Arith Bool Reals Qreals String.
From Coquelicot Require Import Complex.
From Verif Require Import Base RSum CSum PyNum Numpy Noise Convolution Wavelet Transform Names FnNames Mesh Args Plot Cli.
Import ListNotations.
Local Open Scope string_scope.
Local Open Scope list_scope.
Local Open Scope nat_scope.

(** src/sleplet/meshes/mesh_coefficients.py:24-57 and
    mesh_slepian_coefficients.py:20-24; arrays that are never assigned are
    [np.empty(0)]. *)
Record mesh_obj := {
  mo_name : string;
  mo_params : params;
  mo_slepian : option mesh_slepian;
  mo_coefficients : list R;
  mo_wavelets : list (list R);
  mo_wavelet_coefficients : list (list R);
  mo_unnoised : option (list R);
  mo_snr : option R
}.

(** src/sleplet/_class_lists.py:88-102 [MESH_HARMONIC], [MESH_SLEPIAN] *)
Definition mesh_is_slepian (c : mesh_cls) : bool :=
  match c with
  | MeshBasisFunctions | MeshField | MeshNoiseField => false
  | MeshSlepianField | MeshSlepianFunctions | MeshSlepianNoiseField | MeshSlepianWaveletCoefficients
  | MeshSlepianWavelets => true
  end.

(** An attribute that only the Slepian classes have. *)
Definition the_slepian (s : option mesh_slepian) : res mesh_slepian :=
  match s with Some s => Ok s | None => Err AttributeError end.

Section MeshObjects.
  Variable solver : mesh -> res mesh_slepian.                        (* MeshSlepian(mesh) *)
  Variable normals : mesh -> list R.                                 (* igl.per_vertex_normals(...)[:, 1] *)
  Variable normal : Z -> nat -> R.                                   (* numpy's generator, by seed and position *)
  Variable axisym_wav_l : Z -> nat -> Z -> list R * nat * list (list R).   (* pys2let *)
  Variable pys2let_j_max : Z -> nat -> Z -> Z.
  Variable fmt_e : R -> string.

  (** The eigenvalue in the name: src/sleplet/meshes/mesh_basis_functions.py:40-48,
      mesh_slepian_functions.py:43-51 *)
  Definition mesh_lam (c : mesh_cls) (m : mesh) (s : option mesh_slepian) (p : params) : res string :=
    match c, p with
    | MeshBasisFunctions, Rank r => let* lam := py_index (m_evals m) r in Ok (fmt_e lam)
    | MeshSlepianFunctions, Rank r =>
        let* s := the_slepian s in let* lam := py_index (ms_evals s) r in Ok (fmt_e lam)
    | _, _ => Ok ""
    end.

  (** src/sleplet/meshes/mesh_slepian_wavelets.py:60-66 [_create_wavelets] *)
  Definition create_mesh_wavelets (m : mesh) (B j_min : Z) : list (list R) :=
    create_kappas axisym_wav_l (List.length (m_evals m)) B j_min.

  (** [slepian_wavelet_forward] (src/sleplet/wavelet_methods.py:13-36) of real
      arrays: nothing has an imaginary part. *)
  Definition mesh_wavelet_forward (f_p : list R) (cols : nat) (wavelets : list (list R)) (N : Z) : res (list (list R)) :=
    let* w := slepian_wavelet_forward (map RtoC f_p) (A2 cols (map (map RtoC) wavelets)) N in
    match w with
    | A2 _ rows => Ok (map (map Re) rows)
    | A1 _ => Err TypeError     (* does not happen: the wavelets have two axes *)
    end.

  (** src/sleplet/meshes/mesh_slepian_wavelet_coefficients.py:62-80
      [_create_wavelet_coefficients] *)
  Definition create_mesh_wavelet_coefficients (m : mesh) (s : mesh_slepian) (B j_min : Z)
      : res (list (list R) * list (list R)) :=
    let wavelets := create_mesh_wavelets m B j_min in
    let* smf := mesh_slepian_field_coefficients normals s in
    let* wavelet_coefficients := mesh_wavelet_forward smf (List.length (m_evals m)) wavelets (ms_N s) in
    Ok (wavelets, wavelet_coefficients).

  (** [_create_coefficients]: src/sleplet/meshes/mesh_basis_functions.py:29-38,
      mesh_field.py:21-26, mesh_noise_field.py:26-32, mesh_slepian_field.py:24-35,
      mesh_slepian_functions.py:28-41, mesh_slepian_noise_field.py:29-42,
      mesh_slepian_wavelet_coefficients.py:37-44, mesh_slepian_wavelets.py:35-42;
      with the arrays [wavelets] and [wavelet_coefficients]. *)
  Definition mesh_create_coefficients (c : mesh_cls) (m : mesh) (s : option mesh_slepian) (p : params)
      : res (list R * list (list R) * list (list R)) :=
    match c, p with
    | MeshBasisFunctions, Rank r =>
        let* basis_function := py_index (m_basis m) r in
        let* u_i := mesh_forward m basis_function in
        Ok (u_i, [], [])
    | MeshField, _ => let* u_i := mesh_field_coefficients normals m in Ok (u_i, [], [])
    | MeshNoiseField, Snr x =>
        let* n := mesh_noise_field_coefficients normal normals m (Q2R x) in Ok (n, [], [])
    | MeshSlepianField, _ =>
        let* s := the_slepian s in
        let* f_p := mesh_slepian_field_coefficients normals s in
        Ok (f_p, [], [])
    | MeshSlepianFunctions, Rank r =>
        let* s := the_slepian s in
        let* s_p_i := py_index (ms_functions s) r in
        let* f_p := slepian_mesh_forward s (of_u_i s_p_i) None in
        Ok (f_p, [], [])
    | MeshSlepianNoiseField, Snr x =>
        let* s := the_slepian s in
        let* n := mesh_slepian_noise_field_coefficients normal normals s (Q2R x) in
        Ok (n, [], [])
    | MeshSlepianWaveletCoefficients, Scale B j_min j =>
        let* s := the_slepian s in
        let* (wavelets, wavelet_coefficients) := create_mesh_wavelet_coefficients m s B j_min in
        let* row := select_scale wavelet_coefficients j in
        Ok (row, wavelets, wavelet_coefficients)
    | MeshSlepianWavelets, Scale B j_min j =>
        let wavelets := create_mesh_wavelets m B j_min in
        let* row := select_scale wavelets j in
        Ok (row, wavelets, [])
    | _, _ => Err AttributeError     (* does not happen: the parameters are those of the class *)
    end.

  (** The noise [_add_noise_to_signal] adds:
      src/sleplet/meshes/mesh_harmonic_coefficients.py:22-34,
      mesh_slepian_coefficients.py:30-46 *)
  Definition mesh_noise_for (s : option mesh_slepian) (coefficients : list R) (snr_in : R) : res (list R) :=
    match s with
    | None => create_mesh_noise normal (map RtoC coefficients) snr_in
    | Some s => create_slepian_mesh_noise normal s coefficients snr_in
    end.

  (** [cls(mesh, ...)]: pydantic validates the keywords, then
      src/sleplet/meshes/mesh_slepian_coefficients.py:26-28 and
      src/sleplet/meshes/mesh_coefficients.py:59-64 [__post_init__] *)
  Definition create_mesh_function (c : mesh_cls) (mesh_name : string) (zoom : bool) (m : mesh) (keywords : params)
      (extra_args : option (list Z)) (noise : option Q) (region : bool) : res mesh_obj :=
    let* _ := mesh_construct pys2let_j_max c m keywords None in
    let* s := if mesh_is_slepian c then let* s := solver m in Ok (Some s) else Ok None in
    let* p := mesh_construct pys2let_j_max c m keywords extra_args in
    let* lam := mesh_lam c m s p in
    let name := mesh_create_name c mesh_name lam p in
    let* (coefficients, wavelets, wavelet_coefficients) := mesh_create_coefficients c m s p in
    let name := mesh_add_details name mesh_name region noise zoom in
    let* (coefficients, unnoised, snr) := mesh_add_noise (mesh_noise_for s) coefficients (option_map Q2R noise) in
    Ok {| mo_name := name; mo_params := p; mo_slepian := s; mo_coefficients := coefficients; mo_wavelets := wavelets;
          mo_wavelet_coefficients := wavelet_coefficients; mo_unnoised := unnoised; mo_snr := snr |}.

  (** src/sleplet/_scripts/plotting_on_mesh.py:108-131 [main], after the arguments
      are parsed and the mesh is made *)
  Definition mesh_command (mesh_name : string) (zoom : bool) (m : mesh) (method : string) (extra_args : option (list Z))
      (noise : option Q) (region unnormalise : bool) : res (mesh_figure * string) :=
    let* c := choose_mesh_class method in
    let* f := create_mesh_function c mesh_name zoom m (mesh_default_params c) extra_args noise region in
    let* amplitude := compute_amplitude_for_noisy_mesh_plots m (mo_slepian f) (mo_unnoised f) in
    mesh_plot m (mo_name f) (mo_slepian f) (mo_coefficients f) (negb unnormalise) amplitude.

  (** examples/mesh/mesh_region.py:17-27 [main]: the figure and its name *)
  Definition mesh_region_demo (mesh_name : string) (m : mesh) : res (mesh_figure * string) :=
    let* field := if List.length (m_region m) =? List.length (m_vertices m)
                  then Ok (map (fun b : bool => if b then 1%R else 0%R) (m_region m))
                  else Err IndexError in
    let* fig := plot_mesh m field None true true in
    Ok (fig, (mesh_name ++ "_region" ++ "_norm")%string).

  (** examples/mesh/denoising_slepian_mesh.py:23-67 [_denoising_mesh_slepian]: the
      coefficients after the synthesis and the returned field; the
      signal-to-noise ratio is only logged. *)
  Definition denoising_mesh_slepian (s : mesh_slepian) (signal noised : list R) (cols : nat) (wavelets : list (list R))
      (snr_in : R) (n_sigma : Z) : res (list R * list R) :=
    let* w := mesh_wavelet_forward noised cols wavelets (ms_N s) in
    let* sigma_j := compute_slepian_mesh_sigma_j s signal wavelets snr_in in
    let (w_denoised, outcome) := slepian_mesh_hard_thresholding s w sigma_j n_sigma in
    let* _ := outcome in
    let* f_p := slepian_wavelet_inverse (A2 (Z.to_nat (ms_N s)) (map (map RtoC) w_denoised))
                  (A2 cols (map (map RtoC) wavelets)) (ms_N s) in
    let f_p := map Re f_p in
    let* _ := broadcast Rminus f_p signal in
    let* f := slepian_mesh_inverse s f_p in
    Ok (f_p, f).

  (** examples/mesh/denoising_slepian_mesh.py:70-100 [main]: the figure *)
  Definition denoising_mesh_demo (mesh_name : string) (m : mesh) (snr : Q) (sigma : Z) : res mesh_figure :=
    let* fn := create_mesh_function MeshSlepianField mesh_name true m No_params None None false in
    let* fn_noised := create_mesh_function MeshSlepianField mesh_name true m No_params None (Some snr) false in
    let* smw := create_mesh_function MeshSlepianWavelets mesh_name true m (Scale 3 2 None) None None false in
    let* s := the_slepian (mo_slepian fn_noised) in
    let* clean := slepian_mesh_inverse s (mo_coefficients fn) in
    let* amplitude := np_max (map Rabs clean) in
    let* s := the_slepian (mo_slepian smw) in
    let* r := denoising_mesh_slepian s (mo_coefficients fn) (mo_coefficients fn_noised) (List.length (m_evals m))
                (mo_wavelets smw) (Q2R snr) sigma in
    plot_mesh m (snd r) (Some amplitude) false true.
End MeshObjects.
