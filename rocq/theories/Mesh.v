(** * Meshes: regions, basis functions, transforms, Slepian decomposition,
    noise and thresholding.

    Fields on a mesh are real; arrays are lists. *)
From Coq Require Import List ZArith Arith Bool Reals.
From Coquelicot Require Import Complex.
From Verif Require Import Base RSum CSum PyNum Numpy Machine Job Integration ArbitraryMatrix Eigen Noise Wavelet Transform Threshold.
Import ListNotations.
Local Open Scope nat_scope.

(** The fields of a [Mesh] used below, src/sleplet/meshes/mesh.py:29-60; one
    list of vertex numbers per face. *)
Record mesh := {
  m_vertices : list (R * R * R);
  m_faces : list (list nat);
  m_region : list bool;
  m_evals : list R;
  m_basis : list (list R);
  m_number : Z
}.

(** The bounds read from the configuration file of the mesh. *)
Record box := { XMIN : R; XMAX : R; YMIN : R; YMAX : R; ZMIN : R; ZMAX : R }.

(** src/sleplet/_mesh_methods.py:41-53 [create_mesh_region], the same text in
    src/sleplet/_mask_methods.py:118-130 *)
Definition create_mesh_region (mesh_config : box) (vertices : list (R * R * R)) : list bool :=
  map (fun v : R * R * R =>
         let '(x, y, z) := v in
         Rleb (XMIN mesh_config) x && Rleb x (XMAX mesh_config)
         && Rleb (YMIN mesh_config) y && Rleb y (YMAX mesh_config)
         && Rleb (ZMIN mesh_config) z && Rleb z (ZMAX mesh_config))
      vertices.

(** [np.argwhere(mask).reshape(-1)] *)
Definition argwhere (mask : list bool) : list nat :=
  map fst (filter (fun p => snd p) (combine (seq 0 (length mask)) mask)).

(** src/sleplet/_mask_methods.py:143-151 [convert_region_on_vertices_to_faces] *)
Definition convert_region_on_vertices_to_faces (m : mesh) : list R :=
  let region_reshape := argwhere (m_region m) in
  let faces_in_region := map (forallb (fun v => existsb (Nat.eqb v) region_reshape)) (m_faces m) in
  let region_on_faces := repeat 0%R (length (m_faces m)) in
  map (fun p : R * bool => if snd p then 1%R else fst p) (combine region_on_faces faces_in_region).

(** src/sleplet/_integration_methods.py:43-50 [integrate_whole_mesh] of two
    functions *)
Definition integrate_mesh_whole (f g : list R) : res R :=
  let* multiplied_inputs := broadcast Rmult f g in
  Ok (rlsum multiplied_inputs).

(** src/sleplet/_integration_methods.py:53-61 [integrate_region_mesh] of two
    functions *)
Definition integrate_mesh_region (mask : list bool) (f g : list R) : res R :=
  let* multiplied_inputs := broadcast Rmult f g in
  let* masked := broadcast (fun x (b : bool) => (x * (if b then 1 else 0))%R) multiplied_inputs mask in
  Ok (rlsum masked).

(** [rows.sum(axis=0)] of rows with [width] entries *)
Definition rsum_axis0 (width : nat) (rows : list (list R)) : list R :=
  map (fun k => rlsum (map (fun r => nth k r 0%R) rows)) (seq 0 width).

(** src/sleplet/_mesh_methods.py:132-148 [_orthonormalise_basis_functions] *)
Definition orthonormalise_basis_functions (basis_functions : list (list R)) : res (list (list R)) :=
  let* factor := rmap (fun phi_i => integrate_mesh_whole phi_i phi_i) basis_functions in
  let normalisation := map sqrt factor in
  broadcast (fun row n => map (fun x => (x / n)%R) row) basis_functions normalisation.

(** src/sleplet/_mesh_methods.py:65-111 [mesh_eigendecomposition] without the
    cache; [eigsh k] are the eigenvalues and the eigenvectors (rows, after
    [.T]) of the Laplacian (external). *)
Definition mesh_eigendecomposition (eigsh : Z -> list R * list (list R)) (vertices : list (R * R * R))
    (number_basis_functions : option Z) : res (list R * list (list R) * Z) :=
  let number := match number_basis_functions with
                | None => (Z.of_nat (length vertices) / 4)%Z
                | Some n => n
                end in
  let (eigenvalues, eigenvectors) := eigsh number in
  let* eigenvectors := orthonormalise_basis_functions eigenvectors in
  Ok (eigenvalues, eigenvectors, number).

(** src/sleplet/harmonic_methods.py:134-156 [mesh_forward] *)
Definition mesh_forward (m : mesh) (u : list R) : res (list R) :=
  let u_i := repeat 0%R (length (m_evals m)) in
  rfold (fun (u_i : list R) (p : nat * list R) =>
           let (i, phi_i) := p in
           let* x := integrate_mesh_whole u phi_i in
           np_set i x u_i)
        (combine (seq 0 (length (m_basis m))) (m_basis m)) u_i.

(** src/sleplet/harmonic_methods.py:159-173 [mesh_inverse] *)
Definition mesh_inverse (m : mesh) (u_i : list R) : res (list R) :=
  let* rows := broadcast (fun c row => map (Rmult c) row) u_i (m_basis m) in
  Ok (rsum_axis0 (length (m_vertices m)) rows).

(** src/sleplet/_mask_methods.py:133-140 [ensure_masked_bandlimit_mesh_signal] *)
Definition ensure_masked_bandlimit_mesh_signal (m : mesh) (u_i : list R) : res (list R) :=
  let* field := mesh_inverse m u_i in
  let* masked_field := broadcast (fun (b : bool) x => if b then x else 0%R) (m_region m) field in
  mesh_forward m masked_field.

(** src/sleplet/_slepian_arbitrary_methods.py:37-42 [compute_mesh_shannon];
    without vertices the quotient is not a number and [round] raises. *)
Definition compute_mesh_shannon (m : mesh) : res Z :=
  let num_basis_fun := length (m_evals m) in
  let region_vertices := length (filter (fun b => b) (m_region m)) in
  let total_vertices := length (m_region m) in
  if total_vertices =? 0 then Err ValueError
  else Ok (py_round (INR region_vertices / INR total_vertices * INR num_basis_fun)).

(** The fields of a [MeshSlepian], src/sleplet/meshes/mesh_slepian.py:27-42 *)
Record mesh_slepian := {
  ms_mesh : mesh;
  ms_N : Z;
  ms_evals : list R;
  ms_functions : list (list R)
}.

Section Build.
  Variable argsort : list R -> list nat.
  Variable eigh : (nat -> nat -> R) -> list R * list (list R).   (* values, columns *)

  (** src/sleplet/meshes/mesh_slepian.py:44-93 [MeshSlepian(mesh)] when nothing
      is cached; [ncpu], [garbage] and [sched] as in [mesh_D_matrix]. *)
  Definition mesh_slepian_fresh (ncpu : nat) (garbage : nat -> nat -> nat -> R) (sched : list who) (m : mesh)
      : res mesh_slepian :=
    let* N := compute_mesh_shannon m in
    let* D := mesh_D_matrix (length (m_evals m)) (length (m_vertices m)) (fun v => nth v (m_region m) false)
                (fun i v => nth v (nth i (m_basis m) []) 0%R) ncpu garbage sched in
    let (evals, cols) := eigh D in
    let* (evals, rows) := clean_mesh argsort evals cols in
    Ok {| ms_mesh := m; ms_N := N; ms_evals := evals; ms_functions := rows |}.

  (** The same call when the files of an earlier one are found, lines 60-66:
      line 93 has saved [N] functions only. *)
  Definition mesh_slepian_cached (ncpu : nat) (garbage : nat -> nat -> nat -> R) (sched : list who) (m : mesh)
      : res mesh_slepian :=
    let* N := compute_mesh_shannon m in
    let* s := mesh_slepian_fresh ncpu garbage sched m in
    Ok {| ms_mesh := m; ms_N := N; ms_evals := ms_evals s; ms_functions := py_prefix (ms_N s) (ms_functions s) |}.
End Build.

(** The arguments of [MeshSlepianDecomposition] beside [mesh_slepian],
    src/sleplet/meshes/_mesh_slepian_decomposition.py:19-24. *)
Record mesh_signal := { mg_mask : bool; mg_u_i : option (list R); mg_u : option (list R) }.

Definition of_u (u : list R) : mesh_signal := {| mg_mask := false; mg_u_i := None; mg_u := Some u |}.
Definition of_u_i (u_i : list R) : mesh_signal := {| mg_mask := false; mg_u_i := Some u_i; mg_u := None |}.

(** src/sleplet/meshes/_mesh_slepian_decomposition.py:99-116 [_detect_method] *)
Definition mesh_detect_method (g : mesh_signal) : res method :=
  match mg_u_i g with
  | Some _ => Ok Harmonic_sum
  | None =>
      match mg_u g with
      | Some _ => if mg_mask g then Ok Integrate_region else Ok Integrate_sphere
      | None => Err RuntimeError
      end
  end.

(** An absent array in an arithmetic expression. *)
Definition the_array (a : option (list R)) : res (list R) :=
  match a with Some x => Ok x | None => Err TypeError end.

(** src/sleplet/meshes/_mesh_slepian_decomposition.py:118-128 [_validate_rank] *)
Definition mesh_validate_rank (s : mesh_slepian) (rank : Z) : res unit :=
  if (rank <? 0)%Z then Err ValueError
  else if (m_number (ms_mesh s) <=? rank)%Z then Err ValueError
  else Ok tt.

(** src/sleplet/meshes/_mesh_slepian_decomposition.py:29-42 [decompose], with
    [_integrate_region] 54-72, [_integrate_mesh] 74-89, [_harmonic_sum] 91-97 *)
Definition mesh_decompose (s : mesh_slepian) (g : mesh_signal) (mth : method) (rank : Z) : res R :=
  let* _ := mesh_validate_rank s rank in
  match mth with
  | Harmonic_sum =>
      let* u_i := the_array (mg_u_i g) in
      let* row := py_index (ms_functions s) rank in
      integrate_mesh_whole u_i row
  | Integrate_sphere =>
      let* row := py_index (ms_functions s) rank in
      let* s_p := mesh_inverse (ms_mesh s) row in
      let* u := the_array (mg_u g) in
      integrate_mesh_whole u s_p
  | Integrate_region =>
      let* row := py_index (ms_functions s) rank in
      let* s_p := mesh_inverse (ms_mesh s) row in
      let* u := the_array (mg_u g) in
      let* integration := integrate_mesh_region (m_region (ms_mesh s)) u s_p in
      let* ev := py_index (ms_evals s) rank in
      Ok (integration / ev)%R
  end.

(** src/sleplet/meshes/_mesh_slepian_decomposition.py:44-52 [decompose_all]; an
    array of negative length cannot be created. *)
Definition mesh_decompose_all (s : mesh_slepian) (g : mesh_signal) (mth : method) (n : Z) : res (list R) :=
  if (n <? 0)%Z then Err ValueError
  else rmap (fun rank => mesh_decompose s g mth (Z.of_nat rank)) (seq 0 (Z.to_nat n)).

(** src/sleplet/slepian_methods.py:171-199 [slepian_mesh_forward] *)
Definition slepian_mesh_forward (s : mesh_slepian) (g : mesh_signal) (n_coeffs : option Z) : res (list R) :=
  let* mth := mesh_detect_method g in
  let n := match n_coeffs with None => ms_N s | Some n => n end in
  mesh_decompose_all s g mth n.

(** src/sleplet/slepian_methods.py:221-231 [_compute_mesh_s_p_pixel] *)
Definition compute_mesh_s_p_pixel (s : mesh_slepian) : res (list (list R)) :=
  if (ms_N s <? 0)%Z then Err ValueError
  else rmap (fun p => let* row := np_get (ms_functions s) p in mesh_inverse (ms_mesh s) row)
            (seq 0 (Z.to_nat (ms_N s))).

(** src/sleplet/slepian_methods.py:202-218 [slepian_mesh_inverse] *)
Definition slepian_mesh_inverse (s : mesh_slepian) (f_p : list R) : res (list R) :=
  let f_p_reshape := py_prefix (ms_N s) f_p in
  let* s_p := compute_mesh_s_p_pixel s in
  let* rows := broadcast (fun c row => map (Rmult c) row) f_p_reshape s_p in
  Ok (rsum_axis0 (length (m_vertices (ms_mesh s))) rows).

(** ** Noise and thresholding *)

(** src/sleplet/noise.py:263-280 [_create_slepian_mesh_noise] *)
Definition create_slepian_mesh_noise (normal : Z -> nat -> R) (s : mesh_slepian) (slepian_signal : list R)
    (snr_in : R) : res (list R) :=
  let* u := slepian_mesh_inverse s slepian_signal in
  let* u_i := mesh_forward (ms_mesh s) u in
  let* n_i := create_mesh_noise normal (map RtoC u_i) snr_in in
  slepian_mesh_forward s (of_u_i n_i) None.

(** src/sleplet/noise.py:283-309 [compute_slepian_mesh_sigma_j] *)
Definition compute_slepian_mesh_sigma_j (s : mesh_slepian) (signal : list R) (psi_j : list (list R))
    (snr_in : R) : res (list (list R)) :=
  let sigma_noise := compute_sigma_noise (map RtoC signal) snr_in (Some (length (ms_evals s))) in
  let* s_p := compute_mesh_s_p_pixel s in
  rmap (fun psi =>
          let psi_j_reshape := py_prefix (ms_N s) psi in
          let* rows := broadcast (fun c row => map (fun x => (Rabs c ^ 2 * Rabs x ^ 2)%R) row) psi_j_reshape s_p in
          let wavelet_power := rsum_axis0 (length (m_vertices (ms_mesh s))) rows in
          Ok (map (fun w => sigma_noise * sqrt w)%R wavelet_power))
       psi_j.

(** src/sleplet/noise.py:115-122 [_perform_hard_thresholding] on a real array *)
Definition mesh_hard_thresholding (f sigma_j : list R) (n_sigma : Z) : res (list R) :=
  let threshold := map (Rmult (IZR n_sigma)) sigma_j in
  broadcast (fun x t => if Rltb (Rabs x) t then 0%R else x) f threshold.

(** src/sleplet/noise.py:331-339, body of the loop of
    [slepian_mesh_hard_thresholding] *)
Definition slepian_mesh_threshold_row (s : mesh_slepian) (sigma_j : list (list R)) (n_sigma : Z)
    (wav_coeffs : list (list R)) (j : nat) : res (list (list R)) :=
  let* coefficient := np_get wav_coeffs j in
  let* f := slepian_mesh_inverse s coefficient in
  let* sg := np_get sigma_j j in
  let* f_thresholded := mesh_hard_thresholding f sg n_sigma in
  let* x := slepian_mesh_forward s (of_u f_thresholded) None in
  let* row := np_fill coefficient x in
  np_set j row wav_coeffs.

(** src/sleplet/noise.py:312-340 [slepian_mesh_hard_thresholding]: the contents
    of the array of the caller afterwards. *)
Definition slepian_mesh_hard_thresholding (s : mesh_slepian) (wav_coeffs : list (list R))
    (sigma_j : list (list R)) (n_sigma : Z) : list (list R) * res unit :=
  in_place (slepian_mesh_threshold_row s sigma_j n_sigma) (seq 0 (length wav_coeffs)) wav_coeffs.

(** src/sleplet/meshes/mesh_harmonic_coefficients.py:22-34 (with
    [create_mesh_noise]) and src/sleplet/meshes/mesh_slepian_coefficients.py:30-46
    (with [create_slepian_mesh_noise]) [_add_noise_to_signal]: coefficients,
    unnoised coefficients, snr *)
Definition mesh_add_noise (create : list R -> R -> res (list R)) (coefficients : list R) (noise : option R)
    : res (list R * option (list R) * option R) :=
  match noise with
  | None => Ok (coefficients, None, None)
  | Some snr_in =>
      let* n := create coefficients snr_in in
      let snr := compute_snr (map RtoC coefficients) (map RtoC n) in
      let* noisy := broadcast Rplus coefficients n in
      Ok (noisy, Some coefficients, Some snr)
  end.

(** ** The classes *)

(** [rank] field of [MeshBasisFunctions] and [MeshSlepianFunctions], validator
    [_check_rank]: src/sleplet/meshes/mesh_basis_functions.py:66-74,
    src/sleplet/meshes/mesh_slepian_functions.py:69-77; it also runs on
    assignment. *)
Definition check_mesh_rank (rank : Z) : res Z := if (rank <? 0)%Z then Err ValueError else Ok rank.

(** [_setup_args] of the same classes: mesh_basis_functions.py:50-56,
    mesh_slepian_functions.py:53-59 *)
Definition mesh_rank_setup_args (rank : Z) (extra_args : option (list Z)) : res Z :=
  match extra_args with
  | None => Ok rank
  | Some [r] => check_mesh_rank r
  | Some _ => Err ValueError
  end.

(** src/sleplet/meshes/mesh_basis_functions.py:58-64 [_validate_rank] *)
Definition mesh_basis_validate_rank (m : mesh) (extra_args : option (list Z)) : res unit :=
  match extra_args with
  | None => Ok tt
  | Some [] => Err IndexError
  | Some (r :: _) => if (Z.of_nat (length (m_evals m)) <? r)%Z then Err ValueError else Ok tt
  end.

(** [MeshBasisFunctions(mesh, rank, extra_args).coefficients]:
    src/sleplet/meshes/mesh_basis_functions.py:25-48,
    src/sleplet/meshes/mesh_coefficients.py:59-64 (the name, built first, reads
    the eigenvalue of the rank) *)
Definition mesh_basis_function_coefficients (m : mesh) (rank : Z) (extra_args : option (list Z)) : res (list R) :=
  let* rank := check_mesh_rank rank in
  let* _ := mesh_basis_validate_rank m extra_args in
  let* rank := mesh_rank_setup_args rank extra_args in
  let* _ := py_index (m_evals m) rank in
  let* basis_function := py_index (m_basis m) rank in
  mesh_forward m basis_function.

(** [MeshSlepianFunctions(mesh, rank, extra_args).coefficients]:
    src/sleplet/meshes/mesh_slepian_functions.py:25-51; [_validate_rank] of this
    class is never called. *)
Definition mesh_slepian_function_coefficients (s : mesh_slepian) (rank : Z) (extra_args : option (list Z)) : res (list R) :=
  let* rank := check_mesh_rank rank in
  let* rank := mesh_rank_setup_args rank extra_args in
  let* _ := py_index (ms_evals s) rank in
  let* s_p_i := py_index (ms_functions s) rank in
  slepian_mesh_forward s (of_u_i s_p_i) None.

(** src/sleplet/meshes/mesh_field.py:21-26 [MeshField._create_coefficients];
    [normals] is the second coordinate of [igl.per_vertex_normals] (external). *)
Definition mesh_field_coefficients (normals : mesh -> list R) (m : mesh) : res (list R) :=
  mesh_forward m (normals m).

(** src/sleplet/meshes/mesh_slepian_field.py:24-35
    [MeshSlepianField._create_coefficients]; [region=True] only changes the
    name of the [MeshField]. *)
Definition mesh_slepian_field_coefficients (normals : mesh -> list R) (s : mesh_slepian) : res (list R) :=
  let* u_i := mesh_field_coefficients normals (ms_mesh s) in
  slepian_mesh_forward s (of_u_i u_i) None.

(** src/sleplet/meshes/mesh_slepian_noise_field.py:29-42
    [MeshSlepianNoiseField._create_coefficients] *)
Definition mesh_slepian_noise_field_coefficients (normal : Z -> nat -> R) (normals : mesh -> list R)
    (s : mesh_slepian) (SNR : R) : res (list R) :=
  let* smf := mesh_slepian_field_coefficients normals s in
  create_slepian_mesh_noise normal s smf SNR.

(** The names defined in src/sleplet/meshes/mesh_slepian.py:3-27: its imports,
    the logger and the class. *)
Inductive mesh_slepian_attr := Attr_MeshSlepian | Attr_Mesh | Attr_MeshField | Attr_other.
Definition mesh_slepian_module_has (a : mesh_slepian_attr) : bool :=
  match a with Attr_MeshSlepian | Attr_Mesh => true | Attr_MeshField | Attr_other => false end.

(** src/sleplet/meshes/mesh_noise_field.py:26-32
    [MeshNoiseField._create_coefficients]: the class is looked up in the module
    [mesh_slepian]. *)
Definition mesh_noise_field_coefficients (normal : Z -> nat -> R) (normals : mesh -> list R) (m : mesh) (SNR : R)
    : res (list R) :=
  if mesh_slepian_module_has Attr_MeshField then
    let* mf := mesh_field_coefficients normals m in
    create_mesh_noise normal (map RtoC mf) SNR
  else Err AttributeError.
