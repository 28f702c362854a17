(** * The geometry of a mesh: its configuration file, the camera, the
    refinement of the triangles, the Laplacian, and [Mesh] itself.

    Coordinates and settings are real numbers; the arithmetic is exact. *)
From Coq Require Import String List ZArith Arith Bool Reals.
From Verif Require Import Base RSum PyNum Numpy Mesh.
Import ListNotations.
Local Open Scope nat_scope.
Local Open Scope string_scope.
Local Open Scope list_scope.

Definition point : Type := (R * R * R)%type.
(** One row of [faces]. *)
Definition face : Type := (nat * nat * nat)%type.

(** ** The configuration files *)

(** A bound of the region: TOML has [inf] and [-inf]. *)
Inductive bound := Minus_inf | Finite (r : R) | Plus_inf.

(** The keys of src/sleplet/_data/meshes_regions_*.toml; three coordinates
    are kept together. *)
Record config := {
  CAMERA : point; CENTRE : point;
  DEFAULT_ZOOM : R; REGION_ZOOM : R;
  DEFAULT_COLOURBAR_POS : R; REGION_COLOURBAR_POS : R;
  FILENAME : string; UPSAMPLE : nat;
  MIN : bound * bound * bound; MAX : bound * bound * bound
}.

Local Open Scope R_scope.

(** src/sleplet/_data/meshes_regions_bird.toml:1-18 *)
Definition bird : config := {|
  CAMERA := (2, 1, 0); CENTRE := (27/100, 0, -8/100); DEFAULT_ZOOM := 149/100; REGION_ZOOM := 22/10;
  DEFAULT_COLOURBAR_POS := 98/100; REGION_COLOURBAR_POS := 98/100; FILENAME := "bird.off"; UPSAMPLE := 1;
  MIN := (Finite (18/100), Minus_inf, Finite (-88/100)); MAX := (Plus_inf, Finite (6/100), Finite (28/100)) |}.

(** src/sleplet/_data/meshes_regions_cheetah.toml:1-18 *)
Definition cheetah : config := {|
  CAMERA := (3, 1, 0); CENTRE := (0, 0, -275/1000); DEFAULT_ZOOM := 189/100; REGION_ZOOM := 263/100;
  DEFAULT_COLOURBAR_POS := 75/100; REGION_COLOURBAR_POS := 72/100; FILENAME := "cheetah.off"; UPSAMPLE := 0;
  MIN := (Finite (7/10), Minus_inf, Finite 8); MAX := (Plus_inf, Finite (-8/10), Plus_inf) |}.

(** src/sleplet/_data/meshes_regions_cube.toml:1-18 *)
Definition cube : config := {|
  CAMERA := (1, 1, 1); CENTRE := (0, 0, 25/100); DEFAULT_ZOOM := 81/100; REGION_ZOOM := 96/100;
  DEFAULT_COLOURBAR_POS := 85/100; REGION_COLOURBAR_POS := 98/100; FILENAME := "cube.off"; UPSAMPLE := 0;
  MIN := (Minus_inf, Finite (5/10), Minus_inf); MAX := (Plus_inf, Plus_inf, Plus_inf) |}.

(** src/sleplet/_data/meshes_regions_dragon.toml:1-18 *)
Definition dragon : config := {|
  CAMERA := (1, 1, 0); CENTRE := (15/100, 0, 7/100); DEFAULT_ZOOM := 95/100; REGION_ZOOM := 202/100;
  DEFAULT_COLOURBAR_POS := 99/100; REGION_COLOURBAR_POS := 97/100; FILENAME := "dragon.off"; UPSAMPLE := 1;
  MIN := (Finite (15/100), Finite (-13/100), Finite (-46/100)); MAX := (Plus_inf, Finite (93/100), Finite (44/100)) |}.

(** src/sleplet/_data/meshes_regions_homer.toml:1-18 *)
Definition homer : config := {|
  CAMERA := (0, 1, 5/10); CENTRE := (0, 0, 49/100); DEFAULT_ZOOM := 5/10; REGION_ZOOM := 155/100;
  DEFAULT_COLOURBAR_POS := 69/100; REGION_COLOURBAR_POS := 73/100; FILENAME := "homer.off"; UPSAMPLE := 0;
  MIN := (Minus_inf, Finite (15/100), Minus_inf); MAX := (Plus_inf, Plus_inf, Plus_inf) |}.

(** src/sleplet/_data/meshes_regions_teapot.toml:1-18 *)
Definition teapot : config := {|
  CAMERA := (0, 1, 1); CENTRE := (-55/1000, 0, 1/10); DEFAULT_ZOOM := 8/10; REGION_ZOOM := 155/100;
  DEFAULT_COLOURBAR_POS := 95/100; REGION_COLOURBAR_POS := 97/100; FILENAME := "teapot.off"; UPSAMPLE := 1;
  MIN := (Minus_inf, Finite (225/100), Minus_inf); MAX := (Finite (15/10), Plus_inf, Plus_inf) |}.

(** src/sleplet/_mesh_methods.py:56-62 [extract_mesh_config]; a file that is
    not there cannot be opened. *)
Definition extract_mesh_config (mesh_name : string) : res config :=
  if String.eqb mesh_name "bird" then Ok bird
  else if String.eqb mesh_name "cheetah" then Ok cheetah
  else if String.eqb mesh_name "cube" then Ok cube
  else if String.eqb mesh_name "dragon" then Ok dragon
  else if String.eqb mesh_name "homer" then Ok homer
  else if String.eqb mesh_name "teapot" then Ok teapot
  else Err FileNotFoundError.

(** ** The camera *)

(** Where the camera is and what it looks at. *)
Record camera := { eye : point; centre : point }.

(** Python's [/] of numbers *)
Definition div (x y : R) : res R := if Req_EM_T y 0 then Err ZeroDivisionError else Ok (x / y).

(** src/sleplet/_plotly_methods.py:15-29 [create_camera] *)
Definition create_camera (xyz_eye : point) (zoom : R) (xyz_centre : point) : res camera :=
  let '(x_eye, y_eye, z_eye) := xyz_eye in
  let* x := div x_eye zoom in
  let* y := div y_eye zoom in
  let* z := div z_eye zoom in
  Ok {| eye := (x, y, z); centre := xyz_centre |}.

(** ** The region *)

(** The comparisons of a coordinate with its two bounds *)
Definition above (b : bound) (x : R) : bool :=
  match b with Minus_inf => true | Finite r => Rleb r x | Plus_inf => false end.
Definition below (b : bound) (x : R) : bool :=
  match b with Minus_inf => false | Finite r => Rleb x r | Plus_inf => true end.

(** src/sleplet/_mesh_methods.py:41-53 [create_mesh_region] with the bounds
    of the file *)
Definition create_region (mesh_config : config) (vertices : list point) : list bool :=
  let '(XMIN, YMIN, ZMIN) := MIN mesh_config in
  let '(XMAX, YMAX, ZMAX) := MAX mesh_config in
  map (fun v : point =>
         let '(x, y, z) := v in
         above XMIN x && below XMAX x && above YMIN y && below YMAX y && above ZMIN z && below ZMAX z)
      vertices.

(** ** The refinement of the triangles *)

Definition corner (vertices : list point) (i : nat) : point := nth i vertices (0, 0, 0).

Definition midpoint (p q : point) : point :=
  let '(x, y, z) := p in
  let '(x', y', z') := q in
  (x / 2 + x' / 2, y / 2 + y' / 2, z / 2 + z' / 2).

Definition edges_of (f : face) : list (nat * nat) :=
  let '(a, b, c) := f in [(a, b); (b, c); (c, a)].

(** The two triangles at an edge have it in opposite directions. *)
Definition same_edge (e e' : nat * nat) : bool :=
  (Nat.eqb (fst e) (fst e') && Nat.eqb (snd e) (snd e'))
  || (Nat.eqb (fst e) (snd e') && Nat.eqb (snd e) (fst e')).

(** The edges in the order in which the loop of [igl.upsample] numbers them:
    an edge that has a number keeps it. *)
Definition numbered_edges (faces : list face) : list (nat * nat) :=
  fold_left (fun es e => if existsb (same_edge e) es then es else es ++ [e]) (flat_map edges_of faces) [].

Fixpoint edge_number (e : nat * nat) (es : list (nat * nat)) : nat :=
  match es with
  | [] => 0
  | e' :: es => if same_edge e e' then 0 else S (edge_number e es)
  end.

(** [igl.upsample] once: a new vertex in the middle of every edge, four
    triangles for each. *)
Definition subdivide (m : list point * list face) : list point * list face :=
  let (vertices, faces) := m in
  let es := numbered_edges faces in
  let n := length vertices in
  (vertices ++ map (fun e => midpoint (corner vertices (fst e)) (corner vertices (snd e))) es,
   flat_map (fun f : face =>
     let '(a, b, c) := f in
     let ab := (n + edge_number (a, b) es)%nat in
     let bc := (n + edge_number (b, c) es)%nat in
     let ca := (n + edge_number (c, a) es)%nat in
     [(a, ab, ca); (b, bc, ab); (ab, bc, ca); (bc, c, ca)]) faces).

(** [igl.upsample] *)
Definition upsample (vertices : list point) (faces : list face) (number_of_subdivs : nat) : list point * list face :=
  Nat.iter number_of_subdivs subdivide (vertices, faces).

(** src/sleplet/_mesh_methods.py:114-121 [read_mesh]; [read_triangle_mesh]
    reads the file of that name (external). *)
Definition read_mesh (read_triangle_mesh : string -> res (list point * list face)) (mesh_config : config)
    : res (list point * list face) :=
  let* (vertices, faces) := read_triangle_mesh ("meshes_polygons_" ++ FILENAME mesh_config)%string in
  Ok (upsample vertices faces (UPSAMPLE mesh_config)).

(** ** The Laplacian *)

Definition sqdist (p q : point) : R :=
  let '(x, y, z) := p in
  let '(x', y', z') := q in
  (x - x') ^ 2 + (y - y') ^ 2 + (z - z') ^ 2.

(** [igl.doublearea] of squared lengths: Heron's formula without the
    ordering that makes it accurate. *)
Definition doublearea (a b c : R) : R := sqrt (2 * (a * b + b * c + c * a) - (a ^ 2 + b ^ 2 + c ^ 2)) / 2.

(** [igl.cotmatrix_entries]: half the cotangents of the angles at the three
    corners, from the squared lengths of the sides opposite to them. *)
Definition cotmatrix_entries (vertices : list point) (f : face) : R * R * R :=
  let '(i, j, k) := f in
  let l0 := sqdist (corner vertices j) (corner vertices k) in
  let l1 := sqdist (corner vertices k) (corner vertices i) in
  let l2 := sqdist (corner vertices i) (corner vertices j) in
  let dblA := doublearea l0 l1 l2 in
  ((l1 + l2 - l0) / dblA / 4, (l2 + l0 - l1) / dblA / 4, (l0 + l1 - l2) / dblA / 4).

(** [igl.cotmatrix]: the contributions of one triangle ... *)
Definition cot_triplets (vertices : list point) (f : face) : list (nat * nat * R) :=
  let '(i, j, k) := f in
  let '(c0, c1, c2) := cotmatrix_entries vertices f in
  flat_map (fun e : nat * nat * R =>
     let '(source, dest, c) := e in
     [(source, dest, c); (dest, source, c); (source, source, - c); (dest, dest, - c)])
   [(j, k, c0); (k, i, c1); (i, j, c2)].

(** ... and the matrix made of them: contributions to the same entry are
    added. *)
Definition of_triplets (l : list (nat * nat * R)) (i j : nat) : R :=
  rlsum (map (fun t : nat * nat * R =>
                let '(i', j', c) := t in if Nat.eqb i i' && Nat.eqb j j' then c else 0) l).

Definition cotmatrix (vertices : list point) (faces : list face) : nat -> nat -> R :=
  of_triplets (flat_map (cot_triplets vertices) faces).

(** src/sleplet/_mesh_methods.py:124-129 [_mesh_laplacian] *)
Definition mesh_laplacian (vertices : list point) (faces : list face) (i j : nat) : R :=
  - cotmatrix vertices faces i j.

(** ** [Mesh] *)

(** A [Mesh]: what is plotted and what is computed with. *)
Record mesh_object := { o_camera : camera; o_colourbar_pos : R; o_mesh : mesh }.

(** src/sleplet/meshes/mesh.py:62-92 [Mesh.__post_init__]; [eigsh] gets the
    Laplacian, its size and the number of eigenvectors (external). *)
Definition mesh_post_init (read_triangle_mesh : string -> res (list point * list face))
    (eigsh : (nat -> nat -> R) -> nat -> Z -> list R * list (list R))
    (name : string) (zoom : bool) (number_basis_functions : option Z) : res mesh_object :=
  let* mesh_config := extract_mesh_config name in
  let* camera_view := create_camera (CAMERA mesh_config)
                        (if zoom then REGION_ZOOM mesh_config else DEFAULT_ZOOM mesh_config)
                        (if zoom then CENTRE mesh_config else (0, 0, 0)) in
  let colourbar_pos := if zoom then REGION_COLOURBAR_POS mesh_config else DEFAULT_COLOURBAR_POS mesh_config in
  let* (vertices, faces) := read_mesh read_triangle_mesh mesh_config in
  let mesh_region := create_region mesh_config vertices in
  let* (evals, basis, number) :=
    mesh_eigendecomposition (eigsh (mesh_laplacian vertices faces) (length vertices)) vertices
      number_basis_functions in
  Ok {| o_camera := camera_view; o_colourbar_pos := colourbar_pos;
        o_mesh := {| m_vertices := vertices;
                     m_faces := map (fun f : face => let '(a, b, c) := f in [a; b; c]) faces;
                     m_region := mesh_region; m_evals := evals; m_basis := basis; m_number := number |} |}.
