(** * The registry of published files, and the files that are read through it.

    A call happens in the network of its moment ([net]) and finds the disk of its
    moment; the module keeps one variable between the calls of a process. *)
From Coq Require Import List ZArith Bool Reals String.
From Coquelicot Require Import Complex.
From Verif Require Import Base PyNum Eigen Mesh.
Import ListNotations.
Local Open Scope string_scope.
Local Open Scope list_scope.

(** What a file holds: the variables of a Matlab file, eigenvalues, eigenvectors,
    or a file whose writer died *)
Inductive file : Type :=
| Mat (variables : list (string * list (list C)))
| Evals (l : list R)
| Rows (l : list (list R))
| Torn.
Definition disk : Type := string -> option file.
Definition write (d : disk) (f : string) (x : file) : disk := fun g => if String.eqb g f then Some x else d g.

(** The network: [load_registry_from_doi] and [fetch] *)
Record net := { n_list : res (list string); n_fetch : string -> res file }.

(** src/sleplet/_data/setup_pooch.py:11 [_POOCH]: nothing, or the names of its
    registry; and how often the list was asked for *)
Record process := { p_registry : option (list string); p_requests : nat }.
Definition fresh : process := {| p_registry := None; p_requests := 0 |}.

(** src/sleplet/_data/setup_pooch.py:16-54 [_lazy_load_registry]: the variable is
    assigned before the list is read, so it stays, with an empty registry, if that
    raises *)
Definition lazily (n : net) (p : process) : process * res unit :=
  match p_registry p with
  | Some _ => (p, Ok tt)
  | None =>
      match n_list n with
      | Ok l => ({| p_registry := Some l; p_requests := S (p_requests p) |}, Ok tt)
      | Err e => ({| p_registry := Some []; p_requests := S (p_requests p) |}, Err e)
      end
  end.

(** src/sleplet/_data/setup_pooch.py:57-80 [find_on_pooch_then_local]; a path stands
    for what the file holds *)
Definition find (n : net) (d : disk) (f : string) (p : process) : process * res (option file) :=
  let (p, r) := lazily n p in
  (p, let* _ := r in
      match p_registry p with
      | Some l => if existsb (String.eqb f) l then let* x := n_fetch n f in Ok (Some x) else Ok (d f)
      | None => Err TypeError     (* does not happen: [None.registry] *)
      end).

(** ** What is read through it *)

(** [loadmat(path)[name][:, 0]] *)
Definition first_column (name : string) (x : option file) : res (list C) :=
  match x with
  | None => Err TypeError
  | Some (Mat vs) =>
      match List.find (fun v => String.eqb (fst v) name) vs with
      | None => Err KeyError
      | Some v => rmap (fun row => match row with z :: _ => Ok z | [] => Err IndexError end) (snd v)
      end
  | Some _ => Err ValueError
  end.

Definition then_ {A B} (x : process * res A) (f : A -> res B) : process * res B :=
  (fst x, let* a := snd x in f a).

(** src/sleplet/_data/create_earth_flm.py:32-39 [_load_flm] *)
Definition load_flm (n : net) (d : disk) (p : process) : process * res (list C) :=
  then_ (find n d "EGM2008_Topography_flms_L2190.mat" p) (first_column "flm").

(** src/sleplet/_data/create_wmap_flm.py:37-50 [_load_cl] *)
Definition load_cl (n : net) (d : disk) (file_ending : string) (p : process) : process * res (list C) :=
  then_ (find n d ("wmap" ++ file_ending ++ ".mat")%string p) (first_column "cl").

(** ** The eigendecomposition of a mesh, with its files *)

Definition eigd_loc (name : string) (number : Z) : string :=
  ("meshes_laplacians_basis_functions_" ++ name ++ "_b" ++ zstr number)%string.
Definition eval_loc (name : string) (number : Z) : string := (eigd_loc name number ++ "_eigenvalues.npy")%string.
Definition evec_loc (name : string) (number : Z) : string := (eigd_loc name number ++ "_eigenvectors.npy")%string.

(** [np.load(path)] of eigenvalues and of eigenvectors *)
Definition load_evals (x : option file) : res (list R) :=
  match x with None => Err TypeError | Some (Evals l) => Ok l | Some _ => Err ValueError end.
Definition load_rows (x : option file) : res (list (list R)) :=
  match x with None => Err TypeError | Some (Rows l) => Ok l | Some _ => Err ValueError end.

Definition number_of (vertices : list (R * R * R)) (number : option Z) : Z :=
  match number with None => (Z.of_nat (List.length vertices) / 4)%Z | Some n => n end.

(** src/sleplet/_mesh_methods.py:65-111 [mesh_eigendecomposition]: the process, the
    files written, in order, and the result; [n1] and [n2] are the network at the
    two calls *)
Definition mesh_eigendecomposition_files (eigsh : Z -> list R * list (list R)) (name : string)
    (vertices : list (R * R * R)) (number_basis_functions : option Z) (n1 n2 : net) (d : disk) (p : process)
    : process * list (string * file) * res (list R * list (list R) * Z) :=
  let number := number_of vertices number_basis_functions in
  let scratch :=
    match mesh_eigendecomposition eigsh vertices number_basis_functions with
    | Err e => ([], Err e)
    | Ok (evals, rows, k) =>
        ([(eval_loc name number, Evals evals); (evec_loc name number, Rows rows)], Ok (evals, rows, k))
    end in
  let (p, r) := then_ (find n1 d (eval_loc name number) p) load_evals in
  match r with
  | Err TypeError => (p, fst scratch, snd scratch)
  | Err e => (p, [], Err e)
  | Ok evals =>
      let (p, r) := then_ (find n2 d (evec_loc name number) p) load_rows in
      match r with
      | Err TypeError => (p, fst scratch, snd scratch)
      | Err e => (p, [], Err e)
      | Ok rows => (p, [], Ok (evals, rows, number))
      end
  end.

Fixpoint write_all (d : disk) (l : list (string * file)) : disk :=
  match l with [] => d | (f, x) :: l => write_all (write d f x) l end.
