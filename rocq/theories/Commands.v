(** * The two commands: the options they declare, and what they do with them.

    [float] on a string, pyssht, pys2let, scipy, the loaded files, the Slepian
    solver and the meshes are external. *)
From Coq Require Import List ZArith QArith Arith Bool Reals String.
From Coquelicot Require Import Complex.
From Verif Require Import Base Region Mask Names Mesh Args Plot Cli Objects MeshObjects Argparse.
Import ListNotations.
Local Open Scope string_scope.
Local Open Scope list_scope.

(** ** The parsers *)

(** [type=int], [type=str], and [type] one of the checks of Names.v *)
Definition as_int (s : string) : option value := option_map VInt (py_int s).
Definition as_str (s : string) : option value := Some (VStr s).
Definition as_name (check : string -> res string) (s : string) : option value :=
  match check s with Ok t => Some (VStr t) | Err _ => None end.

(** [-h], [--help], which every parser has, and [-v], [--version]:
    plotting_on_sphere.py:161-166, plotting_on_mesh.py:75-80 *)
Definition help_action : action :=
  {| a_options := ["-h"; "--help"]; a_dest := "help"; a_arity := Nothing; a_doing := Leave; a_type := as_str;
     a_choices := None; a_default := None |}.
Definition version_action : action :=
  {| a_options := ["--version"; "-v"]; a_dest := "version"; a_arity := Nothing; a_doing := Leave; a_type := as_str;
     a_choices := None; a_default := None |}.

(** An option with one argument *)
Definition one_action (long short dest : string) (type : string -> option value) (choices : option (list string))
    (default : value) : action :=
  {| a_options := [long; short]; a_dest := dest; a_arity := One; a_doing := Store; a_type := type;
     a_choices := choices; a_default := Some default |}.

(** [nargs="?"], with [const] the default *)
Definition maybe_action (long short dest : string) (type : string -> option value) (choices : list string)
    (default : string) : action :=
  {| a_options := [long; short]; a_dest := dest; a_arity := At_most_one default; a_doing := Store; a_type := type;
     a_choices := Some choices; a_default := Some (VStr default) |}.

(** [action="store_true"], [action="store_false"] *)
Definition flag_action (long short dest : string) (b : bool) : action :=
  {| a_options := [long; short]; a_dest := dest; a_arity := Nothing; a_doing := Store_const (VBool b);
     a_type := as_str; a_choices := None; a_default := Some (VBool (negb b)) |}.

(** [--extra_args], [nargs="+"] *)
Definition extra_args_action : action :=
  {| a_options := ["--extra_args"; "-e"]; a_dest := "extra_args"; a_arity := One_or_more; a_doing := Store;
     a_type := as_int; a_choices := None; a_default := Some VNone |}.

(** src/sleplet/_scripts/plotting_on_sphere.py:21, 31 *)
Definition ALPHA_DEFAULT : Q := 3 # 4.
Definition BETA_DEFAULT : Q := 1 # 8.

Section Sphere.
  Variable py_float : string -> option Q.

  Definition as_float (s : string) : option value := option_map VFloat (py_float s).

  (** src/sleplet/_scripts/plotting_on_sphere.py:54-171 [read_args]; the default
      of [gamma] is the integer zero, here the number. *)
  Definition sphere_parser : parser := {|
    p_positional :=
      {| a_options := []; a_dest := "function"; a_arity := One; a_doing := Store; a_type := as_name valid_plotting;
         a_choices := Some sphere_names; a_default := Some VNone |};
    p_options := [
      help_action;
      one_action "--alpha" "-a" "alpha" as_float None (VFloat ALPHA_DEFAULT);
      one_action "--bandlimit" "-L" "bandlimit" as_int None (VInt 16);
      one_action "--beta" "-b" "beta" as_float None (VFloat BETA_DEFAULT);
      one_action "--convolve" "-c" "convolve" (as_name valid_maps) (Some map_names) VNone;
      extra_args_action;
      one_action "--gamma" "-g" "gamma" as_float None (VFloat 0);
      maybe_action "--method" "-m" "method" as_str ["north"; "rotate"; "translate"] "north";
      one_action "--noise" "-n" "noise" as_int None VNone;
      flag_action "--outline" "-o" "outline" false;
      maybe_action "--perspective" "-p" "perspective" as_str ["africa"; "south_america"] "south_america";
      flag_action "--region" "-r" "region" true;
      one_action "--smoothing" "-s" "smoothing" as_int None VNone;
      maybe_action "--type" "-t" "type" as_str ["abs"; "real"; "imag"; "sum"] "real";
      flag_action "--unnormalise" "-u" "unnormalise" true;
      flag_action "--unzeropad" "-z" "unzeropad" true;
      version_action ] |}.
End Sphere.

(** src/sleplet/_scripts/plotting_on_mesh.py:33-87 [read_args] *)
Definition mesh_parser : parser := {|
  p_positional :=
    {| a_options := []; a_dest := "function"; a_arity := One; a_doing := Store; a_type := as_name valid_meshes;
       a_choices := Some MESHES; a_default := Some VNone |};
  p_options := [
    help_action;
    extra_args_action;
    maybe_action "--method" "-m" "method" (as_name valid_methods) mesh_method_names "basis_functions";
    one_action "--noise" "-n" "noise" as_int None VNone;
    flag_action "--region" "-r" "region" true;
    flag_action "--unnormalise" "-u" "unnormalise" true;
    version_action;
    flag_action "--zoom" "-z" "zoom" true ] |}.

(** ** Reading the namespace *)

Definition attr_bool (dest : string) (ns : namespace) : res bool :=
  let* v := getattr dest ns in match v with VBool b => Ok b | _ => Err TypeError end.
Definition attr_int (dest : string) (ns : namespace) : res Z :=
  let* v := getattr dest ns in match v with VInt z => Ok z | _ => Err TypeError end.
Definition attr_float (dest : string) (ns : namespace) : res Q :=
  let* v := getattr dest ns in match v with VFloat q => Ok q | _ => Err TypeError end.
Definition attr_str (dest : string) (ns : namespace) : res string :=
  let* v := getattr dest ns in match v with VStr s => Ok s | _ => Err TypeError end.
Definition attr_maybe_int (dest : string) (ns : namespace) : res (option Z) :=
  let* v := getattr dest ns in
  match v with VInt z => Ok (Some z) | VNone => Ok None | _ => Err TypeError end.
(** [x if isinstance(x, str) else None] *)
Definition attr_maybe_str (dest : string) (ns : namespace) : res (option string) :=
  let* v := getattr dest ns in Ok (match v with VStr s => Some s | _ => None end).
Fixpoint all_ints (l : list value) : res (list Z) :=
  match l with
  | [] => Ok []
  | VInt z :: l => let* zs := all_ints l in Ok (z :: zs)
  | _ => Err TypeError
  end.
Definition attr_maybe_ints (dest : string) (ns : namespace) : res (option (list Z)) :=
  let* v := getattr dest ns in
  match v with VList l => let* zs := all_ints l in Ok (Some zs) | VNone => Ok None | _ => Err TypeError end.

(** ** The sphere *)

Definition is_slepian_class (c : cls) : bool :=
  existsb (fun d => String.eqb (class_name c) (class_name d)) FP.

(** What plotting reads of a finished object *)
Definition fn_of (o : obj) : fn :=
  {| fn_name := o_name o; fn_L := o_L o; fn_coefficients := o_coefficients o;
     fn_slepian := option_map sv_slepian (o_solved o); fn_region := o_region o; fn_reality := o_reality o;
     fn_spin := o_spin o |}.

Section SphereMain.
  Variable py_float : string -> option Q.
  Variable inverse forward : Z -> bool -> nat -> list C -> list C.  (* ssht, by spin, reality and L *)
  Variable rotate_flms : list C -> R -> R -> R -> nat -> res (list C).
  Variable create_ylm : R -> R -> nat -> list C.
  Variable theta_to_index phi_to_index : R -> nat -> nat.
  Variable gammaln : R -> R.
  Variable axisym_wav_l : Z -> nat -> Z -> list R * nat * list (list R).
  Variable pys2let_j_max : Z -> nat -> Z -> Z.
  Variable normal : Z -> nat -> R.
  Variable table : list C.
  Variable cl : list R.
  Variable fmt_e : R -> string.
  Variable lower : string -> string.
  Variable to_int : string -> res Z.
  Variable env : string -> option string.
  Variable solve : nat -> region -> mask_files -> res (solved * mask_files).
  Variable land : bool -> nat -> list (list R).

  (** [cls(L, extra_args=.., region=.., noise=.., smoothing=..)] *)
  Definition make_function (c : cls) (L : nat) (extra_args : option (list Z)) (region : option region)
      (noise : option Q) (smoothing : option Z) (fs : mask_files) : res (obj * mask_files) :=
    if is_slepian_class c
    then make_fp inverse forward rotate_flms theta_to_index phi_to_index axisym_wav_l pys2let_j_max normal table
           fmt_e lower to_int env solve c L (default_params c) extra_args region noise smoothing fs
    else make_flm inverse forward rotate_flms gammaln axisym_wav_l pys2let_j_max normal table cl
           c L (default_params c) extra_args region noise smoothing fs.

  (** src/sleplet/_scripts/plotting_on_sphere.py:355-398 [main] after the parsing:
      the figure, its file name, the annotations and the files.  A negative
      bandlimit is not modelled (zero takes its place). *)
  Definition sphere_run (ns : namespace) (fs : mask_files)
      : res (figure * string * list (R * R * R) * mask_files) :=
    let* masked := attr_bool "region" ns in
    let* mask := if masked then let* r := create_default_region lower to_int env in Ok (Some r) else Ok None in
    let* function := attr_str "function" ns in
    let* c := choose_class function in
    let* bandlimit := attr_int "bandlimit" ns in
    let L := Z.to_nat bandlimit in
    let* extra_args := attr_maybe_ints "extra_args" ns in
    let* noise := attr_maybe_int "noise" ns in
    let* smoothing := attr_maybe_int "smoothing" ns in
    let* (f, fs) := make_function c L extra_args mask (option_map inject_Z noise) smoothing fs in
    let* convolve := attr_maybe_str "convolve" ns in
    let* (g, fs) :=
      match convolve with
      | Some map_name =>
          let* d := choose_map map_name in
          let* (g, fs) := make_function d L None None None None fs in
          Ok (Some (fn_of g), fs)
      | None => Ok (None, fs)
      end in
    let* amplitude := compute_amplitude_for_noisy_sphere_plots inverse (option_map sv_slepian (o_solved f)) (o_L f)
                        (o_reality f) (o_spin f) (o_unnoised f) in
    let* alpha := attr_float "alpha" ns in
    let* beta := attr_float "beta" ns in
    let* gamma := attr_float "gamma" ns in
    let* outline := attr_bool "outline" ns in
    let* unnormalise := attr_bool "unnormalise" ns in
    let* method := attr_str "method" ns in
    let* type := attr_str "type" ns in
    let* unzeropad := attr_bool "unzeropad" ns in
    let* perspective := attr_str "perspective" ns in
    plot inverse forward rotate_flms create_ylm theta_to_index phi_to_index land (fn_of f) g
      {| pa_alpha := alpha; pa_beta := beta; pa_gamma := gamma; pa_annotations := outline;
         pa_normalise := negb unnormalise; pa_method := method; pa_type := type; pa_upsample := negb unzeropad;
         pa_view := perspective; pa_amplitude := amplitude |} fs.

  (** src/sleplet/_scripts/plotting_on_sphere.py:355-398 [main]; [argv] is
      [sys.argv[1:]]. *)
  Definition sphere_main (argv : list string) (fs : mask_files)
      : out (res (figure * string * list (R * R * R) * mask_files)) :=
    go ns := parse_args (sphere_parser py_float) argv in Got (sphere_run ns fs).
End SphereMain.

(** ** Meshes *)

Section MeshMain.
  Variable load_mesh : string -> res mesh.                           (* Mesh(name, zoom=..), Mesh.v *)
  Variable solver : mesh -> res mesh_slepian.
  Variable normals : mesh -> list R.
  Variable normal : Z -> nat -> R.
  Variable axisym_wav_l : Z -> nat -> Z -> list R * nat * list (list R).
  Variable pys2let_j_max : Z -> nat -> Z -> Z.
  Variable fmt_e : R -> string.

  (** src/sleplet/_scripts/plotting_on_mesh.py:108-134 [main] *)
  Definition mesh_run (ns : namespace) : res (mesh_figure * string) :=
    let* function := attr_str "function" ns in
    let* zoom := attr_bool "zoom" ns in
    let* m := load_mesh function in
    let* method := attr_str "method" ns in
    let* extra_args := attr_maybe_ints "extra_args" ns in
    let* noise := attr_maybe_int "noise" ns in
    let* region := attr_bool "region" ns in
    let* unnormalise := attr_bool "unnormalise" ns in
    mesh_command solver normals normal axisym_wav_l pys2let_j_max fmt_e function zoom m method extra_args
      (option_map inject_Z noise) region unnormalise.
  Definition mesh_main (argv : list string) : out (res (mesh_figure * string)) :=
    go ns := parse_args mesh_parser argv in Got (mesh_run ns).
End MeshMain.
