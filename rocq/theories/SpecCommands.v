(** * What the words of a command line say.

    Everything here is written from the declarations of the options alone: how an
    option may be spelled, and which settings a sequence of options stands for. *)
From Coq Require Import List ZArith QArith Bool String Ascii.
From Verif Require Import PyNum Names Argparse.
Import ListNotations.
Local Open Scope string_scope.
Local Open Scope list_scope.

(** ** Words *)

Definition digits (s : string) : Prop := Forall (fun c => In c (list_ascii_of_string "0123456789")) (list_ascii_of_string s).
Definition minus_number (t : string) : Prop :=
  exists a b, digits a /\ digits b /\ b <> "" /\ (t = "-" ++ b \/ t = "-" ++ a ++ "." ++ b)%string.

(** A word that is not taken for an option: it does not begin with a dash, or it is
    a negative number in plain decimals. *)
Definition plain (t : string) : Prop := (forall u, t <> String "-" u) \/ minus_number t.

Section Words.
  Variable longs : list string.       (* the long options of the command *)

  (** A beginning of the long option, two dashes included, that no other long
      option begins with *)
  Definition abbreviates (long o : string) : Prop :=
    prefix "--" o = true /\ prefix o long = true /\
    forall other, In other longs -> other <> long -> prefix o other = false.

  Definition names_option (long short o : string) : Prop := o = long \/ o = short \/ abbreviates long o.

  (** A value in the same word as the option, directly after its letter: [-L8] *)
  Definition glued (short : string) (says : string -> Prop) (w : string) : Prop :=
    exists t, w = (short ++ t)%string /\ t <> "" /\ (forall u, t <> String "=" u) /\ says t.

  (** A value in the same word: [-L8], [-L=8], [--bandlimit=8], [--band=8] *)
  Definition inside (long short : string) (says : string -> Prop) (ws : list string) : Prop :=
    (exists w, ws = [w] /\ glued short says w) \/
    (exists o t, ws = [(o ++ "=" ++ t)%string] /\ names_option long short o /\ says t).

  (** A value in the same word or in the next one: also [-L 8], [--bandlimit 8] *)
  Definition with_value (long short : string) (says : string -> Prop) (ws : list string) : Prop :=
    inside long short says ws \/
    (exists o t, ws = [o; t] /\ names_option long short o /\ plain t /\ says t).

  (** Values in the words that follow *)
  Definition with_values (long short : string) {A} (says : A -> string -> Prop) (xs : list A) (ws : list string) : Prop :=
    xs <> [] /\ exists o ts, ws = o :: ts /\ names_option long short o /\ Forall plain ts /\ Forall2 says xs ts.

  Definition alone (long short : string) (ws : list string) : Prop :=
    exists o, ws = [o] /\ names_option long short o.
End Words.

(** Words that are no option of a command, given its long options, the letters of
    its options, and the long and short names of its flags *)
Section Refused.
  Variables (longs : list string) (letters flags : list ascii) (flag_names : list (string * ascii)).

  Definition blank_free (w : string) : Prop := ~ In " "%char (list_ascii_of_string w).
  Definition equal_free (w : string) : Prop := ~ In "="%char (list_ascii_of_string w).
  Definition flag_word (fs : list ascii) : Prop := fs <> [] /\ Forall (fun c => In c flags) fs.

  Inductive refused : string -> Prop :=
  | r_letter c u : c <> "-"%char -> ~ In c letters -> ~ minus_number (String "-" (String c u)) ->
      blank_free (String c u) -> refused (String "-" (String c u))
  | r_long o e : equal_free o -> prefix "--" o = true -> (forall long, In long longs -> prefix o long = false) ->
      (e = "" \/ exists t, e = String "=" t) -> blank_free (o ++ e) -> refused (o ++ e)
  | r_ambiguous o e long1 long2 : equal_free o -> prefix "--" o = true -> ~ In o longs ->
      In long1 longs -> In long2 longs -> long1 <> long2 -> prefix o long1 = true -> prefix o long2 = true ->
      (e = "" /\ o <> "--" \/ exists t, e = String "=" t) -> refused (o ++ e)
  | r_flag_value long c o t : In (long, c) flag_names -> names_option longs long (String "-" (String c "")) o ->
      refused (o ++ String "=" t)
  | r_joined fs c u : flag_word fs -> ~ In c letters -> c <> "="%char ->
      refused (String "-" (string_of_list_ascii fs ++ String c u))
  | r_joined_value fs t : flag_word fs -> refused (String "-" (string_of_list_ascii fs ++ String "=" t)).
End Refused.

Definition says_int (z : Z) (t : string) : Prop := py_int t = Some z.

(** Words that give an option a value it does not have, and options that cannot
    stand without a value, by the values and the bare options of a command *)
Section Misfit.
  Context {option_type : Type}.
  Variable longs : list string.
  Variable valued : option_type -> string -> string -> (string -> Prop) -> Prop.
  Variable bare : option_type -> string -> string -> Prop.

  Inductive misfit : list string -> Prop :=
  | m_value o long short says ws : valued o long short says ->
      with_value longs long short (fun t => forall o' says', valued o' long short says' -> ~ says' t) ws -> misfit ws
  | m_extra_inside ws : inside longs "--extra_args" "-e" (fun t => forall z, ~ says_int z t) ws -> misfit ws
  | m_extra o ts t : names_option longs "--extra_args" "-e" o -> Forall plain ts -> In t ts -> (forall z, ~ says_int z t) ->
      misfit (o :: ts).

  Definition needs_value (long short : string) : Prop :=
    long = "--extra_args" /\ short = "-e" \/ exists o says, valued o long short says /\ forall o', ~ bare o' long short.
End Misfit.

(** A part of the command line: the options it stands for, whether a plain word
    after it would be taken for another of its values, and its words. *)
Record part (A : Type) := { part_options : list A; part_open : bool; part_words : list string }.
Arguments part_options {A} _.
Arguments part_open {A} _.
Arguments part_words {A} _.

Definition parts_options {A} (l : list (part A)) : list A := flat_map part_options l.
Definition parts_words {A} (l : list (part A)) : list string := flat_map part_words l.
Definition parts_open {A} (l : list (part A)) : bool := last (map part_open l) false.

(** ** The command [sphere] *)

Inductive sphere_option : Type :=
| Alpha (q : Q) | Bandlimit (z : Z) | Beta (q : Q) | Convolve (map : string) | Extra_args (l : list Z) | Gamma (q : Q)
| Method (m : string) | Noise (z : Z) | Outline | Perspective (v : string) | Masked | Smoothing (z : Z) | Type_ (t : string)
| Unnormalise | Unzeropad.

Definition sphere_longs : list string :=
  ["--help"; "--alpha"; "--bandlimit"; "--beta"; "--convolve"; "--extra_args"; "--gamma"; "--method"; "--noise";
   "--outline"; "--perspective"; "--region"; "--smoothing"; "--type"; "--unnormalise"; "--unzeropad"; "--version"].

Definition sphere_letter : list ascii := list_ascii_of_string "haLbcegmnoprstuzv".
Definition sphere_flag_names : list (string * ascii) :=
  [("--help", "h"%char); ("--outline", "o"%char); ("--region", "r"%char); ("--unnormalise", "u"%char); ("--unzeropad", "z"%char); ("--version", "v"%char)].
Definition sphere_refused : string -> Prop :=
  refused sphere_longs sphere_letter (map snd sphere_flag_names) sphere_flag_names.

Section Sphere.
  Variable float : string -> option Q.     (* Python's [float] *)
  Definition says_float (q : Q) (t : string) : Prop := float t = Some q.

  (** The options that have a value: their two names, what the value says *)
  Inductive sphere_valued : sphere_option -> string -> string -> (string -> Prop) -> Prop :=
  | v_alpha q : sphere_valued (Alpha q) "--alpha" "-a" (says_float q)
  | v_bandlimit z : sphere_valued (Bandlimit z) "--bandlimit" "-L" (says_int z)
  | v_beta q : sphere_valued (Beta q) "--beta" "-b" (says_float q)
  | v_convolve m : In m ["earth"; "south_america"; "wmap"] -> sphere_valued (Convolve m) "--convolve" "-c" (eq m)
  | v_gamma q : sphere_valued (Gamma q) "--gamma" "-g" (says_float q)
  | v_method m : In m ["north"; "rotate"; "translate"] -> sphere_valued (Method m) "--method" "-m" (eq m)
  | v_noise z : sphere_valued (Noise z) "--noise" "-n" (says_int z)
  | v_perspective v : In v ["africa"; "south_america"] -> sphere_valued (Perspective v) "--perspective" "-p" (eq v)
  | v_smoothing z : sphere_valued (Smoothing z) "--smoothing" "-s" (says_int z)
  | v_type t : In t ["abs"; "real"; "imag"; "sum"] -> sphere_valued (Type_ t) "--type" "-t" (eq t).

  (** Flags, by name and letter *)
  Inductive sphere_flag : sphere_option -> string -> string -> Prop :=
  | f_outline : sphere_flag Outline "--outline" "o"
  | f_region : sphere_flag Masked "--region" "r"
  | f_unnormalise : sphere_flag Unnormalise "--unnormalise" "u"
  | f_unzeropad : sphere_flag Unzeropad "--unzeropad" "z".

  (** Options that may stand without their value *)
  Inductive sphere_bare : sphere_option -> string -> string -> Prop :=
  | b_method : sphere_bare (Method "north") "--method" "-m"
  | b_perspective : sphere_bare (Perspective "south_america") "--perspective" "-p"
  | b_type : sphere_bare (Type_ "real") "--type" "-t".

  Inductive sphere_letters : list sphere_option -> string -> Prop :=
  | no_letter : sphere_letters [] ""
  | one_letter o long letter os s : sphere_flag o long letter -> sphere_letters os s ->
      sphere_letters (o :: os) (letter ++ s).

  Inductive sphere_part : part sphere_option -> Prop :=
  | sp_value o long short says ws : sphere_valued o long short says -> with_value sphere_longs long short says ws ->
      sphere_part {| part_options := [o]; part_open := false; part_words := ws |}
  | sp_bare o long short ws : sphere_bare o long short -> alone sphere_longs long short ws ->
      sphere_part {| part_options := [o]; part_open := true; part_words := ws |}
  | sp_flag o long letter ws : sphere_flag o long letter -> alone sphere_longs long ("-" ++ letter) ws ->
      sphere_part {| part_options := [o]; part_open := false; part_words := ws |}
  | sp_extra_inside z ws : inside sphere_longs "--extra_args" "-e" (says_int z) ws ->
      sphere_part {| part_options := [Extra_args [z]]; part_open := false; part_words := ws |}
  | sp_extra zs ws : with_values sphere_longs "--extra_args" "-e" says_int zs ws ->
      sphere_part {| part_options := [Extra_args zs]; part_open := true; part_words := ws |}
  | sp_letters os s : os <> [] -> sphere_letters os s ->
      sphere_part {| part_options := os; part_open := false; part_words := [("-" ++ s)%string] |}
  | sp_letters_value os s o long short says t : sphere_letters os s -> sphere_valued o long ("-" ++ short) says ->
      glued short says t ->
      sphere_part {| part_options := os ++ [o]; part_open := false; part_words := [("-" ++ s ++ t)%string] |}.
End Sphere.

(** The settings of a run *)
Record sphere_settings := {
  ss_function : string; ss_alpha : Q; ss_bandlimit : Z; ss_beta : Q; ss_convolve : option string;
  ss_extra_args : option (list Z); ss_gamma : Q; ss_method : string; ss_noise : option Z; ss_outline : bool;
  ss_perspective : string; ss_region : bool; ss_smoothing : option Z; ss_type : string; ss_unnormalise : bool;
  ss_unzeropad : bool }.

Definition sphere_initial (name : string) : sphere_settings := {|
  ss_function := name; ss_alpha := 3 # 4; ss_bandlimit := 16; ss_beta := 1 # 8; ss_convolve := None;
  ss_extra_args := None; ss_gamma := 0; ss_method := "north"; ss_noise := None; ss_outline := true;
  ss_perspective := "south_america"; ss_region := false; ss_smoothing := None; ss_type := "real";
  ss_unnormalise := false; ss_unzeropad := false |}.

Definition sphere_set (s : sphere_settings) (o : sphere_option) : sphere_settings :=
  let '{| ss_function := f; ss_alpha := a; ss_bandlimit := l; ss_beta := b; ss_convolve := c; ss_extra_args := e;
          ss_gamma := g; ss_method := m; ss_noise := n; ss_outline := ol; ss_perspective := p; ss_region := r;
          ss_smoothing := sm; ss_type := t; ss_unnormalise := u; ss_unzeropad := z |} := s in
  match o with
  | Alpha a => Build_sphere_settings f a l b c e g m n ol p r sm t u z
  | Bandlimit l => Build_sphere_settings f a l b c e g m n ol p r sm t u z
  | Beta b => Build_sphere_settings f a l b c e g m n ol p r sm t u z
  | Convolve c => Build_sphere_settings f a l b (Some c) e g m n ol p r sm t u z
  | Extra_args e => Build_sphere_settings f a l b c (Some e) g m n ol p r sm t u z
  | Gamma g => Build_sphere_settings f a l b c e g m n ol p r sm t u z
  | Method m => Build_sphere_settings f a l b c e g m n ol p r sm t u z
  | Noise n => Build_sphere_settings f a l b c e g m (Some n) ol p r sm t u z
  | Outline => Build_sphere_settings f a l b c e g m n false p r sm t u z
  | Perspective p => Build_sphere_settings f a l b c e g m n ol p r sm t u z
  | Masked => Build_sphere_settings f a l b c e g m n ol p true sm t u z
  | Smoothing sm => Build_sphere_settings f a l b c e g m n ol p r (Some sm) t u z
  | Type_ t => Build_sphere_settings f a l b c e g m n ol p r sm t u z
  | Unnormalise => Build_sphere_settings f a l b c e g m n ol p r sm t true z
  | Unzeropad => Build_sphere_settings f a l b c e g m n ol p r sm t u true
  end.

(** The settings as attributes *)
Definition maybe {A} (f : A -> value) (x : option A) : value := match x with Some x => f x | None => VNone end.
Definition sphere_namespace (s : sphere_settings) : namespace :=
  [("function", VStr (ss_function s)); ("alpha", VFloat (ss_alpha s)); ("bandlimit", VInt (ss_bandlimit s));
   ("beta", VFloat (ss_beta s)); ("convolve", maybe VStr (ss_convolve s));
   ("extra_args", maybe (fun l => VList (map VInt l)) (ss_extra_args s)); ("gamma", VFloat (ss_gamma s));
   ("method", VStr (ss_method s)); ("noise", maybe VInt (ss_noise s)); ("outline", VBool (ss_outline s));
   ("perspective", VStr (ss_perspective s)); ("region", VBool (ss_region s)); ("smoothing", maybe VInt (ss_smoothing s));
   ("type", VStr (ss_type s)); ("unnormalise", VBool (ss_unnormalise s)); ("unzeropad", VBool (ss_unzeropad s))].

Definition sphere_valid (s : sphere_settings) : Prop :=
  In (ss_function s) sphere_names /\
  (forall c, ss_convolve s = Some c -> In c ["earth"; "south_america"; "wmap"]) /\
  ss_extra_args s <> Some [] /\
  In (ss_method s) ["north"; "rotate"; "translate"] /\
  In (ss_perspective s) ["africa"; "south_america"] /\
  In (ss_type s) ["abs"; "real"; "imag"; "sum"].

(** ** The command [mesh] *)

Inductive mesh_option : Type :=
| MExtra_args (l : list Z) | MMethod (m : string) | MNoise (z : Z) | MMasked | MUnnormalise | MZoom.

Definition mesh_longs : list string :=
  ["--help"; "--extra_args"; "--method"; "--noise"; "--region"; "--unnormalise"; "--version"; "--zoom"].
Definition mesh_letter : list ascii := list_ascii_of_string "hemnruvz".
Definition mesh_flag_names : list (string * ascii) :=
  [("--help", "h"%char); ("--region", "r"%char); ("--unnormalise", "u"%char); ("--version", "v"%char); ("--zoom", "z"%char)].
Definition mesh_refused : string -> Prop := refused mesh_longs mesh_letter (map snd mesh_flag_names) mesh_flag_names.
Definition mesh_methods : list string :=
  ["basis_functions"; "field"; "noise_field"; "slepian_field"; "slepian_functions"; "slepian_noise_field";
   "slepian_wavelet_coefficients"; "slepian_wavelets"].

Inductive mesh_valued : mesh_option -> string -> string -> (string -> Prop) -> Prop :=
| mv_method m : In m mesh_methods -> mesh_valued (MMethod m) "--method" "-m" (eq m)
| mv_noise z : mesh_valued (MNoise z) "--noise" "-n" (says_int z).
Inductive mesh_flag : mesh_option -> string -> string -> Prop :=
| mf_region : mesh_flag MMasked "--region" "r"
| mf_unnormalise : mesh_flag MUnnormalise "--unnormalise" "u"
| mf_zoom : mesh_flag MZoom "--zoom" "z".
Inductive mesh_bare : mesh_option -> string -> string -> Prop :=
| mb_method : mesh_bare (MMethod "basis_functions") "--method" "-m".
Inductive mesh_letters : list mesh_option -> string -> Prop :=
| no_mesh_letter : mesh_letters [] ""
| one_mesh_letter o long letter os s : mesh_flag o long letter -> mesh_letters os s -> mesh_letters (o :: os) (letter ++ s).
Inductive mesh_part : part mesh_option -> Prop :=
| mp_value o long short says ws : mesh_valued o long short says -> with_value mesh_longs long short says ws ->
    mesh_part {| part_options := [o]; part_open := false; part_words := ws |}
| mp_bare o long short ws : mesh_bare o long short -> alone mesh_longs long short ws ->
    mesh_part {| part_options := [o]; part_open := true; part_words := ws |}
| mp_flag o long letter ws : mesh_flag o long letter -> alone mesh_longs long ("-" ++ letter) ws ->
    mesh_part {| part_options := [o]; part_open := false; part_words := ws |}
| mp_extra_inside z ws : inside mesh_longs "--extra_args" "-e" (says_int z) ws ->
    mesh_part {| part_options := [MExtra_args [z]]; part_open := false; part_words := ws |}
| mp_extra zs ws : with_values mesh_longs "--extra_args" "-e" says_int zs ws ->
    mesh_part {| part_options := [MExtra_args zs]; part_open := true; part_words := ws |}
| mp_letters os s : os <> [] -> mesh_letters os s ->
    mesh_part {| part_options := os; part_open := false; part_words := [("-" ++ s)%string] |}
| mp_letters_value os s o long short says t : mesh_letters os s -> mesh_valued o long ("-" ++ short) says ->
    glued short says t ->
    mesh_part {| part_options := os ++ [o]; part_open := false; part_words := [("-" ++ s ++ t)%string] |}.

Record mesh_settings := {
  ms_function : string; ms_extra_args : option (list Z); ms_method : string; ms_noise : option Z; ms_region : bool;
  ms_unnormalise : bool; ms_zoom : bool }.
Definition mesh_initial (name : string) : mesh_settings := {|
  ms_function := name; ms_extra_args := None; ms_method := "basis_functions"; ms_noise := None; ms_region := false;
  ms_unnormalise := false; ms_zoom := false |}.
Definition mesh_set (s : mesh_settings) (o : mesh_option) : mesh_settings :=
  let '{| ms_function := f; ms_extra_args := e; ms_method := m; ms_noise := n; ms_region := r; ms_unnormalise := u;
          ms_zoom := z |} := s in
  match o with
  | MExtra_args e => Build_mesh_settings f (Some e) m n r u z
  | MMethod m => Build_mesh_settings f e m n r u z
  | MNoise n => Build_mesh_settings f e m (Some n) r u z
  | MMasked => Build_mesh_settings f e m n true u z
  | MUnnormalise => Build_mesh_settings f e m n r true z
  | MZoom => Build_mesh_settings f e m n r u true
  end.
Definition mesh_namespace (s : mesh_settings) : namespace :=
  [("function", VStr (ms_function s)); ("extra_args", maybe (fun l => VList (map VInt l)) (ms_extra_args s));
   ("method", VStr (ms_method s)); ("noise", maybe VInt (ms_noise s)); ("region", VBool (ms_region s));
   ("unnormalise", VBool (ms_unnormalise s)); ("zoom", VBool (ms_zoom s))].
Definition mesh_valid (s : mesh_settings) : Prop :=
  In (ms_function s) ["bird"; "cheetah"; "cube"; "dragon"; "homer"; "teapot"] /\
  ms_extra_args s <> Some [] /\ In (ms_method s) mesh_methods.
