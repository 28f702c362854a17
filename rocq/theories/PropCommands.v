(** * The command line: what is accepted, what it means, and what is run (C80). *)
From Coq Require Import List ZArith QArith Arith Bool Reals Lia String Ascii.
From Coquelicot Require Import Complex.
From Verif Require Import Base PyNum Region Mask Names Mesh Plot Cli Args Objects MeshObjects Argparse Commands SpecCommands
  ArgparseProofs CommandsProofs RefusedProofs SpecInt IntProofs PropNames.
Import ListNotations.
Local Open Scope string_scope.
Local Open Scope list_scope.

(** ** Reading *)

(** A number written the way Python writes it is read back. *)
Theorem C80_int : forall z, py_int (zstr z) = Some z.
Proof. exact py_int_zstr. Qed.
Print Assumptions C80_int.

(** The texts accepted as whole numbers are exactly those of Python: blanks around,
    perhaps a sign, digits with single underscores between them. *)
Theorem C80_int_texts : forall s z, py_int s = Some z <-> int_text s z.
Proof. exact py_int_iff. Qed.
Print Assumptions C80_int_texts.

Example C80_int_texts_case : int_text " -1_0 " (-10) /\ ~ (exists z, int_text "1__0" z) /\ ~ (exists z, int_text "10_" z) /\ ~ (exists z, int_text "1 0" z).
Proof.
  split; [apply C80_int_texts; reflexivity|].
  split; [|split]; intros (z & H); apply C80_int_texts in H; discriminate.
Qed.

(** The options before and after the name, however they are written, give the
    settings they say; the last of several equal options counts. *)
Theorem C80_sphere_reads : forall float before after name,
  Forall (sphere_part float) before -> Forall (sphere_part float) after -> In name sphere_names -> parts_open before = false ->
  parse_args (sphere_parser float) (parts_words before ++ name :: parts_words after)
  = Got (sphere_namespace (fold_left sphere_set (parts_options before ++ parts_options after) (sphere_initial name))).
Proof. exact sphere_reads. Qed.
Print Assumptions C80_sphere_reads.

Theorem C80_mesh_reads : forall before after name,
  Forall mesh_part before -> Forall mesh_part after -> In name ["bird"; "cheetah"; "cube"; "dragon"; "homer"; "teapot"] ->
  parts_open before = false ->
  parse_args mesh_parser (parts_words before ++ name :: parts_words after)
  = Got (mesh_namespace (fold_left mesh_set (parts_options before ++ parts_options after) (mesh_initial name))).
Proof. exact mesh_reads. Qed.
Print Assumptions C80_mesh_reads.

(** Two dashes end the options: the name may then follow anything. *)
Theorem C80_dashes : forall float,
  (forall before name, Forall (sphere_part float) before -> In name sphere_names ->
     parse_args (sphere_parser float) (parts_words before ++ ["--"; name])
     = Got (sphere_namespace (fold_left sphere_set (parts_options before) (sphere_initial name)))) /\
  (forall before name, Forall mesh_part before -> In name ["bird"; "cheetah"; "cube"; "dragon"; "homer"; "teapot"] ->
     parse_args mesh_parser (parts_words before ++ ["--"; name])
     = Got (mesh_namespace (fold_left mesh_set (parts_options before) (mesh_initial name)))).
Proof. intros float. split; [exact (sphere_reads_dashes float)|exact mesh_reads_dashes]. Qed.
Print Assumptions C80_dashes.

(** The usage text of both commands shows the name after the options, but where
    the last of them may take the name for (another) value the command exits with
    status 2: [sphere -e 5 earth], [sphere -m earth], [sphere -p africa],
    [mesh -e 5 bird]. *)
Theorem C80_swallowed_refuted : forall float,
  (forall before after name, Forall (sphere_part float) before -> Forall (sphere_part float) after ->
     In name sphere_names -> parts_open before = true ->
     parse_args (sphere_parser float) (parts_words before ++ name :: parts_words after) = Exit 2) /\
  (forall before after name, Forall mesh_part before -> Forall mesh_part after ->
     In name ["bird"; "cheetah"; "cube"; "dragon"; "homer"; "teapot"] -> parts_open before = true ->
     parse_args mesh_parser (parts_words before ++ name :: parts_words after) = Exit 2).
Proof. intros float. split; [exact (sphere_swallowed float)|exact mesh_swallowed]. Qed.
Print Assumptions C80_swallowed_refuted.

(** Without a name nothing runs; help and version leave with status 0. *)
Theorem C80_leaves : forall float,
  (forall before, Forall (sphere_part float) before -> parse_args (sphere_parser float) (parts_words before) = Exit 2 /\
     forall w, In w ["-h"; "--help"; "-v"; "--version"] -> parse_args (sphere_parser float) (parts_words before ++ [w]) = Exit 0) /\
  (forall before, Forall mesh_part before -> parse_args mesh_parser (parts_words before) = Exit 2 /\
     forall w, In w ["-h"; "--help"; "-v"; "--version"] -> parse_args mesh_parser (parts_words before ++ [w]) = Exit 0).
Proof.
  intros float. split; intros before H; (split; [|intros w Hw]).
  - exact (sphere_reads_missing float before H).
  - exact (sphere_reads_help float before w H Hw).
  - exact (mesh_reads_missing before H).
  - exact (mesh_reads_help before w H Hw).
Qed.
Print Assumptions C80_leaves.

(** ** Every command line *)

(** Whatever the words, the command exits with status 0 or 2, or it has settings
    with a known name and values among the choices. *)
Theorem C80_sphere_every : forall float argv,
  match parse_args (sphere_parser float) argv with
  | Got ns => exists s, ns = sphere_namespace s /\ sphere_valid s
  | Exit n => n = 0%Z \/ n = 2%Z
  end.
Proof. exact sphere_outcome. Qed.
Print Assumptions C80_sphere_every.

Theorem C80_mesh_every : forall argv,
  match parse_args mesh_parser argv with
  | Got ns => exists s, ns = mesh_namespace s /\ mesh_valid s
  | Exit n => n = 0%Z \/ n = 2%Z
  end.
Proof. exact mesh_outcome. Qed.
Print Assumptions C80_mesh_every.

(** ** What is refused *)

(** Words that are no option of the command, abbreviate several of its options, give
    a flag a value, or join letters to a flag that are no options: wherever they
    stand before two dashes, whatever stands around them, nothing is run. *)
Theorem C80_refused : forall float before w after, ~ In "--" before ->
  (sphere_refused w -> parse_args (sphere_parser float) (before ++ w :: after) = Exit 0 \/
                       parse_args (sphere_parser float) (before ++ w :: after) = Exit 2) /\
  (mesh_refused w -> parse_args mesh_parser (before ++ w :: after) = Exit 0 \/
                     parse_args mesh_parser (before ++ w :: after) = Exit 2).
Proof.
  intros float before w after Hb. split; intros H.
  - apply sphere_stops, sphere_refused_stops; assumption.
  - apply mesh_stops, mesh_refused_stops; assumption.
Qed.
Print Assumptions C80_refused.

Example C80_refused_case : forall float,
  parse_args (sphere_parser float) ["-L"; "8"; "-q"; "earth"] = Exit 2 /\
  parse_args (sphere_parser float) ["--un"; "earth"] = Exit 2 /\
  parse_args (sphere_parser float) ["--outline=no"; "earth"] = Exit 2 /\
  parse_args (sphere_parser float) ["-rq"; "earth"] = Exit 2 /\
  parse_args mesh_parser ["bird"; "--bandlimit"; "8"] = Exit 2 /\ sphere_refused "-q" /\ sphere_refused "--un" /\
  sphere_refused "--outline=no" /\ sphere_refused "-rq" /\ mesh_refused "--bandlimit".
Proof.
  intros float. do 5 (split; [reflexivity|]). repeat split.
  - apply (r_letter _ _ _ _ "q"%char ""); [discriminate| | |].
    + cbn. intros X. repeat (destruct X as [X|X]; [discriminate X|]). exact X.
    + assert (Q : ~ In "q"%char (list_ascii_of_string "0123456789"))
        by (cbn; intros X; repeat (destruct X as [X|X]; [discriminate X|]); exact X).
      intros (a & b & A & B & _ & [E|E]); cbn [append] in E; injection E as E.
      * subst b. inversion B; contradiction.
      * destruct a as [|c a]; cbn [append] in E; [discriminate E|]. injection E as E _. subst c. inversion A; contradiction.
    + intros [X|[]]. discriminate X.
  - apply (r_ambiguous _ _ _ _ "--un" "" "--unnormalise" "--unzeropad"); try reflexivity; try discriminate; try (cbn; tauto).
    + intros X. cbn in X. repeat (destruct X as [X|X]; [discriminate X|]). exact X.
    + cbn. intros X. repeat (destruct X as [X|X]; [discriminate X|]). exact X.
    + left. split; [reflexivity|discriminate].
  - apply (r_flag_value _ _ _ _ "--outline" "o"%char "--outline" "no"); [cbn; tauto|left; reflexivity].
  - apply (r_joined _ _ _ _ ["r"%char] "q"%char ""); [split; [discriminate|repeat constructor; cbn; tauto]| |discriminate].
    cbn. intros X. repeat (destruct X as [X|X]; [discriminate X|]). exact X.
  - apply (r_long _ _ _ _ "--bandlimit" ""); [|reflexivity| |left; reflexivity|].
    + intros X. cbn in X. repeat (destruct X as [X|X]; [discriminate X|]). exact X.
    + intros l H. cbn in H. repeat (destruct H as [<-|H]; [reflexivity|]). destruct H.
    + intros X. cbn in X. repeat (destruct X as [X|X]; [discriminate X|]). exact X.
Qed.

(** A value that its option does not have, wherever it stands before two dashes *)
Theorem C80_misfit : forall float before ws after, ~ In "--" before ->
  (misfit sphere_longs (sphere_valued float) ws ->
     parse_args (sphere_parser float) (before ++ ws ++ after) = Exit 0 \/
     parse_args (sphere_parser float) (before ++ ws ++ after) = Exit 2) /\
  (misfit mesh_longs mesh_valued ws ->
     parse_args mesh_parser (before ++ ws ++ after) = Exit 0 \/ parse_args mesh_parser (before ++ ws ++ after) = Exit 2).
Proof.
  intros float before ws after Hb. split; intros H.
  - apply sphere_stops, sphere_misfit_stops; assumption.
  - apply mesh_stops, mesh_misfit_stops; assumption.
Qed.
Print Assumptions C80_misfit.

Example C80_misfit_case : forall float,
  misfit sphere_longs (sphere_valued float) ["-L"; "many"] /\ misfit sphere_longs (sphere_valued float) ["--type=phase"] /\
  misfit mesh_longs mesh_valued ["-e"; "1"; "x"] /\
  parse_args (sphere_parser float) ["-L"; "many"; "earth"] = Exit 2 /\
  parse_args (sphere_parser float) ["--type=phase"; "earth"] = Exit 2 /\
  parse_args mesh_parser ["bird"; "-e"; "1"; "x"] = Exit 2.
Proof.
  intros float. split; [|split; [|split; [|repeat split; reflexivity]]].
  - apply (m_value _ _ (Bandlimit 8) "--bandlimit" "-L" _ _ (v_bandlimit float 8)). right. exists "-L", "many".
    split; [reflexivity|]. split; [right; left; reflexivity|]. split; [left; intros u X; discriminate X|].
    intros o says H. inversion H; subst. intros X. discriminate X.
  - apply (m_value _ _ (Type_ "abs") "--type" "-t" _ _ (v_type float "abs" ltac:(cbn; tauto))). left. right. exists "--type", "phase".
    split; [reflexivity|]. split; [left; reflexivity|].
    intros o says H. inversion H as [| | | | | | | | |t I]; subst. intros ->. cbn in I.
    repeat (destruct I as [I|I]; [discriminate I|]). exact I.
  - apply (m_extra _ _ "-e" ["1"; "x"] "x"); [right; left; reflexivity| |right; left; reflexivity|intros z X; discriminate X].
    constructor; [|constructor; [|constructor]]; left; intros u X; discriminate X.
Qed.

(** An option without the value it needs: at the end, before two dashes, or before
    another option *)
Theorem C80_valueless : forall float before long short o after, ~ In "--" before ->
  (needs_value (sphere_valued float) sphere_bare long short -> names_option sphere_longs long short o ->
     (after = [] \/ (exists more, after = "--" :: more) \/
      exists pt more, sphere_part float pt /\ after = part_words pt ++ more) ->
     parse_args (sphere_parser float) (before ++ o :: after) = Exit 0 \/
     parse_args (sphere_parser float) (before ++ o :: after) = Exit 2) /\
  (needs_value mesh_valued mesh_bare long short -> names_option mesh_longs long short o ->
     (after = [] \/ (exists more, after = "--" :: more) \/
      exists pt more, mesh_part pt /\ after = part_words pt ++ more) ->
     parse_args mesh_parser (before ++ o :: after) = Exit 0 \/ parse_args mesh_parser (before ++ o :: after) = Exit 2).
Proof.
  intros float before long short o after Hb. split; intros Hv No Ha.
  - apply sphere_stops, (sphere_valueless_stops float before o long short after); assumption.
  - apply mesh_stops, (mesh_valueless_stops before o long short after); assumption.
Qed.
Print Assumptions C80_valueless.

Example C80_valueless_case : forall float,
  needs_value (sphere_valued float) sphere_bare "--bandlimit" "-L" /\
  parse_args (sphere_parser float) ["earth"; "-L"] = Exit 2 /\ parse_args (sphere_parser float) ["earth"; "-L"; "-o"] = Exit 2.
Proof.
  intros float. split; [|split; reflexivity]. right. exists (Bandlimit 8), (says_int 8). split; [constructor|].
  intros o H. inversion H.
Qed.

(** A word beside the name that belongs to no option, and a name that is not known *)
Theorem C80_left : forall float,
  (forall before after name x rest, Forall (sphere_part float) before -> Forall (sphere_part float) after ->
     In name sphere_names -> plain x -> parts_open before = false -> parts_open after = false ->
     let argv := parts_words before ++ name :: parts_words after ++ x :: rest in
     parse_args (sphere_parser float) argv = Exit 0 \/ parse_args (sphere_parser float) argv = Exit 2) /\
  (forall before after name x rest, Forall mesh_part before -> Forall mesh_part after ->
     In name ["bird"; "cheetah"; "cube"; "dragon"; "homer"; "teapot"] -> plain x ->
     parts_open before = false -> parts_open after = false ->
     let argv := parts_words before ++ name :: parts_words after ++ x :: rest in
     parse_args mesh_parser argv = Exit 0 \/ parse_args mesh_parser argv = Exit 2) /\
  (forall before x rest, Forall (sphere_part float) before -> plain x -> ~ In x sphere_names -> parts_open before = false ->
     let argv := parts_words before ++ x :: rest in
     parse_args (sphere_parser float) argv = Exit 0 \/ parse_args (sphere_parser float) argv = Exit 2) /\
  (forall before x rest, Forall mesh_part before -> plain x ->
     ~ In x ["bird"; "cheetah"; "cube"; "dragon"; "homer"; "teapot"] -> parts_open before = false ->
     let argv := parts_words before ++ x :: rest in
     parse_args mesh_parser argv = Exit 0 \/ parse_args mesh_parser argv = Exit 2).
Proof.
  intros float. split; [|split; [|split]].
  - intros before after name x rest Hb Ha Hn Hx Ob Oa argv. apply sphere_stops, sphere_left_stops; assumption.
  - intros before after name x rest Hb Ha Hn Hx Ob Oa argv. apply mesh_stops, mesh_left_stops; assumption.
  - intros before x rest Hb Hx Nx Ob argv. apply sphere_stops, sphere_misnamed_stops; assumption.
  - intros before x rest Hb Hx Nx Ob argv. apply mesh_stops, mesh_misnamed_stops; assumption.
Qed.
Print Assumptions C80_left.

Example C80_left_case : forall float,
  parse_args (sphere_parser float) ["earth"; "-L"; "8"; "wmap"] = Exit 2 /\
  parse_args (sphere_parser float) ["moon"] = Exit 2 /\ parse_args mesh_parser ["bird"; "cube"; "-z"] = Exit 2.
Proof. intros float. repeat split; vm_compute; reflexivity. Qed.

(** ** What is run *)

Lemma all_ints_map l : all_ints (map VInt l) = Ok l.
Proof. induction l as [|z l IH]; [reflexivity|]. cbn. rewrite IH. reflexivity. Qed.

Section Sphere.
  Variable float : string -> option Q.
  Variable inverse forward : Z -> bool -> nat -> list C -> list C.
  Variable rotate_flms : list C -> R -> R -> R -> nat -> res (list C).
  Variable create_ylm : R -> R -> nat -> list C.
  Variable theta_to_index phi_to_index : R -> nat -> nat.
  Variable gammaln : R -> R.
  Variable axisym_wav_l : Z -> nat -> Z -> list R * nat * list (list R).
  Variable jmax : Z -> nat -> Z -> Z.
  Variable normal : Z -> nat -> R.
  Variable table : list C.
  Variable cl : list R.
  Variable fmt_e : R -> string.
  Variable lower : string -> string.
  Variable to_int : string -> res Z.
  Variable env : string -> option string.
  Variable solve : nat -> region -> mask_files -> res (solved * mask_files).
  Variable land : bool -> nat -> list (list R).

  Notation MAIN := (sphere_main float inverse forward rotate_flms create_ylm theta_to_index phi_to_index gammaln axisym_wav_l
    jmax normal table cl fmt_e lower to_int env solve land).
  Notation RUN := (sphere_run inverse forward rotate_flms create_ylm theta_to_index phi_to_index gammaln axisym_wav_l
    jmax normal table cl fmt_e lower to_int env solve land).
  Notation MAKE := (make_function inverse forward rotate_flms theta_to_index phi_to_index gammaln axisym_wav_l
    jmax normal table cl fmt_e lower to_int env solve).
  Notation PLOT := (plot inverse forward rotate_flms create_ylm theta_to_index phi_to_index land).

  (** The functions made from the settings: the one named and the map to convolve
      it with. *)
  Definition made (s : sphere_settings) (fs : mask_files) (o : obj) (g : option fn) (fs' : mask_files) : Prop :=
    exists c mask fs1,
      convert_camel_case_to_snake_case (class_name c) = ss_function s /\
      (if ss_region s then exists r, create_default_region lower to_int env = Ok r /\ mask = Some r else mask = None) /\
      MAKE c (Z.to_nat (ss_bandlimit s)) (ss_extra_args s) mask (option_map inject_Z (ss_noise s)) (ss_smoothing s) fs = Ok (o, fs1) /\
      match ss_convolve s with
      | None => g = None /\ fs' = fs1
      | Some m => exists d o', convert_camel_case_to_snake_case (class_name d) = m /\ In d [Earth; SouthAmerica; Wmap] /\
          MAKE d (Z.to_nat (ss_bandlimit s)) None None None None fs1 = Ok (o', fs') /\ g = Some (fn_of o')
      end.

  (** The arguments of the plot *)
  Definition plotted (s : sphere_settings) (amplitude : option R) : plot_args :=
    {| pa_alpha := ss_alpha s; pa_beta := ss_beta s; pa_gamma := ss_gamma s; pa_annotations := ss_outline s;
       pa_normalise := negb (ss_unnormalise s); pa_method := ss_method s; pa_type := ss_type s;
       pa_upsample := negb (ss_unzeropad s); pa_view := ss_perspective s; pa_amplitude := amplitude |}.

  Lemma run_settings s fs : RUN (sphere_namespace s) fs =
    (let* mask := if ss_region s then let* r := create_default_region lower to_int env in Ok (Some r) else Ok None in
     let* c := choose_class (ss_function s) in
     let* (o, fs1) := MAKE c (Z.to_nat (ss_bandlimit s)) (ss_extra_args s) mask (option_map inject_Z (ss_noise s)) (ss_smoothing s) fs in
     let* (g, fs2) := match ss_convolve s with
       | Some m => let* d := choose_map m in
                   let* (o', fs2) := MAKE d (Z.to_nat (ss_bandlimit s)) None None None None fs1 in Ok (Some (fn_of o'), fs2)
       | None => Ok (None, fs1) end in
     let* amplitude := compute_amplitude_for_noisy_sphere_plots inverse (option_map sv_slepian (o_solved o)) (o_L o)
                        (o_reality o) (o_spin o) (o_unnoised o) in
     PLOT (fn_of o) g (plotted s amplitude) fs2).
  Proof.
    destruct s as [f a l b c e g m n ol p r sm t u z]. unfold sphere_run.
    change (attr_bool "region" _) with (Ok r). cbn [rbind].
    destruct (if r then _ else _) as [mask|err]; [|reflexivity]. cbn [rbind].
    change (attr_str "function" _) with (Ok f). cbn [rbind ss_function]. destruct (choose_class f) as [cl0|err]; [|reflexivity]. cbn [rbind].
    change (attr_int "bandlimit" _) with (Ok l). cbn [rbind ss_bandlimit].
    assert (Ee : attr_maybe_ints "extra_args" (sphere_namespace {| ss_function := f; ss_alpha := a; ss_bandlimit := l; ss_beta := b;
      ss_convolve := c; ss_extra_args := e; ss_gamma := g; ss_method := m; ss_noise := n; ss_outline := ol; ss_perspective := p;
      ss_region := r; ss_smoothing := sm; ss_type := t; ss_unnormalise := u; ss_unzeropad := z |}) = Ok e).
    { destruct e as [e|]; [|reflexivity]. unfold attr_maybe_ints. cbn [sphere_namespace getattr String.eqb Ascii.eqb Bool.eqb rbind ss_extra_args maybe].
      rewrite all_ints_map. reflexivity. }
    rewrite Ee. cbn [rbind ss_extra_args].
    assert (En : attr_maybe_int "noise" (sphere_namespace {| ss_function := f; ss_alpha := a; ss_bandlimit := l; ss_beta := b;
      ss_convolve := c; ss_extra_args := e; ss_gamma := g; ss_method := m; ss_noise := n; ss_outline := ol; ss_perspective := p;
      ss_region := r; ss_smoothing := sm; ss_type := t; ss_unnormalise := u; ss_unzeropad := z |}) = Ok n) by (destruct n; reflexivity).
    rewrite En. cbn [rbind ss_noise].
    assert (Es : attr_maybe_int "smoothing" (sphere_namespace {| ss_function := f; ss_alpha := a; ss_bandlimit := l; ss_beta := b;
      ss_convolve := c; ss_extra_args := e; ss_gamma := g; ss_method := m; ss_noise := n; ss_outline := ol; ss_perspective := p;
      ss_region := r; ss_smoothing := sm; ss_type := t; ss_unnormalise := u; ss_unzeropad := z |}) = Ok sm) by (destruct sm; reflexivity).
    rewrite Es. cbn [rbind ss_smoothing].
    destruct (MAKE cl0 (Z.to_nat l) e mask (option_map inject_Z n) sm fs) as [[o fs1]|err]; [|reflexivity]. cbn [rbind].
    assert (Ec : attr_maybe_str "convolve" (sphere_namespace {| ss_function := f; ss_alpha := a; ss_bandlimit := l; ss_beta := b;
      ss_convolve := c; ss_extra_args := e; ss_gamma := g; ss_method := m; ss_noise := n; ss_outline := ol; ss_perspective := p;
      ss_region := r; ss_smoothing := sm; ss_type := t; ss_unnormalise := u; ss_unzeropad := z |}) = Ok c) by (destruct c; reflexivity).
    rewrite Ec. cbn [rbind ss_convolve].
    destruct (match c with Some _ => _ | None => _ end) as [[g' fs2]|err]; [|reflexivity]. cbn [rbind].
    destruct (compute_amplitude_for_noisy_sphere_plots _ _ _ _ _ _) as [am|err]; [|reflexivity]. reflexivity.
  Qed.

  Lemma run_made s fs o g fs' amplitude : made s fs o g fs' ->
    compute_amplitude_for_noisy_sphere_plots inverse (option_map sv_slepian (o_solved o)) (o_L o) (o_reality o) (o_spin o)
      (o_unnoised o) = Ok amplitude ->
    RUN (sphere_namespace s) fs = PLOT (fn_of o) g (plotted s amplitude) fs'.
  Proof.
    intros (c & mask & fs1 & Hc & Hm & Mk & Hg) Am. rewrite run_settings.
    rewrite (proj2 (C40_class (ss_function s) c) (eq_sym Hc)).
    assert (Em : (if ss_region s then let* r := create_default_region lower to_int env in Ok (Some r) else Ok None) = Ok mask).
    { destruct (ss_region s); [destruct Hm as (r & -> & ->); reflexivity|rewrite Hm; reflexivity]. }
    rewrite Em. cbn [rbind]. rewrite Mk. cbn [rbind]. destruct (ss_convolve s) as [m|].
    - destruct Hg as (d & o' & Hd & Id & Mk' & ->).
      assert (D : choose_map m = Ok d).
      { apply C40_map. split; [|symmetry; exact Hd]. destruct Id as [<-|[<-|[<-|[]]]]; auto. }
      rewrite D. cbn [rbind]. rewrite Mk'. cbn [rbind]. rewrite Am. reflexivity.
    - destruct Hg as [-> ->]. cbn [rbind]. rewrite Am. reflexivity.
  Qed.

  (** The command plots the function named, made as the options say. *)
Theorem C80_sphere_main : forall before after name fs o g fs' amplitude,
    Forall (sphere_part float) before -> Forall (sphere_part float) after -> In name sphere_names -> parts_open before = false ->
    let s := fold_left sphere_set (parts_options before ++ parts_options after) (sphere_initial name) in
    made s fs o g fs' ->
    compute_amplitude_for_noisy_sphere_plots inverse (option_map sv_slepian (o_solved o)) (o_L o) (o_reality o) (o_spin o)
      (o_unnoised o) = Ok amplitude ->
    MAIN (parts_words before ++ name :: parts_words after) fs = Got (PLOT (fn_of o) g (plotted s amplitude) fs').
  Proof.
    intros before after name fs o g fs' am Hb Ha Hn Ho s Hm Am. unfold sphere_main.
    rewrite C80_sphere_reads by assumption. cbn [obind]. fold s. rewrite (run_made _ _ _ _ _ _ Hm Am). reflexivity.
  Qed.

  (** A figure comes of no other command line. *)
Theorem C80_sphere_figure : forall argv fs fig name annotations fs',
    MAIN argv fs = Got (Ok (fig, name, annotations, fs')) ->
    exists s o g fs1 amplitude, parse_args (sphere_parser float) argv = Got (sphere_namespace s) /\ sphere_valid s /\
      made s fs o g fs1 /\
      compute_amplitude_for_noisy_sphere_plots inverse (option_map sv_slepian (o_solved o)) (o_L o) (o_reality o) (o_spin o)
        (o_unnoised o) = Ok amplitude /\
      PLOT (fn_of o) g (plotted s amplitude) fs1 = Ok (fig, name, annotations, fs').
  Proof.
    intros argv fs fig name ann fs' H. unfold sphere_main in H. assert (E := C80_sphere_every float argv).
    destruct (parse_args (sphere_parser float) argv) as [ns|n]; [|discriminate]. destruct E as (s & -> & V).
    cbn [obind] in H. injection H as H. rewrite run_settings in H.
    destruct (if ss_region s then _ else _) as [mask|err] eqn:Em; [|discriminate]. cbn [rbind] in H.
    destruct (choose_class (ss_function s)) as [c|err] eqn:Ec; [|discriminate]. cbn [rbind] in H.
    destruct (MAKE c _ _ _ _ _ _) as [[o fs1]|err] eqn:Mk; [|discriminate]. cbn [rbind] in H.
    destruct (match ss_convolve s with Some _ => _ | None => _ end) as [[g fs2]|err] eqn:Eg; [|discriminate]. cbn [rbind] in H.
    destruct (compute_amplitude_for_noisy_sphere_plots _ _ _ _ _ _) as [am|err] eqn:Am; [|discriminate]. cbn [rbind] in H.
    exists s, o, g, fs2, am. split; [reflexivity|]. split; [exact V|]. split; [|split; [exact Am|exact H]].
    exists c, mask, fs1. split; [symmetry; apply C40_class; exact Ec|]. split.
    { destruct (ss_region s); [|injection Em as <-; reflexivity].
      destruct (create_default_region lower to_int env) as [r|]; [|discriminate]. injection Em as <-. exists r. split; reflexivity. }
    split; [exact Mk|]. destruct (ss_convolve s) as [m|].
    - destruct (choose_map m) as [d|] eqn:Ed; [|discriminate]. cbn [rbind] in Eg.
      destruct (MAKE d _ _ _ _ _ _) as [[o' fs3]|err] eqn:Mk'; [|discriminate]. cbn [rbind] in Eg. injection Eg as <- <-.
      apply C40_map in Ed. destruct Ed as [Id Es]. exists d, o'. split; [symmetry; exact Es|].
      split; [destruct Id as [->|[->| ->]]; cbn; tauto|]. split; [exact Mk'|reflexivity].
    - injection Eg as <- <-. split; reflexivity.
  Qed.
End Sphere.
Print Assumptions C80_sphere_main.
Print Assumptions C80_sphere_figure.

Section Meshes.
  Variable load_mesh : string -> res mesh.
  Variable solver : mesh -> res mesh_slepian.
  Variable normals : mesh -> list R.
  Variable normal : Z -> nat -> R.
  Variable axisym_wav_l : Z -> nat -> Z -> list R * nat * list (list R).
  Variable jmax : Z -> nat -> Z -> Z.
  Variable fmt_e : R -> string.
  Notation MAIN := (mesh_main load_mesh solver normals normal axisym_wav_l jmax fmt_e).
  Notation COMMAND := (mesh_command solver normals normal axisym_wav_l jmax fmt_e).

  Lemma mesh_run_settings s : mesh_run load_mesh solver normals normal axisym_wav_l jmax fmt_e (mesh_namespace s)
    = let* m := load_mesh (ms_function s) in
      COMMAND (ms_function s) (ms_zoom s) m (ms_method s) (ms_extra_args s) (option_map inject_Z (ms_noise s)) (ms_region s)
        (ms_unnormalise s).
  Proof.
    destruct s as [f e m n r u z]. unfold mesh_run. change (attr_str "function" _) with (Ok f). cbn [rbind ms_function].
    change (attr_bool "zoom" _) with (Ok z). cbn [rbind ms_zoom]. destruct (load_mesh f) as [x|err]; [|reflexivity]. cbn [rbind].
    change (attr_str "method" _) with (Ok m). cbn [rbind ms_method].
    assert (Ee : attr_maybe_ints "extra_args" (mesh_namespace (Build_mesh_settings f e m n r u z)) = Ok e).
    { destruct e as [e|]; [|reflexivity]. unfold attr_maybe_ints. cbn [mesh_namespace getattr String.eqb Ascii.eqb Bool.eqb rbind ms_extra_args maybe].
      rewrite all_ints_map. reflexivity. }
    rewrite Ee. cbn [rbind ms_extra_args].
    assert (En : attr_maybe_int "noise" (mesh_namespace (Build_mesh_settings f e m n r u z)) = Ok n) by (destruct n; reflexivity).
    rewrite En. reflexivity.
  Qed.

  (** The command runs on the mesh named, as the options say. *)
Theorem C80_mesh_main : forall before after name m,
    Forall mesh_part before -> Forall mesh_part after -> In name ["bird"; "cheetah"; "cube"; "dragon"; "homer"; "teapot"] ->
    parts_open before = false -> load_mesh name = Ok m ->
    let s := fold_left mesh_set (parts_options before ++ parts_options after) (mesh_initial name) in
    MAIN (parts_words before ++ name :: parts_words after)
    = Got (COMMAND name (ms_zoom s) m (ms_method s) (ms_extra_args s) (option_map inject_Z (ms_noise s)) (ms_region s)
             (ms_unnormalise s)).
  Proof.
    intros before after name m Hb Ha Hn Ho Hm s. unfold mesh_main. rewrite C80_mesh_reads by assumption. cbn [obind].
    fold s. rewrite mesh_run_settings.
    assert (F : ms_function s = name).
    { unfold s. generalize (parts_options before ++ parts_options after). intros l.
      assert (G : forall l st, ms_function (fold_left mesh_set l st) = ms_function st).
      { clear. induction l as [|o l IH]; intros st; [reflexivity|]. cbn [fold_left]. rewrite IH. destruct st, o; reflexivity. }
      rewrite G. reflexivity. }
    rewrite F, Hm. reflexivity.
  Qed.

Theorem C80_mesh_figure : forall argv fig name, MAIN argv = Got (Ok (fig, name)) ->
    exists s m, parse_args mesh_parser argv = Got (mesh_namespace s) /\ mesh_valid s /\ load_mesh (ms_function s) = Ok m /\
      COMMAND (ms_function s) (ms_zoom s) m (ms_method s) (ms_extra_args s) (option_map inject_Z (ms_noise s)) (ms_region s)
        (ms_unnormalise s) = Ok (fig, name).
  Proof.
    intros argv fig name H. unfold mesh_main in H. assert (E := C80_mesh_every argv).
    destruct (parse_args mesh_parser argv) as [ns|n]; [|discriminate]. destruct E as (s & -> & V).
    cbn [obind] in H. injection H as H. rewrite mesh_run_settings in H.
    destruct (load_mesh (ms_function s)) as [m|] eqn:Em; [|discriminate]. cbn [rbind] in H. exists s, m. auto.
  Qed.
End Meshes.
Print Assumptions C80_mesh_main.
Print Assumptions C80_mesh_figure.

(** ** Concrete command lines *)

(** [sphere -ouL8 --meth=rotate slepian_africa -e 5 -3 --noise -10]; [-m -t abs]
    would have served as well *)
Definition case_before : list (part sphere_option) :=
  [ {| part_options := [Outline; Unnormalise] ++ [Bandlimit 8]; part_open := false; part_words := ["-ouL8"] |};
    {| part_options := [Method "rotate"]; part_open := false; part_words := ["--meth=rotate"] |} ].
Definition case_after : list (part sphere_option) :=
  [ {| part_options := [Extra_args [5; -3]%Z]; part_open := true; part_words := ["-e"; "5"; "-3"] |};
    {| part_options := [Noise (-10)]; part_open := false; part_words := ["--noise"; "-10"] |} ].

Lemma minus_3 : plain "-3".
Proof. right. exists "", "3". repeat split; [constructor|repeat constructor; cbn; tauto|discriminate|left; reflexivity]. Qed.
Lemma minus_10 : plain "-10".
Proof. right. exists "", "10". repeat split; [constructor|repeat constructor; cbn; tauto|discriminate|left; reflexivity]. Qed.

Lemma case_before_ok float : Forall (sphere_part float) case_before.
Proof.
  constructor; [|constructor; [|constructor]].
  - apply (sp_letters_value float [Outline; Unnormalise] "ou" (Bandlimit 8) "--bandlimit" "L" (says_int 8) "L8").
    + apply (one_letter Outline "--outline" "o" [Unnormalise] "u"); [constructor|].
      apply (one_letter Unnormalise "--unnormalise" "u" [] ""); constructor.
    + constructor.
    + exists "8". repeat split; discriminate.
  - apply (sp_value float (Method "rotate") "--method" "-m" (eq "rotate")).
    + constructor. cbn. tauto.
    + left. right. exists "--meth", "rotate". split; [reflexivity|]. split; [|reflexivity].
      right. right. split; [reflexivity|]. split; [reflexivity|].
      intros other H N. cbn in H. repeat (destruct H as [<-|H]; [try reflexivity; exfalso; apply N; reflexivity|]). destruct H.
Qed.
Lemma case_after_ok float : Forall (sphere_part float) case_after.
Proof.
  constructor; [|constructor; [|constructor]].
  - apply (sp_extra float [5; -3]%Z). split; [discriminate|]. exists "-e", ["5"; "-3"]. split; [reflexivity|].
    split; [right; left; reflexivity|]. split.
    + constructor; [left; discriminate|]. constructor; [exact minus_3|constructor].
    + repeat constructor.
  - apply (sp_value float (Noise (-10)) "--noise" "-n" (says_int (-10))); [constructor|].
    right. exists "--noise", "-10". split; [reflexivity|]. split; [left; reflexivity|]. split; [exact minus_10|reflexivity].
Qed.
Lemma case_named : In "slepian_africa" sphere_names.
Proof. apply str_in_In. vm_compute. reflexivity. Qed.

Example C80_reads_case float :
  parse_args (sphere_parser float) ["-ouL8"; "--meth=rotate"; "slepian_africa"; "-e"; "5"; "-3"; "--noise"; "-10"]
  = Got (sphere_namespace {|
      ss_function := "slepian_africa"; ss_alpha := 3 # 4; ss_bandlimit := 8; ss_beta := 1 # 8; ss_convolve := None;
      ss_extra_args := Some [5; -3]%Z; ss_gamma := 0; ss_method := "rotate"; ss_noise := Some (-10)%Z; ss_outline := false;
      ss_perspective := "south_america"; ss_region := false; ss_smoothing := None; ss_type := "real";
      ss_unnormalise := true; ss_unzeropad := false |}).
Proof.
  exact (C80_sphere_reads float case_before case_after "slepian_africa" (case_before_ok float) (case_after_ok float) case_named eq_refl).
Qed.

(** The same options in front of the name with the open one last: nothing runs,
    except behind two dashes. *)
Definition case_open : list (part sphere_option) :=
  case_before ++ [ {| part_options := [Extra_args [5; -3]%Z]; part_open := true; part_words := ["-e"; "5"; "-3"] |} ].
Lemma case_open_ok float : Forall (sphere_part float) case_open.
Proof.
  apply Forall_app. split; [apply case_before_ok|]. constructor; [|constructor].
  exact (Forall_inv (case_after_ok float)).
Qed.
Example C80_swallowed_case float :
  parse_args (sphere_parser float) ["-ouL8"; "--meth=rotate"; "-e"; "5"; "-3"; "slepian_africa"] = Exit 2 /\
  exists ns, parse_args (sphere_parser float) ["-ouL8"; "--meth=rotate"; "-e"; "5"; "-3"; "--"; "slepian_africa"] = Got ns.
Proof.
  split.
  - exact (proj1 (C80_swallowed_refuted float) case_open [] "slepian_africa" (case_open_ok float) (Forall_nil _) case_named eq_refl).
  - eexists. exact (proj1 (C80_dashes float) case_open "slepian_africa" (case_open_ok float) case_named).
Qed.

(** [sphere identity -L 2]: the function is made, and its field is plotted. *)
Example C80_main_case float inverse forward rotate_flms create_ylm ti pi gammaln kappas jmax normal table cl fmt_e lower to_int env
  solve land fs : exists o, o_coefficients o = [RtoC 1; RtoC 1; RtoC 1; RtoC 1] /\
  sphere_main float inverse forward rotate_flms create_ylm ti pi gammaln kappas jmax normal table cl fmt_e lower to_int env solve land
    ["identity"; "-L"; "2"] fs
  = Got (plot inverse forward rotate_flms create_ylm ti pi land (fn_of o) None
      {| pa_alpha := 3 # 4; pa_beta := 1 # 8; pa_gamma := 0; pa_annotations := true; pa_normalise := true; pa_method := "north";
         pa_type := "real"; pa_upsample := true; pa_view := "south_america"; pa_amplitude := None |} fs).
Proof.
  pose (after := [ {| part_options := [Bandlimit 2]; part_open := false; part_words := ["-L"; "2"] |} ]).
  assert (Ha : Forall (sphere_part float) after).
  { constructor; [|constructor]. apply (sp_value float (Bandlimit 2) "--bandlimit" "-L" (says_int 2)); [constructor|].
    right. exists "-L", "2". split; [reflexivity|]. split; [right; left; reflexivity|]. split; [left; discriminate|reflexivity]. }
  assert (Hn : In "identity" sphere_names) by (apply str_in_In; vm_compute; reflexivity).
  assert (M : exists o, o_coefficients o = [RtoC 1; RtoC 1; RtoC 1; RtoC 1] /\
    make_function inverse forward rotate_flms ti pi gammaln kappas jmax normal table cl fmt_e lower to_int env solve
      Identity 2 None None None None fs = Ok (o, fs) /\
    compute_amplitude_for_noisy_sphere_plots inverse (option_map sv_slepian (o_solved o)) (o_L o) (o_reality o) (o_spin o)
      (o_unnoised o) = Ok None).
  { eexists. split; [|split; [reflexivity|reflexivity]]. reflexivity. }
  destruct M as (o & Eo & Mk & Am). exists o. split; [exact Eo|].
  refine (C80_sphere_main float inverse forward rotate_flms create_ylm ti pi gammaln kappas jmax normal table cl fmt_e lower to_int env
    solve land [] after "identity" fs o None fs None (Forall_nil _) Ha Hn eq_refl _ Am).
  exists Identity, None, fs. repeat split. exact Mk.
Qed.

(** [mesh --zoom bird -m slepian_functions -e 3] *)
Definition mesh_before : list (part mesh_option) :=
  [ {| part_options := [MZoom]; part_open := false; part_words := ["--zoom"] |} ].
Definition mesh_after : list (part mesh_option) :=
  [ {| part_options := [MMethod "slepian_functions"]; part_open := false; part_words := ["-m"; "slepian_functions"] |};
    {| part_options := [MExtra_args [3%Z]]; part_open := true; part_words := ["-e"; "3"] |} ].
Example C80_mesh_case :
  parse_args mesh_parser ["--zoom"; "bird"; "-m"; "slepian_functions"; "-e"; "3"]
  = Got (mesh_namespace {| ms_function := "bird"; ms_extra_args := Some [3%Z]; ms_method := "slepian_functions"; ms_noise := None;
      ms_region := false; ms_unnormalise := false; ms_zoom := true |}).
Proof.
  apply (C80_mesh_reads mesh_before mesh_after "bird"); [| |cbn; tauto|reflexivity].
  - constructor; [|constructor]. apply (mp_flag MZoom "--zoom" "z"); [constructor|]. exists "--zoom". split; [reflexivity|left; reflexivity].
  - constructor; [|constructor; [|constructor]].
    + apply (mp_value (MMethod "slepian_functions") "--method" "-m" (eq "slepian_functions")); [constructor; cbn; tauto|].
      right. exists "-m", "slepian_functions". split; [reflexivity|]. split; [right; left; reflexivity|]. split; [left; discriminate|reflexivity].
    + apply (mp_extra [3%Z]). split; [discriminate|]. exists "-e", ["3"]. split; [reflexivity|]. split; [right; left; reflexivity|].
      split; [constructor; [left; discriminate|constructor]|repeat constructor].
Qed.

(** Accepted and refused lines *)
Example C80_every_case : exists s, parse_args mesh_parser ["-rz"; "teapot"] = Got (mesh_namespace s) /\
  parse_args mesh_parser ["-rx"; "teapot"] = Exit 2 /\ parse_args mesh_parser ["--h"; "teapot"] = Exit 0 /\
  parse_args mesh_parser ["tea"] = Exit 2 /\ parse_args mesh_parser ["-m"; "--"; "teapot"; "cube"] = Exit 2.
Proof.
  exists {| ms_function := "teapot"; ms_extra_args := None; ms_method := "basis_functions"; ms_noise := None;
      ms_region := true; ms_unnormalise := false; ms_zoom := true |}. repeat split; vm_compute; reflexivity.
Qed.
