(** * Lemmas about the two commands. *)
From Coq Require Import List ZArith QArith Bool Lia String Ascii.
From Verif Require Import Base PyNum Names Argparse Commands SpecCommands ArgparseProofs.
Import ListNotations.
Local Open Scope string_scope.
Local Open Scope list_scope.

Ltac known :=
  match goal with
  | |- In _ _ => cbn; tauto
  | |- _ <> _ => discriminate
  | |- _ = _ => reflexivity
  end.

(** What is needed of an option to read its parts *)
Definition option_is (p : parser) (longs : list string) (long : string) (c : ascii) (a : action) : Prop :=
  find_option p long = Some a /\ find_option p (String "-" (String c "")) = Some a /\ In long longs /\
  c <> "-"%char /\ c <> "="%char.

(** ** The sphere *)

Definition sphere_ns (f : value) (s : sphere_settings) : namespace := ("function", f) :: tl (sphere_namespace s).
Definition mesh_ns (f : value) (s : mesh_settings) : namespace := ("function", f) :: tl (mesh_namespace s).

Ltac well_named_tac :=
  split;
  [ intros o H; cbn in H;
    repeat (destruct H as [<-|H];
      [first [left; cbn; tauto | right; eexists; split; [reflexivity|]; repeat split; try discriminate]|]); destruct H
  | intros o H; cbn in H;
    repeat (destruct H as [<-|H]; [split; [cbn; tauto|]; split; [reflexivity|]; do 2 eexists; reflexivity|]); destruct H
  | cbn; repeat (constructor; [intros X; cbn in X; repeat (destruct X as [X|X]; [discriminate X|]); exact X|]); constructor
  | intros l; destruct (string_dec l "--help") as [->|N];
    [exists "--version"; split; [cbn; tauto|discriminate] | exists "--help"; split; [cbn; tauto|congruence]] ].

Lemma sphere_well_named flt : well_named (sphere_parser flt) sphere_longs.
Proof. well_named_tac. Qed.
Lemma mesh_well_named : well_named mesh_parser mesh_longs.
Proof. well_named_tac. Qed.

Section Sphere.
  Variable flt : string -> option Q.
  Notation p := (sphere_parser flt).
  Let W := sphere_well_named flt.

  Lemma sphere_valued_is o long short says : sphere_valued flt o long short says -> exists a c,
    short = String "-" (String c "") /\ option_is p sphere_longs long c a /\
    (a_arity a = One \/ exists d, a_arity a = At_most_one d) /\
    forall t f s, says t -> take_action a [t] (sphere_ns f s) = Got (sphere_ns f (sphere_set s o)).
  Proof.
    intros H; destruct H; do 2 eexists; (split; [reflexivity|]); (split; [repeat split; known|]);
      (split; [first [left; reflexivity|right; eexists; reflexivity]|]); intros txt f s Sy;
      unfold says_float, says_int in *;
      try (unfold take_action, convert, one_action, as_float, as_int; cbn [a_doing a_arity a_type a_choices a_dest];
           rewrite Sy; cbn [option_map obind]; destruct s; reflexivity);
      subst txt; repeat (destruct H as [<-|H]; [destruct s; reflexivity|]); destruct H.
  Qed.

  Lemma sphere_flag_is o long letter : sphere_flag o long letter -> exists a c,
    letter = String c "" /\ option_is p sphere_longs long c a /\ a_arity a = Nothing /\
    forall f s, take_action a [] (sphere_ns f s) = Got (sphere_ns f (sphere_set s o)).
  Proof.
    intros H; destruct H; do 2 eexists; (split; [reflexivity|]); (split; [repeat split; known|]);
      (split; [reflexivity|]); intros f s; destruct s; reflexivity.
  Qed.

  Lemma sphere_bare_is o long short : sphere_bare o long short -> exists a c,
    short = String "-" (String c "") /\ option_is p sphere_longs long c a /\ (exists d, a_arity a = At_most_one d) /\
    forall f s, take_action a [] (sphere_ns f s) = Got (sphere_ns f (sphere_set s o)).
  Proof.
    intros H; destruct H; do 2 eexists; (split; [reflexivity|]); (split; [repeat split; known|]);
      (split; [eexists; reflexivity|]); intros f s; destruct s; reflexivity.
  Qed.

  Lemma extra_is : option_is p sphere_longs "--extra_args" "e" extra_args_action.
  Proof. repeat split; known. Qed.

  Lemma convert_ints zs ts : Forall2 says_int zs ts -> convert_all extra_args_action ts = Got (map VInt zs).
  Proof.
    induction 1 as [|z t zs ts Hz _ IH]; [reflexivity|]. cbn [convert_all map]. unfold convert, extra_args_action at 1, as_int.
    cbn [a_type a_choices]. unfold says_int in Hz. rewrite Hz. cbn [option_map extra_args_action a_choices obind]. rewrite IH. reflexivity.
  Qed.
  Lemma extra_takes zs ts f s : Forall2 says_int zs ts -> ts <> [] ->
    take_action extra_args_action ts (sphere_ns f s) = Got (sphere_ns f (sphere_set s (Extra_args zs))).
  Proof.
    intros H _. unfold take_action. cbn [extra_args_action a_doing a_arity]. rewrite (convert_ints zs ts H). cbn [obind].
    destruct s; reflexivity.
  Qed.

  Lemma sphere_letters_are os s : sphere_letters os s -> exists l, letters_of l = s /\ Forall (flag_letter p) l /\
    (os <> [] -> l <> []) /\
    forall f st, take_actions (map (fun x => (fst x, [])) l) (sphere_ns f st) = Got (sphere_ns f (fold_left sphere_set os st)).
  Proof.
    induction 1 as [|o long letter os s Hf Hl (l & El & Fl & _ & Rl)].
    - exists []. repeat split; auto.
    - destruct (sphere_flag_is o long letter Hf) as (a & c & -> & (F1 & F2 & _ & N1 & N2) & A & T).
      exists ((a, c) :: l). split; [unfold letters_of in *; cbn; rewrite El; reflexivity|].
      split; [constructor; [repeat split; assumption|exact Fl]|]. split; [discriminate|].
      intros f st. cbn [map fst take_actions]. rewrite T. cbn [obind fold_left]. apply Rl.
  Qed.

  Lemma sphere_part_reads pt : sphere_part flt pt -> exists acts, reads p (part_words pt) acts (part_open pt) /\
    forall f s, take_actions acts (sphere_ns f s) = Got (sphere_ns f (fold_left sphere_set (part_options pt) s)).
  Proof.
    intros H. destruct H as [o long short says ws V H|o long short ws V H|o long letter ws V H|z ws H|zs ws H|os s Ne Hl|os s o long short says t Hl V (u & E & Nu & Eu & Su)];
      cbn [part_words part_options part_open fold_left].
    - destruct (sphere_valued_is _ _ _ _ V) as (a & c & -> & (F1 & F2 & I & N1 & N2) & A & T).
      destruct (part_value p sphere_longs W a long c F1 F2 I N1 says ws A H) as (t & St & R).
      exists [(a, [t])]. split; [exact R|]. intros f s. cbn [take_actions]. rewrite (T t f s St). reflexivity.
    - destruct (sphere_bare_is _ _ _ V) as (a & c & -> & (F1 & F2 & I & N1 & N2) & A & T).
      exists [(a, [])]. split; [apply (part_bare p sphere_longs W a long c F1 F2 I ws A H)|].
      intros f s. cbn [take_actions]. rewrite (T f s). reflexivity.
    - destruct (sphere_flag_is _ _ _ V) as (a & c & -> & (F1 & F2 & I & N1 & N2) & A & T).
      exists [(a, [])]. split; [apply (part_flag p sphere_longs W a long c F1 F2 I ws A H)|].
      intros f s. cbn [take_actions]. rewrite (T f s). reflexivity.
    - destruct extra_is as (F1 & F2 & I & N1 & N2).
      destruct (part_inside p sphere_longs W _ _ _ F1 F2 I N1 (says_int z) ws ltac:(discriminate) H) as (t & St & R).
      exists [(extra_args_action, [t])]. split; [exact R|]. intros f s. cbn [take_actions].
      rewrite (extra_takes [z] [t] f s); [reflexivity|repeat constructor; exact St|discriminate].
    - destruct extra_is as (F1 & F2 & I & N1 & N2).
      destruct (part_values p sphere_longs W _ _ _ F1 F2 I says_int zs ws eq_refl H) as (ts & St & Nt & R).
      exists [(extra_args_action, ts)]. split; [exact R|]. intros f s. cbn [take_actions].
      rewrite (extra_takes zs ts f s St Nt). reflexivity.
    - destruct (sphere_letters_are os s Hl) as (l & El & Fl & Nl & Rl). exists (map (fun x => (fst x, [])) l). split; [|exact Rl].
      rewrite <- El. apply (part_letters p sphere_longs W l (Nl Ne) Fl).
    - destruct (sphere_letters_are os s Hl) as (l & El & Fl & _ & Rl).
      destruct (sphere_valued_is _ _ _ _ V) as (a & c & Ec & (F1 & F2 & I & N1 & N2) & A & T).
      cbn [append] in Ec. injection Ec as ->. exists (map (fun x => (fst x, [])) l ++ [(a, [u])]). split.
      + rewrite E, <- El. cbn [append]. apply (part_letters_value p sphere_longs W l a c u Fl F2); try assumption.
        destruct A as [->|[d ->]]; discriminate.
      + intros f st. rewrite take_actions_app, Rl. cbn [obind take_actions]. rewrite (T u f _ Su). cbn [obind].
        rewrite fold_left_app. reflexivity.
  Qed.

  Lemma sphere_parts_read l : Forall (sphere_part flt) l -> exists r, reads_all p r /\
    flat_map (fun x => fst (fst x)) r = parts_words l /\ last (map snd r) false = parts_open l /\
    forall f s, take_actions (flat_map (fun x => snd (fst x)) r) (sphere_ns f s)
                = Got (sphere_ns f (fold_left sphere_set (parts_options l) s)).
  Proof.
    intros H.
    assert (exists r, reads_all p r /\ map (fun x => fst (fst x)) r = map part_words l /\ map snd r = map part_open l /\
      forall f s, take_actions (flat_map (fun x => snd (fst x)) r) (sphere_ns f s)
                = Got (sphere_ns f (fold_left sphere_set (parts_options l) s))) as (r & Ra & Rw & Ro & Rt).
    { induction H as [|pt l Hp _ (r & Ra & Rw & Ro & Rt)]; [exists []; repeat split; constructor|].
      destruct (sphere_part_reads pt Hp) as (acts & R & T). exists ((part_words pt, acts, part_open pt) :: r). split; [constructor; assumption|].
      cbn [map fst snd]. split; [rewrite Rw; reflexivity|]. split; [rewrite Ro; reflexivity|].
      intros f s. cbn [flat_map fst snd]. rewrite take_actions_app, T. cbn [obind]. rewrite Rt.
      unfold parts_options. cbn [flat_map]. rewrite fold_left_app. reflexivity. }
    exists r. split; [exact Ra|]. split; [|split; [|exact Rt]].
    - unfold parts_words. rewrite !flat_map_concat_map, Rw. reflexivity.
    - unfold parts_open. rewrite Ro. reflexivity.
  Qed.

  Lemma sphere_defaults name : defaults p = sphere_ns VNone (sphere_initial name).
  Proof. reflexivity. Qed.

  Lemma sphere_name_taken name s : In name sphere_names ->
    take_action (p_positional p) [name] (sphere_ns VNone s) = Got (sphere_ns (VStr name) s).
  Proof.
    intros H. apply str_in_In in H. unfold take_action. cbn [sphere_parser p_positional a_doing a_arity].
    unfold convert, as_name. cbn [a_type a_choices]. unfold valid_plotting, valid_name. rewrite H. cbv iota. rewrite H.
    cbn [obind a_dest]. destruct s; reflexivity.
  Qed.
  Lemma sphere_name_plain name : In name sphere_names -> parse_optional p name = Got Arg /\ name <> "--".
  Proof.
    intros H. apply (plain_word p sphere_longs W). left. intros u ->.
    assert (F : forallb (fun n => match n with String "-" _ => false | _ => true end) sphere_names = true) by (vm_compute; reflexivity).
    rewrite forallb_forall in F. specialize (F _ H). discriminate F.
  Qed.
  Lemma sphere_function_kept name l : forall s, ss_function s = name -> sphere_ns (VStr name) (fold_left sphere_set l s) = sphere_namespace (fold_left sphere_set l s).
  Proof.
    induction l as [|o l IH]; intros s H; cbn [fold_left].
    - rewrite <- H. reflexivity.
    - apply IH. rewrite <- H. destruct s, o; reflexivity.
  Qed.

  Lemma sphere_reads before after name : Forall (sphere_part flt) before -> Forall (sphere_part flt) after ->
    In name sphere_names -> parts_open before = false ->
    parse_args p (parts_words before ++ name :: parts_words after)
    = Got (sphere_namespace (fold_left sphere_set (parts_options before ++ parts_options after) (sphere_initial name))).
  Proof.
    intros Hb Ha Hn Ho. destruct (sphere_parts_read before Hb) as (rb & Rb & Wb & Ob & Tb).
    destruct (sphere_parts_read after Ha) as (ra & Ra & Wa & _ & Ta). rewrite <- Wb, <- Wa.
    destruct (sphere_name_plain name Hn) as [Pn Nn].
    rewrite parse_line; [|assumption|assumption|assumption|assumption|congruence].
    rewrite (sphere_defaults name), Tb. cbn [obind]. rewrite sphere_name_taken by exact Hn. cbn [obind]. rewrite Ta.
    rewrite <- fold_left_app. rewrite sphere_function_kept by reflexivity. reflexivity.
  Qed.

  Lemma sphere_reads_dashes before name : Forall (sphere_part flt) before -> In name sphere_names ->
    parse_args p (parts_words before ++ ["--"; name])
    = Got (sphere_namespace (fold_left sphere_set (parts_options before) (sphere_initial name))).
  Proof.
    intros Hb Hn. destruct (sphere_parts_read before Hb) as (rb & Rb & Wb & Ob & Tb). rewrite <- Wb.
    rewrite parse_line_dashes by assumption. rewrite (sphere_defaults name), Tb. cbn [obind].
    rewrite sphere_name_taken by exact Hn. rewrite sphere_function_kept by reflexivity. reflexivity.
  Qed.

  Lemma sphere_reads_missing before : Forall (sphere_part flt) before -> parse_args p (parts_words before) = Exit 2.
  Proof.
    intros Hb. destruct (sphere_parts_read before Hb) as (rb & Rb & Wb & Ob & Tb). rewrite <- Wb.
    rewrite (parse_line_missing p rb Rb), (sphere_defaults ""), Tb. reflexivity.
  Qed.

  (** Help *)
  Lemma sphere_reads_help before w : Forall (sphere_part flt) before -> In w ["-h"; "--help"; "-v"; "--version"] ->
    parse_args p (parts_words before ++ [w]) = Exit 0.
  Proof.
    intros Hb Hw. destruct (sphere_parts_read before Hb) as (rb & Rb & Wb & Ob & Tb). rewrite <- Wb.
    assert (exists a, reads p [w] [(a, [])] false /\ a_doing a = Leave) as (a & R & D).
    { cbn in Hw. destruct Hw as [<-|[<-|[<-|[<-|[]]]]]; eexists; (split; [eapply reads_flag; [discriminate|reflexivity|reflexivity]|reflexivity]). }
    assert (Ra : reads_all p (rb ++ [([w], [(a, [])], false)])) by (apply Forall_app; split; [exact Rb|repeat constructor; exact R]).
    assert (X := parse_line_missing p _ Ra). rewrite !flat_map_app in X. cbn [flat_map fst snd app] in X. rewrite X.
    rewrite take_actions_app, (sphere_defaults ""), Tb. cbn [obind take_actions]. unfold take_action. rewrite D. reflexivity.
  Qed.

  (** A name after an option that takes it for its value *)
  Lemma sphere_bare_takes o long short : sphere_bare o long short -> exists a c,
    short = String "-" (String c "") /\ option_is p sphere_longs long c a /\ (exists d, a_arity a = At_most_one d) /\
    forall name f s, take_action a [name] (sphere_ns f s) = Exit 2 \/
      exists s', take_action a [name] (sphere_ns f s) = Got (sphere_ns f s').
  Proof.
    intros H; destruct H; do 2 eexists; (split; [reflexivity|]); (split; [repeat split; known|]);
      (split; [eexists; reflexivity|]); intros name f s; unfold take_action, maybe_action; cbn [a_doing a_arity];
      unfold convert, as_str; cbn [a_type a_choices];
      (match goal with |- context [str_in name ?l] => destruct (str_in name l) end; [right|left; reflexivity]; cbn [obind a_dest]).
    - exists (sphere_set s (Method name)). destruct s; reflexivity.
    - exists (sphere_set s (Perspective name)). destruct s; reflexivity.
    - exists (sphere_set s (Type_ name)). destruct s; reflexivity.
  Qed.
  Lemma sphere_name_no_int name : In name sphere_names -> py_int name = None.
  Proof.
    intros H. assert (F : forallb (fun n => match py_int n with None => true | Some _ => false end) sphere_names = true) by (vm_compute; reflexivity).
    rewrite forallb_forall in F. specialize (F _ H). destruct (py_int name); [discriminate|reflexivity].
  Qed.

  Lemma sphere_swallowed before after name : Forall (sphere_part flt) before -> Forall (sphere_part flt) after ->
    In name sphere_names -> parts_open before = true ->
    parse_args p (parts_words before ++ name :: parts_words after) = Exit 2.
  Proof.
    intros Hb Ha Hn Ho.
    assert (exists b0 pt, before = b0 ++ [pt] /\ part_open pt = true) as (b0 & pt & -> & Op).
    { unfold parts_open in Ho. destruct (exists_last (l := before)) as (b0 & pt & ->); [intros ->; discriminate|].
      exists b0, pt. split; [reflexivity|]. rewrite map_app in Ho. cbn [map] in Ho. rewrite last_last in Ho. exact Ho. }
    apply Forall_app in Hb. destruct Hb as [Hb Hp]. inversion Hp as [|? ? Hpt _]; subst.
    destruct (sphere_parts_read b0 Hb) as (rb & Rb & Wb & Ob & Tb).
    destruct (sphere_parts_read after Ha) as (ra & Ra & Wa & _ & Ta).
    destruct (sphere_name_plain name Hn) as [Pn Nn].
    assert (exists a args b, reads p (part_words pt ++ [name]) [(a, args)] b /\
              forall f s, take_action a args (sphere_ns f s) = Exit 2 \/ exists s', take_action a args (sphere_ns f s) = Got (sphere_ns f s'))
      as (a & args & b & R & T).
    { destruct Hpt as [o long short says ws V H|o long short ws V H|o long letter ws V H|z ws H|zs ws H|os s Ne Hl|os s o long short says t Hl V (u & E & Nu & Eu & Su)];
        cbn [part_open] in Op; try discriminate; cbn [part_words].
      - destruct (sphere_bare_takes _ _ _ V) as (a & c & -> & (F1 & F2 & I & N1 & N2) & A & T). destruct H as (o' & -> & No).
        destruct (name_word p sphere_longs W a long _ o' F1 F2 I No) as (D & [o'' P] & _).
        exists a, [name], false. split; [|apply T]. apply (reads_apart p o' a o'' name); auto.
      - destruct extra_is as (F1 & F2 & I & N1 & N2). destruct H as (Nx & o' & ts & -> & No & Pt & Sy).
        destruct (name_word p sphere_longs W _ _ _ o' F1 F2 I No) as (D & [o'' P] & _). rewrite Forall_forall in Pt.
        exists extra_args_action, (ts ++ [name]), true. split.
        + cbn [app]. apply (reads_many p o' extra_args_action o'' (ts ++ [name])); auto.
          * destruct ts; discriminate.
          * intros X. apply in_app_iff in X. destruct X as [X|[X|[]]]; [|congruence].
            apply (plain_word p sphere_longs W _ (Pt _ X)). reflexivity.
          * intros t X. apply in_app_iff in X. destruct X as [X|[<-|[]]]; [|exact Pn].
            apply (plain_word p sphere_longs W). apply Pt. exact X.
        + intros f s. left. unfold take_action. cbn [extra_args_action a_doing a_arity].
          assert (E : convert_all extra_args_action (ts ++ [name]) = Exit 2).
          { clear -Sy Hn. induction Sy as [|z t zs ts Hz _ IH].
            - cbn [app convert_all]. unfold convert, extra_args_action at 1, as_int. cbn [a_type].
              rewrite (sphere_name_no_int name Hn). reflexivity.
            - cbn [app convert_all]. unfold convert, extra_args_action at 1, as_int. cbn [a_type]. unfold says_int in Hz. rewrite Hz.
              cbn [option_map extra_args_action a_choices obind]. rewrite IH. reflexivity. }
          fold extra_args_action. rewrite E. reflexivity. }
    assert (All : reads_all p (rb ++ [(part_words pt ++ [name], [(a, args)], b)] ++ ra)).
    { apply Forall_app. split; [exact Rb|]. constructor; [exact R|exact Ra]. }
    assert (X := parse_line_missing p _ All). rewrite !flat_map_app in X. cbn [flat_map fst snd app] in X.
    assert (Wd : parts_words (b0 ++ [pt]) ++ name :: parts_words after
                 = flat_map (fun x => fst (fst x)) rb ++ ((part_words pt ++ [name]) ++ []) ++ flat_map (fun x => fst (fst x)) ra).
    { unfold parts_words at 1. rewrite flat_map_app. cbn [flat_map]. rewrite app_nil_r. rewrite Wb, Wa. unfold parts_words.
      rewrite app_nil_r. rewrite <- !app_assoc. reflexivity. }
    rewrite Wd. rewrite X. rewrite take_actions_app, (sphere_defaults ""), Tb. cbn [obind take_actions].
    match goal with |- context [sphere_ns VNone ?s] => destruct (T VNone s) as [E|[s' E]] end; rewrite E; cbn [obind].
    - reflexivity.
    - rewrite Ta. reflexivity.
  Qed.

  (** Every accepted line *)
  Definition sphere_fits (s : sphere_settings) : Prop :=
    (forall c, ss_convolve s = Some c -> In c ["earth"; "south_america"; "wmap"]) /\
    ss_extra_args s <> Some [] /\
    In (ss_method s) ["north"; "rotate"; "translate"] /\
    In (ss_perspective s) ["africa"; "south_america"] /\
    In (ss_type s) ["abs"; "real"; "imag"; "sum"].
  Definition sphere_state (pending : bool) (ns : namespace) : Prop :=
    exists f s, ns = sphere_ns f s /\ sphere_fits s /\ (pending = false -> f = VStr (ss_function s) /\ In (ss_function s) sphere_names).

  Lemma as_name_str check t v : as_name check t = Some v -> exists u, v = VStr u.
  Proof. unfold as_name. destruct (check t) as [u|]; intros H; [injection H as <-; eauto|discriminate]. Qed.

  Lemma convert_ints_back ts vs : Forall2 (fun s v => a_type extra_args_action s = Some v) ts vs -> exists zs, vs = map VInt zs /\ Forall2 says_int zs ts.
  Proof.
    induction 1 as [|t v ts vs Ht _ (zs & -> & Hz)]; [exists []; split; [reflexivity|constructor]|].
    cbn in Ht. unfold as_int in Ht. destruct (py_int t) as [z|] eqn:E; [|discriminate]. injection Ht as <-. exists (z :: zs).
    split; [reflexivity|]. constructor; assumption.
  Qed.

  Lemma keeps pending f s o : sphere_fits (sphere_set s o) -> (pending = false -> f = VStr (ss_function s) /\ In (ss_function s) sphere_names) ->
    sphere_state pending (sphere_ns f (sphere_set s o)).
  Proof. intros H Hp. exists f, (sphere_set s o). split; [reflexivity|]. split; [exact H|]. destruct s, o; exact Hp. Qed.

  Lemma sphere_state_kept a args ns b : In a (p_options p) -> counted a args -> sphere_state b ns ->
    fine (sphere_state b) (take_action a args ns).
  Proof.
    intros Ia Ca (f & s & -> & (Fc & Fe & Fm & Fp & Ft) & Hp). cbn [p_options sphere_parser In] in Ia.
    assert (K : forall o ns, sphere_fits (sphere_set s o) -> ns = sphere_ns f (sphere_set s o) -> fine (sphere_state b) (Got ns)).
    { intros o ns Ho ->. apply keeps; assumption. }
    assert (F1 : forall o, (forall q, o q = Alpha q) \/ (forall q, o q = Beta q) \/ (forall q, o q = Gamma q) -> forall q, sphere_fits (sphere_set s (o q))).
    { intros o Ho q. destruct Ho as [Ho|[Ho|Ho]]; rewrite Ho; destruct s; repeat split; assumption. }
    repeat (destruct Ia as [<-|Ia]; [|]); try destruct Ia; cbn in Ca.
    - left; reflexivity.
    - destruct Ca as [t ->]. unfold take_action, one_action, convert, as_float. cbn [a_doing a_arity a_type a_choices a_dest].
      destruct (flt t) as [q|]; cbn [option_map obind]; [|right; reflexivity]. apply (K (Alpha q)); [|destruct s; reflexivity]. apply F1. auto.
    - destruct Ca as [t ->]. unfold take_action, one_action, convert, as_int. cbn [a_doing a_arity a_type a_choices a_dest].
      destruct (py_int t) as [q|]; cbn [option_map obind]; [|right; reflexivity]. apply (K (Bandlimit q)); [|destruct s; reflexivity].
      destruct s; repeat split; assumption.
    - destruct Ca as [t ->]. unfold take_action, one_action, convert, as_float. cbn [a_doing a_arity a_type a_choices a_dest].
      destruct (flt t) as [q|]; cbn [option_map obind]; [|right; reflexivity]. apply (K (Beta q)); [|destruct s; reflexivity]. apply F1. auto.
    - destruct Ca as [t ->]. unfold take_action. cbn [one_action a_doing a_arity].
      assert (X := convert_fine (one_action "--convolve" "-c" "convolve" (as_name valid_maps) (Some map_names) VNone) t).
      apply (fine_bind _ _ _ _ X). intros v [_ Hv]. destruct (Hv _ eq_refl) as (m & -> & Im).
      apply (K (Convolve m)); [|destruct s; reflexivity]. destruct s; repeat split; try assumption. intros c E. cbn in E. injection E as <-. exact Im.
    - unfold take_action. cbn [extra_args_action a_doing a_arity].
      apply (fine_bind _ _ _ _ (convert_all_fine extra_args_action args)). intros vs Hv.
      destruct (convert_ints_back _ _ Hv) as (zs & -> & Hz).
      apply (K (Extra_args zs)); [|destruct s; reflexivity]. destruct s; repeat split; try assumption. cbn. intros E. injection E as ->.
      inversion Hz; subst. apply Ca. reflexivity.
    - destruct Ca as [t ->]. unfold take_action, one_action, convert, as_float. cbn [a_doing a_arity a_type a_choices a_dest].
      destruct (flt t) as [q|]; cbn [option_map obind]; [|right; reflexivity]. apply (K (Gamma q)); [|destruct s; reflexivity]. apply F1. auto.
    - unfold take_action. cbn [maybe_action a_doing a_arity]. destruct Ca as [->|[t ->]].
      + apply (K (Method "north")); [|destruct s; reflexivity]. destruct s; repeat split; try assumption. cbn; tauto.
      + assert (X := convert_fine (maybe_action "--method" "-m" "method" as_str ["north"; "rotate"; "translate"] "north") t).
        apply (fine_bind _ _ _ _ X). intros v [_ Hv]. destruct (Hv _ eq_refl) as (m & -> & Im).
        apply (K (Method m)); [|destruct s; reflexivity]. destruct s; repeat split; try assumption.
    - destruct Ca as [t ->]. unfold take_action, one_action, convert, as_int. cbn [a_doing a_arity a_type a_choices a_dest].
      destruct (py_int t) as [q|]; cbn [option_map obind]; [|right; reflexivity]. apply (K (Noise q)); [|destruct s; reflexivity].
      destruct s; repeat split; assumption.
    - apply (K Outline); [|destruct s; reflexivity]. destruct s; repeat split; assumption.
    - unfold take_action. cbn [maybe_action a_doing a_arity]. destruct Ca as [->|[t ->]].
      + apply (K (Perspective "south_america")); [|destruct s; reflexivity]. destruct s; repeat split; try assumption. cbn; tauto.
      + assert (X := convert_fine (maybe_action "--perspective" "-p" "perspective" as_str ["africa"; "south_america"] "south_america") t).
        apply (fine_bind _ _ _ _ X). intros v [_ Hv]. destruct (Hv _ eq_refl) as (m & -> & Im).
        apply (K (Perspective m)); [|destruct s; reflexivity]. destruct s; repeat split; try assumption.
    - apply (K Masked); [|destruct s; reflexivity]. destruct s; repeat split; assumption.
    - destruct Ca as [t ->]. unfold take_action, one_action, convert, as_int. cbn [a_doing a_arity a_type a_choices a_dest].
      destruct (py_int t) as [q|]; cbn [option_map obind]; [|right; reflexivity]. apply (K (Smoothing q)); [|destruct s; reflexivity].
      destruct s; repeat split; assumption.
    - unfold take_action. cbn [maybe_action a_doing a_arity]. destruct Ca as [->|[t ->]].
      + apply (K (Type_ "real")); [|destruct s; reflexivity]. destruct s; repeat split; try assumption. cbn; tauto.
      + assert (X := convert_fine (maybe_action "--type" "-t" "type" as_str ["abs"; "real"; "imag"; "sum"] "real") t).
        apply (fine_bind _ _ _ _ X). intros v [_ Hv]. destruct (Hv _ eq_refl) as (m & -> & Im).
        apply (K (Type_ m)); [|destruct s; reflexivity]. destruct s; repeat split; try assumption.
    - apply (K Unnormalise); [|destruct s; reflexivity]. destruct s; repeat split; assumption.
    - apply (K Unzeropad); [|destruct s; reflexivity]. destruct s; repeat split; assumption.
    - left; reflexivity.
  Qed.

  Definition with_function (name : string) (s : sphere_settings) : sphere_settings :=
    {| ss_function := name; ss_alpha := ss_alpha s; ss_bandlimit := ss_bandlimit s; ss_beta := ss_beta s;
       ss_convolve := ss_convolve s; ss_extra_args := ss_extra_args s; ss_gamma := ss_gamma s; ss_method := ss_method s;
       ss_noise := ss_noise s; ss_outline := ss_outline s; ss_perspective := ss_perspective s; ss_region := ss_region s;
       ss_smoothing := ss_smoothing s; ss_type := ss_type s; ss_unnormalise := ss_unnormalise s; ss_unzeropad := ss_unzeropad s |}.

  Lemma sphere_outcome argv : fine (fun ns => exists s, ns = sphere_namespace s /\ sphere_valid s) (parse_args p argv).
  Proof.
    assert (F : fine (sphere_state false) (parse_args p argv)).
    { apply (parse_args_fine p sphere_state).
      - intros a args ns b Ia Ca Hn. apply sphere_state_kept; assumption.
      - intros t ns (f & s & -> & Fit & _). unfold take_action. cbn [sphere_parser p_positional a_doing a_arity].
        apply (fine_bind _ _ _ _ (convert_fine _ t)). intros v [_ Hv]. destruct (Hv _ eq_refl) as (name & -> & In).
        exists (VStr name), (with_function name s). split; [reflexivity|]. split; [exact Fit|]. auto.
      - exists VNone, (sphere_initial ""). split; [reflexivity|]. split; [|discriminate]. repeat split; cbn; try tauto; discriminate. }
    destruct (parse_args p argv) as [ns|n]; [|exact F]. destruct F as (f & s & -> & Fit & Hf). destruct (Hf eq_refl) as [-> Hn].
    exists s. split; [reflexivity|]. split; [exact Hn|exact Fit].
  Qed.
End Sphere.

(** ** Meshes *)

Section Meshes.
  Notation p := mesh_parser.
  Let W := mesh_well_named.

  Lemma mesh_valued_is o long short says : mesh_valued o long short says -> exists a c,
    short = String "-" (String c "") /\ option_is p mesh_longs long c a /\
    (a_arity a = One \/ exists d, a_arity a = At_most_one d) /\
    forall t f s, says t -> take_action a [t] (mesh_ns f s) = Got (mesh_ns f (mesh_set s o)).
  Proof.
    intros H; destruct H; do 2 eexists; (split; [reflexivity|]); (split; [repeat split; known|]);
      (split; [first [left; reflexivity|right; eexists; reflexivity]|]); intros txt f s Sy;
      unfold says_float, says_int in *;
      try (unfold take_action, convert, one_action, as_float, as_int; cbn [a_doing a_arity a_type a_choices a_dest];
           rewrite Sy; cbn [option_map obind]; destruct s; reflexivity);
      subst txt; repeat (destruct H as [<-|H]; [destruct s; reflexivity|]); destruct H.
  Qed.

  Lemma mesh_flag_is o long letter : mesh_flag o long letter -> exists a c,
    letter = String c "" /\ option_is p mesh_longs long c a /\ a_arity a = Nothing /\
    forall f s, take_action a [] (mesh_ns f s) = Got (mesh_ns f (mesh_set s o)).
  Proof.
    intros H; destruct H; do 2 eexists; (split; [reflexivity|]); (split; [repeat split; known|]);
      (split; [reflexivity|]); intros f s; destruct s; reflexivity.
  Qed.

  Lemma mesh_bare_is o long short : mesh_bare o long short -> exists a c,
    short = String "-" (String c "") /\ option_is p mesh_longs long c a /\ (exists d, a_arity a = At_most_one d) /\
    forall f s, take_action a [] (mesh_ns f s) = Got (mesh_ns f (mesh_set s o)).
  Proof.
    intros H; destruct H; do 2 eexists; (split; [reflexivity|]); (split; [repeat split; known|]);
      (split; [eexists; reflexivity|]); intros f s; destruct s; reflexivity.
  Qed.

  Lemma mesh_extra_is : option_is p mesh_longs "--extra_args" "e" extra_args_action.
  Proof. repeat split; known. Qed.

  Lemma mesh_extra_takes zs ts f s : Forall2 says_int zs ts -> ts <> [] ->
    take_action extra_args_action ts (mesh_ns f s) = Got (mesh_ns f (mesh_set s (MExtra_args zs))).
  Proof.
    intros H _. unfold take_action. cbn [extra_args_action a_doing a_arity]. rewrite (convert_ints zs ts H). cbn [obind].
    destruct s; reflexivity.
  Qed.

  Lemma mesh_letters_are os s : mesh_letters os s -> exists l, letters_of l = s /\ Forall (flag_letter p) l /\
    (os <> [] -> l <> []) /\
    forall f st, take_actions (map (fun x => (fst x, [])) l) (mesh_ns f st) = Got (mesh_ns f (fold_left mesh_set os st)).
  Proof.
    induction 1 as [|o long letter os s Hf Hl (l & El & Fl & _ & Rl)].
    - exists []. repeat split; auto.
    - destruct (mesh_flag_is o long letter Hf) as (a & c & -> & (F1 & F2 & _ & N1 & N2) & A & T).
      exists ((a, c) :: l). split; [unfold letters_of in *; cbn; rewrite El; reflexivity|].
      split; [constructor; [repeat split; assumption|exact Fl]|]. split; [discriminate|].
      intros f st. cbn [map fst take_actions]. rewrite T. cbn [obind fold_left]. apply Rl.
  Qed.

  Lemma mesh_part_reads pt : mesh_part pt -> exists acts, reads p (part_words pt) acts (part_open pt) /\
    forall f s, take_actions acts (mesh_ns f s) = Got (mesh_ns f (fold_left mesh_set (part_options pt) s)).
  Proof.
    intros H. destruct H as [o long short says ws V H|o long short ws V H|o long letter ws V H|z ws H|zs ws H|os s Ne Hl|os s o long short says t Hl V (u & E & Nu & Eu & Su)];
      cbn [part_words part_options part_open fold_left].
    - destruct (mesh_valued_is _ _ _ _ V) as (a & c & -> & (F1 & F2 & I & N1 & N2) & A & T).
      destruct (part_value p mesh_longs W a long c F1 F2 I N1 says ws A H) as (t & St & R).
      exists [(a, [t])]. split; [exact R|]. intros f s. cbn [take_actions]. rewrite (T t f s St). reflexivity.
    - destruct (mesh_bare_is _ _ _ V) as (a & c & -> & (F1 & F2 & I & N1 & N2) & A & T).
      exists [(a, [])]. split; [apply (part_bare p mesh_longs W a long c F1 F2 I ws A H)|].
      intros f s. cbn [take_actions]. rewrite (T f s). reflexivity.
    - destruct (mesh_flag_is _ _ _ V) as (a & c & -> & (F1 & F2 & I & N1 & N2) & A & T).
      exists [(a, [])]. split; [apply (part_flag p mesh_longs W a long c F1 F2 I ws A H)|].
      intros f s. cbn [take_actions]. rewrite (T f s). reflexivity.
    - destruct mesh_extra_is as (F1 & F2 & I & N1 & N2).
      destruct (part_inside p mesh_longs W _ _ _ F1 F2 I N1 (says_int z) ws ltac:(discriminate) H) as (t & St & R).
      exists [(extra_args_action, [t])]. split; [exact R|]. intros f s. cbn [take_actions].
      rewrite (mesh_extra_takes [z] [t] f s); [reflexivity|repeat constructor; exact St|discriminate].
    - destruct mesh_extra_is as (F1 & F2 & I & N1 & N2).
      destruct (part_values p mesh_longs W _ _ _ F1 F2 I says_int zs ws eq_refl H) as (ts & St & Nt & R).
      exists [(extra_args_action, ts)]. split; [exact R|]. intros f s. cbn [take_actions].
      rewrite (mesh_extra_takes zs ts f s St Nt). reflexivity.
    - destruct (mesh_letters_are os s Hl) as (l & El & Fl & Nl & Rl). exists (map (fun x => (fst x, [])) l). split; [|exact Rl].
      rewrite <- El. apply (part_letters p mesh_longs W l (Nl Ne) Fl).
    - destruct (mesh_letters_are os s Hl) as (l & El & Fl & _ & Rl).
      destruct (mesh_valued_is _ _ _ _ V) as (a & c & Ec & (F1 & F2 & I & N1 & N2) & A & T).
      cbn [append] in Ec. injection Ec as ->. exists (map (fun x => (fst x, [])) l ++ [(a, [u])]). split.
      + rewrite E, <- El. cbn [append]. apply (part_letters_value p mesh_longs W l a c u Fl F2); try assumption.
        destruct A as [->|[d ->]]; discriminate.
      + intros f st. rewrite take_actions_app, Rl. cbn [obind take_actions]. rewrite (T u f _ Su). cbn [obind].
        rewrite fold_left_app. reflexivity.
  Qed.

  Lemma mesh_parts_read l : Forall mesh_part l -> exists r, reads_all p r /\
    flat_map (fun x => fst (fst x)) r = parts_words l /\ last (map snd r) false = parts_open l /\
    forall f s, take_actions (flat_map (fun x => snd (fst x)) r) (mesh_ns f s)
                = Got (mesh_ns f (fold_left mesh_set (parts_options l) s)).
  Proof.
    intros H.
    assert (exists r, reads_all p r /\ map (fun x => fst (fst x)) r = map part_words l /\ map snd r = map part_open l /\
      forall f s, take_actions (flat_map (fun x => snd (fst x)) r) (mesh_ns f s)
                = Got (mesh_ns f (fold_left mesh_set (parts_options l) s))) as (r & Ra & Rw & Ro & Rt).
    { induction H as [|pt l Hp _ (r & Ra & Rw & Ro & Rt)]; [exists []; repeat split; constructor|].
      destruct (mesh_part_reads pt Hp) as (acts & R & T). exists ((part_words pt, acts, part_open pt) :: r). split; [constructor; assumption|].
      cbn [map fst snd]. split; [rewrite Rw; reflexivity|]. split; [rewrite Ro; reflexivity|].
      intros f s. cbn [flat_map fst snd]. rewrite take_actions_app, T. cbn [obind]. rewrite Rt.
      unfold parts_options. cbn [flat_map]. rewrite fold_left_app. reflexivity. }
    exists r. split; [exact Ra|]. split; [|split; [|exact Rt]].
    - unfold parts_words. rewrite !flat_map_concat_map, Rw. reflexivity.
    - unfold parts_open. rewrite Ro. reflexivity.
  Qed.

  Lemma mesh_defaults name : defaults p = mesh_ns VNone (mesh_initial name).
  Proof. reflexivity. Qed.

  Lemma mesh_name_taken name s : In name MESHES ->
    take_action (p_positional p) [name] (mesh_ns VNone s) = Got (mesh_ns (VStr name) s).
  Proof.
    intros H. apply str_in_In in H. unfold take_action. cbn [mesh_parser p_positional a_doing a_arity].
    unfold convert, as_name. cbn [a_type a_choices]. unfold valid_meshes, valid_name. rewrite H. cbv iota. rewrite H.
    cbn [obind a_dest]. destruct s; reflexivity.
  Qed.
  Lemma mesh_name_plain name : In name MESHES -> parse_optional p name = Got Arg /\ name <> "--".
  Proof.
    intros H. apply (plain_word p mesh_longs W). left. intros u ->.
    assert (F : forallb (fun n => match n with String "-" _ => false | _ => true end) MESHES = true) by (vm_compute; reflexivity).
    rewrite forallb_forall in F. specialize (F _ H). discriminate F.
  Qed.
  Lemma mesh_function_kept name l : forall s, ms_function s = name -> mesh_ns (VStr name) (fold_left mesh_set l s) = mesh_namespace (fold_left mesh_set l s).
  Proof.
    induction l as [|o l IH]; intros s H; cbn [fold_left].
    - rewrite <- H. reflexivity.
    - apply IH. rewrite <- H. destruct s, o; reflexivity.
  Qed.

  Lemma mesh_reads before after name : Forall mesh_part before -> Forall mesh_part after ->
    In name MESHES -> parts_open before = false ->
    parse_args p (parts_words before ++ name :: parts_words after)
    = Got (mesh_namespace (fold_left mesh_set (parts_options before ++ parts_options after) (mesh_initial name))).
  Proof.
    intros Hb Ha Hn Ho. destruct (mesh_parts_read before Hb) as (rb & Rb & Wb & Ob & Tb).
    destruct (mesh_parts_read after Ha) as (ra & Ra & Wa & _ & Ta). rewrite <- Wb, <- Wa.
    destruct (mesh_name_plain name Hn) as [Pn Nn].
    rewrite parse_line; [|assumption|assumption|assumption|assumption|congruence].
    rewrite (mesh_defaults name), Tb. cbn [obind]. rewrite mesh_name_taken by exact Hn. cbn [obind]. rewrite Ta.
    rewrite <- fold_left_app. rewrite mesh_function_kept by reflexivity. reflexivity.
  Qed.

  Lemma mesh_reads_dashes before name : Forall mesh_part before -> In name MESHES ->
    parse_args p (parts_words before ++ ["--"; name])
    = Got (mesh_namespace (fold_left mesh_set (parts_options before) (mesh_initial name))).
  Proof.
    intros Hb Hn. destruct (mesh_parts_read before Hb) as (rb & Rb & Wb & Ob & Tb). rewrite <- Wb.
    rewrite parse_line_dashes by assumption. rewrite (mesh_defaults name), Tb. cbn [obind].
    rewrite mesh_name_taken by exact Hn. rewrite mesh_function_kept by reflexivity. reflexivity.
  Qed.

  Lemma mesh_reads_missing before : Forall mesh_part before -> parse_args p (parts_words before) = Exit 2.
  Proof.
    intros Hb. destruct (mesh_parts_read before Hb) as (rb & Rb & Wb & Ob & Tb). rewrite <- Wb.
    rewrite (parse_line_missing p rb Rb), (mesh_defaults ""), Tb. reflexivity.
  Qed.

  (** Help *)
  Lemma mesh_reads_help before w : Forall mesh_part before -> In w ["-h"; "--help"; "-v"; "--version"] ->
    parse_args p (parts_words before ++ [w]) = Exit 0.
  Proof.
    intros Hb Hw. destruct (mesh_parts_read before Hb) as (rb & Rb & Wb & Ob & Tb). rewrite <- Wb.
    assert (exists a, reads p [w] [(a, [])] false /\ a_doing a = Leave) as (a & R & D).
    { cbn in Hw. destruct Hw as [<-|[<-|[<-|[<-|[]]]]]; eexists; (split; [eapply reads_flag; [discriminate|reflexivity|reflexivity]|reflexivity]). }
    assert (Ra : reads_all p (rb ++ [([w], [(a, [])], false)])) by (apply Forall_app; split; [exact Rb|repeat constructor; exact R]).
    assert (X := parse_line_missing p _ Ra). rewrite !flat_map_app in X. cbn [flat_map fst snd app] in X. rewrite X.
    rewrite take_actions_app, (mesh_defaults ""), Tb. cbn [obind take_actions]. unfold take_action. rewrite D. reflexivity.
  Qed.

  (** A name after an option that takes it for its value *)
  Lemma mesh_bare_takes o long short : mesh_bare o long short -> exists a c,
    short = String "-" (String c "") /\ option_is p mesh_longs long c a /\ (exists d, a_arity a = At_most_one d) /\
    forall name f s, take_action a [name] (mesh_ns f s) = Exit 2 \/
      exists s', take_action a [name] (mesh_ns f s) = Got (mesh_ns f s').
  Proof.
    intros H; destruct H; do 2 eexists; (split; [reflexivity|]); (split; [repeat split; known|]);
      (split; [eexists; reflexivity|]); intros name f s; unfold take_action, maybe_action; cbn [a_doing a_arity];
      unfold convert, as_name, valid_methods, valid_name; cbn [a_type a_choices];
      (match goal with |- context [str_in name ?l] => destruct (str_in name l) eqn:En end; [right|left; reflexivity]; rewrite En; cbn [obind a_dest]).
    exists (mesh_set s (MMethod name)). destruct s; reflexivity.
  Qed.
  Lemma mesh_name_no_int name : In name MESHES -> py_int name = None.
  Proof.
    intros H. assert (F : forallb (fun n => match py_int n with None => true | Some _ => false end) MESHES = true) by (vm_compute; reflexivity).
    rewrite forallb_forall in F. specialize (F _ H). destruct (py_int name); [discriminate|reflexivity].
  Qed.

  Lemma mesh_swallowed before after name : Forall mesh_part before -> Forall mesh_part after ->
    In name MESHES -> parts_open before = true ->
    parse_args p (parts_words before ++ name :: parts_words after) = Exit 2.
  Proof.
    intros Hb Ha Hn Ho.
    assert (exists b0 pt, before = b0 ++ [pt] /\ part_open pt = true) as (b0 & pt & -> & Op).
    { unfold parts_open in Ho. destruct (exists_last (l := before)) as (b0 & pt & ->); [intros ->; discriminate|].
      exists b0, pt. split; [reflexivity|]. rewrite map_app in Ho. cbn [map] in Ho. rewrite last_last in Ho. exact Ho. }
    apply Forall_app in Hb. destruct Hb as [Hb Hp]. inversion Hp as [|? ? Hpt _]; subst.
    destruct (mesh_parts_read b0 Hb) as (rb & Rb & Wb & Ob & Tb).
    destruct (mesh_parts_read after Ha) as (ra & Ra & Wa & _ & Ta).
    destruct (mesh_name_plain name Hn) as [Pn Nn].
    assert (exists a args b, reads p (part_words pt ++ [name]) [(a, args)] b /\
              forall f s, take_action a args (mesh_ns f s) = Exit 2 \/ exists s', take_action a args (mesh_ns f s) = Got (mesh_ns f s'))
      as (a & args & b & R & T).
    { destruct Hpt as [o long short says ws V H|o long short ws V H|o long letter ws V H|z ws H|zs ws H|os s Ne Hl|os s o long short says t Hl V (u & E & Nu & Eu & Su)];
        cbn [part_open] in Op; try discriminate; cbn [part_words].
      - destruct (mesh_bare_takes _ _ _ V) as (a & c & -> & (F1 & F2 & I & N1 & N2) & A & T). destruct H as (o' & -> & No).
        destruct (name_word p mesh_longs W a long _ o' F1 F2 I No) as (D & [o'' P] & _).
        exists a, [name], false. split; [|apply T]. apply (reads_apart p o' a o'' name); auto.
      - destruct mesh_extra_is as (F1 & F2 & I & N1 & N2). destruct H as (Nx & o' & ts & -> & No & Pt & Sy).
        destruct (name_word p mesh_longs W _ _ _ o' F1 F2 I No) as (D & [o'' P] & _). rewrite Forall_forall in Pt.
        exists extra_args_action, (ts ++ [name]), true. split.
        + cbn [app]. apply (reads_many p o' extra_args_action o'' (ts ++ [name])); auto.
          * destruct ts; discriminate.
          * intros X. apply in_app_iff in X. destruct X as [X|[X|[]]]; [|congruence].
            apply (plain_word p mesh_longs W _ (Pt _ X)). reflexivity.
          * intros t X. apply in_app_iff in X. destruct X as [X|[<-|[]]]; [|exact Pn].
            apply (plain_word p mesh_longs W). apply Pt. exact X.
        + intros f s. left. unfold take_action. cbn [extra_args_action a_doing a_arity].
          assert (E : convert_all extra_args_action (ts ++ [name]) = Exit 2).
          { clear -Sy Hn. induction Sy as [|z t zs ts Hz _ IH].
            - cbn [app convert_all]. unfold convert, extra_args_action at 1, as_int. cbn [a_type].
              rewrite (mesh_name_no_int name Hn). reflexivity.
            - cbn [app convert_all]. unfold convert, extra_args_action at 1, as_int. cbn [a_type]. unfold says_int in Hz. rewrite Hz.
              cbn [option_map extra_args_action a_choices obind]. rewrite IH. reflexivity. }
          fold extra_args_action. rewrite E. reflexivity. }
    assert (All : reads_all p (rb ++ [(part_words pt ++ [name], [(a, args)], b)] ++ ra)).
    { apply Forall_app. split; [exact Rb|]. constructor; [exact R|exact Ra]. }
    assert (X := parse_line_missing p _ All). rewrite !flat_map_app in X. cbn [flat_map fst snd app] in X.
    assert (Wd : parts_words (b0 ++ [pt]) ++ name :: parts_words after
                 = flat_map (fun x => fst (fst x)) rb ++ ((part_words pt ++ [name]) ++ []) ++ flat_map (fun x => fst (fst x)) ra).
    { unfold parts_words at 1. rewrite flat_map_app. cbn [flat_map]. rewrite app_nil_r. rewrite Wb, Wa. unfold parts_words.
      rewrite app_nil_r. rewrite <- !app_assoc. reflexivity. }
    rewrite Wd. rewrite X. rewrite take_actions_app, (mesh_defaults ""), Tb. cbn [obind take_actions].
    match goal with |- context [mesh_ns VNone ?s] => destruct (T VNone s) as [E|[s' E]] end; rewrite E; cbn [obind].
    - reflexivity.
    - rewrite Ta. reflexivity.
  Qed.

  (** Every accepted line *)
  Definition mesh_fits (s : mesh_settings) : Prop := ms_extra_args s <> Some [] /\ In (ms_method s) mesh_methods.
  Definition mesh_state (pending : bool) (ns : namespace) : Prop :=
    exists f s, ns = mesh_ns f s /\ mesh_fits s /\ (pending = false -> f = VStr (ms_function s) /\ In (ms_function s) MESHES).



  Lemma mesh_keeps pending f s o : mesh_fits (mesh_set s o) -> (pending = false -> f = VStr (ms_function s) /\ In (ms_function s) MESHES) ->
    mesh_state pending (mesh_ns f (mesh_set s o)).
  Proof. intros H Hp. exists f, (mesh_set s o). split; [reflexivity|]. split; [exact H|]. destruct s, o; exact Hp. Qed.

  Lemma mesh_state_kept a args ns b : In a (p_options p) -> counted a args -> mesh_state b ns ->
    fine (mesh_state b) (take_action a args ns).
  Proof.
    intros Ia Ca (f & s & -> & (Fe & Fm) & Hp). cbn [p_options mesh_parser In] in Ia.
    assert (K : forall o ns, mesh_fits (mesh_set s o) -> ns = mesh_ns f (mesh_set s o) -> fine (mesh_state b) (Got ns)).
    { intros o ns Ho ->. apply mesh_keeps; assumption. }
    repeat (destruct Ia as [<-|Ia]; [|]); try destruct Ia; cbn in Ca.
    - left; reflexivity.
    - unfold take_action. cbn [extra_args_action a_doing a_arity].
      apply (fine_bind _ _ _ _ (convert_all_fine extra_args_action args)). intros vs Hv.
      destruct (convert_ints_back _ _ Hv) as (zs & -> & Hz).
      apply (K (MExtra_args zs)); [|destruct s; reflexivity]. destruct s; repeat split; try assumption. cbn. intros E. injection E as ->.
      inversion Hz; subst. apply Ca. reflexivity.
    - unfold take_action. cbn [maybe_action a_doing a_arity]. destruct Ca as [->|[t ->]].
      + apply (K (MMethod "basis_functions")); [|destruct s; reflexivity]. destruct s; repeat split; try assumption. cbn; tauto.
      + assert (X := convert_fine (maybe_action "--method" "-m" "method" (as_name valid_methods) mesh_method_names "basis_functions") t).
        apply (fine_bind _ _ _ _ X). intros v [_ Hv]. destruct (Hv _ eq_refl) as (m & -> & Im).
        apply (K (MMethod m)); [|destruct s; reflexivity]. destruct s; repeat split; try assumption.
    - destruct Ca as [t ->]. unfold take_action, one_action, convert, as_int. cbn [a_doing a_arity a_type a_choices a_dest].
      destruct (py_int t) as [q|]; cbn [option_map obind]; [|right; reflexivity]. apply (K (MNoise q)); [|destruct s; reflexivity].
      destruct s; repeat split; assumption.
    - apply (K MMasked); [|destruct s; reflexivity]. destruct s; repeat split; assumption.
    - apply (K MUnnormalise); [|destruct s; reflexivity]. destruct s; repeat split; assumption.
    - left; reflexivity.
    - apply (K MZoom); [|destruct s; reflexivity]. destruct s; repeat split; assumption.
  Qed.

  Definition with_mesh (name : string) (s : mesh_settings) : mesh_settings :=
    {| ms_function := name; ms_extra_args := ms_extra_args s; ms_method := ms_method s; ms_noise := ms_noise s;
       ms_region := ms_region s; ms_unnormalise := ms_unnormalise s; ms_zoom := ms_zoom s |}.

  Lemma mesh_outcome argv : fine (fun ns => exists s, ns = mesh_namespace s /\ mesh_valid s) (parse_args p argv).
  Proof.
    assert (F : fine (mesh_state false) (parse_args p argv)).
    { apply (parse_args_fine p mesh_state).
      - intros a args ns b Ia Ca Hn. apply mesh_state_kept; assumption.
      - intros t ns (f & s & -> & Fit & _). unfold take_action. cbn [mesh_parser p_positional a_doing a_arity].
        apply (fine_bind _ _ _ _ (convert_fine _ t)). intros v [_ Hv]. destruct (Hv _ eq_refl) as (name & -> & In).
        exists (VStr name), (with_mesh name s). split; [reflexivity|]. split; [exact Fit|]. auto.
      - exists VNone, (mesh_initial ""). split; [reflexivity|]. split; [|discriminate]. repeat split; cbn; try tauto; discriminate. }
    destruct (parse_args p argv) as [ns|n]; [|exact F]. destruct F as (f & s & -> & Fit & Hf). destruct (Hf eq_refl) as [-> Hn].
    exists s. split; [reflexivity|]. split; [exact Hn|exact Fit].
  Qed.
End Meshes.
