(** * Property C64: the file name of a figure identifies what was plotted. *)
From Coq Require Import List ZArith QArith Arith Bool Reals Qreals Lia String.
From Coquelicot Require Import Complex.
From Verif Require Import Base CSum PyNum PyNumProofs Args Region Mask Numpy Eigen Quadrature Convolution Transform Functions Names NamesProofs
  PropNames FnNames FnNamesProofs Mesh Plot PropPlot PropFigure Cli PropCli.
Import ListNotations.
Local Open Scope string_scope.
Local Open Scope list_scope.
Local Open Scope nat_scope.

(** ** Specification: the choices offered by the command *)
Definition choices (a : plot_args) : Prop :=
  In (pa_method a) ["north"; "rotate"; "translate"]%string /\ In (pa_view a) ["africa"; "south_america"]%string /\
  In (pa_type a) ["abs"; "real"; "imag"; "sum"]%string.

(** A map to convolve with, at bandlimit [L]. *)
Definition map_choice (L : nat) (g : option fn) : Prop :=
  forall h, g = Some h -> exists c, In c MAPS_LM /\ fn_name h = function_name c No_params None None None L.

(** ** The parts of the name *)
Definition method_part (a : plot_args) : string :=
  if String.eqb (pa_method a) "rotate" then ("_rotate_" ++ filename_angle (pa_alpha a) (pa_beta a) (pa_gamma a))%string
  else if String.eqb (pa_method a) "translate" then ("_translate_" ++ filename_angle (pa_alpha a) (pa_beta a) 0)%string
  else ""%string.
Definition conv_part (g : option fn) : string :=
  match g with Some g => ("_convolved_" ++ fn_name g)%string | None => ""%string end.
Definition view_part (n : string) (a : plot_args) : string :=
  if contains "earth" n then (if String.eqb (pa_view a) "africa" then "_africa"%string else ""%string) else ""%string.

Lemma Ok_inj (A : Type) (x y : A) : Ok x = Ok y -> x = y.
Proof. congruence. Qed.

Lemma coefficients_name inverse rotate_flms create_ylm ti pi f g a c n ann f' :
  plot_coefficients inverse rotate_flms create_ylm ti pi f g a = Ok (c, n, ann, f') ->
  let n0 := (fn_name f ++ method_part a ++ conv_part g)%string in n = (n0 ++ view_part n0 a)%string.
Proof.
  intros E. unfold plot_coefficients in E.
  set (step := if String.eqb (pa_method a) "rotate" then _ else _) in *.
  assert (St : forall c1 n1 an1 f1, step = Ok (c1, n1, an1, f1) -> n1 = (fn_name f ++ method_part a)%string).
  { intros c1 n1 an1 f1 H. unfold step in H. unfold method_part. destruct (String.eqb (pa_method a) "rotate").
    - unfold rotation_helper in H. destruct (calc_nearest_grid_point _ _ _) as [[al be]|]; cbn [rbind] in H; [|discriminate H].
      destruct (fn_rotate _ _ _ _ _) as [x|]; cbn [rbind] in H; [|discriminate H]. apply Ok_inj in H. congruence.
    - destruct (String.eqb (pa_method a) "translate").
      + unfold translation_helper in H. destruct (calc_nearest_grid_point _ _ _) as [[al be]|]; cbn [rbind] in H; [|discriminate H].
        destruct (fn_translate _ _ _ _ _ _ _ _) as [[r h']|]; cbn [rbind] in H; [|discriminate H]. apply Ok_inj in H. congruence.
      + apply Ok_inj in H. rewrite append_nil_r. congruence. }
  clearbody step. destruct step as [[[[c1 n1] an1] f1]|]; cbn [rbind] in E; [|discriminate E]. specialize (St _ _ _ _ eq_refl).
  set (conv := match g with Some _ => _ | None => _ end) in *.
  assert (Cv : forall c2 n2 f2, conv = Ok (c2, n2, f2) -> n2 = (n1 ++ conv_part g)%string).
  { intros c2 n2 f2 H. unfold conv in H. unfold conv_part. destruct g as [g|]; [|apply Ok_inj in H; rewrite append_nil_r; congruence].
    unfold convolution_helper in H. destruct (match fn_slepian f1 with Some _ => _ | None => _ end) as [gc|]; cbn [rbind] in H; [|discriminate H].
    destruct (fn_convolve _ _ _ _) as [[r h']|]; cbn [rbind] in H; [|discriminate H]. apply Ok_inj in H. congruence. }
  clearbody conv. destruct conv as [[[c2 n2] f2]|]; cbn [rbind] in E; [|discriminate E]. specialize (Cv _ _ _ eq_refl).
  cbv zeta. rewrite <- append_assoc_s, <- St, <- Cv. unfold view_part.
  destruct (contains "earth" n2); [|cbn [rbind] in E; apply Ok_inj in E; rewrite append_nil_r; congruence].
  destruct (String.eqb (pa_view a) "africa").
  - destruct (rotate_earth_to_africa _ _ _); cbn [rbind] in E; [|discriminate E]. apply Ok_inj in E. congruence.
  - rewrite append_nil_r. destruct (String.eqb (pa_view a) "south_america").
    + destruct (rotate_earth_to_south_america _ _ _); cbn [rbind] in E; [|discriminate E]. apply Ok_inj in E. congruence.
    + cbn [rbind] in E. apply Ok_inj in E. congruence.
Qed.

Definition end_part (L : nat) (a : plot_args) : string :=
  ((if pa_upsample a then "_res" ++ zstr (Z.of_nat (plot_resolution L (pa_upsample a))) else "")
   ++ "_" ++ pa_type a ++ (if pa_normalise a then "_norm" else ""))%string.

Lemma plot_name inverse forward rotate_flms create_ylm ti pi land f g a fs fig name ann fs' :
  plot inverse forward rotate_flms create_ylm ti pi land f g a fs = Ok (fig, name, ann, fs') ->
  let n0 := (fn_name f ++ method_part a ++ conv_part g)%string in
  name = (n0 ++ view_part n0 a ++ end_part (fn_L f) a)%string.
Proof.
  intros E. cbv zeta. unfold plot in E.
  destruct (plot_coefficients _ _ _ _ _ _ _ _) as [[[[c n] an] f']|] eqn:Ec; cbn [rbind] in E; [|discriminate E].
  assert (KL : fn_L f' = fn_L f) by (destruct (step_function _ _ _ _ _ _ _ _ _ _ _ _ Ec) as [-> | ->]; reflexivity).
  apply coefficients_name in Ec. cbv zeta in Ec.
  destruct (coefficients_to_field_sphere _ _ _ _ _ _); cbn [rbind] in E; [|discriminate E].
  destruct (plot_sphere _ _ _ _ _ _ _ _ _ _ _ _ _) as [[fg fs1]|]; cbn [rbind] in E; [|discriminate E].
  apply Ok_inj in E. assert (N : name = figure_name n (fn_L f') (pa_upsample a) (pa_type a) (pa_normalise a)) by congruence.
  rewrite N, KL, Ec. unfold figure_name, end_part. rewrite !append_assoc_s. reflexivity.
Qed.

(** What can follow. *)
Definition starts (ws : list string) (s : string) : Prop := exists w t, In w ws /\ s = (w ++ t)%string.

Lemma starts_app ws p q : starts ws p -> starts ws (p ++ q)%string.
Proof. intros (w & t & H & ->). exists w, (t ++ q)%string. rewrite append_assoc_s. auto. Qed.
Lemma starts_incl ws ws' s : incl ws ws' -> starts ws s -> starts ws' s.
Proof. intros H (w & t & Hin & E). exists w, t. auto. Qed.

Definition types : list string := ["_abs"; "_real"; "_imag"; "_sum"].
Definition ends : list string := "_res"%string :: types.
Definition views : list string := "_africa"%string :: ends.
Definition tails : list string := "_convolved_"%string :: views.

Lemma starts_end L a : choices a -> starts ends (end_part L a).
Proof.
  intros (_ & _ & H). unfold end_part. destruct (pa_upsample a).
  - exists "_res"%string. eexists. split; [left; reflexivity|]. rewrite !append_assoc_s. reflexivity.
  - cbn [append]. exists ("_" ++ pa_type a)%string. eexists. split; [|rewrite append_assoc_s; reflexivity].
    destruct H as [<-|[<-|[<-|[<-|[]]]]]; cbn; auto 10.
Qed.
Lemma starts_view L n a : choices a -> starts views (view_part n a ++ end_part L a)%string.
Proof.
  intros H. assert (K := starts_incl _ views _ (incl_tl _ (incl_refl _)) (starts_end L a H)). unfold view_part.
  destruct (contains "earth" n); [|exact K]. destruct (String.eqb (pa_view a) "africa"); [|exact K].
  exists "_africa"%string. eexists. split; [left; reflexivity|reflexivity].
Qed.
Lemma starts_tail L n g a : choices a -> starts tails (conv_part g ++ view_part n a ++ end_part L a)%string.
Proof.
  intros H. assert (K := starts_incl _ tails _ (incl_tl _ (incl_refl _)) (starts_view L n a H)). unfold conv_part.
  destruct g as [g|]; [|exact K]. exists "_convolved_"%string. eexists. split; [left; reflexivity|]. rewrite append_assoc_s. reflexivity.
Qed.
Lemma tail_ends_piece s : starts tails s -> ends_piece s.
Proof. intros (w & t & H & ->). repeat (destruct H as [<-|H]; [reflexivity|]). destruct H. Qed.

(** A word that none of these begins with. *)
Ltac absurd_start H E := let w := fresh in let t := fresh in let Hin := fresh in let Es := fresh in
  destruct H as (w & t & Hin & Es); rewrite Es in E; cbn in Hin;
  repeat (destruct Hin as [<-|Hin]; [cbn [append] in E; discriminate E|]); destruct Hin.

Lemma angles_split a b g a' b' g' t t' : starts tails t -> starts tails t' ->
  (filename_angle a b g ++ t = filename_angle a' b' g' ++ t')%string ->
  limit_denominator a = limit_denominator a' /\ limit_denominator b = limit_denominator b' /\
  limit_denominator g = limit_denominator g' /\ t = t'.
Proof.
  intros Ht Ht' E. rewrite !filename_angle_pieces, !append_assoc_s in E.
  assert (Rd : forall x, Qred (limit_denominator x) = limit_denominator x) by (intros x; exact (proj2 (proj2 (limit_best x 0 1 ltac:(discriminate))))).
  apply append_inj_l in E. apply piece_split in E; [|apply Rd|apply Rd|reflexivity|reflexivity]. destruct E as [Ea E].
  apply append_inj_l in E.
  apply piece_split in E; [|apply Rd|apply Rd| |];
    [|destruct (Qnum (limit_denominator g) =? 0)%Z; [apply tail_ends_piece; exact Ht|reflexivity]
     |destruct (Qnum (limit_denominator g') =? 0)%Z; [apply tail_ends_piece; exact Ht'|reflexivity]].
  destruct E as [Eb E]. split; [exact Ea|]. split; [exact Eb|].
  assert (Z0 : forall q, Qred q = q -> (Qnum q = 0)%Z -> q = 0%Q).
  { intros q R H. rewrite <- R. change 0%Q with (Qred 0). apply Qred_complete. unfold Qeq. cbn. lia. }
  destruct (Z.eqb_spec (Qnum (limit_denominator g)) 0) as [Hg|Hg], (Z.eqb_spec (Qnum (limit_denominator g')) 0) as [Hg'|Hg'].
  - split; [|exact E]. rewrite (Z0 _ (Rd g) Hg), (Z0 _ (Rd g') Hg'). reflexivity.
  - exfalso. rewrite append_assoc_s in E. cbn [append] in E. absurd_start Ht E.
  - exfalso. rewrite append_assoc_s in E. cbn [append] in E. absurd_start Ht' E.
  - rewrite !append_assoc_s in E. apply append_inj_l in E.
    apply piece_split in E; [exact E|apply Rd|apply Rd|apply tail_ends_piece; exact Ht|apply tail_ends_piece; exact Ht'].
Qed.

Lemma string_length_app s t : String.length (s ++ t) = String.length s + String.length t.
Proof. induction s as [|c s IH]; cbn; [reflexivity|rewrite IH; reflexivity]. Qed.

Lemma append_cancel_r p q t : (p ++ t = q ++ t)%string -> p = q.
Proof.
  revert q. induction p as [|c p IH]; intros [|d q] H; [reflexivity| | |].
  - exfalso. apply (f_equal String.length) in H. cbn in H. rewrite string_length_app in H. lia.
  - exfalso. apply (f_equal String.length) in H. cbn in H. rewrite string_length_app in H. lia.
  - cbn [append] in H. injection H as -> H. f_equal. apply IH. exact H.
Qed.

Lemma parts L base g g' a a' : choices a -> choices a' -> map_choice L g -> map_choice L g' ->
  let n0 := (base ++ method_part a ++ conv_part g)%string in let n0' := (base ++ method_part a' ++ conv_part g')%string in
  (n0 ++ view_part n0 a ++ end_part L a = n0' ++ view_part n0' a' ++ end_part L a')%string ->
  pa_method a = pa_method a' /\
  (pa_method a <> "north" -> limit_denominator (pa_alpha a) = limit_denominator (pa_alpha a') /\
                             limit_denominator (pa_beta a) = limit_denominator (pa_beta a')) /\
  (pa_method a = "rotate" -> limit_denominator (pa_gamma a) = limit_denominator (pa_gamma a')) /\
  option_map fn_name g = option_map fn_name g' /\ n0 = n0' /\
  (contains "earth" n0 = true -> pa_view a = pa_view a') /\
  pa_upsample a = pa_upsample a' /\ pa_type a = pa_type a' /\ pa_normalise a = pa_normalise a'.
Proof.
  intros Ha Ha' Hg Hg' n0 n0' E.
  assert (T := starts_tail L n0 g a Ha). assert (T' := starts_tail L n0' g' a' Ha').
  assert (V := starts_view L n0 a Ha). assert (V' := starts_view L n0' a' Ha').
  set (v := view_part n0 a) in *. set (v' := view_part n0' a') in *. set (e := end_part L a) in *. set (e' := end_part L a') in *.
  assert (E1 : (method_part a ++ conv_part g ++ v ++ e = method_part a' ++ conv_part g' ++ v' ++ e')%string).
  { unfold n0, n0' in E. rewrite !append_assoc_s in E. apply append_inj_l in E. exact E. }
  pose proof Ha as (Hm & Hv & Ht). pose proof Ha' as (Hm' & Hv' & Ht').
  (* the method *)
  assert (M : pa_method a = pa_method a' /\
     (pa_method a <> "north" -> limit_denominator (pa_alpha a) = limit_denominator (pa_alpha a') /\
                             limit_denominator (pa_beta a) = limit_denominator (pa_beta a')) /\
     (pa_method a = "rotate" -> limit_denominator (pa_gamma a) = limit_denominator (pa_gamma a')) /\
     (conv_part g ++ v ++ e = conv_part g' ++ v' ++ e')%string).
  { unfold method_part in E1.
    destruct Hm as [Q|[Q|[Q|[]]]], Hm' as [Q'|[Q'|[Q'|[]]]]; rewrite <- ?Q, <- ?Q' in E1 |- *; cbn [String.eqb Ascii.eqb Bool.eqb] in E1.
    - split; [reflexivity|]. split; [congruence|]. split; [discriminate|exact E1].
    - exfalso. rewrite append_assoc_s in E1. cbn [append] in E1. absurd_start T E1.
    - exfalso. rewrite append_assoc_s in E1. cbn [append] in E1. absurd_start T E1.
    - exfalso. rewrite append_assoc_s in E1. cbn [append] in E1. absurd_start T' E1.
    - rewrite !append_assoc_s in E1. apply append_inj_l in E1. apply angles_split in E1; [|exact T|exact T'].
      destruct E1 as (A & B & G & R). auto.
    - exfalso. rewrite !append_assoc_s in E1. cbn [append] in E1. discriminate E1.
    - exfalso. rewrite append_assoc_s in E1. cbn [append] in E1. absurd_start T' E1.
    - exfalso. rewrite !append_assoc_s in E1. cbn [append] in E1. discriminate E1.
    - rewrite !append_assoc_s in E1. apply append_inj_l in E1. apply angles_split in E1; [|exact T|exact T'].
      destruct E1 as (A & B & _ & R). split; [reflexivity|]. split; [auto|]. split; [discriminate|exact R]. }
  destruct M as (M1 & M2 & M3 & E2). split; [exact M1|]. split; [exact M2|]. split; [exact M3|].
  (* the map *)
  assert (Cm : option_map fn_name g = option_map fn_name g' /\ (v ++ e = v' ++ e')%string).
  { destruct g as [h|], g' as [h'|]; cbn [conv_part option_map] in *.
    - destruct (Hg h eq_refl) as (c & Hc & Nc). destruct (Hg' h' eq_refl) as (c' & Hc' & Nc').
      rewrite Nc, Nc' in *. rewrite !append_assoc_s in E2. apply append_inj_l in E2.
      assert (N1 : function_name Earth No_params None None None L = ("earth_L" ++ zstr (Z.of_nat L))%string) by reflexivity.
      assert (N2 : function_name SouthAmerica No_params None None None L = ("south_america_L" ++ zstr (Z.of_nat L))%string) by reflexivity.
      assert (N3 : function_name Wmap No_params None None None L = ("wmap_L" ++ zstr (Z.of_nat L))%string) by reflexivity.
      destruct (Hc) as [<-|[<-|[<-|[]]]], Hc' as [<-|[<-|[<-|[]]]]; rewrite ?N1, ?N2, ?N3 in *;
        try (apply append_inj_l in E2; split; [reflexivity|exact E2]); exfalso; cbn [append] in E2; discriminate E2.
    - exfalso. absurd_start V' E2.
    - exfalso. absurd_start V E2.
    - auto. }
  destruct Cm as [Cm E3]. split; [exact Cm|].
  assert (En : n0 = n0').
  { rewrite E3 in E. exact (append_cancel_r _ _ _ E). }
  split; [exact En|].
  (* the view *)
  assert (Ve : (contains "earth" n0 = true -> pa_view a = pa_view a') /\ e = e').
  { unfold v, v', view_part in E3. rewrite <- En in E3. assert (Se := starts_end L a Ha). assert (Se' := starts_end L a' Ha'). fold e in Se. fold e' in Se'.
    destruct (contains "earth" n0); [|split; [discriminate|exact E3]].
    destruct Hv as [Q|[Q|[]]], Hv' as [Q'|[Q'|[]]]; rewrite <- ?Q, <- ?Q' in E3 |- *; cbn [String.eqb Ascii.eqb Bool.eqb] in E3.
    - apply append_inj_l in E3. auto.
    - exfalso. cbn [append] in E3. absurd_start Se' E3.
    - exfalso. cbn [append] in E3. absurd_start Se E3.
    - auto. }
  destruct Ve as [Ve E4]. split; [exact Ve|].
  (* the end *)
  unfold e, e', end_part in E4.
  assert (Tn : ("_" ++ pa_type a ++ (if pa_normalise a then "_norm" else "") = "_" ++ pa_type a' ++ (if pa_normalise a' then "_norm" else ""))%string /\
     pa_upsample a = pa_upsample a').
  { destruct (pa_upsample a), (pa_upsample a'); rewrite ?append_assoc_s in E4; cbn [append] in E4.
    - split; [|reflexivity]. apply (append_inj_l "_res") in E4. apply append_inj_l in E4. exact E4.
    - exfalso. destruct Ht' as [Q|[Q|[Q|[Q|[]]]]]; rewrite <- Q in E4; discriminate E4.
    - exfalso. destruct Ht as [Q|[Q|[Q|[Q|[]]]]]; rewrite <- Q in E4; discriminate E4.
    - split; [exact E4|reflexivity]. }
  destruct Tn as [Tn Up]. split; [exact Up|].
  destruct (pa_normalise a), (pa_normalise a'), Ht as [Q|[Q|[Q|[Q|[]]]]], Ht' as [Q'|[Q'|[Q'|[Q'|[]]]]];
    rewrite <- Q, <- Q' in *; try discriminate Tn; auto.
Qed.

(** ** C64 *)
(** Two figures of one function with the same file name: the same method,
    angles, map, resolution, part shown and normalisation, and the same view if
    the view matters. *)
Theorem C64_identified : forall inverse forward rotate_flms create_ylm ti pi land f g g' a a' fs fs' name fig fig' ann ann' fs1 fs1',
  choices a -> choices a' -> map_choice (fn_L f) g -> map_choice (fn_L f) g' ->
  plot inverse forward rotate_flms create_ylm ti pi land f g a fs = Ok (fig, name, ann, fs1) ->
  plot inverse forward rotate_flms create_ylm ti pi land f g' a' fs' = Ok (fig', name, ann', fs1') ->
  pa_method a = pa_method a' /\
  (pa_method a <> "north" -> limit_denominator (pa_alpha a) = limit_denominator (pa_alpha a') /\
                             limit_denominator (pa_beta a) = limit_denominator (pa_beta a')) /\
  (pa_method a = "rotate" -> limit_denominator (pa_gamma a) = limit_denominator (pa_gamma a')) /\
  option_map fn_name g = option_map fn_name g' /\
  (contains "earth" (fn_name f) = true \/ (exists h, g = Some h /\ contains "earth" (fn_name h) = true) -> pa_view a = pa_view a') /\
  pa_upsample a = pa_upsample a' /\ pa_type a = pa_type a' /\ pa_normalise a = pa_normalise a'.
Proof.
  intros inverse forward rotate_flms create_ylm ti pi land f g g' a a' fs fs' name fig fig' ann ann' fs1 fs1' Ha Ha' Hg Hg' E E'.
  apply plot_name in E. apply plot_name in E'. cbv zeta in E, E'. rewrite E in E'.
  destruct (parts (fn_L f) (fn_name f) g g' a a' Ha Ha' Hg Hg' E') as (M1 & M2 & M3 & C1 & _ & V & U).
  split; [exact M1|]. split; [exact M2|]. split; [exact M3|]. split; [exact C1|]. split; [|exact U].
  intros H. apply V. destruct H as [H|(h & -> & H)]; [apply contains_app_l; exact H|].
  cbn [conv_part]. apply contains_spec in H. destruct H as (x & y & ->). apply contains_spec.
  exists (fn_name f ++ method_part a ++ "_convolved_" ++ x)%string, y. rewrite !append_assoc_s. reflexivity.
Qed.
Print Assumptions C64_identified.

(** With angles whose denominators are at most a million, equal file names mean
    equal figures: one plot never overwrites a different one. *)
Theorem C64_same_figure : forall inverse forward rotate_flms create_ylm ti pi land f g g' a a' fs name fig fig' ann ann' fs1 fs1',
  choices a -> choices a' -> map_choice (fn_L f) g -> map_choice (fn_L f) g' ->
  (forall h h', g = Some h -> g' = Some h' -> fn_name h = fn_name h' -> h = h') ->
  representable (pa_alpha a) -> representable (pa_alpha a') -> representable (pa_beta a) -> representable (pa_beta a') ->
  representable (pa_gamma a) -> representable (pa_gamma a') -> pa_amplitude a = pa_amplitude a' ->
  plot inverse forward rotate_flms create_ylm ti pi land f g a fs = Ok (fig, name, ann, fs1) ->
  plot inverse forward rotate_flms create_ylm ti pi land f g' a' fs = Ok (fig', name, ann', fs1') ->
  fig = fig' /\ (pa_annotations a = pa_annotations a' -> ann = ann').
Proof.
  intros inverse forward rotate_flms create_ylm ti pi land f g g' a a' fs name fig fig' ann ann' fs1 fs1' Ha Ha' Hg Hg' Hgg
    Ra Ra' Rb Rb' Rg Rg' Am E E'.
  assert (N := plot_name _ _ _ _ _ _ _ _ _ _ _ _ _ _ _ E). assert (N' := plot_name _ _ _ _ _ _ _ _ _ _ _ _ _ _ _ E'). cbv zeta in N, N'.
  rewrite N in N'. destruct (parts (fn_L f) (fn_name f) g g' a a' Ha Ha' Hg Hg' N') as (M1 & M2 & M3 & C1 & N0 & V & U & T & Nm). clear N N'.
  assert (G : g = g').
  { destruct g as [h|], g' as [h'|]; cbn in C1; try discriminate C1; [|reflexivity]. f_equal. apply Hgg; congruence. }
  subst g'.
  assert (Q : forall x y, representable x -> representable y -> limit_denominator x = limit_denominator y -> (x == y)%Q).
  { intros x y Rx Ry H. rewrite <- (representable_limit x Rx), <- (representable_limit y Ry), H. reflexivity. }
  assert (Fa : forall x y z x' y' z', (x == x')%Q -> (y == y')%Q -> (z == z')%Q -> filename_angle x y z = filename_angle x' y' z').
  { intros x y z x' y' z' H1 H2 H3. unfold filename_angle, get_angle_num_dem. rewrite (limit_wd _ _ H1), (limit_wd _ _ H2), (limit_wd _ _ H3). reflexivity. }
  assert (Eb : forall c n an f', plot_coefficients inverse rotate_flms create_ylm ti pi f g (with_view "" a) = Ok (c, n, an, f') ->
     exists an', plot_coefficients inverse rotate_flms create_ylm ti pi f g (with_view "" a') = Ok (c, n, an', f') /\
       (pa_annotations a = pa_annotations a' -> an' = an)).
  { intros c n an f'. unfold plot_coefficients. cbn [with_view pa_method pa_alpha pa_beta pa_gamma pa_annotations pa_view]. rewrite <- M1.
    destruct (String.eqb_spec (pa_method a) "rotate") as [Hm|Hm].
    - destruct (M2 ltac:(rewrite Hm; discriminate)) as [Qa Qb]. specialize (M3 Hm).
      apply Q in Qa; [|assumption|assumption]. apply Q in Qb; [|assumption|assumption]. apply Q in M3; [|assumption|assumption].
      unfold rotation_helper. rewrite (Fa _ _ _ _ _ _ Qa Qb M3), (Qeq_eqR _ _ Qa), (Qeq_eqR _ _ Qb), (Qeq_eqR _ _ M3).
      intros H. exists an. auto.
    - destruct (String.eqb_spec (pa_method a) "translate") as [Hm'|Hm'].
      + destruct (M2 ltac:(rewrite Hm'; discriminate)) as [Qa Qb].
        apply Q in Qa; [|assumption|assumption]. apply Q in Qb; [|assumption|assumption].
        unfold translation_helper. rewrite (Fa _ _ _ _ _ _ Qa Qb (Qeq_refl 0)), (Qeq_eqR _ _ Qa), (Qeq_eqR _ _ Qb).
        destruct (calc_nearest_grid_point _ _ _) as [[al be]|]; cbn [rbind]; [|discriminate].
        destruct (fn_translate _ _ _ _ _ _ _ _) as [[r h']|]; cbn [rbind]; [|discriminate].
        destruct (match g with Some _ => _ | None => _ end) as [[[c2 n2] f2]|]; cbn [rbind]; [|discriminate].
        destruct (if contains "earth" n2 then _ else _) as [[c3 n3]|]; cbn [rbind]; [|discriminate].
        intros H. apply Ok_inj in H. exists (if pa_annotations a' then [s2_to_cart (be, al)] else []).
        split; [congruence|]. intros Ha0. rewrite <- Ha0. congruence.
      + intros H. exists an. auto. }
  assert (Vw : forall b, plot_coefficients inverse rotate_flms create_ylm ti pi f g b =
     let* (c, n, an, f') := plot_coefficients inverse rotate_flms create_ylm ti pi f g (with_view "" b) in
     let* (c, n) := if contains "earth" n then
        if String.eqb (pa_view b) "africa" then
          let* c := rotate_earth_to_africa rotate_flms c (fn_L f') in Ok (c, (n ++ "_africa")%string)
        else if String.eqb (pa_view b) "south_america" then
          let* c := rotate_earth_to_south_america rotate_flms c (fn_L f') in Ok (c, n)
        else Ok (c, n)
      else Ok (c, n) in
     Ok (c, n, an, f')).
  { intros b. unfold plot_coefficients. cbn [with_view pa_method pa_alpha pa_beta pa_gamma pa_annotations pa_view].
    destruct (if String.eqb (pa_method b) "rotate" then _ else _) as [[[[c1 n1] an1] f1]|]; cbn [rbind]; [|reflexivity].
    destruct (match g with Some _ => _ | None => _ end) as [[[c2 n2] f2]|]; cbn [rbind]; [|reflexivity].
    rewrite (no_view_end rotate_flms (contains "earth" n2) c2 n2 "" (fn_L f2) eq_refl). cbn [rbind]. reflexivity. }
  unfold plot in E, E'. rewrite Vw in E, E'.
  destruct (plot_coefficients inverse rotate_flms create_ylm ti pi f g (with_view "" a)) as [[[[c n] an] f']|] eqn:Ea; cbn [rbind] in E; [|discriminate E].
  destruct (Eb _ _ _ _ eq_refl) as (an' & Ea' & Han). rewrite Ea' in E'. cbn [rbind] in E'.
  assert (Nn0 := coefficients_name _ _ _ _ _ _ _ _ _ _ _ _ Ea). cbv zeta in Nn0.
  assert (V0 : forall s, view_part s (with_view "" a) = ""%string) by (intros s; unfold view_part; cbn [with_view pa_view]; destruct (contains "earth" s); reflexivity).
  rewrite V0, append_nil_r in Nn0. change (method_part (with_view "" a)) with (method_part a) in Nn0. rewrite <- Nn0 in V. clear Nn0 V0.
  assert (Ev : (if contains "earth" n then
        if String.eqb (pa_view a) "africa" then
          let* c := rotate_earth_to_africa rotate_flms c (fn_L f') in Ok (c, (n ++ "_africa")%string)
        else if String.eqb (pa_view a) "south_america" then
          let* c := rotate_earth_to_south_america rotate_flms c (fn_L f') in Ok (c, n)
        else Ok (c, n)
      else Ok (c, n)) =
     (if contains "earth" n then
        if String.eqb (pa_view a') "africa" then
          let* c := rotate_earth_to_africa rotate_flms c (fn_L f') in Ok (c, (n ++ "_africa")%string)
        else if String.eqb (pa_view a') "south_america" then
          let* c := rotate_earth_to_south_america rotate_flms c (fn_L f') in Ok (c, n)
        else Ok (c, n)
      else Ok (c, n))).
  { destruct (contains "earth" n); [rewrite (V eq_refl); reflexivity|reflexivity]. }
  rewrite <- Ev in E'. clear Ev. rewrite <- U, <- T, <- Nm, <- Am in E'.
  destruct (if contains "earth" n then _ else _) as [[c3 n3]|]; cbn [rbind] in E, E'; [|discriminate E].
  destruct (coefficients_to_field_sphere _ _ _ _ _ _); cbn [rbind] in E, E'; [|discriminate E].
  destruct (plot_sphere _ _ _ _ _ _ _ _ _ _ _ _ _) as [[fg fs2]|]; cbn [rbind] in E, E'; [|discriminate E].
  apply Ok_inj in E. apply Ok_inj in E'. split; [congruence|]. intros Hq. specialize (Han Hq). congruence.
Qed.
Print Assumptions C64_same_figure.

(** What the file name leaves out: the choice of annotations, so that a
    translation plotted with and without the mark overwrite each other; and
    angles that differ by less than the rounding. *)
Theorem C64_annotations_refuted : forall inverse forward rotate_flms create_ylm ti pi land f g a fs fig name ann fs',
  pa_method a = "translate" -> pa_annotations a = true ->
  plot inverse forward rotate_flms create_ylm ti pi land f g a fs = Ok (fig, name, ann, fs') ->
  ann <> [] /\ plot inverse forward rotate_flms create_ylm ti pi land f g
     {| pa_alpha := pa_alpha a; pa_beta := pa_beta a; pa_gamma := pa_gamma a; pa_annotations := false;
        pa_normalise := pa_normalise a; pa_method := pa_method a; pa_type := pa_type a; pa_upsample := pa_upsample a;
        pa_view := pa_view a; pa_amplitude := pa_amplitude a |} fs = Ok (fig, name, [], fs').
Proof.
  intros inverse forward rotate_flms create_ylm ti pi land f g a fs fig name ann fs' Hm Han E.
  unfold plot, plot_coefficients in *. cbn [pa_alpha pa_beta pa_gamma pa_annotations pa_normalise pa_method pa_type pa_upsample pa_view pa_amplitude].
  rewrite Hm, Han in *. cbn [String.eqb Ascii.eqb Bool.eqb] in *.
  destruct (translation_helper _ _ _ _ _ _ _ _ _) as [[[[c1 n1] an1] f1]|]; cbn [rbind] in *; [|discriminate E].
  destruct (match g with Some _ => _ | None => _ end) as [[[c2 n2] f2]|]; cbn [rbind] in *; [|discriminate E].
  destruct (if contains "earth" n2 then _ else _) as [[c3 n3]|]; cbn [rbind] in *; [|discriminate E].
  destruct (coefficients_to_field_sphere _ _ _ _ _ _); cbn [rbind] in *; [|discriminate E].
  destruct (plot_sphere _ _ _ _ _ _ _ _ _ _ _ _ _) as [[fg fs2]|]; cbn [rbind] in *; [|discriminate E].
  apply Ok_inj in E. split; [intros ->; congruence|]. f_equal. congruence.
Qed.
Print Assumptions C64_annotations_refuted.

(** Two angles that differ by 1/(1000000 * 1000001) of pi have one name. *)
Theorem C64_angles_refuted :
  filename_angle (1 # 1000001) 0 0 = filename_angle (1 # 1000000) 0 0 /\ ~ (1 # 1000001 == 1 # 1000000)%Q.
Proof. split; [vm_compute; reflexivity|discriminate]. Qed.
Print Assumptions C64_angles_refuted.

(** Cases *)
Definition case_args (method view : string) : plot_args :=
  {| pa_alpha := 3 # 4; pa_beta := 1 # 8; pa_gamma := 0; pa_annotations := true; pa_normalise := true;
     pa_method := method; pa_type := "real"; pa_upsample := true; pa_view := view; pa_amplitude := None |}.
Example C64_case :
  choices (case_args "translate" "africa") /\ representable (3 # 4) /\
  map_choice 16 (Some {| fn_name := "wmap_L16"; fn_L := 16; fn_coefficients := []; fn_slepian := None; fn_region := None; fn_reality := true; fn_spin := 0%Z |}) /\
  figure_name ("earth_L16" ++ method_part (case_args "translate" "africa") ++ "_africa") 16 true "real" true
    = "earth_L16_translate_alpha3pi4_beta1pi8_africa_res128_real_norm"%string.
Proof.
  split; [repeat split; cbn; auto|]. split; [exists 3%Z, 4%Z; split; [lia|reflexivity]|]. split.
  - intros h H. injection H as <-. exists Wmap. split; [cbn; auto|reflexivity].
  - vm_compute. reflexivity.
Qed.
