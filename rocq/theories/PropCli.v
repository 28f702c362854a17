(** * Property C63: what the plotting command shows. *)
From Coq Require Import List ZArith QArith Arith Bool Reals Qreals Lia Lra Psatz String.
From Coquelicot Require Import Complex.
From Verif Require Import Base RSum CSum PyNum Region Mask MaskProofs Numpy Eigen EigenProofs NoiseProofs SpecField
  Convolution ConvolutionProofs Quadrature Transform SpecTransform TransformProofs Functions PropFunctions Names NamesProofs PyNumProofs FnNames FnNamesProofs
  Mesh Plot PlotProofs PropTransform PropPlot PropFigure Cli.
Import ListNotations.
Local Open Scope string_scope.
Local Open Scope list_scope.
Local Open Scope nat_scope.

(** ** Specification *)
(** The value at colatitude [theta] and longitude [phi] of the function with
    coefficients [flm]; [Yf i] is the [i]th spherical harmonic. *)
Definition value (Yf : nat -> R -> R -> C) (L : nat) (flm : list C) (theta phi : R) : C :=
  csum (L * L) (fun i => Cmult (nth i flm (RtoC 0)) (Yf i theta phi)).

(** The harmonics at the samples of resolution [M], in row order. *)
Definition at_samples (Yf : nat -> R -> R -> C) (M : nat) (i k : nat) : C :=
  Yf i (PI * INR (k / (2 * M)) / INR M)%R (PI * INR (k mod (2 * M)) / INR M)%R.

(** [rotate_flms] with these angles gives the coefficients of the rotated
    function: the value at a point is the value of the function at the point
    that is moved there. *)
Definition rotates (Yf : nat -> R -> R -> C) (turn : R -> R -> R -> R * R -> R * R)
    (rotate_flms : list C -> R -> R -> R -> nat -> res (list C)) (L : nat) : Prop :=
  forall flm a b g, List.length flm = L * L ->
    exists c, rotate_flms flm a b g L = Ok c /\ List.length c = L * L /\
      forall theta phi, value Yf L c theta phi
        = let p := turn a b g (theta, phi) in value Yf L flm (fst p) (snd p).

(** [create_ylm] evaluates the harmonics. *)
Definition evaluates (Yf : nat -> R -> R -> C) (create_ylm : R -> R -> nat -> list C) (L : nat) : Prop :=
  forall theta phi, create_ylm theta phi L = map (fun i => Yf i theta phi) (seq 0 (L * L)).

(** ** Convolutions *)
Lemma convolve_ok f u v : List.length u = List.length v ->
  exists h, fn_convolve f u v None = Ok (h, set_reality false f) /\ List.length h = List.length u /\
    forall i, nth i h (RtoC 0) = Cmult (nth i u (RtoC 0)) (Cconj (nth i v (RtoC 0))).
Proof.
  intros H. unfold fn_convolve. rewrite (sifting_1d u v None H). cbn [rbind].
  eexists. split; [reflexivity|]. cbn [kept]. 
  assert (Lz : List.length (zip (fun x y => Cmult x (Cconj y)) u v) = List.length u) by (unfold zip; rewrite map_length, combine_length; lia).
  rewrite firstn_all2 by lia. split; [exact Lz|]. intros i.
  destruct (Nat.lt_ge_cases i (List.length u)) as [Hi|Hi].
  - rewrite (nth_zip _ u v i H Hi). reflexivity.
  - rewrite !nth_overflow by lia. ring.
Qed.

Lemma convolve_shannon f u v n : n <= List.length u -> n <= List.length v ->
  exists h, fn_convolve f u v (Some (Z.of_nat n)) = Ok (h, set_reality false f) /\ List.length h = n /\
    forall i, i < n -> nth i h (RtoC 0) = Cmult (nth i u (RtoC 0)) (Cconj (nth i v (RtoC 0))).
Proof.
  intros Hu Hv. unfold fn_convolve. rewrite (sifting_1d_prefix u v n Hu Hv).
  destruct (convolve_ok f (firstn n u) (firstn n v)) as (h & E & Lh & Nh); [rewrite !firstn_length; lia|].
  unfold fn_convolve in E. exists h. split; [exact E|]. rewrite firstn_length in Lh. split; [lia|].
  intros i Hi. rewrite Nh. rewrite !nth_firstn_lt by assumption. reflexivity.
Qed.

(** ** The steps, before the view of the Earth is applied *)
Definition with_view (v : string) (a : plot_args) : plot_args :=
  {| pa_alpha := pa_alpha a; pa_beta := pa_beta a; pa_gamma := pa_gamma a; pa_annotations := pa_annotations a;
     pa_normalise := pa_normalise a; pa_method := pa_method a; pa_type := pa_type a; pa_upsample := pa_upsample a;
     pa_view := v; pa_amplitude := pa_amplitude a |}.

Section Steps.
  Variable inverse forward : Z -> bool -> nat -> list C -> list C.
  Variable rotate_flms : list C -> R -> R -> R -> nat -> res (list C).
  Variable create_ylm : R -> R -> nat -> list C.
  Variable theta_to_index phi_to_index : R -> nat -> nat.
  Notation PC := (plot_coefficients inverse rotate_flms create_ylm theta_to_index phi_to_index).

  Lemma no_view_end (b : bool) (c : list C) (n : string) (v : string) (L : nat) :
    v = ""%string ->
    (if b then
        if String.eqb v "africa" then
          let* coefficients := rotate_earth_to_africa rotate_flms c L in Ok (coefficients, (n ++ "_africa")%string)
        else if String.eqb v "south_america" then
          let* coefficients := rotate_earth_to_south_america rotate_flms c L in Ok (coefficients, n)
        else Ok (c, n)
      else Ok (c, n)) = Ok (c, n).
  Proof. intros ->. destruct b; reflexivity. Qed.

  (** The function as it is. *)
  Lemma north_ok f a : pa_method a <> "rotate" -> pa_method a <> "translate" -> pa_view a = ""%string ->
    PC f None a = Ok (fn_coefficients f, fn_name f, [], f).
  Proof.
    intros H1 H2 H3. unfold plot_coefficients. apply String.eqb_neq in H1, H2. rewrite H1, H2. cbn [rbind].
    rewrite (no_view_end _ _ _ _ _ H3). reflexivity.
  Qed.

  Lemma rotate_ok f a alpha beta c : pa_method a = "rotate" -> pa_view a = ""%string -> fn_slepian f = None ->
    calc_nearest_grid_point (fn_L f) (Q2R (pa_alpha a)) (Q2R (pa_beta a)) = Ok (alpha, beta) ->
    rotate_flms (fn_coefficients f) alpha beta (Q2R (pa_gamma a) * PI)%R (fn_L f) = Ok c ->
    PC f None a = Ok (c, (fn_name f ++ "_rotate_" ++ filename_angle (pa_alpha a) (pa_beta a) (pa_gamma a))%string, [], f).
  Proof.
    intros H1 H2 H3 Hn Hc. unfold plot_coefficients. rewrite H1. cbn [String.eqb Ascii.eqb Bool.eqb].
    unfold rotation_helper. rewrite Hn. cbn [rbind]. unfold fn_rotate. rewrite H3, Hc. cbn [rbind].
    rewrite (no_view_end _ _ _ _ _ H2). reflexivity.
  Qed.

  Lemma translate_step f a alpha beta c f' sh : pa_method a = "translate" -> pa_view a = ""%string ->
    sh = match fn_slepian f with Some s => Some (s_N s) | None => None end ->
    calc_nearest_grid_point (fn_L f) (Q2R (pa_alpha a)) (Q2R (pa_beta a)) = Ok (alpha, beta) ->
    fn_translate inverse create_ylm theta_to_index phi_to_index f alpha beta sh = Ok (c, f') ->
    PC f None a = Ok (c, (fn_name f ++ "_translate_" ++ filename_angle (pa_alpha a) (pa_beta a) 0)%string,
                      if pa_annotations a then [s2_to_cart (beta, alpha)] else [], f').
  Proof.
    intros H1 H2 -> Hn Hc. unfold plot_coefficients. rewrite H1. cbn [String.eqb Ascii.eqb Bool.eqb].
    unfold translation_helper. rewrite Hn. cbn [rbind]. rewrite Hc. cbn [rbind].
    rewrite (no_view_end _ _ _ _ _ H2). reflexivity.
  Qed.
End Steps.

(** ** C63: rotation.  The rotated function is shown; the angles are those of
    the nearest sample and [gamma] is not rounded. *)
Theorem C63_rotate : forall inverse rotate_flms create_ylm ti pi Yf turn f a alpha beta,
  pa_method a = "rotate" -> pa_view a = ""%string -> fn_slepian f = None ->
  List.length (fn_coefficients f) = fn_L f * fn_L f -> rotates Yf turn rotate_flms (fn_L f) ->
  calc_nearest_grid_point (fn_L f) (Q2R (pa_alpha a)) (Q2R (pa_beta a)) = Ok (alpha, beta) ->
  exists c, plot_coefficients inverse rotate_flms create_ylm ti pi f None a
      = Ok (c, (fn_name f ++ "_rotate_" ++ filename_angle (pa_alpha a) (pa_beta a) (pa_gamma a))%string, [], f) /\
    List.length c = fn_L f * fn_L f /\
    forall theta phi, let p := turn alpha beta (Q2R (pa_gamma a) * PI)%R (theta, phi) in
      value Yf (fn_L f) c theta phi = value Yf (fn_L f) (fn_coefficients f) (fst p) (snd p).
Proof.
  intros inverse rotate_flms create_ylm ti pi Yf turn f a alpha beta H1 H2 H3 Hl Hr Hn.
  destruct (Hr (fn_coefficients f) alpha beta (Q2R (pa_gamma a) * PI)%R Hl) as (c & Ec & Lc & Vc).
  exists c. split; [exact (rotate_ok inverse rotate_flms create_ylm ti pi f a alpha beta c H1 H2 H3 Hn Ec)|]. split; [exact Lc|]. exact Vc.
Qed.
Print Assumptions C63_rotate.

(** Slepian functions cannot be rotated. *)
Theorem C63_rotate_slepian : forall inverse rotate_flms create_ylm ti pi f g a s, 1 <= fn_L f ->
  pa_method a = "rotate" -> fn_slepian f = Some s ->
  plot_coefficients inverse rotate_flms create_ylm ti pi f g a = Err NotImplementedError.
Proof.
  intros inverse rotate_flms create_ylm ti pi f g a s HL H1 H3. unfold plot_coefficients. rewrite H1.
  cbn [String.eqb Ascii.eqb Bool.eqb]. unfold rotation_helper.
  destruct (C37_nearest (fn_L f) (Q2R (pa_alpha a)) (Q2R (pa_beta a)) HL) as (j & i & E & _).
  rewrite E. cbn [rbind]. unfold fn_rotate. rewrite H3. reflexivity.
Qed.
Print Assumptions C63_rotate_slepian.

(** ** Translation of a harmonic function: every coefficient is multiplied by
    the harmonic at the point, the result is not treated as real, and the point
    is annotated on request. *)
Theorem C63_translate : forall inverse rotate_flms create_ylm ti pi Yf f a alpha beta,
  pa_method a = "translate" -> pa_view a = ""%string -> fn_slepian f = None -> contains "dirac_delta" (fn_name f) = false ->
  List.length (fn_coefficients f) = fn_L f * fn_L f -> evaluates Yf create_ylm (fn_L f) ->
  calc_nearest_grid_point (fn_L f) (Q2R (pa_alpha a)) (Q2R (pa_beta a)) = Ok (alpha, beta) ->
  exists c, plot_coefficients inverse rotate_flms create_ylm ti pi f None a
      = Ok (c, (fn_name f ++ "_translate_" ++ filename_angle (pa_alpha a) (pa_beta a) 0)%string,
            if pa_annotations a then [(sin beta * cos alpha, sin beta * sin alpha, cos beta)%R] else [], set_reality false f) /\
    List.length c = fn_L f * fn_L f /\
    forall i, i < fn_L f * fn_L f -> nth i c (RtoC 0) = Cmult (nth i (fn_coefficients f) (RtoC 0)) (Yf i beta alpha).
Proof.
  intros inverse rotate_flms create_ylm ti pi Yf f a alpha beta H1 H2 H3 Hd Hl He Hn.
  set (g := map Cconj (create_ylm beta alpha (fn_L f))).
  assert (Lg : List.length (fn_coefficients f) = List.length g).
  { unfold g. rewrite map_length, (He beta alpha), map_length, seq_length. exact Hl. }
  destruct (convolve_ok f (fn_coefficients f) g Lg) as (h & Eh & Lh & Nh).
  exists h. split; [|split; [lia|]].
  - apply translate_step with (sh := None); [exact H1|exact H2|rewrite H3; reflexivity|exact Hn|].
    unfold fn_translate, fn_translation_helper. rewrite H3. unfold flm_translation_helper. cbn [rbind]. rewrite Hd. exact Eh.
  - intros i Hi. rewrite Nh. f_equal. unfold g. rewrite (He beta alpha), map_map, nth_map_seq by exact Hi. apply Cconj_conj.
Qed.
Print Assumptions C63_translate.

(** The Dirac delta: the delta at the point, for which the flag stays. *)
Theorem C63_translate_delta : forall inverse rotate_flms create_ylm ti pi Yf f a alpha beta,
  pa_method a = "translate" -> pa_view a = ""%string -> fn_slepian f = None -> contains "dirac_delta" (fn_name f) = true ->
  evaluates Yf create_ylm (fn_L f) ->
  calc_nearest_grid_point (fn_L f) (Q2R (pa_alpha a)) (Q2R (pa_beta a)) = Ok (alpha, beta) ->
  exists c, plot_coefficients inverse rotate_flms create_ylm ti pi f None a
      = Ok (c, (fn_name f ++ "_translate_" ++ filename_angle (pa_alpha a) (pa_beta a) 0)%string,
            if pa_annotations a then [(sin beta * cos alpha, sin beta * sin alpha, cos beta)%R] else [], f) /\
    List.length c = fn_L f * fn_L f /\
    forall i, i < fn_L f * fn_L f -> nth i c (RtoC 0) = Cconj (Yf i beta alpha).
Proof.
  intros inverse rotate_flms create_ylm ti pi Yf f a alpha beta H1 H2 H3 Hd He Hn.
  exists (map Cconj (create_ylm beta alpha (fn_L f))). split; [|split].
  - apply translate_step with (sh := None); [exact H1|exact H2|rewrite H3; reflexivity|exact Hn|].
    unfold fn_translate, fn_translation_helper. rewrite H3. unfold flm_translation_helper. cbn [rbind]. rewrite Hd. reflexivity.
  - rewrite map_length, (He beta alpha), map_length, seq_length. reflexivity.
  - intros i Hi. rewrite (He beta alpha), map_map, nth_map_seq by exact Hi. reflexivity.
Qed.
Print Assumptions C63_translate_delta.

(** A Slepian function: its coefficients are multiplied by the values of the
    Slepian functions at the sample, and only the first [N] are kept. *)
Theorem C63_translate_slepian : forall inverse rotate_flms create_ylm ti pi Y f s a alpha beta p q,
  pa_method a = "translate" -> pa_view a = ""%string -> fn_slepian f = Some s -> contains "dirac_delta" (fn_name f) = false ->
  synthesis (fn_L f) Y (inverse 0%Z false) -> slepian_basis (fn_L f) s -> Z.to_nat (s_N s) <= List.length (fn_coefficients f) ->
  calc_nearest_grid_point (fn_L f) (Q2R (pa_alpha a)) (Q2R (pa_beta a)) = Ok (alpha, beta) ->
  ti beta (fn_L f) = p -> pi alpha (fn_L f) = q -> p < n_theta (fn_L f) -> q < n_phi (fn_L f) ->
  exists c, plot_coefficients inverse rotate_flms create_ylm ti pi f None a
      = Ok (c, (fn_name f ++ "_translate_" ++ filename_angle (pa_alpha a) (pa_beta a) 0)%string,
            if pa_annotations a then [(sin beta * cos alpha, sin beta * sin alpha, cos beta)%R] else [], set_reality false f) /\
    List.length c = Z.to_nat (s_N s) /\
    forall j, j < Z.to_nat (s_N s) -> nth j c (RtoC 0)
      = Cmult (nth j (fn_coefficients f) (RtoC 0))
          (csum (fn_L f * fn_L f) (fun i => Cmult (nth i (evec s j) (RtoC 0)) (Y i (p * n_phi (fn_L f) + q)))).
Proof.
  intros inverse rotate_flms create_ylm ti pi Y f s a alpha beta p q H1 H2 H3 Hd HY HB Hl Hn Hti Hpi Hp Hq.
  pose proof HB as (HN & Hn' & Hle & _). set (L := fn_L f) in *.
  pose proof (s_p_prime_ok (inverse 0%Z false) L Y s p q HY HB Hp Hq) as EH. set (G := map _ (seq 0 (L * L))) in EH.
  assert (HG : List.length G = L * L) by (unfold G; rewrite map_length, seq_length; reflexivity).
  destruct (convolve_ok f (firstn (Z.to_nat (s_N s)) (fn_coefficients f)) (firstn (Z.to_nat (s_N s)) G)) as (h & Eh & Lh & Nh).
  { rewrite !firstn_length. lia. }
  rewrite firstn_length, Nat.min_l in Lh by exact Hl.
  exists h. split; [|split; [exact Lh|]].
  - apply translate_step with (sh := Some (s_N s)); [exact H1|exact H2|rewrite H3; reflexivity|exact Hn|].
    unfold fn_translate, fn_translation_helper. rewrite H3. fold L. rewrite Hti, Hpi, EH. cbn [rbind]. rewrite Hd.
    rewrite <- Eh. unfold fn_convolve. rewrite <- (Z2Nat.id (s_N s) HN) at 1.
    rewrite sifting_1d_prefix by (rewrite ?HG; lia). reflexivity.
  - intros j Hj. rewrite Nh, !nth_firstn_lt by exact Hj. f_equal. unfold G. rewrite nth_map_seq by lia. rewrite Cconj_conj.
    unfold Nn. destruct (Nat.ltb_spec j (Z.to_nat (s_N s))); [reflexivity|lia].
Qed.
Print Assumptions C63_translate_slepian.

(** ** What the command leaves alone *)
Lemma step_function inverse rotate_flms create_ylm ti pi f g a c n ann f' :
  plot_coefficients inverse rotate_flms create_ylm ti pi f g a = Ok (c, n, ann, f') ->
  f' = f \/ f' = set_reality false f.
Proof.
  intros E. unfold plot_coefficients in E.
  assert (CV : forall h u v sh r h', fn_convolve h u v sh = Ok (r, h') -> h' = set_reality false h).
  { intros h u v sh r h' H. unfold fn_convolve in H. destruct (sifting_convolution _ _ _) as [[x|x y]|]; cbn [rbind] in H; [|discriminate H|discriminate H].
    injection H as _ <-. reflexivity. }
  set (step := if String.eqb (pa_method a) "rotate" then _ else _) in *.
  assert (St : forall c1 n1 an1 f1, step = Ok (c1, n1, an1, f1) -> f1 = f \/ f1 = set_reality false f).
  { intros c1 n1 an1 f1 H. unfold step in H. destruct (String.eqb (pa_method a) "rotate").
    - destruct (rotation_helper _ _ _ _ _) as [[x y]|]; cbn [rbind] in H; [|discriminate H]. injection H as _ _ _ <-. left. reflexivity.
    - destruct (String.eqb (pa_method a) "translate").
      + unfold translation_helper in H. destruct (calc_nearest_grid_point _ _ _) as [[al be]|]; cbn [rbind] in H; [|discriminate H].
        unfold fn_translate in H. destruct (fn_translation_helper _ _ _ _ _ _ _) as [gc|]; cbn [rbind] in H; [|discriminate H].
        destruct (contains "dirac_delta" (fn_name f)); cbn [rbind] in H.
        * injection H as _ _ _ <-. left. reflexivity.
        * destruct (fn_convolve _ _ _ _) as [[r h']|] eqn:Ec; cbn [rbind] in H; [|discriminate H]. injection H as _ _ _ <-. right. exact (CV _ _ _ _ _ _ Ec).
      + injection H as _ _ _ <-. left. reflexivity. }
  clearbody step. destruct step as [[[[c1 n1] an1] f1]|]; cbn [rbind] in E; [|discriminate E].
  specialize (St _ _ _ _ eq_refl).
  set (conv := match g with Some _ => _ | None => _ end) in *.
  assert (Cv : forall c2 n2 f2, conv = Ok (c2, n2, f2) -> f2 = f \/ f2 = set_reality false f).
  { intros c2 n2 f2 H. unfold conv in H. destruct g as [g|]; [|injection H as _ _ <-; exact St].
    unfold convolution_helper in H. destruct (match fn_slepian f1 with Some _ => _ | None => _ end) as [gc|]; cbn [rbind] in H; [|discriminate H].
    destruct (fn_convolve _ _ _ _) as [[r h']|] eqn:Ec; cbn [rbind] in H; [|discriminate H]. injection H as _ _ <-. rewrite (CV _ _ _ _ _ _ Ec).
    right. destruct St as [-> | ->]; reflexivity. }
  clearbody conv. destruct conv as [[[c2 n2] f2]|]; cbn [rbind] in E; [|discriminate E]. specialize (Cv _ _ _ eq_refl).
  destruct (if contains "earth" n2 then _ else _) as [[c3 n3]|]; cbn [rbind] in E; [|discriminate E]. injection E as _ _ _ <-. exact Cv.
Qed.

(** ** Convolution: whatever the method gave is convolved with the map. *)
Theorem C63_convolve : forall inverse rotate_flms create_ylm ti pi f g a c n ann f',
  pa_view a = ""%string -> fn_slepian f = None ->
  plot_coefficients inverse rotate_flms create_ylm ti pi f None a = Ok (c, n, ann, f') ->
  List.length c = List.length (fn_coefficients g) ->
  exists h, plot_coefficients inverse rotate_flms create_ylm ti pi f (Some g) a
      = Ok (h, (n ++ "_convolved_" ++ fn_name g)%string, ann, set_reality false f') /\
    List.length h = List.length c /\
    forall i, nth i h (RtoC 0) = Cmult (nth i (fn_coefficients g) (RtoC 0)) (Cconj (nth i c (RtoC 0))).
Proof.
  intros inverse rotate_flms create_ylm ti pi f g a c n ann f' Hv Hs E Hl.
  assert (Hs' : fn_slepian f' = None) by (destruct (step_function _ _ _ _ _ _ _ _ _ _ _ _ E) as [-> | ->]; exact Hs).
  destruct (convolve_ok f' (fn_coefficients g) c (eq_sym Hl)) as (h & Eh & Lh & Nh).
  exists h. split; [|split; [lia|exact Nh]].
  unfold plot_coefficients in *. set (step := if String.eqb (pa_method a) "rotate" then _ else _) in *. clearbody step.
  destruct step as [[[[c1 n1] ann1] f1]|]; cbn [rbind] in *; [|discriminate E].
  rewrite (no_view_end _ _ _ _ _ _ Hv) in E. cbn [rbind] in E. injection E as -> -> -> ->.
  unfold convolution_helper. rewrite Hs'. cbn [rbind]. rewrite Hs, Eh. cbn [rbind].
  rewrite (no_view_end _ _ _ _ _ _ Hv). reflexivity.
Qed.
Print Assumptions C63_convolve.

(** For Slepian functions the coefficients of the map are found first and only
    the first [N] are kept. *)
Theorem C63_convolve_slepian : forall inverse rotate_flms create_ylm ti pi f g a s c n ann f' flm,
  pa_view a = ""%string -> fn_slepian f = Some s -> slepian_basis (fn_L f) s -> 
  plot_coefficients inverse rotate_flms create_ylm ti pi f None a = Ok (c, n, ann, f') ->
  fn_coefficients g = flm -> List.length flm = fn_L f * fn_L f -> Nn s <= List.length c ->
  exists h, plot_coefficients inverse rotate_flms create_ylm ti pi f (Some g) a
      = Ok (h, (n ++ "_convolved_" ++ fn_name g)%string, ann, set_reality false f') /\
    List.length h = Nn s /\
    forall p, p < Nn s -> nth p h (RtoC 0)
      = Cmult (csum (fn_L f * fn_L f) (fun i => Cmult (nth i flm (RtoC 0)) (Cconj (nth i (evec s p) (RtoC 0)))))
              (Cconj (nth p c (RtoC 0))).
Proof.
  intros inverse rotate_flms create_ylm ti pi f g a s c n ann f' flm Hv Hs HB E <- Hg Hc.
  assert (Sf : fn_slepian f' = Some s /\ fn_L f' = fn_L f).
  { destruct (step_function _ _ _ _ _ _ _ _ _ _ _ _ E) as [-> | ->]; split; (exact Hs || reflexivity). }
  destruct Sf as [Hs' HL'].
  pose proof HB as (HN & Hn & _).
  set (gp := map (fun p => csum (fn_L f * fn_L f) (fun i => Cmult (nth i (fn_coefficients g) (RtoC 0)) (Cconj (nth i (evec s p) (RtoC 0))))) (seq 0 (Nn s))).
  assert (Eg : slepian_forward (inverse 0%Z false) (fn_L f) s (of_flm (fn_coefficients g)) None = Ok gp).
  { unfold of_flm. exact (forward_flm_ok (inverse 0%Z false) (fn_L f) s (fn_coefficients g) None None None HB Hg Hn). }
  destruct (convolve_shannon f' gp c (Nn s)) as (h & Eh & Lh & Nh); [unfold gp; rewrite map_length, seq_length; lia|exact Hc|].
  exists h. split; [|split; [exact Lh|]].
  - unfold plot_coefficients in *. set (step := if String.eqb (pa_method a) "rotate" then _ else _) in *. clearbody step.
    destruct step as [[[[c1 n1] ann1] f1]|]; cbn [rbind] in *; [|discriminate E].
    rewrite (no_view_end _ _ _ _ _ _ Hv) in E. cbn [rbind] in E. injection E as -> -> -> ->.
    unfold convolution_helper. rewrite Hs', HL', Eg. cbn [rbind]. rewrite Hs.
    assert (EN : s_N s = Z.of_nat (Nn s)) by (unfold Nn; rewrite Z2Nat.id by exact HN; reflexivity).
    rewrite EN, Eh. cbn [rbind]. rewrite (no_view_end _ _ _ _ _ _ Hv). reflexivity.
  - intros p Hp. rewrite (Nh p Hp). unfold gp. rewrite nth_map_seq by exact Hp. reflexivity.
Qed.
Print Assumptions C63_convolve_slepian.

(** ** The view of the Earth: a last rotation, for names that contain "earth". *)
Definition degrees (x : R) : R := (x * PI / 180)%R.

Theorem C63_view : forall inverse rotate_flms create_ylm ti pi Yf turn f g a c n ann f',
  plot_coefficients inverse rotate_flms create_ylm ti pi f g (with_view "" a) = Ok (c, n, ann, f') ->
  List.length c = fn_L f * fn_L f -> rotates Yf turn rotate_flms (fn_L f) ->
  (contains "earth" n = false ->
     forall v, plot_coefficients inverse rotate_flms create_ylm ti pi f g (with_view v a) = Ok (c, n, ann, f')) /\
  (contains "earth" n = true ->
     (exists c', plot_coefficients inverse rotate_flms create_ylm ti pi f g (with_view "africa" a)
                   = Ok (c', (n ++ "_africa")%string, ann, f') /\ List.length c' = fn_L f * fn_L f /\
        forall theta phi, let p := turn (degrees 44) (degrees 87) (degrees 341) (theta, phi) in
          value Yf (fn_L f) c' theta phi = value Yf (fn_L f) c (fst p) (snd p)) /\
     (exists c', plot_coefficients inverse rotate_flms create_ylm ti pi f g (with_view "south_america" a)
                   = Ok (c', n, ann, f') /\ List.length c' = fn_L f * fn_L f /\
        forall theta phi, let p := turn (degrees 54) (degrees 108) (degrees 63) (theta, phi) in
          value Yf (fn_L f) c' theta phi = value Yf (fn_L f) c (fst p) (snd p))).
Proof.
  intros inverse rotate_flms create_ylm ti pi Yf turn f g a c n ann f' E Hl Hr.
  assert (HL' : fn_L f' = fn_L f) by (destruct (step_function _ _ _ _ _ _ _ _ _ _ _ _ E) as [-> | ->]; reflexivity).
  unfold plot_coefficients in *. cbn [with_view pa_method pa_alpha pa_beta pa_gamma pa_annotations pa_view] in *.
  set (step := if String.eqb (pa_method a) "rotate" then _ else _) in *. clearbody step.
  destruct step as [[[[c1 n1] an1] f1]|]; cbn [rbind] in *; [|discriminate E].
  set (conv := match g with Some _ => _ | None => _ end) in *. clearbody conv.
  destruct conv as [[[c2 n2] f2]|]; cbn [rbind] in *; [|discriminate E].
  rewrite (no_view_end _ _ _ _ _ _ eq_refl) in E. cbn [rbind] in E. injection E as -> -> -> ->.
  split.
  - intros N v. rewrite N. reflexivity.
  - intros N. rewrite N. cbn [String.eqb Ascii.eqb Bool.eqb]. rewrite HL'. unfold rotate_earth_to_africa, rotate_earth_to_south_america.
    assert (D : forall z, deg2rad z = degrees (IZR z)) by reflexivity. rewrite !D. split.
    + destruct (Hr c (degrees 44) (degrees 87) (degrees 341) Hl) as (c' & Ec & Lc & Vc). exists c'. rewrite Ec. cbn [rbind].
      split; [reflexivity|]. split; [exact Lc|exact Vc].
    + destruct (Hr c (degrees 54) (degrees 108) (degrees 63) Hl) as (c' & Ec & Lc & Vc). exists c'. rewrite Ec. cbn [rbind].
      split; [reflexivity|]. split; [exact Lc|exact Vc].
Qed.
Print Assumptions C63_view.

(** ** The flag: the function shown is treated as real only when it is. *)
Theorem C63_reality : forall inverse rotate_flms create_ylm ti pi f g a c n ann f',
  fn_slepian f = None -> (fn_reality f = true -> reality (fn_L f) (fn_coefficients f)) ->
  (forall flm x y z flm', reality (fn_L f) flm -> rotate_flms flm x y z (fn_L f) = Ok flm' -> reality (fn_L f) flm') ->
  (forall theta phi, reality (fn_L f) (create_ylm theta phi (fn_L f))) ->
  plot_coefficients inverse rotate_flms create_ylm ti pi f g a = Ok (c, n, ann, f') ->
  fn_reality f' = true -> reality (fn_L f) c.
Proof.
  intros inverse rotate_flms create_ylm ti pi f g a c n ann f' Hs Hf Hrot Hy E Hr. unfold plot_coefficients in E.
  assert (Cj : forall flm, reality (fn_L f) flm -> reality (fn_L f) (map Cconj flm)).
  { intros flm H el m V. unfold coeff in *. assert (Z0 : RtoC 0 = Cconj (RtoC 0)) by (apply C_ext; cbn; ring).
    rewrite Z0, !map_nth. specialize (H el m V). unfold coeff in H. rewrite H. apply C_ext; cbn; ring. }
  assert (CV : forall h u v sh r h', fn_convolve h u v sh = Ok (r, h') -> fn_reality h' = false).
  { intros h u v sh r h' H. unfold fn_convolve in H. destruct (sifting_convolution _ _ _) as [[x|x y]|]; cbn [rbind] in H; [|discriminate H|discriminate H].
    injection H as _ <-. reflexivity. }
  set (step := if String.eqb (pa_method a) "rotate" then _ else _) in *.
  assert (St : forall c1 n1 an1 f1, step = Ok (c1, n1, an1, f1) -> fn_slepian f1 = None /\ fn_L f1 = fn_L f /\ (fn_reality f1 = true -> reality (fn_L f) c1)).
  { intros c1 n1 an1 f1 H. unfold step in H. destruct (String.eqb (pa_method a) "rotate").
    - unfold rotation_helper in H. destruct (calc_nearest_grid_point _ _ _) as [[al be]|]; cbn [rbind] in H; [|discriminate H].
      unfold fn_rotate in H. rewrite Hs in H. destruct (rotate_flms _ _ _ _ _) as [x|] eqn:Er; cbn [rbind] in H; [|discriminate H].
      injection H as <- _ _ <-. split; [exact Hs|]. split; [reflexivity|]. intros R1. exact (Hrot _ _ _ _ _ (Hf R1) Er).
    - destruct (String.eqb (pa_method a) "translate").
      + unfold translation_helper in H. destruct (calc_nearest_grid_point _ _ _) as [[al be]|]; cbn [rbind] in H; [|discriminate H].
        unfold fn_translate, fn_translation_helper in H. rewrite Hs in H. cbn [flm_translation_helper rbind] in H.
        destruct (contains "dirac_delta" (fn_name f)); cbn [rbind] in H.
        * injection H as <- _ _ <-. split; [exact Hs|]. split; [reflexivity|]. intros _. apply Cj, Hy.
        * destruct (fn_convolve _ _ _ _) as [[r h']|] eqn:Ec; cbn [rbind] in H; [|discriminate H].
          assert (F := CV _ _ _ _ _ _ Ec). unfold fn_convolve in Ec.
          destruct (sifting_convolution _ _ _) as [[x|x y]|]; cbn [rbind] in Ec; [|discriminate Ec|discriminate Ec]. injection Ec as _ <-.
          injection H as _ _ _ <-. split; [exact Hs|]. split; [reflexivity|]. discriminate.
      + injection H as <- _ _ <-. split; [exact Hs|]. split; [reflexivity|]. exact Hf. }
  clearbody step. destruct step as [[[[c1 n1] an1] f1]|]; cbn [rbind] in E; [|discriminate E].
  destruct (St _ _ _ _ eq_refl) as (S1 & L1 & R1).
  set (conv := match g with Some _ => _ | None => _ end) in *.
  assert (Cv : forall c2 n2 f2, conv = Ok (c2, n2, f2) -> fn_L f2 = fn_L f /\ (fn_reality f2 = true -> reality (fn_L f) c2)).
  { intros c2 n2 f2 H. unfold conv in H. destruct g as [g|]; [|injection H as <- _ <-; split; [exact L1|exact R1]].
    unfold convolution_helper in H. rewrite S1 in H. cbn [rbind] in H.
    destruct (fn_convolve _ _ _ _) as [[r h']|] eqn:Ec; cbn [rbind] in H; [|discriminate H].
    assert (F := CV _ _ _ _ _ _ Ec). unfold fn_convolve in Ec.
    destruct (sifting_convolution _ _ _) as [[x|x y]|]; cbn [rbind] in Ec; [|discriminate Ec|discriminate Ec]. injection Ec as _ <-.
    injection H as _ _ <-. split; [exact L1|discriminate]. }
  clearbody conv. destruct conv as [[[c2 n2] f2]|]; cbn [rbind] in E; [|discriminate E]. destruct (Cv _ _ _ eq_refl) as (L2 & R2).
  unfold rotate_earth_to_africa, rotate_earth_to_south_america in E. rewrite L2 in E.
  destruct (contains "earth" n2); [|cbn [rbind] in E; injection E as <- _ _ <-; exact (R2 Hr)].
  destruct (String.eqb (pa_view a) "africa"); [|destruct (String.eqb (pa_view a) "south_america")];
    [| |cbn [rbind] in E; injection E as <- _ _ <-; exact (R2 Hr)];
    (destruct (rotate_flms _ _ _ _ _) as [x|] eqn:Er; cbn [rbind] in E; [|discriminate E]; injection E as <- _ _ <-;
     exact (Hrot _ _ _ _ _ (R2 Hr) Er)).
Qed.
Print Assumptions C63_reality.

(** ** The figure of a harmonic function: each vertex has its direction and the
    value there of the function with the coefficients computed. *)
Theorem C63_figure : forall inverse forward rotate_flms create_ylm ti pi land Yf f g a fs c n ann f' t G,
  1 <= fn_L f -> fn_slepian f = None -> In (t, G) plot_types -> pa_type a = t -> pa_normalise a = false ->
  plot_coefficients inverse rotate_flms create_ylm ti pi f g a = Ok (c, n, ann, f') -> List.length c = fn_L f * fn_L f ->
  let M := plot_resolution (fn_L f) (pa_upsample a) in
  (pa_upsample a = true ->
     forward (fn_spin f) (fn_reality f') (fn_L f) (inverse (fn_spin f) (fn_reality f') (fn_L f) c) = c) ->
  synthesised M (at_samples Yf M) (inverse (fn_spin f) (fn_reality f')) (c ++ repeat (RtoC 0) (M * M - fn_L f * fn_L f)) ->
  exists fig, plot inverse forward rotate_flms create_ylm ti pi land f g a fs
      = Ok (fig, figure_name n (fn_L f) (pa_upsample a) t false, ann, fs) /\
    forall i j, i <= M -> j <= 2 * M ->
      sample (fg_pos fig) i j = Some (direction M i j) /\
      sample (fg_colour fig) i j
        = Some (G (value Yf (fn_L f) c (PI * INR i / INR M)%R (PI * INR (closing M j) / INR M)%R)).
Proof.
  intros inverse forward rotate_flms create_ylm ti pi land Yf f g a fs c n ann f' t G HL Hs Ht <- Hn E Hl M Hfi Hsy.
  assert (K : fn_L f' = fn_L f /\ fn_spin f' = fn_spin f /\ fn_slepian f' = None).
  { destruct (step_function _ _ _ _ _ _ _ _ _ _ _ _ E) as [-> | ->]; repeat split; assumption. }
  destruct K as (KL & Ks & Kn).
  assert (HM : fn_L f <= M) by (apply resolution_ge; exact HL).
  unfold plot. rewrite E. cbn [rbind]. rewrite Kn, KL, Ks, Hn. cbn [coefficients_to_field_sphere rbind].
  set (field := inverse (fn_spin f) (fn_reality f') (fn_L f) c).
  assert (Pv : exists vals, prepare_field inverse forward field (fn_L f) (fn_reality f') (fn_spin f) (pa_upsample a) (pa_type a) false = Ok vals /\
     List.length vals = samples M /\
     forall k, k < samples M -> nth k vals 0%R = G (csum (fn_L f * fn_L f) (fun i => Cmult (nth i c (RtoC 0)) (at_samples Yf M i k)))).
  { destruct (pa_upsample a) eqn:Eu.
    - exact (C59_values inverse forward (fn_L f) (at_samples Yf M) c (pa_type a) G (fn_reality f') (fn_spin f) HL Hl Ht (Hfi eq_refl) Hsy).
    - destruct (C59_no_upsampling inverse forward (fn_L f) field (pa_type a) G (fn_reality f') (fn_spin f) Ht) as [Ep EM].
      exists (map G field). split; [exact Ep|]. assert (EM' : M = fn_L f) by exact EM.
      clearbody M. subst M. rewrite Nat.sub_diag in Hsy. cbn [repeat] in Hsy. rewrite app_nil_r in Hsy. unfold synthesised in Hsy. unfold field.
      rewrite Hsy, !map_length, seq_length. split; [reflexivity|]. intros k Hk.
      rewrite map_map, nth_map_seq by exact Hk. reflexivity. }
  destruct Pv as (vals & Ep & Lv & Vv).
  destruct (C59_surface inverse forward land field (fn_L f) (pa_amplitude a) false (pa_type a) (fn_reality f') (fn_spin f)
              (pa_upsample a) fs vals HL Ep Lv) as (fig & Ef & _ & _ & Hfig).
  rewrite Ef. cbn [rbind]. exists fig. split; [reflexivity|]. intros i j Hi Hj. destruct (Hfig i j Hi Hj) as [Hp Hc].
  fold M in Hp, Hc. split; [exact Hp|]. rewrite Hc. f_equal.
  assert (Hcl : closing M j < 2 * M) by (unfold closing; destruct (Nat.eqb_spec j (2 * M)); lia).
  rewrite Vv by (unfold samples, n_theta, n_phi; nia). unfold value, at_samples.
  rewrite Nat.div_add_l by lia. rewrite Nat.div_small, Nat.add_0_r by exact Hcl.
  rewrite Nat.add_comm, Nat.mod_add, Nat.mod_small by lia. reflexivity.
Qed.
Print Assumptions C63_figure.

(** The figure of a Slepian function: inside the region the value of the
    expansion in the first [N] Slepian functions, the marker outside. *)
Theorem C63_slepian_figure : forall inverse forward rotate_flms create_ylm ti pi land Yf f g a fs c n ann f' t G s r mask fs',
  1 <= fn_L f -> fn_slepian f = Some s -> fn_region f = Some r -> slepian_basis (fn_L f) s ->
  fn_spin f = 0%Z -> fn_reality f = false ->
  In (t, G) plot_types -> pa_type a = t -> pa_normalise a = false ->
  plot_coefficients inverse rotate_flms create_ylm ti pi f g a = Ok (c, n, ann, f') -> Nn s <= List.length c ->
  let L := fn_L f in let M := plot_resolution L (pa_upsample a) in
  sampling_theorem L (inverse 0%Z false) (forward 0%Z false) ->
  synthesis L (at_samples Yf L) (inverse 0%Z false) -> synthesis M (at_samples Yf M) (inverse 0%Z false) ->
  create_mask_region land M (sample_grid M) r fs = Ok (mask, fs') ->
  exists fig, plot inverse forward rotate_flms create_ylm ti pi land f g a fs
      = Ok (fig, figure_name n L (pa_upsample a) t false, ann, fs') /\
    forall i j, i <= M -> j <= 2 * M ->
      sample (fg_pos fig) i j = Some (direction M i j) /\
      exists b, sample mask i (closing M j) = Some b /\
        sample (fg_colour fig) i j
          = if b then Some (G (csum (Nn s) (fun p => Cmult (nth p c (RtoC 0))
                          (value Yf L (evec s p) (PI * INR i / INR M)%R (PI * INR (closing M j) / INR M)%R))))
            else Some SPHERE_UNSEEN.
Proof.
  intros inverse forward rotate_flms create_ylm ti pi land Yf f g a fs c n ann f' t G s r mask fs'
    HL Hs Hrg HB Hsp Hre Ht <- Hn E Hl L M HF HYL HYM Hm.
  assert (K : fn_L f' = L /\ fn_spin f' = 0%Z /\ fn_slepian f' = Some s /\ fn_region f' = Some r /\ fn_reality f' = false).
  { destruct (step_function _ _ _ _ _ _ _ _ _ _ _ _ E) as [-> | ->]; repeat split; assumption. }
  destruct K as (KL & Ks & Kn & Kr & Kf).
  assert (HM : L <= M) by (apply resolution_ge; exact HL).
  unfold plot. rewrite E. cbn [rbind]. rewrite Kn, KL, Ks, Kr, Kf, Hn. cbn [coefficients_to_field_sphere].
  rewrite (slepian_inverse_ok (inverse 0%Z false) L (at_samples Yf L) s c HYL HB Hl). cbn [rbind].
  set (flm := expand L s c). assert (Lflm : List.length flm = L * L) by apply expand_length.
  set (field := inverse 0%Z false L flm).
  assert (Pv : exists vals, prepare_field inverse forward field L false 0%Z (pa_upsample a) (pa_type a) false = Ok vals /\
     List.length vals = samples M /\
     forall k, k < samples M -> nth k vals 0%R = G (csum (L * L) (fun i => Cmult (nth i flm (RtoC 0)) (at_samples Yf M i k)))).
  { destruct (pa_upsample a) eqn:Eu.
    - apply (C59_values inverse forward L (at_samples Yf M) flm (pa_type a) G false 0%Z HL Lflm Ht (HF flm Lflm)).
      apply HYM. rewrite app_length, repeat_length, Lflm. fold M. assert (L * L <= M * M) by (apply Nat.mul_le_mono; exact HM). lia.
    - destruct (C59_no_upsampling inverse forward L field (pa_type a) G false 0%Z Ht) as [Ep EM].
      exists (map G field). split; [exact Ep|]. assert (EM' : M = L) by exact EM.
      unfold field. rewrite (HYL flm Lflm). rewrite EM', !map_length, seq_length. split; [reflexivity|]. intros k Hk.
      rewrite map_map, nth_map_seq by exact Hk. reflexivity. }
  destruct Pv as (vals & Ep & Lv & Vv).
  destruct (C59_surface inverse forward land field L (pa_amplitude a) false (pa_type a) false 0%Z
              (pa_upsample a) fs vals HL Ep Lv) as (fig & Ef & Sh & _ & Hfig).
  destruct (C59_region inverse forward land field L (pa_amplitude a) false (pa_type a) false r 0%Z
              (pa_upsample a) fs fig HL Ef Sh mask fs' Hm) as (fig' & Ef' & Epos & _ & _ & _ & Hreg).
  rewrite Ef'. cbn [rbind]. exists fig'. split; [reflexivity|]. intros i j Hi Hj. destruct (Hfig i j Hi Hj) as [Hp Hc].
  fold M in Hp, Hc. rewrite Epos. split; [exact Hp|]. destruct (Hreg i j Hi Hj) as (b & Sb & Sc). exists b. split; [exact Sb|].
  rewrite Sc. destruct b; [|reflexivity]. rewrite Hc. f_equal.
  assert (Hcl : closing M j < 2 * M) by (unfold closing; destruct (Nat.eqb_spec j (2 * M)); lia).
  rewrite Vv by (unfold samples, n_theta, n_phi; nia). f_equal. unfold value, at_samples.
  rewrite Nat.div_add_l by lia. rewrite Nat.div_small, Nat.add_0_r by exact Hcl.
  rewrite (Nat.add_comm (i * (2 * M))), Nat.mod_add, Nat.mod_small by lia.
  rewrite (csum_ext (L * L) _ (fun k => csum (Nn s) (fun p => Cmult (nth p c (RtoC 0)) (Cmult (nth k (evec s p) (RtoC 0))
     (Yf k (PI * INR i / INR M)%R (PI * INR (closing M j) / INR M)%R))))).
  - rewrite csum_swap. apply csum_ext. intros p _. rewrite csum_scal_l. reflexivity.
  - intros k Hk. unfold flm, expand. rewrite nth_map_seq by exact Hk. rewrite <- csum_scal_r. apply csum_ext. intros p _. ring.
Qed.
Print Assumptions C63_slepian_figure.

(** The rotation to the view of the Earth is meant for harmonic coefficients but
    is also applied to the [N] Slepian coefficients of a Slepian function
    convolved with the Earth: if the rotation rejects arrays that do not have
    [L^2] entries, the command fails. *)
Theorem C63_slepian_earth_refuted : forall inverse rotate_flms create_ylm ti pi f g a s e,
  pa_method a = "north" -> pa_view a = "africa" \/ pa_view a = "south_america" ->
  fn_slepian f = Some s -> slepian_basis (fn_L f) s -> Nn s < fn_L f * fn_L f -> Nn s <= List.length (fn_coefficients f) ->
  contains "earth" (fn_name g) = true -> List.length (fn_coefficients g) = fn_L f * fn_L f ->
  (forall flm x y z, List.length flm <> fn_L f * fn_L f -> rotate_flms flm x y z (fn_L f) = Err e) ->
  plot_coefficients inverse rotate_flms create_ylm ti pi f (Some g) a = Err e.
Proof.
  intros inverse rotate_flms create_ylm ti pi f g a s e Hm Hv Hs HB HN Hc Hg Hlg Hrot.
  assert (E0 : plot_coefficients inverse rotate_flms create_ylm ti pi f None (with_view "" a) = Ok (fn_coefficients f, fn_name f, [], f)).
  { apply north_ok; cbn [with_view pa_method pa_view]; rewrite ?Hm; (discriminate || reflexivity). }
  destruct (C63_convolve_slepian inverse rotate_flms create_ylm ti pi f g (with_view "" a) s _ _ _ _ _ eq_refl Hs HB E0 eq_refl Hlg Hc)
    as (h & Eh & Lh & _).
  unfold plot_coefficients in *. cbn [with_view pa_method pa_alpha pa_beta pa_gamma pa_annotations pa_view] in *.
  rewrite Hm in *. cbn [String.eqb Ascii.eqb Bool.eqb rbind] in *.
  destruct (convolution_helper _ f g _ _ _) as [[[c2 n2] f2]|]; cbn [rbind] in *; [|discriminate Eh].
  assert (Q : Ok (c2, n2, @nil (R * R * R), f2) = Ok (h, (fn_name f ++ "_convolved_" ++ fn_name g)%string, [], set_reality false f))
    by (rewrite <- Eh; destruct (contains "earth" n2); reflexivity).
  clear Eh. assert (Q1 : n2 = (fn_name f ++ "_convolved_" ++ fn_name g)%string) by congruence.
  assert (Q2 : c2 = h) by congruence. assert (Q3 : f2 = set_reality false f) by congruence. clear Q. subst n2 c2 f2.
  assert (Ce : contains "earth" (fn_name f ++ "_convolved_" ++ fn_name g)%string = true).
  { apply contains_spec in Hg. destruct Hg as (x & y & ->). apply contains_spec. exists (fn_name f ++ "_convolved_" ++ x)%string, y.
    rewrite !append_assoc_s. reflexivity. }
  rewrite Ce. cbn [set_reality fn_L]. unfold rotate_earth_to_africa, rotate_earth_to_south_america.
  destruct Hv as [-> | ->]; cbn [String.eqb Ascii.eqb Bool.eqb]; rewrite Hrot by lia; reflexivity.
Qed.
Print Assumptions C63_slepian_earth_refuted.

(** ** Cases *)
Module CliCases.
  (** The four functions 1, -sin(theta) exp(-i phi), cos(theta) and
      sin(theta) exp(i phi) with rotations about the axis. *)
  Definition Yf (i : nat) (theta phi : R) : C :=
    match i with
    | 0 => RtoC 1 | 1 => (- (sin theta * cos phi), sin theta * sin phi)%R
    | 2 => RtoC (cos theta) | 3 => (sin theta * cos phi, sin theta * sin phi)%R
    | _ => RtoC 0
    end.
  Definition inverse (spin : Z) (reality : bool) (M : nat) (v : list C) : list C :=
    map (fun k => csum (M * M) (fun i => Cmult (nth i v (RtoC 0)) (at_samples Yf M i k))) (seq 0 (samples M)).
  Definition forward (spin : Z) (reality : bool) (M : nat) (v : list C) : list C := v.
  Definition rotate_flms (flm : list C) (a b g : R) (L : nat) : res (list C) :=
    if List.length flm =? L * L then
      Ok (map (fun i => Cmult (nth i flm (RtoC 0))
         (match i with 1 => (cos (a + g), sin (a + g))%R | 3 => (cos (a + g), - sin (a + g))%R | _ => RtoC 1 end)) (seq 0 (L * L)))
    else Err IndexError.
  Definition turn (a b g : R) (p : R * R) : R * R := (fst p, (snd p - (a + g))%R).
  Definition create_ylm (theta phi : R) (L : nat) : list C := map (fun i => Yf i theta phi) (seq 0 (L * L)).

  Lemma rotates_2 : rotates Yf turn rotate_flms 2.
  Proof.
    intros flm a b g Hl. unfold rotate_flms. rewrite Hl, Nat.eqb_refl. eexists. split; [reflexivity|].
    split; [rewrite map_length, seq_length; reflexivity|].
    intros theta phi. unfold value, turn. cbn [fst snd].
    rewrite !(csum_ext (2 * 2) (fun i => Cmult (nth i (map _ _) _) _) (fun i => Cmult (Cmult (nth i flm (RtoC 0))
         (match i with 1 => (cos (a + g), sin (a + g))%R | 3 => (cos (a + g), - sin (a + g))%R | _ => RtoC 1 end)) (Yf i theta phi)))
      by (intros i Hi; rewrite nth_map_seq by exact Hi; reflexivity).
    assert (Sm : forall F : nat -> C, csum (2 * 2) F = Cplus (Cplus (Cplus (F 0) (F 1)) (F 2)) (F 3)).
    { intros F. cbn. apply C_ext; cbn; ring. }
    rewrite !Sm. cbn [Yf]. rewrite cos_minus, sin_minus.
    apply C_ext; cbn; ring.
  Qed.

  (** The function sin(theta) exp(i phi). *)
  Definition f : fn := {| fn_name := "swirl_L2"; fn_L := 2; fn_coefficients := [RtoC 0; RtoC 0; RtoC 0; RtoC 1];
    fn_slepian := None; fn_region := None; fn_reality := false; fn_spin := 0%Z |}.
  Definition earth : fn := {| fn_name := "earth_L2"; fn_L := 2; fn_coefficients := [RtoC 1; (0, 1)%R; RtoC 2; (0, 1)%R];
    fn_slepian := None; fn_region := None; fn_reality := true; fn_spin := 0%Z |}.
  Definition a (method view : string) : plot_args :=
    {| pa_alpha := 3 # 4; pa_beta := 1 # 8; pa_gamma := 1 # 2; pa_annotations := true; pa_normalise := false;
       pa_method := method; pa_type := "real"; pa_upsample := false; pa_view := view; pa_amplitude := None |}.

  (** Rotated and plotted: the vertex in row 1, column 1 has colatitude and
      longitude PI/2. *)
  Example C63_rotate_case : forall fs, exists alpha beta fig,
    calc_nearest_grid_point 2 (Q2R (3 # 4)) (Q2R (1 # 8)) = Ok (alpha, beta) /\
    plot inverse forward rotate_flms create_ylm (fun _ _ => 0) (fun _ _ => 0) (fun _ _ => []) f None (a "rotate" "") fs
      = Ok (fig, "swirl_L2_rotate_alpha3pi4_beta1pi8_gamma1pi2_real"%string, [], fs) /\
    sample (fg_colour fig) 1 1 = Some (cos (PI / 2 - (alpha + PI / 2)))%R.
  Proof.
    intros fs. destruct (C37_nearest 2 (Q2R (3 # 4)) (Q2R (1 # 8)) ltac:(lia)) as (j & i & E & _).
    set (alpha := (PI * INR j / INR 2)%R) in *. set (beta := (PI * INR i / INR 2)%R) in *. exists alpha, beta.
    destruct (C63_rotate inverse rotate_flms create_ylm (fun _ _ => 0) (fun _ _ => 0) Yf turn f (a "rotate" "") alpha beta
      eq_refl eq_refl eq_refl eq_refl rotates_2 E) as (c & Ec & Lc & Vc).
    edestruct (C63_figure inverse forward rotate_flms create_ylm (fun _ _ => 0) (fun _ _ => 0) (fun _ _ => []) Yf f None (a "rotate" "") fs)
      with (G := Re) as (fig & Ef & Hf).
    - cbn. lia.
    - reflexivity.
    - left. reflexivity.
    - reflexivity.
    - reflexivity.
    - exact Ec.
    - exact Lc.
    - discriminate.
    - cbn [fn_L f pa_upsample a plot_resolution]. rewrite Nat.sub_diag, app_nil_r. unfold synthesised, inverse. reflexivity.
    - exists fig. split; [exact E|]. split; [rewrite Ef; f_equal|].
      destruct (Hf 1 1) as [_ H]; [cbn; lia|cbn; lia|]. rewrite H. f_equal.
      rewrite (Vc _ _). cbn [fst snd turn f fn_L fn_coefficients a pa_upsample plot_resolution pa_gamma].
      assert (C1 : closing 2 1 = 1) by reflexivity. rewrite C1. cbn [INR].
      assert (Sm : forall F : nat -> C, csum (2 * 2) F = Cplus (Cplus (Cplus (F 0) (F 1)) (F 2)) (F 3)).
      { intros F. cbn. apply C_ext; cbn; ring. }
      unfold value. rewrite Sm. cbn [nth Yf].
      replace (PI * 1 / (1 + 1))%R with (PI / 2)%R by field. replace (Q2R (1 # 2) * PI)%R with (PI / 2)%R by (unfold Q2R; cbn; field).
      rewrite sin_PI2. cbn. ring.
  Qed.

  (** Translated: the coefficients, the annotation and the name. *)
  Example C63_translate_case : exists c alpha beta,
    calc_nearest_grid_point 2 (Q2R (3 # 4)) (Q2R (1 # 8)) = Ok (alpha, beta) /\
    plot_coefficients inverse rotate_flms create_ylm (fun _ _ => 0) (fun _ _ => 0) f None (a "translate" "")
      = Ok (c, "swirl_L2_translate_alpha3pi4_beta1pi8"%string, [(sin beta * cos alpha, sin beta * sin alpha, cos beta)%R], f) /\
    nth 3 c (RtoC 0) = (sin beta * cos alpha, sin beta * sin alpha)%R.
  Proof.
    destruct (C37_nearest 2 (Q2R (3 # 4)) (Q2R (1 # 8)) ltac:(lia)) as (j & i & E & _).
    set (alpha := (PI * INR j / INR 2)%R) in *. set (beta := (PI * INR i / INR 2)%R) in *.
    destruct (C63_translate inverse rotate_flms create_ylm (fun _ _ => 0) (fun _ _ => 0) Yf f (a "translate" "") alpha beta
      eq_refl eq_refl eq_refl eq_refl eq_refl (fun _ _ => eq_refl) E) as (c & Ec & _ & Vc).
    exists c, alpha, beta. split; [exact E|]. split; [exact Ec|].
    rewrite Vc by (cbn; lia). cbn [f fn_coefficients nth Yf]. apply C_ext; cbn; ring.
  Qed.

  (** A Slepian function at the sample nearest to the angles. *)
  Example C63_translate_slepian_case : exists c,
    plot_coefficients (fun _ _ => toy_inverse) rotate_flms create_ylm (fun _ _ => 1) (fun _ _ => 2)
      {| fn_name := "swirl"; fn_L := 2; fn_coefficients := [RtoC 5; (0, 10)%R]; fn_slepian := Some toy;
         fn_region := None; fn_reality := true; fn_spin := 0 |} None (a "translate" "")
    = Ok (c, "swirl_translate_alpha3pi4_beta1pi8"%string,
          [let p := match calc_nearest_grid_point 2 (Q2R (3 # 4)) (Q2R (1 # 8)) with Ok p => p | Err _ => (0, 0)%R end in
           (sin (snd p) * cos (fst p), sin (snd p) * sin (fst p), cos (snd p))%R],
          {| fn_name := "swirl"; fn_L := 2; fn_coefficients := [RtoC 5; (0, 10)%R]; fn_slepian := Some toy;
             fn_region := None; fn_reality := false; fn_spin := 0 |}) /\
    List.length c = 2 /\ nth 0 c (RtoC 0) = Cmult (RtoC 5) (csum 4 (fun i => Cmult (nth i (evec toy 0) (RtoC 0)) (toy_Y i 6))).
  Proof.
    destruct (C37_nearest 2 (Q2R (3 # 4)) (Q2R (1 # 8)) ltac:(lia)) as (j & i & E & _).
    destruct (C63_translate_slepian (fun _ _ => toy_inverse) rotate_flms create_ylm (fun _ _ => 1) (fun _ _ => 2) toy_Y
      {| fn_name := "swirl"; fn_L := 2; fn_coefficients := [RtoC 5; (0, 10)%R]; fn_slepian := Some toy;
         fn_region := None; fn_reality := true; fn_spin := 0 |} toy (a "translate" "") _ _ 1 2
      eq_refl eq_refl eq_refl eq_refl (toy_synthesis 2) toy_basis (le_n 2) E eq_refl eq_refl ltac:(cbn; lia) ltac:(cbn; lia)) as (c & Ec & Lc & Vc).
    exists c. rewrite E. split; [exact Ec|]. split; [exact Lc|]. exact (Vc 0 ltac:(cbn; lia)).
  Qed.

  (** A function convolved with the Earth, seen from Africa: the first
      coefficient is that of the Earth times the conjugate. *)
  Example C63_convolve_case : exists h c',
    plot_coefficients inverse rotate_flms create_ylm (fun _ _ => 0) (fun _ _ => 0) f (Some earth) (a "north" "")
      = Ok (h, "swirl_L2_convolved_earth_L2"%string, [], f) /\ nth 3 h (RtoC 0) = (0, 1)%R /\
    plot_coefficients inverse rotate_flms create_ylm (fun _ _ => 0) (fun _ _ => 0) f (Some earth) (a "north" "africa")
      = Ok (c', "swirl_L2_convolved_earth_L2_africa"%string, [], f) /\
    value Yf 2 c' 0 0 = value Yf 2 h 0 (- (degrees 44 + degrees 341)).
  Proof.
    assert (E0 : plot_coefficients inverse rotate_flms create_ylm (fun _ _ => 0) (fun _ _ => 0) f None (a "north" "")
       = Ok (fn_coefficients f, fn_name f, [], f)) by (apply north_ok; (discriminate || reflexivity)).
    destruct (C63_convolve inverse rotate_flms create_ylm (fun _ _ => 0) (fun _ _ => 0) f earth (a "north" "") _ _ _ _
      eq_refl eq_refl E0 eq_refl) as (h & Eh & Lh & Vh).
    destruct (C63_view inverse rotate_flms create_ylm (fun _ _ => 0) (fun _ _ => 0) Yf turn f (Some earth) (a "north" "") h _ _ _
      Eh Lh rotates_2) as [_ V].
    destruct (V eq_refl) as [(c' & Ec & _ & Vc) _]. exists h, c'. split; [exact Eh|]. split; [|split; [exact Ec|]].
    - rewrite Vh. cbn. apply C_ext; cbn; ring.
    - specialize (Vc 0%R 0%R). unfold turn in Vc. cbn [fst snd f fn_L] in Vc. rewrite Vc. f_equal. ring.
  Qed.

  (** A constant plotted over a polar cap (bandlimit 1, one Slepian function):
      2 inside, the marker at the south pole. *)
  Definition Y1 (i : nat) (theta phi : R) : C := RtoC 1.
  Definition inverse1 (spin : Z) (reality : bool) (M : nat) (v : list C) : list C :=
    map (fun k => csum (M * M) (fun i => Cmult (nth i v (RtoC 0)) (at_samples Y1 M i k))) (seq 0 (samples M)).
  Definition forward1 (spin : Z) (reality : bool) (M : nat) (v : list C) : list C := firstn 1 v.
  Definition one : slepian := {| s_N := 1; s_evals := [1%R]; s_evecs := [[RtoC 1]] |}.
  Definition cap : region := mk_region false "" (2 * PI) 0 (PI / 2) 0 "" Polar.
  Definition f1 : fn := {| fn_name := "slepian_test_L1"; fn_L := 1; fn_coefficients := [RtoC 2];
    fn_slepian := Some one; fn_region := Some cap; fn_reality := false; fn_spin := 0%Z |}.

  Lemma one_basis : slepian_basis 1 one.
  Proof.
    unfold slepian_basis, one. cbn [s_N s_evecs List.length]. split; [lia|]. split; [cbn; lia|]. split; [lia|]. split.
    - intros v [<-|[]]. reflexivity.
    - intros p q u v Hp Hq. destruct p as [|[|p]], q as [|[|q]]; cbn [nth_error] in Hp, Hq; try discriminate.
      injection Hp as <-. injection Hq as <-. apply C_ext; cbn; ring.
  Qed.

  Example C63_slepian_case : forall fs, exists fig,
    plot inverse1 forward1 rotate_flms create_ylm (fun _ _ => 0) (fun _ _ => 0) (fun _ _ => []) f1 None (a "north" "africa") fs
      = Ok (fig, "slepian_test_L1_real"%string, [], fs) /\
    sample (fg_colour fig) 0 1 = Some 2%R /\ sample (fg_colour fig) 1 0 = Some SPHERE_UNSEEN.
  Proof.
    intros fs.
    assert (E0 : plot_coefficients inverse1 rotate_flms create_ylm (fun _ _ => 0) (fun _ _ => 0) f1 None (a "north" "africa")
       = Ok ([RtoC 2], "slepian_test_L1"%string, [], f1)) by reflexivity.
    assert (HY : synthesis 1 (at_samples Y1 1) (inverse1 0%Z false)) by (intros v Hv; reflexivity).
    assert (HS : sampling_theorem 1 (inverse1 0%Z false) (forward1 0%Z false)).
    { intros v Hv. destruct v as [|x [|y v]]; [discriminate Hv| |discriminate Hv].
      unfold forward1, inverse1, at_samples, Y1. cbn. f_equal. destruct x as [x y]. apply C_ext; cbn; ring. }
    edestruct (C63_slepian_figure inverse1 forward1 rotate_flms create_ylm (fun _ _ => 0) (fun _ _ => 0) (fun _ _ => []) Y1 f1 None
      (a "north" "africa") fs) with (G := Re) (s := one) (r := cap) as (fig & Ef & Hf);
      [cbn; lia|reflexivity|reflexivity|exact one_basis|reflexivity|reflexivity|left; reflexivity|reflexivity|reflexivity|exact E0
      |cbn; lia|exact HS|exact HY|exact HY|reflexivity|].
    exists fig. split; [exact Ef|]. split.
    - destruct (Hf 0 1) as [_ (b & Sb & Sc)]; [cbn; lia|cbn; lia|]. rewrite Sc.
      destruct b; [f_equal; change (Nn one) with 1; cbn; ring|exfalso]. cbn in Sb. injection Sb as Sb.
      assert (K := proj2 (polar_mask_spec false (PI / 2) (PI * 0 / 1))). cbn in K. rewrite K in Sb; [discriminate|].
      assert (0 < PI)%R by apply PI_RGT_0. lra.
    - destruct (Hf 1 0) as [_ (b & Sb & Sc)]; [cbn; lia|cbn; lia|]. rewrite Sc.
      destruct b; [exfalso|reflexivity]. cbn in Sb. injection Sb as Sb.
      apply (proj1 (polar_mask_spec false (PI / 2) (PI * 1 / 1))) in Sb. cbn in Sb.
      assert (0 < PI)%R by apply PI_RGT_0. lra.
  Qed.

  (** A Slepian function with two coefficients at bandlimit 2. *)
  Definition f2 : fn := {| fn_name := "slepian_test_L2"; fn_L := 2; fn_coefficients := [RtoC 1; RtoC 2];
    fn_slepian := Some toy; fn_region := Some cap; fn_reality := false; fn_spin := 0%Z |}.
  Example C63_slepian_earth_case :
    plot_coefficients inverse rotate_flms create_ylm (fun _ _ => 0) (fun _ _ => 0) f2 (Some earth) (a "north" "south_america") = Err IndexError.
  Proof.
    apply (C63_slepian_earth_refuted inverse rotate_flms create_ylm (fun _ _ => 0) (fun _ _ => 0) f2 earth (a "north" "south_america") toy);
      [reflexivity|right; reflexivity|reflexivity|exact toy_basis|cbn; lia|cbn; lia|reflexivity|reflexivity|].
    intros flm x y z H. unfold rotate_flms. cbn [f2 fn_L] in *. apply Nat.eqb_neq in H. rewrite H. reflexivity.
  Qed.

  (** Reality is kept by these rotations and holds for these functions. *)
  Lemma valid_2 el m : valid 2 el m -> (el, m) = (0, 0%Z) \/ (el, m) = (1, (-1)%Z) \/ (el, m) = (1, 0%Z) \/ (el, m) = (1, 1%Z).
  Proof.
    intros [H1 H2]. destruct el as [|[|el]]; [left; f_equal; lia| |lia].
    assert (m = -1 \/ m = 0 \/ m = 1)%Z as [-> |[-> | ->]] by lia; auto.
  Qed.
  Lemma reality_2 flm : reality 2 flm <->
    (forall i j s, In (i, j, s) [(0, 0, 1%R); (3, 1, (-1)%R); (2, 2, 1%R); (1, 3, (-1)%R)] ->
       nth i flm (RtoC 0) = Cmult (RtoC s) (Cconj (nth j flm (RtoC 0)))).
  Proof.
    assert (E : forall s : R, (s * 1 = s)%R) by (intros; ring). split.
    - intros H i j s [Q|[Q|[Q|[Q|[]]]]]; injection Q as <- <- <-.
      + exact (H 0 0%Z ltac:(split; lia)).
      + rewrite <- (E (-1)%R). exact (H 1 (-1)%Z ltac:(split; lia)).
      + exact (H 1 0%Z ltac:(split; lia)).
      + rewrite <- (E (-1)%R). exact (H 1 1%Z ltac:(split; lia)).
    - intros H el m Hv. apply valid_2 in Hv. destruct Hv as [Q|[Q|[Q|Q]]]; injection Q as -> ->.
      + exact (H 0 0 1%R ltac:(cbn; auto)).
      + specialize (H 3 1 (-1)%R ltac:(cbn; auto)). rewrite <- (E (-1)%R) in H. exact H.
      + exact (H 2 2 1%R ltac:(cbn; auto)).
      + specialize (H 1 3 (-1)%R ltac:(cbn; auto)). rewrite <- (E (-1)%R) in H. exact H.
  Qed.
  Example C63_reality_case : exists c,
    plot_coefficients inverse rotate_flms create_ylm (fun _ _ => 0) (fun _ _ => 0) earth None (a "rotate" "africa")
      = Ok (c, "earth_L2_rotate_alpha3pi4_beta1pi8_gamma1pi2_africa"%string, [], earth) /\ reality 2 c.
  Proof.
    destruct (C37_nearest 2 (Q2R (3 # 4)) (Q2R (1 # 8)) ltac:(lia)) as (j & i & E & _).
    set (alpha := (PI * INR j / INR 2)%R) in *. set (beta := (PI * INR i / INR 2)%R) in *.
    destruct (C63_rotate inverse rotate_flms create_ylm (fun _ _ => 0) (fun _ _ => 0) Yf turn earth (a "rotate" "") alpha beta
      eq_refl eq_refl eq_refl eq_refl rotates_2 E) as (c & Ec & Lc & _).
    destruct (C63_view inverse rotate_flms create_ylm (fun _ _ => 0) (fun _ _ => 0) Yf turn earth None (a "rotate" "") c _ _ _
      Ec Lc rotates_2) as [_ V].
    destruct (V eq_refl) as [(c' & Ec' & _ & _) _]. exists c'. split; [exact Ec'|].
    apply (C63_reality inverse rotate_flms create_ylm (fun _ _ => 0) (fun _ _ => 0) earth None (a "rotate" "africa") c' _ _ _
      eq_refl) in Ec'; [exact Ec'| | | |reflexivity].
    - intros _. apply reality_2. intros i' j' s [Q|[Q|[Q|[Q|[]]]]]; injection Q as <- <- <-; apply C_ext; cbn; ring.
    - intros flm x y z flm' Hr Er. cbn [earth fn_L] in *. unfold rotate_flms in Er. destruct (List.length flm =? 2 * 2); [|discriminate Er].
      injection Er as <-. apply reality_2. intros i' j' s Hin. assert (Q := proj1 (reality_2 flm) Hr i' j' s Hin).
      assert (Q1 := f_equal Re Q). assert (Q2 := f_equal Im Q). clear Q. cbn in Hin.
      destruct Hin as [Q|[Q|[Q|[Q|[]]]]]; injection Q as <- <- <-; cbn [nth map seq Nat.mul Nat.add] in *;
        [destruct (nth 0 flm (RtoC 0)) as [u v]|destruct (nth 3 flm (RtoC 0)) as [u v], (nth 1 flm (RtoC 0)) as [u' v']
        |destruct (nth 2 flm (RtoC 0)) as [u v]|destruct (nth 3 flm (RtoC 0)) as [u v], (nth 1 flm (RtoC 0)) as [u' v']];
        cbn in Q1, Q2; apply C_ext; cbn; nra.
    - intros theta phi. apply reality_2. intros i' j' s [Q|[Q|[Q|[Q|[]]]]]; injection Q as <- <- <-; apply C_ext; cbn; ring.
  Qed.
End CliCases.
