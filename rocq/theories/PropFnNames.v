(** * C62: the name of a function identifies it. *)
From Coq Require Import List ZArith QArith Qabs Arith Bool String Ascii Lia Lqa Reals.
From Verif Require Import Base PyNum PyNumProofs Names NamesProofs Args FnNames PropNames FnNamesProofs.
Import ListNotations.
Local Open Scope string_scope.
Local Open Scope list_scope.
Local Open Scope Z_scope.

(** The name of a function of any class but [Slepian]. *)
Definition full_name (c : cls) (p : params) (region : option string) (noise : option Q) (sm : option Z) (L : nat) : string :=
  match region with
  | Some e => slepian_function_name c p e noise sm L
  | None => function_name c p None noise sm L
  end.

Lemma snake_ends (c : cls) (p : params) e region noise sm L :
  add_details_to_name (create_name c p e) region noise sm L =
  (snake_name c ++ (match c with SlepianDiracDelta | SlepianIdentity | SlepianWavelets => "_" ++ e | _ => "" end)
   ++ params_name c p ++ (match region with Some r => if unmasked c then "" else String "_" r | None => "" end)
   ++ name_tail noise sm L)%string.
Proof.
  rewrite add_details_eq, create_name_unmasked. unfold create_name. fold (snake_name c). rewrite !append_assoc_s. reflexivity.
Qed.

Lemma tail_under noise sm L : exists s, name_tail noise sm L = String "_" s.
Proof.
  assert (A : forall v n t, exists s, (filename_args v n ++ t)%string = String "_" s).
  { intros v n t. destruct (args_shape v n) as (a & u & -> & _). cbn [append]. eauto. }
  unfold name_tail. destruct noise; [apply A|]. destruct sm; [apply A|]. cbn [append]. eauto.
Qed.

Lemma params_under c p t : (exists s, t = String "_" s) -> exists s, (params_name c p ++ t)%string = String "_" s.
Proof.
  intros T. assert (W := params_words c p). destruct W; [exact T|]. cbn [append]. eauto.
Qed.

Lemma names_inj c c' p p' e region noise noise' sm sm' L L' :
  c <> Slepian -> c' <> Slepian ->
  same_fields (default_params c) p = true -> same_fields (default_params c') p' = true ->
  params_exact p -> params_exact p' -> noise_exact noise -> noise_exact noise' ->
  add_details_to_name (create_name c p e) region noise sm L = add_details_to_name (create_name c' p' e) region noise' sm' L' ->
  c = c' /\ params_eq p p' /\ noise_eq noise noise' /\ sm = sm' /\ L = L'.
Proof.
  intros Nc Nc' Fp Fp' Xp Xp' Xn Xn' E. rewrite !snake_ends in E.
  assert (U : forall d q n s l, exists u, (params_name d q ++ (match region with Some r => if unmasked d then "" else String "_" r | None => "" end) ++ name_tail n s l)%string = String "_" u).
  { intros d q n s l. apply params_under. destruct region as [r|]; [destruct (unmasked d)|]; cbn [append]; try apply tail_under. eauto. }
  assert (U' : forall d q n s l, exists u, ((match d with SlepianDiracDelta | SlepianIdentity | SlepianWavelets => "_" ++ e | _ => "" end) ++ params_name d q ++ (match region with Some r => if unmasked d then "" else String "_" r | None => "" end) ++ name_tail n s l)%string = String "_" u).
  { intros d q n s l. assert (W := U d q n s l). destruct d; cbn [append]; try exact W; eauto. }
  apply class_split in E; [|assumption|assumption|apply U'|apply U']. destruct E as [<- E].
  apply append_inj_l in E.
  apply params_split in E; try assumption.
  - destruct E as [Ep E]. apply append_inj_l in E. apply tail_inj in E; tauto.
  - destruct region as [r|]; [destruct (unmasked c)|]; cbn [append]; try apply tail_ends; reflexivity.
  - destruct region as [r|]; [destruct (unmasked c)|]; cbn [append]; try apply tail_ends; reflexivity.
Qed.

(** ** C62: two functions on the same region (or on the whole sphere) with the
    same name are the same function: same class, fields, noise, smoothing and
    bandlimit — when their numbers are whole or fractions below one that the
    name can represent. *)
Theorem C62_identified : forall c c' p p' region noise noise' sm sm' L L',
  c <> Slepian -> c' <> Slepian ->
  same_fields (default_params c) p = true -> same_fields (default_params c') p' = true ->
  params_exact p -> params_exact p' -> noise_exact noise -> noise_exact noise' ->
  full_name c p region noise sm L = full_name c' p' region noise' sm' L' ->
  c = c' /\ params_eq p p' /\ noise_eq noise noise' /\ sm = sm' /\ L = L'.
Proof.
  intros c c' p p' [e|] noise noise' sm sm' L L'; cbn [full_name]; unfold slepian_function_name, function_name; apply names_inj.
Qed.
Print Assumptions C62_identified.

(** Harmonic functions with a region, and Slepian functions. *)
Theorem C62_harmonic : forall c c' p p' region noise noise' sm sm' L L',
  In c FLM -> In c' FLM ->
  same_fields (default_params c) p = true -> same_fields (default_params c') p' = true ->
  params_exact p -> params_exact p' -> noise_exact noise -> noise_exact noise' ->
  function_name c p region noise sm L = function_name c' p' region noise' sm' L' ->
  c = c' /\ params_eq p p' /\ noise_eq noise noise' /\ sm = sm' /\ L = L'.
Proof.
  intros c c' p p' region noise noise' sm sm' L L' Hc Hc'. unfold function_name. apply names_inj.
  - intros ->. cbn in Hc. repeat (destruct Hc as [Hc|Hc]; [discriminate Hc|]). exact Hc.
  - intros ->. cbn in Hc'. repeat (destruct Hc' as [Hc'|Hc']; [discriminate Hc'|]). exact Hc'.
Qed.
Print Assumptions C62_harmonic.

Example C62_names :
  function_name DiracDelta No_params None None None 16 = "dirac_delta_L16"
  /\ function_name SphericalHarmonic (Degree_order 3 (-2)) None None None 16 = "spherical_harmonic_3l_-2m_L16"
  /\ function_name Earth No_params (Some "polar40") (Some (inject_Z 10)) (Some 2) 128 = "earth_polar40_10noise_2smoothed_L128"
  /\ slepian_function_name SlepianWavelets (Scale 3 2 (Some 1)) "africa" None None 16 = "slepian_wavelets_africa_3B_2jmin_3j_L16".
Proof. repeat split; vm_compute; reflexivity. Qed.

(** ** Limits: numbers that are neither collide, and so do fields of
    different noise; nothing in the name says which of two equal renderings
    was meant. *)
Theorem C62_refuted : exists p p', same_fields (default_params HarmonicGaussian) p = true /\
  same_fields (default_params HarmonicGaussian) p' = true /\ ~ params_eq p p' /\
  forall region noise sm L, function_name HarmonicGaussian p region noise sm L = function_name HarmonicGaussian p' region noise sm L.
Proof.
  exists (Two_sigmas (3 # 2) 1), (Two_sigmas 3 1). split; [reflexivity|]. split; [reflexivity|]. split.
  - cbn. intros [H _]. unfold Qeq in H. cbn in H. lia.
  - intros region noise sm L. unfold function_name. f_equal.
Qed.
Print Assumptions C62_refuted.

(** The names of all classes with the defaults of their fields. *)
Example C62_default_names :
  map (fun c => function_name c (default_params c) None None None 16) FLM =
  ["africa_L16"; "axisymmetric_wavelet_coefficients_africa_3B_2jmin_scaling_L16";
   "axisymmetric_wavelet_coefficients_earth_3B_2jmin_scaling_L16";
   "axisymmetric_wavelet_coefficients_south_america_3B_2jmin_scaling_L16";
   "axisymmetric_wavelets_3B_2jmin_scaling_L16"; "dirac_delta_L16"; "earth_L16"; "elongated_gaussian_1tsig_1psig10_L16";
   "gaussian_10sig_L16"; "harmonic_gaussian_10lsig_10msig_L16"; "identity_L16"; "noise_earth_10snr_L16";
   "ridgelets_3B_2jmin_2spin_scaling_L16"; "south_america_L16"; "spherical_harmonic_0l_0m_L16";
   "squashed_gaussian_1tsig_1freq10_L16"; "wmap_L16"]
  /\ map (fun c => create_name c (default_params c) "africa") FP =
  ["slepian"; "slepian_africa"; "slepian_dirac_delta_africa"; "slepian_identity_africa"; "slepian_noise_africa_-10snr";
   "slepian_noise_south_america_-10snr"; "slepian_south_america"; "slepian_wavelet_coefficients_africa_3B_2jmin_scaling";
   "slepian_wavelet_coefficients_south_america_3B_2jmin_scaling"; "slepian_wavelets_africa_3B_2jmin_scaling"]
  /\ create_name Ridgelets (Spin_scale 2 1 2 (Some 3)) "" = "ridgelets_2B_1jmin_2spin_4j"
  /\ create_name SphericalHarmonic (Degree_order 3 (-2)) "" = "spherical_harmonic_3l_-2m".
Proof. repeat split; vm_compute; reflexivity. Qed.

(** ** The ending of the region is part of the name of a harmonic function
    exactly when the function is not a map of South America; the name of a
    Slepian function never gets it twice. *)
Theorem C62_region : forall c p e noise sm L, c <> Slepian ->
  (In c [SouthAmerica; AxisymmetricWaveletCoefficientsSouthAmerica] \/ In c FP ->
   add_details_to_name (create_name c p e) (Some e) noise sm L = add_details_to_name (create_name c p e) None noise sm L) /\
  (In c FLM -> ~ In c [SouthAmerica; AxisymmetricWaveletCoefficientsSouthAmerica] ->
   exists tail, function_name c p None noise sm L = (create_name c p "" ++ tail)%string /\
                function_name c p (Some e) noise sm L = (create_name c p "" ++ "_" ++ e ++ tail)%string).
Proof.
  intros c p e noise sm L Nc. split.
  - intros H. rewrite !add_details_eq, create_name_unmasked.
    assert (unmasked c = true) as ->; [|reflexivity].
    destruct H as [H|H]; cbn in H; repeat (destruct H as [<-|H]; [reflexivity|]); destruct H.
  - intros H N. exists (name_tail noise sm L). unfold function_name. rewrite !add_details_eq, create_name_unmasked.
    assert (unmasked c = false) as ->.
    { destruct (unmasked c) eqn:E; [|reflexivity]. exfalso. destruct c; try discriminate E; cbn in H, N; try tauto;
      repeat (destruct H as [H|H]; [discriminate H|]); exact H. }
    split; [reflexivity|]. cbn [append]. reflexivity.
Qed.
Print Assumptions C62_region.

Example C62_region_example :
  function_name SouthAmerica No_params (Some "polar40") None None 16 = "south_america_L16"
  /\ function_name Gaussian (Sigma 10) (Some "polar40") None None 16 = "gaussian_10sig_polar40_L16"
  /\ slepian_function_name SlepianAfrica No_params "africa" None None 16 = "slepian_africa_L16".
Proof. repeat split; vm_compute; reflexivity. Qed.

(** ** What the code reads off names. *)
Definition ordinary_region (e : string) : Prop :=
  forall w, In w (split_underscore e) -> contains "earth" w = false /\ prefix "delta" w = false.

Example ordinary_regions : Forall ordinary_region ["africa"; "south_america"; "polar40"; "polar_gap30"; "omega"; "37lon_-12lon"].
Proof.
  repeat (apply Forall_cons; [intros w H; cbn in H; repeat (destruct H as [<-|H]; [split; vm_compute; reflexivity|]); destruct H|]).
  apply Forall_nil.
Qed.

(** "earth" is in the name of the Earth functions only. *)
Theorem C62_earth : forall c p region noise sm L, c <> Slepian ->
  (forall e, region = Some e -> ordinary_region e) ->
  contains "earth" (full_name c p region noise sm L) = true <->
  In c [Earth; NoiseEarth; AxisymmetricWaveletCoefficientsEarth].
Proof.
  intros c p region noise sm L Nc Hr.
  assert (Ef : exists e, full_name c p region noise sm L = add_details_to_name (create_name c p e) region noise sm L /\ ordinary_region e).
  { destruct region as [e|]; [exists e; split; [reflexivity|auto]|exists ""%string; split; [reflexivity|]].
    intros w [<-|[]]. split; reflexivity. }
  destruct Ef as (e & -> & He). split.
  - intros H. apply contains_split in H; [|repeat split].
    destruct H as (u & Hin & Hu). destruct (name_words c p e region noise sm L) as (ws & vs & E & F1 & F2).
    rewrite E in Hin. clear E. rewrite Forall_forall in F1, F2.
    rewrite !in_app_iff in Hin. destruct Hin as [Hin|[Hin|[Hin|[Hin|Hin]]]].
    + destruct c; try congruence; vm_compute in Hin;
        repeat (destruct Hin as [<-|Hin]; [try discriminate Hu; cbn; tauto|]); destruct Hin.
    + exfalso. assert (K : contains "earth" u = false); [|congruence].
      destruct c; try (destruct Hin; fail); apply He; exact Hin.
    + exfalso. apply F1, plain_no_earth in Hin. congruence.
    + exfalso. destruct region as [r|]; [|destruct Hin]. destruct (unmasked c); [destruct Hin|].
      destruct (Hr r eq_refl u Hin). congruence.
    + exfalso. apply F2, plain_no_earth in Hin. congruence.
  - intros H. rewrite snake_ends. apply contains_app_l.
    cbn in H. repeat (destruct H as [<-|H]; [vm_compute; reflexivity|]). destruct H.
Qed.
Print Assumptions C62_earth.

(** "dirac_delta" is in the name of the two Dirac deltas only. *)
Theorem C62_dirac_delta : forall c p region noise sm L, c <> Slepian ->
  (forall e, region = Some e -> ordinary_region e) ->
  contains "dirac_delta" (full_name c p region noise sm L) = true <-> In c [DiracDelta; SlepianDiracDelta].
Proof.
  intros c p region noise sm L Nc Hr.
  assert (Ef : exists e, full_name c p region noise sm L = add_details_to_name (create_name c p e) region noise sm L /\ ordinary_region e).
  { destruct region as [e|]; [exists e; split; [reflexivity|auto]|exists ""%string; split; [reflexivity|]].
    intros w [<-|[]]. split; reflexivity. }
  destruct Ef as (e & -> & He). split.
  - intros H. apply (contains_second "dirac" "delta") in H; [|repeat split].
    destruct H as (u & Hin & Hu). destruct (name_words c p e region noise sm L) as (ws & vs & E & F1 & F2).
    rewrite E in Hin. clear E. rewrite Forall_forall in F1, F2.
    rewrite !in_app_iff in Hin. destruct Hin as [Hin|[Hin|[Hin|[Hin|Hin]]]].
    + destruct c; try congruence; vm_compute in Hin;
        repeat (destruct Hin as [<-|Hin]; [try discriminate Hu; cbn; tauto|]); destruct Hin.
    + exfalso. assert (K : prefix "delta" u = false); [|congruence].
      destruct c; try (destruct Hin; fail); apply He; exact Hin.
    + exfalso. destruct (F1 u Hin) as (_ & _ & _ & K). congruence.
    + exfalso. destruct region as [r|]; [|destruct Hin]. destruct (unmasked c); [destruct Hin|].
      destruct (Hr r eq_refl u Hin). congruence.
    + exfalso. destruct (F2 u Hin) as (_ & _ & _ & K). congruence.
  - intros H. rewrite snake_ends. apply contains_app_l.
    cbn in H. repeat (destruct H as [<-|H]; [vm_compute; reflexivity|]). destruct H.
Qed.
Print Assumptions C62_dirac_delta.

Example C62_read_example :
  contains "earth" (full_name NoiseEarth (Snr 10) (Some "polar40") None None 16) = true
  /\ contains "earth" (full_name SouthAmerica No_params None None (Some 2) 16) = false
  /\ contains "dirac_delta" (full_name SlepianDiracDelta No_params (Some "africa") None None 16) = true.
Proof. repeat split; vm_compute; reflexivity. Qed.

(** ** Slepian functions: the name tells the rank. *)
Lemma clean_app a b : clean_number (a ++ b)%string = (clean_number a ++ clean_number b)%string.
Proof.
  induction a as [|c a IH]; [reflexivity|]. cbn [append clean_number].
  destruct (Ascii.eqb c "."); [rewrite IH; reflexivity|]. destruct (Ascii.eqb c "+"); rewrite IH; reflexivity.
Qed.

Lemma clean_id s : no_char (fun c => Ascii.eqb c "." || Ascii.eqb c "+") s -> clean_number s = s.
Proof.
  induction s as [|c s IH]; [reflexivity|]. intros [H1 H2]. apply orb_false_iff in H1. destruct H1 as [H0 H1].
  cbn [clean_number]. rewrite H0, H1, (IH H2). reflexivity.
Qed.

Lemma clean_zstr z : clean_number (zstr z) = zstr z.
Proof.
  apply clean_id, no_char_zstr; [|reflexivity]. intros c H.
  destruct (Ascii.eqb_spec c "."); [subst; discriminate H|]. destruct (Ascii.eqb_spec c "+"); [subst; discriminate H|]. reflexivity.
Qed.

Lemma Ok_inj {A} (a b : A) : Ok a = Ok b -> a = b.
Proof. intros H. injection H. auto. Qed.

Theorem C62_slepian_rank : forall (fmt_e fmt_e' : R -> string) name order eigenvalues eigenvalues' r r' s,
  slepian_create_name fmt_e name order eigenvalues r = Ok s ->
  slepian_create_name fmt_e' name order eigenvalues' r' = Ok s -> r = r'.
Proof.
  intros f f' name order ev ev' r r' s E E'. unfold slepian_create_name in E, E'.
  assert (K : forall a b : string, (clean_number "_rank" ++ clean_number (zstr r) ++ clean_number "_lam" ++ a)%string =
    (clean_number "_rank" ++ clean_number (zstr r') ++ clean_number "_lam" ++ b)%string -> r = r').
  { intros a b H. apply append_inj_l in H. rewrite !clean_zstr in H. apply zstr_split_signed in H; [apply H|reflexivity|reflexivity]. }
  destruct order as [order|].
  - destruct (py_index order r) as [m|] eqn:Em; [|discriminate E]. destruct (py_index order r') as [m'|] eqn:Em'; [|discriminate E'].
    cbn [rbind] in E, E'. destruct (py_index ev r); [|discriminate E]. destruct (py_index ev' r'); [|discriminate E'].
    cbn [rbind] in E, E'. rewrite <- E in E'. apply Ok_inj in E'. rewrite !clean_app in E'. apply append_inj_l in E'.
    rewrite !append_assoc_s in E'. apply append_inj_l in E'. rewrite !(clean_zstr m), !(clean_zstr m') in E'.
    apply zstr_split_signed in E'; [|reflexivity|reflexivity]. destruct E' as [_ E']. symmetry in E'. exact (K _ _ E').
  - cbn [rbind] in E, E'. destruct (py_index ev r); [|discriminate E]. destruct (py_index ev' r'); [|discriminate E'].
    cbn [rbind] in E, E'. rewrite <- E in E'. apply Ok_inj in E'. rewrite !clean_app in E'. apply append_inj_l in E'.
    cbn [clean_number append] in E'. symmetry in E'. exact (K _ _ E').
Qed.
Print Assumptions C62_slepian_rank.

Example C62_slepian_example :
  let fmt (_ : R) := "9.876543e-01" in
  slepian_create_name fmt "slepian_polar40" (Some [0; -1; 1]) [1%R; 1%R; 1%R] 1 = Ok "slepian_polar40_m-1_rank1_lam9-876543e-01"
  /\ slepian_create_name fmt "slepian_polar40" (Some [0; -1; 1]) [1%R; 1%R; 1%R] 2 = Ok "slepian_polar40_m1_rank2_lam9-876543e-01"
  /\ slepian_create_name fmt "slepian_polar40" (Some [0; -1; 1]) [1%R; 1%R; 1%R] 3 = Err IndexError.
Proof. repeat split; reflexivity. Qed.

(** ** Mesh functions: the name tells the mesh, the class and the fields. *)
Definition mesh_head (c : mesh_cls) (m : string) : string :=
  match c with
  | MeshField => m ++ "_field"
  | MeshSlepianField => "slepian_" ++ m ++ "_field"
  | MeshNoiseField => m ++ "_noise_field"
  | MeshSlepianNoiseField => "slepian_" ++ m ++ "_noise_field"
  | MeshSlepianWavelets => "slepian_wavelets_" ++ m
  | MeshSlepianWaveletCoefficients => "slepian_wavelet_coefficients_" ++ m
  | MeshBasisFunctions => m ++ "_rank"
  | MeshSlepianFunctions => "slepian_" ++ m ++ "_rank"
  end%string.
Definition mesh_index (c : mesh_cls) : nat :=
  match c with
  | MeshField => 0 | MeshSlepianField => 1 | MeshNoiseField => 2 | MeshSlepianNoiseField => 3
  | MeshSlepianWavelets => 4 | MeshSlepianWaveletCoefficients => 5 | MeshBasisFunctions => 6 | MeshSlepianFunctions => 7
  end%nat.
Definition mesh_prefix_check : bool :=
  forallb (fun c => forallb (fun m => forallb (fun c' => forallb (fun m' =>
    (Nat.eqb (mesh_index c) (mesh_index c') && String.eqb m m') || negb (prefix (mesh_head c m) (mesh_head c' m')))
    MESHES) MESH_COEFFICIENTS) MESHES) MESH_COEFFICIENTS.

Lemma mesh_head_split c c' m m' r r' : In m MESHES -> In m' MESHES ->
  (mesh_head c m ++ r)%string = (mesh_head c' m' ++ r')%string -> c = c' /\ m = m' /\ r = r'.
Proof.
  intros Hm Hm' E.
  assert (P : forall c c' m m', In m MESHES -> In m' MESHES -> prefix (mesh_head c m) (mesh_head c' m') = true -> c = c' /\ m = m').
  { clear. intros c c' m m' Hm Hm' H. assert (K : mesh_prefix_check = true) by (vm_compute; reflexivity).
    assert (I : forall x, In x MESH_COEFFICIENTS) by (intros []; cbn; tauto).
    unfold mesh_prefix_check in K. rewrite forallb_forall in K. specialize (K c (I c)).
    rewrite forallb_forall in K. specialize (K m Hm). rewrite forallb_forall in K. specialize (K c' (I c')).
    rewrite forallb_forall in K. specialize (K m' Hm'). rewrite H, orb_false_r in K. apply andb_true_iff in K. destruct K as [K1 K2].
    split; [|apply String.eqb_eq; exact K2]. apply Nat.eqb_eq in K1. destruct c, c'; try reflexivity; discriminate K1. }
  assert (Q : c = c' /\ m = m').
  { destruct (app_prefix _ _ _ _ E) as [H|H]; [exact (P _ _ _ _ Hm Hm' H)|]. destruct (P _ _ _ _ Hm' Hm H). auto. }
  destruct Q as [<- <-]. split; [reflexivity|]. split; [reflexivity|]. exact (append_inj_l _ _ _ E).
Qed.

(** What follows the head. *)
Definition mesh_rest (p : params) (lam : string) : string :=
  match p with
  | Snr x => filename_args x "snr"
  | Scale B j_min j => filename_args (inject_Z B) "B" ++ filename_args (inject_Z j_min) "jmin" ++ wavelet_ending j_min j
  | Rank r => zstr r ++ "_lam" ++ clean_number lam
  | _ => ""
  end%string.

Lemma mesh_name_shape c m lam p : In m MESHES -> same_fields (mesh_default_params c) p = true ->
  mesh_create_name c m lam p = (mesh_head c m ++ mesh_rest p lam)%string.
Proof.
  intros Hm Hp. assert (Cm : clean_number m = m).
  { cbn in Hm. repeat (destruct Hm as [<-|Hm]; [reflexivity|]). destruct Hm. }
  destruct c; destruct p; try discriminate Hp; cbn [mesh_create_name mesh_head mesh_rest];
    rewrite ?append_nil_r; rewrite ?clean_app, ?clean_zstr, ?Cm; rewrite ?append_assoc_s; reflexivity.
Qed.

Theorem C62_mesh : forall c c' m m' lam lam' p p' region region' noise noise' zoom zoom',
  In m MESHES -> In m' MESHES ->
  same_fields (mesh_default_params c) p = true -> same_fields (mesh_default_params c') p' = true ->
  params_exact p -> params_exact p' ->
  mesh_add_details (mesh_create_name c m lam p) m region noise zoom =
  mesh_add_details (mesh_create_name c' m' lam' p') m' region' noise' zoom' ->
  c = c' /\ m = m' /\ params_eq p p'.
Proof.
  intros c c' m m' lam lam' p p' region region' noise noise' zoom zoom' Hm Hm' Fp Fp' Xp Xp' E.
  unfold mesh_add_details in E. rewrite (mesh_name_shape c), (mesh_name_shape c') in E by assumption.
  rewrite !append_assoc_s in E. apply mesh_head_split in E; [|assumption|assumption]. destruct E as (<- & <- & E).
  split; [reflexivity|]. split; [reflexivity|].
  assert (T : forall (b : bool) (n : option Q) (z : bool),
    ends_piece ((if b then "_region" else "") ++ match n with Some x => filename_args x "noise" | None => "" end ++ (if z then "_zoom" else ""))%string).
  { intros [] n z; [reflexivity|]. cbn [append]. destruct n; [apply args_ends|]. destruct z; [reflexivity|exact I]. }
  destruct c, p; try discriminate Fp; destruct p'; try discriminate Fp'; cbn [mesh_rest] in E; cbn [params_exact] in Xp, Xp'; cbn [params_eq]; try exact I.
  all: rewrite ?append_assoc_s in E.
  all: try (apply args_split in E; [apply E|letter|assumption|assumption|apply ends_nondigit, T|apply ends_nondigit, T]).
  all: try (apply zstr_split_signed in E; [apply E|reflexivity|reflexivity]).
  all: argsplit E H1; argsplit E H2.
  all: apply (proj1 (inject_Z_injective _ _)) in H1; apply (proj1 (inject_Z_injective _ _)) in H2; subst.
  all: apply ending_split in E; [|apply ends_nondigit, T|apply ends_nondigit, T].
  all: repeat split; apply E.
Qed.
Print Assumptions C62_mesh.

Example C62_mesh_example :
  mesh_add_details (mesh_create_name MeshSlepianWavelets "homer" "" (Scale 3 2 (Some 0))) "homer" true None true
    = "slepian_wavelets_homer_3B_2jmin_2j_region_zoom"
  /\ mesh_add_details (mesh_create_name MeshBasisFunctions "bird" "1.5e+01" (Rank 7)) "bird" false None false
    = "bird_rank7_lam1-5e01".
Proof. split; vm_compute; reflexivity. Qed.

(** The documented rule — the region is added to the names of functions other
    than Slepian functions — does not hold: the code looks for "slepian" in
    the name of the mesh, so every function with a region gets the suffix. *)
Theorem C62_mesh_region_refuted : forall m c lam p noise zoom, In m MESHES ->
  In c [MeshSlepianField; MeshSlepianFunctions; MeshSlepianNoiseField; MeshSlepianWaveletCoefficients; MeshSlepianWavelets] ->
  exists t, mesh_add_details (mesh_create_name c m lam p) m true noise zoom = (mesh_create_name c m lam p ++ "_region" ++ t)%string.
Proof.
  intros m c lam p noise zoom Hm _. unfold mesh_add_details.
  assert (contains "slepian" m = false) as ->.
  { cbn in Hm. repeat (destruct Hm as [<-|Hm]; [vm_compute; reflexivity|]). destruct Hm. }
  cbn [andb negb]. eexists. reflexivity.
Qed.
Print Assumptions C62_mesh_region_refuted.
