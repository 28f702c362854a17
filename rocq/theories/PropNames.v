(** * C39, C40: names. *)
From Coq Require Import List ZArith QArith Qabs Qreduction Arith Bool String Ascii Lia Lqa.
From Verif Require Import Base PyNum PyNumProofs Names NamesProofs.
Import ListNotations.
Local Open Scope string_scope.
Local Open Scope list_scope.
Local Open Scope Z_scope.

(** ** C39 *)

(** The fraction in a file name is in lowest terms, has a denominator of at most
    a million, and no fraction with such a denominator is closer. *)
Theorem C39_closest : forall x num dem, get_angle_num_dem x = (num, dem) ->
  Z.gcd num dem = 1 /\ 1 <= dem <= 1000000 /\
  forall r t, 1 <= t <= 1000000 ->
    (Qabs (Qmake num (Z.to_pos dem) - x) <= Qabs (Qmake r (Z.to_pos t) - x))%Q.
Proof.
  intros x num dem E. unfold get_angle_num_dem in E. injection E as <- <-. split; [apply limit_red|].
  split.
  - destruct (limit_best x 0 1) as (_ & A & _); unfold MAX_DENOMINATOR in *; lia.
  - intros r t Ht. destruct (limit_best x r (Z.to_pos t)) as (A & _ & _).
    + rewrite Z2Pos.id by lia. unfold MAX_DENOMINATOR. lia.
    + destruct (limit_denominator x) as [n d]. exact A.
Qed.
Print Assumptions C39_closest.

(** A value given with a small rounding error keeps its fraction. *)
Theorem C39_rounding : forall x p q, Z.gcd p (Zpos q) = 1 -> Zpos q <= 1000000 ->
  (Qabs (x - Qmake p q) * inject_Z (2 * Zpos q * 1000000) < 1)%Q -> get_angle_num_dem x = (p, Zpos q).
Proof. intros x p q G H E. unfold get_angle_num_dem. rewrite (limit_near x p q G H E). reflexivity. Qed.
Print Assumptions C39_rounding.

(** Names of rotations agree exactly when the three fractions agree. *)
Theorem C39_angles : forall a b g a' b' g', filename_angle a b g = filename_angle a' b' g' <->
  get_angle_num_dem a = get_angle_num_dem a' /\ get_angle_num_dem b = get_angle_num_dem b' /\
  get_angle_num_dem g = get_angle_num_dem g'.
Proof.
  assert (K : forall x y, get_angle_num_dem x = get_angle_num_dem y <-> limit_denominator x = limit_denominator y).
  { intros x y. unfold get_angle_num_dem. destruct (limit_denominator x) as [n d], (limit_denominator y) as [n' d']. cbn.
    split; intros E; injection E as -> ->; reflexivity. }
  assert (Rd : forall x, Qred (limit_denominator x) = limit_denominator x).
  { intros x. apply (limit_best x 0 1). unfold MAX_DENOMINATOR. lia. }
  intros a b g a' b' g'. rewrite !K. split.
  - intros E. rewrite !filename_angle_pieces in E. apply append_inj_l in E.
    apply piece_split in E; try apply Rd; try reflexivity. destruct E as [Ea E]. apply append_inj_l in E.
    apply piece_split in E; try apply Rd; try (match goal with |- ends_piece (if ?b then _ else _) => destruct b end; cbn; trivial; fail).
    destruct E as [Eb E]. split; [exact Ea|]. split; [exact Eb|].
    assert (Z0 : forall q, Qred q = q -> (Qnum q = 0)%Z -> q = 0%Q).
    { intros q R H. rewrite <- R. change 0%Q with (Qred 0). apply Qred_complete. unfold Qeq. cbn. lia. }
    destruct (Z.eqb_spec (Qnum (limit_denominator g)) 0) as [Hg|Hg], (Z.eqb_spec (Qnum (limit_denominator g')) 0) as [Hg'|Hg'];
      cbn [append] in E; try congruence.
    + rewrite (Z0 _ (Rd g) Hg), (Z0 _ (Rd g') Hg'). reflexivity.
    + assert (E' : angle_piece (limit_denominator g) = angle_piece (limit_denominator g')) by congruence.
      rename E' into E1. clear E. rename E1 into E. rewrite <- (append_nil_r (angle_piece (limit_denominator g))), <- (append_nil_r (angle_piece (limit_denominator g'))) in E.
      apply piece_split in E; try apply Rd; try exact I. apply E.
  - intros (Ea & Eb & Eg). rewrite !filename_angle_pieces, Ea, Eb, Eg. reflexivity.
Qed.
Print Assumptions C39_angles.

(** A value with a denominator of at most a million. *)
Definition representable (x : Q) : Prop := exists p q, 1 <= q <= 1000000 /\ (x == Qmake p (Z.to_pos q))%Q.

Lemma representable_limit x : representable x -> (limit_denominator x == x)%Q.
Proof.
  intros (p & q & Hq & E). destruct (limit_best x p (Z.to_pos q)) as (A & _ & _).
  - rewrite Z2Pos.id by lia. unfold MAX_DENOMINATOR. lia.
  - rewrite <- E in A. setoid_replace (x - x)%Q with 0%Q in A by ring. change (Qabs 0) with 0%Q in A.
    assert (B := Qabs_nonneg (limit_denominator x - x)). assert (C : (Qabs (limit_denominator x - x) == 0)%Q) by lra.
    destruct (Qabs_Qlt_condition (limit_denominator x - x) 1) as [_ _].
    assert (U := Qle_Qabs (limit_denominator x - x)). assert (V := Qle_Qabs (- (limit_denominator x - x))).
    rewrite Qabs_opp in V. lra.
Qed.

Theorem C39_angles_exact : forall a b g a' b' g',
  representable a -> representable b -> representable g -> representable a' -> representable b' -> representable g' ->
  filename_angle a b g = filename_angle a' b' g' -> (a == a' /\ b == b' /\ g == g')%Q.
Proof.
  assert (K : forall x y, representable x -> representable y -> get_angle_num_dem x = get_angle_num_dem y -> (x == y)%Q).
  { intros x y Hx Hy E. rewrite <- (representable_limit x Hx), <- (representable_limit y Hy).
    unfold get_angle_num_dem in E. destruct (limit_denominator x) as [n d], (limit_denominator y) as [n' d']. cbn in E.
    injection E as -> ->. reflexivity. }
  intros a b g a' b' g' Ha Hb Hg Ha' Hb' Hg' E. apply C39_angles in E as (Ea & Eb & Eg). auto.
Qed.
Print Assumptions C39_angles_exact.

(** Names of arguments distinguish integers and fractions below one. *)
Definition starts_letter (s : string) : Prop := exists c t, s = String c t /\ is_digit c = false.
Theorem C39_args : forall v w arg_name, starts_letter arg_name ->
  (exists z, v == inject_Z z)%Q \/ representable v /\ (Qabs v < 1)%Q ->
  (exists z, w == inject_Z z)%Q \/ representable w /\ (Qabs w < 1)%Q ->
  filename_args v arg_name = filename_args w arg_name -> (v == w)%Q.
Proof.
  intros v w n Hn Hv Hw E.
  assert (R : forall x, (exists z, x == inject_Z z)%Q \/ representable x /\ (Qabs x < 1)%Q -> (limit_denominator x == x)%Q).
  { intros x [[z Ez]|[Hx _]]; [rewrite (limit_wd _ _ Ez), limit_int, Ez; reflexivity|apply representable_limit, Hx]. }
  assert (Ed : forall x, (exists z, x == inject_Z z)%Q \/ representable x /\ (Qabs x < 1)%Q ->
    Qlt_bool (Qabs x) 1 && negb (Qeq_bool x 0) = false -> Qden (limit_denominator x) = 1%positive).
  { intros x [[z Ez]|[Hx Lx]] B.
    - rewrite (limit_wd _ _ Ez), limit_int. reflexivity.
    - apply andb_false_iff in B as [B|B].
      + exfalso. unfold Qlt_bool in B. apply negb_false_iff, Qle_bool_iff in B. lra.
      + apply negb_false_iff, Qeq_bool_iff in B. rewrite (limit_wd x 0%Q B). reflexivity. }
  rewrite <- (R v Hv), <- (R w Hw). specialize (Ed v Hv) as Edv. specialize (Ed w Hw) as Edw.
  assert (Dp : forall x, zstr (Zpos (Qden (limit_denominator x))) <> ""%string) by (intros x; apply zstr_nonneg_nil; lia).
  specialize (Dp v) as Dv. specialize (Dp w) as Dw.
  unfold filename_args, get_angle_num_dem in E. apply append_inj_l in E.
  destruct (limit_denominator v) as [nv dv], (limit_denominator w) as [nw dw]. cbn [Qnum Qden] in *.
  assert (Sn : forall t, starts_nondigit (n ++ t)%string).
  { intros t. destruct Hn as (c & n' & -> & Hc). exact Hc. }
  apply zstr_split_signed in E; try apply Sn. destruct E as [En E]. apply append_inj_l in E.
  destruct (Qlt_bool (Qabs v) 1 && negb (Qeq_bool v 0)) eqn:Bv, (Qlt_bool (Qabs w) 1 && negb (Qeq_bool w 0)) eqn:Bw.
  - apply zstr_inj in E. injection E as ->. rewrite En. reflexivity.
  - exfalso. exact (Dv E).
  - exfalso. symmetry in E. exact (Dw E).
  - rewrite (Edv eq_refl), (Edw eq_refl), En. reflexivity.
Qed.
Print Assumptions C39_args.

(** Not of fractions above one, whose denominator is dropped ... *)
Theorem C39_args_refuted : exists v w, ~ (v == w)%Q /\ representable v /\ representable w /\
  filename_args v "sig" = filename_args w "sig" /\ filename_args v "sig" = "_3sig"%string.
Proof.
  exists (3 # 2)%Q, 3%Q. split; [intros E; discriminate E|].
  split; [exists 3, 2; split; [lia|reflexivity]|]. split; [exists 3, 1; split; [lia|reflexivity]|]. vm_compute. auto.
Qed.
Print Assumptions C39_args_refuted.

(** ... nor of small values: all of them give the same name. *)
Theorem C39_tiny : forall v arg_name, ~ (v == 0)%Q -> (Qabs v * inject_Z 2000000 < 1)%Q ->
  filename_args v arg_name = ("_0" ++ arg_name ++ "1")%string.
Proof.
  intros v n Nz Hv. unfold filename_args. rewrite (C39_rounding v 0 1); [|reflexivity|lia|].
  - assert (P := Qabs_nonneg v). change (inject_Z 2000000) with 2000000%Q in Hv.
    assert (B : Qlt_bool (Qabs v) 1 = true).
    { unfold Qlt_bool. apply negb_true_iff. destruct (Qle_bool 1 (Qabs v)) eqn:E; [|reflexivity]. apply Qle_bool_iff in E. lra. }
    assert (C : Qeq_bool v 0 = false).
    { destruct (Qeq_bool v 0) eqn:E; [|reflexivity]. apply Qeq_bool_iff in E. contradiction. }
    rewrite B, C. reflexivity.
  - setoid_replace (v - (0 # 1))%Q with v by ring. exact Hv.
Qed.
Print Assumptions C39_tiny.

(** The endings of wavelet names distinguish the scaling function and every
    scale. *)
Theorem C39_wavelet_ending : forall j_min j j', wavelet_ending j_min j = wavelet_ending j_min j' -> j = j'.
Proof.
  intros jm j j' E.
  assert (S : forall z, filename_args (inject_Z z) "j" = ("_" ++ zstr z ++ "j" ++ (if Qlt_bool (Qabs (inject_Z z)) 1 && negb (Qeq_bool (inject_Z z) 0) then "1" else ""))%string).
  { intros z. unfold filename_args, get_angle_num_dem. rewrite limit_int. reflexivity. }
  assert (N : forall z s, filename_args (inject_Z z) "j" = "_scaling"%string -> s = z).
  { intros z s H. exfalso. rewrite S in H. assert (H' := append_inj_l "_" _ "scaling" H).
    destruct (Z_lt_le_dec z 0) as [Hz|Hz].
    - rewrite (zstr_neg z Hz) in H'. discriminate.
    - assert (A := zstr_digits z Hz). assert (B := zstr_nonneg_nil z Hz). destruct (zstr z) as [|c u]; [congruence|].
      cbn in H'. injection H' as -> _. destruct A as [A _]. discriminate. }
  destruct j as [j|], j' as [j'|]; cbn [wavelet_ending] in E.
  - apply C39_args in E.
    + apply (proj1 (inject_Z_injective _ _)) in E. f_equal. lia.
    + exists "j"%char, ""%string. split; reflexivity.
    + left. eexists. reflexivity.
    + left. eexists. reflexivity.
  - exfalso. assert (K := N _ (j + jm + 1) E). lia.
  - exfalso. symmetry in E. assert (K := N _ (j' + jm + 1) E). lia.
  - reflexivity.
Qed.
Print Assumptions C39_wavelet_ending.

(** *** Examples *)
(** The float nearest to 0.1, the default rotation, and a third. *)
Example C39_tenth : filename_args (3602879701896397 # 36028797018963968) "sig" = "_1sig10"%string.
Proof. vm_compute. reflexivity. Qed.
Example C39_default_rotation : filename_angle (3 # 4) (1 # 8) 0 = "alpha3pi4_beta1pi8"%string.
Proof. vm_compute. reflexivity. Qed.
Example C39_third : get_angle_num_dem (6004799503160661 # 18014398509481984) = (1, 3).
Proof. apply C39_rounding; [reflexivity|lia|reflexivity]. Qed.
Example C39_negative : filename_angle (- 1 # 2) 1 (-2) = "alpha-1pi2_beta1pi_gamma-2pi"%string.
Proof. vm_compute. reflexivity. Qed.
Example C39_ending : wavelet_ending 2 (Some 1) = "_3j"%string /\ wavelet_ending 2 None = "_scaling"%string.
Proof. vm_compute. auto. Qed.
Example C39_tiny_example : filename_args (1 # 10000000) "sig" = "_0sig1"%string /\
  filename_args (1 # 100000000) "sig" = "_0sig1"%string.
Proof. split; apply (C39_tiny _ "sig"); try reflexivity; intros E; discriminate E. Qed.

(** ** C40 *)

(** The names of the command line. *)
Theorem C40_names :
  sphere_names = ["africa"; "axisymmetric_wavelet_coefficients_africa"; "axisymmetric_wavelet_coefficients_earth";
    "axisymmetric_wavelet_coefficients_south_america"; "axisymmetric_wavelets"; "dirac_delta"; "earth";
    "elongated_gaussian"; "gaussian"; "harmonic_gaussian"; "identity"; "noise_earth"; "ridgelets"; "south_america";
    "spherical_harmonic"; "squashed_gaussian"; "wmap"; "slepian"; "slepian_africa"; "slepian_dirac_delta";
    "slepian_identity"; "slepian_noise_africa"; "slepian_noise_south_america"; "slepian_south_america";
    "slepian_wavelet_coefficients_africa"; "slepian_wavelet_coefficients_south_america"; "slepian_wavelets"]%string /\
  map_names = ["earth"; "south_america"; "wmap"]%string /\
  mesh_method_names = ["basis_functions"; "field"; "noise_field"; "slepian_field"; "slepian_functions";
    "slepian_noise_field"; "slepian_wavelet_coefficients"; "slepian_wavelets"]%string.
Proof. vm_compute. auto. Qed.
Print Assumptions C40_names.

Ltac nodup := repeat (constructor; [cbn; intuition discriminate|]); constructor.

Lemma lookup_gen {A} (l : list A) (name : A -> string) (all : forall c, In c l) (nd : NoDup (map name l)) :
  forall s c, (let* i := str_index s (map name l) in py_index l (Z.of_nat i)) = Ok c <-> s = name c.
Proof.
  assert (Fwd : forall c, (let* i := str_index (name c) (map name l) in py_index l (Z.of_nat i)) = Ok c).
  { intros c. destruct (In_nth_error _ _ (all c)) as [i Hi].
    rewrite (str_index_ok _ i _ nd) by (rewrite nth_error_map, Hi; reflexivity). cbn [rbind].
    unfold py_index. destruct (Z.leb_spec 0 (Z.of_nat i)); [|lia]. destruct (Z.ltb_spec (Z.of_nat i) 0); [lia|].
    rewrite Nat2Z.id, Hi. reflexivity. }
  intros s c. split; [|intros ->; apply Fwd]. intros H.
  destruct (in_dec string_dec s (map name l)) as [K|K].
  - apply in_map_iff in K as (c' & <- & _). rewrite Fwd in H. injection H as ->. reflexivity.
  - rewrite (str_index_none _ _ K) in H. discriminate.
Qed.

Lemma class_names_nodup : NoDup sphere_names.
Proof. rewrite (proj1 C40_names). nodup. Qed.

(** Looking a name up returns the class it came from, and only that. *)
Theorem C40_class : forall s c, choose_class s = Ok c <-> s = convert_camel_case_to_snake_case (class_name c).
Proof.
  assert (E : sphere_names = map (fun c => convert_camel_case_to_snake_case (class_name c)) COEFFICIENTS) by (vm_compute; reflexivity).
  intros s c. unfold choose_class. rewrite E.
  apply (lookup_gen COEFFICIENTS (fun c => convert_camel_case_to_snake_case (class_name c))).
  - intros []; cbn; tauto.
  - rewrite <- E. apply class_names_nodup.
Qed.
Print Assumptions C40_class.

Theorem C40_mesh_class : forall s c, choose_mesh_class s = Ok c <-> ("mesh_" ++ s)%string = convert_camel_case_to_snake_case (mesh_class_name c).
Proof.
  assert (E : mesh_method_names = map (fun c => convert_camel_case_to_snake_case (removeprefix "Mesh" (mesh_class_name c))) MESH_COEFFICIENTS) by (vm_compute; reflexivity).
  assert (E' : forall c, convert_camel_case_to_snake_case (mesh_class_name c) = ("mesh_" ++ convert_camel_case_to_snake_case (removeprefix "Mesh" (mesh_class_name c)))%string) by (intros []; vm_compute; reflexivity).
  intros s c. unfold choose_mesh_class. rewrite E.
  rewrite (lookup_gen MESH_COEFFICIENTS (fun c => convert_camel_case_to_snake_case (removeprefix "Mesh" (mesh_class_name c)))).
  - rewrite E'. split; [intros ->; reflexivity|apply append_inj_l].
  - intros []; cbn; tauto.
  - rewrite <- E, (proj2 (proj2 C40_names)). nodup.
Qed.
Print Assumptions C40_mesh_class.

(** The maps for convolutions are the Earth, South America and WMAP. *)
Theorem C40_map : forall s c, choose_map s = Ok c <->
  (c = Earth \/ c = SouthAmerica \/ c = Wmap) /\ s = convert_camel_case_to_snake_case (class_name c).
Proof.
  intros s c. unfold choose_map. rewrite (proj1 (proj2 C40_names)). unfold str_index.
  destruct (String.eqb_spec s "earth") as [->|N1]; [|destruct (String.eqb_spec s "south_america") as [->|N2]; [|destruct (String.eqb_spec s "wmap") as [->|N3]]];
    cbn; split; intros H; try discriminate.
  - injection H as <-. auto.
  - destruct H as [[-> |[-> | ->]] H]; [reflexivity|discriminate|discriminate].
  - injection H as <-. auto.
  - destruct H as [[-> |[-> | ->]] H]; [discriminate|reflexivity|discriminate].
  - injection H as <-. auto.
  - destruct H as [[-> |[-> | ->]] H]; [discriminate|discriminate|reflexivity].
  - exfalso. destruct H as [[-> |[-> | ->]] H]; [apply N1|apply N2|apply N3]; exact H.
Qed.
Print Assumptions C40_map.

(** The argument checks accept exactly the names that can be looked up;
    everything else is a [ValueError], of the check and of the look-up. *)
Theorem C40_checks : forall s,
  (valid_plotting s = Ok s /\ (exists c, choose_class s = Ok c) \/
   valid_plotting s = Err ValueError /\ choose_class s = Err ValueError) /\
  (valid_maps s = Ok s /\ (exists c, choose_map s = Ok c) \/
   valid_maps s = Err ValueError /\ choose_map s = Err ValueError) /\
  (valid_methods s = Ok s /\ (exists c, choose_mesh_class s = Ok c) \/
   valid_methods s = Err ValueError /\ choose_mesh_class s = Err ValueError) /\
  (valid_meshes s = Ok s <-> In s ["bird"; "cheetah"; "cube"; "dragon"; "homer"; "teapot"]%string).
Proof.
  assert (G : forall A (l : list A) (names : list string) s, List.length names = List.length l -> NoDup names ->
    valid_name names s = Ok s /\ (exists c, (let* i := str_index s names in py_index l (Z.of_nat i)) = Ok c) \/
    valid_name names s = Err ValueError /\ (let* i := str_index s names in py_index l (Z.of_nat i)) = Err ValueError).
  { intros A l names s Hl Nd. unfold valid_name. destruct (str_in s names) eqn:E.
    - left. split; [reflexivity|]. apply str_in_spec in E. apply In_nth_error in E as [i Hi].
      rewrite (str_index_ok _ _ _ Nd Hi). cbn [rbind]. unfold py_index.
      destruct (Z.leb_spec 0 (Z.of_nat i)); [|lia]. destruct (Z.ltb_spec (Z.of_nat i) 0); [lia|]. rewrite Nat2Z.id.
      assert (Li : (i < List.length l)%nat) by (rewrite <- Hl; apply nth_error_Some; congruence).
      destruct (nth_error l i) as [c|] eqn:Ec; [exists c; reflexivity|]. apply nth_error_None in Ec. lia.
    - right. split; [reflexivity|]. rewrite str_index_none; [reflexivity|]. intros K. apply str_in_spec in K. congruence. }
  intros s. split; [|split; [|split]].
  - apply G; [reflexivity|apply class_names_nodup].
  - apply G; [reflexivity|]. rewrite (proj1 (proj2 C40_names)). nodup.
  - apply G; [reflexivity|]. rewrite (proj2 (proj2 C40_names)). nodup.
  - change (In s ["bird"; "cheetah"; "cube"; "dragon"; "homer"; "teapot"]%string) with (In s MESHES).
    unfold valid_meshes, valid_name. rewrite <- str_in_spec. destruct (str_in s MESHES); split; intros; try reflexivity; discriminate.
Qed.
Print Assumptions C40_checks.

(** The conversion: injective on identifiers in camel case, never a capital, and
    one underscore per capital except the first. *)
Theorem C40_conversion : forall s t, camel s -> camel t ->
  convert_camel_case_to_snake_case s = convert_camel_case_to_snake_case t -> s = t.
Proof. exact snake_camel_inj. Qed.
Print Assumptions C40_conversion.

Theorem C40_lower : forall s, no_capital (convert_camel_case_to_snake_case s).
Proof. intros s. apply snake_no_capital. Qed.
Print Assumptions C40_lower.

Theorem C40_underscores : forall s, camel s ->
  S (count (Ascii.eqb "_") (convert_camel_case_to_snake_case s)) = count is_upper s /\
  String.length (convert_camel_case_to_snake_case s) = (String.length s + count is_upper s - 1)%nat.
Proof.
  assert (Nu : forall c, is_upper c = true -> Ascii.eqb "_" (lower c) = false).
  { intros c H. destruct (Ascii.eqb_spec "_" (lower c)) as [E|]; [|reflexivity]. exfalso.
    unfold lower in E. rewrite H in E. apply is_upper_spec in H. apply (f_equal nat_of_ascii) in E.
    rewrite nat_ascii_embedding in E by lia. change (nat_of_ascii "_") with 95%nat in E. lia. }
  assert (G : forall s, no_underscore s -> count (Ascii.eqb "_") (snake false s) = count is_upper s /\
    String.length (snake false s) = (String.length s + count is_upper s)%nat).
  { induction s as [|c s IH]; intros U; [split; reflexivity|]. destruct U as [Uc U]. destruct (IH U) as [I1 I2].
    cbn [snake negb count String.length]. rewrite andb_true_r. destruct (is_upper c) eqn:E.
    - cbn [count String.length]. rewrite (Nu c E), I1, I2. cbn [Ascii.eqb]. split; [reflexivity|lia].
    - cbn [count String.length]. unfold lower. rewrite E, Uc, I1, I2. split; reflexivity. }
  intros [|c s] [U H]; [contradiction|]. destruct U as [Uc U]. destruct (G s U) as [I1 I2].
  unfold convert_camel_case_to_snake_case. cbn [snake negb]. rewrite andb_false_r. cbn [count String.length].
  rewrite (Nu c H), H, I1, I2. split; lia.
Qed.
Print Assumptions C40_underscores.

(** Without a capital at the start the conversion is not injective. *)
Example C40_start : convert_camel_case_to_snake_case "Earth" = convert_camel_case_to_snake_case "earth".
Proof. reflexivity. Qed.
Example C40_camel : camel "SouthAmerica" /\ camel "MeshSlepianFunctions" /\ ~ camel "south".
Proof. cbn. repeat split; intros [_ H]; discriminate. Qed.
Example C40_example : choose_class "slepian_noise_africa" = Ok SlepianNoiseAfrica /\ choose_class "Earth" = Err ValueError /\
  choose_map "africa" = Err ValueError /\ choose_mesh_class "slepian_functions" = Ok MeshSlepianFunctions.
Proof. vm_compute. auto. Qed.
