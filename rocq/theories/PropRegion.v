(** * Properties C08, C09, C10, C14, C32, C33: regions, masks, areas, names. *)
From Coq Require Import ZArith Reals String Bool List Lia Lra.
From Verif Require Import Base PyNum PyNumProofs Region SpecRegion RegionProofs Mask MaskProofs.
Import ListNotations.
Open Scope string_scope.
Open Scope R_scope.

(** ** C08 *)
Theorem C08_classification gap mask phi_max phi_min theta_max theta_min :
  0 <= phi_max <= 2 * PI -> 0 <= phi_min <= 2 * PI ->
  0 <= theta_max <= PI -> 0 <= theta_min <= PI ->
  let others_default := phi_min = 0 /\ phi_max = 2 * PI /\ theta_min = 0 in
  let result := make_region gap mask phi_max phi_min theta_max theta_min in
  ((exists r, result = Ok r /\ r_region_type r = Polar) <-> others_default /\ theta_max <> PI)
  /\ ((exists r, result = Ok r /\ r_region_type r = LimLatLon) <-> ~ others_default)
  /\ ((exists r, result = Ok r /\ r_region_type r = Arbitrary) <->
       others_default /\ theta_max = PI /\ mask <> "")
  /\ (result = Err AttributeError <-> others_default /\ theta_max = PI /\ mask = "")
  /\ (forall e, result = Err e -> e = AttributeError).
Proof.
  intros H1 H2 H3 H4. cbv zeta.
  destruct (make_region_cases gap mask _ _ _ _ H1 H2 H3 H4) as [E|[E|[E|E]]]; decompose [and] E; clear E;
  match goal with X : make_region _ _ _ _ _ _ = _ |- _ => rewrite X; clear X end;
  (repeat split; intros;
   repeat match goal with
   | X : exists _, _ |- _ => destruct X
   | X : _ /\ _ |- _ => destruct X
   | X : Ok _ = Ok _ |- _ => injection X as <-
   | X : Err _ = Err _ |- _ => injection X as <-
   end; cbn in *; try discriminate; try tauto; try (eexists; split; [reflexivity|cbn; reflexivity])).
Qed.
Print Assumptions C08_classification.

(** An accepted region keeps the parameters it was built from. *)
Theorem C08_fields_kept gap mask phi_max phi_min theta_max theta_min r :
  make_region gap mask phi_max phi_min theta_max theta_min = Ok r ->
  r_gap r = gap /\ r_mask_name r = mask /\ r_phi_max r = phi_max /\ r_phi_min r = phi_min
  /\ r_theta_max r = theta_max /\ r_theta_min r = theta_min.
Proof. exact (make_region_fields gap mask phi_max phi_min theta_max theta_min r). Qed.
Print Assumptions C08_fields_kept.

(** The default region of the command line has whole-degree angles; without any
    environment variable it is South America. *)
Theorem C08_default_region_whole_degrees lower to_int env r :
  create_default_region lower to_int env = Ok r -> accepted r /\ whole_degrees r.
Proof. exact (default_region_whole lower to_int env r). Qed.
Print Assumptions C08_default_region_whole_degrees.

Theorem C08_default_region_south_america lower to_int env :
  (forall n, In n ["POLAR_GAP"; "SLEPIAN_MASK"; "PHI_MAX"; "PHI_MIN"; "THETA_MAX"; "THETA_MIN"] -> env n = None) ->
  lower "False" = "false" ->
  to_int "360" = Ok 360%Z -> to_int "180" = Ok 180%Z -> to_int "0" = Ok 0%Z ->
  exists r, create_default_region lower to_int env = Ok r
    /\ r_region_type r = Arbitrary /\ r_mask_name r = "south_america".
Proof. exact (default_region_default lower to_int env). Qed.
Print Assumptions C08_default_region_south_america.

(** Every field comes from its own environment variable; a polar gap is asked for
    by the word "true" in any capitalisation. *)
Theorem C08_default_region_fields lower to_int env r :
  create_default_region lower to_int env = Ok r ->
  (r_gap r = true <-> exists v, env "POLAR_GAP" = Some v /\ lower v = "true" \/ env "POLAR_GAP" = None /\ lower "False" = "true") /\
  (forall v, env "SLEPIAN_MASK" = Some v -> r_mask_name r = v) /\
  (forall v, env "PHI_MAX" = Some v -> exists d, to_int v = Ok d /\ r_phi_max r = (IZR d * (PI / 180))%R) /\
  (forall v, env "PHI_MIN" = Some v -> exists d, to_int v = Ok d /\ r_phi_min r = (IZR d * (PI / 180))%R) /\
  (forall v, env "THETA_MAX" = Some v -> exists d, to_int v = Ok d /\ r_theta_max r = (IZR d * (PI / 180))%R) /\
  (forall v, env "THETA_MIN" = Some v -> exists d, to_int v = Ok d /\ r_theta_min r = (IZR d * (PI / 180))%R).
Proof.
  unfold create_default_region. intros H.
  destruct (to_int (getenv env "PHI_MAX" "360")) as [d1|] eqn:E1; [|discriminate H]. cbn [rbind] in H.
  destruct (to_int (getenv env "PHI_MIN" "0")) as [d2|] eqn:E2; [|discriminate H]. cbn [rbind] in H.
  destruct (to_int (getenv env "THETA_MAX" "180")) as [d3|] eqn:E3; [|discriminate H]. cbn [rbind] in H.
  destruct (to_int (getenv env "THETA_MIN" "0")) as [d4|] eqn:E4; [|discriminate H]. cbn [rbind] in H.
  apply make_region_fields in H. destruct H as (-> & -> & -> & -> & -> & ->). unfold getenv in *. split; [|split].
  - rewrite String.eqb_eq. destruct (env "POLAR_GAP") as [v|].
    + split; [intros H; exists v; left; auto|]. intros (w & [[E K]|[E K]]); [injection E as ->; exact K|discriminate E].
    + split; [intros H; exists ""; right; auto|]. intros (w & [[E K]|[E K]]); [discriminate E|exact K].
  - intros v E. rewrite E. reflexivity.
  - repeat split; intros v E; rewrite E in *; eexists; (split; [eassumption|]); unfold deg2rad; lra.
Qed.
Print Assumptions C08_default_region_fields.

(** Two caps of 40 degrees, asked for through the environment. *)
Example C08_default_gap : exists r, create_default_region (fun s => if String.eqb s "True" then "true" else s)
    (fun s => if String.eqb s "40" then Ok 40%Z else if String.eqb s "140" then Ok 140%Z else if String.eqb s "360" then Ok 360%Z else if String.eqb s "180" then Ok 180%Z else Ok 0%Z)
    (fun n => if String.eqb n "POLAR_GAP" then Some "True" else if String.eqb n "THETA_MAX" then Some "40" else None) = Ok r
  /\ r_gap r = true /\ r_region_type r = Polar.
Proof.
  pose proof PI_RGT_0 as P. unfold create_default_region, getenv. cbn [String.eqb Ascii.eqb Bool.eqb rbind]. unfold deg2rad.
  replace (360 * PI / 180)%R with (2 * PI)%R by field. replace (0 * PI / 180)%R with 0%R by field.
  destruct (make_region_cases true "south_america" (2 * PI) 0 (40 * PI / 180) 0) as [E|[E|[E|E]]]; try lra.
  destruct E as (_ & _ & _ & _ & E). eexists. split; [exact E|]. split; reflexivity.
Qed.

(** A cap of 40 degrees with a mask name set is still a polar cap. *)
Example C08_example : exists r,
  make_region false "africa" (2 * PI) 0 (40 * PI / 180) 0 = Ok r
  /\ r_region_type r = Polar /\ r_name_ending r = "polar40".
Proof.
  pose proof PI_RGT_0.
  destruct (make_region_cases false "africa" (2 * PI) 0 (40 * PI / 180) 0) as [E|[E|[E|E]]]; try lra.
  destruct E as (_ & _ & _ & _ & E). eexists. split; [exact E|]. split; [reflexivity|]. cbn.
  rewrite (angle_as_degree_whole 40). reflexivity.
Qed.

(** ** C09 *)
Theorem C09_value_error gap mask phi_max phi_min theta_max theta_min :
  make_region gap mask phi_max phi_min theta_max theta_min = Err ValueError <->
  (phi_max < 0 \/ 2 * PI < phi_max \/ phi_min < 0 \/ 2 * PI < phi_min
   \/ theta_max < 0 \/ PI < theta_max \/ theta_min < 0 \/ PI < theta_min).
Proof. rewrite make_region_ValueError. lra. Qed.
Print Assumptions C09_value_error.

(** An accepted latitude-longitude region may be empty with a negative Shannon
    number: the order of the bounds is not checked. *)
Theorem C09_nonempty_refuted :
  exists r, make_region false "" (2 * PI) 0 (PI / 3) (2 * PI / 3) = Ok r
    /\ r_region_type r = LimLatLon
    /\ (forall theta phi, lat_lon_mask (r_phi_max r) (r_phi_min r) (r_theta_max r) (r_theta_min r) theta phi = false)
    /\ calculate_area 0 (choose_slepian_method r) = - (2 * PI)
    /\ shannon (calculate_area 0 (choose_slepian_method r)) 2 = (-2)%Z.
Proof.
  pose proof PI_RGT_0.
  destruct (make_region_cases false "" (2 * PI) 0 (PI / 3) (2 * PI / 3)) as [E|[E|[E|E]]]; try (exfalso; lra); try lra.
  destruct E as [_ E]. eexists. split; [exact E|]. cbn. split; [reflexivity|].
  assert (A : lat_lon_area (2 * PI) 0 (PI / 3) (2 * PI / 3) = - (2 * PI)).
  { unfold lat_lon_area. replace (2 * PI / 3) with (2 * (PI / 3)) by field.
    rewrite cos_2PI3, cos_PI3. field. }
  split; [|split; [exact A|]].
  - intros theta phi. apply not_true_iff_false. rewrite lat_lon_mask_spec. lra.
  - rewrite A. unfold shannon.
    replace (- (2 * PI) * (INR 2 * INR 2) / (4 * PI)) with (IZR (-2)) by (cbn; field; lra).
    apply py_round_IZR.
Qed.
Print Assumptions C09_nonempty_refuted.

(** ** C10 *)
Theorem C10_solver_recreates_region gap mask phi_max phi_min theta_max theta_min r :
  make_region gap mask phi_max phi_min theta_max theta_min = Ok r ->
  ~ (r_region_type r = Polar /\ theta_max = 0) ->
  exists r', create_region (choose_slepian_method r) = Ok r' /\ same_region r r'.
Proof.
  intros H N. destruct (make_region_fields _ _ _ _ _ _ _ H) as (_ & _ & _ & _ & T & _).
  destruct (choose_same r (make_region_accepted _ _ _ _ _ _ _ H)) as [r' [A [B _]]].
  - rewrite T. exact N.
  - exists r'. auto.
Qed.
Print Assumptions C10_solver_recreates_region.

Theorem C10_zero_cap_rejected gap mask phi_max phi_min theta_min r :
  make_region gap mask phi_max phi_min 0 theta_min = Ok r ->
  r_region_type r = Polar ->
  create_region (choose_slepian_method r) = Err ValueError.
Proof.
  intros H T. destruct (make_region_fields _ _ _ _ _ _ _ H) as (_ & _ & _ & _ & Z & _).
  exact (choose_zero_cap r (make_region_accepted _ _ _ _ _ _ _ H) T Z).
Qed.
Print Assumptions C10_zero_cap_rejected.

Example C10_zero_cap_exists : exists r,
  make_region true "" (2 * PI) 0 0 0 = Ok r /\ r_region_type r = Polar.
Proof.
  pose proof PI_RGT_0.
  destruct (make_region_cases true "" (2 * PI) 0 0 0) as [E|[E|[E|E]]]; try (exfalso; lra); try lra.
  destruct E as (_ & _ & _ & _ & E). eexists. split; [exact E|reflexivity].
Qed.

Example C10_example : exists r r',
  make_region true "africa" (2 * PI) 0 (PI / 4) 0 = Ok r
  /\ create_region (choose_slepian_method r) = Ok r'
  /\ r_gap r' = true /\ r_theta_max r' = PI / 4 /\ r_mask_name r' = "".
Proof.
  pose proof PI_RGT_0.
  destruct (make_region_cases true "africa" (2 * PI) 0 (PI / 4) 0) as [E|[E|[E|E]]]; try (exfalso; lra); try lra.
  destruct E as (_ & _ & _ & _ & E).
  destruct (make_region_cases true "" (2 * PI) 0 (PI / 4) 0) as [F|[F|[F|F]]]; try (exfalso; lra); try lra.
  destruct F as (_ & _ & _ & _ & F).
  eexists. eexists. split; [exact E|]. unfold choose_slepian_method. cbn [r_region_type create_region r_theta_max r_gap].
  assert (Reqb (PI / 4) 0 = false) as -> by (apply Reqb_false; lra).
  split; [exact F|]. cbn. auto.
Qed.

(** ** C14 *)
Theorem C14_whole_degrees_distinct gap1 mask1 a1 b1 c1 d1 gap2 mask2 a2 b2 c2 d2 r1 r2 area1 area2 L1 L2 name :
  make_region gap1 mask1 a1 b1 c1 d1 = Ok r1 -> make_region gap2 mask2 a2 b2 c2 d2 = Ok r2 ->
  whole_degrees r1 -> whole_degrees r2 ->
  (r_region_type r1 = Arbitrary -> plain_mask mask1) ->
  (r_region_type r2 = Arbitrary -> plain_mask mask2) ->
  solver_location area1 (choose_slepian_method r1) L1 = Ok name ->
  solver_location area2 (choose_slepian_method r2) L2 = Ok name ->
  same_region r1 r2 /\ L1 = L2.
Proof.
  intros H1 H2 W1 W2 M1 M2.
  apply location_injective; try assumption;
    try (eapply make_region_accepted; eassumption).
  - destruct (make_region_fields _ _ _ _ _ _ _ H1) as (_ & -> & _). exact M1.
  - destruct (make_region_fields _ _ _ _ _ _ _ H2) as (_ & -> & _). exact M2.
Qed.
Print Assumptions C14_whole_degrees_distinct.

Example C14_example_mask_names : plain_mask "africa" /\ plain_mask "south_america".
Proof. split; split; reflexivity. Qed.

(** For every bandlimit there are two different caps with the same cache
    file. *)
Theorem C14_distinct_refuted L gap :
  exists t1 t2 name, 0 < t1 < t2 /\ t2 < PI
    /\ solver_location 0 (SlepianPolarCap t1 gap) L = Ok name
    /\ solver_location 0 (SlepianPolarCap t2 gap) L = Ok name.
Proof.
  destruct (small_caps_collide L) as [t1 [t2 [A [B C]]]].
  destruct (C gap 0) as [E [s F]]. exists t1, t2, s. rewrite <- E. auto.
Qed.
Print Assumptions C14_distinct_refuted.

(** The latitude-longitude solver called with a cap's angles uses the files of
    the polar solver. *)
Theorem C14_solver_classes_share_refuted theta_max L : 0 < theta_max < PI ->
  exists name,
    solver_location 0 (SlepianLimitLatLon (2 * PI) 0 theta_max 0) L = Ok name
    /\ solver_location 0 (SlepianPolarCap theta_max false) L = Ok name.
Proof.
  intros H. destruct (polar_latlon_share theta_max L 0 H) as [E [s F]].
  exists s. split; [|exact F]. rewrite <- F. exact E.
Qed.
Print Assumptions C14_solver_classes_share_refuted.

(** A user mask whose name imitates a generated name shares the cap's files when
    the Shannon numbers agree. *)
Theorem C14_imitating_mask_refuted L : exists area name,
  solver_location 0 (SlepianPolarCap (40 * PI / 180) false) L = Ok name
  /\ solver_location area (SlepianArbitrary "polar40") L = Ok name.
Proof.
  pose proof PI_RGT_0.
  exists (polar_area (40 * PI / 180)).
  eexists. unfold solver_location, create_region.
  assert (Reqb (40 * PI / 180) 0 = false) as -> by (apply Reqb_false; lra).
  unfold PHI_MAX_DEFAULT, PHI_MIN_DEFAULT, THETA_MAX_DEFAULT, THETA_MIN_DEFAULT.
  destruct (make_region_cases false "" (2 * PI) 0 (40 * PI / 180) 0) as [E|[E|[E|E]]]; try (exfalso; lra); try lra.
  destruct E as (_ & _ & _ & _ & E). rewrite E.
  destruct (make_region_cases false "polar40" (2 * PI) 0 PI 0) as [F|[F|[F|F]]]; try (exfalso; lra); try lra; try tauto;
    try (exfalso; destruct F as (_ & _ & _ & _ & F & _); discriminate).
  - destruct F as (_ & _ & _ & _ & _ & F). rewrite F. cbn [rbind r_name_ending calculate_area].
    split; [reflexivity|]. rewrite (angle_as_degree_whole 40). reflexivity.
Qed.
Print Assumptions C14_imitating_mask_refuted.

(** ** C32 *)
Theorem C32_polar_mask land L g r fs i j theta phi :
  r_region_type r = Polar -> sample g i j = Some (theta, phi) ->
  exists m b, create_mask_region land L g r fs = Ok (m, fs) /\ sample m i j = Some b
    /\ (b = true <-> theta <= r_theta_max r \/ (r_gap r = true /\ PI - r_theta_max r <= theta)).
Proof. exact (region_mask_sample_polar land L g r fs i j theta phi). Qed.
Print Assumptions C32_polar_mask.

Theorem C32_lat_lon_mask land L g r fs i j theta phi :
  r_region_type r = LimLatLon -> sample g i j = Some (theta, phi) ->
  exists m b, create_mask_region land L g r fs = Ok (m, fs) /\ sample m i j = Some b
    /\ (b = true <-> r_theta_min r <= theta <= r_theta_max r /\ r_phi_min r <= phi <= r_phi_max r).
Proof. exact (region_mask_sample_box land L g r fs i j theta phi). Qed.
Print Assumptions C32_lat_lon_mask.

(** Whatever the region type, a returned mask has the shape of the grid. *)
Theorem C32_mask_shape land L g r fs m fs' :
  create_mask_region land L g r fs = Ok (m, fs') -> shape m = shape g.
Proof. exact (region_mask_shape land L g r fs m fs'). Qed.
Print Assumptions C32_mask_shape.

Theorem C32_polar_mask_grows gap t1 t2 theta :
  t1 <= t2 -> polar_mask gap t1 theta = true -> polar_mask gap t2 theta = true.
Proof. intros H. rewrite !polar_mask_spec. intros [A|[A B]]; [left|right]; split || idtac; try assumption; lra. Qed.
Print Assumptions C32_polar_mask_grows.

Theorem C32_gap_mask_symmetric t theta :
  polar_mask true t (PI - theta) = polar_mask true t theta.
Proof.
  apply eq_true_iff_eq. rewrite !polar_mask_spec. split; intros [A|[_ A]];
    [right; split; [reflexivity|lra]|left; lra|right; split; [reflexivity|lra]|left; lra].
Qed.
Print Assumptions C32_gap_mask_symmetric.

(** The two continents: colatitude within 41 (40) degrees and land. *)
Theorem C32_continent_mask land L g r fs i j theta phi f (africa : bool) :
  r_region_type r = Arbitrary ->
  r_mask_name r = (if africa then "africa" else "south_america") ->
  fs ("slepian_masks_" ++ r_mask_name r ++ "_L" ++ zstr (Z.of_nat L) ++ ".npy") = None ->
  shape (land africa L) = shape g ->
  sample g i j = Some (theta, phi) -> sample (land africa L) i j = Some f ->
  exists m fs' b, create_mask_region land L g r fs = Ok (m, fs') /\ sample m i j = Some b
    /\ (b = true <-> theta <= (if africa then 41 else 40) * PI / 180 /\ 0 <= f).
Proof. exact (continent_mask land L g r fs i j theta phi f africa). Qed.
Print Assumptions C32_continent_mask.

(** Any other mask without a file is rejected. *)
Theorem C32_unknown_mask_rejected land L g r fs :
  r_region_type r = Arbitrary ->
  r_mask_name r <> "africa" -> r_mask_name r <> "south_america" ->
  fs ("slepian_masks_" ++ r_mask_name r ++ "_L" ++ zstr (Z.of_nat L) ++ ".npy") = None ->
  create_mask_region land L g r fs = Err ValueError.
Proof. exact (unknown_mask land L g r fs). Qed.
Print Assumptions C32_unknown_mask_rejected.

(** A mask written to the data directory is read back unchanged, even if the
    topography has changed. *)
Theorem C32_mask_reloaded land land' L g r fs m fs' :
  create_mask_region land L g r fs = Ok (m, fs') ->
  create_mask_region land' L g r fs' = Ok (m, fs').
Proof. exact (mask_reload land land' L g r fs m fs'). Qed.
Print Assumptions C32_mask_reloaded.

(** A stored mask of the wrong shape is rejected. *)
Theorem C32_wrong_shape_rejected land L g r fs m :
  r_region_type r = Arbitrary ->
  fs ("slepian_masks_" ++ r_mask_name r ++ "_L" ++ zstr (Z.of_nat L) ++ ".npy") = Some m ->
  shape m <> shape g ->
  create_mask_region land L g r fs = Err AssertionError.
Proof.
  intros T F S. unfold create_mask_region. rewrite T. unfold load_mask. rewrite F. cbn [rbind].
  destruct (shape_eqb (shape m) (shape g)) eqn:E; [|reflexivity].
  apply shape_eqb_spec in E. congruence.
Qed.
Print Assumptions C32_wrong_shape_rejected.

Example C32_example :
  let r := mk_region true "" (2 * PI) 0 (PI / 4) 0 "polar_gap45" Polar in
  exists m, create_mask_region (fun _ _ => []) 2 [[(0, 0); (PI / 2, 0)]; [(PI / 4, 1); (PI, 1)]] r (fun _ => None)
    = Ok (m, fun _ => None)
  /\ m = [[true; false]; [true; true]].
Proof.
  pose proof PI_RGT_0.
  eexists. split; [reflexivity|]. unfold grid_map. cbn.
  assert (A : polar_mask true (PI / 4) 0 = true) by (apply polar_mask_spec; left; lra).
  assert (B : polar_mask true (PI / 4) (PI / 2) = false) by (apply not_true_iff_false; rewrite polar_mask_spec; intros [?|[_ ?]]; lra).
  assert (C : polar_mask true (PI / 4) (PI / 4) = true) by (apply polar_mask_spec; left; lra).
  assert (D : polar_mask true (PI / 4) PI = true) by (apply polar_mask_spec; right; split; [reflexivity|lra]).
  rewrite A, B, C, D. reflexivity.
Qed.

(** ** C33 *)
Theorem C33_polar_area theta_max : 0 <= theta_max <= PI ->
  polar_area theta_max = surface (fun theta _ => polar_mask false theta_max theta).
Proof. intros H. symmetry. exact (polar_surface theta_max H). Qed.
Print Assumptions C33_polar_area.

Theorem C33_lat_lon_area phi_max phi_min theta_max theta_min :
  0 <= phi_min -> phi_min <= phi_max -> phi_max <= 2 * PI ->
  0 <= theta_min -> theta_min <= theta_max -> theta_max <= PI ->
  lat_lon_area phi_max phi_min theta_max theta_min
  = surface (lat_lon_mask phi_max phi_min theta_max theta_min).
Proof. intros. symmetry. apply lat_lon_surface; assumption. Qed.
Print Assumptions C33_lat_lon_area.

(** The area of a double cap is half of what it should be. *)
Theorem C33_gap_area_refuted theta_max : 0 < theta_max <= PI / 2 ->
  surface (fun theta _ => polar_mask true theta_max theta)
  = 2 * calculate_area 0 (SlepianPolarCap theta_max true)
  /\ calculate_area 0 (SlepianPolarCap theta_max true)
     <> surface (fun theta _ => polar_mask true theta_max theta).
Proof.
  intros H. pose proof PI_RGT_0. cbn [calculate_area].
  pose proof (gap_surface theta_max ltac:(lra) ltac:(lra)) as E. split; [exact E|].
  rewrite E. unfold polar_area.
  assert (cos theta_max < 1). { rewrite <- cos_0. apply cos_decreasing_1; lra. }
  assert (0 < 2 * PI * (1 - cos theta_max)) by (apply Rmult_lt_0_compat; lra). intros F. lra.
Qed.
Print Assumptions C33_gap_area_refuted.

Theorem C33_shannon_close area L :
  Rabs (IZR (shannon area L) - area * (INR L * INR L) / (4 * PI)) <= 1 / 2.
Proof. exact (shannon_close area L). Qed.
Print Assumptions C33_shannon_close.

Theorem C33_shannon_polar_range theta_max gap L :
  (0 <= shannon (calculate_area 0 (SlepianPolarCap theta_max gap)) L <= Z.of_nat L * Z.of_nat L)%Z.
Proof. apply shannon_range. apply polar_area_range. Qed.
Print Assumptions C33_shannon_polar_range.

Theorem C33_shannon_lat_lon_range phi_max phi_min theta_max theta_min L :
  0 <= phi_min -> phi_min <= phi_max -> phi_max <= 2 * PI ->
  0 <= theta_min -> theta_min <= theta_max -> theta_max <= PI ->
  (0 <= shannon (calculate_area 0 (SlepianLimitLatLon phi_max phi_min theta_max theta_min)) L
     <= Z.of_nat L * Z.of_nat L)%Z.
Proof. intros. apply shannon_range. apply lat_lon_area_range; assumption. Qed.
Print Assumptions C33_shannon_lat_lon_range.

(** A larger cap never has a smaller Shannon number. *)
Theorem C33_shannon_monotone t1 t2 L : 0 <= t1 -> t1 <= t2 -> t2 <= PI ->
  (shannon (polar_area t1) L <= shannon (polar_area t2) L)%Z.
Proof.
  intros H1 H2 H3. unfold shannon. apply py_round_mono. pose proof PI_RGT_0.
  pose proof (cos_anti t1 t2 H1 H2 H3). unfold Rdiv. apply Rmult_le_compat_r.
  - left. apply Rinv_0_lt_compat. lra.
  - apply Rmult_le_compat_r; [apply Rmult_le_pos; apply pos_INR|].
    unfold polar_area. apply Rmult_le_compat_l; lra.
Qed.
Print Assumptions C33_shannon_monotone.

(** The hemisphere at bandlimit 3: 9/2 rounds to the even neighbour 4. *)
Example C33_example : shannon (polar_area (PI / 2)) 3 = 4%Z.
Proof.
  unfold shannon, polar_area. rewrite cos_PI2. pose proof PI_RGT_0.
  replace (2 * PI * (1 - 0) * (INR 3 * INR 3) / (4 * PI)) with (9 / 2) by (cbn; field; lra).
  unfold py_round. rewrite (rfloor_unique _ 4) by lra.
  assert (Rltb (9 / 2 - 4) (1 / 2) = false) as -> by (apply Rltb_false; lra).
  assert (Rltb (1 / 2) (9 / 2 - 4) = false) as -> by (apply Rltb_false; lra). reflexivity.
Qed.
