From Coq Require Import ZArith Reals String Bool List Lia Lra.
From Verif Require Import Base PyNum PyNumProofs Region SpecRegion RegionProofs Mask.
Import ListNotations.
Open Scope string_scope.
Open Scope R_scope.

(** Sample at row [i], column [j]. *)
Definition sample {A} (a : list (list A)) (i j : nat) : option A :=
  match nth_error a i with Some row => nth_error row j | None => None end.

Lemma sample_map {A B} (f : A -> B) a i j :
  sample (map (map f) a) i j = option_map f (sample a i j).
Proof.
  unfold sample. rewrite nth_error_map. destruct (nth_error a i); cbn; [|reflexivity].
  apply nth_error_map.
Qed.

Lemma grid_map_shape f g : shape (grid_map f g) = shape g.
Proof.
  unfold shape, grid_map. rewrite map_map. apply map_ext. intros. apply map_length.
Qed.

Lemma grid_map_sample f g i j :
  sample (grid_map f g) i j = option_map (fun p => f (fst p) (snd p)) (sample g i j).
Proof. apply sample_map. Qed.

Lemma shape_eqb_spec s t : shape_eqb s t = true <-> s = t.
Proof. unfold shape_eqb. destruct (list_eq_dec _ s t); split; congruence. Qed.

Lemma region_mask_shape land L g r fs m fs' :
  create_mask_region land L g r fs = Ok (m, fs') -> shape m = shape g.
Proof.
  unfold create_mask_region. destruct (r_region_type r).
  - intros [= <- _]. apply grid_map_shape.
  - intros [= <- _]. apply grid_map_shape.
  - destruct (load_mask _ _ _ _ _) as [[m0 fs0]|]; cbn; [|discriminate].
    destruct (shape_eqb _ _) eqn:E; [|discriminate]. intros [= <- _].
    apply shape_eqb_spec. exact E.
Qed.

Lemma polar_mask_spec gap t theta :
  polar_mask gap t theta = true <-> theta <= t \/ (gap = true /\ PI - t <= theta).
Proof. unfold polar_mask. rb; rb; tauto. Qed.

Lemma lat_lon_mask_spec pmax pmin tmax tmin theta phi :
  lat_lon_mask pmax pmin tmax tmin theta phi = true <->
  tmin <= theta <= tmax /\ pmin <= phi <= pmax.
Proof. unfold lat_lon_mask. rb; rb; tauto. Qed.

Lemma region_mask_sample_polar land L g r fs i j theta phi :
  r_region_type r = Polar -> sample g i j = Some (theta, phi) ->
  exists m b, create_mask_region land L g r fs = Ok (m, fs) /\ sample m i j = Some b
    /\ (b = true <-> theta <= r_theta_max r \/ (r_gap r = true /\ PI - r_theta_max r <= theta)).
Proof.
  intros T S. unfold create_mask_region. rewrite T. eexists. eexists.
  split; [reflexivity|]. rewrite grid_map_sample, S. cbn. split; [reflexivity|].
  apply polar_mask_spec.
Qed.

Lemma region_mask_sample_box land L g r fs i j theta phi :
  r_region_type r = LimLatLon -> sample g i j = Some (theta, phi) ->
  exists m b, create_mask_region land L g r fs = Ok (m, fs) /\ sample m i j = Some b
    /\ (b = true <-> r_theta_min r <= theta <= r_theta_max r /\ r_phi_min r <= phi <= r_phi_max r).
Proof.
  intros T S. unfold create_mask_region. rewrite T. eexists. eexists.
  split; [reflexivity|]. rewrite grid_map_sample, S. cbn. split; [reflexivity|].
  apply lat_lon_mask_spec.
Qed.

Lemma shape_combine {A B C} (f : A * B -> C) (a : list (list A)) (b : list (list B)) :
  shape a = shape b ->
  shape (map (fun rows => map f (combine (fst rows) (snd rows))) (combine a b)) = shape a.
Proof.
  revert b. induction a as [|x a IH]; intros [|y b] H; try discriminate; [reflexivity|].
  cbn in H. injection H as H1 H2. cbn. f_equal.
  - rewrite map_length, combine_length. lia.
  - apply (IH b H2).
Qed.

Lemma sample_combine {A B C} (f : A * B -> C) (a : list (list A)) (b : list (list B)) i j x y :
  sample a i j = Some x -> sample b i j = Some y ->
  sample (map (fun rows => map f (combine (fst rows) (snd rows))) (combine a b)) i j = Some (f (x, y)).
Proof.
  unfold sample. revert a b. induction i as [|i IH]; intros [|r a] [|s b]; cbn; try discriminate.
  - revert r s. induction j as [|j IHj]; intros [|u r] [|v s]; cbn; try discriminate.
    + intros [= ->] [= ->]. reflexivity.
    + apply IHj.
  - apply IH.
Qed.

(** A mask that has been created is found again, with the same content, by any
    later call for the same mask and bandlimit. *)
Lemma mask_reload land land' L g r fs m fs' :
  create_mask_region land L g r fs = Ok (m, fs') ->
  create_mask_region land' L g r fs' = Ok (m, fs').
Proof.
  unfold create_mask_region. destruct (r_region_type r).
  - intros [= <- <-]. reflexivity.
  - intros [= <- <-]. reflexivity.
  - set (name := r_mask_name r ++ "_L" ++ zstr (Z.of_nat L) ++ ".npy").
    assert (E : forall m0 fs0, load_mask land L g name fs = Ok (m0, fs0) ->
                load_mask land' L g name fs0 = Ok (m0, fs0)).
    { intros m0 fs0. unfold load_mask. destruct (fs ("slepian_masks_" ++ name)) eqn:F.
      - intros [= <- <-]. rewrite F. reflexivity.
      - unfold create_mask. destruct (rbind _ _) as [[m1 f]|] eqn:G; [|discriminate].
        intros [= <- <-].
        assert (H : f ("slepian_masks_" ++ name) = Some m1).
        { destruct (if String.eqb name _ then _ else _) in G; [|discriminate].
          cbn [rbind] in G. injection G as <- <-. unfold put_mask.
          rewrite String.eqb_refl. reflexivity. }
        rewrite H. reflexivity. }
    destruct (load_mask land L g name fs) as [[m0 fs0]|] eqn:F; cbn [rbind]; [|discriminate].
    destruct (shape_eqb (shape m0) (shape g)) eqn:S; [|discriminate].
    intros [= <- <-]. rewrite (E _ _ eq_refl). cbn [rbind]. rewrite S. reflexivity.
Qed.

(** An arbitrary region whose mask file does not exist is one of the two
    continents or raises ValueError. *)
Lemma zstr_suffix_inj (a b : string) (z : Z) (t : string) :
  a ++ t = b ++ t -> a = b.
Proof.
  intros E. destruct (append_prefix_cases _ _ _ _ E) as [w [[-> F]|[-> F]]].
  - assert (w = ""); [|subst; apply append_nil_r].
    apply (f_equal String.length) in F.
    assert (forall u v, String.length (u ++ v) = String.length u + String.length v)%nat as L.
    { induction u; cbn; intros; [reflexivity|]. rewrite IHu. reflexivity. }
    rewrite L in F. destruct w; [reflexivity|]. cbn in F. lia.
  - assert (w = ""); [|subst; symmetry; apply append_nil_r].
    apply (f_equal String.length) in F.
    assert (forall u v, String.length (u ++ v) = String.length u + String.length v)%nat as L.
    { induction u; cbn; intros; [reflexivity|]. rewrite IHu. reflexivity. }
    rewrite L in F. destruct w; [reflexivity|]. cbn in F. lia.
Qed.

Lemma unknown_mask land L g r fs :
  r_region_type r = Arbitrary ->
  r_mask_name r <> "africa" -> r_mask_name r <> "south_america" ->
  fs ("slepian_masks_" ++ r_mask_name r ++ "_L" ++ zstr (Z.of_nat L) ++ ".npy") = None ->
  create_mask_region land L g r fs = Err ValueError.
Proof.
  intros T A S F. unfold create_mask_region. rewrite T. unfold load_mask. rewrite F.
  unfold create_mask.
  assert (String.eqb (r_mask_name r ++ "_L" ++ zstr (Z.of_nat L) ++ ".npy") ("africa_L" ++ zstr (Z.of_nat L) ++ ".npy") = false) as ->.
  { apply String.eqb_neq. intros E. apply A.
    change ("africa_L" ++ zstr (Z.of_nat L) ++ ".npy") with ("africa" ++ "_L" ++ zstr (Z.of_nat L) ++ ".npy") in E.
    eapply zstr_suffix_inj; [exact 0%Z|exact E]. }
  assert (String.eqb (r_mask_name r ++ "_L" ++ zstr (Z.of_nat L) ++ ".npy") ("south_america_L" ++ zstr (Z.of_nat L) ++ ".npy") = false) as ->.
  { apply String.eqb_neq. intros E. apply S.
    change ("south_america_L" ++ zstr (Z.of_nat L) ++ ".npy") with ("south_america" ++ "_L" ++ zstr (Z.of_nat L) ++ ".npy") in E.
    eapply zstr_suffix_inj; [exact 0%Z|exact E]. }
  reflexivity.
Qed.

Lemma continent_mask land L g r fs i j theta phi f africa :
  r_region_type r = Arbitrary ->
  r_mask_name r = (if africa : bool then "africa" else "south_america") ->
  fs ("slepian_masks_" ++ r_mask_name r ++ "_L" ++ zstr (Z.of_nat L) ++ ".npy") = None ->
  shape (land africa L) = shape g ->
  sample g i j = Some (theta, phi) -> sample (land africa L) i j = Some f ->
  exists m fs' b, create_mask_region land L g r fs = Ok (m, fs') /\ sample m i j = Some b
    /\ (b = true <-> theta <= (if africa then 41 else 40) * PI / 180 /\ 0 <= f).
Proof.
  intros T N F Sh G Lf. unfold create_mask_region. rewrite T. unfold load_mask. rewrite F.
  unfold create_mask. rewrite N.
  destruct africa.
  - change ("africa" ++ "_L" ++ zstr (Z.of_nat L) ++ ".npy") with ("africa_L" ++ zstr (Z.of_nat L) ++ ".npy").
    rewrite String.eqb_refl. cbn [rbind].
    assert (shape_eqb (shape (land_mask AFRICA_RANGE g (land true L))) (shape g) = true) as ->.
    { apply shape_eqb_spec. unfold land_mask. apply shape_combine. auto. }
    eexists. eexists. eexists. split; [reflexivity|]. unfold land_mask.
    erewrite sample_combine by eassumption. split; [reflexivity|]. cbn. rb. reflexivity.
  - change ("south_america" ++ "_L" ++ zstr (Z.of_nat L) ++ ".npy") with ("south_america_L" ++ zstr (Z.of_nat L) ++ ".npy").
    assert (String.eqb ("south_america_L" ++ zstr (Z.of_nat L) ++ ".npy") ("africa_L" ++ zstr (Z.of_nat L) ++ ".npy") = false) as ->.
    { apply String.eqb_neq. intros E. cbn in E. discriminate. }
    rewrite String.eqb_refl. cbn [rbind].
    assert (shape_eqb (shape (land_mask SOUTH_AMERICA_RANGE g (land false L))) (shape g) = true) as ->.
    { apply shape_eqb_spec. unfold land_mask. apply shape_combine. auto. }
    eexists. eexists. eexists. split; [reflexivity|]. unfold land_mask.
    erewrite sample_combine by eassumption. split; [reflexivity|]. cbn. rb. reflexivity.
Qed.

(** ** The default region *)
Lemma default_region_whole lower to_int env r :
  create_default_region lower to_int env = Ok r -> accepted r /\ whole_degrees r.
Proof.
  unfold create_default_region.
  destruct (to_int (getenv env "PHI_MAX" "360")) as [a|]; cbn [rbind]; [|discriminate].
  destruct (to_int (getenv env "PHI_MIN" "0")) as [b|]; cbn [rbind]; [|discriminate].
  destruct (to_int (getenv env "THETA_MAX" "180")) as [c|]; cbn [rbind]; [|discriminate].
  destruct (to_int (getenv env "THETA_MIN" "0")) as [d|]; cbn [rbind]; [|discriminate].
  intros E. split; [eapply make_region_accepted; exact E|].
  destruct (make_region_fields _ _ _ _ _ _ _ E) as (_ & _ & E1 & E2 & E3 & E4).
  unfold whole_degrees. rewrite E1, E2, E3, E4. unfold whole_degree, deg2rad.
  repeat split; eexists; reflexivity.
Qed.

Lemma default_region_default lower to_int env :
  (forall n, In n ["POLAR_GAP"; "SLEPIAN_MASK"; "PHI_MAX"; "PHI_MIN"; "THETA_MAX"; "THETA_MIN"] -> env n = None) ->
  lower "False" = "false" ->
  to_int "360" = Ok 360%Z -> to_int "180" = Ok 180%Z -> to_int "0" = Ok 0%Z ->
  exists r, create_default_region lower to_int env = Ok r
    /\ r_region_type r = Arbitrary /\ r_mask_name r = "south_america".
Proof.
  intros H Lo I1 I2 I3. unfold create_default_region, getenv.
  rewrite !H by (cbn; tauto). rewrite Lo, I1, I2, I3. cbn [rbind String.eqb Ascii.eqb Bool.eqb].
  unfold deg2rad.
  replace (360 * PI / 180) with (2 * PI) by field. replace (180 * PI / 180) with PI by field.
  replace (0 * PI / 180) with 0 by field.
  pose proof PI_RGT_0.
  destruct (make_region_cases false "south_america" (2 * PI) 0 PI 0) as [E|[E|[E|E]]]; try lra; try tauto.
  - destruct E as (_ & _ & _ & _ & _ & E). eexists. split; [exact E|]. split; reflexivity.
  - decompose [and] E. discriminate.
Qed.
