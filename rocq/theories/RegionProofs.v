From Coq Require Import ZArith Reals String DecimalString Ascii Bool List Lia Lra.
From Coquelicot Require Import Coquelicot.
From Verif Require Import Base PyNum PyNumProofs Region SpecRegion.
Open Scope string_scope.
Open Scope R_scope.

Ltac rb := rewrite ?andb_true_iff, ?andb_false_iff, ?orb_true_iff, ?orb_false_iff,
  ?negb_true_iff, ?negb_false_iff, ?Reqb_spec, ?Reqb_false, ?Rltb_spec, ?Rltb_false,
  ?Rleb_spec, ?Rleb_false in *.

Lemma polar_spec pmin pmax tmin tmax :
  is_polar_cap pmin pmax tmin tmax = true <->
  pmin = 0 /\ pmax = 2 * PI /\ tmin = 0 /\ tmax <> PI.
Proof.
  unfold is_polar_cap, PHI_MIN_DEFAULT, PHI_MAX_DEFAULT, THETA_MIN_DEFAULT, THETA_MAX_DEFAULT.
  rb. tauto.
Qed.

Lemma latlon_spec pmin pmax tmin tmax :
  is_limited_lat_lon pmin pmax tmin tmax = true <->
  pmin <> 0 \/ pmax <> 2 * PI \/ tmin <> 0.
Proof.
  unfold is_limited_lat_lon. rewrite !orb_true_iff, andb_true_iff, !negb_true_iff, !Reqb_false.
  unfold PHI_MIN_DEFAULT, PHI_MAX_DEFAULT, THETA_MIN_DEFAULT.
  split.
  - tauto.
  - intros [H|H]; [|tauto]. left. left. split; [|assumption].
    apply not_true_iff_false. rewrite polar_spec. tauto.
Qed.

Lemma checks_spec pmax pmin tmax tmin :
  check_phi_max pmax && check_phi_min pmin && check_theta_max tmax && check_theta_min tmin = true
  <-> (0 <= pmax <= 2 * PI /\ 0 <= pmin <= 2 * PI /\ 0 <= tmax <= PI /\ 0 <= tmin <= PI).
Proof.
  unfold check_phi_max, check_phi_min, check_theta_max, check_theta_min,
    PHI_MIN_DEFAULT, PHI_MAX_DEFAULT, THETA_MIN_DEFAULT, THETA_MAX_DEFAULT.
  rb. lra.
Qed.

Lemma make_region_cases gap m pmax pmin tmax tmin :
  0 <= pmax <= 2 * PI -> 0 <= pmin <= 2 * PI -> 0 <= tmax <= PI -> 0 <= tmin <= PI ->
  (pmin = 0 /\ pmax = 2 * PI /\ tmin = 0 /\ tmax <> PI /\
     make_region gap m pmax pmin tmax tmin =
     Ok (mk_region gap m pmax pmin tmax tmin
          ("polar" ++ (if gap then "_gap" else "") ++ zstr (angle_as_degree tmax)) Polar))
  \/ ((pmin <> 0 \/ pmax <> 2 * PI \/ tmin <> 0) /\
     make_region gap m pmax pmin tmax tmin =
     Ok (mk_region gap m pmax pmin tmax tmin
          ("theta" ++ zstr (angle_as_degree tmin) ++ "-" ++ zstr (angle_as_degree tmax)
           ++ "_phi" ++ zstr (angle_as_degree pmin) ++ "-" ++ zstr (angle_as_degree pmax))
          LimLatLon))
  \/ (pmin = 0 /\ pmax = 2 * PI /\ tmin = 0 /\ tmax = PI /\ m <> "" /\
     make_region gap m pmax pmin tmax tmin =
     Ok (mk_region gap m pmax pmin tmax tmin m Arbitrary))
  \/ (pmin = 0 /\ pmax = 2 * PI /\ tmin = 0 /\ tmax = PI /\ m = "" /\
     make_region gap m pmax pmin tmax tmin = Err AttributeError).
Proof.
  intros H1 H2 H3 H4. unfold make_region.
  rewrite (proj2 (checks_spec pmax pmin tmax tmin)) by auto.
  unfold identify_region.
  destruct (is_polar_cap pmin pmax tmin tmax) eqn:E1.
  - apply polar_spec in E1. left. cbn [rbind]. tauto.
  - destruct (is_limited_lat_lon pmin pmax tmin tmax) eqn:E2.
    + apply latlon_spec in E2. right. left. cbn [rbind]. tauto.
    + assert (A : ~ (pmin = 0 /\ pmax = 2 * PI /\ tmin = 0 /\ tmax <> PI)).
      { rewrite <- polar_spec. congruence. }
      assert (B : ~ (pmin <> 0 \/ pmax <> 2 * PI \/ tmin <> 0)).
      { rewrite <- (latlon_spec pmin pmax tmin tmax). congruence. }
      assert (pmin = 0) by (destruct (Req_EM_T pmin 0); tauto).
      assert (pmax = 2 * PI) by (destruct (Req_EM_T pmax (2 * PI)); tauto).
      assert (tmin = 0) by (destruct (Req_EM_T tmin 0); tauto).
      assert (tmax = PI) by (destruct (Req_EM_T tmax PI); tauto).
      destruct (String.eqb m "") eqn:E3.
      * apply String.eqb_eq in E3. right. right. right. cbn. tauto.
      * apply String.eqb_neq in E3. right. right. left. cbn. tauto.
Qed.

Lemma make_region_accepts gap m pmax pmin tmax tmin r :
  make_region gap m pmax pmin tmax tmin = Ok r ->
  0 <= pmax <= 2 * PI /\ 0 <= pmin <= 2 * PI /\ 0 <= tmax <= PI /\ 0 <= tmin <= PI.
Proof.
  intros H. apply checks_spec. unfold make_region in H.
  destruct (_ && _ && _ && _); [reflexivity|discriminate].
Qed.

Lemma make_region_ValueError gap m pmax pmin tmax tmin :
  make_region gap m pmax pmin tmax tmin = Err ValueError <->
  ~ (0 <= pmax <= 2 * PI /\ 0 <= pmin <= 2 * PI /\ 0 <= tmax <= PI /\ 0 <= tmin <= PI).
Proof.
  split.
  - intros H [H1 [H2 [H3 H4]]].
    destruct (make_region_cases gap m _ _ _ _ H1 H2 H3 H4)
      as [E|[E|[E|E]]]; decompose [and] E; congruence.
  - intros H. unfold make_region.
    assert (check_phi_max pmax && check_phi_min pmin && check_theta_max tmax && check_theta_min tmin = false) as ->; [|reflexivity].
    apply not_true_iff_false. rewrite checks_spec. exact H.
Qed.

(** Fields of an accepted region. *)
Lemma make_region_fields gap m pmax pmin tmax tmin r :
  make_region gap m pmax pmin tmax tmin = Ok r ->
  r_gap r = gap /\ r_mask_name r = m /\ r_phi_max r = pmax /\ r_phi_min r = pmin
  /\ r_theta_max r = tmax /\ r_theta_min r = tmin.
Proof.
  unfold make_region. destruct (_ && _ && _ && _); [|discriminate].
  destruct (identify_region _ _ _ _ _ _) as [[ty e]|]; [|discriminate].
  cbn. intros [= <-]. cbn. auto 7.
Qed.

Definition accepted (r : region) : Prop :=
  make_region (r_gap r) (r_mask_name r) (r_phi_max r) (r_phi_min r) (r_theta_max r)
    (r_theta_min r) = Ok r.

Lemma make_region_accepted gap m pmax pmin tmax tmin r :
  make_region gap m pmax pmin tmax tmin = Ok r -> accepted r.
Proof.
  intros H. destruct (make_region_fields _ _ _ _ _ _ _ H) as (A & B & C & D & E & F).
  unfold accepted. rewrite A, B, C, D, E, F. exact H.
Qed.

(** Region type facts of an accepted region. *)
Lemma accepted_cases r : accepted r ->
  (r_region_type r = Polar /\ r_phi_min r = 0 /\ r_phi_max r = 2 * PI /\ r_theta_min r = 0 /\ r_theta_max r <> PI
   /\ r_name_ending r = "polar" ++ (if r_gap r then "_gap" else "") ++ zstr (angle_as_degree (r_theta_max r)))
  \/ (r_region_type r = LimLatLon /\ (r_phi_min r <> 0 \/ r_phi_max r <> 2 * PI \/ r_theta_min r <> 0)
   /\ r_name_ending r =
        "theta" ++ zstr (angle_as_degree (r_theta_min r)) ++ "-" ++ zstr (angle_as_degree (r_theta_max r))
           ++ "_phi" ++ zstr (angle_as_degree (r_phi_min r)) ++ "-" ++ zstr (angle_as_degree (r_phi_max r)))
  \/ (r_region_type r = Arbitrary /\ r_phi_min r = 0 /\ r_phi_max r = 2 * PI /\ r_theta_min r = 0 /\ r_theta_max r = PI
      /\ r_mask_name r <> "" /\ r_name_ending r = r_mask_name r).
Proof.
  intros H. unfold accepted in H.
  destruct (make_region_accepts _ _ _ _ _ _ _ H) as (H1 & H2 & H3 & H4).
  destruct (make_region_cases (r_gap r) (r_mask_name r) _ _ _ _ H1 H2 H3 H4) as [E|[E|[E|E]]];
    decompose [and] E; clear E.
  - left. match goal with X : make_region _ _ _ _ _ _ = Ok (mk_region _ _ _ _ _ _ _ _) |- _ =>
      rename X into EQ end.
    rewrite H in EQ. destruct r; cbn in *. injection EQ as -> ->. auto 9.
  - right. left. match goal with X : make_region _ _ _ _ _ _ = Ok (mk_region _ _ _ _ _ _ _ _) |- _ =>
      rename X into EQ end.
    rewrite H in EQ. destruct r; cbn in *. injection EQ as -> ->. auto 9.
  - right. right. match goal with X : make_region _ _ _ _ _ _ = Ok (mk_region _ _ _ _ _ _ _ _) |- _ =>
      rename X into EQ end.
    rewrite H in EQ. destruct r; cbn in *. injection EQ as -> ->. auto 9.
  - congruence.
Qed.

Lemma accepted_ranges r : accepted r ->
  0 <= r_phi_max r <= 2 * PI /\ 0 <= r_phi_min r <= 2 * PI
  /\ 0 <= r_theta_max r <= PI /\ 0 <= r_theta_min r <= PI.
Proof. intros H. eapply make_region_accepts. exact H. Qed.

(** ** Solver choice *)
Lemma choose_same r : accepted r -> ~ (r_region_type r = Polar /\ r_theta_max r = 0) ->
  exists r', create_region (choose_slepian_method r) = Ok r' /\ same_region r r'
             /\ accepted r'.
Proof.
  intros H NZ. pose proof (accepted_ranges r H) as (P1 & P2 & P3 & P4).
  pose proof PI_RGT_0 as PP.
  destruct (accepted_cases r H) as [C|[C|C]].
  - destruct C as (T & C1 & C2 & C3 & C4 & C5).
    unfold choose_slepian_method. rewrite T. cbn [create_region].
    assert (Reqb (r_theta_max r) 0 = false) as -> by (apply Reqb_false; tauto).
    destruct (make_region_cases (r_gap r) "" PHI_MAX_DEFAULT PHI_MIN_DEFAULT (r_theta_max r) THETA_MIN_DEFAULT) as [E|[E|[E|E]]];
      try (unfold PHI_MAX_DEFAULT, PHI_MIN_DEFAULT, THETA_MIN_DEFAULT; lra).
    + destruct E as (E1 & E2 & E3 & E4 & E5). exists (mk_region (r_gap r) "" PHI_MAX_DEFAULT PHI_MIN_DEFAULT (r_theta_max r) THETA_MIN_DEFAULT
        ("polar" ++ (if r_gap r then "_gap" else "") ++ zstr (angle_as_degree (r_theta_max r))) Polar).
      split; [exact E5|]. split.
      * unfold same_region. rewrite T, C1, C2, C3. cbn. repeat split; auto; discriminate.
      * exact E5.
    + unfold PHI_MAX_DEFAULT, PHI_MIN_DEFAULT, THETA_MIN_DEFAULT in E. exfalso; lra.
  - destruct C as (T & C1 & C2).
    unfold choose_slepian_method. rewrite T. cbn [create_region].
    destruct (make_region_cases false "" (r_phi_max r) (r_phi_min r) (r_theta_max r) (r_theta_min r)) as [E|[E|[E|E]]]; auto;
      try tauto.
    destruct E as [E1 E2]. eexists. split; [exact E2|]. split.
    + unfold same_region. rewrite T. cbn. repeat split; auto; discriminate.
    + exact E2.
  - destruct C as (T & C1 & C2 & C3 & C4 & C5 & C6).
    unfold choose_slepian_method. rewrite T. cbn [create_region].
    destruct (make_region_cases false (r_mask_name r) PHI_MAX_DEFAULT PHI_MIN_DEFAULT THETA_MAX_DEFAULT THETA_MIN_DEFAULT) as [E|[E|[E|E]]];
      try (unfold PHI_MAX_DEFAULT, PHI_MIN_DEFAULT, THETA_MAX_DEFAULT, THETA_MIN_DEFAULT; lra);
      unfold PHI_MAX_DEFAULT, PHI_MIN_DEFAULT, THETA_MAX_DEFAULT, THETA_MIN_DEFAULT in *; try tauto.
    destruct E as (E1 & E2 & E3 & E4 & E5 & E6). eexists. split; [exact E6|]. split.
    + unfold same_region. rewrite T, C1, C2, C3, C4. cbn. repeat split; auto; discriminate.
    + exact E6.
Qed.

Lemma choose_zero_cap r : accepted r -> r_region_type r = Polar -> r_theta_max r = 0 ->
  create_region (choose_slepian_method r) = Err ValueError.
Proof.
  intros _ T Z. unfold choose_slepian_method. rewrite T. cbn [create_region].
  rewrite Z. assert (Reqb 0 0 = true) as -> by (apply Reqb_spec; reflexivity). reflexivity.
Qed.

(** ** Areas *)
Lemma is_RInt_sin a b : is_RInt sin a b (cos a - cos b).
Proof.
  replace (cos a - cos b) with (minus (- cos b) (- cos a)) by (unfold minus, plus, opp; cbn; ring).
  apply (is_RInt_derive (fun x => - cos x) sin).
  - intros x _. auto_derive; [trivial|ring].
  - intros x _. apply continuity_pt_filterlim. apply continuity_sin.
Qed.

Lemma is_RInt_add (f : R -> R) a b c l1 l2 l :
  is_RInt f a b l1 -> is_RInt f b c l2 -> l = l1 + l2 -> is_RInt f a c l.
Proof. intros H1 H2 ->. exact (is_RInt_Chasles f a b c l1 l2 H1 H2). Qed.

Lemma is_RInt_zero a b : is_RInt (fun _ : R => 0) a b 0.
Proof.
  pose proof (is_RInt_const (V:=R_NormedModule) a b 0) as H.
  change (is_RInt (fun _ : R => 0) a b ((b - a) * 0)) in H. rewrite Rmult_0_r in H. exact H.
Qed.

Lemma is_RInt_sin_window a b lo hi :
  a <= lo -> lo <= hi -> hi <= b ->
  is_RInt (fun t => if Rleb lo t && Rleb t hi then sin t else 0) a b (cos lo - cos hi).
Proof.
  intros H1 H2 H3.
  apply (is_RInt_add _ a hi b (cos lo - cos hi) 0); [apply (is_RInt_add _ a lo hi 0 (cos lo - cos hi))| |];
    [ | |ring| |ring].
  - apply is_RInt_ext with (fun _ => 0).
    + intros x. rewrite Rmin_left, Rmax_right by lra. intros [A B].
      assert (Rleb lo x = false) as -> by (apply Rleb_false; lra). reflexivity.
    + apply is_RInt_zero.
  - apply is_RInt_ext with sin.
    + intros x. rewrite Rmin_left, Rmax_right by lra. intros [A B].
      assert (Rleb lo x = true) as -> by (apply Rleb_spec; lra).
      assert (Rleb x hi = true) as -> by (apply Rleb_spec; lra). reflexivity.
    + apply is_RInt_sin.
  - apply is_RInt_ext with (fun _ => 0).
    + intros x. rewrite Rmin_left, Rmax_right by lra. intros [A B].
      assert (Rleb x hi = false) as -> by (apply Rleb_false; lra). rewrite andb_false_r. reflexivity.
    + apply is_RInt_zero.
Qed.

Lemma is_RInt_const_window a b lo hi c :
  a <= lo -> lo <= hi -> hi <= b ->
  is_RInt (fun t => if Rleb lo t && Rleb t hi then c else 0) a b ((hi - lo) * c).
Proof.
  intros H1 H2 H3.
  apply (is_RInt_add _ a hi b ((hi - lo) * c) 0); [apply (is_RInt_add _ a lo hi 0 ((hi - lo) * c))| |];
    [ | |ring| |ring].
  - apply is_RInt_ext with (fun _ => 0).
    + intros x. rewrite Rmin_left, Rmax_right by lra. intros [A B].
      assert (Rleb lo x = false) as -> by (apply Rleb_false; lra). reflexivity.
    + apply is_RInt_zero.
  - apply is_RInt_ext with (fun _ => c).
    + intros x. rewrite Rmin_left, Rmax_right by lra. intros [A B].
      assert (Rleb lo x = true) as -> by (apply Rleb_spec; lra).
      assert (Rleb x hi = true) as -> by (apply Rleb_spec; lra). reflexivity.
    + apply (is_RInt_const lo hi c).
  - apply is_RInt_ext with (fun _ => 0).
    + intros x. rewrite Rmin_left, Rmax_right by lra. intros [A B].
      assert (Rleb x hi = false) as -> by (apply Rleb_false; lra). rewrite andb_false_r. reflexivity.
    + apply is_RInt_zero.
Qed.

Lemma RInt_const_R a b c : RInt (fun _ => c) a b = (b - a) * c.
Proof. rewrite RInt_const. reflexivity. Qed.

Lemma RInt_ext_open (f g : R -> R) a b : a <= b ->
  (forall x, a < x < b -> f x = g x) -> RInt f a b = RInt g a b.
Proof.
  intros H E. apply RInt_ext. intros x. rewrite Rmin_left, Rmax_right by lra. auto.
Qed.

Lemma polar_surface t : 0 <= t <= PI ->
  surface (fun theta _ => polar_mask false t theta) = polar_area t.
Proof.
  intros H. unfold surface, polar_area.
  assert (E : RInt (fun theta => if polar_mask false t theta then sin theta else 0) 0 PI = 1 - cos t).
  { rewrite (RInt_ext_open _ (fun x => if Rleb 0 x && Rleb x t then sin x else 0)) by
      (try lra; intros x Hx; unfold polar_mask; cbn; rewrite orb_false_r;
       assert (Rleb 0 x = true) as -> by (apply Rleb_spec; lra); reflexivity).
    rewrite <- cos_0. apply is_RInt_unique. apply is_RInt_sin_window; lra. }
  rewrite E. rewrite RInt_const_R. ring.
Qed.

Lemma lat_lon_surface pmax pmin tmax tmin :
  0 <= pmin -> pmin <= pmax -> pmax <= 2 * PI -> 0 <= tmin -> tmin <= tmax -> tmax <= PI ->
  surface (lat_lon_mask pmax pmin tmax tmin) = lat_lon_area pmax pmin tmax tmin.
Proof.
  intros H1 H2 H3 H4 H5 H6. unfold surface, lat_lon_area.
  pose proof PI_RGT_0.
  rewrite (RInt_ext_open _ (fun phi => if Rleb pmin phi && Rleb phi pmax then (cos tmin - cos tmax) else 0)).
  - apply is_RInt_unique. apply is_RInt_const_window; lra.
  - lra.
  - intros phi _. unfold lat_lon_mask. destruct (Rleb pmin phi && Rleb phi pmax) eqn:E.
    + apply andb_true_iff in E. destruct E as [-> ->].
      rewrite (RInt_ext_open _ (fun x => if Rleb tmin x && Rleb x tmax then sin x else 0)).
      * apply is_RInt_unique. apply is_RInt_sin_window; lra.
      * lra.
      * intros x _. rewrite !andb_true_r. reflexivity.
    + rewrite (RInt_ext_open _ (fun _ => 0)).
      * rewrite RInt_const_R. ring.
      * lra.
      * intros x _. rewrite <- andb_assoc, E, andb_false_r. reflexivity.
Qed.

Lemma gap_surface t : 0 <= t -> t <= PI / 2 ->
  surface (fun theta _ => polar_mask true t theta) = 2 * polar_area t.
Proof.
  intros H1 H2. unfold surface, polar_area. pose proof PI_RGT_0.
  assert (E : RInt (fun theta => if polar_mask true t theta then sin theta else 0) 0 PI = 2 * (1 - cos t)).
  { apply is_RInt_unique.
    apply (is_RInt_add _ 0 (PI - t) PI (1 - cos t) (1 - cos t));
      [apply (is_RInt_add _ 0 t (PI - t) (1 - cos t) 0)| |]; [ | |ring| |ring].
    - apply is_RInt_ext with sin.
      + intros x. rewrite Rmin_left, Rmax_right by lra. intros [A B]. unfold polar_mask.
        assert (Rleb x t = true) as -> by (apply Rleb_spec; lra). reflexivity.
      + rewrite <- cos_0. apply is_RInt_sin.
    - apply is_RInt_ext with (fun _ => 0).
      + intros x. rewrite Rmin_left, Rmax_right by lra. intros [A B]. unfold polar_mask.
        assert (Rleb x t = false) as -> by (apply Rleb_false; lra).
        assert (Rleb (PI - t) x = false) as -> by (apply Rleb_false; lra). reflexivity.
      + apply is_RInt_zero.
    - apply is_RInt_ext with sin.
      + intros x. rewrite Rmin_left, Rmax_right by lra. intros [A B]. unfold polar_mask.
        assert (Rleb (PI - t) x = true) as -> by (apply Rleb_spec; lra). rewrite orb_true_r. reflexivity.
      + replace (1 - cos t) with (cos (PI - t) - cos PI).
        * apply is_RInt_sin.
        * rewrite cos_PI. rewrite cos_minus, cos_PI, sin_PI. ring. }
  rewrite E. rewrite RInt_const_R. ring.
Qed.

(** ** Shannon number *)
Lemma shannon_close area L :
  Rabs (IZR (shannon area L) - area * (INR L * INR L) / (4 * PI)) <= 1 / 2.
Proof. apply py_round_half. Qed.

Lemma shannon_range area L : 0 <= area <= 4 * PI ->
  (0 <= shannon area L <= Z.of_nat L * Z.of_nat L)%Z.
Proof.
  intros H. unfold shannon. apply py_round_between. pose proof PI_RGT_0.
  rewrite mult_IZR, <- INR_IZR_INZ.
  assert (0 <= INR L * INR L) by (apply Rmult_le_pos; apply pos_INR).
  split.
  - unfold Rdiv. repeat apply Rmult_le_pos; try apply pos_INR; try lra.
    left. apply Rinv_0_lt_compat. lra.
  - apply Rle_trans with (4 * PI * (INR L * INR L) / (4 * PI)).
    + unfold Rdiv. apply Rmult_le_compat_r; [left; apply Rinv_0_lt_compat; lra|].
      apply Rmult_le_compat_r; lra.
    + right. field. lra.
Qed.

Lemma cos_anti a b : 0 <= a -> a <= b -> b <= PI -> cos b <= cos a.
Proof.
  intros H1 H2 H3. destruct (Req_dec a b) as [->|N]; [lra|].
  left. apply cos_decreasing_1; lra.
Qed.

Lemma polar_area_range t : 0 <= polar_area t <= 4 * PI.
Proof.
  unfold polar_area. pose proof PI_RGT_0. pose proof (COS_bound t) as [A B].
  split; [apply Rmult_le_pos; lra|].
  replace (4 * PI) with (2 * PI * 2) by ring. apply Rmult_le_compat_l; lra.
Qed.

Lemma lat_lon_area_range pmax pmin tmax tmin :
  0 <= pmin -> pmin <= pmax -> pmax <= 2 * PI -> 0 <= tmin -> tmin <= tmax -> tmax <= PI ->
  0 <= lat_lon_area pmax pmin tmax tmin <= 4 * PI.
Proof.
  intros. unfold lat_lon_area. pose proof PI_RGT_0.
  pose proof (cos_anti tmin tmax ltac:(lra) ltac:(lra) ltac:(lra)).
  pose proof (COS_bound tmax) as [A B]. pose proof (COS_bound tmin) as [C D].
  split; [apply Rmult_le_pos; lra|].
  replace (4 * PI) with (2 * PI * 2) by ring. apply Rmult_le_compat; lra.
Qed.

(** ** File names *)
Lemma angle_as_degree_whole d : angle_as_degree (IZR d * PI / 180) = d.
Proof.
  unfold angle_as_degree. pose proof PI_RGT_0.
  replace (IZR d * PI / 180 * 180 / PI) with (IZR d) by (field; lra).
  apply py_round_IZR.
Qed.

Lemma angle_as_degree_nonneg x : 0 <= x -> (0 <= angle_as_degree x)%Z.
Proof.
  intros H. unfold angle_as_degree. pose proof PI_RGT_0.
  assert (0 <= x * 180 / PI).
  { unfold Rdiv. repeat apply Rmult_le_pos; try lra. left. apply Rinv_0_lt_compat. lra. }
  apply (py_round_mono 0) in H1. rewrite (py_round_IZR 0) in H1. exact H1.
Qed.

Lemma whole_degree_eq x y : whole_degree x -> whole_degree y ->
  angle_as_degree x = angle_as_degree y -> x = y.
Proof. intros [a ->] [b ->]. rewrite !angle_as_degree_whole. intros ->. reflexivity. Qed.

Fixpoint count_L (s : string) : nat :=
  match s with
  | EmptyString => 0
  | String a t => (if Ascii.eqb a "L" then 1 else 0) + count_L t
  end.

Lemma count_L_app a b : count_L (a ++ b) = (count_L a + count_L b)%nat.
Proof. induction a; cbn; [reflexivity|]. rewrite IHa. lia. Qed.

Lemma count_L_digits s : all_digits s -> count_L s = 0%nat.
Proof.
  induction s as [|a t IH]; cbn; intros H; [reflexivity|]. destruct H as [H1 H2].
  rewrite (IH H2). destruct (Ascii.eqb a "L") eqn:E; [|reflexivity].
  apply Ascii.eqb_eq in E. subst. discriminate.
Qed.

Lemma count_L_zstr z : count_L (zstr z) = 0%nat.
Proof.
  destruct (Z_le_gt_dec 0 z) as [H|H]; [apply count_L_digits, zstr_digits; lia|].
  unfold zstr. destruct z as [|p|p]; try lia. cbn [Z.to_int NilZero.string_of_int].
  cbn. unfold NilZero.string_of_uint. destruct (Pos.to_uint p); cbn;
    try apply count_L_digits; try apply string_of_uint_digits; reflexivity.
Qed.

Lemma append_prefix_cases (a b x y : string) : a ++ x = b ++ y ->
  exists w, (a = b ++ w /\ w ++ x = y) \/ (b = a ++ w /\ w ++ y = x).
Proof.
  revert b. induction a as [|c a IH]; intros b E.
  - exists b. right. cbn in *. auto.
  - destruct b as [|d b].
    + exists (String c a). left. cbn in *. auto.
    + cbn in E. injection E as -> E. destruct (IH b E) as [w [[-> H]|[-> H]]].
      * exists w. left. auto.
      * exists w. right. auto.
Qed.


Lemma mask_tail_unique m1 m2 L1 L2 N1 N2 :
  m1 ++ "_L" ++ zstr L1 ++ "_N" ++ zstr N1 = m2 ++ "_L" ++ zstr L2 ++ "_N" ++ zstr N2 ->
  m1 = m2 /\ zstr L1 ++ "_N" ++ zstr N1 = zstr L2 ++ "_N" ++ zstr N2.
Proof.
  assert (C : forall L N, count_L ("_L" ++ zstr L ++ "_N" ++ zstr N) = 1%nat).
  { intros. rewrite !count_L_app, !count_L_zstr. reflexivity. }
  assert (W : forall w L N L' N', w ++ "_L" ++ zstr L ++ "_N" ++ zstr N = "_L" ++ zstr L' ++ "_N" ++ zstr N' -> w = "").
  { intros w L N L' N' E. pose proof (f_equal count_L E) as F.
    rewrite count_L_app, !C in F.
    destruct w as [|a [|b w]]; [reflexivity| |]; cbn in E.
    - injection E as _ E. discriminate.
    - injection E as -> -> _. cbn in F. lia. }
  intros E. destruct (append_prefix_cases _ _ _ _ E) as [w [[-> H]|[-> H]]];
    pose proof (W _ _ _ _ _ H); subst w; rewrite append_nil_r; cbn in H;
    injection H as H; auto.
Qed.

Definition loc_tail (L : nat) (N : Z) : string := "_L" ++ zstr (Z.of_nat L) ++ "_N" ++ zstr N.

Lemma prefix_app a b : prefix a (a ++ b) = true.
Proof. induction a; cbn; [destruct b; reflexivity|]. destruct (ascii_dec a a); congruence. Qed.

Lemma prefix_app_false p m t q : prefix p m = false -> m ++ t = p ++ q ->
  exists w, p = m ++ w /\ w <> "" /\ t = w ++ q.
Proof.
  intros H E. destruct (append_prefix_cases _ _ _ _ E) as [w [[-> F]|[-> F]]].
  - rewrite prefix_app in H. discriminate.
  - exists w. split; [reflexivity|]. split; [|auto]. intros ->.
    rewrite append_nil_r in H. pose proof (prefix_app m "") as G. rewrite append_nil_r in G. congruence.
Qed.

Lemma no_underscore_split m w p : p = m ++ w -> w <> "" ->
  forall t q, "_" ++ t = w ++ q ->
  exists c, get c p = Some "_"%char.
Proof.
  intros -> H t q E. destruct w as [|a w]; [congruence|]. cbn in E. injection E as <- _.
  exists (String.length m). clear. induction m; cbn; auto.
Qed.

Lemma same_endings r1 r2 L1 L2 N1 N2 :
  accepted r1 -> accepted r2 -> whole_degrees r1 -> whole_degrees r2 ->
  (r_region_type r1 = Arbitrary -> plain_mask (r_mask_name r1)) ->
  (r_region_type r2 = Arbitrary -> plain_mask (r_mask_name r2)) ->
  r_name_ending r1 ++ loc_tail L1 N1 = r_name_ending r2 ++ loc_tail L2 N2 ->
  same_region r1 r2 /\ L1 = L2.
Proof.
  intros A1 A2 W1 W2 M1 M2 E.
  pose proof (accepted_ranges _ A1) as R1. pose proof (accepted_ranges _ A2) as R2.
  assert (NP : forall (m p : string) L N q, prefix p m = false ->
     (forall c, get c p <> Some "_"%char) -> m ++ loc_tail L N = p ++ q -> False).
  { intros m p L N q H U F. destruct (prefix_app_false _ _ _ _ H F) as [w [Hp [Hw Ht]]].
    unfold loc_tail in Ht.
    destruct (no_underscore_split _ _ _ Hp Hw _ _ Ht) as [c Hc]. exact (U c Hc). }
  assert (UP : forall c, get c "polar" <> Some "_"%char).
  { intros c. do 6 (destruct c as [|c]; [cbn; discriminate|]). cbn. discriminate. }
  assert (UT : forall c, get c "theta" <> Some "_"%char).
  { intros c. do 6 (destruct c as [|c]; [cbn; discriminate|]). cbn. discriminate. }
  assert (LL : forall a b, Z.of_nat a = Z.of_nat b -> a = b) by (intros; lia).
  destruct W1 as (W11 & W12 & W13 & W14). destruct W2 as (W21 & W22 & W23 & W24).
  destruct (accepted_cases _ A1) as [C1|[C1|C1]]; destruct (accepted_cases _ A2) as [C2|[C2|C2]].
  - destruct C1 as (T1 & C11 & C12 & C13 & C14 & C15). destruct C2 as (T2 & C21 & C22 & C23 & C24 & C25).
    rewrite C15, C25, !append_assoc_s in E. apply append_inj_l in E. unfold loc_tail in E.
    assert (G : r_gap r1 = r_gap r2 /\ zstr (angle_as_degree (r_theta_max r1)) ++ "_L" ++ zstr (Z.of_nat L1) ++ "_N" ++ zstr N1
       = zstr (angle_as_degree (r_theta_max r2)) ++ "_L" ++ zstr (Z.of_nat L2) ++ "_N" ++ zstr N2).
    { assert (D : forall z s t, (0 <= z)%Z -> zstr z ++ s <> "_gap" ++ t).
      { intros z s t Hz F. pose proof (zstr_digits z Hz) as D. pose proof (zstr_nonneg_nil z Hz).
        destruct (zstr z); [congruence|]. cbn in F. injection F as -> _. cbn in D. destruct D; discriminate. }
      destruct (r_gap r1), (r_gap r2).
      - apply append_inj_l in E. auto.
      - exfalso. cbn [append] in E. symmetry in E. eapply D; [|exact E]. apply angle_as_degree_nonneg; lra.
      - exfalso. cbn [append] in E. eapply D; [|exact E]. apply angle_as_degree_nonneg; lra.
      - auto. }
    destruct G as [G1 G2]. apply zstr_split in G2; try (apply angle_as_degree_nonneg; lra); try reflexivity.
    destruct G2 as [G2 G3]. apply append_inj_l in G3. apply zstr_split in G3; try lia; try reflexivity.
    destruct G3 as [G3 _]. split; [|auto].
    unfold same_region. rewrite T1, T2, C11, C12, C13, C21, C22, C23.
    repeat split; auto; try discriminate. apply whole_degree_eq; auto.
  - exfalso. destruct C1 as (T1 & _ & _ & _ & _ & C15). destruct C2 as (T2 & _ & C25).
    rewrite C15, C25 in E. cbn in E. discriminate.
  - exfalso. destruct C1 as (T1 & _ & _ & _ & _ & C15). destruct C2 as (T2 & _ & _ & _ & _ & _ & C25).
    rewrite C15, C25, !append_assoc_s in E. symmetry in E. eapply NP; [|exact UP|exact E]. apply M2; assumption.
  - exfalso. destruct C2 as (T1 & _ & _ & _ & _ & C15). destruct C1 as (T2 & _ & C25).
    rewrite C15, C25 in E. cbn in E. discriminate.
  - destruct C1 as (T1 & C11 & C15). destruct C2 as (T2 & C21 & C25).
    rewrite C15, C25, !append_assoc_s in E. apply append_inj_l in E. unfold loc_tail in E.
    apply zstr_split in E; try (apply angle_as_degree_nonneg; lra); try reflexivity.
    destruct E as [E1 E]. apply append_inj_l in E.
    apply zstr_split in E; try (apply angle_as_degree_nonneg; lra); try reflexivity.
    destruct E as [E2 E]. apply append_inj_l in E.
    apply zstr_split in E; try (apply angle_as_degree_nonneg; lra); try reflexivity.
    destruct E as [E3 E]. apply append_inj_l in E.
    apply zstr_split in E; try (apply angle_as_degree_nonneg; lra); try reflexivity.
    destruct E as [E4 E]. apply append_inj_l in E.
    apply zstr_split in E; try lia; try reflexivity. destruct E as [E5 _].
    split; [|auto]. unfold same_region. rewrite T1, T2.
    repeat split; try discriminate; apply whole_degree_eq; auto.
  - exfalso. destruct C1 as (T1 & _ & C15). destruct C2 as (T2 & _ & _ & _ & _ & _ & C25).
    rewrite C15, C25, !append_assoc_s in E. symmetry in E. eapply NP; [|exact UT|exact E]. apply M2; assumption.
  - exfalso. destruct C2 as (T1 & _ & _ & _ & _ & C15). destruct C1 as (T2 & _ & _ & _ & _ & _ & C25).
    rewrite C15, C25, !append_assoc_s in E. eapply NP; [|exact UP|exact E]. apply M1; assumption.
  - exfalso. destruct C2 as (T1 & _ & C15). destruct C1 as (T2 & _ & _ & _ & _ & _ & C25).
    rewrite C15, C25, !append_assoc_s in E. eapply NP; [|exact UT|exact E]. apply M1; assumption.
  - destruct C1 as (T1 & C11 & C12 & C13 & C14 & _ & C15). destruct C2 as (T2 & C21 & C22 & C23 & C24 & _ & C25).
    rewrite C15, C25 in E. apply mask_tail_unique in E. destruct E as [E1 E2].
    apply zstr_split in E2; try lia; try reflexivity. destruct E2 as [E2 _].
    split; [|auto]. unfold same_region. rewrite T1, T2, C11, C12, C13, C14, C21, C22, C23, C24.
    repeat split; auto. discriminate.
Qed.

Lemma solver_location_shape r a L s : accepted r ->
  solver_location a (choose_slepian_method r) L = Ok s ->
  exists N, s = "slepian_eigensolutions_D_" ++ r_name_ending r ++ loc_tail L N.
Proof.
  intros A E. unfold solver_location in E.
  destruct (create_region (choose_slepian_method r)) as [r'|] eqn:F; [|discriminate].
  cbn [rbind] in E. injection E as <-.
  eexists. unfold matrix_location, loc_tail. do 2 f_equal.
  destruct (accepted_cases _ A) as [C|[C|C]].
  - destruct C as (T & C1 & C2 & C3 & C4 & C5). unfold choose_slepian_method in *. rewrite T in *.
    rewrite C5. cbn [create_region] in F. destruct (Reqb _ _); [discriminate|].
    pose proof (make_region_accepted _ _ _ _ _ _ _ F) as A'.
    destruct (make_region_fields _ _ _ _ _ _ _ F) as (F1 & F2 & F3 & F4 & F5 & F6).
    destruct (accepted_cases _ A') as [D|[D|D]].
    + destruct D as (_ & _ & _ & _ & _ & D). rewrite D, F1, F5. reflexivity.
    + destruct D as (_ & D & _). rewrite F3, F4, F6 in D. unfold PHI_MAX_DEFAULT, PHI_MIN_DEFAULT, THETA_MIN_DEFAULT in D. tauto.
    + destruct D as (_ & _ & _ & _ & D & _). congruence.
  - destruct C as (T & C1 & C2). unfold choose_slepian_method in *. rewrite T in *.
    rewrite C2. cbn [create_region] in F.
    pose proof (make_region_accepted _ _ _ _ _ _ _ F) as A'.
    destruct (make_region_fields _ _ _ _ _ _ _ F) as (F1 & F2 & F3 & F4 & F5 & F6).
    destruct (accepted_cases _ A') as [D|[D|D]].
    + destruct D as (_ & D1 & D2 & D3 & _). rewrite F3, F4, F6 in *. tauto.
    + destruct D as (_ & _ & D). rewrite D, F3, F4, F5, F6. reflexivity.
    + destruct D as (_ & D1 & D2 & D3 & _). rewrite F3, F4, F6 in *. tauto.
  - destruct C as (T & C1 & C2 & C3 & C4 & C5 & C6). unfold choose_slepian_method in *. rewrite T in *.
    rewrite C6. reflexivity.
Qed.

Lemma location_injective r1 r2 a1 a2 L1 L2 s :
  accepted r1 -> accepted r2 -> whole_degrees r1 -> whole_degrees r2 ->
  (r_region_type r1 = Arbitrary -> plain_mask (r_mask_name r1)) ->
  (r_region_type r2 = Arbitrary -> plain_mask (r_mask_name r2)) ->
  solver_location a1 (choose_slepian_method r1) L1 = Ok s ->
  solver_location a2 (choose_slepian_method r2) L2 = Ok s ->
  same_region r1 r2 /\ L1 = L2.
Proof.
  intros A1 A2 W1 W2 M1 M2 E1 E2.
  destruct (solver_location_shape _ _ _ _ A1 E1) as [N1 ->].
  destruct (solver_location_shape _ _ _ _ A2 E2) as [N2 E].
  apply append_inj_l in E. eapply same_endings; eauto.
Qed.

(** Two different caps below half a degree share their file names when their
    Shannon number is zero. *)
Lemma small_caps_collide L : exists t1 t2, 0 < t1 < t2 /\ t2 < PI /\
  forall gap a, solver_location a (SlepianPolarCap t1 gap) L = solver_location a (SlepianPolarCap t2 gap) L
          /\ exists s, solver_location a (SlepianPolarCap t1 gap) L = Ok s.
Proof.
  pose proof PI_RGT_0 as PP.
  assert (LP : 0 <= INR L * INR L) by (apply Rmult_le_pos; apply pos_INR).
  set (K := INR L * INR L + 1).
  (* 1 - cos t <= t, so a cap below 1/(2K) has Shannon number 0 *)
  assert (Q : forall t, 0 < t -> 1 - cos t <= t).
  { intros t Ht.
    destruct (MVT_cor2 cos (fun x => - sin x) 0 t Ht) as [c [Hc1 Hc2]].
    { intros c _. apply derivable_pt_lim_cos. }
    rewrite cos_0 in Hc1. pose proof (SIN_bound c) as [S1 S2].
    replace (1 - cos t) with (sin c * t) by lra.
    rewrite <- (Rmult_1_l t) at 2. apply Rmult_le_compat_r; lra. }
  set (m := Rmin (1 / (2 * K)) (PI / 1000)).
  assert (K1 : 1 <= K) by (unfold K; lra).
  assert (Mp : 0 < m).
  { unfold m. apply Rmin_glb_lt; [|lra]. unfold Rdiv. rewrite Rmult_1_l. apply Rinv_0_lt_compat. lra. }
  assert (M1 : m <= 1 / (2 * K)) by apply Rmin_l.
  assert (M2 : m <= PI / 1000) by apply Rmin_r.
  assert (Sh : forall t, 0 < t <= m -> shannon (polar_area t) L = 0%Z).
  { intros t Ht. unfold shannon.
    assert (Hx : 0 <= polar_area t * (INR L * INR L) / (4 * PI) < 1 / 2).
    { destruct (polar_area_range t) as [P1 _]. split.
      - unfold Rdiv. apply Rmult_le_pos; [apply Rmult_le_pos; lra|]. left. apply Rinv_0_lt_compat. lra.
      - unfold polar_area. replace (2 * PI * (1 - cos t) * (INR L * INR L) / (4 * PI)) with ((1 - cos t) * (INR L * INR L) / 2) by (field; lra).
        assert (T : t * (2 * K) <= 1).
        { apply Rle_trans with (1 / (2 * K) * (2 * K)); [apply Rmult_le_compat_r; lra|]. right. field. lra. }
        specialize (Q t (proj1 Ht)).
        assert ((1 - cos t) * (INR L * INR L) <= t * K).
        { apply Rmult_le_compat; try lra. - pose proof (COS_bound t); lra. - unfold K; lra. }
        lra. }
    unfold py_round. rewrite (rfloor_unique _ 0) by lra.
    assert (Rltb (polar_area t * (INR L * INR L) / (4 * PI) - 0) (1 / 2) = true) as -> by (apply Rltb_spec; lra).
    reflexivity. }
  assert (Deg : forall t, 0 < t <= m -> angle_as_degree t = 0%Z).
  { intros t Ht. unfold angle_as_degree, py_round.
    assert (0 <= t * 180 / PI < 1/2).
    { split.
      - unfold Rdiv. apply Rmult_le_pos; [lra|]. left. apply Rinv_0_lt_compat. lra.
      - apply Rle_lt_trans with (PI / 1000 * 180 / PI).
        + unfold Rdiv at 1 3. apply Rmult_le_compat_r; [left; apply Rinv_0_lt_compat; lra|]. lra.
        + replace (PI / 1000 * 180 / PI) with (180/1000) by (field; lra). lra. }
    rewrite (rfloor_unique _ 0) by lra.
    assert (Rltb (t * 180 / PI - 0) (1 / 2) = true) as -> by (apply Rltb_spec; lra). reflexivity. }
  assert (Loc : forall t gap a, 0 < t <= m -> solver_location a (SlepianPolarCap t gap) L =
     Ok (matrix_location ("polar" ++ (if gap then "_gap" else "") ++ zstr 0) L 0)).
  { intros t gap a Ht. unfold solver_location, create_region.
    assert (Reqb t 0 = false) as -> by (apply Reqb_false; lra).
    destruct (make_region_cases gap "" PHI_MAX_DEFAULT PHI_MIN_DEFAULT t THETA_MIN_DEFAULT) as [E|[E|[E|E]]];
      unfold PHI_MAX_DEFAULT, PHI_MIN_DEFAULT, THETA_MAX_DEFAULT, THETA_MIN_DEFAULT in *; try (exfalso; lra); try lra.
    decompose [and] E. rewrite H4. cbn [rbind r_name_ending calculate_area].
    rewrite (Sh t Ht), (Deg t Ht). reflexivity. }
  exists (m / 2), m. split; [lra|]. split; [lra|].
  intros gap a. rewrite !Loc by lra. split; [reflexivity|]. eexists. reflexivity.
Qed.

(** The latitude-longitude solver given only [theta_max] uses the polar solver's
    files. *)
Lemma polar_latlon_share t L a : 0 < t < PI ->
  solver_location a (SlepianLimitLatLon PHI_MAX_DEFAULT PHI_MIN_DEFAULT t THETA_MIN_DEFAULT) L
  = solver_location a (SlepianPolarCap t false) L
  /\ exists s, solver_location a (SlepianPolarCap t false) L = Ok s.
Proof.
  intros H. pose proof PI_RGT_0. unfold solver_location, create_region.
  assert (Reqb t 0 = false) as -> by (apply Reqb_false; lra).
  destruct (make_region_cases false "" PHI_MAX_DEFAULT PHI_MIN_DEFAULT t THETA_MIN_DEFAULT) as [E|[E|[E|E]]];
      unfold PHI_MAX_DEFAULT, PHI_MIN_DEFAULT, THETA_MAX_DEFAULT, THETA_MIN_DEFAULT in *; try (exfalso; lra); try lra.
  destruct E as (_ & _ & _ & _ & E). rewrite E. cbn [rbind calculate_area r_name_ending]. split; [|eexists; reflexivity].
  unfold polar_area, lat_lon_area. rewrite cos_0. rewrite Rminus_0_r. reflexivity.
Qed.
