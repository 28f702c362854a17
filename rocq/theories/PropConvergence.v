(** * C86: sampled integrals approach the integrals. *)
From Coq Require Import String List ZArith Arith Bool Reals Lia Lra Psatz.
From Coquelicot Require Import Coquelicot.
From Verif Require Import Base PyNum PyNumProofs RSum CSum Region RegionProofs Mask MaskProofs Quadrature Plot PlotProofs Integration LatLonIntegrals LatLonProofs SpecLatLon CapProofs
  SpecConcentration SpecArbitrary ArbitrarySolve ArbitrarySolveProofs IdentityProofs SpecConvergence ConvergenceProofs.
Import ListNotations.
Local Open Scope R_scope.

Lemma parts_le z : Rabs (Re z) <= Cmod z /\ Rabs (Im z) <= Cmod z.
Proof.
  pose proof (Rmax_Cmod z) as H. unfold Re, Im. split; eapply Rle_trans; [apply Rmax_l|exact H|apply Rmax_r|exact H].
Qed.

Lemma le_parts z : Cmod z <= Rabs (Re z) + Rabs (Im z).
Proof.
  destruct z as [x y]. unfold Re, Im. cbn [fst snd]. replace (x, y) with (Cplus (RtoC x) (Cmult Ci (RtoC y))) by (apply injective_projections; cbn; ring).
  eapply Rle_trans; [apply Cmod_triangle|]. rewrite Cmod_mult, !Cmod_R. replace (Cmod Ci) with 1; [lra|]. unfold Cmod, Ci. cbn. symmetry. transitivity (sqrt 1); [f_equal; ring|apply sqrt_1].
Qed.

Lemma sin_lipschitz x y : Rabs (sin x - sin y) <= Rabs (x - y).
Proof.
  destruct (MVT_gen sin y x cos) as (c & Hc & E).
  - intros t _. apply is_derive_Reals. apply derivable_pt_lim_sin.
  - intros t _. apply continuity_sin.
  - rewrite E, Rabs_mult. rewrite <- (Rmult_1_l (Rabs (x - y))) at 2. apply Rmult_le_compat_r; [apply Rabs_pos|]. apply Rabs_le. apply COS_bound.
Qed.

Lemma with_area B K u : lipschitz B K u -> lipschitz B (K + B) (fun theta phi => Cmult (u theta phi) (RtoC (sin theta))).
Proof.
  intros (HB & HK & Hb & Hl). split; [exact HB|]. split; [lra|].
  assert (S1 : forall t, Rabs (sin t) <= 1) by (intros t; apply Rabs_le, SIN_bound). split.
  - intros theta phi. rewrite Cmod_mult, Cmod_R. pose proof (Hb theta phi). pose proof (S1 theta). pose proof (Cmod_ge_0 (u theta phi)). pose proof (Rabs_pos (sin theta)). nra.
  - intros t p t' p'. replace (Cminus (Cmult (u t p) (RtoC (sin t))) (Cmult (u t' p') (RtoC (sin t'))))
      with (Cplus (Cmult (Cminus (u t p) (u t' p')) (RtoC (sin t))) (Cmult (u t' p') (RtoC (sin t - sin t')))) by (rewrite RtoC_minus; ring).
    eapply Rle_trans; [apply Cmod_triangle|]. rewrite !Cmod_mult, !Cmod_R.
    pose proof (Hl t p t' p') as H1. pose proof (S1 t) as H2. pose proof (Hb t' p') as H3. pose proof (sin_lipschitz t t') as H4.
    pose proof (Rabs_pos (t - t')). pose proof (Rabs_pos (p - p')). pose proof (Rabs_pos (sin t - sin t')). pose proof (Cmod_ge_0 (u t' p')). pose proof (Rabs_pos (sin t)). pose proof (Cmod_ge_0 (Cminus (u t p) (u t' p'))).
    apply Rle_trans with (K * (Rabs (t - t') + Rabs (p - p')) * 1 + B * Rabs (t - t')); [apply Rplus_le_compat; apply Rmult_le_compat; assumption|nra].
Qed.

Lemma grid_box M u B K v it ip ta tb pa pb : (1 <= M)%nat -> lipschitz B K u -> 0 <= ta <= tb -> tb <= PI -> 0 <= pa <= pb -> pb <= 2 * PI ->
  (forall i, (i < M + 1)%nat -> it i = true <-> ta <= colatitude M i <= tb) -> (forall i, (i < 2 * M)%nat -> ip i = true <-> pa <= longitude M i <= pb) ->
  box_integral (fun theta phi => Cmult (u theta phi) (RtoC (sin theta))) ta tb pa pb v ->
  Cmod (Cminus (csum (M + 1) (fun t => csum (2 * M) (fun p => if it t && ip p then Cmult (u (colatitude M t) (longitude M p)) (RtoC (cell M t)) else RtoC 0))) v)
  <= sampling_error B K M.
Proof.
  intros HM HU Ht Htb Hp Hpb It Ip HV. pose proof (with_area B K u HU) as (HB & HK & Hb & Hl). destruct HU as (_ & HK0 & _ & _). pose proof PI_RGT_0 as PP.
  assert (HI : 1 <= INR M) by (apply (le_INR 1); exact HM). set (delta := PI / INR M).
  assert (D0 : 0 < delta) by (apply Rdiv_lt_0_compat; lra).
  assert (DM : INR M * delta = PI) by (unfold delta; field; lra).
  assert (D1 : delta <= PI) by nra.
  assert (CT : forall i, colatitude M i = INR i * delta) by (intros; unfold colatitude, delta; field; lra).
  assert (LO : forall i, longitude M i = INR i * delta) by (intros; unfold longitude, delta; field; lra).
  set (G := fun theta phi => Cmult (u theta phi) (RtoC (sin theta))) in *.
  destruct (box_integral_parts _ _ _ _ _ _ HV) as (VR & VI).
  set (W := delta * (((K + B) * (tb - ta) + 2 * B) * (pb - pa + 2 * delta) + (K + B) * (tb - ta) * (pb - pa) + 2 * (B * (tb - ta)))).
  assert (Hw : 2 * W <= sampling_error B K M).
  { unfold sampling_error. replace ((12 * PI ^ 3 * (B + K) + 20 * PI ^ 2 * B) / INR M) with (2 * (delta * (6 * PI ^ 2 * (K + B) + 10 * PI * B))) by (unfold delta; field; lra).
    apply Rmult_le_compat_l; [lra|]. unfold W. apply Rmult_le_compat_l; [lra|].
    assert (A1 : (K + B) * (tb - ta) <= (K + B) * PI) by (apply Rmult_le_compat_l; lra).
    assert (A0 : 0 <= (K + B) * (tb - ta)) by (apply Rmult_le_pos; lra).
    assert (A2 : ((K + B) * (tb - ta) + 2 * B) * (pb - pa + 2 * delta) <= ((K + B) * PI + 2 * B) * (4 * PI)) by (apply Rmult_le_compat; lra).
    assert (A3 : (K + B) * (tb - ta) * (pb - pa) <= (K + B) * PI * (2 * PI)) by (apply Rmult_le_compat; lra).
    assert (A4 : B * (tb - ta) <= B * PI) by (apply Rmult_le_compat_l; lra). nra. }
  assert (Part : forall part : C -> R, (forall z, Rabs (part z) <= Cmod z) -> (forall z z', part (Cminus z z') = part z - part z') ->
    Rabs (rsum (M + 1) (fun t => rsum (2 * M) (fun p => if it t && ip p then part (G (INR t * delta) (INR p * delta)) * delta ^ 2 else 0))
          - RInt (fun y => RInt (fun x => part (G x y)) ta tb) pa pb) <= W).
  { intros part P1 P2. apply (riemann_box (fun x y => part (G x y)) (K + B) B delta ta tb pa pb HK HB D0 Ht Hp).
    - intros x y x' y'. rewrite <- P2. eapply Rle_trans; [apply P1|]. apply Hl.
    - intros x y. eapply Rle_trans; [apply P1|]. apply Hb.
    - rewrite plus_INR, Rmult_plus_distr_r, DM. cbn [INR]. lra.
    - rewrite mult_INR, Rmult_assoc, DM. cbn [INR]. lra.
    - intros i Hi. rewrite <- CT. apply It, Hi.
    - intros i Hi. rewrite <- LO. apply Ip, Hi. }
  assert (Cells : forall t p, Cmult (u (colatitude M t) (longitude M p)) (RtoC (cell M t)) = Cmult (G (INR t * delta) (INR p * delta)) (RtoC (delta ^ 2))).
  { intros t p. unfold G, cell. fold delta. rewrite <- CT, <- LO, RtoC_mult. ring. }
  pose proof (Part Re (fun z => proj1 (parts_le z)) (fun z z' => eq_refl)) as QR. pose proof (Part Im (fun z => proj2 (parts_le z)) (fun z z' => eq_refl)) as QI.
  rewrite <- VR in QR. rewrite <- VI in QI.
  eapply Rle_trans; [apply le_parts|].
  assert (SR : forall z z', Re (Cminus z z') = Re z - Re z') by reflexivity. assert (SI : forall z z', Im (Cminus z z') = Im z - Im z') by reflexivity.
  rewrite SR, SI, csum_re, csum_im.
  rewrite (rsum_ext (M + 1) _ (fun t => rsum (2 * M) (fun p => if it t && ip p then Re (G (INR t * delta) (INR p * delta)) * delta ^ 2 else 0))).
  2: { intros t _. rewrite csum_re. apply rsum_ext. intros p _. destruct (it t && ip p); [rewrite Cells; unfold Re; cbn; ring|reflexivity]. }
  rewrite (rsum_ext (M + 1) (fun i => Im _) (fun t => rsum (2 * M) (fun p => if it t && ip p then Im (G (INR t * delta) (INR p * delta)) * delta ^ 2 else 0))).
  2: { intros t _. rewrite csum_im. apply rsum_ext. intros p _. destruct (it t && ip p); [rewrite Cells; unfold Im; cbn; ring|reflexivity]. }
  lra.
Qed.

(** The arrays of a product hold the samples of a function. *)
Definition samples_of (M : nat) (f : nat -> C) (fs : list (nat -> C)) (u : R -> R -> C) : Prop :=
  forall t p, (t < M + 1)%nat -> (p < 2 * M)%nat -> multiply_args f fs (t * (2 * M) + p)%nat = u (colatitude M t) (longitude M p).

Lemma region_fits land M r fs mask fs' : create_mask_region land M (sample_grid M) r fs = Ok (mask, fs') -> fits M mask.
Proof. intros E. unfold fits. rewrite (region_mask_shape _ _ _ _ _ _ _ E), grid_shape. reflexivity. Qed.

Lemma integrate_grid M mask f fs u : (1 <= M)%nat -> fits M mask -> samples_of M f fs u ->
  integrate_region_sphere (samples M) (flat_mask mask) (flat_weight M) f fs
  = csum (M + 1) (fun t => csum (2 * M) (fun p => if inside mask t p then Cmult (u (colatitude M t) (longitude M p)) (RtoC (cell M t)) else RtoC 0)).
Proof.
  intros HM F HU. unfold integrate_region_sphere, samples, n_theta, n_phi. rewrite csum_rect. apply csum_ext. intros t Ht. apply csum_ext. intros p Hp.
  rewrite HU, flat_weight_at, (flat_mask_at M) by assumption. unfold mask_value. destruct (inside mask t p); ring.
Qed.

Lemma sample_inside {mask : mask_array} {t p b} : sample mask t p = Some b -> inside mask t p = b.
Proof.
  unfold sample, inside. destruct (nth_error mask t) as [row|] eqn:E; [|discriminate]. intros H. rewrite (nth_error_nth _ _ _ E). apply nth_error_nth, H.
Qed.

(** ** Boxes, caps, pairs of caps and the sphere *)
(** The sampled integral over a box of a product of functions is off by at most a
    constant over the resolution. *)
Theorem C86_box : forall M land r fs mask fs' f fl u B K v, (1 <= M)%nat -> r_region_type r = LimLatLon ->
  0 <= r_theta_min r <= r_theta_max r -> r_theta_max r <= PI -> 0 <= r_phi_min r <= r_phi_max r -> r_phi_max r <= 2 * PI ->
  create_mask_region land M (sample_grid M) r fs = Ok (mask, fs') -> samples_of M f fl u -> lipschitz B K u ->
  box_integral (fun theta phi => Cmult (u theta phi) (RtoC (sin theta))) (r_theta_min r) (r_theta_max r) (r_phi_min r) (r_phi_max r) v ->
  Cmod (Cminus (integrate_region_sphere (samples M) (flat_mask mask) (flat_weight M) f fl) v) <= sampling_error B K M.
Proof.
  intros M land r fs mask fs' f fl u B K v HM T Ht Ht' Hp Hp' E HU HL HV. rewrite (integrate_grid M mask f fl u HM (region_fits _ _ _ _ _ _ E) HU).
  rewrite (csum_ext (M + 1) _ (fun t => csum (2 * M) (fun p =>
    if (Rleb (r_theta_min r) (colatitude M t) && Rleb (colatitude M t) (r_theta_max r)) && (Rleb (r_phi_min r) (longitude M p) && Rleb (longitude M p) (r_phi_max r))
    then Cmult (u (colatitude M t) (longitude M p)) (RtoC (cell M t)) else RtoC 0))).
  - apply (grid_box M u B K v (fun t => Rleb (r_theta_min r) (colatitude M t) && Rleb (colatitude M t) (r_theta_max r))
      (fun p => Rleb (r_phi_min r) (longitude M p) && Rleb (longitude M p) (r_phi_max r)) _ _ _ _ HM HL Ht Ht' Hp Hp'); [| |exact HV];
      intros i _; rewrite andb_true_iff, !Rleb_spec; reflexivity.
  - intros t Hlt. apply csum_ext. intros p Hlp.
    destruct (region_mask_sample_box land M _ r fs t p _ _ T (grid_sample M t p Hlt Hlp)) as (m' & b & E' & Sm & Hb). rewrite E in E'. injection E' as <- _.
    rewrite (sample_inside Sm). fold (colatitude M t) in Hb. fold (longitude M p) in Hb.
    match goal with |- (if b then _ else _) = (if ?c then _ else _) => replace c with b; [reflexivity|] end.
    apply eq_true_iff_eq. rewrite Hb, !andb_true_iff, !Rleb_spec. tauto.
Qed.
Print Assumptions C86_box.

Lemma polar_grid M land r fs mask fs' f fl u (inn : nat -> bool) : (1 <= M)%nat -> r_region_type r = Polar ->
  create_mask_region land M (sample_grid M) r fs = Ok (mask, fs') -> samples_of M f fl u ->
  (forall t, (t < M + 1)%nat -> inn t = true <-> colatitude M t <= r_theta_max r \/ (r_gap r = true /\ PI - r_theta_max r <= colatitude M t)) ->
  integrate_region_sphere (samples M) (flat_mask mask) (flat_weight M) f fl
  = csum (M + 1) (fun t => csum (2 * M) (fun p => if inn t && true then Cmult (u (colatitude M t) (longitude M p)) (RtoC (cell M t)) else RtoC 0)).
Proof.
  intros HM T E HU HI. rewrite (integrate_grid M mask f fl u HM (region_fits _ _ _ _ _ _ E) HU). apply csum_ext. intros t Ht. apply csum_ext. intros p Hp.
  destruct (region_mask_sample_polar land M _ r fs t p _ _ T (grid_sample M t p Ht Hp)) as (m' & b & E' & Sm & Hb). rewrite E in E'. injection E' as <- _.
  rewrite (sample_inside Sm), andb_true_r. fold (colatitude M t) in Hb. replace (inn t) with b; [reflexivity|]. apply eq_true_iff_eq. rewrite Hb, HI by exact Ht. reflexivity.
Qed.

Lemma colatitude_range M t : (1 <= M)%nat -> (t < M + 1)%nat -> 0 <= colatitude M t <= PI.
Proof.
  intros HM Ht. assert (1 <= INR M) by (apply (le_INR 1); exact HM). assert (INR t <= INR M) by (apply le_INR; lia). pose proof (pos_INR t). pose proof PI_RGT_0.
  unfold colatitude. replace (PI * INR t / INR M) with (PI * (INR t / INR M)) by (field; lra).
  assert (0 <= INR t / INR M <= 1); [|nra]. split; [apply Rdiv_le_0_compat; lra|]. apply (Rmult_le_reg_r (INR M)); [lra|]. unfold Rdiv. rewrite Rmult_assoc, Rinv_l by lra. lra.
Qed.

Lemma longitude_range M p : (1 <= M)%nat -> (p < 2 * M)%nat -> 0 <= longitude M p <= 2 * PI.
Proof.
  intros HM Hp. assert (1 <= INR M) by (apply (le_INR 1); exact HM). assert (INR p <= 2 * INR M) by (rewrite <- (mult_INR 2); apply le_INR; lia). pose proof (pos_INR p). pose proof PI_RGT_0.
  unfold longitude. replace (PI * INR p / INR M) with (PI * (INR p / INR M)) by (field; lra).
  assert (0 <= INR p / INR M <= 2); [|nra]. split; [apply Rdiv_le_0_compat; lra|]. apply (Rmult_le_reg_r (INR M)); [lra|]. unfold Rdiv. rewrite Rmult_assoc, Rinv_l by lra. lra.
Qed.

(** The same for a cap, and with twice the error for a pair of caps. *)
Theorem C86_cap : forall M land r fs mask fs' f fl u B K v, (1 <= M)%nat -> r_region_type r = Polar -> r_gap r = false -> 0 <= r_theta_max r <= PI ->
  create_mask_region land M (sample_grid M) r fs = Ok (mask, fs') -> samples_of M f fl u -> lipschitz B K u ->
  box_integral (fun theta phi => Cmult (u theta phi) (RtoC (sin theta))) 0 (r_theta_max r) 0 (2 * PI) v ->
  Cmod (Cminus (integrate_region_sphere (samples M) (flat_mask mask) (flat_weight M) f fl) v) <= sampling_error B K M.
Proof.
  intros M land r fs mask fs' f fl u B K v HM T Hg Ht E HU HL HV. pose proof PI_RGT_0 as PP.
  rewrite (polar_grid M land r fs mask fs' f fl u (fun t => Rleb (colatitude M t) (r_theta_max r)) HM T E HU).
  - apply (grid_box M u B K v (fun t => Rleb (colatitude M t) (r_theta_max r)) (fun _ => true) 0 (r_theta_max r) 0 (2 * PI) HM HL); try lra; [| |exact HV].
    + intros i Hi. rewrite Rleb_spec. pose proof (colatitude_range M i HM Hi). split; [intros; lra|intros; lra].
    + intros i Hi. pose proof (longitude_range M i HM Hi). tauto.
  - intros t _. rewrite Rleb_spec, Hg. split; [auto|]. intros [A|(A & _)]; [exact A|discriminate].
Qed.
Print Assumptions C86_cap.

Theorem C86_two_caps : forall M land r fs mask fs' f fl u B K north south, (1 <= M)%nat -> r_region_type r = Polar -> r_gap r = true -> 0 <= r_theta_max r < PI / 2 ->
  create_mask_region land M (sample_grid M) r fs = Ok (mask, fs') -> samples_of M f fl u -> lipschitz B K u ->
  box_integral (fun theta phi => Cmult (u theta phi) (RtoC (sin theta))) 0 (r_theta_max r) 0 (2 * PI) north ->
  box_integral (fun theta phi => Cmult (u theta phi) (RtoC (sin theta))) (PI - r_theta_max r) PI 0 (2 * PI) south ->
  Cmod (Cminus (integrate_region_sphere (samples M) (flat_mask mask) (flat_weight M) f fl) (Cplus north south)) <= 2 * sampling_error B K M.
Proof.
  intros M land r fs mask fs' f fl u B K north south HM T Hg Ht E HU HL HN HS. pose proof PI_RGT_0 as PP. set (Th := r_theta_max r) in *.
  rewrite (polar_grid M land r fs mask fs' f fl u (fun t => Rleb (colatitude M t) Th || Rleb (PI - Th) (colatitude M t)) HM T E HU).
  - assert (QN : forall i, (i < 2 * M)%nat -> true = true <-> 0 <= longitude M i <= 2 * PI) by (intros i Hi; pose proof (longitude_range M i HM Hi); tauto).
    pose proof (grid_box M u B K north (fun t => Rleb (colatitude M t) Th) (fun _ => true) 0 Th 0 (2 * PI) HM HL ltac:(lra) ltac:(lra) ltac:(lra) ltac:(lra)) as A.
    specialize (A ltac:(intros i Hi; rewrite Rleb_spec; pose proof (colatitude_range M i HM Hi); split; intros; lra) QN HN).
    pose proof (grid_box M u B K south (fun t => Rleb (PI - Th) (colatitude M t)) (fun _ => true) (PI - Th) PI 0 (2 * PI) HM HL ltac:(lra) ltac:(lra) ltac:(lra) ltac:(lra)) as D.
    specialize (D ltac:(intros i Hi; rewrite Rleb_spec; pose proof (colatitude_range M i HM Hi); split; intros; lra) QN HS).
    match type of A with Cmod (Cminus ?a _) <= _ => match type of D with Cmod (Cminus ?d _) <= _ => match goal with |- Cmod (Cminus ?s _) <= _ =>
      replace (Cminus s (Cplus north south)) with (Cplus (Cminus a north) (Cminus d south)); [eapply Rle_trans; [apply Cmod_triangle|lra]|];
      replace s with (Cplus a d); [ring|] end end end.
    rewrite <- csum_plus. apply csum_ext. intros t _. rewrite <- csum_plus. apply csum_ext. intros p _. rewrite !andb_true_r.
    destruct (Rleb (colatitude M t) Th) eqn:X; destruct (Rleb (PI - Th) (colatitude M t)) eqn:Y; cbn [orb]; try ring.
    apply Rleb_spec in X. apply Rleb_spec in Y. exfalso. lra.
  - intros t _. rewrite orb_true_iff, !Rleb_spec, Hg. tauto.
Qed.
Print Assumptions C86_two_caps.

(** The integral over the whole sphere. *)
Theorem C86_sphere : forall M f fl u B K v, (1 <= M)%nat -> samples_of M f fl u -> lipschitz B K u ->
  box_integral (fun theta phi => Cmult (u theta phi) (RtoC (sin theta))) 0 PI 0 (2 * PI) v ->
  Cmod (Cminus (integrate_whole_sphere (samples M) (flat_weight M) f fl) v) <= sampling_error B K M.
Proof.
  intros M f fl u B K v HM HU HL HV. pose proof PI_RGT_0 as PP.
  replace (integrate_whole_sphere (samples M) (flat_weight M) f fl)
    with (csum (M + 1) (fun t => csum (2 * M) (fun p => if true && true then Cmult (u (colatitude M t) (longitude M p)) (RtoC (cell M t)) else RtoC 0))).
  - apply (grid_box M u B K v (fun _ => true) (fun _ => true) 0 PI 0 (2 * PI) HM HL); try lra; [| |exact HV].
    + intros i Hi. pose proof (colatitude_range M i HM Hi). tauto.
    + intros i Hi. pose proof (longitude_range M i HM Hi). tauto.
  - unfold integrate_whole_sphere, samples, n_theta, n_phi. rewrite csum_rect. apply csum_ext. intros t Ht. apply csum_ext. intros p Hp.
    rewrite HU, flat_weight_at by assumption. reflexivity.
Qed.
Print Assumptions C86_sphere.

(** ** Band-limited functions *)
Definition tame (f : R -> R -> C) : Prop := exists B K, lipschitz B K f.

Lemma tame_const z : tame (fun _ _ => z).
Proof.
  exists (Cmod z), 0. split; [apply Cmod_ge_0|]. split; [lra|]. split; [intros; lra|]. intros. replace (Cminus z z) with (RtoC 0) by ring. rewrite Cmod_0. lra.
Qed.

Lemma tame_plus f g : tame f -> tame g -> tame (fun t p => Cplus (f t p) (g t p)).
Proof.
  intros (B & K & H1 & H2 & H3 & H4) (B' & K' & H1' & H2' & H3' & H4'). exists (B + B'), (K + K'). split; [lra|]. split; [lra|]. split.
  - intros. eapply Rle_trans; [apply Cmod_triangle|]. apply Rplus_le_compat; auto.
  - intros t p t' p'. replace (Cminus (Cplus (f t p) (g t p)) (Cplus (f t' p') (g t' p'))) with (Cplus (Cminus (f t p) (f t' p')) (Cminus (g t p) (g t' p'))) by ring.
    eapply Rle_trans; [apply Cmod_triangle|]. rewrite Rmult_plus_distr_r. apply Rplus_le_compat; auto.
Qed.

Lemma tame_mult f g : tame f -> tame g -> tame (fun t p => Cmult (f t p) (g t p)).
Proof.
  intros (B & K & H1 & H2 & H3 & H4) (B' & K' & H1' & H2' & H3' & H4'). exists (B * B'), (K * B' + B * K').
  split; [apply Rmult_le_pos; assumption|]. split; [apply Rplus_le_le_0_compat; apply Rmult_le_pos; assumption|]. split.
  - intros. rewrite Cmod_mult. apply Rmult_le_compat; try apply Cmod_ge_0; auto.
  - intros t p t' p'. replace (Cminus (Cmult (f t p) (g t p)) (Cmult (f t' p') (g t' p'))) with (Cplus (Cmult (Cminus (f t p) (f t' p')) (g t p)) (Cmult (f t' p') (Cminus (g t p) (g t' p')))) by ring.
    eapply Rle_trans; [apply Cmod_triangle|]. rewrite !Cmod_mult. set (s := Rabs (t - t') + Rabs (p - p')).
    apply Rle_trans with (K * s * B' + B * (K' * s)); [|apply Req_le; ring].
    apply Rplus_le_compat; apply Rmult_le_compat; try apply Cmod_ge_0; unfold s; auto.
Qed.

Lemma conj_modulus z : Cmod (Cconj z) = Cmod z.
Proof. unfold Cmod, Cconj. cbn [fst snd]. f_equal. ring. Qed.

Lemma tame_conj f : tame f -> tame (fun t p => Cconj (f t p)).
Proof.
  intros (B & K & H1 & H2 & H3 & H4). exists B, K. split; [exact H1|]. split; [exact H2|]. split; [intros; rewrite conj_modulus; apply H3|].
  intros t p t' p'. replace (Cminus (Cconj (f t p)) (Cconj (f t' p'))) with (Cconj (Cminus (f t p) (f t' p'))) by (apply injective_projections; cbn; ring). rewrite conj_modulus. apply H4.
Qed.

Lemma expi_lipschitz k x y : Cmod (Cminus (expi (k * x)) (expi (k * y))) <= 2 * Rabs k * Rabs (x - y).
Proof.
  assert (CL : forall x y, Rabs (cos x - cos y) <= Rabs (x - y)).
  { clear. intros x y. rewrite <- !sin_shift. eapply Rle_trans; [apply sin_lipschitz|]. replace (PI / 2 - x - (PI / 2 - y)) with (- (x - y)) by ring. rewrite Rabs_Ropp. lra. }
  eapply Rle_trans; [apply le_parts|]. unfold expi, Re, Im. cbn [fst snd Cminus Cplus Copp].
  pose proof (CL (k * x) (k * y)) as A. pose proof (sin_lipschitz (k * x) (k * y)) as D. rewrite <- Rmult_minus_distr_l, Rabs_mult in A, D. unfold Rminus in A at 1. unfold Rminus in D at 1. lra.
Qed.

Lemma expi_modulus x : Cmod (expi x) = 1.
Proof. unfold Cmod, expi. cbn [fst snd]. rewrite Rplus_comm. pose proof (sin2_cos2 x) as H. unfold Rsqr in H. replace (sin x ^ 2 + cos x ^ 2) with 1 by (rewrite <- H; ring). apply sqrt_1. Qed.

Lemma tame_theta k : tame (fun t _ => expi (k * t)).
Proof.
  exists 1, (2 * Rabs k). pose proof (Rabs_pos k). split; [lra|]. split; [lra|]. split; [intros; rewrite expi_modulus; lra|]. intros t p t' p'.
  eapply Rle_trans; [apply expi_lipschitz|]. apply Rmult_le_compat_l; [lra|]. pose proof (Rabs_pos (p - p')). lra.
Qed.

Lemma tame_phi k : tame (fun _ p => expi (k * p)).
Proof.
  exists 1, (2 * Rabs k). pose proof (Rabs_pos k). split; [lra|]. split; [lra|]. split; [intros; rewrite expi_modulus; lra|]. intros t p t' p'.
  eapply Rle_trans; [apply expi_lipschitz|]. apply Rmult_le_compat_l; [lra|]. pose proof (Rabs_pos (t - t')). lra.
Qed.

Lemma tame_clsum {A} (F : A -> R -> R -> C) l : (forall a, tame (F a)) -> tame (fun t p => clsum (map (fun a => F a t p) l)).
Proof. intros H. induction l as [|a l IH]; [exact (tame_const (RtoC 0))|]. exact (tame_plus _ _ (H a) IH). Qed.

Lemma tame_csum n (F : nat -> R -> R -> C) : (forall i, tame (F i)) -> tame (fun t p => csum n (fun i => F i t p)).
Proof. intros H. induction n as [|n IH]; [exact (tame_const (RtoC 0))|]. exact (tame_plus _ _ IH (H n)). Qed.

Lemma tame_band_limited d n w : tame (band_limited d n w).
Proof.
  unfold band_limited. apply tame_csum. intros i. apply tame_mult; [apply tame_const|]. unfold harmonic_number, harmonic.
  apply tame_mult; [apply tame_const|]. apply tame_mult; [|apply tame_phi].
  apply (tame_clsum (fun k t p => Cmult (RtoC (d (Z.of_nat (Nat.sqrt i)) k (Z.of_nat i - Z.of_nat (Nat.sqrt i) * Z.of_nat (Nat.sqrt i) - Z.of_nat (Nat.sqrt i))%Z * d (Z.of_nat (Nat.sqrt i)) k 0%Z)) (expi (IZR k * t)))).
  intros k. apply tame_mult; [apply tame_const|apply tame_theta].
Qed.

(** For band-limited functions the sampled inner products over a box, a cap or the
    sphere tend to the exact ones like one over the resolution. *)
Theorem C86_band_limited : forall d n v w, let f := band_limited d n v in let g := band_limited d n w in
  exists c, 0 <= c /\ forall M a b, (1 <= M)%nat ->
    (forall t p, (t < M + 1)%nat -> (p < 2 * M)%nat -> a (t * (2 * M) + p)%nat = f (colatitude M t) (longitude M p) /\ b (t * (2 * M) + p)%nat = Cconj (g (colatitude M t) (longitude M p))) ->
    (forall total, inner f g 0 PI 0 (2 * PI) total -> Cmod (Cminus (integrate_whole_sphere (samples M) (flat_weight M) a [b]) total) <= c / INR M) /\
    forall land r fs mask fs' x, create_mask_region land M (sample_grid M) r fs = Ok (mask, fs') ->
      (r_region_type r = LimLatLon /\ 0 <= r_theta_min r <= r_theta_max r /\ r_theta_max r <= PI /\ 0 <= r_phi_min r <= r_phi_max r /\ r_phi_max r <= 2 * PI /\
         inner f g (r_theta_min r) (r_theta_max r) (r_phi_min r) (r_phi_max r) x) \/
      (r_region_type r = Polar /\ r_gap r = false /\ 0 <= r_theta_max r <= PI /\ inner f g 0 (r_theta_max r) 0 (2 * PI) x) ->
      Cmod (Cminus (integrate_region_sphere (samples M) (flat_mask mask) (flat_weight M) a [b]) x) <= c / INR M.
Proof.
  intros d n v w f g. destruct (tame_mult f (fun t p => Cconj (g t p)) (tame_band_limited d n v) (tame_conj g (tame_band_limited d n w))) as (B & K & HL).
  pose proof HL as (HB & HK & _ & _). pose proof PI_RGT_0 as PP. exists (12 * PI ^ 3 * (B + K) + 20 * PI ^ 2 * B). split.
  { apply Rplus_le_le_0_compat; apply Rmult_le_pos; try lra; apply Rmult_le_pos; try lra; apply pow_le; lra. }
  intros M a b HM Hs. assert (SO : samples_of M a [b] (fun t p => Cmult (f t p) (Cconj (g t p)))).
  { intros t p Ht Hp. unfold multiply_args. cbn [fold_left]. destruct (Hs t p Ht Hp) as (-> & ->). reflexivity. }
  split.
  - intros total HT. exact (C86_sphere M a [b] _ B K total HM SO HL HT).
  - intros land r fs mask fs' x E [(T & H1 & H2 & H3 & H4 & HI)|(T & Hg & H1 & HI)].
    + exact (C86_box M land r fs mask fs' a [b] _ B K x HM T H1 H2 H3 H4 E SO HL HI).
    + exact (C86_cap M land r fs mask fs' a [b] _ B K x HM T Hg H1 E SO HL HI).
Qed.
Print Assumptions C86_band_limited.

(** ** Areas *)
Lemma box_area ta tb pa pb : box_integral (fun theta phi => Cmult (RtoC 1) (RtoC (sin theta))) ta tb pa pb (RtoC (lat_lon_area pb pa tb ta)).
Proof.
  exists (fun _ => RtoC (cos ta - cos tb)). split.
  - intros _. apply (cint_ext (fun t => RtoC (sin t))); [intros; ring|]. apply cint_real.
    replace (cos ta - cos tb) with (minus (- cos tb) (- cos ta)) by (unfold minus, plus, opp; cbn; ring).
    apply (is_RInt_derive (fun t => - cos t)); intros t _.
    + auto_derive; [exact I|ring].
    + apply continuous_sin.
  - apply cint_real. replace (lat_lon_area pb pa tb ta) with (scal (pb - pa) (cos ta - cos tb)) by reflexivity. apply (is_RInt_const (V := R_CompleteNormedModule)).
Qed.

Lemma one_lipschitz : lipschitz 1 0 (fun _ _ => RtoC 1).
Proof.
  split; [lra|]. split; [lra|]. split; [intros; rewrite Cmod_1; lra|]. intros. replace (Cminus (RtoC 1) (RtoC 1)) with (RtoC 0) by ring. rewrite Cmod_0. lra.
Qed.

Lemma area_integral L mask : (1 <= L)%nat -> fits (resolution_of L) mask ->
  integrate_region_sphere (samples (resolution_of L)) (flat_mask mask) (flat_weight (resolution_of L)) (fun _ => RtoC 1) [] = RtoC (arbitrary_area L mask).
Proof.
  intros HL F. assert (HM : (1 <= resolution_of L)%nat) by (unfold resolution_of; lia).
  rewrite (integrate_grid _ mask _ _ (fun _ _ => RtoC 1) HM F) by (intros ? ? ? ?; reflexivity).
  rewrite (arbitrary_area_grid L mask HL F). unfold grid_area. rewrite <- csum_RtoC. apply csum_ext. intros t _. rewrite <- csum_RtoC. apply csum_ext. intros p _.
  destruct (inside mask t p); [ring|reflexivity].
Qed.

(** The area of the mask of a box or cap, at the resolution of arbitrary regions, is
    close to the area in closed form; for a pair of caps it is close to twice the
    closed form. *)
Theorem C86_area : forall L land r fs mask fs', (1 <= L)%nat ->
  create_mask_region land (resolution_of L) (sample_grid (resolution_of L)) r fs = Ok (mask, fs') ->
  let exact := calculate_area 0 (choose_slepian_method r) in let err := (12 * PI ^ 3 + 20 * PI ^ 2) / (2 * INR L) in
  (r_region_type r = LimLatLon -> 0 <= r_theta_min r <= r_theta_max r -> r_theta_max r <= PI -> 0 <= r_phi_min r <= r_phi_max r -> r_phi_max r <= 2 * PI ->
     Rabs (arbitrary_area L mask - exact) <= err) /\
  (r_region_type r = Polar -> r_gap r = false -> 0 <= r_theta_max r <= PI -> Rabs (arbitrary_area L mask - exact) <= err) /\
  (r_region_type r = Polar -> r_gap r = true -> 0 <= r_theta_max r < PI / 2 -> Rabs (arbitrary_area L mask - 2 * exact) <= 2 * err).
Proof.
  intros L land r fs mask fs' HL E exact err. set (M := resolution_of L) in *. assert (HM : (1 <= M)%nat) by (unfold M, resolution_of; lia). pose proof PI_RGT_0 as PP.
  assert (HI : 1 <= INR L) by (apply (le_INR 1); exact HL).
  assert (EE : sampling_error 1 0 M = err) by (unfold sampling_error, err, M, resolution_of; rewrite mult_INR; cbn [INR]; field; lra).
  assert (SO : samples_of M (fun _ => RtoC 1) [] (fun _ _ => RtoC 1)) by (intros ? ? ? ?; reflexivity).
  pose proof (area_integral L mask HL (region_fits _ _ _ _ _ _ E)) as AI. fold M in AI.
  split; [|split].
  - intros T H1 H2 H3 H4. pose proof (C86_box M land r fs mask fs' _ [] _ 1 0 _ HM T H1 H2 H3 H4 E SO one_lipschitz (box_area _ _ _ _)) as Q.
    rewrite AI, <- RtoC_minus, Cmod_R, EE in Q. unfold exact, choose_slepian_method. rewrite T. exact Q.
  - intros T Hg H1. pose proof (C86_cap M land r fs mask fs' _ [] _ 1 0 _ HM T Hg H1 E SO one_lipschitz (box_area _ _ _ _)) as Q.
    rewrite AI, <- RtoC_minus, Cmod_R, EE in Q. unfold exact, choose_slepian_method. rewrite T. unfold calculate_area, polar_area.
    unfold lat_lon_area in Q. rewrite cos_0, Rminus_0_r in Q. exact Q.
  - intros T Hg H1. pose proof (C86_two_caps M land r fs mask fs' _ [] _ 1 0 _ _ HM T Hg H1 E SO one_lipschitz (box_area _ _ _ _) (box_area _ _ _ _)) as Q.
    rewrite AI, <- RtoC_plus, <- RtoC_minus, Cmod_R, EE in Q. unfold exact, choose_slepian_method. rewrite T. unfold calculate_area, polar_area.
    unfold lat_lon_area in Q. rewrite cos_0, cos_PI, Rtrigo_facts.cos_pi_minus, !Rminus_0_r in Q.
    replace (2 * PI * (1 - cos (r_theta_max r)) + 2 * PI * (- cos (r_theta_max r) - -1)) with (2 * (2 * PI * (1 - cos (r_theta_max r)))) in Q by ring. exact Q.
Qed.
Print Assumptions C86_area.

(** ** Cases *)
(** The constant 1 over the sphere. *)
Example C86_sphere_case : forall M, (1 <= M)%nat ->
  Cmod (Cminus (integrate_whole_sphere (samples M) (flat_weight M) (fun _ => RtoC 1) []) (RtoC (4 * PI))) <= (12 * PI ^ 3 + 20 * PI ^ 2) / INR M.
Proof.
  intros M HM. replace (4 * PI) with (lat_lon_area (2 * PI) 0 PI 0) by (unfold lat_lon_area; rewrite cos_0, cos_PI; ring).
  replace ((12 * PI ^ 3 + 20 * PI ^ 2) / INR M) with (sampling_error 1 0 M) by (unfold sampling_error; f_equal; ring).
  apply (C86_sphere M _ [] (fun _ _ => RtoC 1) 1 0); [exact HM|intros ? ? ? ?; reflexivity|exact one_lipschitz|apply box_area].
Qed.

(** A cap of 60 degrees, made by the constructor of regions. *)
Example C86_area_case : exists r, make_region false "" (2 * PI) 0 (PI / 3) 0 = Ok r /\
  forall L land fs, (1 <= L)%nat -> exists mask, create_mask_region land (resolution_of L) (sample_grid (resolution_of L)) r fs = Ok (mask, fs) /\
    Rabs (arbitrary_area L mask - PI) <= (12 * PI ^ 3 + 20 * PI ^ 2) / (2 * INR L).
Proof.
  pose proof PI_RGT_0 as PP.
  destruct (make_region_cases false "" (2 * PI) 0 (PI / 3) 0) as [E|[E|[E|E]]]; try lra; decompose [and] E; clear E; try (exfalso; lra).
  match goal with X : make_region _ _ _ _ _ _ = Ok ?r |- _ => exists r; split; [exact X|]; clear X; set (reg := r) end.
  intros L land fs HL. eexists. split; [reflexivity|].
  match goal with |- Rabs (arbitrary_area L ?m - _) <= _ => pose proof (C86_area L land reg fs m fs HL eq_refl) as Q end. cbv zeta in Q.
  destruct Q as (_ & Q & _). specialize (Q eq_refl eq_refl ltac:(cbn; lra)).
  replace (calculate_area 0 (choose_slepian_method reg)) with PI in Q; [exact Q|]. cbn. unfold polar_area. rewrite cos_PI3. field.
Qed.
