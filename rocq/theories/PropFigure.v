(** * Properties C59, C60, C61: what a figure shows, colour limits, amplitudes. *)
From Coq Require Import List ZArith Arith Bool Reals Lia Lra Psatz String.
From Coquelicot Require Import Complex.
From Verif Require Import Base RSum CSum PyNum PyNumProofs Region Mask MaskProofs Numpy Eigen EigenProofs NoiseProofs
  EarthProofs ConvolutionProofs Quadrature Transform SpecTransform Functions PropFunctions Mesh PropMesh Plot PlotProofs PropPlot.
Import ListNotations.
Local Open Scope nat_scope.
Local Open Scope list_scope.

(** ** C59 *)
Lemma resolution_ge L upsample : 1 <= L -> L <= plot_resolution L upsample.
Proof.
  intros H. unfold plot_resolution. destruct upsample; [|lia].
  destruct (C36_bounds (Z.of_nat L)) as (B & _); [lia|]. lia.
Qed.

Lemma setup_plot_ok M vals : 1 <= M -> List.length vals = samples M ->
  exists vmin vmax, is_min vals vmin /\ is_max vals vmax /\
    setup_plot (rows_of (n_theta M) (n_phi M) vals) M
    = Ok (map (map s2_to_cart) (map (fun row => row ++ firstn 1 row) (sample_grid M)),
          map (fun row => row ++ firstn 1 row) (rows_of (n_theta M) (n_phi M) vals), vmin, vmax).
Proof.
  intros HM Hv. unfold setup_plot. rewrite rows_of_concat by exact Hv. rewrite Hv, Nat.eqb_refl. cbn [negb].
  assert (Ne : vals <> []). { intros ->. unfold samples, n_theta, n_phi in Hv. cbn in Hv. nia. }
  destruct (np_max_ok vals Ne) as (mx & E1 & H1). destruct (np_min_ok vals Ne) as (mn & E2 & H2).
  exists mn, mx. split; [exact H2|]. split; [exact H1|]. rewrite E1. cbn [rbind]. rewrite E2. cbn [rbind].
  assert (1 <= n_phi M) by (unfold n_phi; lia).
  rewrite insert_first_ok by (assumption || (apply rows_of_lengths; exact Hv)). cbn [rbind].
  rewrite insert_first_ok by (assumption || apply grid_lengths). reflexivity.
Qed.

(** A vertex of the surface: row [i], column [j] of the closed grid at
    resolution [M] has the direction of the sample with colatitude [PI i / M]
    and longitude [PI j / M] (the extra column repeats longitude zero). *)
Definition direction (M i j : nat) : R * R * R :=
  let theta := (PI * INR i / INR M)%R in let phi := (PI * INR (closing M j) / INR M)%R in
  ((sin theta * cos phi)%R, (sin theta * sin phi)%R, cos theta).

(** Without a region: every vertex is where its sample is and has the value of
    its sample. *)
Theorem C59_surface : forall inverse forward land f L amplitude normalise plot_type reality spin upsample fs vals,
  1 <= L -> let M := plot_resolution L upsample in
  prepare_field inverse forward f L reality spin upsample plot_type normalise = Ok vals ->
  List.length vals = samples M ->
  exists fig, plot_sphere inverse forward land f L amplitude normalise plot_type reality None spin upsample fs = Ok (fig, fs) /\
    shape (fg_colour fig) = repeat (2 * M + 1) (M + 1) /\ shape (fg_pos fig) = repeat (2 * M + 1) (M + 1) /\
    forall i j, i <= M -> j <= 2 * M ->
      sample (fg_pos fig) i j = Some (direction M i j) /\
      sample (fg_colour fig) i j = Some (nth (i * (2 * M) + closing M j) vals 0%R).
Proof.
  intros inverse forward land f L amplitude normalise plot_type reality spin upsample fs vals HL M Hp Hv.
  assert (HM : 1 <= M) by (assert (A := resolution_ge L upsample HL); unfold M; lia).
  unfold plot_sphere. rewrite Hp. cbn [rbind]. fold M.
  destruct (setup_plot_ok M vals HM Hv) as (vmin & vmax & _ & _ & E). rewrite E. cbn [rbind].
  eexists. split; [reflexivity|]. cbn [fg_colour fg_pos].
  assert (Wl := rows_of_lengths (n_theta M) (n_phi M) vals Hv). assert (Gl := grid_lengths M).
  assert (Wp : 1 <= n_phi M) by (unfold n_phi; lia).
  assert (Cl : forall (A : Type) (a : list (list A)), List.length a = n_theta M -> (forall row, In row a -> List.length row = n_phi M) ->
     shape (map (fun row => row ++ firstn 1 row) a) = repeat (2 * M + 1) (M + 1)).
  { intros A a Ha Hr. apply shape_lengths; [rewrite map_length; exact Ha|].
    intros row Hrow. apply in_map_iff in Hrow as (r0 & <- & H0). specialize (Hr r0 H0).
    destruct r0 as [|x t]; [cbn in Hr; lia|]. rewrite app_length, Hr. unfold n_phi. cbn. lia. }
  split; [apply Cl; [apply rows_of_height|exact Wl]|]. split.
  { rewrite <- (Cl _ (sample_grid M) (grid_height M) Gl). unfold shape. rewrite map_map. apply map_ext. intros; apply map_length. }
  intros i j Hi Hj.
  assert (Cj : closing M j < 2 * M) by (unfold closing; destruct (Nat.eqb_spec j (2 * M)); lia).
  assert (Q : forall (A : Type) (a : list (list A)), (forall row, In row a -> List.length row = n_phi M) ->
    sample (map (fun row => row ++ firstn 1 row) a) i j = sample a i (closing M j)).
  { intros A a Ha. rewrite (sample_closed (n_phi M) a i j Wp Ha). unfold closing, n_phi.
    destruct (Nat.ltb_spec j (2 * M)); destruct (Nat.eqb_spec j (2 * M)); try lia; reflexivity. }
  split.
  - rewrite sample_map, (Q _ _ Gl), grid_sample by (unfold n_theta, n_phi; lia). reflexivity.
  - rewrite (Q _ _ Wl), sample_rows_of by (unfold n_theta, n_phi; lia). unfold n_phi.
    apply nth_error_nth'. rewrite Hv. unfold samples, n_theta, n_phi. nia.
Qed.
Print Assumptions C59_surface.

(** The surface is closed and lies on the unit sphere. *)
Theorem C59_closed : forall M i, direction M i (2 * M) = direction M i 0 \/ M = 0.
Proof.
  intros M i. destruct M as [|M]; [right; reflexivity|left]. unfold direction, closing. rewrite Nat.eqb_refl.
  destruct (Nat.eqb_spec 0 (2 * S M)); reflexivity.
Qed.
Print Assumptions C59_closed.

Theorem C59_unit : forall M i j, let '(x, y, z) := direction M i j in (x * x + y * y + z * z = 1)%R.
Proof.
  intros M i j. unfold direction. set (t := (PI * INR i / INR M)%R). set (p := (PI * INR (closing M j) / INR M)%R).
  assert (A := sin2_cos2 t). assert (B := sin2_cos2 p). unfold Rsqr in *. nra.
Qed.
Print Assumptions C59_unit.

(** With a region: the same figure, with the colours outside the region
    replaced by the marker. *)
Theorem C59_region : forall inverse forward land f L amplitude normalise plot_type reality r spin upsample fs fig,
  1 <= L -> let M := plot_resolution L upsample in
  plot_sphere inverse forward land f L amplitude normalise plot_type reality None spin upsample fs = Ok (fig, fs) ->
  shape (fg_colour fig) = repeat (2 * M + 1) (M + 1) ->
  forall mask fs', create_mask_region land M (sample_grid M) r fs = Ok (mask, fs') ->
  exists fig', plot_sphere inverse forward land f L amplitude normalise plot_type reality (Some r) spin upsample fs = Ok (fig', fs') /\
    fg_pos fig' = fg_pos fig /\ fg_cmin fig' = fg_cmin fig /\ fg_cmid fig' = fg_cmid fig /\ fg_cmax fig' = fg_cmax fig /\
    forall i j, i <= M -> j <= 2 * M ->
      exists b, sample mask i (closing M j) = Some b /\
        sample (fg_colour fig') i j = if b then sample (fg_colour fig) i j else Some SPHERE_UNSEEN.
Proof.
  intros inverse forward land f L amplitude normalise plot_type reality r spin upsample fs fig HL M Hp Hs mask fs' Hm.
  assert (HM : 1 <= M) by (assert (A := resolution_ge L upsample HL); unfold M; lia).
  unfold plot_sphere in *. fold M in Hp |- *.
  destruct (prepare_field _ _ _ _ _ _ _ _ _) as [vals|] eqn:E; cbn [rbind] in *; [|discriminate].
  destruct (setup_plot _ _) as [[[[pos fp] vmin] vmax]|]; cbn [rbind] in *; [|discriminate].
  injection Hp as <-. cbn [fg_colour] in Hs.
  destruct (C47_masked land M r fs mask fs' fp HM Hm Hs) as (out & Eo & So & Ho). rewrite Eo. cbn [rbind].
  eexists. split; [reflexivity|]. cbn [fg_pos fg_cmin fg_cmid fg_cmax fg_colour]. repeat (split; [reflexivity|]).
  intros i j Hi Hj. destruct (Ho i j Hi Hj) as (b & x & Sb & Sx & Sout). exists b. split; [exact Sb|].
  rewrite Sout, Sx. destruct b; reflexivity.
Qed.
Print Assumptions C59_region.

(** What the prepared values are: the chosen part of the field, at the samples
    of the plot resolution. *)
Definition plot_types : list (string * (C -> R)) :=
  [("real"%string, Re); ("imag"%string, Im); ("abs"%string, Cmod); ("sum"%string, fun z => (Re z + Im z)%R)].

Lemma plot_type_ok t g field : In (t, g) plot_types -> create_plot_type field t = Ok (map g field).
Proof. intros [H|[H|[H|[H|[]]]]]; injection H as <- <-; reflexivity. Qed.

Theorem C59_values : forall inverse forward L Y flm t g reality spin,
  1 <= L -> let M := plot_resolution L true in
  List.length flm = L * L -> In (t, g) plot_types ->
  forward spin reality L (inverse spin reality L flm) = flm ->
  synthesised M Y (inverse spin reality) (flm ++ repeat (RtoC 0) (M * M - L * L)) ->
  exists vals, prepare_field inverse forward (inverse spin reality L flm) L reality spin true t false = Ok vals /\
    List.length vals = samples M /\
    forall k, k < samples M ->
      nth k vals 0%R = g (csum (L * L) (fun i => Cmult (nth i flm (RtoC 0)) (Y i k))).
Proof.
  intros inverse forward L Y flm t g reality spin HL M Hl Ht Hs HY.
  unfold prepare_field, boost_field. cbn [negb]. fold M. rewrite Hs.
  assert (LM : L <= M) by (apply resolution_ge; exact HL).
  destruct (C31_samples (inverse spin reality) L M Y flm Hl LM HY) as (f & Ef & Lf & Vf). rewrite Ef. cbn [rbind].
  rewrite (plot_type_ok t g f Ht). cbn [rbind]. exists (map g f). split; [reflexivity|].
  rewrite map_length. split; [exact Lf|]. intros k Hk.
  rewrite (nth_indep _ 0%R (g (RtoC 0))) by (rewrite map_length; lia). rewrite map_nth, (Vf k Hk). reflexivity.
Qed.
Print Assumptions C59_values.

Theorem C59_no_upsampling : forall inverse forward L f t g reality spin, In (t, g) plot_types ->
  prepare_field inverse forward f L reality spin false t false = Ok (map g f) /\ plot_resolution L false = L.
Proof.
  intros inverse forward L f t g reality spin Ht. unfold prepare_field, boost_field. cbn [negb rbind].
  rewrite (plot_type_ok t g f Ht). split; reflexivity.
Qed.
Print Assumptions C59_no_upsampling.

Theorem C59_unknown_type : forall inverse forward L f t reality spin normalise,
  ~ In t (map fst plot_types) ->
  prepare_field inverse forward f L reality spin false t normalise = Err KeyError.
Proof.
  intros inverse forward L f t reality spin normalise Ht. unfold prepare_field, boost_field, create_plot_type. cbn [negb rbind].
  destruct (String.eqb_spec t "abs"); [exfalso; apply Ht; cbn; auto|].
  destruct (String.eqb_spec t "imag"); [exfalso; apply Ht; cbn; auto|].
  destruct (String.eqb_spec t "real"); [exfalso; apply Ht; cbn; auto|].
  destruct (String.eqb_spec t "sum"); [exfalso; apply Ht; cbn; auto|]. reflexivity.
Qed.
Print Assumptions C59_unknown_type.

(** A field of the wrong size is rejected. *)
Theorem C59_wrong_size : forall inverse forward land f L amplitude t g reality r spin fs,
  In (t, g) plot_types -> List.length f < samples L ->
  plot_sphere inverse forward land f L amplitude false t reality r spin false fs = Err AttributeError.
Proof.
  intros inverse forward land f L amplitude t g reality r spin fs Ht Hl. unfold plot_sphere.
  destruct (C59_no_upsampling inverse forward L f t g reality spin Ht) as [E _]. rewrite E. cbn [rbind plot_resolution].
  unfold setup_plot.
  assert (Q : List.length (List.concat (rows_of (n_theta L) (n_phi L) (map g f))) <> samples L).
  { intros Q. assert (K : forall (h w o : nat) (l : list R),
      List.length (List.concat (map (fun i => firstn w (skipn ((o + i) * w) l)) (seq 0 h))) <= List.length l - o * w).
    { induction h as [|h IH]; intros w o l; [cbn; lia|]. cbn [seq map List.concat]. rewrite app_length, firstn_length, skipn_length.
      rewrite <- seq_shift, map_map. erewrite map_ext; [|intros i; replace (o + S i) with (S o + i) by lia; reflexivity].
      specialize (IH w (S o) l). rewrite Nat.add_0_r. cbn [Nat.mul] in IH. lia. }
    specialize (K (n_theta L) (n_phi L) 0 (map g f)). cbn [Nat.add Nat.mul] in K. unfold rows_of in Q. rewrite Q, map_length in K. lia. }
  destruct (Nat.eqb_spec (List.length (List.concat (rows_of (n_theta L) (n_phi L) (map g f)))) (samples L)); [contradiction|reflexivity].
Qed.
Print Assumptions C59_wrong_size.

(** ** C60 *)
Lemma tick_mark_bound vals mn mx : is_min vals mn -> is_max vals mx ->
  is_max (map Rabs vals) (Rmax (Rabs mn) (Rabs mx)).
Proof.
  intros [I1 M1] [I2 M2]. split.
  - unfold Rmax. destruct (Rle_dec (Rabs mn) (Rabs mx)); apply in_map; assumption.
  - intros y Hy. apply in_map_iff in Hy as (v & <- & Hv). specialize (M1 v Hv). specialize (M2 v Hv).
    assert (A := Rmax_l (Rabs mn) (Rabs mx)). assert (B := Rmax_r (Rabs mn) (Rabs mx)).
    assert (D := Rle_abs mx). assert (E := Rle_abs (- mn)). rewrite Rabs_Ropp in E.
    apply Rabs_le. lra.
Qed.

(** Unnormalised figures without a given amplitude: the limits are plus and
    minus the largest magnitude, so every colour is inside. *)
Theorem C60_limits : forall inverse forward land f L t reality spin upsample fs vals,
  1 <= L -> prepare_field inverse forward f L reality spin upsample t false = Ok vals ->
  List.length vals = samples (plot_resolution L upsample) ->
  exists fig m, plot_sphere inverse forward land f L None false t reality None spin upsample fs = Ok (fig, fs) /\
    is_max (map Rabs vals) m /\ fg_cmax fig = m /\ fg_cmin fig = (- m)%R /\ fg_cmid fig = 0%R /\
    fg_bar fig = (Some (- m)%R, Some m) /\
    (forall i j x, sample (fg_colour fig) i j = Some x -> (fg_cmin fig <= x <= fg_cmax fig)%R) /\
    (exists i j x, sample (fg_colour fig) i j = Some x /\ Rabs x = m).
Proof.
  intros inverse forward land f L t reality spin upsample fs vals HL Hp Hv.
  destruct (C59_surface inverse forward land f L None false t reality spin upsample fs vals HL Hp Hv) as (fig & E & Sc & Sp & V).
  set (M := plot_resolution L upsample) in *.
  assert (HM : 1 <= M) by (assert (A := resolution_ge L upsample HL); unfold M; lia).
  assert (E' := E). unfold plot_sphere in E'. rewrite Hp in E'. cbn [rbind] in E'. fold M in E'.
  destruct (setup_plot_ok M vals HM Hv) as (vmin & vmax & Hmin & Hmax & Es). rewrite Es in E'. cbn [rbind create_tick_mark] in E'.
  assert (B := tick_mark_bound vals vmin vmax Hmin Hmax). set (m := Rmax (Rabs vmin) (Rabs vmax)) in *.
  exists fig, m. injection E' as E'. split; [exact E|]. split; [exact B|].
  assert (Emx : fg_cmax fig = m) by (rewrite <- E'; reflexivity).
  assert (Emn : fg_cmin fig = (- m)%R) by (rewrite <- E'; reflexivity).
  split; [exact Emx|]. split; [exact Emn|]. split; [rewrite <- E'; reflexivity|]. split; [rewrite <- E'; reflexivity|].
  assert (In0 : forall i j, i <= M -> j <= 2 * M -> In (nth (i * (2 * M) + closing M j) vals 0%R) vals).
  { intros i j Hi Hj. apply nth_In. rewrite Hv. unfold samples, n_theta, n_phi, closing. destruct (Nat.eqb_spec j (2 * M)); nia. }
  split.
  - intros i j x Sx. rewrite Emx, Emn.
    assert (Hij : i <= M /\ j <= 2 * M).
    { destruct (shape_rows _ _ _ Sc) as [Hh Hw]. unfold sample in Sx. destruct (nth_error (fg_colour fig) i) as [row|] eqn:Er; [|discriminate].
      assert (i < List.length (fg_colour fig)) by (apply nth_error_Some; congruence).
      assert (j < List.length row) by (apply nth_error_Some; congruence). specialize (Hw row (nth_error_In _ _ Er)). lia. }
    destruct (V i j (proj1 Hij) (proj2 Hij)) as [_ Vx]. rewrite Vx in Sx. assert (Ex : x = nth (i * (2 * M) + closing M j) vals 0%R) by congruence. rewrite Ex. clear Ex Sx.
    destruct B as [_ B]. assert (K := B _ (in_map Rabs _ _ (In0 i j (proj1 Hij) (proj2 Hij)))). clear -K; revert K; generalize (nth (i * (2 * M) + closing M j) vals 0%R); intros v K; assert (A := Rle_abs v); assert (A' := Rle_abs (- v)); rewrite Rabs_Ropp in A'; lra.
  - destruct B as [B _]. apply in_map_iff in B as (v & Ev & Hv'). apply (In_nth _ _ 0%R) in Hv' as (k & Hk & Ek).
    rewrite Hv in Hk. unfold samples, n_theta, n_phi in Hk.
    assert (W : 2 * M <> 0) by lia. assert (D := Nat.div_mod k (2 * M) W). assert (Md := Nat.mod_upper_bound k (2 * M) W).
    assert (Q : k / (2 * M) < M + 1) by (apply Nat.div_lt_upper_bound; nia).
    exists (k / (2 * M)), (k mod (2 * M)), v. split; [|exact Ev].
    destruct (V (k / (2 * M)) (k mod (2 * M)) ltac:(lia) ltac:(lia)) as [_ Vx]. rewrite Vx. f_equal.
    unfold closing. destruct (Nat.eqb_spec (k mod (2 * M)) (2 * M)); [lia|]. rewrite Nat.mul_comm, <- D. exact Ek.
Qed.
Print Assumptions C60_limits.

(** A given amplitude fixes the limits; normalised figures always use
    [0, 1/2, 1]. *)
Theorem C60_fixed : forall inverse forward land f L amplitude normalise t reality r spin upsample fs fig fs',
  plot_sphere inverse forward land f L amplitude normalise t reality r spin upsample fs = Ok (fig, fs') ->
  (normalise = true -> fg_cmin fig = 0%R /\ fg_cmid fig = (1 / 2)%R /\ fg_cmax fig = 1%R /\ fg_bar fig = (None, None)) /\
  (forall a, normalise = false -> amplitude = Some a ->
     fg_cmin fig = (- a)%R /\ fg_cmid fig = 0%R /\ fg_cmax fig = a /\ fg_bar fig = (Some (- a)%R, Some a)).
Proof.
  intros inverse forward land f L amplitude normalise t reality r spin upsample fs fig fs' H. unfold plot_sphere in H.
  destruct (prepare_field _ _ _ _ _ _ _ _ _) as [vals|]; cbn [rbind] in H; [|discriminate].
  destruct (setup_plot _ _) as [[[[pos fp] vmin] vmax]|]; cbn [rbind] in H; [|discriminate].
  destruct (match r with Some _ => _ | None => _ end) as [[fp' fs0]|]; cbn [rbind] in H; [|discriminate].
  injection H as <- <-. cbn. split.
  - intros ->. repeat split.
  - intros a -> ->. repeat split.
Qed.
Print Assumptions C60_fixed.

(** Normalised figures of data that are not nearly constant: colours in [0, 1],
    both attained; the marker is below the lower limit. *)
Theorem C60_normalised : forall inverse forward land f L amplitude t reality spin upsample fs raw,
  1 <= L -> prepare_field inverse forward f L reality spin upsample t false = Ok raw ->
  List.length raw = samples (plot_resolution L upsample) -> spread raw ->
  exists fig, plot_sphere inverse forward land f L amplitude true t reality None spin upsample fs = Ok (fig, fs) /\
    (forall i j x, sample (fg_colour fig) i j = Some x -> (fg_cmin fig <= x <= fg_cmax fig)%R) /\
    (SPHERE_UNSEEN < fg_cmin fig)%R.
Proof.
  intros inverse forward land f L amplitude t reality spin upsample fs raw HL Hp Hl Hs.
  destruct (C38_range raw Hs) as (vals & En & Lv & Mn & Mx & _).
  assert (Hp' : prepare_field inverse forward f L reality spin upsample t true = Ok vals).
  { unfold prepare_field in *. destruct (boost_field _ _ _ _ _ _ _ _) as [bf|]; cbn [rbind] in *; [|discriminate].
    destruct (create_plot_type bf t) as [x|]; cbn [rbind] in *; [|discriminate]. unfold normalise_function in Hp at 1. cbn [negb] in Hp.
    injection Hp as <-. exact En. }
  assert (Hv : List.length vals = samples (plot_resolution L upsample)) by lia.
  destruct (C59_surface inverse forward land f L amplitude true t reality spin upsample fs vals HL Hp' Hv) as (fig & E & Sc & Sp & V).
  destruct (C60_fixed _ _ _ _ _ _ _ _ _ _ _ _ _ _ _ E) as [F _]. destruct (F eq_refl) as (F1 & F2 & F3 & _).
  exists fig. split; [exact E|]. rewrite F1, F3. split.
  - intros i j x Sx. set (M := plot_resolution L upsample) in *.
    assert (Hij : i <= M /\ j <= 2 * M).
    { destruct (shape_rows _ _ _ Sc) as [Hh Hw]. unfold sample in Sx. destruct (nth_error (fg_colour fig) i) as [row|] eqn:Er; [|discriminate].
      assert (i < List.length (fg_colour fig)) by (apply nth_error_Some; congruence).
      assert (j < List.length row) by (apply nth_error_Some; congruence). specialize (Hw row (nth_error_In _ _ Er)). lia. }
    destruct (V i j (proj1 Hij) (proj2 Hij)) as [_ Vx]. rewrite Vx in Sx. assert (Ex : x = nth (i * (2 * M) + closing M j) vals 0%R) by congruence. rewrite Ex. clear Ex Sx.
    assert (HM : 1 <= M) by (assert (A := resolution_ge L upsample HL); unfold M; lia).
    assert (I : In (nth (i * (2 * M) + closing M j) vals 0%R) vals).
    { apply nth_In. rewrite Hv. unfold samples, n_theta, n_phi, closing. destruct (Nat.eqb_spec j (2 * M)); nia. }
    split; [apply Mn|apply Mx]; exact I.
  - unfold SPHERE_UNSEEN. lra.
Qed.
Print Assumptions C60_normalised.

(** *** Meshes *)
Lemma rlsum_bounds l lo hi : (forall x, In x l -> (lo <= x <= hi)%R) ->
  (INR (List.length l) * lo <= rlsum l <= INR (List.length l) * hi)%R.
Proof.
  induction l as [|x t IH]; intros H; [cbn; lra|].
  assert (Hx := H x (or_introl eq_refl)). destruct IH as [A B]; [intros; apply H; right; assumption|].
  cbn [List.length]. rewrite S_INR. cbn [rlsum]. lra.
Qed.

(** The value of a face: the mean of its vertices. *)
Definition face_mean (f : list R) (face : list nat) : R :=
  (rlsum (map (fun v => nth v f 0%R) face) / INR (List.length face))%R.

Lemma average_ok faces f : (forall face v, In face faces -> In v face -> v < List.length f) ->
  average_onto_faces faces f = Ok (map (face_mean f) faces).
Proof.
  intros H. unfold average_onto_faces. apply rmap_ok. intros face Hf.
  rewrite (rmap_ok (np_get f) (fun v => nth v f 0%R)).
  - cbn [rbind]. reflexivity.
  - intros v Hv. unfold np_get. specialize (H face v Hf Hv).
    rewrite (nth_error_nth' f 0%R H). reflexivity.
Qed.

Lemma face_mean_bounds f face lo hi : face <> [] -> (forall v, In v face -> v < List.length f) ->
  (forall x, In x f -> (lo <= x <= hi)%R) -> (lo <= face_mean f face <= hi)%R.
Proof.
  intros Ne Hv Hx. unfold face_mean.
  assert (B := rlsum_bounds (map (fun v => nth v f 0%R) face) lo hi). rewrite map_length in B.
  destruct B as [B1 B2]. { intros x Hin. apply in_map_iff in Hin as (v & <- & Hin). apply Hx, nth_In, Hv, Hin. }
  assert (P : (0 < INR (List.length face))%R) by (apply lt_0_INR; destruct face; [congruence|cbn; lia]).
  split; (apply Rmult_le_reg_r with (INR (List.length face)); [exact P|]);
    replace (rlsum (map (fun v => nth v f 0%R) face) / INR (List.length face) * INR (List.length face))%R
      with (rlsum (map (fun v => nth v f 0%R) face)) by (field; lra); lra.
Qed.

(** A face is inside the region when all its vertices are. *)
Definition face_inside (m : mesh) (face : list nat) : Prop := forall v, In v face -> nth v (m_region m) false = true.

(** The colours of the faces: the mean of the vertex values, or the marker when
    the face is not inside the region.  The limits come from the vertices and
    cover the means. *)
Theorem C60_mesh : forall m f (region : bool),
  f <> [] -> (forall face v, In face (m_faces m) -> In v face -> v < List.length f) ->
  (forall face, In face (m_faces m) -> face <> []) ->
  exists fig mx, plot_mesh m f None false region = Ok fig /\ is_max (map Rabs f) mx /\
    mf_cmax fig = mx /\ mf_cmin fig = (- mx)%R /\ mf_cmid fig = 0%R /\
    mf_bar fig = (Some (- mx)%R, Some mx) /\
    List.length (mf_intensity fig) = List.length (m_faces m) /\
    forall k face, nth_error (m_faces m) k = Some face ->
      (- mx <= face_mean f face <= mx)%R /\
      (region = false \/ face_inside m face -> nth_error (mf_intensity fig) k = Some (face_mean f face)) /\
      (region = true -> ~ face_inside m face -> nth_error (mf_intensity fig) k = Some MESH_UNSEEN).
Proof.
  intros m f region Ne Hv Hf. unfold plot_mesh.
  destruct (np_min_ok f Ne) as (mn & E1 & H1). destruct (np_max_ok f Ne) as (mx & E2 & H2).
  rewrite E1. cbn [rbind]. rewrite E2. cbn [rbind]. rewrite (average_ok _ _ Hv). cbn [rbind].
  unfold normalise_function. cbn [negb rbind create_tick_mark].
  assert (B := tick_mark_bound f mn mx H1 H2). set (t := Rmax (Rabs mn) (Rabs mx)) in *.
  assert (Bf : forall x, In x f -> (- t <= x <= t)%R).
  { intros x Hx. destruct B as [_ B]. assert (K := B _ (in_map Rabs _ _ Hx)).
    assert (A := Rle_abs x). assert (A' := Rle_abs (- x)). rewrite Rabs_Ropp in A'. lra. }
  assert (Mb : forall k face, nth_error (m_faces m) k = Some face -> (- t <= face_mean f face <= t)%R).
  { intros k face Hk. apply nth_error_In in Hk. apply face_mean_bounds; [apply Hf; exact Hk|intros v; apply Hv; exact Hk|exact Bf]. }
  destruct region.
  - destruct (C30_faces m) as [Lr Hr]. unfold mesh_outside_region.
    rewrite broadcast_same by (rewrite Lr, map_length; reflexivity). cbn [rbind].
    eexists _, t. split; [reflexivity|]. cbn [mf_cmax mf_cmin mf_cmid mf_intensity mf_bar create_colour_bar]. repeat (split; [assumption || reflexivity|]).
    split; [rewrite map_length, combine_length, Lr, map_length; apply Nat.min_id|].
    intros k face Hk. split; [eapply Mb; exact Hk|]. rewrite nth_error_map, nth_error_combine, nth_error_map, Hk. cbn [option_map].
    destruct (Hr k face Hk) as [[R1 I1]|[R0 (w & Hw & Wf)]].
    + rewrite R1. cbn [option_map fst snd]. split.
      * intros _. destruct (Reqb 1 0) eqn:Q; [apply Reqb_spec in Q; lra|reflexivity].
      * intros _ K. exfalso. exact (K I1).
    + rewrite R0. cbn [option_map fst snd]. split.
      * intros [K|K]; [discriminate|]. rewrite (K w Hw) in Wf. discriminate.
      * intros _ _. destruct (Reqb 0 0) eqn:Q; [reflexivity|apply Reqb_false in Q; congruence].
  - cbn [rbind]. eexists _, t. split; [reflexivity|]. cbn [mf_cmax mf_cmin mf_cmid mf_intensity mf_bar create_colour_bar]. repeat (split; [assumption || reflexivity|]).
    split; [apply map_length|]. intros k face Hk. split; [eapply Mb; exact Hk|]. rewrite nth_error_map, Hk.
    split; [reflexivity|discriminate].
Qed.
Print Assumptions C60_mesh.

(** A normalised mesh plot whose face means are not nearly constant. *)
Theorem C60_mesh_normalised : forall m f amplitude (region : bool),
  f <> [] -> (forall face v, In face (m_faces m) -> In v face -> v < List.length f) ->
  spread (map (face_mean f) (m_faces m)) ->
  exists fig, plot_mesh m f amplitude true region = Ok fig /\ mf_cmin fig = 0%R /\ mf_cmid fig = (1 / 2)%R /\ mf_cmax fig = 1%R /\
    mf_bar fig = (None, None) /\
    forall k face, nth_error (m_faces m) k = Some face ->
      (region = false \/ face_inside m face -> exists x, nth_error (mf_intensity fig) k = Some x /\ (0 <= x <= 1)%R) /\
      (region = true -> ~ face_inside m face -> exists x, nth_error (mf_intensity fig) k = Some x /\ (x < mf_cmin fig)%R).
Proof.
  intros m f amplitude region Ne Hv Hs. unfold plot_mesh.
  destruct (np_min_ok f Ne) as (mn & E1 & H1). destruct (np_max_ok f Ne) as (mx & E2 & H2).
  rewrite E1. cbn [rbind]. rewrite E2. cbn [rbind]. rewrite (average_ok _ _ Hv). cbn [rbind].
  destruct (C38_range _ Hs) as (out & En & Lo & [_ Mn] & [_ Mx] & _). rewrite En. cbn [rbind]. rewrite map_length in Lo.
  assert (Ho : forall k face, nth_error (m_faces m) k = Some face -> exists x, nth_error out k = Some x /\ (0 <= x <= 1)%R).
  { intros k face Hk. destruct (nth_error out k) as [x|] eqn:E.
    - exists x. split; [reflexivity|]. apply nth_error_In in E. split; [apply Mn|apply Mx]; exact E.
    - apply nth_error_None in E. assert (k < List.length (m_faces m)) by (apply nth_error_Some; congruence). lia. }
  destruct region.
  - destruct (C30_faces m) as [Lr Hr]. unfold mesh_outside_region.
    rewrite broadcast_same by (rewrite Lr; symmetry; exact Lo). cbn [rbind].
    eexists. split; [reflexivity|]. cbn [mf_cmax mf_cmin mf_cmid mf_intensity mf_bar create_colour_bar]. repeat (split; [reflexivity|]).
    intros k face Hk. destruct (Ho k face Hk) as (x & Ex & Bx). rewrite nth_error_map, nth_error_combine, Ex.
    destruct (Hr k face Hk) as [[R1 I1]|[R0 (w & Hw & Wf)]].
    + rewrite R1. cbn [option_map fst snd]. split.
      * intros _. exists x. destruct (Reqb 1 0) eqn:Q; [apply Reqb_spec in Q; lra|]. split; [reflexivity|exact Bx].
      * intros _ K. exfalso. exact (K I1).
    + rewrite R0. cbn [option_map fst snd]. split.
      * intros [K|K]; [discriminate|]. rewrite (K w Hw) in Wf. discriminate.
      * intros _ _. destruct (Reqb 0 0) eqn:Q; [|apply Reqb_false in Q; congruence]. exists MESH_UNSEEN. split; [reflexivity|].
        unfold MESH_UNSEEN. lra.
  - cbn [rbind]. eexists. split; [reflexivity|]. cbn [mf_cmax mf_cmin mf_cmid mf_intensity mf_bar create_colour_bar]. repeat (split; [reflexivity|]).
    intros k face Hk. split; [intros _; exact (Ho k face Hk)|discriminate].
Qed.
Print Assumptions C60_mesh_normalised.

(** As [C60_fixed], for meshes. *)
Theorem C60_mesh_fixed : forall m f amplitude normalise region fig,
  plot_mesh m f amplitude normalise region = Ok fig ->
  (normalise = true -> mf_cmin fig = 0%R /\ mf_cmid fig = (1 / 2)%R /\ mf_cmax fig = 1%R /\ mf_bar fig = (None, None)) /\
  (forall a, normalise = false -> amplitude = Some a ->
     mf_cmin fig = (- a)%R /\ mf_cmid fig = 0%R /\ mf_cmax fig = a /\ mf_bar fig = (Some (- a)%R, Some a)).
Proof.
  intros m f amplitude normalise region fig H. unfold plot_mesh in H.
  destruct (np_min f) as [vmin|]; cbn [rbind] in H; [|discriminate].
  destruct (np_max f) as [vmax|]; cbn [rbind] in H; [|discriminate].
  destruct (average_onto_faces _ _) as [g|]; cbn [rbind] in H; [|discriminate].
  destruct (normalise_function _ _) as [h|]; cbn [rbind] in H; [|discriminate].
  destruct (if region then _ else _) as [h'|]; cbn [rbind] in H; [|discriminate].
  injection H as <-. cbn. split.
  - intros ->. repeat split.
  - intros a -> ->. repeat split.
Qed.
Print Assumptions C60_mesh_fixed.

(** The marker of the mesh plots is not below all data: in an unnormalised plot
    of large values a hidden face is drawn above a visible one, inside the
    colour limits. *)
Definition two_faces : mesh :=
  {| m_vertices := []; m_faces := [[0; 1; 2]; [3; 4; 5]]; m_region := [true; true; true; false; false; false];
     m_evals := []; m_basis := []; m_number := 0 |}.
Theorem C60_mesh_marker_refuted : exists m f fig x, plot_mesh m f None false true = Ok fig /\
  nth_error (mf_intensity fig) 0 = Some x /\ nth_error (mf_intensity fig) 1 = Some MESH_UNSEEN /\
  (mf_cmin fig <= x < MESH_UNSEEN)%R.
Proof.
  exists two_faces, (repeat (- (2 * 10 ^ 5))%R 6).
  destruct (C60_mesh two_faces (repeat (- (2 * 10 ^ 5))%R 6) true) as (fig & mx & E & _ & _ & Emn & _ & _ & _ & H).
  - discriminate.
  - cbn. intros face v [<-|[<-|[]]] [<-|[<-|[<-|[]]]]; lia.
  - cbn. intros face [<-|[<-|[]]]; discriminate.
  - exists fig, (face_mean (repeat (- (2 * 10 ^ 5))%R 6) [0; 1; 2]). split; [exact E|].
    destruct (H 0 [0; 1; 2] eq_refl) as (B & I & _). destruct (H 1 [3; 4; 5] eq_refl) as (_ & _ & O).
    split; [|split].
    + apply I. right. intros v [<-|[<-|[<-|[]]]]; reflexivity.
    + apply O; [reflexivity|]. intros K. specialize (K 3 (or_introl eq_refl)). discriminate.
    + rewrite Emn. split; [apply B|]. unfold face_mean, MESH_UNSEEN. cbn. lra.
Qed.
Print Assumptions C60_mesh_marker_refuted.

(** ** C61 *)
Theorem C61_noise_amplitude : forall inverse s L reality spin unnoised a,
  compute_amplitude_for_noisy_sphere_plots inverse s L reality spin unnoised = Ok a ->
  (unnoised = None -> a = None) /\
  (forall c, unnoised = Some c -> exists field m, a = Some m /\
     match s with
     | Some s => slepian_inverse (inverse 0%Z false) c L s = Ok field
     | None => field = inverse spin reality L c
     end /\ is_max (map Cmod field) m /\
     (forall z, In z field -> (- m <= Re z <= m)%R /\ (- m <= Im z <= m)%R)).
Proof.
  intros inverse s L reality spin unnoised a H. unfold compute_amplitude_for_noisy_sphere_plots in H. split.
  - intros ->. injection H as <-. reflexivity.
  - intros c ->. destruct (coefficients_to_field_sphere _ _ _ _ _ _) as [field|] eqn:Ef; cbn [rbind] in H; [|discriminate].
    destruct (np_max (map Cmod field)) as [m|] eqn:Em; cbn [rbind] in H; [|discriminate]. injection H as <-.
    apply np_max_spec in Em. exists field, m. split; [reflexivity|]. split; [|split; [exact Em|]].
    + unfold coefficients_to_field_sphere in Ef. destruct s; [exact Ef|]. injection Ef as <-. reflexivity.
    + intros z Hz. destruct Em as [_ Em]. assert (K := Em _ (in_map Cmod _ _ Hz)).
      assert (A := Rmax_Cmod z). assert (A1 := Rmax_l (Rabs (fst z)) (Rabs (snd z))). assert (A2 := Rmax_r (Rabs (fst z)) (Rabs (snd z))).
      assert (B1 := Rle_abs (fst z)). assert (B2 := Rle_abs (- fst z)). assert (B3 := Rle_abs (snd z)). assert (B4 := Rle_abs (- snd z)).
      rewrite Rabs_Ropp in B2, B4. unfold Re, Im. lra.
Qed.
Print Assumptions C61_noise_amplitude.

Theorem C61_mesh_noise_amplitude : forall m s unnoised a,
  compute_amplitude_for_noisy_mesh_plots m s unnoised = Ok a ->
  (unnoised = None -> a = None) /\
  (forall c, unnoised = Some c -> exists field mx, a = Some mx /\
     match s with Some s => slepian_mesh_inverse s c = Ok field | None => mesh_inverse m c = Ok field end /\
     is_max (map Rabs field) mx).
Proof.
  intros m s unnoised a H. unfold compute_amplitude_for_noisy_mesh_plots in H. split.
  - intros ->. injection H as <-. reflexivity.
  - intros c ->. destruct (coefficients_to_field_mesh _ _ _) as [field|] eqn:Ef; cbn [rbind] in H; [|discriminate].
    destruct (np_max (map Rabs field)) as [mx|] eqn:Em; cbn [rbind] in H; [|discriminate]. injection H as <-.
    exists field, mx. split; [reflexivity|]. split; [|apply np_max_spec; exact Em].
    unfold coefficients_to_field_mesh in Ef. destruct s; exact Ef.
Qed.
Print Assumptions C61_mesh_noise_amplitude.

(** [find_max_amplitude] is the colour limit of the unnormalised plot of the
    same function, when the transforms with the function's flags and with the
    default flags agree on its coefficients. *)
Theorem C61_max_amplitude : forall inverse forward land s L reality spin c t upsample fs field fig fs',
  coefficients_to_field_sphere inverse s L reality spin c = Ok field ->
  (s = None -> inverse spin reality L c = inverse 0%Z false L c) ->
  plot_sphere inverse forward land field L None false t reality None spin upsample fs = Ok (fig, fs') ->
  List.length field = samples L -> (upsample = true -> forall v, List.length (inverse spin reality (plot_resolution L true) v) = samples (plot_resolution L true)) ->
  1 <= L ->
  find_max_amplitude inverse forward s L reality spin c t upsample = Ok (fg_cmax fig).
Proof.
  intros inverse forward land s L reality spin c t upsample fs field fig fs' Hf Hflags Hp Hl Hup HL.
  assert (Ef : match s with Some s => slepian_inverse (inverse 0%Z false) c L s | None => Ok (inverse 0%Z false L c) end = Ok field).
  { unfold coefficients_to_field_sphere in Hf. destruct s; [exact Hf|]. rewrite <- Hflags by reflexivity. exact Hf. }
  unfold find_max_amplitude. rewrite Ef. cbn [rbind].
  assert (Hp' := Hp). unfold plot_sphere in Hp'.
  destruct (prepare_field _ _ _ _ _ _ _ _ _) as [vals|] eqn:Epf; cbn [rbind] in Hp'; [|discriminate]. clear Hp'.
  assert (Lv : List.length vals = samples (plot_resolution L upsample)).
  { assert (E2 := Epf). unfold prepare_field in E2. destruct (boost_field _ _ _ _ _ _ _ _) as [bf|] eqn:Eb; cbn [rbind] in E2; [|discriminate].
    destruct (create_plot_type bf t) as [x|] eqn:Et; cbn [rbind] in E2; [|discriminate]. unfold normalise_function in E2. cbn [negb] in E2.
    injection E2 as <-.
    assert (Lx : List.length x = List.length bf).
    { unfold create_plot_type in Et. repeat (destruct (String.eqb _ _) in Et; [injection Et as <-; apply map_length|]). discriminate. }
    rewrite Lx. unfold boost_field in Eb. destruct upsample; cbn [negb] in Eb.
    - unfold invert_flm_boosted in Eb. destruct (boost_coefficient_resolution _ _) as [v|]; cbn [rbind] in Eb; [|discriminate].
      injection Eb as <-. apply Hup. reflexivity.
    - injection Eb as <-. exact Hl. }
  destruct (C60_limits inverse forward land field L t reality spin upsample fs vals HL Epf Lv) as (fig' & m & Efig & Mm & Emx & _).
  rewrite Hp in Efig. injection Efig as <- _. rewrite Emx.
  unfold prepare_field in Epf. destruct (boost_field _ _ _ _ _ _ _ _) as [bf|]; cbn [rbind] in *; [|discriminate].
  destruct (create_plot_type bf t) as [x|]; cbn [rbind] in *; [|discriminate]. unfold normalise_function in Epf. cbn [negb] in Epf. injection Epf as ->.
  assert (Nv : map Rabs vals <> []) by (eapply nonempty_of_in; apply Mm).
  destruct (np_max_ok _ Nv) as (m' & Em & Mm'). rewrite Em. f_equal. eapply is_max_unique; eassumption.
Qed.
Print Assumptions C61_max_amplitude.

(** With spin the helper transforms with spin zero, so it can be the amplitude
    of a different field.  The witness is bandlimit 1, where every function of
    spin 2 vanishes. *)
Definition spin_inverse (spin : Z) (reality : bool) (L : nat) (v : list C) : list C :=
  repeat (if (spin =? 0)%Z then Cmult (nth 0 v (RtoC 0)) (RtoC (1 / sqrt (4 * PI))) else RtoC 0) (samples L).
Theorem C61_spin_refuted : exists inverse forward land L spin c field fig fs a,
  coefficients_to_field_sphere inverse None L false spin c = Ok field /\
  plot_sphere inverse forward land field L None false "real" false None spin false fs = Ok (fig, fs) /\
  find_max_amplitude inverse forward None L false spin c "real" false = Ok a /\ fg_cmax fig = 0%R /\ (0 < a)%R.
Proof.
  set (c := [RtoC (sqrt (4 * PI))]). set (fs := fun _ : string => @None mask_array).
  assert (P := PI_RGT_0). assert (Sp : (0 < sqrt (4 * PI))%R) by (apply sqrt_lt_R0; lra).
  exists spin_inverse, (fun _ _ _ v => v), (fun _ _ => []), 1, 2%Z, c, (repeat (RtoC 0) (samples 1)).
  destruct (C60_limits spin_inverse (fun _ _ _ v => v) (fun _ _ => []) (repeat (RtoC 0) (samples 1)) 1 "real" false 2 false fs
             (repeat 0%R (samples 1))) as (fig & m & E & [Mm _] & Emx & _); [lia|reflexivity|reflexivity|].
  exists fig, fs. eexists. split; [reflexivity|]. split; [exact E|]. split; [cbn; reflexivity|]. split.
  - rewrite Emx. apply in_map_iff in Mm as (v & <- & Hv). apply repeat_spec in Hv. subst v. apply Rabs_R0.
  - match goal with |- (0 < ?a)%R => replace a with 1%R; [lra|] end.
    cbn. replace (sqrt (4 * PI) * (1 / sqrt (4 * PI)) - 0 * 0)%R with 1%R by (field; lra).
    rewrite Rabs_R1. repeat (rewrite (Rmax_left 1 1) by lra). reflexivity.
Qed.
Print Assumptions C61_spin_refuted.

(** *** Examples *)
Example C60_mesh_example : exists fig, plot_mesh two_faces [1; 2; 3; 4; 5; 6]%R None false true = Ok fig /\
  mf_intensity fig = [2%R; MESH_UNSEEN] /\ mf_cmax fig = 6%R.
Proof.
  destruct (C60_mesh two_faces [1; 2; 3; 4; 5; 6]%R true) as (fig & mx & E & [Mi Mm] & Emx & _ & _ & _ & Ln & H).
  - discriminate.
  - cbn. intros face v [<-|[<-|[]]] [<-|[<-|[<-|[]]]]; lia.
  - cbn. intros face [<-|[<-|[]]]; discriminate.
  - exists fig. split; [exact E|]. split.
    + destruct (H 0 [0; 1; 2] eq_refl) as (_ & I & _). destruct (H 1 [3; 4; 5] eq_refl) as (_ & _ & O).
      assert (I' : nth_error (mf_intensity fig) 0 = Some 2%R).
      { rewrite I; [f_equal; unfold face_mean; cbn; field|]. right. intros v [<-|[<-|[<-|[]]]]; reflexivity. }
      assert (O' : nth_error (mf_intensity fig) 1 = Some MESH_UNSEEN).
      { apply O; [reflexivity|]. intros K. specialize (K 3 (or_introl eq_refl)). discriminate. }
      destruct (mf_intensity fig) as [|x [|y [|z l]]]; try discriminate. injection I' as ->. injection O' as ->. reflexivity.
    + rewrite Emx. apply Rle_antisym.
      * cbn in Mi. repeat (destruct Mi as [<-|Mi]; [rewrite Rabs_right by lra; lra|]). contradiction.
      * specialize (Mm (Rabs 6)). rewrite Rabs_right in Mm by lra. apply Mm. rewrite <- (Rabs_right 6) at 1 by lra. apply in_map. cbn; tauto.
Qed.

Example C59_example : exists fig, plot_sphere (fun _ _ _ v => v) (fun _ _ _ v => v) (fun _ _ => [])
    [RtoC 1; RtoC 2; RtoC 3; RtoC 4] 1 None false "real" false None 0 false (fun _ => None) = Ok (fig, fun _ => None) /\
  fg_colour fig = [[1; 2; 1]; [3; 4; 3]]%R /\ fg_cmax fig = 4%R.
Proof.
  eexists. split; [reflexivity|]. cbn. split; [reflexivity|].
  repeat match goal with |- context [Rmax ?a ?b] => first [rewrite (Rmax_left a b) by (repeat rewrite Rabs_right by lra; lra) | rewrite (Rmax_right a b) by (repeat rewrite Rabs_right by lra; lra)] end.
  repeat match goal with |- context [Rmin ?a ?b] => rewrite (Rmin_left a b) by lra end.
  rewrite ?Rabs_right by lra. first [reflexivity | rewrite Rmax_right by lra; reflexivity].
Qed.
