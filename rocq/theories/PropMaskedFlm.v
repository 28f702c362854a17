(** * C85: coefficients of a masked field; the texts of refused regions. *)
From Coq Require Import String List ZArith Arith Reals Bool Lia Lra.
From Coquelicot Require Import Coquelicot.
From Verif Require Import Base PyNum PyNumProofs Region RegionProofs Mask MaskProofs Quadrature Plot PlotProofs ArbitrarySolveProofs CSum MaskedFlm SpecField SpecMaskedFlm PropRegion.
Import ListNotations.
Local Open Scope nat_scope.

(** The lists of coefficients and of samples that [ssht] takes: with the reality flag
    only those of real fields. *)
Definition coefficients_of (L : nat) (real : bool) (flm : list C) : Prop :=
  List.length flm = L * L /\ (real = true -> reality L flm).
Definition field_of (L : nat) (real : bool) (f : list C) : Prop :=
  List.length f = samples L /\ (real = true -> forall z, In z f -> Im z = 0%R).
Definition factor_of (real : bool) (c : C) : Prop := real = true -> Im c = 0%R.

(** What [ssht] does at one band limit: the transforms are linear, and [forward]
    undoes [inverse]. *)
Definition transforms (inverse forward : Z -> bool -> nat -> list C -> list C) (L : nat) (real : bool) (spin : Z) : Prop :=
  linear (coefficients_of L real) (field_of L real) (factor_of real) (inverse spin real L) /\
  linear (field_of L real) (coefficients_of L real) (factor_of real) (forward spin real L) /\
  forall flm, coefficients_of L real flm -> forward spin real L (inverse spin real L flm) = flm.

Definition keep (m : list bool) (f : list C) : list C := map (fun p : bool * C => if fst p then snd p else RtoC 0) (combine m f).

Lemma keep_length m f : List.length m = List.length f -> List.length (keep m f) = List.length f.
Proof. intros H. unfold keep. rewrite map_length, combine_length, H. apply Nat.min_id. Qed.

Lemma keep_linear m : forall c f g, List.length m = List.length f -> List.length m = List.length g ->
  keep m (addv f (scalv c g)) = addv (keep m f) (scalv c (keep m g)).
Proof.
  induction m as [|b m IH]; intros c [|x f] [|y g] Hf Hg; cbn in Hf, Hg; try discriminate; [reflexivity|].
  unfold keep, addv, scalv in *. cbn [map combine fst snd]. f_equal; [destruct b; [reflexivity|ring]|]. apply IH; congruence.
Qed.

Lemma keep_split : forall m m' f, List.length m = List.length f -> m' = map negb m -> addv (keep m f) (keep m' f) = f.
Proof.
  induction m as [|b m IH]; intros m' [|x f] H ->; cbn in H; try discriminate; [reflexivity|].
  unfold keep, addv in *. cbn [map combine fst snd]. f_equal; [destruct b; cbn; ring|]. apply IH; congruence.
Qed.

Lemma keep_all m f : List.length m = List.length f -> (forall b, In b m -> b = true) -> keep m f = f.
Proof.
  revert f. induction m as [|b m IH]; intros [|x f] H A; cbn in H; try discriminate; [reflexivity|].
  unfold keep in *. cbn [map combine fst snd]. rewrite (A b) by (left; reflexivity). f_equal. apply IH; [congruence|]. intros; apply A; right; assumption.
Qed.

Lemma keep_none m f : List.length m = List.length f -> (forall b, In b m -> b = false) -> keep m f = repeat (RtoC 0) (List.length f).
Proof.
  revert f. induction m as [|b m IH]; intros [|x f] H A; cbn in H; try discriminate; [reflexivity|].
  unfold keep in *. cbn [map combine fst snd List.length repeat]. rewrite (A b) by (left; reflexivity). f_equal. apply IH; [congruence|]. intros; apply A; right; assumption.
Qed.

Lemma concat_shape {A B} (a : list (list A)) (b : list (list B)) : shape a = shape b -> List.length (List.concat a) = List.length (List.concat b).
Proof.
  revert b. induction a as [|x a IH]; intros [|y b] H; cbn in H; try discriminate; [reflexivity|]. injection H as H1 H2.
  cbn. rewrite !app_length, H1, (IH b H2). reflexivity.
Qed.

Lemma grid_size L : List.length (List.concat (sample_grid L)) = samples L.
Proof.
  unfold samples. rewrite <- (grid_height L). pose proof (grid_lengths L) as G. induction (sample_grid L) as [|x a IH]; [reflexivity|].
  cbn. rewrite app_length, IH by (intros; apply G; right; assumption). rewrite (G x) by (left; reflexivity). reflexivity.
Qed.

Lemma masked_by inverse forward land flm L r real spin fs : List.length (inverse spin real L flm) = samples L ->
  ensure_masked_flm_bandlimited inverse forward land flm L r real spin fs
  = let* (mask, fs') := create_mask_region land L (sample_grid L) r fs in Ok (forward spin real L (keep (List.concat mask) (inverse spin real L flm)), fs').
Proof.
  intros Hf. unfold ensure_masked_flm_bandlimited. destruct (create_mask_region land L (sample_grid L) r fs) as [[m fs']|] eqn:E; [|reflexivity].
  cbn [rbind]. pose proof (concat_shape _ _ (region_mask_shape _ _ _ _ _ _ _ E)) as H. rewrite H, grid_size, Hf, Nat.eqb_refl. reflexivity.
Qed.

Lemma masked_ok inverse forward land flm L r real spin fs : transforms inverse forward L real spin -> coefficients_of L real flm ->
  ensure_masked_flm_bandlimited inverse forward land flm L r real spin fs
  = let* (mask, fs') := create_mask_region land L (sample_grid L) r fs in Ok (forward spin real L (keep (List.concat mask) (inverse spin real L flm)), fs').
Proof. intros ((TI & _) & _) Hf. apply masked_by. apply TI, Hf. Qed.

Lemma keep_field L real m f : List.length m = samples L -> field_of L real f -> field_of L real (keep m f).
Proof.
  intros Hm (Hf & Hr). split; [rewrite keep_length; congruence|]. intros E z Hz. unfold keep in Hz. apply in_map_iff in Hz. destruct Hz as ((b & x) & <- & H).
  cbn. destruct b; [|reflexivity]. apply (Hr E). exact (in_combine_r _ _ _ _ H).
Qed.

Lemma mask_size land L r fs m fs' : create_mask_region land L (sample_grid L) r fs = Ok (m, fs') -> List.length (List.concat m) = samples L.
Proof. intros E. rewrite (concat_shape _ _ (region_mask_shape _ _ _ _ _ _ _ E)). apply grid_size. Qed.

Lemma scalv_minus_one : forall f : list C, addv f (scalv (RtoC (-1)) f) = repeat (RtoC 0) (List.length f).
Proof.
  induction f as [|x f IH]; [reflexivity|]. unfold addv, scalv in *. cbn [repeat map combine fst snd List.length]. f_equal; [|exact IH].
  apply injective_projections; cbn; ring.
Qed.

Lemma zero_image L real F : linear (field_of L real) (coefficients_of L real) (factor_of real) F ->
  F (repeat (RtoC 0) (samples L)) = repeat (RtoC 0) (L * L).
Proof.
  intros (T & Q). assert (Z : field_of L real (repeat (RtoC 0) (samples L))).
  { split; [apply repeat_length|]. intros _ z H. apply repeat_spec in H. subst z. reflexivity. }
  assert (M : factor_of real (RtoC (-1))) by (intros _; reflexivity).
  specialize (Q (RtoC (-1)) _ _ M Z Z). rewrite !scalv_minus_one, repeat_length, (proj1 (T _ Z)) in Q. exact Q.
Qed.

(** The computation fails only with the error of the mask; the result has L^2
    entries, those of a real field if the flag says so; asked again it gives the same and leaves the files alone. *)
Theorem C85_result : forall inverse forward land flm L r real spin fs, transforms inverse forward L real spin -> coefficients_of L real flm ->
  match create_mask_region land L (sample_grid L) r fs with
  | Err e => ensure_masked_flm_bandlimited inverse forward land flm L r real spin fs = Err e
  | Ok (_, fs') => exists out, ensure_masked_flm_bandlimited inverse forward land flm L r real spin fs = Ok (out, fs') /\
      coefficients_of L real out /\
      forall land', ensure_masked_flm_bandlimited inverse forward land' flm L r real spin fs' = Ok (out, fs')
  end.
Proof.
  intros inverse forward land flm L r real spin fs T Hf. rewrite (masked_ok _ _ _ _ _ _ _ _ _ T Hf).
  destruct (create_mask_region land L (sample_grid L) r fs) as [[m fs']|] eqn:E; [|reflexivity]. cbn [rbind].
  eexists. split; [reflexivity|]. destruct T as ((TI & LI) & (TF & LF) & ST). split.
  - apply TF, keep_field; [exact (mask_size _ _ _ _ _ _ E)|apply TI, Hf].
  - intros land'. rewrite masked_by by apply TI, Hf. rewrite (mask_reload land land' _ _ _ _ _ _ E). reflexivity.
Qed.
Print Assumptions C85_result.

Definition in_cap (r : region) (theta phi : R) : Prop :=
  (theta <= r_theta_max r \/ (r_gap r = true /\ PI - r_theta_max r <= theta))%R.
Definition in_box (r : region) (theta phi : R) : Prop :=
  (r_theta_min r <= theta <= r_theta_max r /\ r_phi_min r <= phi <= r_phi_max r)%R.

Lemma nth_keep : forall m f k, nth k (keep m f) (RtoC 0) = if nth k m false then nth k f (RtoC 0) else RtoC 0.
Proof.
  induction m as [|b m IH]; intros f k; [destruct k; reflexivity|].
  destruct f as [|x f]; [destruct k; cbn; [destruct b; reflexivity|destruct (nth k m false); reflexivity]|].
  destruct k; [destruct b; reflexivity|]. exact (IH f k).
Qed.

(** The field that is transformed has its values at the samples inside the cap, caps
    or box, and 0 at the others. *)
Theorem C85_field : forall inverse forward land flm L r real spin fs, transforms inverse forward L real spin -> coefficients_of L real flm ->
  r_region_type r <> Arbitrary ->
  exists g, ensure_masked_flm_bandlimited inverse forward land flm L r real spin fs = Ok (forward spin real L g, fs) /\
    List.length g = samples L /\
    forall i j, i < n_theta L -> j < n_phi L ->
    let here := match r_region_type r with Polar => in_cap r | _ => in_box r end (PI * INR i / INR L)%R (PI * INR j / INR L)%R in
    let k := i * n_phi L + j in
    (here -> nth k g (RtoC 0) = nth k (inverse spin real L flm) (RtoC 0)) /\ (~ here -> nth k g (RtoC 0) = RtoC 0).
Proof.
  intros inverse forward land flm L r real spin fs T Hf HR. rewrite (masked_ok _ _ _ _ _ _ _ _ _ T Hf).
  assert (M : exists mask, create_mask_region land L (sample_grid L) r fs = Ok (mask, fs)).
  { unfold create_mask_region. destruct (r_region_type r); [eexists; reflexivity|eexists; reflexivity|contradiction]. }
  destruct M as (mask & E). rewrite E. cbn [rbind]. eexists. split; [reflexivity|].
  assert (Sz : List.length (List.concat mask) = List.length (inverse spin real L flm)) by (rewrite (mask_size _ _ _ _ _ _ E); symmetry; apply T, Hf).
  split; [rewrite keep_length by exact Sz; apply T, Hf|]. intros i j Hi Hj. cbv zeta.
  assert (B : exists b, sample mask i j = Some b /\
    (b = true <-> match r_region_type r with Polar => in_cap r | _ => in_box r end (PI * INR i / INR L)%R (PI * INR j / INR L)%R)).
  { pose proof (grid_sample L i j Hi Hj) as G. destruct (r_region_type r) eqn:RT; [| |contradiction].
    - destruct (region_mask_sample_polar land L _ r fs i j _ _ RT G) as (m' & b & E' & Sm & Hb). rewrite E in E'. injection E' as <-. exists b. auto.
    - destruct (region_mask_sample_box land L _ r fs i j _ _ RT G) as (m' & b & E' & Sm & Hb). rewrite E in E'. injection E' as <-. exists b. auto. }
  destruct B as (b & Sm & Hb). rewrite nth_keep.
  assert (W : List.Forall (fun row => List.length row = n_phi L) mask).
  { pose proof (region_mask_shape _ _ _ _ _ _ _ E) as Q. rewrite grid_shape in Q. apply Forall_forall. intros row Hr.
    assert (In (List.length row) (shape mask)) as I by (apply in_map, Hr). rewrite Q in I. apply repeat_spec in I. exact I. }
  assert (Hm : i < List.length mask).
  { unfold sample in Sm. destruct (nth_error mask i) eqn:Q; [|discriminate]. apply nth_error_Some. congruence. }
  rewrite (nth_concat mask (n_phi L) false i j W Hm Hj).
  assert (Bv : nth j (nth i mask []) false = b).
  { unfold sample in Sm. destruct (nth_error mask i) as [row|] eqn:Q; [|discriminate]. rewrite (nth_error_nth _ _ _ Q). apply nth_error_nth, Sm. }
  rewrite Bv. destruct b; split; intros H; try reflexivity; [exfalso; apply H, Hb; reflexivity|apply Hb in H; discriminate].
Qed.
Print Assumptions C85_field.

(** A region that contains all samples keeps the coefficients, one without samples
    gives zeros. *)
Theorem C85_extremes : forall inverse forward land flm L r real spin fs mask fs', transforms inverse forward L real spin -> coefficients_of L real flm ->
  create_mask_region land L (sample_grid L) r fs = Ok (mask, fs') ->
  ((forall row b, In row mask -> In b row -> b = true) ->
     ensure_masked_flm_bandlimited inverse forward land flm L r real spin fs = Ok (flm, fs')) /\
  ((forall row b, In row mask -> In b row -> b = false) ->
     ensure_masked_flm_bandlimited inverse forward land flm L r real spin fs = Ok (repeat (RtoC 0) (L * L), fs')).
Proof.
  intros inverse forward land flm L r real spin fs mask fs' T Hf E. rewrite (masked_ok _ _ _ _ _ _ _ _ _ T Hf), E. cbn [rbind].
  destruct T as ((TI & LI) & (TF & LF) & ST). pose proof (mask_size _ _ _ _ _ _ E) as HM.
  split; intros A; do 2 f_equal.
  - rewrite keep_all; [apply ST, Hf|rewrite HM; symmetry; apply (TI flm Hf)|]. intros b Hb. apply in_concat in Hb. destruct Hb as (row & H1 & H2). exact (A row b H1 H2).
  - rewrite keep_none; [|rewrite HM; symmetry; apply (TI flm Hf)|intros b Hb; apply in_concat in Hb; destruct Hb as (row & H1 & H2); exact (A row b H1 H2)].
    rewrite (proj1 (TI flm Hf)). apply (zero_image L real). split; assumption.
Qed.
Print Assumptions C85_extremes.

(** Two caps of at least 90 degrees leave nothing out. *)
Theorem C85_gap : forall inverse forward land flm L r mask_name theta_max real spin fs, transforms inverse forward L real spin -> coefficients_of L real flm ->
  make_region true mask_name (2 * PI) 0 theta_max 0 = Ok r -> (PI / 2 <= theta_max < PI)%R ->
  ensure_masked_flm_bandlimited inverse forward land flm L r real spin fs = Ok (flm, fs).
Proof.
  intros inverse forward land flm L r mask_name theta real spin fs T Hf R HT. pose proof PI_RGT_0 as PP.
  assert (E : r_region_type r = Polar /\ r_gap r = true /\ r_theta_max r = theta).
  { destruct (make_region_cases true mask_name (2 * PI) 0 theta 0) as [E|[E|[E|E]]]; try lra; decompose [and] E; clear E;
      match goal with X : make_region _ _ _ _ _ _ = _ |- _ => rewrite R in X; try discriminate X; injection X as -> end; cbn; repeat split; exfalso; lra. }
  destruct E as (E1 & E2 & E3).
  assert (M : create_mask_region land L (sample_grid L) r fs = Ok (grid_map (fun t _ => polar_mask (r_gap r) (r_theta_max r) t) (sample_grid L), fs))
    by (unfold create_mask_region; rewrite E1; reflexivity).
  apply (proj1 (C85_extremes _ _ _ _ _ _ _ _ _ _ _ T Hf M)).
  intros row b Hr Hb. unfold grid_map in Hr. apply in_map_iff in Hr. destruct Hr as (grow & <- & _). apply in_map_iff in Hb. destruct Hb as (p & <- & _).
  apply polar_mask_spec. rewrite E2, E3. destruct (Rle_lt_dec (fst p) theta); [left; assumption|right; split; [reflexivity|lra]].
Qed.
Print Assumptions C85_gap.

(** Two regions with complementary masks split the coefficients into a sum. *)
Theorem C85_split : forall inverse forward land flm L r r' real spin fs mask mask' fs' fs'' out out' fs1 fs2, transforms inverse forward L real spin -> coefficients_of L real flm ->
  create_mask_region land L (sample_grid L) r fs = Ok (mask, fs') -> create_mask_region land L (sample_grid L) r' fs' = Ok (mask', fs'') ->
  mask' = map (map negb) mask ->
  ensure_masked_flm_bandlimited inverse forward land flm L r real spin fs = Ok (out, fs1) ->
  ensure_masked_flm_bandlimited inverse forward land flm L r' real spin fs1 = Ok (out', fs2) ->
  addv out out' = flm.
Proof.
  intros inverse forward land flm L r r' real spin fs mask mask' fs' fs'' out out' fs1 fs2 T Hf E E' HM O O'.
  rewrite (masked_ok _ _ _ _ _ _ _ _ _ T Hf), E in O. cbn [rbind] in O. injection O as <- <-.
  rewrite (masked_ok _ _ _ _ _ _ _ _ _ T Hf), E' in O'. cbn [rbind] in O'. injection O' as <- _.
  destruct T as ((TI & LI) & (TF & LF) & ST). pose proof (mask_size _ _ _ _ _ _ E) as S1. pose proof (mask_size _ _ _ _ _ _ E') as S2.
  set (f := inverse spin real L flm). assert (Lf : field_of L real f) by apply TI, Hf.
  pose proof (keep_field L real _ _ S1 Lf) as K1. pose proof (keep_field L real _ _ S2 Lf) as K2.
  assert (F1 : factor_of real (RtoC 1)) by (intros _; reflexivity).
  assert (ONE : forall l : list C, scalv (RtoC 1) l = l) by (intros l; unfold scalv; rewrite <- (map_id l) at 2; apply map_ext; intros; ring).
  pose proof (LF (RtoC 1) _ _ F1 K1 K2) as Q. rewrite !ONE in Q. rewrite <- Q, keep_split; [apply ST, Hf|rewrite S1; symmetry; apply Lf|].
  subst mask'. clear. induction mask as [|row m IH]; [reflexivity|]. cbn [List.concat map]. rewrite map_app, IH. reflexivity.
Qed.
Print Assumptions C85_split.

(** The result depends linearly on the coefficients. *)
Theorem C85_linear : forall inverse forward land c flm glm L r real spin fs out out' fs', transforms inverse forward L real spin -> factor_of real c ->
  coefficients_of L real flm -> coefficients_of L real glm ->
  ensure_masked_flm_bandlimited inverse forward land flm L r real spin fs = Ok (out, fs') ->
  ensure_masked_flm_bandlimited inverse forward land glm L r real spin fs = Ok (out', fs') ->
  ensure_masked_flm_bandlimited inverse forward land (addv flm (scalv c glm)) L r real spin fs = Ok (addv out (scalv c out'), fs').
Proof.
  intros inverse forward land c flm glm L r real spin fs out out' fs' T Hc Hf Hg O O'.
  rewrite (masked_ok _ _ _ _ _ _ _ _ _ T Hf) in O. rewrite (masked_ok _ _ _ _ _ _ _ _ _ T Hg) in O'.
  destruct T as ((TI & LI) & (TF & LF) & ST).
  rewrite masked_by; rewrite (LI c flm glm Hc Hf Hg);
    [|unfold addv, scalv; rewrite map_length, combine_length, map_length, (proj1 (TI flm Hf)), (proj1 (TI glm Hg)); apply Nat.min_id].
  destruct (create_mask_region land L (sample_grid L) r fs) as [[m fs1]|] eqn:E; [|discriminate]. cbn [rbind] in *. injection O as <- <-. injection O' as <-.
  pose proof (mask_size _ _ _ _ _ _ E) as S1. do 2 f_equal.
  rewrite keep_linear; [|rewrite S1; symmetry; apply (TI flm Hf)|rewrite S1; symmetry; apply (TI glm Hg)].
  apply LF; [exact Hc|apply keep_field; [exact S1|apply TI, Hf]|apply keep_field; [exact S1|apply TI, Hg]].
Qed.
Print Assumptions C85_linear.

(** ** Texts *)
(** Whole multiples of pi print as such, "π" alone for one. *)
Theorem C85_multiples : forall k, multiples_of_pi (IZR k * PI) = ((if (k =? 1)%Z then "" else zstr k) ++ "π")%string.
Proof.
  intros k. unfold multiples_of_pi. replace (IZR k * PI / PI)%R with (IZR k) by (field; apply Rgt_not_eq, PI_RGT_0).
  assert (I : py_int (IZR k) = k).
  { unfold py_int. destruct (Rltb (IZR k) 0).
    - rewrite (rfloor_unique (- IZR k) (- k)) by (rewrite opp_IZR; lra). lia.
    - apply rfloor_unique. lra. }
  rewrite I. destruct (k =? 1)%Z; reflexivity.
Qed.
Print Assumptions C85_multiples.

(** Between multiples the factor is the one nearer to zero. *)
Theorem C85_truncation : forall k x, (0 <= k)%Z -> (IZR k * PI <= x < (IZR k + 1) * PI)%R ->
  multiples_of_pi x = multiples_of_pi (IZR k * PI) /\ (0 < x -> multiples_of_pi (- x) = multiples_of_pi (- (IZR k * PI)))%R.
Proof.
  intros k x Hk H. pose proof PI_RGT_0 as PP.
  assert (Q : (IZR k <= x / PI < IZR k + 1)%R).
  { split; [apply (Rmult_le_reg_r PI)|apply (Rmult_lt_reg_r PI)]; try exact PP; unfold Rdiv; rewrite Rmult_assoc, Rinv_l by lra; lra. }
  assert (K0 : (0 <= IZR k)%R) by (apply IZR_le; exact Hk).
  assert (A : py_int (x / PI) = k).
  { unfold py_int. rewrite (proj2 (Rltb_false (x / PI) 0)) by lra. apply rfloor_unique, Q. }
  split; [|intros Hx]; unfold multiples_of_pi.
  - replace (IZR k * PI / PI)%R with (IZR k) by (field; lra). rewrite A. unfold py_int. rewrite (proj2 (Rltb_false (IZR k) 0)) by lra.
    rewrite (rfloor_unique (IZR k) k) by lra. reflexivity.
  - replace (- (IZR k * PI) / PI)%R with (IZR (- k)) by (rewrite opp_IZR; field; lra).
    assert (B : py_int (IZR (- k)) = (- k)%Z).
    { unfold py_int. destruct (Rltb (IZR (- k)) 0); [rewrite <- opp_IZR, Z.opp_involutive, (rfloor_unique (IZR k) k) by lra; reflexivity|apply rfloor_unique; lra]. }
    rewrite B. assert (D : py_int (- x / PI) = (- k)%Z).
    { unfold py_int. assert (X : (0 < x / PI)%R) by (apply Rdiv_lt_0_compat; lra). replace (- x / PI)%R with (- (x / PI))%R by (field; lra).
      rewrite (proj2 (Rltb_spec (- (x / PI)) 0)) by lra. rewrite Ropp_involutive. f_equal. apply rfloor_unique, Q. }
    rewrite D. reflexivity.
Qed.
Print Assumptions C85_truncation.

Lemma refuse_in name hi x t : In t (refuse name 0 hi x) <->
  ((x < 0)%R /\ t = (name ++ " cannot be negative")%string) \/ ((0 <= x)%R /\ (hi < x)%R /\ t = (name ++ " cannot be greater than " ++ multiples_of_pi hi)%string).
Proof.
  unfold refuse. destruct (Rltb x 0) eqn:A; [apply Rltb_spec in A|apply Rltb_false in A; destruct (Rltb hi x) eqn:B; [apply Rltb_spec in B|apply Rltb_false in B]];
    cbn [List.In]; split.
  - intros [<- | []]. left. auto.
  - intros [(_ & ->)|(H & _)]; [auto|lra].
  - intros [<- | []]. right. auto.
  - intros [(H & _)|(_ & _ & ->)]; [lra|auto].
  - intros [].
  - intros [(H & _)|(_ & H & _)]; lra.
Qed.

Lemma refuse_nil name hi x : refuse name 0 hi x = [] <-> (0 <= x <= hi)%R.
Proof.
  unfold refuse. destruct (Rltb x 0) eqn:A; [apply Rltb_spec in A|apply Rltb_false in A; destruct (Rltb hi x) eqn:B; [apply Rltb_spec in B|apply Rltb_false in B]];
    split; intros H; try discriminate; try reflexivity; lra.
Qed.

Lemma refuse_short name hi x : List.length (refuse name 0 hi x) <= 1.
Proof. unfold refuse. destruct (Rltb x 0), (Rltb hi x); cbn; lia. Qed.

Local Ltac back := first [ split; [lra|reflexivity] | split; [lra|split; [lra|reflexivity]] | left; back | right; back ].

(** A region is refused with an error of value exactly if some angle has a text, at
    most one for each; the text names the angle and says on which side it is. *)
Theorem C85_refusals : forall gap mask_name phi_max phi_min theta_max theta_min,
  let texts := region_refusals phi_max phi_min theta_max theta_min in
  (make_region gap mask_name phi_max phi_min theta_max theta_min = Err ValueError <-> texts <> []) /\
  (In "phi_max cannot be negative"%string texts <-> (phi_max < 0)%R) /\
  (In "phi_max cannot be greater than 2π"%string texts <-> (2 * PI < phi_max)%R) /\
  (In "phi_min cannot be negative"%string texts <-> (phi_min < 0)%R) /\
  (In "phi_min cannot be greater than 2π"%string texts <-> (2 * PI < phi_min)%R) /\
  (In "theta_max cannot be negative"%string texts <-> (theta_max < 0)%R) /\
  (In "theta_max cannot be greater than π"%string texts <-> (PI < theta_max)%R) /\
  (In "theta_min cannot be negative"%string texts <-> (theta_min < 0)%R) /\
  (In "theta_min cannot be greater than π"%string texts <-> (PI < theta_min)%R) /\
  List.length texts <= 4.
Proof.
  intros gap mask_name phi_max phi_min theta_max theta_min texts. pose proof PI_RGT_0 as PP.
  assert (T2 : multiples_of_pi PHI_MAX_DEFAULT = "2π"%string) by (unfold PHI_MAX_DEFAULT; rewrite (C85_multiples 2); reflexivity).
  assert (T1 : multiples_of_pi THETA_MAX_DEFAULT = "π"%string) by (unfold THETA_MAX_DEFAULT; rewrite <- (Rmult_1_l PI), (C85_multiples 1); reflexivity).
  rewrite make_region_ValueError. unfold texts, region_refusals.
  change PHI_MIN_DEFAULT with 0%R. change THETA_MIN_DEFAULT with 0%R. change PHI_MAX_DEFAULT with (2 * PI)%R in *. change THETA_MAX_DEFAULT with PI in *.
  split.
  - pose proof (refuse_nil "phi_max" (2 * PI) phi_max) as N1. pose proof (refuse_nil "phi_min" (2 * PI) phi_min) as N2.
    pose proof (refuse_nil "theta_max" PI theta_max) as N3. pose proof (refuse_nil "theta_min" PI theta_min) as N4.
    rewrite <- N1, <- N2, <- N3, <- N4. apply not_iff_compat. split.
    + intros (-> & -> & -> & ->). reflexivity.
    + intros H. apply app_eq_nil in H. destruct H as (H1 & H). apply app_eq_nil in H. destruct H as (H2 & H). apply app_eq_nil in H. tauto.
  - split; [|split; [|split; [|split; [|split; [|split; [|split; [|split]]]]]]].
    9: { rewrite !app_length. pose proof (refuse_short "phi_max" (2 * PI) phi_max) as N1. pose proof (refuse_short "phi_min" (2 * PI) phi_min) as N2.
         pose proof (refuse_short "theta_max" PI theta_max) as N3. pose proof (refuse_short "theta_min" PI theta_min) as N4. lia. }
    all: rewrite !in_app_iff, !refuse_in, T1, T2; split; [intros H; decompose [and or] H; solve [assumption | discriminate] | intros; back].
Qed.
Print Assumptions C85_refusals.

(** ** Cases *)
Module MaskedCases.
  (** Band limit 1: the two poles, each with two longitudes. *)
  Definition inverse1 (_ : Z) (_ : bool) (_ : nat) (flm : list C) : list C := repeat (nth 0 flm (RtoC 0)) 4.
  Definition forward1 (_ : Z) (_ : bool) (_ : nat) (f : list C) : list C :=
    [Cmult (RtoC (1 / 4)) (Cplus (Cplus (nth 0 f (RtoC 0)) (nth 1 f (RtoC 0))) (Cplus (nth 2 f (RtoC 0)) (nth 3 f (RtoC 0))))].

  Lemma reality1 x : reality 1 [x] <-> Im x = 0%R.
  Proof.
    unfold reality. split.
    - intros H. assert (V : valid 1 0 0) by (split; [lia|reflexivity]). specialize (H 0 0%Z V). cbn in H. destruct x as [a b]. apply (f_equal snd) in H. cbn in *. lra.
    - intros H el m (V1 & V2). assert (el = 0) by lia. subst el. assert (m = 0%Z) by lia. subst m. cbn. destruct x as [a b]. cbn in *. subst b.
      apply injective_projections; cbn; ring.
  Qed.

  Lemma transforms1 real spin : transforms inverse1 forward1 1 real spin.
  Proof.
    split; [|split].
    - split.
      + intros [|x [|x' f]] (Hf & Hr); try discriminate Hf. split; [reflexivity|]. intros E z Hz. apply repeat_spec in Hz. subst z. apply reality1, Hr, E.
      + intros c [|x [|x' f]] [|y [|y' g]] _ (Hf & _) (Hg & _); cbn in Hf, Hg; try discriminate. reflexivity.
    - split.
      + intros f (Hf & Hr). split; [reflexivity|]. intros E. apply reality1. specialize (Hr E).
        do 4 (destruct f as [|? f]; [discriminate Hf|]). destruct f; [|discriminate Hf].
        assert (A := Hr c ltac:(cbn; auto)). assert (B := Hr c0 ltac:(cbn; auto)). assert (D := Hr c1 ltac:(cbn; auto 6)). assert (F := Hr c2 ltac:(cbn; auto 6)).
        destruct c, c0, c1, c2. cbn in *. subst. ring.
      + intros c f g _ (Hf & _) (Hg & _).
        do 4 (destruct f as [|? f]; [discriminate Hf|]). destruct f; [|discriminate Hf].
        do 4 (destruct g as [|? g]; [discriminate Hg|]). destruct g; [|discriminate Hg].
        unfold forward1, addv, scalv. cbn [combine map nth fst snd]. f_equal. ring.
    - intros [|x [|y v]] (H & _); try discriminate H. unfold forward1, inverse1. cbn [nth repeat]. f_equal.
      destruct x as [a b]. apply injective_projections; cbn; field.
  Qed.

  Definition cap60 : region := mk_region false "" (2 * PI) 0 (PI / 3) 0 "polar60" Polar.

  Lemma cap60_made : make_region false "" (2 * PI) 0 (PI / 3) 0 = Ok cap60.
  Proof.
    pose proof PI_RGT_0 as PP. destruct (make_region_cases false "" (2 * PI) 0 (PI / 3) 0) as [E|[E|[E|E]]]; try lra; decompose [and] E; clear E; try (exfalso; lra).
    match goal with X : make_region _ _ _ _ _ _ = _ |- _ => rewrite X end. unfold cap60, angle_as_degree. replace (PI / 3 * 180 / PI)%R with (IZR 60) by (field; lra). rewrite py_round_IZR. reflexivity.
  Qed.

  Lemma cap60_mask land fs : create_mask_region land 1 (sample_grid 1) cap60 fs = Ok ([[true; true]; [false; false]], fs).
  Proof.
    pose proof PI_RGT_0 as PP. unfold create_mask_region. cbn [cap60 r_region_type r_gap r_theta_max]. do 2 f_equal.
    unfold sample_grid, thetas, phis, n_theta, n_phi. cbn [Nat.add Nat.mul seq map grid_map fst snd].
    assert (A : polar_mask false (PI / 3) (PI * INR 0 / INR 1) = true) by (apply polar_mask_spec; left; cbn; lra).
    assert (B : polar_mask false (PI / 3) (PI * INR 1 / INR 1) = false).
    { destruct (polar_mask false (PI / 3) (PI * INR 1 / INR 1)) eqn:Q; [|reflexivity]. apply polar_mask_spec in Q. cbn in Q. destruct Q as [Q|[Q _]]; [lra|discriminate]. }
    rewrite A, B. reflexivity.
  Qed.

  Lemma halved land fs x real spin : ensure_masked_flm_bandlimited inverse1 forward1 land [x] 1 cap60 real spin fs = Ok ([Cmult (RtoC (1 / 2)) x], fs).
  Proof.
    rewrite masked_by by reflexivity. rewrite cap60_mask. cbn [rbind]. do 2 f_equal.
    unfold forward1, inverse1, keep. cbn [List.concat app combine map nth repeat fst snd]. f_equal.
    destruct x as [a b]. apply injective_projections; cbn; field.
  Qed.

  Example C85_case : make_region false "" (2 * PI) 0 (PI / 3) 0 = Ok cap60 /\ transforms inverse1 forward1 1 false 0 /\
    forall land fs, ensure_masked_flm_bandlimited inverse1 forward1 land [RtoC 1] 1 cap60 false 0 fs = Ok ([RtoC (1 / 2)], fs).
  Proof.
    split; [exact cap60_made|]. split; [apply transforms1|]. intros land fs. rewrite halved. do 3 f_equal. ring.
  Qed.

  (** The other half: the box of latitudes from 90 degrees to the south pole. *)
  Definition south : region := mk_region false "" (2 * PI) 0 PI (PI / 2) "theta90-180_phi0-360" LimLatLon.

  Example C85_split_case : make_region false "" (2 * PI) 0 PI (PI / 2) = Ok south /\
    (forall land fs, create_mask_region land 1 (sample_grid 1) cap60 fs = Ok ([[true; true]; [false; false]], fs)) /\
    forall land fs, create_mask_region land 1 (sample_grid 1) south fs = Ok (map (map negb) [[true; true]; [false; false]], fs).
  Proof.
    pose proof PI_RGT_0 as PP. split; [|split; [exact cap60_mask|]].
    - destruct (make_region_cases false "" (2 * PI) 0 PI (PI / 2)) as [E|[E|[E|E]]]; try lra; decompose [and] E; clear E; try (exfalso; lra).
      match goal with X : make_region _ _ _ _ _ _ = _ |- _ => rewrite X end. unfold south, angle_as_degree.
      replace (PI / 2 * 180 / PI)%R with (IZR 90) by (field; lra). replace (PI * 180 / PI)%R with (IZR 180) by (field; lra).
      replace (0 * 180 / PI)%R with (IZR 0) by (field; lra). replace (2 * PI * 180 / PI)%R with (IZR 360) by (field; lra).
      rewrite !py_round_IZR. reflexivity.
    - intros land fs. unfold create_mask_region. cbn [south r_region_type r_gap r_theta_max r_theta_min r_phi_max r_phi_min]. do 2 f_equal.
      unfold sample_grid, thetas, phis, n_theta, n_phi. cbn [Nat.add Nat.mul seq map grid_map fst snd negb].
      assert (A : forall phi, lat_lon_mask (2 * PI) 0 PI (PI / 2) (PI * INR 0 / INR 1) phi = false).
      { intros phi. destruct (lat_lon_mask (2 * PI) 0 PI (PI / 2) (PI * INR 0 / INR 1) phi) eqn:Q; [|reflexivity]. apply lat_lon_mask_spec in Q. cbn in Q. lra. }
      assert (B : forall phi, (0 <= phi <= 2 * PI)%R -> lat_lon_mask (2 * PI) 0 PI (PI / 2) (PI * INR 1 / INR 1) phi = true).
      { intros phi H. apply lat_lon_mask_spec. cbn. lra. }
      rewrite !A, !B by (cbn; lra). reflexivity.
  Qed.

  Example C85_texts : region_refusals 9 (-1) 3 5 = ["phi_max cannot be greater than 2π"; "phi_min cannot be negative"; "theta_min cannot be greater than π"]%string.
  Proof.
    pose proof PI_RGT_0 as P0. pose proof PI_4 as P4. pose proof PI2_3_2 as P3.
    assert (T2 : multiples_of_pi PHI_MAX_DEFAULT = "2π"%string) by (unfold PHI_MAX_DEFAULT; rewrite (C85_multiples 2); reflexivity).
    assert (T1 : multiples_of_pi THETA_MAX_DEFAULT = "π"%string) by (unfold THETA_MAX_DEFAULT; rewrite <- (Rmult_1_l PI), (C85_multiples 1); reflexivity).
    unfold region_refusals, refuse. rewrite T1, T2. unfold PHI_MIN_DEFAULT, PHI_MAX_DEFAULT, THETA_MIN_DEFAULT, THETA_MAX_DEFAULT.
    rewrite (proj2 (Rltb_false 9 0)) by lra. rewrite (proj2 (Rltb_spec (2 * PI) 9)) by lra.
    rewrite (proj2 (Rltb_spec (-1) 0)) by lra. rewrite (proj2 (Rltb_false 3 0)) by lra. rewrite (proj2 (Rltb_false PI 3)) by lra.
    rewrite (proj2 (Rltb_false 5 0)) by lra. rewrite (proj2 (Rltb_spec PI 5)) by lra. reflexivity.
  Qed.
End MaskedCases.

(** Masking twice is not masking once: at band limit 1 the cap of 60 degrees halves
    the coefficient each time. *)
Theorem C85_idempotent_refuted : exists inverse forward r flm out again, transforms inverse forward 1 true 0 /\ coefficients_of 1 true flm /\
  (exists gap mask_name phi_max phi_min theta_max theta_min, make_region gap mask_name phi_max phi_min theta_max theta_min = Ok r) /\
  (forall land fs, ensure_masked_flm_bandlimited inverse forward land flm 1 r true 0 fs = Ok (out, fs)) /\
  (forall land fs, ensure_masked_flm_bandlimited inverse forward land out 1 r true 0 fs = Ok (again, fs)) /\ again <> out.
Proof.
  exists MaskedCases.inverse1, MaskedCases.forward1, MaskedCases.cap60, [RtoC 1], [Cmult (RtoC (1 / 2)) (RtoC 1)], [Cmult (RtoC (1 / 2)) (Cmult (RtoC (1 / 2)) (RtoC 1))].
  split; [apply MaskedCases.transforms1|]. split; [split; [reflexivity|intros _; apply MaskedCases.reality1; reflexivity]|]. split; [do 6 eexists; exact MaskedCases.cap60_made|].
  split; [intros; apply MaskedCases.halved|]. split; [intros; apply MaskedCases.halved|].
  intros A. injection A as A _. lra.
Qed.
Print Assumptions C85_idempotent_refuted.
