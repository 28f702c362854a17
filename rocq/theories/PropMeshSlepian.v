(** * Properties C56, C57, C58: Slepian functions, denoising and rank selection
    on meshes. *)
From Coq Require Import List ZArith Arith Bool Reals Lra Lia.
From Coquelicot Require Import Complex.
From Verif Require Import Base ListLemmas RSum CSum PyNum PyNumProofs Numpy RealOrtho SpecEigen Eigen EigenProofs
  SpecField Noise NoiseProofs Convolution ConvolutionProofs SelectProofs EarthProofs TransformProofs Transform Threshold PropThreshold
  PropNoise PropWavelet SigmaProofs PropSigma Mesh SpecMesh MeshProofs PropMesh.
Import ListNotations.
Local Open Scope nat_scope.

(** ** C56 concentration *)

(** The eigenvalue of a Slepian function is the part of its energy that lies in
    the region; distinct functions are orthogonal in the region too. *)
Theorem C56_concentration : forall s p q, slepian_functions_ok s -> slepian_eigen s ->
  p < length (ms_functions s) -> q < length (ms_functions s) ->
  rsum (nv (ms_mesh s)) (fun v => if inside (ms_mesh s) v then slep s p v * slep s q v else 0)%R
  = if p =? q then val (ms_evals s) p else 0%R.
Proof.
  intros s p q ok HE Hp Hq. set (m := ms_mesh s).
  change (rmask (inside m) (nv m) (field m (sfun s p)) (slep s q) = if p =? q then val (ms_evals s) p else 0%R).
  unfold m. rewrite (region_slep s (sfun s p) q HE Hq).
  destruct ok as (_ & _ & _ & _ & _ & _ & _ & Ho). rewrite Ho by assumption.
  destruct (Nat.eqb_spec p q) as [->|]; ring.
Qed.
Print Assumptions C56_concentration.

Theorem C56_range : forall s p, slepian_functions_ok s -> slepian_eigen s -> p < length (ms_functions s) ->
  rsum (nv (ms_mesh s)) (fun v => slep s p v ^ 2)%R = 1%R /\
  val (ms_evals s) p = rsum (nv (ms_mesh s)) (fun v => if inside (ms_mesh s) v then slep s p v ^ 2 else 0)%R /\
  (0 <= val (ms_evals s) p <= 1)%R.
Proof.
  intros s p ok HE Hp. pose proof (C56_concentration s p p ok HE Hp Hp) as C. rewrite Nat.eqb_refl in C.
  pose proof (slep_product s ok p p Hp Hp) as U. rewrite Nat.eqb_refl in U.
  pose proof (rmask_le (inside (ms_mesh s)) (nv (ms_mesh s)) (slep s p)) as B. rewrite U in B. unfold rmask in B.
  rewrite C in B. split; [|split; [|exact B]].
  - rewrite <- U. apply rsum_ext. intros. ring.
  - rewrite <- C. apply rsum_ext. intros v _. destruct (inside (ms_mesh s) v); ring.
Qed.
Print Assumptions C56_range.

(** With the full set of Slepian functions: a signal orthogonal to the first
    [p] of them has at most the fraction [lambda_p] of its energy in the
    region; [p = 0] says that the first one is the best concentrated signal. *)
Theorem C56_optimal : forall s c p, slepian_functions_ok s -> slepian_eigen s -> descending (ms_evals s) ->
  length (ms_functions s) = nb (ms_mesh s) -> p < nb (ms_mesh s) ->
  (forall q, q < p -> rip (nb (ms_mesh s)) (val c) (val (sfun s q)) = 0%R) ->
  (rsum (nv (ms_mesh s)) (fun v => if inside (ms_mesh s) v then field (ms_mesh s) c v ^ 2 else 0)
   <= val (ms_evals s) p * rsum (nv (ms_mesh s)) (fun v => field (ms_mesh s) c v ^ 2))%R.
Proof.
  intros s c p ok HE Hd Hl Hp Hq. set (m := ms_mesh s) in *. set (n := nb m) in *.
  pose proof ok as (_ & _ & _ & _ & _ & Hev & _ & Ho). fold m n in Hev, Ho. rewrite Hl in Ho.
  set (a := fun q => rip n (val c) (val (sfun s q))).
  assert (Rec : forall v, field m c v = rsum n (fun q => a q * slep s q v)%R).
  { intros v. unfold slep. fold m. unfold field. fold n.
    rewrite (rsum_ext n (fun i => val c i * phi m i v)%R
      (fun i => rsum n (fun q => a q * (val (sfun s q) i * phi m i v)))%R).
    - rewrite rsum_swap. apply rsum_ext. intros q _. apply rsum_scal_l.
    - intros i Hi. rewrite <- (rreconstruct n (fun q => val (sfun s q)) Ho (val c) i Hi) at 1. unfold rproj.
      rewrite <- rsum_scal_r. apply rsum_ext. intros q _. unfold a. ring. }
  assert (E1 : rsum (nv m) (fun v => if inside m v then field m c v ^ 2 else 0)%R
               = rsum n (fun q => val (ms_evals s) q * a q ^ 2)%R).
  { transitivity (rsum (nv m) (fun v => rsum n (fun q => a q * (if inside m v then field m c v * slep s q v else 0))%R)).
    - apply rsum_ext. intros v _. destruct (inside m v).
      + cbn [pow]. rewrite Rmult_1_r. rewrite (Rec v) at 2. rewrite <- rsum_scal_l. apply rsum_ext. intros. ring.
      + symmetry. apply rsum_zero. intros. ring.
    - rewrite rsum_swap. apply rsum_ext. intros q Hqn. rewrite rsum_scal_l.
      pose proof (region_slep s c q HE) as RS. fold m n in RS. unfold rmask in RS. rewrite RS by lia. fold (a q). ring. }
  assert (E2 : rsum (nv m) (fun v => field m c v ^ 2)%R = rsum n (fun q => a q ^ 2)%R).
  { transitivity (rip (nv m) (field m c) (field m c)); [apply rsum_ext; intros; ring|].
    unfold m. rewrite (field_product (ms_mesh s) c c (sl_ob s ok)). fold m n.
    rewrite <- (rparseval n (fun q => val (sfun s q)) Ho (val c)). apply rsum_ext. intros. unfold a. ring. }
  rewrite E1, E2, <- rsum_scal_l. apply rsum_le. intros q Hqn.
  destruct (le_lt_dec p q) as [L|L].
  - assert (val (ms_evals s) q <= val (ms_evals s) p)%R; [|pose proof (pow2_ge_0 (a q)); nra].
    destruct (Nat.eq_dec p q) as [->|Ne]; [lra|].
    apply (Hd p q); [lia| |]; apply nth_error_nth'; rewrite Hev; assumption.
  - unfold a. rewrite Hq by exact L. lra.
Qed.
Print Assumptions C56_optimal.

(** The eigenvalues add up to the energy of the basis functions in the region,
    which is at most the number of vertices of the region. *)
Theorem C56_trace : forall s, slepian_functions_ok s -> slepian_eigen s ->
  length (ms_functions s) = nb (ms_mesh s) ->
  rsum (nb (ms_mesh s)) (val (ms_evals s))
  = rsum (nv (ms_mesh s)) (fun v => if inside (ms_mesh s) v then rsum (nb (ms_mesh s)) (fun i => phi (ms_mesh s) i v ^ 2) else 0)%R
  /\ (rsum (nb (ms_mesh s)) (val (ms_evals s)) <= INR (length (filter (fun b => b) (m_region (ms_mesh s)))))%R.
Proof.
  intros s ok HE Hl. set (m := ms_mesh s) in *. set (n := nb m) in *.
  pose proof ok as (wf & ob & _ & _ & _ & Hev & _ & Ho). fold m n in Hev, Ho, wf, ob. rewrite Hl in Ho.
  assert (E : rsum n (val (ms_evals s)) = rsum (nv m) (fun v => if inside m v then rsum n (fun i => phi m i v ^ 2) else 0)%R).
  { rewrite (rsum_ext n _ (fun p => rsum (nv m) (fun v => if inside m v then slep s p v * slep s p v else 0))%R).
    - rewrite rsum_swap. apply rsum_ext. intros v _. destruct (inside m v); [|apply rsum_zero; reflexivity].
      transitivity (rip n (fun i => phi m i v) (fun i => phi m i v)); [|apply rsum_ext; intros; ring].
      rewrite <- (rparseval n (fun q => val (sfun s q)) Ho (fun i => phi m i v)).
      apply rsum_ext. intros p _. unfold slep. fold m. unfold field. fold n.
      f_equal; apply rsum_ext; intros; ring.
    - intros p Hp. pose proof (C56_concentration s p p ok HE) as CC. fold m in CC. rewrite CC by lia.
      rewrite Nat.eqb_refl. reflexivity. }
  split; [exact E|]. rewrite E.
  assert (B : forall v, v < nv m -> (rsum n (fun i => phi m i v ^ 2) <= 1)%R).
  { intros v Hv. pose proof (rbessel (nv m) n (phi m) ob (fun w => if w =? v then 1 else 0)%R) as B.
    assert (D : forall g, rip (nv m) (fun w => if w =? v then 1 else 0)%R g = g v).
    { intros g. unfold rip. rewrite (rsum_single (nv m) v); [rewrite Nat.eqb_refl; ring|exact Hv|].
      intros w Hw Hne. destruct (Nat.eqb_spec w v); [congruence|ring]. }
    rewrite (D (fun w => if w =? v then 1 else 0)%R), Nat.eqb_refl in B.
    rewrite (rip_ext n _ (fun i => phi m i v) _ (fun i => phi m i v)) in B by (intros; apply D).
    eapply Rle_trans; [|exact B]. right. apply rsum_ext. intros. ring. }
  apply Rle_trans with (rsum (nv m) (fun v => if inside m v then 1 else 0)%R).
  - apply rsum_le. intros v Hv. destruct (inside m v); [apply B, Hv|lra].
  - right. destruct wf as (Hr & _). unfold inside. rewrite <- Hr. clear.
    induction (m_region m) as [|b l IH]; [reflexivity|]. cbn [length].
    rewrite rsum_S_l. cbn [nth]. rewrite IH. cbn [filter]. destruct b; [cbn [length]; rewrite S_INR|]; ring.
Qed.
Print Assumptions C56_trace.

Example C56_instance : val (ms_evals ex_slepian) 0 = 1%R /\ val (ms_evals ex_slepian) 1 = (9/25)%R /\
  slepian_functions_ok ex_slepian /\ slepian_eigen ex_slepian /\ descending (ms_evals ex_slepian) /\
  length (ms_functions ex_slepian) = nb (ms_mesh ex_slepian).
Proof.
  split; [reflexivity|]. split; [reflexivity|]. split; [apply ex_slepian_ok|]. split; [apply ex_slepian_ok|].
  split; [|reflexivity]. intros p q a b Hpq Ha Hb. cbn in Ha, Hb.
  destruct p as [|[|p]], q as [|[|q]]; cbn in Ha, Hb; try lia; try (destruct p; discriminate); try (destruct q; discriminate).
  injection Ha as <-. injection Hb as <-. lra.
Qed.

(** ** C57 denoising *)

(** Entries below the threshold become zero, the others stay. *)
Definition r_thresholded (t : nat -> R) (f g : list R) : Prop :=
  length g = length f /\
  forall v, v < length f -> ((Rabs (val f v) < t v)%R -> val g v = 0%R) /\ ((t v <= Rabs (val f v))%R -> val g v = val f v).

Lemma mesh_threshold_ok f sg n : length sg = length f ->
  exists g, mesh_hard_thresholding f sg n = Ok g /\ r_thresholded (fun v => IZR n * val sg v)%R f g.
Proof.
  intros H. unfold mesh_hard_thresholding. rewrite broadcast_same by (rewrite map_length; lia).
  eexists. split; [reflexivity|].
  rewrite (map_combine_seq (fun x t => if Rltb (Rabs x) t then 0%R else x) 0%R 0%R f (map (Rmult (IZR n)) sg) (length f) eq_refl)
    by (rewrite map_length; exact H).
  split; [rewrite map_length, seq_length; reflexivity|]. intros v Hv. rewrite val_map_seq by exact Hv.
  assert (E : nth v (map (Rmult (IZR n)) sg) 0%R = (IZR n * val sg v)%R).
  { rewrite (nth_indep _ 0%R (IZR n * 0)%R) by (rewrite map_length; lia). rewrite map_nth. reflexivity. }
  rewrite E. fold (val f v). destruct (Rltb (Rabs (val f v)) (IZR n * val sg v)) eqn:L.
  - apply Rltb_spec in L. split; [reflexivity|]. intros. lra.
  - split; [|reflexivity]. intros. apply Rltb_spec in H0. congruence.
Qed.

(** Each row of the caller's array is replaced: field, thresholded field,
    Slepian coefficients again. *)
Theorem C57_thresholding : forall s wav sigma_j n_sigma, slepian_functions_ok s ->
  (forall r, In r wav -> length r = ns s) -> length wav <= length sigma_j ->
  (forall sg, In sg sigma_j -> length sg = nv (ms_mesh s)) ->
  exists wav', slepian_mesh_hard_thresholding s wav sigma_j n_sigma = (wav', Ok tt) /\ length wav' = length wav /\
    forall j r, nth_error wav j = Some r -> exists f g x,
      slepian_mesh_inverse s r = Ok f /\
      r_thresholded (fun v => IZR n_sigma * val (nth j sigma_j []) v)%R f g /\
      slepian_mesh_forward s (of_u g) None = Ok x /\ nth_error wav' j = Some x.
Proof.
  intros s wav sigma n ok Hw Hs Hsg. set (m := ms_mesh s) in *. unfold slepian_mesh_hard_thresholding.
  assert (Row : forall j r, length r = ns s -> j < length sigma -> exists f g x,
     slepian_mesh_inverse s r = Ok f /\ mesh_hard_thresholding f (nth j sigma []) n = Ok g /\
     r_thresholded (fun v => IZR n * val (nth j sigma []) v)%R f g /\
     slepian_mesh_forward s (of_u g) None = Ok x /\ length x = ns s).
  { intros j r Hr Hj. set (f := map (sfield s r) (seq 0 (nv m))).
    assert (Hf : length f = nv m) by (unfold f; rewrite map_length, seq_length; reflexivity).
    assert (Hl : length (nth j sigma []) = length f) by (rewrite Hf; apply Hsg, nth_In, Hj).
    destruct (mesh_threshold_ok f (nth j sigma []) n Hl) as (g & Eg & Hg).
    assert (Hgl : length g = nv m) by (rewrite <- Hf; apply Hg).
    exists f, g, (map (fun p => rip (nv m) (val g) (slep s p)) (seq 0 (ns s))).
    split; [apply slepian_inverse_mesh_ok; [exact ok|lia]|]. split; [exact Eg|]. split; [exact Hg|].
    split; [|rewrite map_length, seq_length; reflexivity].
    unfold slepian_mesh_forward. cbn [of_u mesh_detect_method mg_u_i mg_u mg_mask rbind].
    rewrite <- (N_nat s ok). apply decompose_all_ok; [apply (N_fun s ok)|]. intros p Hp.
    pose proof (N_fun s ok). apply (sphere_ok s ok (of_u g) g p eq_refl Hgl). lia. }
  set (h := fun j r => match slepian_mesh_inverse s r with
     | Ok f => match mesh_hard_thresholding f (nth j sigma []) n with
               | Ok g => match slepian_mesh_forward s (of_u g) None with Ok x => x | Err _ => [] end
               | Err _ => [] end
     | Err _ => [] end).
  destruct (in_place_rows (slepian_mesh_threshold_row s sigma n) 0 h (length wav) 0 wav) as (wav' & E & Hl & H).
  - intros wav' j r Hj Er Er' Hlen. rewrite Nat.add_0_r in *.
    assert (Hr : length r = ns s) by (apply Hw, (nth_error_In _ _ Er)).
    destruct (Row j r Hr ltac:(lia)) as (f & g & x & Ef & Eg & _ & Ex & Hx).
    unfold slepian_mesh_threshold_row. rewrite (np_get_ok wav' j r Er'). cbn [rbind]. rewrite Ef. cbn [rbind].
    unfold np_get. rewrite (nth_error_nth' _ []) by lia. cbn [rbind]. rewrite Eg. cbn [rbind]. rewrite Ex. cbn [rbind].
    unfold np_fill. rewrite Hx, Hr, Nat.eqb_refl. cbn [rbind].
    rewrite np_set_ok by (rewrite Hlen; lia). unfold h. rewrite Ef, Eg, Ex. reflexivity.
  - lia.
  - exists wav'. split; [exact E|]. split; [exact Hl|]. intros j r Er.
    assert (Hj : j < length wav) by (apply nth_error_Some; congruence).
    destruct (Row j r (Hw r (nth_error_In _ _ Er)) ltac:(lia)) as (f & g & x & Ef & Eg & Hg & Ex & _).
    exists f, g, x. split; [exact Ef|]. split; [exact Hg|]. split; [exact Ex|].
    rewrite H, Er, Nat.sub_0_r. cbn [option_map].
    destruct (Nat.leb_spec (0 + 0) j); [|lia]. destruct (Nat.ltb_spec j (0 + length wav + 0)); [|lia]. cbn [andb].
    unfold h. rewrite Ef, Eg, Ex. reflexivity.
Qed.
Print Assumptions C57_thresholding.

(** With thresholds that are not positive nothing changes: unlike on the sphere
    (C22) the transforms of a mesh are exact. *)
Theorem C57_zero_threshold : forall s wav sigma_j n_sigma, slepian_functions_ok s ->
  (forall r, In r wav -> length r = ns s) -> length wav <= length sigma_j ->
  (forall sg, In sg sigma_j -> length sg = nv (ms_mesh s) /\ forall x, In x sg -> (IZR n_sigma * x <= 0)%R) ->
  slepian_mesh_hard_thresholding s wav sigma_j n_sigma = (wav, Ok tt).
Proof.
  intros s wav sigma n ok Hw Hs Hsg.
  destruct (C57_thresholding s wav sigma n ok Hw Hs) as (wav' & E & Hl & H); [intros sg Hin; apply Hsg, Hin|].
  rewrite E. f_equal. apply nth_error_ext. intros j. destruct (nth_error wav j) as [r|] eqn:Er.
  - assert (Hj : j < length wav) by (apply nth_error_Some; congruence).
    assert (Hr : length r = ns s) by (apply Hw, (nth_error_In _ _ Er)).
    destruct (H j r Er) as (f & g & x & Ef & [Hgl Hg] & Ex & ->). f_equal.
    destruct (C28_slepian_round_trip s r ok ltac:(lia)) as (u & Eu & Hu & Ru & _).
    rewrite Ef in Eu. injection Eu as <-.
    assert (g = f) as ->.
    { apply (val_ext g f (length f) Hgl eq_refl). intros v Hv. apply Hg; [exact Hv|].
      apply Rle_trans with 0%R; [|apply Rabs_pos].
      destruct (Hsg (nth j sigma [])) as [Hsl Hx]; [apply nth_In; lia|]. apply Hx. apply nth_In. lia. }
    rewrite Ru in Ex. injection Ex as <-. apply firstn_all2. lia.
  - apply nth_error_None. apply nth_error_None in Er. lia.
Qed.
Print Assumptions C57_zero_threshold.

(** The Slepian noise: white noise on the basis functions, of the strength set
    by the signal, analysed with the Slepian functions. *)
Lemma power_real l : sum_abs2 (map RtoC l) = rsum (length l) (fun i => val l i ^ 2)%R.
Proof.
  rewrite sum_abs2_power. unfold power. rewrite map_length. apply rsum_ext. intros i Hi.
  rewrite (map_nth RtoC l 0%R). unfold val. cbn. ring.
Qed.

Theorem C57_noise : forall normal s signal snr_in, slepian_functions_ok s -> length signal = ns s ->
  exists n_p, create_slepian_mesh_noise normal s signal snr_in = Ok n_p /\ length n_p = ns s /\
    forall p, p < ns s -> val n_p p
      = (sqrt (Rpower 10 (- snr_in / 10) * rsum (ns s) (fun q => val signal q ^ 2) / INR (nb (ms_mesh s)))
         * rsum (nb (ms_mesh s)) (fun i => normal RANDOM_SEED i * val (sfun s p) i))%R.
Proof.
  intros normal s signal snr ok Hsig. set (m := ms_mesh s).
  pose proof (sl_wf s ok) as wf. pose proof (sl_ob s ok) as ob. fold m in wf, ob.
  destruct (C28_slepian_round_trip s signal ok ltac:(lia)) as (u & Eu & Hu & _ & _). fold m in Hu.
  assert (Uv : forall v, v < nv m -> val u v = sfield s signal v).
  { rewrite (slepian_inverse_mesh_ok s ok signal) in Eu by lia. injection Eu as <-. intros v Hv. apply val_map_seq, Hv. }
  set (u_i := map (fun i => rip (nv m) (val u) (phi m i)) (seq 0 (nb m))).
  assert (Hul : length u_i = nb m) by (unfold u_i; rewrite map_length, seq_length; reflexivity).
  assert (P : rsum (nb m) (fun i => val u_i i ^ 2)%R = rsum (ns s) (fun q => val signal q ^ 2)%R).
  { assert (Ui : forall i, i < nb m -> val u_i i = rsum (ns s) (fun p => val signal p * val (sfun s p) i)%R).
    { intros i Hi. unfold u_i. rewrite val_map_seq by exact Hi.
      rewrite (rip_ext (nv m) _ (sfield s signal) _ (phi m i)) by (intros; try reflexivity; apply Uv; assumption).
      unfold sfield. rewrite rip_sum_l. apply rsum_ext. intros p Hp. f_equal.
      apply (field_coefficient m (sfun s p) i ob Hi). }
    transitivity (rip (nb m) (val u_i) (val u_i)); [apply rsum_ext; intros; ring|].
    rewrite (rip_ext (nb m) _ _ _ _ Ui Ui).
    rewrite (rip_comb2 (nb m) (ns s) (fun p => val (sfun s p))); [apply rsum_ext; intros; ring|].
    intros p q Hp Hq. pose proof (N_fun s ok). apply ok; lia. }
  set (sg := compute_sigma_noise (map RtoC u_i) snr None).
  assert (Esg : sg = sqrt (Rpower 10 (- snr / 10) * rsum (ns s) (fun q => val signal q ^ 2) / INR (nb m))%R).
  { unfold sg, compute_sigma_noise, signal_power. cbv zeta. rewrite power_real, map_length, Hul, P. reflexivity. }
  set (n_i := map (fun i => (sg * normal RANDOM_SEED i)%R) (seq 0 (nb m))).
  exists (map (fun p => rip (nb m) (val n_i) (val (sfun s p))) (seq 0 (ns s))).
  split; [|split; [rewrite map_length, seq_length; reflexivity|]].
  - unfold create_slepian_mesh_noise. rewrite Eu. cbn [rbind]. fold m. rewrite (forward_ok m wf u Hu). fold u_i. cbn [rbind].
    rewrite mesh_noise_spec. fold sg. rewrite map_length, Hul. fold n_i. cbn [rbind].
    unfold slepian_mesh_forward. cbn [of_u_i mesh_detect_method mg_u_i mg_u mg_mask rbind].
    rewrite <- (N_nat s ok). apply decompose_all_ok; [apply (N_fun s ok)|]. intros p Hp. pose proof (N_fun s ok).
    apply (harmonic_ok s ok (of_u_i n_i) n_i p eq_refl); [|lia]. unfold n_i. rewrite map_length, seq_length. reflexivity.
  - intros p Hp. rewrite val_map_seq by exact Hp. rewrite <- Esg, <- rsum_scal_l. apply rsum_ext. intros i Hi.
    unfold n_i. rewrite val_map_seq by exact Hi. ring.
Qed.
Print Assumptions C57_noise.

(** Adding noise to a function on a mesh: the coefficients become the sum with
    the noise generated for them, the former ones are kept, and the reported
    ratio is that of their powers in decibel; without noise nothing happens. *)
Theorem C57_add_noise : forall create coefficients noise,
  match noise with
  | None => mesh_add_noise create coefficients None = Ok (coefficients, None, None)
  | Some snr_in => forall n, create coefficients snr_in = Ok n -> length n = length coefficients ->
      exists noisy, mesh_add_noise create coefficients (Some snr_in)
        = Ok (noisy, Some coefficients,
              Some (10 * (ln (rsum (length n) (fun i => val coefficients i ^ 2) / rsum (length n) (fun i => val n i ^ 2)) / ln 10))%R) /\
      length noisy = length coefficients /\
      forall i, i < length coefficients -> val noisy i = (val coefficients i + val n i)%R
  end.
Proof.
  intros create c [snr_in|]; [|reflexivity]. intros n En Hl. unfold mesh_add_noise. rewrite En. cbn [rbind].
  rewrite broadcast_same by (symmetry; exact Hl). cbn [rbind].
  exists (map (fun p => (fst p + snd p)%R) (combine c n)). split; [|split].
  - do 3 f_equal. unfold compute_snr, log10, signal_power.
    assert (P : forall l, sum_abs2 (map RtoC l) = rsum (length l) (fun i => val l i ^ 2)%R).
    { intros l. rewrite sum_abs2_power. unfold power. rewrite map_length. apply rsum_ext. intros i Hi.
      unfold val.
      rewrite (map_nth RtoC). cbn. ring. }
    rewrite !P, Hl. reflexivity.
  - rewrite map_length, combine_length. lia.
  - intros i Hi. unfold val.
    rewrite (nth_indep _ 0%R ((fun p => (fst p + snd p)%R) (0, 0)%R)) by (rewrite map_length, combine_length; lia).
    rewrite (map_nth (fun p => (fst p + snd p)%R)), combine_nth by (symmetry; exact Hl). reflexivity.
Qed.
Print Assumptions C57_add_noise.

(** The harmonic noise of the classes satisfies the hypothesis. *)
Example C57_add_noise_case : forall normal, exists noisy,
  mesh_add_noise (fun u => create_mesh_noise normal (map RtoC u)) [3; 4]%R (Some 0%R) = Ok noisy /\
  length (fst (fst noisy)) = 2.
Proof.
  intros normal. destruct (C21_mesh_noise normal (map RtoC [3; 4]%R) 0) as (n & E & Hl & _).
  destruct (C57_add_noise (fun u => create_mesh_noise normal (map RtoC u)) [3; 4]%R (Some 0%R) n E Hl) as (noisy & En & Hn & _).
  rewrite En. eexists. split; [reflexivity|exact Hn].
Qed.

(** The computed noise levels. *)
Lemma mesh_sigma_ok s signal snr ws : slepian_functions_ok s -> length signal = ns s -> (forall r, In r ws -> ns s <= length r) ->
  exists sj, compute_slepian_mesh_sigma_j s signal ws snr = Ok sj /\ length sj = length ws /\
    (forall l, In l sj -> length l = nv (ms_mesh s)) /\
    forall j v, j < length ws -> v < nv (ms_mesh s) -> val (nth j sj []) v
      = (sqrt (Rpower 10 (- snr / 10) * rsum (ns s) (fun q => val signal q ^ 2) / INR (nb (ms_mesh s)))
         * sqrt (rsum (ns s) (fun p => (val (nth j ws []) p * slep s p v) ^ 2)))%R.
Proof.
  intros ok Hsig Hws. set (m := ms_mesh s). set (N := ns s) in *.
  set (sg := sqrt (Rpower 10 (- snr / 10) * rsum N (fun q => val signal q ^ 2) / INR (nb m))%R).
  assert (Sg : compute_sigma_noise (map RtoC signal) snr (Some (length (ms_evals s))) = sg).
  { unfold compute_sigma_noise, signal_power. cbv zeta. rewrite power_real, Hsig.
    destruct ok as (_ & _ & _ & _ & _ & -> & _). reflexivity. }
  unfold compute_slepian_mesh_sigma_j. rewrite Sg, (pixel_ok s ok). cbn [rbind]. fold m N.
  set (rows := map (fun p => map (slep s p) (seq 0 (nv m))) (seq 0 N)).
  assert (Hrows : length rows = N) by (unfold rows; rewrite map_length, seq_length; reflexivity).
  set (h := fun psi : list R => map (fun w => (sg * sqrt w)%R) (rsum_axis0 (nv m)
      (map (fun i => map (fun x => (Rabs (nth i (firstn N psi) 0) ^ 2 * Rabs x ^ 2)%R) (nth i rows [])) (seq 0 N)))).
  exists (map h ws). split; [|split; [apply map_length|split]].
  - apply rmap_ok. intros x Hx.
    rewrite py_prefix_nat by (rewrite <- (N_nat s ok); lia). fold (ns s). fold N.
    assert (Hlx : length (firstn N x) = N) by (rewrite firstn_length; specialize (Hws x Hx); lia).
    rewrite broadcast_same by lia. cbn [rbind].
    rewrite (map_combine_seq (fun (c : R) (row : list R) => map (fun x => (Rabs c ^ 2 * Rabs x ^ 2)%R) row) 0%R [] _ rows N) by assumption.
    reflexivity.
  - intros l Hl. apply in_map_iff in Hl. destruct Hl as (x & <- & _). unfold h, rsum_axis0. rewrite !map_length, seq_length. reflexivity.
  - intros j v Hj Hv. set (psi := nth j ws []). assert (Hpsi : N <= length psi) by (apply Hws, nth_In, Hj).
    rewrite (nth_indep _ [] (h [])) by (rewrite map_length; exact Hj). rewrite (map_nth h). fold psi. unfold h, val at 1.
    unfold rsum_axis0. rewrite map_map, nth_map_seq by exact Hv. do 2 f_equal. rewrite map_map, rlsum_map_seq.
    apply rsum_ext. intros p Hp. unfold rows. rewrite nth_map_seq by exact Hp. rewrite map_map, nth_map_seq by exact Hv.
    rewrite !pow2_abs. rewrite Rpow_mult_distr. f_equal. unfold val.
    rewrite <- (firstn_skipn N psi) at 2. rewrite app_nth1 by (rewrite firstn_length; lia). reflexivity.
Qed.

(** The computed noise level of a scale is the standard deviation, at every
    vertex, of the field of the wavelet coefficients of that noise. *)
Theorem C57_sigma : forall (E : ensemble) s signal snr_in wavelets sigma_j
    (n_p : (nat -> R) -> list R) (W : (nat -> R) -> list R) (f : (nat -> R) -> list R) j v,
  slepian_functions_ok s -> length signal = ns s -> (forall r, In r wavelets -> ns s <= length r) ->
  j < length wavelets -> v < nv (ms_mesh s) -> decorrelated E (nb (ms_mesh s)) ->
  compute_slepian_mesh_sigma_j s signal wavelets snr_in = Ok sigma_j ->
  (forall X, create_slepian_mesh_noise (fun _ => X) s signal snr_in = Ok (n_p X)) ->
  (forall X, length (W X) = ns s /\ forall p, p < ns s -> val (W X) p = (val (nth j wavelets []) p * val (n_p X) p)%R) ->
  (forall X, slepian_mesh_inverse s (W X) = Ok (f X)) ->
  (mean E (fun X => val (f X) v ^ 2) = val (nth j sigma_j []) v ^ 2)%R /\ (0 <= val (nth j sigma_j []) v)%R.
Proof.
  intros E s signal snr ws sj n_p W f j v ok Hsig Hws Hj Hv HE Hs Hn HW Hf.
  set (m := ms_mesh s) in *. set (psi := nth j ws []) in *. set (N := ns s) in *.
  set (sg := sqrt (Rpower 10 (- snr / 10) * rsum N (fun q => val signal q ^ 2) / INR (nb m))%R).
  (* the field *)
  set (b := fun p => (sg * (val psi p * slep s p v))%R).
  assert (F : forall X, val (f X) v = rsum (nb m) (fun i => rsum N (fun p => b p * val (sfun s p) i) * X i)%R).
  { intros X. specialize (HW X). destruct HW as [Hl HWp]. pose proof (Hf X) as HfX.
    rewrite (slepian_inverse_mesh_ok s ok) in HfX by (fold N; lia). injection HfX as <-.
    fold m. rewrite val_map_seq by exact Hv. unfold sfield. fold N.
    destruct (C57_noise (fun _ => X) s signal snr ok Hsig) as (n' & En & _ & Hp). rewrite Hn in En. injection En as <-.
    transitivity (rsum N (fun p => rsum (nb m) (fun i => b p * (X i * val (sfun s p) i)))%R).
    - apply rsum_ext. intros p Hpn. rewrite HWp by exact Hpn. rewrite Hp by exact Hpn. fold m N sg.
      rewrite rsum_scal_l. unfold b. ring.
    - rewrite rsum_swap. apply rsum_ext. intros i _. rewrite <- rsum_scal_r. apply rsum_ext. intros. ring. }
  rewrite (mean_ext E _ (fun X => (rsum (nb m) (fun i => rsum N (fun p => b p * val (sfun s p) i) * X i) ^ 2)%R))
    by (intros X; rewrite F; reflexivity).
  rewrite mean_square by exact HE.
  assert (M : rsum (nb m) (fun i => rsum N (fun p => b p * val (sfun s p) i) ^ 2)%R = rsum N (fun p => b p ^ 2)%R).
  { transitivity (rip (nb m) (fun i => rsum N (fun p => b p * val (sfun s p) i))%R (fun i => rsum N (fun p => b p * val (sfun s p) i))%R);
      [apply rsum_ext; intros; ring|].
    rewrite (rip_comb2 (nb m) N (fun p => val (sfun s p))); [apply rsum_ext; intros; ring|].
    intros p q Hp Hq. pose proof (N_fun s ok). apply ok; fold N in H; lia. }
  rewrite M.
  (* the computed level *)
  destruct (mesh_sigma_ok s signal snr ws ok Hsig Hws) as (sj' & Es & _ & _ & Vs). rewrite Hs in Es. injection Es as <-.
  pose proof (Vs j v Hj Hv) as V. fold m N sg psi in V.
  assert (Pos : (0 <= rsum N (fun p => (val psi p * slep s p v) ^ 2))%R) by (apply rsum_nonneg; intros; apply pow2_ge_0).
  rewrite V. split.
  - rewrite Rpow_mult_distr, pow2_sqrt by exact Pos. rewrite <- rsum_scal_l. apply rsum_ext. intros. unfold b. ring.
  - apply Rmult_le_pos; [apply sqrt_pos|apply sqrt_pos].
Qed.
Print Assumptions C57_sigma.

Example C57_instance : exists sigma_j (n_p W f : (nat -> R) -> list R),
  decorrelated (spikes (nb ex_mesh)) (nb ex_mesh) /\
  compute_slepian_mesh_sigma_j ex_slepian [5%R] [[1%R]; [2%R]] 10 = Ok sigma_j /\
  (forall X, create_slepian_mesh_noise (fun _ => X) ex_slepian [5%R] 10 = Ok (n_p X)) /\
  (forall X, length (W X) = ns ex_slepian /\
     forall p, p < ns ex_slepian -> val (W X) p = (val (nth 1 [[1%R]; [2%R]] []) p * val (n_p X) p)%R) /\
  (forall X, slepian_mesh_inverse ex_slepian (W X) = Ok (f X)).
Proof.
  destruct ex_slepian_ok as (ok & _ & _).
  eexists. exists (fun X => the [] (create_slepian_mesh_noise (fun _ => X) ex_slepian [5%R] 10)).
  exists (fun X => [(2 * val (the [] (create_slepian_mesh_noise (fun _ => X) ex_slepian [5%R] 10)) 0)%R]).
  exists (fun X => the [] (slepian_mesh_inverse ex_slepian
     [(2 * val (the [] (create_slepian_mesh_noise (fun _ => X) ex_slepian [5%R] 10)) 0)%R])).
  split; [apply spikes_decorrelated; cbn; lia|]. split; [reflexivity|].
  split; [|split].
  - intros X. destruct (C57_noise (fun _ => X) ex_slepian [5%R] 10 ok eq_refl) as (n & E & _). rewrite E. reflexivity.
  - intros X. split; [reflexivity|]. intros [|p] Hp; [reflexivity|]. unfold ns in Hp. cbn in Hp. lia.
  - intros X. rewrite (slepian_inverse_mesh_ok ex_slepian ok) by (unfold ns; cbn; lia). reflexivity.
Qed.

(** A field value of 3 under a threshold of 4 goes, one of 5 stays. *)
Example C57_threshold_instance :
  slepian_mesh_hard_thresholding ex_slepian [[3%R]; [5%R]] [[4; 4; 4]; [4; 4; 4]]%R 1 = ([[0%R]; [5%R]], Ok tt).
Proof.
  destruct ex_slepian_ok as (ok & _ & _).
  assert (S0 : forall c v, v < 3 -> sfield ex_slepian [c] v = if v =? 1 then c else 0%R).
  { intros c [|[|[|v]]] Hv; try lia; unfold sfield, slep, field, ns, nb, val, phi, sfun; change (Z.to_nat (ms_N ex_slepian)) with 1; cbn; field. }
  assert (Fw : forall g, length g = 3 -> slepian_mesh_forward ex_slepian (of_u g) None = Ok [val g 1]).
  { intros g Hg. unfold slepian_mesh_forward. cbn [of_u mesh_detect_method mg_u_i mg_u mg_mask rbind].
    change (ms_N ex_slepian) with (Z.of_nat 1). rewrite (decompose_all_ok ex_slepian _ _ 1 (fun _ => val g 1)); [reflexivity|cbn; lia|].
    intros [|p] Hp; [|lia]. rewrite (sphere_ok ex_slepian ok (of_u g) g 0 eq_refl Hg) by (cbn; lia). f_equal.
    unfold rip, nv, slep, field, nb, val, phi, sfun. cbn. field. }
  assert (Row : forall c t, slepian_mesh_inverse ex_slepian [c] = Ok [0; c; 0]%R /\
     mesh_hard_thresholding [0; c; 0]%R [t; t; t]%R 1 = Ok [if Rltb (Rabs 0) (1 * t) then 0%R else 0%R;
        if Rltb (Rabs c) (1 * t) then 0%R else c; if Rltb (Rabs 0) (1 * t) then 0%R else 0%R]).
  { intros c t. split; [|reflexivity]. rewrite (slepian_inverse_mesh_ok ex_slepian ok) by (unfold ns; cbn; lia).
    cbn [nv ex_slepian ms_mesh ex_mesh m_vertices length seq map]. rewrite !S0 by lia. reflexivity. }
  unfold slepian_mesh_hard_thresholding. cbn [length seq in_place].
  unfold slepian_mesh_threshold_row. cbn [np_get nth_error rbind].
  rewrite (proj1 (Row 3%R 4%R)). cbn [rbind]. rewrite (proj2 (Row 3%R 4%R)). cbn [rbind]. rewrite Fw by reflexivity.
  cbn [rbind np_fill length Nat.eqb np_set Nat.ltb Nat.leb set_nth np_get nth_error].
  rewrite (proj1 (Row 5%R 4%R)). cbn [rbind]. rewrite (proj2 (Row 5%R 4%R)). cbn [rbind]. rewrite Fw by reflexivity.
  cbn [rbind np_fill length Nat.eqb np_set Nat.ltb Nat.leb set_nth val nth].
  assert (Rltb (Rabs 3) (1 * 4) = true) as -> by (apply Rltb_spec; rewrite Rabs_pos_eq; lra).
  destruct (Rltb (Rabs 5) (1 * 4)) eqn:L; [|reflexivity]. apply Rltb_spec in L. rewrite Rabs_pos_eq in L by lra. lra.
Qed.

(** ** C58 rank selection *)

Definition unit_vector (n k : nat) : list R := map (fun i => if i =? k then 1%R else 0%R) (seq 0 n).

(** The rank that is used: the keyword, or the only extra argument. *)
Definition used_rank (rank : Z) (extra_args : option (list Z)) : Z :=
  match extra_args with Some [r] => r | _ => rank end.

Lemma rank_accepted rank extra k : (0 <= rank)%Z -> used_rank rank extra = Z.of_nat k ->
  (extra = None \/ exists r, extra = Some [r]) -> mesh_rank_setup_args rank extra = Ok (Z.of_nat k).
Proof.
  intros H E [->|[r ->]]; cbn in *; [subst; reflexivity|]. subst r. unfold check_mesh_rank.
  destruct (Z.ltb_spec (Z.of_nat k) 0); [lia|reflexivity].
Qed.

Theorem C58_basis_function : forall m rank extra_args k, well_formed m -> orthonormal_basis m ->
  (0 <= rank)%Z -> (extra_args = None \/ exists r, extra_args = Some [r]) ->
  used_rank rank extra_args = Z.of_nat k -> k < nb m ->
  mesh_basis_function_coefficients m rank extra_args = Ok (unit_vector (nb m) k).
Proof.
  intros m rank extra k wf ob Hr Hx Hu Hk. pose proof wf as (_ & He & _ & Hrow). unfold mesh_basis_function_coefficients.
  unfold check_mesh_rank at 1. destruct (Z.ltb_spec rank 0); [lia|]. cbn [rbind].
  assert (V : mesh_basis_validate_rank m extra = Ok tt).
  { destruct Hx as [->|[r ->]]; [reflexivity|]. cbn in Hu |- *. destruct (Z.ltb_spec (Z.of_nat (length (m_evals m))) r); [lia|reflexivity]. }
  rewrite V. cbn [rbind]. rewrite (rank_accepted rank extra k Hr Hu Hx). cbn [rbind].
  rewrite (py_index_nat (m_evals m) k 0%R) by lia. cbn [rbind]. rewrite (py_index_nat (m_basis m) k []) by exact Hk. cbn [rbind].
  rewrite (forward_ok m wf) by (apply row_length; assumption). f_equal. apply map_ext_in. intros i Hi. apply in_seq in Hi.
  rewrite Nat.eqb_sym. apply (ob k i); lia.
Qed.
Print Assumptions C58_basis_function.

(** The limit itself passes the check ("less than or equal to") and then fails
    with an IndexError; above it the error is the intended one. *)
Theorem C58_basis_limit : forall m rank r, well_formed m -> (0 <= rank)%Z -> (Z.of_nat (nb m) <= r)%Z ->
  mesh_basis_function_coefficients m rank (Some [r])
  = Err (if (r =? Z.of_nat (nb m))%Z then IndexError else ValueError).
Proof.
  intros m rank r wf Hr H. pose proof wf as (_ & He & _). unfold mesh_basis_function_coefficients, check_mesh_rank at 1.
  destruct (Z.ltb_spec rank 0); [lia|]. cbn [rbind mesh_basis_validate_rank]. rewrite He.
  destruct (Z.eqb_spec r (Z.of_nat (nb m))) as [->|Hne].
  - destruct (Z.ltb_spec (Z.of_nat (nb m)) (Z.of_nat (nb m))); [lia|]. cbn [rbind mesh_rank_setup_args]. unfold check_mesh_rank.
    destruct (Z.ltb_spec (Z.of_nat (nb m)) 0); [lia|]. cbn [rbind]. rewrite py_index_out by lia. reflexivity.
  - destruct (Z.ltb_spec (Z.of_nat (nb m)) r); [reflexivity|lia].
Qed.
Print Assumptions C58_basis_limit.

(** The keyword is not checked against the limit at all. *)
Theorem C58_basis_keyword : forall m rank, well_formed m -> (Z.of_nat (nb m) <= rank)%Z ->
  mesh_basis_function_coefficients m rank None = Err IndexError.
Proof.
  intros m rank wf H. pose proof wf as (_ & He & _). unfold mesh_basis_function_coefficients, check_mesh_rank at 1.
  destruct (Z.ltb_spec rank 0); [lia|]. cbn [rbind mesh_basis_validate_rank mesh_rank_setup_args].
  rewrite py_index_out by lia. reflexivity.
Qed.
Print Assumptions C58_basis_keyword.

(** Negative ranks and wrong numbers of extra arguments. *)
Theorem C58_rejected : forall m s rank extra_args,
  (rank < 0)%Z \/ (exists r, extra_args = Some [r] /\ (r < 0)%Z) \/ (exists r r' l, extra_args = Some (r :: r' :: l)) ->
  mesh_basis_function_coefficients m rank extra_args = Err ValueError /\
  mesh_slepian_function_coefficients s rank extra_args = Err ValueError.
Proof.
  intros m s rank extra H. unfold mesh_basis_function_coefficients, mesh_slepian_function_coefficients, check_mesh_rank.
  destruct (Z.ltb_spec rank 0) as [L|L]; [split; reflexivity|]. cbn [rbind].
  destruct H as [H|[(r & -> & Hr)|(r & r' & l & ->)]]; [lia| |].
  - cbn [mesh_basis_validate_rank mesh_rank_setup_args]. unfold check_mesh_rank.
    destruct (Z.ltb_spec r 0); [|lia]. destruct (Z.ltb_spec (Z.of_nat (length (m_evals m))) r); [lia|]. split; reflexivity.
  - cbn [mesh_basis_validate_rank mesh_rank_setup_args].
    destruct (Z.ltb_spec (Z.of_nat (length (m_evals m))) r); split; reflexivity.
Qed.
Print Assumptions C58_rejected.

(** Slepian functions: a unit vector below the Shannon number, zeros from there
    to the number of functions held, IndexError beyond.  As only [N] functions
    are cached, the outcome for ranks from [N] depends on the cache. *)
Theorem C58_slepian_function : forall s rank extra_args k, slepian_functions_ok s ->
  (0 <= rank)%Z -> (extra_args = None \/ exists r, extra_args = Some [r]) ->
  used_rank rank extra_args = Z.of_nat k ->
  mesh_slepian_function_coefficients s rank extra_args
  = if k <? length (ms_functions s) then Ok (unit_vector (ns s) k) else Err IndexError.
Proof.
  intros s rank extra k ok Hr Hx Hu. pose proof ok as (_ & _ & _ & HN & Hl & He & _ & Ho).
  unfold mesh_slepian_function_coefficients, check_mesh_rank at 1.
  destruct (Z.ltb_spec rank 0); [lia|]. cbn [rbind]. rewrite (rank_accepted rank extra k Hr Hu Hx). cbn [rbind].
  destruct (Nat.ltb_spec k (length (ms_functions s))) as [L|L].
  - rewrite (py_index_nat (ms_evals s) k 0%R) by lia. cbn [rbind]. rewrite (py_index_nat (ms_functions s) k []) by exact L. cbn [rbind].
    unfold slepian_mesh_forward. cbn [of_u_i mesh_detect_method mg_u_i mg_u mg_mask rbind].
    rewrite <- (N_nat s ok). apply decompose_all_ok; [exact HN|]. intros p Hp.
    rewrite (harmonic_ok s ok (of_u_i (nth k (ms_functions s) [])) (sfun s k) p eq_refl) by (first [lia|apply (sfun_length s ok k L)]).
    f_equal. rewrite Ho by lia. rewrite Nat.eqb_sym. reflexivity.
  - destruct (le_lt_dec (length (ms_evals s)) k) as [L'|L'].
    + rewrite py_index_out by lia. reflexivity.
    + rewrite (py_index_nat (ms_evals s) k 0%R) by lia. cbn [rbind]. rewrite py_index_out by lia. reflexivity.
Qed.
Print Assumptions C58_slepian_function.

(** The noise field of a mesh cannot be built: the class it needs is looked up
    in a module that does not define it. *)
Theorem C58_noise_field_refuted : forall normal normals m SNR,
  mesh_noise_field_coefficients normal normals m SNR = Err AttributeError.
Proof. reflexivity. Qed.
Print Assumptions C58_noise_field_refuted.

(** The Slepian coefficients of the normals are those of the whole field: the
    region plays no role in them. *)
Theorem C58_slepian_field : forall normals s, slepian_functions_ok s -> length (normals (ms_mesh s)) = nv (ms_mesh s) ->
  exists f_p, mesh_slepian_field_coefficients normals s = Ok f_p /\ length f_p = ns s /\
    forall p, p < ns s -> val f_p p = rip (nv (ms_mesh s)) (val (normals (ms_mesh s))) (slep s p).
Proof.
  intros normals s ok Hl. set (m := ms_mesh s) in *. pose proof (sl_wf s ok) as wf. fold m in wf. pose proof (N_fun s ok) as HN.
  set (u_i := map (fun i => rip (nv m) (val (normals m)) (phi m i)) (seq 0 (nb m))).
  exists (map (fun p => rip (nb m) (val u_i) (val (sfun s p))) (seq 0 (ns s))).
  unfold mesh_slepian_field_coefficients, mesh_field_coefficients. fold m. rewrite (forward_ok m wf _ Hl). fold u_i. cbn [rbind].
  split; [|split; [rewrite map_length, seq_length; reflexivity|]].
  - unfold slepian_mesh_forward. cbn [of_u_i mesh_detect_method mg_u_i mg_u mg_mask rbind].
    rewrite <- (N_nat s ok). apply decompose_all_ok; [exact HN|]. intros p Hp.
    apply (harmonic_ok s ok (of_u_i u_i) u_i p eq_refl); [|lia]. unfold u_i. rewrite map_length, seq_length. reflexivity.
  - intros p Hp. rewrite val_map_seq by exact Hp. rewrite (rip_comm (nv m)). unfold slep. fold m. unfold field.
    rewrite rip_sum_l. rewrite rip_comm. apply rsum_ext. intros i Hi. unfold u_i. rewrite val_map_seq by exact Hi.
    rewrite (rip_comm (nv m)). reflexivity.
Qed.
Print Assumptions C58_slepian_field.

Example C58_instances :
  mesh_basis_function_coefficients ex_mesh 0 (Some [1%Z]) = Ok [0; 1]%R /\
  mesh_basis_function_coefficients ex_mesh 0 (Some [2%Z]) = Err IndexError /\
  mesh_basis_function_coefficients ex_mesh 0 (Some [3%Z]) = Err ValueError /\
  mesh_slepian_function_coefficients ex_slepian 0 None = Ok [1]%R /\
  mesh_slepian_function_coefficients ex_slepian 1 None = Ok [0]%R /\
  mesh_slepian_function_coefficients
    {| ms_mesh := ex_mesh; ms_N := 1; ms_evals := [1; 9/25]%R; ms_functions := [[0; 1]]%R |} 1 None = Err IndexError.
Proof.
  destruct ex_mesh_ok as [wf ob]. destruct ex_slepian_ok as (ok & _).
  split; [apply (C58_basis_function ex_mesh 0 (Some [1%Z]) 1 wf ob (Z.le_refl 0)); [right; eexists; reflexivity|reflexivity|unfold nb; cbn; lia]|].
  split; [reflexivity|]. split; [reflexivity|].
  split; [apply (C58_slepian_function ex_slepian 0 None 0 ok); [lia|left; reflexivity|reflexivity]|].
  split; [apply (C58_slepian_function ex_slepian 1 None 1 ok); [lia|left; reflexivity|reflexivity]|]. reflexivity.
Qed.
