(** * C75, C76, C77: what the remaining figures of the examples folder show. *)
From Coq Require Import List ZArith Arith Bool Reals Lia Lra String Sorting.Permutation Sorting.Sorted.
From Coquelicot Require Import Coquelicot.
From Verif Require Import Base ListLemmas RSum CSum PyNum Numpy Index IndexProofs Region RegionProofs PyNumProofs Mask Eigen SpecEigen EigenProofs SelectProofs Cache Quadrature Integration
  Transform QuadratureProofs SpecTransform TransformProofs Functions Noise Convolution ConvolutionProofs Wavelet Plot
  SpecLatLon LatLonProofs SpecConcentration SpecHarmonics SpecWignerD WignerDProofs MotionProofs PolarEigenProofs
  PropEigen PropFunctions PropConvolution PropTransform PropWavelet SpecField OrthoProofs ConcentrationProofs PropConcentration PropWignerD PropSpectral Figures FiguresProofs.
Import ListNotations.
Local Open Scope nat_scope.
Local Open Scope list_scope.

(** ** C75: Slepian functions of a polar cap along a meridian *)
(** The resolution of a figure of band limit [L], and the harmonics at its samples. *)
Definition figure_resolution (L : nat) : nat := Z.to_nat (calc_plot_resolution (Z.of_nat L)).
Definition harmonic_at (M i k : nat) : C :=
  ylm_number i (PI * INR (k / (2 * M)) / INR M) (PI * INR (k mod (2 * M)) / INR M).

Lemma resolution_ge L : L <= figure_resolution L.
Proof.
  unfold figure_resolution, calc_plot_resolution. destruct (find _ res_dict) as [[a b]|] eqn:E; [|lia].
  apply find_some in E. destruct E as [E _]. cbn [snd]. assert (1 <= 2 ^ b)%Z.
  { cbn in E. repeat (destruct E as [E|E]; [injection E as <- <-; cbn; lia|]). destruct E. }
  nia.
Qed.

(** The two curves together show the Slepian function at longitude 0 against the
    colatitude in degrees, at all rows of the grid; the first ends where the cap
    ends; the number beside them is the eigenvalue of the function. *)
Theorem C75_meridian : forall inverse evals rows L theta_max sign rank, 1 <= L ->
  rank < List.length evals -> rank < List.length rows -> List.length (nth rank rows []) = L * L ->
  synthesis (figure_resolution L) (harmonic_at (figure_resolution L)) inverse ->
  exists inside outside,
    meridian_plot inverse evals rows L theta_max sign rank = Ok (inside, outside, nth rank evals 0%R) /\
    inside ++ outside =
      map (fun t => let theta := (PI * INR t / INR (figure_resolution L))%R in
                    (theta * 180 / PI, IZR sign * Re (row_function L rows rank theta 0))%R)
          (seq 0 (figure_resolution L + 1)) /\
    (forall x y, In (x, y) inside -> (x < IZR theta_max)%R) /\
    (forall x y, In (x, y) outside -> (IZR theta_max <= x)%R).
Proof.
  intros inverse evals rows L theta_max sign rank HL He Hr Hv HY.
  pose proof (resolution_ge L) as HM. unfold meridian_plot. fold (figure_resolution L).
  set (M := figure_resolution L) in *. set (x := np_linspace 0 (rad2deg PI) (M + 1)).
  set (i := List.length (filter (fun t => Rltb t (IZR theta_max)) x)).
  assert (PM : (0 < INR M)%R) by (apply lt_0_INR; lia). pose proof PI_RGT_0 as PP.
  unfold np_get at 1. rewrite (nth_error_nth' rows [] Hr). cbn [rbind].
  unfold np_get at 1. rewrite (nth_error_nth' evals 0%R He). cbn [rbind].
  set (v := nth rank rows []) in *. set (flm := map (fun z => Cmult z (RtoC (IZR sign))) v).
  assert (Lf : List.length flm = L * L) by (unfold flm; rewrite map_length; exact Hv).
  destruct (C31_samples inverse L M (harmonic_at M) flm Lf HM) as (f & Ef & Lenf & Hf).
  { apply HY. rewrite app_length, repeat_length, Lf. assert (L * L <= M * M) by nia. lia. }
  rewrite Ef. cbn [rbind].
  assert (Ex : x = map (fun t => (PI * INR t / INR M * 180 / PI)%R) (seq 0 (M + 1))).
  { unfold x, np_linspace, rad2deg. apply map_ext. intros k. replace (M + 1 - 1) with M by lia. field. split; lra. }
  assert (Ec : map Re (field_column M 0 f) = map (fun t => (IZR sign * Re (row_function L rows rank (PI * INR t / INR M) 0))%R) (seq 0 (M + 1))).
  { unfold field_column, n_theta, n_phi. rewrite map_map. apply map_ext_in. intros t Ht. apply in_seq in Ht.
    assert (B : t * (2 * M) + 0 < samples M) by (unfold samples, n_theta, n_phi; nia).
    rewrite Hf by exact B. unfold row_function, expansion. fold v.
    rewrite (csum_ext (L * L) _ (fun j => Cmult (RtoC (IZR sign)) (Cmult (nth j v (RtoC 0)) (ylm_number j (PI * INR t / INR M) 0)))).
    - rewrite csum_scal_l. cbn [Re Cmult RtoC fst snd]. unfold Re. ring.
    - intros j Hj. unfold harmonic_at. rewrite Nat.add_0_r, Nat.div_mul, Nat.mod_mul by lia. cbn [INR].
      replace (PI * 0 / INR M)%R with 0%R by (field; lra). unfold flm.
      rewrite (nth_indep _ (RtoC 0) (Cmult (RtoC 0) (RtoC (IZR sign)))) by (rewrite map_length, Hv; exact Hj).
      rewrite (map_nth (fun z => Cmult z (RtoC (IZR sign)))). ring. }
  assert (Lx : List.length x = M + 1) by (rewrite Ex, map_length, seq_length; reflexivity).
  assert (Lc : List.length (map Re (field_column M 0 f)) = M + 1) by (rewrite Ec, map_length, seq_length; reflexivity).
  assert (SS : StronglySorted Rlt x).
  { rewrite Ex. apply (sorted_map_seq (fun t => (PI * INR t / INR M * 180 / PI)%R)). intros a b Hab. apply lt_INR in Hab.
    replace (PI * INR a / INR M * 180 / PI)%R with (INR a * (180 / INR M))%R by (field; lra).
    replace (PI * INR b / INR M * 180 / PI)%R with (INR b * (180 / INR M))%R by (field; lra).
    apply Rmult_lt_compat_r; [apply Rdiv_lt_0_compat; lra|exact Hab]. }
  destruct (below_cut x (IZR theta_max) SS) as (Hi & B1 & B2). fold i in Hi, B1, B2.
  set (c := map Re (field_column M 0 f)) in *.
  rewrite points_ok by (rewrite !firstn_length, Lx, Lc; reflexivity). cbn [rbind].
  rewrite points_ok by (rewrite !skipn_length, Lx, Lc; reflexivity). cbn [rbind].
  exists (combine (firstn i x) (firstn i c)), (combine (skipn i x) (skipn i c)). split; [reflexivity|]. split; [|split].
  - rewrite <- combine_app_len by (rewrite !firstn_length, Lx, Lc; reflexivity). rewrite !firstn_skipn.
    rewrite Ex, Ec, combine_map2. reflexivity.
  - intros a b Hab. apply in_combine_l in Hab. rewrite Forall_forall in B1. exact (B1 a Hab).
  - intros a b Hab. apply in_combine_l in Hab. rewrite Forall_forall in B2. exact (B2 a Hab).
Qed.
Print Assumptions C75_meridian.

(** On that meridian the harmonics are real. *)
Lemma number_meridian i t : Im (ylm_number i t 0) = 0%R.
Proof.
  unfold ylm_number, ylm, spherical_harmonic. destruct (0 <=? _)%Z; rewrite Rmult_0_r, expi_0; cbn; ring.
Qed.

Lemma Im_csum n f : Im (csum n f) = rsum n (fun i => Im (f i)).
Proof. induction n as [|n IH]; cbn [csum rsum]; [reflexivity|]. rewrite <- IH. reflexivity. Qed.
Lemma Re_csum n f : Re (csum n f) = rsum n (fun i => Re (f i)).
Proof. induction n as [|n IH]; cbn [csum rsum]; [reflexivity|]. rewrite <- IH. reflexivity. Qed.

(** Nothing is lost by drawing the real part: for the orders that are drawn the
    function is real there.  (Functions of negative order are imaginary.) *)
Theorem C75_real_part : forall argsort eigh Dm L m evals rows, argsort_ok argsort -> Z.abs_nat m < L ->
  (let n := L - Z.abs_nat m in
   eigen_r n (Dm (Z.abs_nat m)) (fst (eigh n (Dm (Z.abs_nat m)))) (snd (eigh n (Dm (Z.abs_nat m))))) ->
  solve_order argsort eigh Dm L m = Ok (evals, rows) ->
  forall rank theta, rank < L - Z.abs_nat m ->
    ((0 <= m)%Z -> Im (row_function L rows rank theta 0) = 0%R) /\
    ((m < 0)%Z -> Re (row_function L rows rank theta 0) = 0%R).
Proof.
  intros argsort eigh Dm L m evals rows HA Hm HE E rank theta Hr.
  destruct (C17_one_order argsort HA eigh Dm L m Hm HE) as (ev & rw & E' & Lr & _ & _ & _ & _ & H).
  rewrite E in E'. injection E' as <- <-.
  destruct (H rank (nth rank rows [])) as (Hl & Hz & _ & k & u & c & _ & _ & Hc & Hu).
  { apply nth_error_nth'. lia. }
  assert (V : forall i, i < L * L -> exists r : R, nth i (nth rank rows []) (RtoC 0) = Cmult c (RtoC r)).
  { intros i Hi. destruct (Z.eq_dec (snd (ind2elm i)) m) as [Em|Em].
    - pose proof (ind2elm_lt L i Hi) as A. pose proof (ind2elm_range i) as B. pose proof (elm2ind_ind2elm i) as D.
      destruct (ind2elm i) as [el m'] eqn:Ei. cbn [fst snd] in *. subst m'. exists (nth (el - Z.abs_nat m) u 0%R).
      rewrite <- D. apply Hu. lia.
    - exists 0%R. rewrite Hz by assumption. apply C_ext; cbn; ring. }
  unfold row_function, expansion. split; intros Sm.
  - rewrite Im_csum. apply rsum_zero. intros i Hi. destruct (V i Hi) as [r ->]. pose proof (number_meridian i theta) as N.
    assert (c = RtoC 1 \/ c = RtoC (-1)) as Hc' by (destruct (Z.ltb_spec m 0); [lia|exact Hc]).
    destruct Hc' as [-> | ->]; cbn -[ylm_number]; unfold Im in N; rewrite N; ring.
  - rewrite Re_csum. apply rsum_zero. intros i Hi. destruct (V i Hi) as [r ->]. pose proof (number_meridian i theta) as N.
    assert (c = Ci \/ c = Copp Ci) as Hc' by (destruct (Z.ltb_spec m 0); [exact Hc|lia]).
    destruct Hc' as [-> | ->]; cbn -[ylm_number]; unfold Im in N; rewrite N; ring.
Qed.
Print Assumptions C75_real_part.

(** The subscript in the figure is the place of the function among those of all
    orders: the file is the one the solver writes, the [rank]-th function of order
    [m] has [rank] functions of its order before it, the two eigenvalues agree, and
    if those of the order differ the functions are the same. *)
Theorem C75_rank : forall argsort eigh Dm L theta_max m rank fetch name area evals rows orders evals_m rows_m,
  argsort_ok argsort -> 1 <= L -> (0 < theta_max < 180)%Z ->
  (forall a, a < L -> eigen_r (L - a) (Dm a) (fst (eigh (L - a) (Dm a))) (snd (eigh (L - a) (Dm a)))) ->
  solve_all_orders argsort eigh Dm L = Ok (evals, rows, orders) ->
  solver_location area (SlepianPolarCap (deg2rad theta_max) false) L = Ok name ->
  fetch (name ++ "_orders.npy")%string = Ok orders ->
  Z.abs_nat m < L -> rank < L - Z.abs_nat m -> solve_order argsort eigh Dm L m = Ok (evals_m, rows_m) ->
  exists p, find_p_value fetch L theta_max m rank (shannon (polar_area (deg2rad theta_max)) L) = Ok p /\
    nth_error orders p = Some m /\ List.length (filter (Z.eqb m) (firstn p orders)) = rank /\
    nth p evals 0%R = nth rank evals_m 0%R /\
    (NoDup evals_m -> nth p rows [] = nth rank rows_m []).
Proof.
  intros argsort eigh Dm L theta_max m rank fetch name area evals rows orders ev_m rows_m HA HL HT HE EA EN EF Hm Hr EO.
  assert (En : (name ++ "_orders.npy")%string = ("slepian_eigensolutions_D_polar" ++ zstr theta_max ++ "_L" ++ zstr (Z.of_nat L)
                        ++ "_N" ++ zstr (shannon (polar_area (deg2rad theta_max)) L) ++ "_orders.npy")%string).
  { unfold solver_location in EN. cbn [create_region] in EN. unfold deg2rad in *.
    pose proof PI_RGT_0 as P. assert (0 < IZR theta_max < 180)%R as [T1 T2] by (split; apply IZR_lt; lia).
    assert (Q : (0 < IZR theta_max * PI / 180)%R) by (apply Rdiv_lt_0_compat; [nra|lra]).
    assert (Q' : (IZR theta_max * PI / 180 < PI)%R) by nra.
    unfold Reqb in EN. destruct (Req_EM_T _ 0); [lra|]. unfold PHI_MAX_DEFAULT, PHI_MIN_DEFAULT, THETA_MIN_DEFAULT in EN.
    destruct (make_region_cases false "" (2 * PI) 0 (IZR theta_max * PI / 180) 0) as [E|[E|[E|E]]]; try lra.
    destruct E as (_ & _ & _ & _ & E). rewrite E in EN. cbn [rbind calculate_area r_name_ending] in EN. injection EN as <-.
    unfold matrix_location. rewrite angle_as_degree_whole. cbn [append]. rewrite !append_assoc_s. cbn [append]. rewrite ?append_assoc_s. reflexivity. }
  unfold find_p_value. rewrite <- En, EF. cbn [rbind].
  destruct (select_order argsort HA eigh Dm L ltac:(lia) HE m evals rows orders ev_m rows_m Hm EA EO) as (F1 & rows' & F2 & _ & F4 & F5).
  set (idx := np_where (map (fun x => Z.eqb x m) orders)) in *.
  destruct (C17_one_order argsort HA eigh Dm L m Hm (HE _ Hm)) as (ev & rw & E' & Lr & Le & _).
  rewrite EO in E'. injection E' as <- <-.
  pose proof (fancy_length _ _ _ F1) as LI. rewrite Le in LI.
  assert (Hk : rank < List.length idx) by lia.
  exists (nth rank idx 0). unfold np_get. rewrite (nth_error_nth' idx 0 Hk). split; [reflexivity|].
  destruct (where_rank _ rank (nth rank idx 0) (nth_error_nth' idx 0 Hk)) as [W1 W2].
  rewrite nth_error_map in W1. destruct (nth_error orders (nth rank idx 0)) as [m'|] eqn:Eo; [|discriminate W1]. injection W1 as W1.
  apply Z.eqb_eq in W1. subst m'. split; [reflexivity|]. split.
  - refine (eq_trans _ W2). rewrite firstn_map. generalize (firstn (nth rank idx 0) orders). clear. induction l as [|a l IH]; [reflexivity|].
    cbn [map filter]. rewrite Z.eqb_sym. destruct (Z.eqb a m); cbn [List.length]; rewrite IH; reflexivity.
  - split; [symmetry; exact (fancy_nth 0%R _ _ _ _ F1 Hk)|]. intros ND. rewrite <- (F5 ND). symmetry. exact (fancy_nth [] _ _ _ _ F2 Hk).
Qed.
Print Assumptions C75_rank.

Lemma nth_firstn_lt {A} (d : A) l : forall n p, p < n -> nth p (firstn n l) d = nth p l d.
Proof. induction l as [|a l IH]; intros [|n] [|p] H; cbn; try lia; try reflexivity. apply IH. lia. Qed.

(** The functions of orders [m] and [-m] have the same eigenvalues (the points of
    the label "+-m" come in pairs). *)
Theorem C75_pairs : forall argsort eigh Dm L m evals rows orders positive negative, argsort_ok argsort -> 1 <= L ->
  (forall a, a < L -> eigen_r (L - a) (Dm a) (fst (eigh (L - a) (Dm a))) (snd (eigh (L - a) (Dm a)))) ->
  solve_all_orders argsort eigh Dm L = Ok (evals, rows, orders) -> Z.abs_nat m < L ->
  fancy evals (np_where (map (Z.eqb m) orders)) = Ok positive ->
  fancy evals (np_where (map (Z.eqb (- m)) orders)) = Ok negative ->
  positive = negative.
Proof.
  intros argsort eigh Dm L m evals rows orders pos neg HA HL HE EA Hm Ep En.
  assert (Ha : Z.abs_nat (- m) = Z.abs_nat m) by lia.
  assert (X : forall k out, Z.abs_nat k = Z.abs_nat m -> fancy evals (np_where (map (Z.eqb k) orders)) = Ok out ->
     exists idx, idx = rev (argsort (fst (eigh (L - Z.abs_nat m) (Dm (Z.abs_nat m))))) /\ fancy (fst (eigh (L - Z.abs_nat m) (Dm (Z.abs_nat m)))) idx = Ok out).
  { intros k out Hk Eo. assert (Hk' : Z.abs_nat k < L) by lia.
    destruct (C17_one_order argsort HA eigh Dm L k Hk') as (ev & rw & E' & _); [apply HE; lia|].
    destruct (select_order argsort HA eigh Dm L ltac:(lia) HE k evals rows orders ev rw Hk' EA E') as (F1 & _).
    rewrite (map_ext _ (Z.eqb k)) in F1 by (intros; apply Z.eqb_sym). rewrite Eo in F1. injection F1 as ->.
    eexists. split; [reflexivity|]. unfold solve_order in E'. rewrite Hk in E'.
    destruct (create_emm_vector L); [|discriminate E']. cbn [rbind] in E'.
    destruct (eigh (L - Z.abs_nat m) (Dm (Z.abs_nat m))) as [w g]. cbn [fst]. unfold clean_polar in E'.
    destruct (fancy w (rev (argsort w))) as [w'|]; [|discriminate E']. cbn [rbind] in E'.
    destruct (fancy g (rev (argsort w))) as [g'|]; [|discriminate E']. cbn [rbind] in E'.
    destruct (scatter _ _ _); [|discriminate E']. cbn [rbind] in E'. congruence. }
  destruct (X m pos eq_refl Ep) as (i1 & -> & E1). destruct (X (- m)%Z neg Ha En) as (i2 & -> & E2). congruence.
Qed.
Print Assumptions C75_pairs.

(** Simons' figure 5.3: for [ranks <= L^2] point [p] is the eigenvalue [p] with the
    label of its order, and two points share a label exactly when their orders
    agree up to sign.  A larger number of ranks is an error. *)
Theorem C75_ranked : forall evals orders N ranks n, List.length evals = n -> List.length orders = n ->
  (n < ranks -> ranked_plot evals orders N ranks = Err ValueError) /\
  (ranks <= n -> exists pts, ranked_plot evals orders N ranks = Ok (pts, IZR N - 1)%R /\ List.length pts = ranks /\
     (forall p, p < ranks -> nth_error pts p = Some (INR p, (nth p evals 0%R,
        if (nth p orders 0 =? 0)%Z then "0"%string else ("$\pm$" ++ zstr (Z.abs (nth p orders 0%Z)))%string))) /\
     (forall p q a b, nth_error pts p = Some a -> nth_error pts q = Some b ->
        (snd (snd a) = snd (snd b) <-> Z.abs (nth p orders 0%Z) = Z.abs (nth q orders 0%Z)))).
Proof.
  intros evals orders N ranks n Le Lo. unfold ranked_plot.
  set (lab := fun m => (if (m =? 0)%Z then zstr m else "$\pm$" ++ zstr m)%string).
  assert (Ll : List.length (map lab (map Z.abs (firstn ranks orders))) = List.length (firstn ranks evals)).
  { rewrite !map_length, !firstn_length, Le, Lo. reflexivity. }
  rewrite points_ok by (symmetry; exact Ll). cbn [rbind].
  assert (Lc : List.length (combine (firstn ranks evals) (map lab (map Z.abs (firstn ranks orders)))) = Nat.min ranks n).
  { rewrite combine_length, Ll, Nat.min_id, firstn_length, Le. reflexivity. }
  split.
  - intros H. unfold points. rewrite Lc. unfold arange. rewrite map_length, seq_length.
    replace (Nat.min ranks n) with n by lia. destruct (Nat.eqb_spec ranks n); [lia|reflexivity].
  - intros H. rewrite points_ok by (rewrite Lc; unfold arange; rewrite map_length, seq_length; lia). cbn [rbind].
    eexists. split; [reflexivity|]. split; [unfold arange; rewrite combine_length, Lc, map_length, seq_length; lia|].
    assert (V : forall p, p < ranks -> nth_error (combine (map INR (arange ranks)) (combine (firstn ranks evals) (map lab (map Z.abs (firstn ranks orders))))) p
                = Some (INR p, (nth p evals 0%R, lab (Z.abs (nth p orders 0%Z))))).
    { intros p Hp. rewrite (nth_error_nth' _ (INR 0, (0%R, lab (Z.abs 0)))) by (unfold arange; rewrite combine_length, Lc, map_length, seq_length; lia).
      rewrite combine_nth by (unfold arange; rewrite map_length, seq_length, Lc; lia).
      rewrite combine_nth by (symmetry; exact Ll). rewrite (map_nth lab), (map_nth Z.abs), (map_nth INR).
      unfold arange. rewrite seq_nth by exact Hp. rewrite !nth_firstn_lt by exact Hp. reflexivity. }
    split.
    { intros p Hp. rewrite V by exact Hp. unfold lab. destruct (Z.eqb_spec (nth p orders 0%Z) 0) as [->|N0]; [reflexivity|].
      destruct (Z.eqb_spec (Z.abs (nth p orders 0%Z)) 0); [lia|reflexivity]. }
    intros p q a b Hp Hq.
    assert (Hp' : p < ranks).
    { assert (X : nth_error (combine (map INR (arange ranks)) (combine (firstn ranks evals) (map lab (map Z.abs (firstn ranks orders))))) p <> None) by congruence.
      apply nth_error_Some in X. unfold arange in X. rewrite combine_length, Lc, map_length, seq_length in X. lia. }
    assert (Hq' : q < ranks).
    { assert (X : nth_error (combine (map INR (arange ranks)) (combine (firstn ranks evals) (map lab (map Z.abs (firstn ranks orders))))) q <> None) by congruence.
      apply nth_error_Some in X. unfold arange in X. rewrite combine_length, Lc, map_length, seq_length in X. lia. }
    rewrite (V p Hp') in Hp. rewrite (V q Hq') in Hq. injection Hp as <-. injection Hq as <-. cbn [snd].
    generalize (Z.abs_nonneg (nth p orders 0%Z)), (Z.abs_nonneg (nth q orders 0%Z)).
    generalize (Z.abs (nth p orders 0%Z)), (Z.abs (nth q orders 0%Z)). intros x y X0 Y0. unfold lab.
    split; [|intros ->; reflexivity].
    destruct (Z.eqb_spec x 0) as [->|Nx], (Z.eqb_spec y 0) as [->|Ny]; intros E.
    + reflexivity.
    + exfalso. change (zstr 0) with "0"%string in E. discriminate E.
    + exfalso. change (zstr 0) with "0"%string in E. discriminate E.
    + apply append_inj_l in E. exact (zstr_inj _ _ E).
Qed.
Print Assumptions C75_ranked.

(** The plots of the eigenvalues: one point per Slepian function, as many as the
    solver returns. *)
Theorem C75_eigenvalues : forall L evals N, List.length evals = L * L ->
  exists pts, eigenvalue_plot L evals N = Ok (pts, IZR N, ticks (L * L)) /\ List.length pts = L * L /\
    forall p, p < L * L -> nth_error pts p = Some (INR p, nth p evals 0%R).
Proof.
  intros L evals N H. unfold eigenvalue_plot. assert (La : List.length (map INR (arange (L * L))) = L * L) by (unfold arange; rewrite map_length, seq_length; reflexivity).
  rewrite points_ok by congruence. cbn [rbind]. eexists. split; [reflexivity|].
  assert (Lc : List.length (combine (map INR (arange (L * L))) evals) = L * L) by (rewrite combine_length; lia).
  split; [exact Lc|]. intros p Hp. rewrite (nth_error_nth' _ (INR 0, 0%R)) by lia.
  rewrite combine_nth by lia. rewrite (map_nth INR). unfold arange. rewrite seq_nth by exact Hp. reflexivity.
Qed.
Print Assumptions C75_eigenvalues.

(** The ticks are the powers of two from 1 to the first that is at least [n]: all
    but the last lie on the axis, the last only when [n] is a power of two. *)
Theorem C75_ticks : forall n, 1 <= n -> exists k, ticks n = map (fun i => 2 ^ i) (seq 0 (S k)) /\
  n <= 2 ^ k /\ forall i, i < k -> 2 ^ i < n.
Proof.
  intros n Hn. exists (Nat.log2_up n). split; [exact (ticks_value n Hn)|].
  destruct (Nat.eq_dec n 1) as [->|N1]; [split; [cbn; lia|intros i Hi; cbn in Hi; lia]|].
  destruct (Nat.log2_up_spec n ltac:(lia)) as [A B]. split; [exact B|]. intros i Hi.
  apply (Nat.le_lt_trans _ (2 ^ Nat.pred (Nat.log2_up n))); [apply Nat.pow_le_mono_r; lia|exact A].
Qed.
Print Assumptions C75_ticks.

Lemma combine_fst {A B} : forall (x : list A) (y : list B), List.length x = List.length y -> map fst (combine x y) = x.
Proof. induction x as [|a x IH]; intros [|b y] H; try discriminate H; [reflexivity|]. cbn. rewrite IH by (cbn in H; lia). reflexivity. Qed.
Lemma combine_snd {A B} : forall (x : list A) (y : list B), List.length x = List.length y -> map snd (combine x y) = y.
Proof. induction x as [|a x IH]; intros [|b y] H; try discriminate H; [reflexivity|]. cbn. rewrite IH by (cbn in H; lia). reflexivity. Qed.

Lemma descending_firstn n l : descending l -> descending (firstn n l).
Proof.
  rewrite !descending_desc. revert n. induction l as [|a l IH]; intros [|n] H; cbn in *; try exact I.
  destruct H as [H1 H2]. split; [|apply IH; exact H2]. rewrite Forall_forall in *. intros x Hx. apply H1.
  rewrite <- (firstn_skipn n l). apply in_or_app. left. exact Hx.
Qed.

Lemma descending_split l : descending l -> forall n x y, In x (firstn n l) -> In y (skipn n l) -> (y <= x)%R.
Proof.
  rewrite descending_desc. induction l as [|a l IH]; intros H [|n] x y Hx Hy; cbn in *; try contradiction.
  destruct H as [H1 H2]. destruct Hx as [<-|Hx]; [|exact (IH H2 n x y Hx Hy)].
  rewrite Forall_forall in H1. apply H1. rewrite <- (firstn_skipn n l). apply in_or_app. right. exact Hy.
Qed.

(** The comparison of Slepian and harmonic coefficients: one point per index below
    [N] in both sets, magnitudes in decreasing order; the first set consists of all
    Slepian coefficients, the second of the [N] largest harmonic ones; the energy
    of the first never exceeds that of the signal. *)
Theorem C75_coefficients : forall inverse argsort L s flm, argsort_ok argsort -> slepian_basis L s -> List.length flm = L * L ->
  exists slepian_points harmonic_points f_p rest,
    coefficient_plot argsort inverse L s (s_N s) flm = Ok (slepian_points, harmonic_points) /\
    slepian_forward inverse L s (of_flm flm) None = Ok f_p /\ (power f_p <= power flm)%R /\
    map fst slepian_points = map INR (seq 0 (Nn s)) /\ map fst harmonic_points = map INR (seq 0 (Nn s)) /\
    descending (map snd slepian_points) /\ Permutation (map snd slepian_points) (map Cmod f_p) /\
    descending (map snd harmonic_points) /\ Permutation (map snd harmonic_points ++ rest) (map Cmod flm) /\
    (forall x y, In x (map snd harmonic_points) -> In y rest -> (y <= x)%R).
Proof.
  intros inverse argsort L s flm HA HB Hf. pose proof HB as (HN & Hn & Hle & _).
  assert (EF : exists f_p, slepian_forward inverse L s (of_flm flm) None = Ok f_p /\ List.length f_p = Nn s).
  { eexists. split; [change (@None Z) with (option_map Z.of_nat None); unfold of_flm; apply forward_flm_ok; assumption|].
    rewrite map_length, seq_length. reflexivity. }
  destruct EF as (f_p & EF & Lp).
  pose proof (forward_bessel inverse L s flm None f_p HB Hf Hn EF) as [BE _].
  unfold coefficient_plot. rewrite EF. cbn [rbind].
  set (sorted := rev (np_sort argsort (rev (map Cmod flm)))). set (fp := rev (np_sort argsort (map Cmod f_p))).
  assert (PS : Permutation sorted (map Cmod flm)).
  { unfold sorted. rewrite <- Permutation_rev, np_sort_perm by exact HA. symmetry. apply Permutation_rev. }
  assert (PF : Permutation fp (map Cmod f_p)).
  { unfold fp. rewrite <- Permutation_rev. apply np_sort_perm; exact HA. }
  assert (LS : List.length sorted = L * L) by (rewrite (Permutation_length PS), map_length; exact Hf).
  assert (LF : List.length fp = Nn s) by (rewrite (Permutation_length PF), map_length; exact Lp).
  assert (LP : py_prefix (s_N s) sorted = firstn (Nn s) sorted) by (unfold py_prefix, Nn; destruct (Z.leb_spec 0 (s_N s)); [reflexivity|lia]).
  rewrite LP. fold (Nn s).
  assert (LX : List.length (map INR (arange (Nn s))) = Nn s) by (unfold arange; rewrite map_length, seq_length; reflexivity).
  assert (LFN : List.length (firstn (Nn s) sorted) = Nn s) by (rewrite firstn_length, LS; unfold Nn; lia).
  rewrite points_ok by congruence. cbn [rbind]. rewrite points_ok by congruence. cbn [rbind].
  eexists _, _, f_p, (skipn (Nn s) sorted). split; [reflexivity|]. split; [reflexivity|]. split; [exact BE|].
  rewrite !combine_fst, !combine_snd by congruence. split; [reflexivity|]. split; [reflexivity|].
  split; [apply np_sort_desc; exact HA|]. split; [exact PF|]. split; [apply descending_firstn, np_sort_desc; exact HA|].
  split; [rewrite firstn_skipn; exact PS|]. intros x y. apply descending_split. apply np_sort_desc. exact HA.
Qed.
Print Assumptions C75_coefficients.

(** ** C76: the norm of translated functions, Ricker wavelets *)
Definition harmonics_created (create_ylm : R -> R -> nat -> list C) (L : nat) : Prop :=
  forall theta alpha, create_ylm theta alpha L = map (fun i => ylm_number i theta alpha) (seq 0 (L * L)).

Lemma norms_value create_ylm coefficients L alpha : List.length coefficients = L * L -> harmonics_created create_ylm L ->
  translation_norms create_ylm coefficients L alpha =
  Ok (map (fun theta => (rad2deg theta, sqrt (rsum (L * L) (fun i => Cmod (Cmult (nth i coefficients (RtoC 0)) (ylm_number i theta alpha)) ^ 2)))%R) (thetas L)).
Proof.
  intros Hc HY. unfold translation_norms.
  assert (E : rmap (fun theta => let* x := broadcast Cmult coefficients (create_ylm theta alpha L) in Ok (sqrt (sum_abs2 x))) (thetas L)
     = Ok (map (fun theta => sqrt (rsum (L * L) (fun i => Cmod (Cmult (nth i coefficients (RtoC 0)) (ylm_number i theta alpha)) ^ 2))%R) (thetas L))).
  { apply rmap_ok. intros theta _. rewrite HY. unfold broadcast. rewrite map_length, seq_length, Hc, Nat.eqb_refl. cbn [rbind]. do 2 f_equal.
    unfold sum_abs2. rewrite rlsum_nth. rewrite !map_length, combine_length, map_length, seq_length, Hc, Nat.min_id. apply rsum_ext. intros i Hi.
    set (g := fun p : C * C => Cmult (fst p) (snd p)). set (h := fun z : C => (Cmod z ^ 2)%R).
    assert (Hl : i < List.length (combine coefficients (map (fun i => ylm_number i theta alpha) (seq 0 (L * L))))) by (rewrite combine_length, map_length, seq_length; lia).
    rewrite (nth_indep _ 0%R (h (g (RtoC 0, ylm_number 0 theta alpha)))) by (rewrite !map_length; exact Hl).
    rewrite (map_nth h), (map_nth g). rewrite combine_nth by (rewrite map_length, seq_length; exact Hc).
    rewrite (map_nth (fun i => ylm_number i theta alpha)), seq_nth by exact Hi. reflexivity. }
  rewrite E. cbn [rbind]. rewrite points_ok by (rewrite !map_length; reflexivity). rewrite combine_map2. reflexivity.
Qed.

Lemma total_energy L w : energy (expansion (L * L) w) 0 PI 0 (2 * PI) (rsum (L * L) (fun i => Cmod (w i) ^ 2)%R).
Proof.
  pose proof (form_box L (fun i j => RtoC (if i =? j then 1 else 0)) w 0 PI 0 (2 * PI) (fun i j _ _ => C71_orthonormal i j)) as H.
  rewrite gram_identity in H.
  replace (rsum (L * L) (fun i => Cmod (w i) ^ 2)%R) with (Re (ip (L * L) w w)); [exact H|].
  unfold ip. rewrite Re_csum. apply rsum_ext. intros i _. unfold Cmod. rewrite pow2_sqrt by (apply Rplus_le_le_0_compat; apply pow2_ge_0).
  cbn. ring.
Qed.

(** The height of the curve at each colatitude is the norm of the function
    translated there: its square is the energy on the sphere of what [translate]
    returns. *)
Theorem C76_norms : forall create_ylm coefficients L alpha, 1 <= L -> List.length coefficients = L * L -> harmonics_created create_ylm L ->
  exists pts, translation_norms create_ylm coefficients L alpha = Ok pts /\ List.length pts = L + 1 /\
    forall t, t <= L -> exists norm moved,
      let theta := (PI * INR t / INR L)%R in
      nth_error pts t = Some (theta * 180 / PI, norm)%R /\ (0 <= norm)%R /\
      translate false coefficients (flm_translation_helper (create_ylm theta alpha L)) None = Ok (A1 moved) /\
      energy (expansion (L * L) (fun i => nth i moved (RtoC 0))) 0 PI 0 (2 * PI) (norm ^ 2)%R.
Proof.
  intros create_ylm c L alpha HL Hc HY. rewrite norms_value by assumption.
  eexists. split; [reflexivity|]. unfold thetas, n_theta. rewrite !map_length, seq_length. split; [reflexivity|].
  intros t Ht. rewrite !nth_error_map, nth_error_seq by lia. cbn [option_map Nat.add].
  set (theta := (PI * INR t / INR L)%R).
  assert (Ly : List.length c = List.length (create_ylm theta alpha L)) by (rewrite HY, map_length, seq_length; exact Hc).
  destruct (C44_flm c (create_ylm theta alpha L) Ly) as (h & Eh & Lh & Hh).
  eexists _, h. cbv zeta. split; [f_equal; f_equal; unfold rad2deg; fold theta; pose proof PI_RGT_0; field; lra|]. split; [apply sqrt_pos|].
  split; [exact Eh|].
  pose proof (total_energy L (fun i => nth i h (RtoC 0))) as H.
  rewrite pow2_sqrt by (apply rsum_nonneg; intros; apply pow2_ge_0). fold theta.
  erewrite rsum_ext; [exact H|]. intros i Hi. cbn beta. rewrite Hh by (rewrite <- Ly, Hc; exact Hi).
  rewrite HY. rewrite (ConvolutionProofs.nth_map_seq (fun i => ylm_number i theta alpha)) by exact Hi. reflexivity.
Qed.
Print Assumptions C76_norms.

Lemma expi_mod x : Cmod (expi x) = 1%R.
Proof.
  unfold Cmod, expi. cbn [fst snd]. replace (cos x ^ 2 + sin x ^ 2)%R with 1%R; [apply sqrt_1|].
  pose proof (sin2_cos2 x) as H. unfold Rsqr in H. lra.
Qed.

(** The curve does not depend on the longitude and is symmetric about the equator. *)
Theorem C76_symmetric : forall create_ylm coefficients L alpha alpha' pts, 1 <= L -> List.length coefficients = L * L -> harmonics_created create_ylm L ->
  translation_norms create_ylm coefficients L alpha = Ok pts ->
  translation_norms create_ylm coefficients L alpha' = Ok pts /\ map snd (rev pts) = map snd pts.
Proof.
  intros create_ylm c L alpha alpha' pts HL Hc HY E. rewrite norms_value in E by assumption. injection E as <-. rewrite norms_value by assumption. split.
  - f_equal. apply map_ext. intros theta. do 2 f_equal. apply rsum_ext. intros i _.
    replace alpha' with (alpha + (alpha' - alpha))%R by ring. rewrite number_turn, !Cmod_mult, expi_mod. ring.
  - rewrite <- map_rev. rewrite !map_map. cbn [snd]. unfold thetas. rewrite <- map_rev, !map_map.
    set (g := fun t => _). apply (nth_ext _ _ 0%R 0%R); [rewrite !map_length, rev_length; reflexivity|].
    intros k Hk. rewrite map_length, rev_length, seq_length in Hk. unfold n_theta in *.
    rewrite (nth_indep _ 0%R (g 0)) by (rewrite map_length, rev_length, seq_length; exact Hk).
    rewrite (nth_indep (map g (seq 0 (L + 1))) 0%R (g 0)) by (rewrite map_length, seq_length; exact Hk).
    rewrite !map_nth. rewrite rev_nth, seq_length by (rewrite seq_length; exact Hk). rewrite !seq_nth by lia. unfold g.
    replace (0 + (L + 1 - S k)) with (L - k) by lia. cbn [Nat.add]. f_equal. apply rsum_ext. intros i _.
    assert (PL : (0 < INR L)%R) by (apply lt_0_INR; lia).
    replace (PI * INR (L - k) / INR L)%R with (PI - PI * INR k / INR L)%R by (rewrite minus_INR by lia; field; lra).
    rewrite number_mirror, !Cmod_mult, Cmod_R.
    assert (PA : forall z, Rabs (SpecWigner.pm1 z) = 1%R) by (intros z; unfold SpecWigner.pm1; destruct (Z.even z); unfold Rabs; destruct (Rcase_abs _); lra).
    rewrite PA. ring.
Qed.
Print Assumptions C76_symmetric.

Lemma ricker_samples n dt freq : 1 <= n -> (0 < dt)%R ->
  ricker (INR n * dt) dt freq = map (fun k => ricker_value freq ((INR k - INR n / 2) * dt)) (seq 0 n).
Proof.
  intros Hn Hd. unfold ricker. rewrite (np_arange_ok _ _ _ n Hd).
  - rewrite map_map. apply map_ext. intros k. f_equal. field.
  - replace (((INR n * dt - dt) / 2 - - (INR n * dt) / 2) / dt)%R with (INR n - 1 / 2)%R by (field; lra). lra.
Qed.

(** The three wavelets fill the array without gap or overlap: block [c] holds the
    wavelet of frequency [c], sampled at [n] times from [-n/2] steps on. *)
Theorem C76_ricker : forall n dt frequencies, 1 <= n -> (0 < dt)%R ->
  exists amplitude, ricker_plot (INR n * dt) dt frequencies = Ok amplitude /\
    List.length amplitude = n * List.length frequencies /\
    forall c k, c < List.length frequencies -> k < n ->
      nth (n * c + k) amplitude 0%R = ricker_value (nth c frequencies 0%R) ((INR k - INR n / 2) * dt).
Proof.
  intros n dt fs Hn Hd. unfold ricker_plot.
  assert (Sz : Z.to_nat (Int_part (INR n * dt / dt)) = n).
  { replace (INR n * dt / dt)%R with (INR n) by (field; lra). rewrite Int_part_INR. apply Nat2Z.id. }
  rewrite Sz. set (g := ricker (INR n * dt) dt).
  assert (Lg : forall f, List.length (g f) = n) by (intros f; unfold g; rewrite ricker_samples, map_length, seq_length by assumption; reflexivity).
  assert (Lc : forall l, List.length (List.concat (map g l)) = n * List.length l).
  { induction l as [|a l IH]; cbn [map List.concat List.length]; [lia|]. rewrite app_length, Lg, IH. lia. }
  assert (G : forall l done,
     rfold (fun amplitude p => let* slot := np_fill (firstn n (skipn (n * fst p) amplitude)) (g (snd p)) in
                               Ok (firstn (n * fst p) amplitude ++ slot ++ skipn (n * S (fst p)) amplitude))
        (combine (seq (List.length done) (List.length l)) l) (List.concat (map g done) ++ repeat 0%R (n * List.length l)) = Ok (List.concat (map g (done ++ l)))).
  { induction l as [|a l IH]; intros done.
    - cbn [List.length seq combine rfold]. rewrite Nat.mul_0_r. cbn [repeat]. rewrite !app_nil_r. reflexivity.
    - cbn [List.length seq combine rfold fst snd].
      assert (F : firstn (n * List.length done) (List.concat (map g done) ++ repeat 0%R (n * S (List.length l))) = List.concat (map g done)).
      { rewrite <- (Lc done), firstn_app, Nat.sub_diag, firstn_all. cbn [firstn]. apply app_nil_r. }
      assert (K : skipn (n * List.length done) (List.concat (map g done) ++ repeat 0%R (n * S (List.length l))) = repeat 0%R (n * S (List.length l))).
      { rewrite <- (Lc done), skipn_app, Nat.sub_diag, skipn_all. reflexivity. }
      assert (K2 : skipn (n * S (List.length done)) (List.concat (map g done) ++ repeat 0%R (n * S (List.length l))) = repeat 0%R (n * List.length l)).
      { rewrite skipn_app, (Lc done), skipn_all2 by (rewrite Lc; lia). replace (n * S (List.length done) - n * List.length done) with n by lia.
        replace (n * S (List.length l)) with (n + n * List.length l) by lia. rewrite repeat_app. cbn [app].
        rewrite skipn_app, repeat_length, Nat.sub_diag, skipn_all2 by (rewrite repeat_length; lia). reflexivity. }
      rewrite F, K, K2. unfold np_fill. rewrite Lg, firstn_length, repeat_length. replace (Nat.min n (n * S (List.length l))) with n by nia. rewrite Nat.eqb_refl. cbn [rbind].
      specialize (IH (done ++ [a])). rewrite app_length in IH. cbn [List.length] in IH. rewrite Nat.add_1_r in IH.
      rewrite map_app, concat_app in IH. cbn [map List.concat] in IH. rewrite app_nil_r, <- !app_assoc in IH. cbn [app] in IH. exact IH. }
  specialize (G fs []). cbn [List.length map List.concat app] in G. rewrite G. exists (List.concat (map g fs)). split; [reflexivity|]. split; [apply Lc|].
  clear G. induction fs as [|a fs IH]; intros c k Hc Hk; [cbn in Hc; lia|]. cbn [map List.concat]. destruct c as [|c].
  - rewrite Nat.mul_0_r. cbn [Nat.add nth]. rewrite app_nth1 by (rewrite Lg; exact Hk). unfold g. rewrite ricker_samples by assumption.
    rewrite nth_map_seq by exact Hk. reflexivity.
  - rewrite app_nth2 by (rewrite Lg; nia). rewrite Lg. replace (n * S c + k - n) with (n * c + k) by nia. cbn [nth]. apply IH; [cbn in Hc; lia|exact Hk].
Qed.
Print Assumptions C76_ricker.

(** The function that is sampled: even, at most 1 in size, 1 at time 0, and with an
    integral over [-T, T] that vanishes as T grows (zero mean). *)
Theorem C76_ricker_value : forall freq t T,
  ricker_value freq (- t) = ricker_value freq t /\ (Rabs (ricker_value freq t) <= 1)%R /\ ricker_value freq 0 = 1%R /\
  is_RInt (ricker_value freq) (- T) T (2 * T * exp (- (PI ^ 2 * freq ^ 2 * T ^ 2)))%R.
Proof.
  intros freq t T. split; [|split; [|split]].
  - unfold ricker_value. replace ((- t) ^ 2)%R with (t ^ 2)%R by ring. reflexivity.
  - unfold ricker_value. set (u := (PI ^ 2 * freq ^ 2 * t ^ 2)%R).
    replace (2 * PI ^ 2 * freq ^ 2 * t ^ 2)%R with (2 * u)%R by (unfold u; ring).
    assert (Hu : (0 <= u)%R) by (unfold u; apply Rmult_le_pos; [apply Rmult_le_pos|]; apply pow2_ge_0).
    assert (E : (1 + u + u ^ 2 / 4 <= exp u)%R).
    { replace u with (u / 2 + u / 2)%R at 3 by field. rewrite exp_plus. pose proof (exp_ineq1_le (u / 2)). nra. }
    rewrite exp_Ropp. pose proof (exp_pos u) as P. apply Rabs_le. split.
    + apply (Rmult_le_reg_r (exp u)); [exact P|]. rewrite Rmult_assoc, Rinv_l by lra. pose proof (pow2_ge_0 (u / 2 - 1)). nra.
    + apply (Rmult_le_reg_r (exp u)); [exact P|]. rewrite Rmult_assoc, Rinv_l by lra. nra.
  - unfold ricker_value. replace (PI ^ 2 * freq ^ 2 * 0 ^ 2)%R with 0%R by ring. rewrite Ropp_0, exp_0. ring.
  - set (F := fun s => (s * exp (- (PI ^ 2 * freq ^ 2 * s ^ 2)))%R).
    replace (2 * T * exp (- (PI ^ 2 * freq ^ 2 * T ^ 2)))%R with (minus (F T) (F (- T)%R)).
    2:{ unfold minus, plus, opp, F; cbn -[exp pow PI]. replace ((- T) ^ 2)%R with (T ^ 2)%R by ring. ring. }
    apply (@is_RInt_derive R_CompleteNormedModule F (ricker_value freq)).
    + intros s _. unfold F, ricker_value. auto_derive; [exact I|]. cbn [pow]. ring.
    + intros s _. apply (ex_derive_continuous (ricker_value freq)). unfold ricker_value. auto_derive. exact I.
Qed.
Print Assumptions C76_ricker_value.

(** ** C77: tilings, sorted wavelet coefficients, reconstruction *)
(** The interpolant passes through the points. *)
Definition interpolates (pchip : list R -> list R -> R -> R) : Prop :=
  forall x y i, StronglySorted Rlt x -> List.length x = List.length y -> i < List.length x -> pchip x y (nth i x 0%R) = nth i y 0%R.

(** Every curve has 100 points per unit from 0 to the last index and no further, and
    passes through the values of its generator. *)
Theorem C77_tiling : forall axisym_wav_l pchip xlim B j_min, 1 <= xlim -> interpolates pchip ->
  (forall k, In k (create_kappas axisym_wav_l xlim B j_min) -> List.length k = xlim) ->
  exists curves, tiling_curves axisym_wav_l pchip xlim B j_min = Ok (curves, ticks xlim) /\
    List.length curves = List.length (create_kappas axisym_wav_l xlim B j_min) /\
    forall j, j < List.length curves ->
      map fst (nth j curves []) = map (fun i => INR i / 100)%R (seq 0 (100 * (xlim - 1) + 1)) /\
      forall p, p < xlim -> nth_error (nth j curves []) (100 * p) = Some (INR p, nth p (nth j (create_kappas axisym_wav_l xlim B j_min) []) 0%R).
Proof.
  intros gen pchip xlim B j_min Hx HI HK. unfold tiling_curves. set (kappas := create_kappas gen xlim B j_min) in *.
  assert (Exi : np_arange 0 (INR xlim - 1 + 1 / 100) (1 / 100) = map (fun i => INR i / 100)%R (seq 0 (100 * (xlim - 1) + 1))).
  { rewrite (np_arange_ok _ _ _ (100 * (xlim - 1) + 1)) by (try lra; rewrite plus_INR, mult_INR, minus_INR by lia; replace (INR 100) with 100%R by (cbn; ring); cbn [INR]; lra).
    apply map_ext. intros k. lra. }
  rewrite Exi. set (xi := map (fun i => INR i / 100)%R (seq 0 (100 * (xlim - 1) + 1))). set (x := map INR (arange xlim)).
  rewrite (rmap_ok _ (fun k => combine xi (map (pchip x k) xi))) by (intros k _; apply points_ok; rewrite map_length; reflexivity).
  cbn [rbind]. eexists. split; [reflexivity|]. rewrite map_length. split; [reflexivity|]. intros j Hj.
  assert (Lx : List.length x = xlim) by (unfold x, arange; rewrite map_length, seq_length; reflexivity).
  rewrite (nth_indep _ [] (combine xi (map (pchip x []) xi))) by (rewrite map_length; exact Hj).
  rewrite (map_nth (fun k => combine xi (map (pchip x k) xi))). set (k := nth j kappas []).
  assert (Lk : List.length k = xlim) by (apply HK, nth_In; exact Hj).
  split; [apply combine_fst; rewrite map_length; reflexivity|].
  intros p Hp. assert (Lxi : List.length xi = 100 * (xlim - 1) + 1) by (unfold xi; rewrite map_length, seq_length; reflexivity).
  assert (HP : 100 * p < List.length xi) by lia.
  rewrite (nth_error_nth' _ (0%R, pchip x k 0%R)) by (rewrite combine_length, map_length; lia).
  rewrite combine_nth by (rewrite map_length; reflexivity). rewrite (map_nth (pchip x k)).
  assert (V : nth (100 * p) xi 0%R = INR p).
  { unfold xi. rewrite (nth_map_seq (fun i => INR i / 100)%R) by lia. rewrite mult_INR. replace (INR 100) with 100%R by (cbn; ring). field. }
  rewrite V. do 2 f_equal. assert (Xp : nth p x 0%R = INR p) by (unfold x, arange; apply (nth_map_seq INR); exact Hp).
  rewrite <- Xp. apply HI; [|congruence|lia].
  unfold x, arange. apply sorted_map_seq. intros a b Hab. apply lt_INR. exact Hab.
Qed.
Print Assumptions C77_tiling.

(** The curves of the wavelet coefficients: the magnitudes of one scale in
    decreasing order, all of them for the Slepian wavelets, the [N] largest for the
    axisymmetric ones. *)
Theorem C77_sparsity : forall argsort w_p w_lm N slepian_curves axisymmetric_curves, argsort_ok argsort -> 
  sparsity_curves argsort w_p w_lm (Z.of_nat N) = (slepian_curves, axisymmetric_curves) ->
  List.length slepian_curves = List.length w_p /\ List.length axisymmetric_curves = List.length w_lm /\
  (forall j, j < List.length w_p -> descending (nth j slepian_curves []) /\ Permutation (nth j slepian_curves []) (map Cmod (nth j w_p []))) /\
  (forall j, j < List.length w_lm -> exists rest,
     descending (nth j axisymmetric_curves []) /\ List.length (nth j axisymmetric_curves []) = Nat.min N (List.length (nth j w_lm [])) /\
     Permutation (nth j axisymmetric_curves [] ++ rest) (map Cmod (nth j w_lm [])) /\
     (forall x y, In x (nth j axisymmetric_curves []) -> In y rest -> (y <= x)%R)).
Proof.
  intros argsort w_p w_lm N cs ca HA E. unfold sparsity_curves in E. injection E as <- <-. rewrite !map_length. split; [reflexivity|]. split; [reflexivity|].
  assert (PP : forall row, Permutation (rev (np_sort argsort (map Cmod row))) (map Cmod row)).
  { intros row. rewrite <- Permutation_rev. apply np_sort_perm; exact HA. }
  split; intros j Hj.
  - rewrite (nth_indep _ [] (rev (np_sort argsort (map Cmod [])))) by (rewrite map_length; exact Hj).
    rewrite (map_nth (fun row => rev (np_sort argsort (map Cmod row)))). split; [apply np_sort_desc; exact HA|apply PP].
  - set (h := fun row => py_prefix (Z.of_nat N) (rev (np_sort argsort (map Cmod row)))).
    rewrite (nth_indep (map h w_lm) [] (h [])) by (rewrite map_length; exact Hj). rewrite (map_nth h). unfold h.
    exists (skipn N (rev (np_sort argsort (map Cmod (nth j w_lm []))))).
    unfold py_prefix. destruct (Z.leb_spec 0 (Z.of_nat N)); [|lia]. rewrite Nat2Z.id.
    split; [apply descending_firstn, np_sort_desc; exact HA|].
    split; [rewrite firstn_length, (Permutation_length (PP _)), map_length; reflexivity|].
    split; [rewrite firstn_skipn; apply PP|]. intros x y. apply descending_split, np_sort_desc. exact HA.
Qed.
Print Assumptions C77_sparsity.

(** The field drawn from the wavelet coefficients of a continent is the one drawn
    from its Slepian coefficients, for admissible wavelets of which only the last
    scales miss the signal. *)
Theorem C77_reconstruction : forall inverse L s cols rows f_p k, (0 <= s_N s)%Z -> matrix cols rows -> Nn s <= cols ->
  List.length f_p = Nn s -> admissible (Nn s) rows -> dead_last (Nn s) rows f_p k ->
  exists W, slepian_wavelet_forward f_p (A2 cols rows) (s_N s) = Ok W /\
    wavelet_reconstruction inverse W (A2 cols rows) L s = slepian_reconstruction inverse f_p L s.
Proof.
  intros inverse L s cols rows f_p k HN Hm Hc Lf Ha Hd.
  destruct (C26_round_trip (Nn s) cols rows f_p k Hm Hc ltac:(lia) Ha Hd) as (W & EW & EI).
  assert (En : Z.of_nat (Nn s) = s_N s) by (unfold Nn; lia). rewrite En in EW, EI.
  exists W. split; [exact EW|]. unfold wavelet_reconstruction, slepian_reconstruction. rewrite EI. cbn [rbind]. rewrite <- Lf, firstn_all. reflexivity.
Qed.
Print Assumptions C77_reconstruction.

(** The relative errors: the magnitudes of the coefficients by quadrature over the
    region and over the sphere against those of the harmonic sum. *)
Theorem C77_errors : forall inverse L s mask flm, slepian_basis L s -> List.length (s_evals s) = List.length (s_evecs s) ->
  List.length flm = L * L -> List.length mask = samples L -> List.length (inverse L flm) = samples L ->
  exists region sphere, error_curves inverse L s mask (s_N s) flm = Ok (region, sphere) /\
    List.length region = Nn s /\ List.length sphere = Nn s /\
    forall p, p < Nn s -> exists by_region by_sphere c,
      decompose inverse L s {| sg_f := Some (inverse L flm); sg_flm := None; sg_mask := Some mask |} Integrate_region (Z.of_nat p) = Ok by_region /\
      decompose inverse L s (of_f (inverse L flm)) Integrate_sphere (Z.of_nat p) = Ok by_sphere /\
      decompose inverse L s (of_flm flm) Harmonic_sum (Z.of_nat p) = Ok c /\
      nth_error region p = Some (INR p, Rabs (Cmod by_region - Cmod c) / Cmod c)%R /\
      nth_error sphere p = Some (INR p, Rabs (Cmod by_sphere - Cmod c) / Cmod c)%R.
Proof.
  intros inverse L s mask flm HB He Hf Hm Hi.
  set (gr := {| sg_f := Some (inverse L flm); sg_flm := None; sg_mask := Some mask |}).
  assert (S1 : SpecTransform.shaped L gr) by (split; [discriminate|split; intros ? [= <-]; assumption]).
  assert (S2 : SpecTransform.shaped L (of_f (inverse L flm))) by (split; [discriminate|split; [intros ? [= <-]; assumption|discriminate]]).
  assert (S3 : SpecTransform.shaped L (of_flm flm)) by (split; [intros ? [= <-]; assumption|split; discriminate]).
  assert (G1 : given gr) by (right; discriminate). assert (G2 : given (of_f (inverse L flm))) by (right; discriminate).
  assert (G3 : given (of_flm flm)) by (left; discriminate).
  assert (HN : Nn s <= List.length (s_evecs s)) by apply HB.
  assert (LB : List.length (s_evecs s) <= L * L) by apply HB.
  pose proof (proj2 (C25_dispatch inverse L s gr (Nn s) HB He S1 G1 HN)) as E1.
  pose proof (proj2 (C25_dispatch inverse L s (of_f (inverse L flm)) (Nn s) HB He S2 G2 HN)) as E2.
  pose proof (proj2 (C25_dispatch inverse L s (of_flm flm) (Nn s) HB He S3 G3 HN)) as E3.
  fold (Nn s) in E1, E2, E3.
  assert (BC : forall g, map Cmod (map g (seq 0 (Nn s))) = map (fun p => Cmod (g p)) (seq 0 (Nn s))) by (intros g; apply map_map).
  assert (ZP : forall {A B D} (op : A -> B -> D) a b, broadcast op (map a (seq 0 (Nn s))) (map b (seq 0 (Nn s))) = Ok (map (fun p => op (a p) (b p)) (seq 0 (Nn s)))).
  { intros A B D op a b. unfold broadcast. rewrite !map_length, Nat.eqb_refl. f_equal. generalize (seq 0 (Nn s)) as l. induction l as [|x l IH]; [reflexivity|]. cbn. rewrite IH. reflexivity. }
  assert (RE : forall m g, slepian_forward inverse L s {| sg_f := Some (inverse L flm); sg_flm := None; sg_mask := m |} None = Ok (map g (seq 0 (Nn s))) ->
     relative_errors inverse L s (inverse L flm) m flm = Ok (map (fun p => Rabs (Cmod (g p) - Cmod (entry inverse L s (of_flm flm) p)) / Cmod (entry inverse L s (of_flm flm) p))%R (seq 0 (Nn s)))).
  { intros m g E. unfold relative_errors. rewrite E, E3. cbn [rbind]. rewrite !BC, ZP. cbn [rbind]. rewrite map_map, ZP. reflexivity. }
  unfold error_curves. rewrite (RE _ _ E1). cbn [rbind]. rewrite (RE None _ E2). cbn [rbind]. fold (Nn s).
  rewrite points_ok by (unfold arange; rewrite !map_length; reflexivity). cbn [rbind].
  rewrite points_ok by (unfold arange; rewrite !map_length; reflexivity). cbn [rbind].
  do 2 eexists. split; [reflexivity|].
  split; [unfold arange; rewrite combine_length, !map_length, seq_length, Nat.min_id; reflexivity|].
  split; [unfold arange; rewrite combine_length, !map_length, seq_length, Nat.min_id; reflexivity|].
  intros p Hp. exists (entry inverse L s gr p), (entry inverse L s (of_f (inverse L flm)) p), (entry inverse L s (of_flm flm) p).
  assert (Hp' : p < List.length (s_evecs s)) by lia.
  split; [exact (detect_decompose inverse L s gr Integrate_region p HB He S1 eq_refl Hp')|].
  split; [exact (detect_decompose inverse L s (of_f (inverse L flm)) Integrate_sphere p HB He S2 eq_refl Hp')|].
  split; [exact (detect_decompose inverse L s (of_flm flm) Harmonic_sum p HB He S3 eq_refl Hp')|].
  assert (CN : forall h, nth_error (combine (map INR (arange (Nn s))) (map h (seq 0 (Nn s)))) p = Some (INR p, h p : R)).
  { intros h. rewrite (nth_error_nth' _ (INR 0, h 0)) by (unfold arange; rewrite combine_length, !map_length, seq_length; lia).
    rewrite combine_nth by (unfold arange; rewrite !map_length; reflexivity). unfold arange. rewrite !map_nth, seq_nth by exact Hp. reflexivity. }
  split; apply CN.
Qed.
Print Assumptions C77_errors.

(** The error of the region is 0 where the Slepian functions solve the eigenproblem
    of the same mask on the same grid... *)
Theorem C77_error_region : forall inverse L Y s mask flm region sphere p, slepian_basis L s -> List.length (s_evals s) = List.length (s_evecs s) ->
  List.length flm = L * L -> List.length mask = samples L -> synthesis L Y inverse -> p < Nn s -> nth p (s_evals s) 0%R <> 0%R ->
  (forall r, r < L * L -> csum (L * L) (fun j => Cmult (nth j (evec s p) (RtoC 0)) (SpecTransform.overlap L Y mask j r))
     = Cmult (RtoC (nth p (s_evals s) 0%R)) (nth r (evec s p) (RtoC 0))) ->
  error_curves inverse L s mask (s_N s) flm = Ok (region, sphere) -> nth_error region p = Some (INR p, 0%R).
Proof.
  intros inverse L Y s mask flm region sphere p HB He Hf Hm HY Hp Hl HO E.
  assert (Hi : List.length (inverse L flm) = samples L) by (rewrite HY, map_length, seq_length by exact Hf; reflexivity).
  destruct (C77_errors inverse L s mask flm HB He Hf Hm Hi) as (rg & sp & E' & _ & _ & V). rewrite E in E'. injection E' as <- <-.
  destruct (V p Hp) as (br & bs & c & D1 & _ & D3 & V1 & _).
  assert (Hp' : p < List.length (s_evecs s)) by (destruct HB as (_ & HN & _); unfold Nn in Hp; lia).
  pose proof (C25_region_is_harmonic_sum inverse L Y s flm mask p HY HB Hf Hm He Hp' Hl HO) as Q.
  rewrite D1, D3 in Q. injection Q as ->. rewrite V1. do 2 f_equal. unfold Rdiv. rewrite Rminus_diag_eq, Rabs_R0 by reflexivity. apply Rmult_0_l.
Qed.
Print Assumptions C77_error_region.

Lemma flat_weight_nonneg L k : 1 <= L -> k < samples L -> (0 <= flat_weight L k)%R.
Proof.
  intros HL Hk. unfold flat_weight.
  assert (X : In (nth k (List.concat (calc_integration_weight L)) 0%R) (List.concat (calc_integration_weight L)) \/ nth k (List.concat (calc_integration_weight L)) 0%R = 0%R).
  { destruct (Nat.lt_ge_cases k (List.length (List.concat (calc_integration_weight L)))); [left; apply nth_In; assumption|right; apply nth_overflow; assumption]. }
  destruct X as [X|X]; [|rewrite X; lra]. apply in_concat in X. destruct X as (row & R1 & R2). exact (weight_nonneg L row _ HL R1 R2).
Qed.

(** ...but the error of the sphere is not 0, even for the constant function where
    it is itself a Slepian function: the quadrature is not exact. *)
Theorem C77_error_sphere_refuted : forall inverse L Y s mask flm region sphere p, 1 <= L -> slepian_basis L s ->
  List.length (s_evals s) = List.length (s_evecs s) -> List.length mask = samples L -> synthesis L Y inverse -> p < Nn s ->
  (forall k, Y 0 k = RtoC (1 / sqrt (4 * PI))) -> flm = RtoC 1 :: repeat (RtoC 0) (L * L - 1) -> evec s p = flm ->
  error_curves inverse L s mask (s_N s) flm = Ok (region, sphere) ->
  exists e, nth_error sphere p = Some (INR p, e) /\ (0 < e)%R /\ (L = 1 -> e = 1%R).
Proof.
  intros inverse L Y s mask flm region sphere p HL HB He Hm HY Hp H0 Hf Hv E.
  assert (Lf : List.length flm = L * L) by (subst flm; cbn [List.length]; rewrite repeat_length; nia).
  assert (Hi : List.length (inverse L flm) = samples L) by (rewrite HY, map_length, seq_length by exact Lf; reflexivity).
  destruct (C77_errors inverse L s mask flm HB He Lf Hm Hi) as (rg & sp & E' & _ & _ & V). rewrite E in E'. injection E' as <- <-.
  destruct (V p Hp) as (br & bs & c & _ & D2 & D3 & _ & V2).
  assert (Hp' : p < List.length (s_evecs s)) by (destruct HB as (_ & HN & _); unfold Nn in Hp; lia).
  destruct (C25_sphere_is_harmonic_sum_refuted inverse L Y s flm p HL HY HB Hp' He H0 Hf Hv) as (x & Q1 & Q2 & Q3 & Q4).
  rewrite D2 in Q1. rewrite D3 in Q4. injection Q1 as ->. injection Q4 as ->. eexists. split; [exact V2|].
  assert (X0 : (0 <= x)%R).
  { assert (S2 : SpecTransform.shaped L (of_f (inverse L flm))) by (split; [discriminate|split; [intros ? [= <-]; assumption|discriminate]]).
    pose proof (detect_decompose inverse L s (of_f (inverse L flm)) Integrate_sphere p HB He S2 eq_refl Hp') as D. rewrite D2 in D. injection D as D.
    replace x with (Re (RtoC x)) by reflexivity. rewrite D. unfold entry, of_f. cbn [sg_flm sg_f sg_mask]. rewrite Hv, csum_re. apply rsum_nonneg.
    intros k Hk. set (z := nth k (inverse L flm) (RtoC 0)).
    assert (W : (0 <= flat_weight L k)%R) by (apply flat_weight_nonneg; assumption).
    replace (Re (Cmult (Cmult z (Cconj z)) (RtoC (flat_weight L k)))) with ((fst z * fst z + snd z * snd z) * flat_weight L k)%R by (destruct z; cbn; ring).
    apply Rmult_le_pos; [|exact W]. pose proof (Rle_0_sqr (fst z)). pose proof (Rle_0_sqr (snd z)). unfold Rsqr in *. lra. }
  rewrite !Cmod_R, Rabs_R1, (Rabs_pos_eq x), (Rabs_left (x - 1)) by lra. split; [lra|]. intros HL1. rewrite (Q3 HL1). field.
Qed.
Print Assumptions C77_error_sphere_refuted.

(** ** Concrete cases *)
Module FigureCases.
  (** The second function of order 0 of the hemisphere for band limit 2, found by
      rank among all functions and drawn along the meridian. *)
  Example C75_case : exists fetch inverse evals rows orders p,
    solve_all_orders insertion_argsort ex_eigh ex_Dm 2 = Ok (evals, rows, orders) /\ List.length evals = 4 /\
    find_p_value fetch 2 90 0 1 (shannon (polar_area (deg2rad 90)) 2) = Ok p /\ nth_error orders p = Some 0%Z /\ p <> 0 /\
    exists inside outside, meridian_plot inverse evals rows 2 90 1 p = Ok (inside, outside, nth p evals 0%R) /\
      List.length (inside ++ outside) = figure_resolution 2 + 1.
  Proof.
    assert (HE : forall a, a < 2 -> eigen_r (2 - a) (ex_Dm a) (fst (ex_eigh (2 - a) (ex_Dm a))) (snd (ex_eigh (2 - a) (ex_Dm a)))) by exact C17_example.
    destruct (C17_all_orders _ insertion_argsort_ok ex_eigh ex_Dm 2 ltac:(lia) HE) as (evals & rows & orders & E & L1 & L2 & L3 & _ & _ & HR & _).
    destruct (C17_one_order _ insertion_argsort_ok ex_eigh ex_Dm 2 0 ltac:(cbn; lia) (HE 0 ltac:(lia))) as (em & rm & Em & _).
    pose (name := match solver_location 0%R (SlepianPolarCap (deg2rad 90) false) 2 with Ok s => s | _ => ""%string end).
    assert (EN : solver_location 0%R (SlepianPolarCap (deg2rad 90) false) 2 = Ok name).
    { unfold name. unfold solver_location. cbn [create_region]. unfold deg2rad. pose proof PI_RGT_0 as P.
      unfold Reqb. destruct (Req_EM_T _ 0); [lra|]. unfold PHI_MAX_DEFAULT, PHI_MIN_DEFAULT, THETA_MIN_DEFAULT.
      destruct (make_region_cases false "" (2 * PI) 0 (90 * PI / 180) 0) as [X|[X|[X|X]]]; try lra.
      destruct X as (_ & _ & _ & _ & X). rewrite X. reflexivity. }
    pose (inverse := fun M (v : list C) => map (fun k => csum (M * M) (fun i => Cmult (nth i v (RtoC 0)) (harmonic_at M i k))) (seq 0 (samples M))).
    destruct (C75_rank insertion_argsort ex_eigh ex_Dm 2 90 0 1 (fun _ => Ok orders) name 0%R evals rows orders em rm
      insertion_argsort_ok ltac:(lia) ltac:(lia) HE E EN eq_refl ltac:(cbn; lia) ltac:(cbn; lia) Em) as (p & Ep & Op & Fp & _).
    exists (fun _ => Ok orders), inverse, evals, rows, orders, p. split; [exact E|]. split; [exact L1|]. split; [exact Ep|]. split; [exact Op|].
    assert (Hp : p < 4) by (change 4 with (2 * 2); rewrite <- L3; apply nth_error_Some; congruence).
    split; [intros ->; cbn in Fp; discriminate|].
    assert (Lr : List.length (nth p rows []) = 2 * 2).
    { apply (HR p (nth p evals 0%R) (nth p rows []) 0%Z); [apply nth_error_nth'; lia|apply nth_error_nth'; lia|exact Op]. }
    destruct (C75_meridian inverse evals rows 2 90 1 p ltac:(lia) ltac:(lia) ltac:(lia) Lr (fun v _ => eq_refl)) as (i & o & Ei & Ea & _).
    exists i, o. split; [exact Ei|]. rewrite Ea, map_length, seq_length. reflexivity.
  Qed.

  Example C75_ticks_case : ticks 9 = [1; 2; 4; 8; 16] /\ ticks 8 = [1; 2; 4; 8].
  Proof. rewrite !ticks_value by lia. split; reflexivity. Qed.

  Example C75_ranked_case : exists a b c d,
    ranked_plot [1; 1 / 2; 1 / 2; 1 / 4]%R [0; -1; 1; 0]%Z 2 4 = Ok ([(a, (1, "0")); (b, (1 / 2, "$\pm$1")); (c, (1 / 2, "$\pm$1")); (d, (1 / 4, "0"))]%R, 2 - 1)%string%R.
  Proof. do 4 eexists. reflexivity. Qed.

  (** Wavelets at two times: the second sample is the peak. *)
  Example C76_ricker_case : exists a, ricker_plot (2 * 1) 1 [10; 25; 40]%R = Ok a /\ List.length a = 6 /\ nth 1 a 0%R = 1%R /\ nth 3 a 0%R = 1%R.
  Proof.
    destruct (C76_ricker 2 1 [10; 25; 40]%R ltac:(lia) ltac:(lra)) as (a & E & La & V). change (INR 2) with 2%R in *.
    exists a. split; [exact E|]. split; [exact La|].
    assert (W : forall c, c < 3 -> nth (2 * c + 1) a 0%R = 1%R).
    { intros c Hc. rewrite V by (cbn; lia). replace ((INR 1 - 2 / 2) * 1)%R with 0%R by (cbn [INR]; field). apply C76_ricker_value; exact 0%R. }
    split; [exact (W 0 ltac:(lia))|exact (W 1 ltac:(lia))].
  Qed.

  Example C76_case : exists create_ylm pts, harmonics_created create_ylm 2 /\
    translation_norms create_ylm [RtoC 1; RtoC 2; RtoC 3; RtoC 4] 2 0 = Ok pts /\ List.length pts = 3 /\
    snd (nth 0 pts (0, 0)%R) = snd (nth 2 pts (0, 0)%R).
  Proof.
    pose (c := fun theta alpha (L : nat) => map (fun i => ylm_number i theta alpha) (seq 0 (L * L))).
    assert (H : harmonics_created c 2) by (intros t a; reflexivity).
    destruct (C76_norms c [RtoC 1; RtoC 2; RtoC 3; RtoC 4] 2 0 ltac:(lia) eq_refl H) as (pts & E & Lp & _).
    exists c, pts. split; [exact H|]. split; [exact E|]. split; [exact Lp|].
    destruct (C76_symmetric c [RtoC 1; RtoC 2; RtoC 3; RtoC 4] 2 0 0 pts ltac:(lia) eq_refl H E) as [_ S2].
    destruct pts as [|a [|b [|d [|]]]]; try discriminate Lp. cbn in S2. injection S2 as S2 _. symmetry. exact S2.
  Qed.

  (** An interpolant exists. *)
  Definition lookup (x y : list R) (t : R) : R :=
    match find (fun p => Reqb (fst p) t) (combine x y) with Some p => snd p | None => 0%R end.
  Lemma lookup_interpolates : interpolates lookup.
  Proof.
    unfold interpolates, lookup. induction x as [|a x IH]; intros [|b y] i HS HL Hi; cbn in Hi, HL; try lia.
    inversion HS as [|? ? HS' HF]; subst. cbn [combine find fst].
    destruct i as [|i]; cbn [nth].
    - unfold Reqb. destruct (Req_EM_T a a); [reflexivity|contradiction].
    - assert (In (nth i x 0%R) x) by (apply nth_In; lia).
      unfold Reqb at 1. destruct (Req_EM_T a (nth i x 0%R)) as [->|_]; [rewrite Forall_forall in HF; specialize (HF _ H); lra|].
      apply IH; [exact HS'|lia|lia].
  Qed.
  Example C77_tiling_case : exists curves, tiling_curves awl_example lookup 3 3 2 = Ok (curves, [1; 2; 4]) /\ List.length curves = 3 /\
    nth_error (nth 0 curves []) 200 = Some (INR 2, 1%R) /\ List.length (nth 0 curves []) = 201.
  Proof.
    destruct (C77_tiling awl_example lookup 3 3 2 ltac:(lia) lookup_interpolates) as (cs & E & Lc & V).
    { intros k Hk. cbn in Hk. destruct Hk as [<-|[<-|[<-|[]]]]; reflexivity. }
    assert (T : ticks 3 = [1; 2; 4]) by (rewrite ticks_value by lia; reflexivity). rewrite T in E.
    exists cs. split; [exact E|]. split; [exact Lc|]. cbn in Lc. destruct (V 0 ltac:(lia)) as [V1 V2].
    split; [exact (V2 2 ltac:(lia))|]. apply (f_equal (@List.length R)) in V1. rewrite !map_length, seq_length in V1. exact V1.
  Qed.

  Example C77_reconstruction_case : forall inverse L evals evecs, exists W,
    slepian_wavelet_forward [RtoC 5; RtoC 7; RtoC 0] (A2 3 units3) 3 = Ok W /\
    wavelet_reconstruction inverse W (A2 3 units3) L {| s_N := 3; s_evals := evals; s_evecs := evecs |} =
    slepian_reconstruction inverse [RtoC 5; RtoC 7; RtoC 0] L {| s_N := 3; s_evals := evals; s_evecs := evecs |}.
  Proof.
    intros inverse L evals evecs. pose (s := {| s_N := 3; s_evals := evals; s_evecs := evecs |}).
    assert (N5 : RtoC 5 <> RtoC 0) by (intros E; apply RtoC_inj in E; lra).
    assert (N7 : RtoC 7 <> RtoC 0) by (intros E; apply RtoC_inj in E; lra).
    assert (N1 : RtoC 1 <> RtoC 0) by (intros E; apply RtoC_inj in E; lra).
    apply (C77_reconstruction inverse L s 3 units3 [RtoC 5; RtoC 7; RtoC 0] 2);
      [cbn; lia|apply units3_admissible|cbn; lia|reflexivity|apply units3_admissible|].
    split; [cbn; lia|]. intros j Hj. cbn in Hj. split.
    - intros (p & Hp & H1 & H2). change (p < 3) in Hp. destruct j as [|[|[|j]]]; try lia.
      destruct p as [|[|[|p]]]; cbn in H1, H2; try lia; contradiction.
    - intros Hj2. destruct j as [|[|j]]; [exists 0|exists 1|lia]; cbn; (split; [lia|]); split; assumption.
  Qed.
  (** Both curves for the constant: the error of the region of one sample is 0, with
      the harmonic that lives on it; the error of the sphere is not. *)
  Example C77_region_case : exists sphere,
    error_curves point_inverse 2 point_slepian point_mask 1 [RtoC 3; RtoC 0; RtoC 4; RtoC 0] = Ok ([(0, 0)%R], sphere).
  Proof.
    destruct (C77_errors point_inverse 2 point_slepian point_mask [RtoC 3; RtoC 0; RtoC 4; RtoC 0] point_basis eq_refl eq_refl eq_refl eq_refl)
      as (region & sphere & E & L1 & _ & V).
    exists sphere. change (s_N point_slepian) with 1%Z in E. rewrite E. destruct region as [|r [|]]; try discriminate L1. do 2 f_equal.
    destruct (V 0 ltac:(cbn; lia)) as (br & bs & c & D1 & _ & D3 & V1 & _). cbn [nth_error] in V1. injection V1 as ->.
    change (Z.of_nat 0) with 0%Z in D1, D3. rewrite (C25_region_case [RtoC 3; RtoC 0; RtoC 4; RtoC 0] eq_refl) in D1. injection D1 as <-.
    assert (Ec : c = RtoC 3).
    { unfold decompose, harmonic_sum in D3. cbn in D3. injection D3 as <-. apply C_ext; cbn; ring. }
    subst c. cbn [nth]. unfold Rminus. rewrite Rplus_opp_r, Rabs_R0. cbn [INR]. unfold Rdiv. rewrite Rmult_0_l. reflexivity.
  Qed.
  Example C77_sphere_case : exists region e, error_curves mono_inverse 2 point_slepian point_mask 1 [RtoC 1; RtoC 0; RtoC 0; RtoC 0] = Ok (region, [(0%R, e)]) /\ (0 < e)%R.
  Proof.
    destruct (C77_errors mono_inverse 2 point_slepian point_mask [RtoC 1; RtoC 0; RtoC 0; RtoC 0] point_basis eq_refl eq_refl eq_refl eq_refl)
      as (region & sphere & E & _ & L2 & _).
    destruct (C77_error_sphere_refuted mono_inverse 2 mono_Y point_slepian point_mask [RtoC 1; RtoC 0; RtoC 0; RtoC 0] region sphere 0 ltac:(lia) point_basis
      eq_refl eq_refl (fun v _ => eq_refl) ltac:(cbn; lia) (fun k => eq_refl) eq_refl eq_refl E) as (e & Ee & Pe & _).
    exists region, e. split; [|exact Pe]. change (s_N point_slepian) with 1%Z in E. rewrite E.
    destruct sphere as [|r [|]]; try discriminate L2. cbn in Ee. injection Ee as ->. reflexivity.
  Qed.
End FigureCases.
