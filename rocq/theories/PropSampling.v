(** * Random signals and quadrature weights: properties C50 and C51. *)
From Coq Require Import List ZArith Arith Bool Reals Lra Lia.
From Coquelicot Require Import Complex.
From Verif Require Import Base ListLemmas RSum CSum Numpy Noise SpecField NoiseProofs Integration
  Quadrature QuadratureProofs.
Import ListNotations.
Local Open Scope nat_scope.

(** ** C50: random signals *)

(** [L^2] coefficients; coefficient [i] uses draws [i] (real part) and
    [L^2 + i] (imaginary part) after the generator's position, and the
    generator ends behind all of them. *)
Theorem C50_draws : forall normal L g v, exists sig g',
  compute_random_signal normal L g v = (sig, g') /\
  length sig = L * L /\ g_seed g' = g_seed g /\ g_pos g' = g_pos g + 2 * (L * L) /\
  forall i, i < L * L -> nth i sig (RtoC 0)
    = (sqrt (v / 2) * normal (g_seed g) (g_pos g + i)%nat,
       sqrt (v / 2) * normal (g_seed g) (g_pos g + (L * L + i))%nat)%R.
Proof.
  intros normal L g v. eexists _, _. split; [reflexivity|]. cbn [g_seed g_pos].
  split; [rewrite map_length, combine_length, !map_length, seq_length; lia|].
  split; [reflexivity|]. split; [reflexivity|]. intros i Hi.
  apply nth_error_nth. rewrite nth_error_map.
  rewrite (nth_error_nth' _ (0%R, 0%R)) by (rewrite combine_length, !map_length, seq_length; lia).
  rewrite combine_nth by (rewrite !map_length, seq_length; reflexivity).
  set (q := fun k i0 : nat => normal (g_seed g) (k + i0)).
  assert (N : forall k, nth i (map (fun i0 => normal (g_seed g) (k + i0)) (seq 0 (L * L))) 0%R = q k i).
  { intros k. apply nth_error_nth. rewrite nth_error_map_seq by exact Hi. reflexivity. }
  rewrite !N. cbn [option_map fst snd]. f_equal. unfold q. rewrite Nat.add_assoc.
  apply C_ext; cbn; ring.
Qed.
Print Assumptions C50_draws.

(** Expected power, over any ensemble of streams with unit second moments. *)
Theorem C50_variance : forall (E : ensemble) L g v, (0 <= v)%R ->
  (forall i, g_pos g <= i < g_pos g + 2 * (L * L) -> mean E (fun X => X i ^ 2)%R = 1%R) ->
  mean E (fun X => power (fst (compute_random_signal (fun _ => X) L g v)))
  = (INR (L * L) * v)%R.
Proof.
  intros E L g v Hv H.
  transitivity (mean E (fun X => (v / 2) * rsum (L * L)
     (fun i => X (g_pos g + i)%nat ^ 2 + X (g_pos g + (L * L + i))%nat ^ 2)))%R.
  - unfold mean. apply rlsum_map_ext. intros [w X] _. cbn [fst snd]. f_equal.
    destruct (C50_draws (fun _ => X) L g v) as (sig & g' & Es & Hl & _ & _ & Hn). rewrite Es. cbn [fst].
    unfold power. rewrite Hl, <- rsum_scal_l. apply rsum_ext. intros i Hi. rewrite Hn by exact Hi.
    cbn [Re Im fst snd]. rewrite !Rpow_mult_distr, pow2_sqrt by lra. ring.
  - rewrite mean_scal, mean_rsum.
    rewrite (rsum_ext _ _ (fun _ => 2%R)).
    + rewrite rsum_const. field.
    + intros i Hi. transitivity (mean E (fun X => X (g_pos g + i)%nat ^ 2) + mean E (fun X => X (g_pos g + (L * L + i))%nat ^ 2))%R.
      * unfold mean. rewrite <- rlsum_map_plus. apply rlsum_map_ext. intros. ring.
      * rewrite !H by lia. ring.
Qed.
Print Assumptions C50_variance.

(** Two successive signals from one generator use disjoint draws. *)
Theorem C50_successive : forall normal L g v s1 g1, compute_random_signal normal L g v = (s1, g1) ->
  forall i j, i < 2 * (L * L) -> g_pos g + i <> g_pos g1 + j.
Proof.
  intros normal L g v s1 g1 E i j Hi.
  destruct (C50_draws normal L g v) as (s & g' & E' & _ & _ & Hp & _).
  rewrite E in E'. injection E' as <- <-. lia.
Qed.
Print Assumptions C50_successive.

(** A concrete case: one coefficient of variance 8. *)
Example C50_example : exists sig g',
  compute_random_signal (fun _ i => INR i) 1 {| g_seed := 5%Z; g_pos := 3 |} 8 = (sig, g') /\
  nth 0 sig (RtoC 0) = (sqrt (8 / 2) * INR 3, sqrt (8 / 2) * INR 4)%R /\ g_pos g' = 5.
Proof.
  destruct (C50_draws (fun _ i => INR i) 1 {| g_seed := 5%Z; g_pos := 3 |} 8) as (s & g' & E & _ & _ & Hp & Hn).
  exists s, g'. split; [exact E|]. split; [apply (Hn 0); lia|exact Hp].
Qed.

(** ** C51: quadrature weights *)

(** Row [t] is [sin(pi t / L) (pi/L)^2] in every column. *)
Theorem C51_weights : forall L, 1 <= L ->
  length (calc_integration_weight L) = L + 1 /\
  forall t row, nth_error (calc_integration_weight L) t = Some row ->
    length row = 2 * L /\
    forall w, In w row -> w = (sin (PI * INR t / INR L) * (PI / INR L) ^ 2)%R /\ (0 <= w)%R.
Proof.
  intros L H. split; [rewrite weight_spec by exact H; rewrite map_length, seq_length; reflexivity|].
  intros t row E. pose proof (nth_error_In _ _ E) as Hin. pose proof E as E'.
  rewrite weight_spec in E by exact H.
  assert (Ht : t < L + 1).
  { assert (Hn : nth_error (calc_integration_weight L) t <> None) by (rewrite E'; discriminate).
    apply nth_error_Some in Hn. rewrite weight_spec, map_length, seq_length in Hn by exact H. exact Hn. }
  rewrite nth_error_map_seq in E by exact Ht. injection E as E. split.
  - rewrite <- E, map_length, seq_length. reflexivity.
  - intros w Hw. split; [|exact (weight_nonneg L row w H Hin Hw)].
    rewrite <- E in Hw. apply in_map_iff in Hw. destruct Hw as (p & <- & _). reflexivity.
Qed.
Print Assumptions C51_weights.

(** The poles have weight zero. *)
Theorem C51_poles : forall L row, 1 <= L ->
  nth_error (calc_integration_weight L) 0 = Some row \/ nth_error (calc_integration_weight L) L = Some row ->
  forall w, In w row -> w = 0%R.
Proof.
  intros L row H Hr w Hw. pose proof (lt_0_INR L H).
  destruct (C51_weights L H) as [_ S]. destruct Hr as [Hr|Hr]; apply S in Hr; destruct Hr as [_ Hr];
    destruct (Hr w Hw) as [-> _].
  - cbn [INR]. replace (PI * 0 / INR L)%R with 0%R by (field; lra). rewrite sin_0. ring.
  - replace (PI * INR L / INR L)%R with PI by (field; lra). rewrite sin_PI. ring.
Qed.
Print Assumptions C51_poles.

Lemma flat_length L : 1 <= L -> length (concat (calc_integration_weight L)) = samples L.
Proof.
  intros H. rewrite weight_spec by exact H. unfold samples, n_theta, n_phi.
  rewrite <- (seq_length (L + 1) 0) at 2. generalize (seq 0 (L + 1)) as l.
  induction l as [|x l IH]; [reflexivity|].
  cbn [map concat]. rewrite app_length, IH, map_length, seq_length. cbn [length]. lia.
Qed.

(** The integral of the constant one. *)
Lemma integral_of_one L : 1 <= L ->
  integrate_whole_sphere (samples L) (flat_weight L) (fun _ => RtoC 1) []
  = RtoC (rlsum (concat (calc_integration_weight L))).
Proof.
  intros H. unfold integrate_whole_sphere, multiply_args. cbn [fold_left].
  rewrite (csum_ext _ _ (fun i => RtoC (flat_weight L i))).
  - rewrite csum_RtoC, rlsum_nth, flat_length by exact H. reflexivity.
  - intros. apply C_ext; cbn; ring.
Qed.

Theorem C51_integral_of_one : forall L, 1 <= L ->
  integrate_whole_sphere (samples L) (flat_weight L) (fun _ => RtoC 1) []
  = RtoC (2 * PI ^ 2 / INR L * (cos (PI / (2 * INR L)) / sin (PI / (2 * INR L)))).
Proof. intros L H. rewrite integral_of_one, weight_sum by exact H. reflexivity. Qed.
Print Assumptions C51_integral_of_one.

(** It is strictly below the area of the sphere, by at most a fraction
    [pi^2 / (8 L^2)]: the quadrature is never exact. *)
Theorem C51_exactness_refuted : forall L, 1 <= L ->
  let I := Re (integrate_whole_sphere (samples L) (flat_weight L) (fun _ => RtoC 1) []) in
  (4 * PI * (1 - PI ^ 2 / (8 * INR L ^ 2)) <= I < 4 * PI)%R.
Proof.
  intros L H. rewrite integral_of_one by exact H. cbn [Re RtoC fst].
  pose proof (lt_0_INR L H). split; [|apply weight_sum_deficit, H].
  replace (PI ^ 2 / (8 * INR L ^ 2))%R with ((PI / (2 * INR L)) ^ 2 / 2)%R by (field; lra).
  apply weight_sum_lower, H.
Qed.
Print Assumptions C51_exactness_refuted.

(** For [L = 1] both colatitudes are poles and every integral vanishes. *)
Theorem C51_one_degree : forall f fs, integrate_whole_sphere (samples 1) (flat_weight 1) f fs = RtoC 0.
Proof.
  intros f fs. unfold integrate_whole_sphere. apply csum_zero. intros i Hi.
  assert (Z : flat_weight 1 i = 0%R).
  { unfold flat_weight. destruct (nth_in_or_default i (concat (calc_integration_weight 1)) 0%R) as [Hin|E]; [|exact E].
    apply in_concat in Hin. destruct Hin as (row & Hr & Hw).
    apply In_nth_error in Hr. destruct Hr as [t Ht].
    assert (Hb : t < 2).
    { assert (Hn : nth_error (calc_integration_weight 1) t <> None) by (rewrite Ht; discriminate).
      apply nth_error_Some in Hn. rewrite (proj1 (C51_weights 1 (le_n 1))) in Hn. exact Hn. }
    apply (C51_poles 1 row (le_n 1)); [|exact Hw]. destruct t as [|[|]]; [left|right|lia]; exact Ht. }
  rewrite Z. ring.
Qed.
Print Assumptions C51_one_degree.

(** A concrete case: for [L = 2] the sphere has area [pi^2] (about 9.87 instead
    of 12.57). *)
Example C51_example :
  integrate_whole_sphere (samples 2) (flat_weight 2) (fun _ => RtoC 1) [] = RtoC (PI ^ 2).
Proof.
  rewrite C51_integral_of_one by lia. f_equal. cbn [INR].
  replace (PI / (2 * (1 + 1)))%R with (PI / 4)%R by field.
  rewrite cos_PI4, sin_PI4. pose proof (sqrt_lt_R0 2 ltac:(lra)). field. lra.
Qed.
