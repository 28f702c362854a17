(** * Properties C36, C37, C38, C47: resolution, nearest sample, normalisation,
    masks of closed plots. *)
From Coq Require Import List ZArith Arith Bool Reals Lia Lra Psatz String.
From Coquelicot Require Import Complex.
From Verif Require Import Base RSum CSum PyNum PyNumProofs Region Mask MaskProofs Numpy Eigen EigenProofs NoiseProofs
  Quadrature Transform Functions Mesh Plot PlotProofs.
Import ListNotations.
Local Open Scope nat_scope.
Local Open Scope list_scope.

(** ** C36 *)
Ltac resolution_cases L :=
  unfold calc_plot_resolution, res_dict; cbn [find fst snd];
  change (2 ^ 1)%Z with 2%Z; change (2 ^ 2)%Z with 4%Z; change (2 ^ 3)%Z with 8%Z; change (2 ^ 4)%Z with 16%Z;
  change (2 ^ 5)%Z with 32%Z; change (2 ^ 6)%Z with 64%Z;
  change (2 ^ 7)%Z with 128%Z; change (2 ^ 9)%Z with 512%Z; change (2 ^ 10)%Z with 1024%Z;
  destruct (Z.ltb_spec L 2); cbn [fst snd]; [|destruct (Z.ltb_spec L 4); cbn [fst snd];
    [|destruct (Z.ltb_spec L 8); cbn [fst snd]; [|destruct (Z.ltb_spec L 128); cbn [fst snd];
      [|destruct (Z.ltb_spec L 512); cbn [fst snd]; [|destruct (Z.ltb_spec L 1024); cbn [fst snd]]]]]];
  change (2 ^ 1)%Z with 2%Z; change (2 ^ 2)%Z with 4%Z; change (2 ^ 3)%Z with 8%Z; change (2 ^ 4)%Z with 16%Z;
  change (2 ^ 5)%Z with 32%Z; change (2 ^ 6)%Z with 64%Z.

Theorem C36_power_of_two : forall L, (1 <= L)%Z ->
  exists k, (0 <= k <= 6)%Z /\ calc_plot_resolution L = (L * 2 ^ k)%Z.
Proof.
  intros L H. resolution_cases L;
    [exists 6%Z|exists 5%Z|exists 4%Z|exists 3%Z|exists 2%Z|exists 1%Z|exists 0%Z];
    (split; [lia|]); [change (2 ^ 6)%Z with 64%Z|change (2 ^ 5)%Z with 32%Z|change (2 ^ 4)%Z with 16%Z
                     |change (2 ^ 3)%Z with 8%Z|change (2 ^ 2)%Z with 4%Z|change (2 ^ 1)%Z with 2%Z|change (2 ^ 0)%Z with 1%Z]; lia.
Qed.
Print Assumptions C36_power_of_two.

(** Never below the bandlimit, at least 64, equal to the bandlimit exactly from
    1024 on, and never above 2046 before that. *)
Theorem C36_bounds : forall L, (1 <= L)%Z ->
  (L <= calc_plot_resolution L)%Z /\ (64 <= calc_plot_resolution L)%Z /\
  (calc_plot_resolution L = L <-> (1024 <= L)%Z) /\
  ((L < 1024)%Z -> (calc_plot_resolution L <= 2046)%Z).
Proof. intros L H. resolution_cases L; repeat split; intros; lia. Qed.
Print Assumptions C36_bounds.

(** The resolution is monotone inside each band but not across bands. *)
Theorem C36_monotone_refuted : exists L M, (1 <= L < M)%Z /\ (calc_plot_resolution M < calc_plot_resolution L)%Z.
Proof. exists 127%Z, 128%Z. split; [lia|vm_compute; reflexivity]. Qed.
Print Assumptions C36_monotone_refuted.

Example C36_values : map calc_plot_resolution [1; 10; 100; 127; 128; 1000; 1023; 1024]%Z
  = [64; 80; 800; 1016; 512; 2000; 2046; 1024]%Z.
Proof. vm_compute. reflexivity. Qed.

(** ** C37 *)
(** Sample [b] of the [n] samples [PI b / L] is nearest to [x], and nearer than
    every earlier sample. *)
Definition nearest_first (L n : nat) (x : R) (b : nat) : Prop :=
  b < n /\ (forall k, k < n -> (Rabs (PI * INR b / INR L - x) <= Rabs (PI * INR k / INR L - x))%R) /\
  (forall k, k < b -> (Rabs (PI * INR b / INR L - x) < Rabs (PI * INR k / INR L - x))%R).

Lemma argmin_nearest L n x : 1 <= n ->
  exists b, argmin (map (fun y => Rabs (y - x)) (map (fun t => (PI * INR t / INR L)%R) (seq 0 n))) = Ok b /\
    nearest_first L n x b.
Proof.
  intros Hn. rewrite map_map. set (g := fun t => Rabs (PI * INR t / INR L - x)).
  destruct (argmin_ok (map g (seq 0 n))) as (b & E & B & M & F).
  { destruct n; [lia|]. discriminate. }
  exists b. split; [exact E|]. rewrite map_length, seq_length in B, M.
  assert (V : forall k, k < n -> nth k (map g (seq 0 n)) 0%R = g k).
  { intros k Hk. rewrite (nth_indep _ 0%R (g 0)) by (rewrite map_length, seq_length; exact Hk).
    rewrite map_nth, seq_nth by exact Hk. reflexivity. }
  repeat split; [exact B| |]; intros k Hk.
  - specialize (M k Hk). rewrite !V in M by lia. exact M.
  - specialize (F k Hk). rewrite !V in F by lia. exact F.
Qed.

Lemma nth_error_positions L n b : b < n ->
  nth_error (map (fun t => (PI * INR t / INR L)%R) (seq 0 n)) b = Some (PI * INR b / INR L)%R.
Proof.
  intros H. rewrite nth_error_map, (nth_error_nth' (seq 0 n) 0) by (rewrite seq_length; exact H).
  rewrite seq_nth by exact H. reflexivity.
Qed.

(** The returned point is a grid point (longitudes [PI j / L], [j < 2 L],
    colatitudes [PI i / L], [i <= L]) nearest to the request. *)
Theorem C37_nearest : forall L a b, 1 <= L ->
  exists j i, calc_nearest_grid_point L a b = Ok ((PI * INR j / INR L)%R, (PI * INR i / INR L)%R) /\
    nearest_first L (2 * L) (a * PI) j /\ nearest_first L (L + 1) (b * PI) i.
Proof.
  intros L a b HL. unfold calc_nearest_grid_point, phis, thetas.
  destruct (argmin_nearest L (n_phi L) (a * PI)) as (j & Ej & Hj); [unfold n_phi; lia|].
  destruct (argmin_nearest L (n_theta L) (b * PI)) as (i & Ei & Hi); [unfold n_theta; lia|].
  exists j, i. rewrite Ej. cbn [rbind]. rewrite Ei. cbn [rbind]. unfold np_get.
  rewrite nth_error_positions by apply Hj. cbn [rbind]. rewrite nth_error_positions by apply Hi. cbn [rbind].
  split; [reflexivity|]. split; assumption.
Qed.
Print Assumptions C37_nearest.

(** The error is at most half a grid step when the request lies between the
    first and the last sample. *)
Lemma nearest_error L n x j : 1 <= L -> (0 <= x <= PI * INR n / INR L)%R -> nearest_first L (n + 1) x j ->
  (Rabs (PI * INR j / INR L - x) <= PI / (2 * INR L))%R.
Proof.
  intros HL [Hx0 Hx] (_ & M & _).
  assert (Lp : (0 < INR L)%R) by (apply lt_0_INR; lia). assert (P := PI_RGT_0).
  set (h := (PI / INR L)%R). assert (hp : (0 < h)%R) by (unfold h; apply Rdiv_lt_0_compat; lra).
  assert (E : forall k, (PI * INR k / INR L = h * INR k)%R) by (intros; unfold h; field; lra).
  assert (E2 : (PI / (2 * INR L) = h / 2)%R) by (unfold h; field; lra). rewrite E2.
  set (z := rfloor (x / h)). assert (B := rfloor_bounds (x / h)). fold z in B.
  assert (Ex : (x = h * (x / h))%R) by (field; lra).
  assert (Q0 : (0 <= x / h)%R) by (apply Rmult_le_pos; [lra|left; apply Rinv_0_lt_compat; lra]).
  assert (z0 : (0 <= z)%Z). { assert (IZR (-1) < IZR z)%R by (cbn; lra). apply lt_IZR in H. lia. }
  assert (Qn : (x / h <= INR n)%R). { rewrite E in Hx. apply Rmult_le_reg_l with h; lra. }
  assert (zn : (z <= Z.of_nat n)%Z). { assert (IZR z <= IZR (Z.of_nat n))%R by (rewrite <- INR_IZR_INZ; lra). apply le_IZR in H. exact H. }
  assert (Iz : IZR z = INR (Z.to_nat z)) by (rewrite INR_IZR_INZ, Z2Nat.id by lia; reflexivity).
  destruct (Rle_lt_dec (x / h - IZR z) (1 / 2)) as [C|C].
  - eapply Rle_trans; [apply (M (Z.to_nat z)); lia|]. rewrite E, <- Iz, Ex.
    replace (h * IZR z - h * (x / h))%R with (- (h * (x / h - IZR z)))%R by ring. rewrite Rabs_Ropp, Rabs_right; nra.
  - assert (z < Z.of_nat n)%Z. { assert (IZR z < IZR (Z.of_nat n))%R by (rewrite <- INR_IZR_INZ; lra). apply lt_IZR in H. exact H. }
    eapply Rle_trans; [apply (M (S (Z.to_nat z))); lia|]. rewrite E, S_INR, <- Iz, Ex.
    replace (h * (IZR z + 1) - h * (x / h))%R with (h * (IZR z + 1 - x / h))%R by ring. rewrite Rabs_right; nra.
Qed.

Theorem C37_error : forall L a b, 1 <= L -> (0 <= a <= 2 - 1 / INR L)%R -> (0 <= b <= 1)%R ->
  exists alpha beta, calc_nearest_grid_point L a b = Ok (alpha, beta) /\
    (Rabs (alpha - a * PI) <= PI / (2 * INR L))%R /\ (Rabs (beta - b * PI) <= PI / (2 * INR L))%R.
Proof.
  intros L a b HL Ha Hb. destruct (C37_nearest L a b HL) as (j & i & E & Hj & Hi).
  assert (Lp : (0 < INR L)%R) by (apply lt_0_INR; lia). assert (P := PI_RGT_0).
  eexists _, _. split; [exact E|]. split.
  - apply (nearest_error L (2 * L - 1)); [exact HL| |replace (2 * L - 1 + 1) with (2 * L) by lia; exact Hj].
    rewrite minus_INR, mult_INR by lia. cbn [INR].
    replace (PI * ((1 + 1) * INR L - 1) / INR L)%R with ((2 - 1 / INR L) * PI)%R by (field; lra). nra.
  - apply (nearest_error L L); [exact HL| |exact Hi].
    replace (PI * INR L / INR L)%R with PI by (field; lra). nra.
Qed.
Print Assumptions C37_error.

(** A request that is a sample is returned unchanged. *)
Theorem C37_exact : forall L p t, 1 <= L -> p < 2 * L -> t <= L ->
  calc_nearest_grid_point L (INR p / INR L) (INR t / INR L)
  = Ok ((PI * INR p / INR L)%R, (PI * INR t / INR L)%R).
Proof.
  intros L p t HL Hp Ht. destruct (C37_nearest L (INR p / INR L) (INR t / INR L) HL) as (j & i & E & Hj & Hi).
  assert (Lp : (0 < INR L)%R) by (apply lt_0_INR; lia).
  assert (Q : forall n k b, k < n -> nearest_first L n (INR k / INR L * PI) b -> (PI * INR b / INR L = PI * INR k / INR L)%R).
  { intros n k b Hk (_ & M & _). specialize (M k Hk).
    replace (PI * INR k / INR L - INR k / INR L * PI)%R with 0%R in M by (field; lra). rewrite Rabs_R0 in M.
    assert (A := Rabs_pos (PI * INR b / INR L - INR k / INR L * PI)).
    destruct (Req_dec (PI * INR b / INR L - INR k / INR L * PI) 0) as [Z|Z]; [|apply Rabs_no_R0 in Z; lra].
    replace (PI * INR k / INR L)%R with (INR k / INR L * PI)%R by (field; lra). lra. }
  rewrite E, (Q (2 * L) p j Hp Hj), (Q (L + 1) t i ltac:(lia) Hi). reflexivity.
Qed.
Print Assumptions C37_exact.

(** The longitudes are compared on a line, not on the circle: a request just
    below [2 PI] gets the last sample although the sample [0] is nearer. *)
Theorem C37_circle_refuted : exists L a b alpha beta, 1 <= L /\ (0 <= a < 2)%R /\
  calc_nearest_grid_point L a b = Ok (alpha, beta) /\
  exists k, k < 2 * L /\ (Rabs (PI * INR k / INR L + 2 * PI - a * PI) < Rabs (alpha - a * PI))%R.
Proof.
  exists 2, (19 / 10)%R, 0%R.
  destruct (C37_nearest 2 (19 / 10) 0 ltac:(lia)) as (j & i & E & (Bj & Mj & Fj) & _).
  eexists _, _. split; [lia|]. split; [lra|]. split; [exact E|]. exists 0. split; [lia|].
  assert (P := PI_RGT_0). cbn [INR] in *.
  replace (PI * 0 / (1 + 1) + 2 * PI - 19 / 10 * PI)%R with (PI / 10)%R by field. rewrite Rabs_right by lra.
  assert (K : forall k, k < 4 -> (2 * PI / 5 <= Rabs (PI * INR k / (1 + 1) - 19 / 10 * PI))%R).
  { intros k Hk. assert ((INR k <= 3)%R) by (replace 3%R with (INR 3) by (cbn; lra); apply le_INR; lia).
    rewrite Rabs_left1; nra. }
  specialize (K j Bj). lra.
Qed.
Print Assumptions C37_circle_refuted.

Example C37_example : calc_nearest_grid_point 4 (3 / 4) (1 / 2) = Ok ((3 * PI / 4)%R, (PI / 2)%R).
Proof.
  replace (3 / 4)%R with (INR 3 / INR 4)%R by (cbn [INR]; field). replace (1 / 2)%R with (INR 2 / INR 4)%R by (cbn [INR]; field).
  rewrite C37_exact by lia. cbn [INR]. do 2 f_equal; field.
Qed.

(** ** C38 *)
(** Some entry is farther from the maximum than the tolerances of
    [np.allclose]. *)
Definition spread (f : list R) : Prop :=
  exists mx y, is_max f mx /\ In y f /\ (1 / 10 ^ 8 + 1 / 10 ^ 5 * Rabs mx < Rabs (y - mx))%R.

Lemma nonempty_of_in {A} (x : A) l : In x l -> l <> [].
Proof. destruct l; [intros []|discriminate]. Qed.
Lemma is_max_unique l a b : is_max l a -> is_max l b -> a = b.
Proof. intros [A MA] [B MB]. apply Rle_antisym; auto. Qed.

Lemma tol_pos x : (0 < 1 / 10 ^ 8 + 1 / 10 ^ 5 * Rabs x)%R.
Proof. assert (A := Rabs_pos x). lra. Qed.

Theorem C38_range : forall f, spread f ->
  exists out, normalise_function f true = Ok out /\ List.length out = List.length f /\
    is_min out 0 /\ is_max out 1 /\
    forall i j, i < List.length f -> j < List.length f ->
      ((nth i f 0 < nth j f 0)%R <-> (nth i out 0 < nth j out 0)%R).
Proof.
  intros f (mx & y & Hm & Hy & Hs). assert (Ne := nonempty_of_in y f Hy).
  assert (T := tol_pos mx).
  unfold normalise_function. cbn [negb].
  destruct (forallb (fun y0 => Reqb y0 0) f) eqn:Z.
  { exfalso. apply all_zero_spec with (y := y) in Z as Zy; [|exact Hy].
    apply all_zero_spec with (y := mx) in Z as Zm; [|apply Hm]. subst y mx.
    rewrite Rminus_0_r, Rabs_R0 in *. lra. }
  destruct (np_max_ok f Ne) as (m1 & E1 & H1). assert (m1 = mx) by (eapply is_max_unique; eassumption). subst m1.
  rewrite E1. cbn [rbind]. destruct (allclose f mx) eqn:Ac.
  { exfalso. rewrite allclose_spec in Ac. specialize (Ac y Hy). lra. }
  destruct (np_min_ok f Ne) as (mn & E2 & H2). rewrite E2. cbn [rbind].
  assert (W : (0 < mx - mn)%R).
  { assert (y <= mx)%R by (apply Hm; exact Hy). assert (mn <= y)%R by (apply H2; exact Hy).
    assert (y <> mx) by (intros ->; rewrite Rminus_diag_eq, Rabs_R0 in Hs by reflexivity; lra). lra. }
  unfold np_div. destruct (Reqb (mx - mn) 0) eqn:Q; [apply Reqb_spec in Q; lra|].
  rewrite map_map. set (g := fun x => ((x - mn) / (mx - mn))%R).
  exists (map g f). split; [reflexivity|]. split; [apply map_length|].
  assert (Gm : forall a b, (a < b <-> g a < g b)%R).
  { intros a b. unfold g. split; intros Hab.
    - apply Rmult_lt_compat_r; [apply Rinv_0_lt_compat; lra|lra].
    - apply Rmult_lt_reg_r in Hab; [lra|apply Rinv_0_lt_compat; lra]. }
  assert (Gmn : g mn = 0%R) by (unfold g; field; lra). assert (Gmx : g mx = 1%R) by (unfold g; field; lra).
  assert (Gle : forall a b, (a <= b -> g a <= g b)%R).
  { intros a b [H| ->]; [left; exact (proj1 (Gm a b) H)|right; reflexivity]. }
  split; [|split].
  - split; [rewrite <- Gmn; apply in_map; apply H2|]. intros z Hz. apply in_map_iff in Hz as (a & <- & Ha). rewrite <- Gmn. apply Gle, H2, Ha.
  - split; [rewrite <- Gmx; apply in_map; apply Hm|]. intros z Hz. apply in_map_iff in Hz as (a & <- & Ha). rewrite <- Gmx. apply Gle, Hm, Ha.
  - intros i j Hi Hj. rewrite (nth_indep (map g f) 0%R (g 0%R) (n := i)) by (rewrite map_length; exact Hi).
    rewrite (nth_indep (map g f) 0%R (g 0%R) (n := j)) by (rewrite map_length; exact Hj). rewrite !map_nth. apply Gm.
Qed.
Print Assumptions C38_range.

(** Constant data. *)
Theorem C38_constant : forall c n, c <> 0%R -> normalise_function (repeat c (S n)) true = Ok (repeat 1%R (S n)).
Proof.
  intros c n Hc. assert (Hin : forall y, In y (repeat c (S n)) -> y = c) by (intros; eapply repeat_spec; eassumption).
  unfold normalise_function. cbn [negb].
  destruct (forallb (fun y => Reqb y 0) (repeat c (S n))) eqn:Z.
  { exfalso. apply Hc. apply all_zero_spec with (y := c) in Z; [exact Z|left; reflexivity]. }
  destruct (np_max_ok (repeat c (S n))) as (m & E & Hm); [discriminate|]. rewrite E. cbn [rbind].
  assert (m = c) by apply Hin, Hm. subst m.
  destruct (allclose (repeat c (S n)) c) eqn:A.
  2:{ exfalso. assert (allclose (repeat c (S n)) c = true); [|congruence]. apply allclose_spec. intros y Hy. rewrite (Hin y Hy).
      rewrite Rminus_diag_eq, Rabs_R0 by reflexivity. left. apply tol_pos. }
  unfold np_div. destruct (Reqb c 0) eqn:Q; [apply Reqb_spec in Q; congruence|]. f_equal.
  assert (H : forall k, map (fun y => (y / c)%R) (repeat c k) = repeat 1%R k).
  { intros k. induction k as [|k IH]; [reflexivity|]. cbn [repeat map]. rewrite IH. f_equal. field. exact Hc. }
  apply H.
Qed.
Print Assumptions C38_constant.

Theorem C38_zero : forall n, normalise_function (repeat 0%R n) true = Ok (repeat (1 / 2)%R n).
Proof.
  intros n. unfold normalise_function. cbn [negb].
  assert (Z : forallb (fun y => Reqb y 0) (repeat 0%R n) = true) by (apply all_zero_spec; intros y Hy; eapply repeat_spec; eassumption).
  rewrite Z. f_equal. clear Z. induction n as [|n IH]; [reflexivity|]. cbn [repeat map]. rewrite IH. f_equal. lra.
Qed.
Print Assumptions C38_zero.

(** Without normalisation nothing changes. *)
Theorem C38_off : forall f, normalise_function f false = Ok f.
Proof. reflexivity. Qed.
Print Assumptions C38_off.

Lemma np_max_2 x y : np_max [x; y] = Ok (Rmax x y). Proof. reflexivity. Qed.
Lemma near_constant_2 x y : (y <= x)%R -> (x <> 0)%R -> (Rabs (y - x) <= 1 / 10 ^ 8 + 1 / 10 ^ 5 * Rabs x)%R ->
  normalise_function [x; y] true = Ok [(x / x)%R; (y / x)%R].
Proof.
  intros Hxy Hx Hc. unfold normalise_function. cbn [negb].
  destruct (forallb (fun z => Reqb z 0) [x; y]) eqn:Z.
  { exfalso. apply Hx. apply all_zero_spec with (y := x) in Z; [exact Z|left; reflexivity]. }
  rewrite np_max_2. cbn [rbind]. rewrite Rmax_left by exact Hxy.
  destruct (allclose [x; y] x) eqn:A.
  2:{ exfalso. assert (allclose [x; y] x = true); [|congruence]. apply allclose_spec. intros z [<-|[<-|[]]]; [|exact Hc].
      rewrite Rminus_diag_eq, Rabs_R0 by reflexivity. left. apply tol_pos. }
  unfold np_div. destruct (Reqb x 0) eqn:Q; [apply Reqb_spec in Q; congruence|]. reflexivity.
Qed.

(** Nearly constant data: values outside [0, 1], and reversed order. *)
Theorem C38_near_constant_refuted :
  (exists f out, normalise_function f true = Ok out /\ exists y, In y out /\ (y < 0)%R) /\
  (exists f out, normalise_function f true = Ok out /\ exists y, In y out /\ (1 < y)%R) /\
  (exists f out, normalise_function f true = Ok out /\
     exists i j, i < List.length f /\ j < List.length f /\ (nth i f 0 < nth j f 0)%R /\ (nth j out 0 < nth i out 0)%R).
Proof.
  assert (N : normalise_function [(-1)%R; (- (1 + 1 / 10 ^ 6))%R] true = Ok [(-1 / -1)%R; (- (1 + 1 / 10 ^ 6) / -1)%R]).
  { apply near_constant_2; [lra|lra|]. replace (- (1 + 1 / 10 ^ 6) - -1)%R with (- (1 / 10 ^ 6))%R by field.
    rewrite Rabs_Ropp, Rabs_right by lra. replace (Rabs (-1)) with 1%R by (rewrite Rabs_left; lra). lra. }
  split; [|split].
  - exists [(1 / 10 ^ 9)%R; (- (1 / 10 ^ 9))%R]. eexists. split.
    + apply near_constant_2; [lra|lra|]. replace (- (1 / 10 ^ 9) - 1 / 10 ^ 9)%R with (- (2 / 10 ^ 9))%R by field.
      rewrite Rabs_Ropp, Rabs_right by lra. assert (T := Rabs_pos (1 / 10 ^ 9)). lra.
    + eexists. split; [right; left; reflexivity|]. lra.
  - eexists _, _. split; [exact N|]. eexists. split; [right; left; reflexivity|]. lra.
  - eexists _, _. split; [exact N|]. exists 1, 0. cbn [List.length nth]. repeat split; [lia|lia|lra|lra].
Qed.
Print Assumptions C38_near_constant_refuted.

(** Data with maximum zero that are nearly constant are divided by zero. *)
Theorem C38_zero_maximum_refuted : exists f, f <> [] /\ (exists y, In y f /\ y <> 0%R) /\
  normalise_function f true = Err ZeroDivisionError.
Proof.
  exists [0%R; (- (1 / 10 ^ 9))%R]. split; [discriminate|]. split.
  { eexists. split; [right; left; reflexivity|]. intros H. lra. }
  unfold normalise_function. cbn [negb].
  destruct (forallb (fun z => Reqb z 0) [0%R; (- (1 / 10 ^ 9))%R]) eqn:Z.
  { exfalso. apply all_zero_spec with (y := (- (1 / 10 ^ 9))%R) in Z; [lra|right; left; reflexivity]. }
  rewrite np_max_2. cbn [rbind]. rewrite Rmax_left by lra.
  destruct (allclose _ 0) eqn:A.
  2:{ exfalso. match type of A with ?x = false => assert (x = true); [|congruence] end. apply allclose_spec.
      rewrite Rabs_R0. intros z [<-|[<-|[]]]; rewrite Rminus_0_r; [rewrite Rabs_R0|rewrite Rabs_Ropp, Rabs_right]; lra. }
  unfold np_div. destruct (Reqb 0 0) eqn:Q; [reflexivity|]. apply Reqb_false in Q. congruence.
Qed.
Print Assumptions C38_zero_maximum_refuted.

Example C38_spread_example : spread [1%R; 3%R; 2%R].
Proof.
  exists 3%R, 1%R. repeat split; [right; left; reflexivity| |left; reflexivity|].
  - intros y [<-|[<-|[<-|[]]]]; lra.
  - replace (1 - 3)%R with (-2)%R by lra. rewrite (Rabs_left (-2)) by lra. rewrite (Rabs_right 3) by lra. lra.
Qed.

(** ** C47 *)
(** The column of the mask that decides about column [j] of a closed plot. *)
Definition closing (L j : nat) : nat := if j =? 2 * L then 0 else j.

Theorem C47_masked : forall land L r fs mask fs' f, 1 <= L ->
  create_mask_region land L (sample_grid L) r fs = Ok (mask, fs') ->
  shape f = repeat (2 * L + 1) (L + 1) ->
  exists out, set_outside_region_to_minimum land f L r fs = Ok (out, fs') /\ shape out = shape f /\
    forall i j, i <= L -> j <= 2 * L ->
      exists b x, sample mask i (closing L j) = Some b /\ sample f i j = Some x /\
        sample out i j = Some (if b then x else SPHERE_UNSEEN).
Proof.
  intros land L r fs mask fs' f HL Hm Hf. unfold set_outside_region_to_minimum. rewrite Hm. cbn [rbind].
  assert (Sm := region_mask_shape _ _ _ _ _ _ _ Hm). rewrite grid_shape in Sm.
  destruct (shape_rows _ _ _ Sm) as [Hmh Hmw]. destruct (shape_rows _ _ _ Hf) as [Hfh Hfw].
  assert (Wp : 1 <= n_phi L) by (unfold n_phi; lia).
  rewrite (insert_first_ok (n_phi L) mask Wp Hmw). cbn [rbind].
  set (cm := map (fun row => row ++ firstn 1 row) mask).
  assert (Sc : shape cm = shape f).
  { rewrite Hf. apply shape_lengths; [unfold cm; rewrite map_length; exact Hmh|].
    intros row Hr. apply in_map_iff in Hr as (row0 & <- & Hr). specialize (Hmw row0 Hr).
    destruct row0 as [|x t]; [cbn in Hmw; lia|]. rewrite app_length, Hmw. unfold n_phi. cbn. lia. }
  destruct (where_ok cm f SPHERE_UNSEEN Sc) as (out & Eo & So). rewrite Eo. cbn [rbind].
  exists out. split; [reflexivity|]. split; [exact So|]. intros i j Hi Hj.
  assert (Sb : exists b, sample mask i (closing L j) = Some b).
  { unfold sample. destruct (nth_error mask i) as [row|] eqn:E; [|apply nth_error_None in E; unfold n_theta in *; lia].
    assert (Lr := Hmw row (nth_error_In _ _ E)). destruct (nth_error row (closing L j)) eqn:E'; [eexists; reflexivity|].
    apply nth_error_None in E'. exfalso. unfold closing, n_phi in *. destruct (Nat.eqb_spec j (2 * L)); lia. }
  assert (Sx : exists x, sample f i j = Some x).
  { unfold sample. destruct (nth_error f i) as [row|] eqn:E; [|apply nth_error_None in E; lia].
    assert (Lr := Hfw row (nth_error_In _ _ E)). destruct (nth_error row j) eqn:E'; [eexists; reflexivity|].
    apply nth_error_None in E'. lia. }
  destruct Sb as [b Sb]. destruct Sx as [x Sx]. exists b, x. split; [exact Sb|]. split; [exact Sx|].
  rewrite (sample_where _ _ _ _ i j Eo), Sx. unfold cm. rewrite (sample_closed (n_phi L) mask i j Wp Hmw).
  unfold closing, n_phi in *. destruct (Nat.ltb_spec j (2 * L)).
  - destruct (Nat.eqb_spec j (2 * L)); [lia|]. rewrite Sb. destruct b; reflexivity.
  - destruct (Nat.eqb_spec j (2 * L)); [|lia]. rewrite Sb. destruct b; reflexivity.
Qed.
Print Assumptions C47_masked.

(** For caps and boxes the decision is by the angles of the sample. *)
Theorem C47_angles : forall land L r fs f, 1 <= L -> r_region_type r <> Arbitrary ->
  shape f = repeat (2 * L + 1) (L + 1) ->
  exists out, set_outside_region_to_minimum land f L r fs = Ok (out, fs) /\
    forall i j, i <= L -> j <= 2 * L ->
      let theta := (PI * INR i / INR L)%R in let phi := (PI * INR (closing L j) / INR L)%R in
      let inside := match r_region_type r with
                    | Polar => (theta <= r_theta_max r)%R
                               \/ (r_gap r = true /\ (PI - r_theta_max r <= theta)%R)
                    | _ => (r_theta_min r <= theta <= r_theta_max r)%R /\ (r_phi_min r <= phi <= r_phi_max r)%R
                    end in
      exists x, sample f i j = Some x /\ (inside -> sample out i j = Some x) /\
        (~ inside -> sample out i j = Some SPHERE_UNSEEN).
Proof.
  intros land L r fs f HL Ht Hf.
  assert (Hm : exists mask, create_mask_region land L (sample_grid L) r fs = Ok (mask, fs)).
  { unfold create_mask_region. destruct (r_region_type r); [eexists; reflexivity|eexists; reflexivity|congruence]. }
  destruct Hm as (mask & Hm). destruct (C47_masked land L r fs mask fs f HL Hm Hf) as (out & Eo & So & Ho).
  exists out. split; [exact Eo|]. intros i j Hi Hj. cbv zeta.
  destruct (Ho i j Hi Hj) as (b & x & Sb & Sx & Sout). exists x. split; [exact Sx|].
  assert (Cj : closing L j < 2 * L) by (unfold closing; destruct (Nat.eqb_spec j (2 * L)); lia).
  assert (G : sample (sample_grid L) i (closing L j) = Some ((PI * INR i / INR L)%R, (PI * INR (closing L j) / INR L)%R)).
  { apply grid_sample; unfold n_theta, n_phi; lia. }
  rewrite Sout. unfold create_mask_region in Hm. destruct (r_region_type r) eqn:Tr; [| |congruence].
  - injection Hm as <-. rewrite grid_map_sample, G in Sb. cbn [option_map fst snd] in Sb. injection Sb as Sb.
    split; intros H; f_equal; destruct b; try reflexivity; exfalso.
    + apply polar_mask_spec in H. congruence.
    + apply H. apply polar_mask_spec. exact Sb.
  - injection Hm as <-. rewrite grid_map_sample, G in Sb. cbn [option_map fst snd] in Sb. injection Sb as Sb.
    split; intros H; f_equal; destruct b; try reflexivity; exfalso.
    + assert (K := proj2 (lat_lon_mask_spec (r_phi_max r) (r_phi_min r) (r_theta_max r) (r_theta_min r) (PI * INR i / INR L) (PI * INR (closing L j) / INR L))).
      rewrite K in Sb; [discriminate|]. tauto.
    + apply H. apply lat_lon_mask_spec in Sb. tauto.
Qed.
Print Assumptions C47_angles.

(** A plot that was not closed is rejected. *)
Theorem C47_not_closed : forall land L r fs mask fs' f, 1 <= L ->
  create_mask_region land L (sample_grid L) r fs = Ok (mask, fs') ->
  shape f = repeat (2 * L) (L + 1) -> set_outside_region_to_minimum land f L r fs = Err ValueError.
Proof.
  intros land L r fs mask fs' f HL Hm Hf. unfold set_outside_region_to_minimum. rewrite Hm. cbn [rbind].
  assert (Sm := region_mask_shape _ _ _ _ _ _ _ Hm). rewrite grid_shape in Sm.
  destruct (shape_rows _ _ _ Sm) as [Hmh Hmw].
  rewrite (insert_first_ok (n_phi L) mask ltac:(unfold n_phi; lia) Hmw). cbn [rbind].
  unfold where_rows. destruct (shape_eqb _ _) eqn:E; [|reflexivity]. exfalso. apply shape_eqb_spec in E. rewrite Hf in E.
  destruct mask as [|row0 mask]; [cbn in Hmh; unfold n_theta in Hmh; lia|]. unfold shape in E. cbn [map] in E.
  replace (L + 1) with (S L) in E by lia. cbn [repeat] in E. injection E as E _.
  specialize (Hmw row0 (or_introl eq_refl)). destruct row0 as [|x t]; [cbn in Hmw; unfold n_phi in Hmw; lia|].
  rewrite app_length, Hmw in E. unfold n_phi in E. cbn in E. lia.
Qed.
Print Assumptions C47_not_closed.

(** A 60 degree cap at bandlimit 2: the equator row is hidden, the pole row is
    shown. *)
Definition cap60 : region := mk_region false "" (2 * PI) 0 (PI / 3) 0 "polar60" Polar.
Example C47_example : exists out, set_outside_region_to_minimum (fun _ _ => []) (repeat (repeat 7%R 5) 3) 2 cap60 (fun _ => None)
    = Ok (out, fun _ => None) /\ sample out 0 4 = Some 7%R /\ sample out 1 4 = Some SPHERE_UNSEEN.
Proof.
  destruct (C47_angles (fun _ _ => []) 2 cap60 (fun _ => None) (repeat (repeat 7%R 5) 3)) as (out & E & H);
    [lia|discriminate|reflexivity|].
  exists out. split; [exact E|]. assert (P := PI_RGT_0). split.
  - destruct (H 0 4 ltac:(lia) ltac:(lia)) as (x & Sx & I & _). injection Sx as <-. apply I. cbn. left. lra.
  - destruct (H 1 4 ltac:(lia) ltac:(lia)) as (x & Sx & _ & O). apply O. cbn. intros [K|[K _]]; [lra|discriminate].
Qed.
