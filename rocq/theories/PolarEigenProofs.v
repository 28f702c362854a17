From Coq Require Import List ZArith Arith Bool Reals Permutation Lia Lra.
From Coquelicot Require Import Complex.
From Verif Require Import Base ListLemmas PyNum PyNumProofs Index IndexProofs RSum CSum Eigen SpecEigen EigenProofs.
Import ListNotations.
Local Open Scope nat_scope.

(** ** Scattering into the marked positions *)
Definition trues (mask : list bool) : nat := length (filter (fun b => b) mask).

Lemma scatter_app mask1 mask2 v1 v2 a1 a2 r1 r2 :
  length mask1 = length a1 ->
  scatter mask1 v1 a1 = Ok r1 -> scatter mask2 v2 a2 = Ok r2 ->
  scatter (mask1 ++ mask2) (v1 ++ v2) (a1 ++ a2) = Ok (r1 ++ r2).
Proof.
  revert v1 a1 r1. induction mask1 as [|b mask1 IH]; intros v1 a1 r1 Hl H1 H2.
  - destruct a1; [|discriminate]. cbn in H1. destruct v1; [|discriminate]. injection H1 as <-. exact H2.
  - destruct a1 as [|x a1]; [discriminate|]. cbn in Hl. injection Hl as Hl.
    destruct b; cbn in *.
    + destruct v1 as [|v v1]; [discriminate|].
      destruct (scatter mask1 v1 a1) as [r|] eqn:E; [|discriminate]. cbn in H1. injection H1 as <-.
      cbn. rewrite (IH v1 a1 r Hl E H2). reflexivity.
    + destruct (scatter mask1 v1 a1) as [r|] eqn:E; [|discriminate]. cbn in H1. injection H1 as <-.
      rewrite (IH v1 a1 r Hl E H2). reflexivity.
Qed.

Lemma scatter_ok mask : forall vals a, length mask = length a -> trues mask = length vals ->
  exists r, scatter mask vals a = Ok r /\ length r = length a.
Proof.
  induction mask as [|b mask IH]; intros vals a Hl Ht.
  - destruct a; [|discriminate]. destruct vals; [|discriminate]. exists []. auto.
  - destruct a as [|x a]; [discriminate|]. cbn in Hl. injection Hl as Hl. destruct b; cbn in Ht.
    + destruct vals as [|v vals]; [discriminate|]. cbn in Ht. injection Ht as Ht.
      destruct (IH vals a Hl Ht) as [r [E1 E2]]. exists (v :: r). cbn. rewrite E1. cbn. rewrite E2. auto.
    + destruct (IH vals a Hl Ht) as [r [E1 E2]]. exists (x :: r). cbn. rewrite E1. cbn. rewrite E2. auto.
Qed.

(** Positions of the marks, counted from [s]. *)
Fixpoint marks (s : nat) (mask : list bool) : list nat :=
  match mask with
  | [] => []
  | b :: t => if b then s :: marks (S s) t else marks (S s) t
  end.

Lemma scatter_marks mask : forall s vals a r, scatter mask vals a = Ok r ->
  (forall t j, nth_error (marks s mask) t = Some j -> nth_error r (j - s) = nth_error vals t /\ s <= j)
  /\ (forall j, nth_error mask j = Some false -> nth_error r j = nth_error a j).
Proof.
  induction mask as [|b mask IH]; intros s vals a r H.
  - split; [intros [|t] j; discriminate|intros [|j]; discriminate].
  - destruct a as [|x a]; [destruct b; discriminate|]. destruct b; cbn in H.
    + destruct vals as [|v vals]; [discriminate|].
      destruct (scatter mask vals a) as [r'|] eqn:E; [|discriminate]. cbn in H. injection H as <-.
      destruct (IH (S s) vals a r' E) as [A B]. split.
      * intros [|t] j Hj; cbn in Hj.
        -- injection Hj as <-. rewrite Nat.sub_diag. auto.
        -- destruct (A t j Hj) as [A1 A2]. split; [|lia].
           replace (j - s) with (S (j - S s)) by lia. cbn. exact A1.
      * intros [|j] Hj; [discriminate|]. cbn in *. auto.
    + destruct (scatter mask vals a) as [r'|] eqn:E; [|discriminate]. cbn in H. injection H as <-.
      destruct (IH (S s) vals a r' E) as [A B]. split.
      * intros t j Hj; cbn in Hj. destruct (A t j Hj) as [A1 A2]. split; [|lia].
        replace (j - s) with (S (j - S s)) by lia. cbn. exact A1.
      * intros [|j] Hj; [reflexivity|]. cbn in *. auto.
Qed.

Lemma marks_filter (f : nat -> bool) n : forall s, marks s (map f (seq s n)) = filter f (seq s n).
Proof.
  induction n as [|n IH]; intros s; [reflexivity|]. cbn. rewrite IH. destruct (f s); reflexivity.
Qed.

Lemma trues_filter {A} (f : A -> bool) l : trues (map f l) = length (filter f l).
Proof. unfold trues. induction l as [|x l IH]; [reflexivity|]. cbn. destruct (f x); cbn; auto. Qed.

Lemma reshape_concat {A} w (rows : list (list A)) :
  Forall (fun r => length r = w) rows -> reshape (length rows) w (concat rows) = rows.
Proof.
  induction 1 as [|r rows Hr HF IH]; [reflexivity|]. cbn.
  rewrite firstn_app, skipn_app, Hr, Nat.sub_diag. cbn.
  rewrite firstn_all2, app_nil_r by lia. rewrite (skipn_all2 r) by lia. cbn. rewrite IH. reflexivity.
Qed.

Lemma scatter_rows mask w gl :
  length mask = w -> Forall (fun v : list R => length v = trues mask) gl ->
  exists rows, scatter (concat (repeat mask (length gl))) (map RtoC (concat gl)) (repeat (RtoC 0) (length gl * w))
     = Ok (concat rows) /\ length rows = length gl /\ Forall (fun r => length r = w) rows /\
     (forall k v r, nth_error gl k = Some v -> nth_error rows k = Some r -> scatter mask (map RtoC v) (repeat (RtoC 0) w) = Ok r).
Proof.
  intros Hw HF. induction HF as [|v gl Hv HF IH].
  - exists []. cbn. split; [reflexivity|]. split; [reflexivity|]. split; [constructor|]. intros [|k]; discriminate.
  - destruct IH as (rows & E & Hl & Hr & Hs).
    destruct (scatter_ok mask (map RtoC v) (repeat (RtoC 0) w)) as [r [E1 E2]].
    { rewrite repeat_length. exact Hw. } { rewrite map_length. auto. }
    exists (r :: rows). cbn [length repeat concat]. rewrite map_app. cbn [Nat.mul]. rewrite repeat_app.
    split; [|split; [|split]].
    + apply scatter_app; try assumption. rewrite repeat_length. exact Hw.
    + cbn. lia.
    + constructor; [|assumption]. rewrite E2, repeat_length. reflexivity.
    + intros [|k] v' r' Hk Hr'; cbn in *; [congruence|]. eauto.
Qed.

(** ** A block eigenvector placed in the harmonic slots of order [m] *)
Definition placed (L : nat) (m : Z) (c : C) (v : list R) (row : list C) : Prop :=
  length row = L * L /\
  (forall j, j < L * L -> snd (ind2elm j) <> m -> nth j row (RtoC 0) = RtoC 0) /\
  (forall el, Z.abs_nat m <= el < L ->
     nth (elm2ind el m) row (RtoC 0) = Cmult c (RtoC (nth (el - Z.abs_nat m) v 0%R))).

Lemma placed_scale L m c d v row : placed L m c v row -> placed L m (Cmult d c) v (map (Cmult d) row).
Proof.
  intros (H1 & H2 & H3). split; [rewrite map_length; exact H1|].
  assert (N : forall j, nth j (map (Cmult d) row) (RtoC 0) = Cmult d (nth j row (RtoC 0))).
  { intros. apply nth_map_C. ring. }
  split.
  - intros j Hj Hm. rewrite N, (H2 j Hj Hm). ring.
  - intros el He. rewrite N, (H3 el He). ring.
Qed.

Lemma scatter_placed L m v r :
  length v = L - Z.abs_nat m ->
  scatter (map (fun j => Z.eqb (snd (ind2elm j)) m) (seq 0 (L * L))) (map RtoC v)
    (repeat (RtoC 0) (L * L)) = Ok r ->
  placed L m (RtoC 1) v r.
Proof.
  intros Hv E. set (f := fun j => Z.eqb (snd (ind2elm j)) m) in *.
  assert (Hl : length r = L * L).
  { destruct (scatter_ok (map f (seq 0 (L * L))) (map RtoC v) (repeat (RtoC 0) (L * L))) as [r' [E1 E2]].
    - rewrite map_length, seq_length, repeat_length. reflexivity.
    - rewrite trues_filter, map_length. unfold f. rewrite order_count. auto.
    - rewrite E in E1. injection E1 as <-. rewrite E2, repeat_length. reflexivity. }
  destruct (scatter_marks _ 0 _ _ _ E) as [A B]. split; [exact Hl|]. split.
  - intros j Hj Hm. apply nth_error_nth. rewrite (B j).
    + rewrite (nth_error_nth' _ (RtoC 0)) by (rewrite repeat_length; exact Hj).
      rewrite nth_repeat. reflexivity.
    + rewrite nth_error_map, nth_error_seq by exact Hj. cbn. unfold f. f_equal. apply Z.eqb_neq. exact Hm.
  - intros el He. rewrite marks_filter in A. unfold f in A. rewrite filter_order in A.
    destruct (A (el - Z.abs_nat m) (elm2ind el m)) as [A1 _].
    + rewrite nth_error_map, nth_error_seq by lia. cbn. do 2 f_equal. lia.
    + rewrite Nat.sub_0_r in A1. apply nth_error_nth. rewrite A1, nth_error_map.
      rewrite (nth_error_nth' v 0%R) by lia. cbn. f_equal. ring.
Qed.

(** A sum over all slots of a product that vanishes outside order [m]. *)
Lemma clsum_filter {A} (P : A -> bool) (f : A -> C) l :
  (forall x, In x l -> P x = false -> f x = RtoC 0) ->
  clsum (map f l) = clsum (map f (filter P l)).
Proof.
  induction l as [|x l IH]; intros H; [reflexivity|]. cbn [map filter].
  assert (E : clsum (f x :: map f l) = Cplus (f x) (clsum (map f l))) by reflexivity.
  rewrite E, IH by (intros; apply H; [right|]; assumption).
  destruct (P x) eqn:F; [reflexivity|]. rewrite (H x (or_introl eq_refl) F). ring.
Qed.

Lemma csum_order L m (f : nat -> C) :
  (forall j, j < L * L -> snd (ind2elm j) <> m -> f j = RtoC 0) ->
  csum (L * L) f = csum (L - Z.abs_nat m) (fun t => f (elm2ind (Z.abs_nat m + t) m)).
Proof.
  intros H. rewrite <- clsum_map_seq.
  rewrite (clsum_filter (fun j => Z.eqb (snd (ind2elm j)) m)).
  - rewrite filter_order, map_map, clsum_map_seq_s. reflexivity.
  - intros j Hj Hm. apply in_seq in Hj. apply H; [lia|]. apply Z.eqb_neq. exact Hm.
Qed.

Lemma placed_dot L m c d u v ru rv :
  placed L m c u ru -> placed L m d v rv ->
  cdot (L * L) ru rv = Cmult (Cmult c (Cconj d)) (RtoC (rdot (L - Z.abs_nat m) u v)).
Proof.
  intros (U1 & U2 & U3) (V1 & V2 & V3). unfold cdot, rdot.
  rewrite (csum_order L m).
  - rewrite <- csum_RtoC, <- csum_scal_l. apply csum_ext. intros t Ht.
    rewrite U3, V3 by lia. replace (Z.abs_nat m + t - Z.abs_nat m) with t by lia.
    rewrite Cconj_mult, Cconj_R, RtoC_mult. ring.
  - intros j Hj Hm. rewrite (U2 j Hj Hm). ring.
Qed.

Lemma placed_cross L m m' c d u v ru rv :
  m <> m' -> placed L m c u ru -> placed L m' d v rv -> cdot (L * L) ru rv = RtoC 0.
Proof.
  intros N (U1 & U2 & U3) (V1 & V2 & V3). unfold cdot. apply csum_zero. intros j Hj.
  destruct (Z.eq_dec (snd (ind2elm j)) m) as [E|E].
  - rewrite (V2 j Hj) by congruence. rewrite Cconj_R. ring.
  - rewrite (U2 j Hj E). ring.
Qed.

(** The phase of a row of order [m]. *)
Definition order_phase (m : Z) (c : C) : Prop :=
  (m < 0 /\ (c = Ci \/ c = Copp Ci))%Z \/ (0 <= m /\ (c = RtoC 1 \/ c = RtoC (-1)))%Z.

Lemma order_phase_unit m c : order_phase m c -> unit_c c.
Proof.
  intros [[_ [->| ->]]|[_ [->| ->]]].
  - apply unit_i.
  - unfold unit_c. apply C_ext; cbn; ring.
  - apply unit_1.
  - apply unit_m1.
Qed.

Section Polar.
  Variable argsort : list R -> list nat.
  Hypothesis sorted : argsort_ok argsort.

  (** The result of one order. *)
  Definition order_result (L : nat) (m : Z) (evals : list R) (gl : list (list R))
      (evals' : list R) (rows : list (list C)) : Prop :=
    length evals' = L - Z.abs_nat m /\ length rows = L - Z.abs_nat m /\
    Permutation evals' evals /\ descending evals' /\
    exists idx, NoDup idx /\
    forall p row, nth_error rows p = Some row ->
      exists k v c, nth_error idx p = Some k /\ nth_error gl k = Some v /\
        nth p evals' 0%R = nth k evals 0%R /\
        order_phase m c /\ placed L m c v row.

  Lemma clean_polar_spec L m evals gl emm :
    create_emm_vector L = Ok emm ->
    length evals = L - Z.abs_nat m -> length gl = L - Z.abs_nat m ->
    (forall k v, nth_error gl k = Some v -> length v = L - Z.abs_nat m) ->
    exists evals' rows, clean_polar argsort L evals gl emm m = Ok (evals', rows) /\
      order_result L m evals gl evals' rows.
  Proof.
    intros He H1 H2 H3. unfold clean_polar.
    rewrite (idx_evals argsort sorted). cbn [rbind].
    destruct (fancy_cols argsort sorted evals gl) as (gl' & C1 & C2 & C3); [congruence|]. rewrite C1. cbn [rbind].
    assert (EM : firstn (L * L) emm = map (fun i => snd (ind2elm i)) (seq 0 (L * L))).
    { rewrite emm_vector_map in He. assert (X : emm = map (fun i => snd (ind2elm i)) (seq 0 (2 * L * 2 * L))) by congruence.
      rewrite X, firstn_map, firstn_seq by nia. reflexivity. }
    rewrite EM, map_map.
    set (mask := map (fun x => Z.eqb (snd (ind2elm x)) m) (seq 0 (L * L))).
    assert (HT : trues mask = L - Z.abs_nat m) by (unfold mask; rewrite trues_filter; apply order_count).
    destruct (scatter_rows mask (L * L) gl') as (rows & S1 & S2 & S3 & S4).
    { unfold mask. rewrite map_length, seq_length. reflexivity. }
    { apply Forall_forall. intros v Hv. apply In_nth_error in Hv. destruct Hv as [p Hp].
      destruct (C3 p v Hp) as [k [_ K]]. rewrite HT. eauto. }
    replace (L - Z.abs_nat m) with (length gl') by congruence.
    rewrite S1. cbn [rbind]. rewrite <- S2, reshape_concat by exact S3.
    eexists. eexists. split; [reflexivity|].
    split; [rewrite map_length, (idx_length argsort sorted); exact H1|].
    split; [destruct (m <? 0)%Z; rewrite ?map_length; congruence|].
    split; [apply (idx_evals_perm argsort sorted)|]. split; [apply (idx_descending argsort sorted)|].
    exists (rev (argsort evals)). split; [apply (idx_nodup argsort sorted)|].
    intros p row Hp.
    assert (G : exists r, nth_error rows p = Some r /\
                exists c, order_phase m c /\ (row = map (Cmult c) r)).
    { destruct (Z.ltb_spec m 0) as [Hm|Hm].
      - rewrite !nth_error_map in Hp. destruct (nth_error rows p) as [r|]; [|discriminate].
        exists r. split; [reflexivity|]. cbn in Hp. injection Hp as <-.
        destruct (fix_sign_eq r) as [c [_ [[->| ->] ->]]].
        + exists Ci. split; [left; auto|]. rewrite map_map. apply map_ext. intros; ring.
        + exists (Copp Ci). split; [left; auto|]. rewrite map_map. apply map_ext. intros a.
          apply C_ext; cbn; ring.
      - rewrite nth_error_map in Hp. destruct (nth_error rows p) as [r|]; [|discriminate].
        exists r. split; [reflexivity|]. cbn in Hp. injection Hp as <-.
        destruct (fix_sign_eq r) as [c [_ [Hc ->]]]. exists c. split; [right; auto|reflexivity]. }
    destruct G as [r [Hr [c [Hc ->]]]].
    assert (P : p < length gl') by (rewrite <- S2; apply nth_error_Some; rewrite Hr; discriminate).
    destruct (nth_error gl' p) as [v|] eqn:Ev; [|apply nth_error_None in Ev; lia].
    destruct (C3 p v Ev) as [k [K1 K2]]. exists k, v, c.
    split; [exact K1|]. split; [exact K2|]. split; [apply nth_error_nth; rewrite nth_error_map, K1; reflexivity|].
    split; [exact Hc|].
    replace c with (Cmult c (RtoC 1)) at 1 by ring. apply placed_scale. apply scatter_placed; [eauto|].
    apply (S4 p v r Ev Hr).
  Qed.

  (** The rows, explicitly. *)
  Definition order_mask (L : nat) (m : Z) : list bool :=
    map (fun j => Z.eqb (snd (ind2elm j)) m) (seq 0 (L * L)).

  Lemma clean_polar_rows L m evals gl emm :
    create_emm_vector L = Ok emm ->
    length evals = L - Z.abs_nat m -> length gl = L - Z.abs_nat m ->
    (forall k v, nth_error gl k = Some v -> length v = L - Z.abs_nat m) ->
    exists rows, clean_polar argsort L evals gl emm m
      = Ok (map (fun i => nth i evals 0%R) (rev (argsort evals)), rows) /\
      length rows = L - Z.abs_nat m /\
      forall p row, nth_error rows p = Some row ->
        exists k v r, nth_error (rev (argsort evals)) p = Some k /\ nth_error gl k = Some v /\
          scatter (order_mask L m) (map RtoC v) (repeat (RtoC 0) (L * L)) = Ok r /\
          row = (if (m <? 0)%Z then map (fun y => Cmult Ci y) (fix_sign r) else fix_sign r).
  Proof.
    intros He H1 H2 H3. unfold clean_polar.
    rewrite (idx_evals argsort sorted). cbn [rbind].
    destruct (fancy_cols argsort sorted evals gl) as (gl' & C1 & C2 & C3); [congruence|]. rewrite C1. cbn [rbind].
    assert (EM : firstn (L * L) emm = map (fun i => snd (ind2elm i)) (seq 0 (L * L))).
    { rewrite emm_vector_map in He. assert (X : emm = map (fun i => snd (ind2elm i)) (seq 0 (2 * L * 2 * L))) by congruence.
      rewrite X, firstn_map, firstn_seq by nia. reflexivity. }
    rewrite EM, map_map. fold (order_mask L m).
    assert (HT : trues (order_mask L m) = L - Z.abs_nat m) by (unfold order_mask; rewrite trues_filter; apply order_count).
    destruct (scatter_rows (order_mask L m) (L * L) gl') as (rows & S1 & S2 & S3 & S4).
    { unfold order_mask. rewrite map_length, seq_length. reflexivity. }
    { apply Forall_forall. intros v Hv. apply In_nth_error in Hv. destruct Hv as [p Hp].
      destruct (C3 p v Hp) as [k [_ K]]. rewrite HT. eauto. }
    replace (L - Z.abs_nat m) with (length gl') by congruence.
    rewrite S1. cbn [rbind]. rewrite <- S2, reshape_concat by exact S3.
    eexists. split; [reflexivity|].
    split; [destruct (m <? 0)%Z; rewrite ?map_length; congruence|].
    intros p row Hp.
    assert (G : exists r, nth_error rows p = Some r /\
      row = (if (m <? 0)%Z then map (fun y => Cmult Ci y) (fix_sign r) else fix_sign r)).
    { destruct (m <? 0)%Z; rewrite !nth_error_map in Hp; destruct (nth_error rows p) as [r|]; try discriminate;
        exists r; split; auto; cbn in Hp; congruence. }
    destruct G as [r [Hr ->]].
    assert (P : p < length gl') by (rewrite <- S2; apply nth_error_Some; rewrite Hr; discriminate).
    destruct (nth_error gl' p) as [v|] eqn:Ev; [|apply nth_error_None in Ev; lia].
    destruct (C3 p v Ev) as [k [K1 K2]]. exists k, v, r. repeat (split; try assumption).
    apply (S4 p v r Ev Hr).
  Qed.

  Lemma scatter_opp mask : forall v a r, scatter mask v a = Ok r ->
    scatter mask (map Copp v) (map Copp a) = Ok (map Copp r).
  Proof.
    induction mask as [|b mask IH]; intros v a r H.
    - destruct a; [|discriminate]. destruct v; [|discriminate]. cbn in *. injection H as <-. reflexivity.
    - destruct a as [|x a]; [destruct b; discriminate|]. destruct b; cbn in *.
      + destruct v as [|y v]; [discriminate|]. cbn. destruct (scatter mask v a) eqn:E; [|discriminate].
        cbn in H. injection H as <-. rewrite (IH _ _ _ E). reflexivity.
      + destruct (scatter mask v a) eqn:E; [|discriminate].
        cbn in H. injection H as <-. rewrite (IH _ _ _ E). reflexivity.
  Qed.

  Lemma clean_polar_sign L evals gl gl' emm :
    create_emm_vector L = Ok emm ->
    length evals = L -> length gl = L ->
    (forall k v, nth_error gl k = Some v -> length v = L /\ nth 0 v 0%R <> 0%R) ->
    resigned_r gl gl' ->
    clean_polar argsort L evals gl' emm 0 = clean_polar argsort L evals gl emm 0.
  Proof.
    intros He H1 H2 H3 HR.
    assert (H2' : length gl' = L) by (rewrite <- H2; clear - HR; induction HR; cbn; congruence).
    assert (REL : forall k v v', nth_error gl k = Some v -> nth_error gl' k = Some v' -> v' = v \/ v' = map Ropp v).
    { clear - HR. induction HR as [|a b l l' Hab HF IH]; intros [|k] v v' Hv Hv'; try discriminate; cbn in *.
      - injection Hv as <-. injection Hv' as <-. exact Hab.
      - eauto. }
    assert (H3' : forall k v, nth_error gl' k = Some v -> length v = L).
    { intros k v' Hv'. assert (k < length gl) by (rewrite H2, <- H2'; apply nth_error_Some; rewrite Hv'; discriminate).
      destruct (nth_error gl k) as [v|] eqn:E; [|apply nth_error_None in E; lia].
      destruct (REL k v v' E Hv') as [->| ->]; rewrite ?map_length; apply (H3 k v E). }
    destruct (clean_polar_rows L 0 evals gl emm He) as (rows & E & Ln & HP); try (cbn; lia).
    { intros k v Hv. cbn. rewrite (proj1 (H3 k v Hv)). lia. }
    destruct (clean_polar_rows L 0 evals gl' emm He) as (rows' & E' & Ln' & HP'); try (cbn; lia).
    { intros k v Hv. cbn. rewrite (H3' k v Hv). lia. }
    rewrite E, E'. do 2 f_equal. apply nth_error_ext. intros p.
    destruct (nth_error rows p) as [r|] eqn:Er; destruct (nth_error rows' p) as [r'|] eqn:Er'.
    2:{ apply nth_error_None in Er'. assert (p < length rows) by (apply nth_error_Some; rewrite Er; discriminate). lia. }
    2:{ apply nth_error_None in Er. assert (p < length rows') by (apply nth_error_Some; rewrite Er'; discriminate). lia. }
    2:{ reflexivity. }
    f_equal.
    destruct (HP p r Er) as (k & v & x & K1 & K2 & K3 & ->).
    destruct (HP' p r' Er') as (k' & v' & x' & K1' & K2' & K3' & ->).
    cbn [Z.ltb Z.compare]. assert (k' = k) by congruence. subst k'.
    destruct (REL k v v' K2 K2') as [->| ->].
    - congruence.
    - destruct (H3 k v K2) as [Lv Nv].
      assert (X : x' = map Copp x).
      { apply scatter_opp in K3. rewrite map_map in K3.
        assert (Y : map (fun x => Copp (RtoC x)) v = map RtoC (map Ropp v)).
        { rewrite map_map. apply map_ext. intros y. apply C_ext; cbn; ring. }
        rewrite Y in K3.
        assert (W : map Copp (repeat (RtoC 0) (L * L)) = repeat (RtoC 0) (L * L)).
        { clear. induction (L * L) as [|n IH]; [reflexivity|]. cbn. rewrite IH. f_equal. apply C_ext; cbn; ring. }
        rewrite W in K3. congruence. }
      subst x'. apply fix_sign_opp.
      assert (PL : placed L 0 (RtoC 1) v x) by (apply scatter_placed; [cbn; lia|exact K3]).
      destruct PL as (P1 & P2 & P3).
      assert (L <> 0) by (intros ->; destruct v; cbn in *; [apply Nv; reflexivity|discriminate]).
      specialize (P3 0 ltac:(cbn; lia)). cbn [Z.abs_nat Nat.sub elm2ind] in P3.
      assert (hd (RtoC 0) x = nth 0 x (RtoC 0)) as -> by (destruct x; reflexivity).
      change (elm2ind 0 0) with 0 in P3. rewrite P3. intros Z0. apply Nv.
      apply (f_equal Re) in Z0. cbn in Z0. lra.
  Qed.

  (** For any other order the first slot is empty, so the sign rule does
      nothing: the rows keep the sign that the eigensolver chose. *)
  Lemma clean_polar_keeps_sign L m evals gl emm :
    create_emm_vector L = Ok emm -> m <> 0%Z ->
    length evals = L - Z.abs_nat m -> length gl = L - Z.abs_nat m ->
    (forall k v, nth_error gl k = Some v -> length v = L - Z.abs_nat m) ->
    exists rows, clean_polar argsort L evals gl emm m
      = Ok (map (fun i => nth i evals 0%R) (rev (argsort evals)), rows) /\
      forall p row, nth_error rows p = Some row ->
        exists k v, nth_error (rev (argsort evals)) p = Some k /\ nth_error gl k = Some v /\
          forall el, Z.abs_nat m <= el < L -> nth (elm2ind el m) row (RtoC 0)
            = Cmult (if (m <? 0)%Z then Ci else RtoC 1) (RtoC (nth (el - Z.abs_nat m) v 0%R)).
  Proof.
    intros He Hm H1 H2 H3.
    destruct (clean_polar_rows L m evals gl emm He H1 H2 H3) as (rows & E & Ln & HP).
    exists rows. split; [exact E|]. intros p row Hp.
    destruct (HP p row Hp) as (k & v & r & K1 & K2 & K3 & K4). exists k, v.
    split; [exact K1|]. split; [exact K2|]. intros el Hel.
    assert (PL : placed L m (RtoC 1) v r) by (apply scatter_placed; [eauto|exact K3]).
    destruct PL as (P1 & P2 & P3).
    assert (Z0 : hd (RtoC 0) r = RtoC 0).
    { assert (hd (RtoC 0) r = nth 0 r (RtoC 0)) as -> by (destruct r; reflexivity). apply P2; [nia|].
      change (snd (ind2elm 0)) with 0%Z. congruence. }
    assert (F : fix_sign r = r).
    { destruct r as [|x r]; [reflexivity|]. cbn in Z0. subst x. unfold fix_sign.
      assert (Cltb0 (RtoC 0) = false) as ->.
      { apply not_true_iff_false. rewrite Cltb0_spec. cbn. lra. }
      rewrite <- (map_id (RtoC 0 :: r)) at 2. apply map_ext. intros; ring. }
    rewrite F in K4. destruct (m <? 0)%Z; subst row.
    - rewrite nth_map_C by ring. rewrite P3 by exact Hel. ring.
    - apply P3. exact Hel.
  Qed.

  Lemma solve_order_spec eigh Dm L m :
    (let n := L - Z.abs_nat m in
     eigen_r n (Dm (Z.abs_nat m)) (fst (eigh n (Dm (Z.abs_nat m)))) (snd (eigh n (Dm (Z.abs_nat m))))) ->
    exists evals' rows, solve_order argsort eigh Dm L m = Ok (evals', rows) /\
      order_result L m (fst (eigh (L - Z.abs_nat m) (Dm (Z.abs_nat m))))
        (snd (eigh (L - Z.abs_nat m) (Dm (Z.abs_nat m)))) evals' rows.
  Proof.
    cbv zeta. intros (H1 & H2 & H3 & _). unfold solve_order.
    destruct (emm_vector_spec L) as (emm & E & _). rewrite E. cbn [rbind].
    destruct (eigh (L - Z.abs_nat m) (Dm (Z.abs_nat m))) as [ev gl]. cbn [fst snd] in *.
    exact (clean_polar_spec L m ev gl emm E H1 H2 H3).
  Qed.

  (** Orthonormal rows inside one order. *)
  Lemma order_orthonormal L m n D evals gl evals' rows :
    n = L - Z.abs_nat m -> eigen_r n D evals gl -> order_result L m evals gl evals' rows ->
    orthonormal_rows (L * L) rows.
  Proof.
    intros -> (E1 & E2 & E3 & E4 & E5) (H1 & H2 & H3 & H4 & idx & ND & H5) p q u v Hp Hq.
    destruct (H5 p u Hp) as (k & x & c & K1 & K2 & K3 & K4 & K5).
    destruct (H5 q v Hq) as (l & y & d & L1 & L2 & L3 & L4 & L5).
    destruct (Nat.eqb_spec p q) as [->|N].
    - assert (u = v) by congruence. subst v. assert (k = l) by congruence. subst l.
      rewrite (placed_dot L m c c x x u u K5 K5), (E5 k k x x K2 K2), Nat.eqb_refl.
      pose proof (order_phase_unit m c K4) as U. unfold unit_c in U. rewrite U. ring.
    - rewrite (placed_dot L m c d x y u v K5 L5), (E5 k l x y K2 L2).
      assert (k <> l).
      { intros ->. apply N. apply (proj1 (NoDup_nth_error _) ND).
        - apply nth_error_Some. rewrite K1. discriminate.
        - congruence. }
      apply Nat.eqb_neq in H. rewrite H. ring.
  Qed.

  (** Every row of an order solves the block eigenproblem. *)
  Lemma order_eigen L m n D evals gl evals' rows :
    n = L - Z.abs_nat m -> eigen_r n D evals gl -> order_result L m evals gl evals' rows ->
    forall p row, nth_error rows p = Some row -> forall t, t < n ->
      csum n (fun s => Cmult (RtoC (D t s)) (nth (elm2ind (Z.abs_nat m + s) m) row (RtoC 0)))
      = Cmult (RtoC (nth p evals' 0%R)) (nth (elm2ind (Z.abs_nat m + t) m) row (RtoC 0)).
  Proof.
    intros -> (E1 & E2 & E3 & E4 & E5) (H1 & H2 & H3 & H4 & idx & ND & H5) p row Hp t Ht.
    destruct (H5 p row Hp) as (k & v & c & K1 & K2 & K3 & K4 & (P1 & P2 & P3)).
    rewrite P3 by lia. replace (Z.abs_nat m + t - Z.abs_nat m) with t by lia.
    rewrite (csum_ext _ _ (fun s => Cmult c (RtoC (D t s * nth s v 0%R)))).
    - rewrite csum_scal_l, csum_RtoC, (E4 k v t K2 Ht), K3, RtoC_mult. ring.
    - intros s Hs. rewrite P3 by lia. replace (Z.abs_nat m + s - Z.abs_nat m) with s by lia.
      rewrite RtoC_mult. ring.
  Qed.
End Polar.

(** ** All orders together *)
Lemma orthonormal_app w A B :
  orthonormal_rows w A -> orthonormal_rows w B ->
  (forall u v, In u A -> In v B -> cdot w u v = RtoC 0) ->
  orthonormal_rows w (A ++ B).
Proof.
  intros HA HB HX p q u v Hp Hq.
  destruct (le_lt_dec (length A) p) as [Pp|Pp]; destruct (le_lt_dec (length A) q) as [Qq|Qq].
  - rewrite nth_error_app2 in Hp, Hq by lia. rewrite (HB _ _ u v Hp Hq).
    replace (Nat.eqb (p - length A) (q - length A)) with (Nat.eqb p q); [reflexivity|].
    destruct (Nat.eqb_spec p q), (Nat.eqb_spec (p - length A) (q - length A)); auto; lia.
  - rewrite nth_error_app2 in Hp by lia. rewrite nth_error_app1 in Hq by lia.
    assert (Nat.eqb p q = false) as -> by (apply Nat.eqb_neq; lia).
    rewrite cdot_conj_sym, HX; [apply Cconj_R| |]; eapply nth_error_In; eassumption.
  - rewrite nth_error_app1 in Hp by lia. rewrite nth_error_app2 in Hq by lia.
    assert (Nat.eqb p q = false) as -> by (apply Nat.eqb_neq; lia).
    apply HX; eapply nth_error_In; eassumption.
  - rewrite nth_error_app1 in Hp, Hq by lia. apply HA; assumption.
Qed.

Lemma orthonormal_concat w (rows_of : Z -> list (list C)) ms :
  NoDup ms ->
  (forall m, In m ms -> orthonormal_rows w (rows_of m)) ->
  (forall m m' u v, In m ms -> In m' ms -> m <> m' -> In u (rows_of m) -> In v (rows_of m') -> cdot w u v = RtoC 0) ->
  orthonormal_rows w (concat (map rows_of ms)).
Proof.
  induction ms as [|m ms IH]; intros ND H1 H2.
  - intros [|p] q u v Hp; discriminate.
  - inversion ND as [|m0 ms0 Hnot HND]; subst. cbn [map concat]. apply orthonormal_app.
    + apply H1. left. reflexivity.
    + apply IH; [assumption| |].
      * intros. apply H1. right. assumption.
      * intros m1 m2 u v I1 I2. apply H2; right; assumption.
    + intros u v Hu Hv. apply in_concat in Hv. destruct Hv as [rs [Hrs Hv]].
      apply in_map_iff in Hrs. destruct Hrs as [m' [<- Hm']].
      apply (H2 m m' u v); auto; [left; reflexivity|right; assumption|congruence].
Qed.

Lemma orthonormal_select w rows idx rows' :
  orthonormal_rows w rows -> NoDup idx ->
  (forall p x, nth_error rows' p = Some x -> exists k, nth_error idx p = Some k /\ nth_error rows k = Some x) ->
  orthonormal_rows w rows'.
Proof.
  intros H ND S p q u v Hp Hq.
  destruct (S p u Hp) as [k [K1 K2]]. destruct (S q v Hq) as [l [L1 L2]].
  rewrite (H k l u v K2 L2). destruct (Nat.eqb_spec p q) as [->|N].
  - assert (k = l) by congruence. subst. rewrite Nat.eqb_refl. reflexivity.
  - assert (k <> l).
    { intros ->. apply N. apply (proj1 (NoDup_nth_error _) ND).
      - apply nth_error_Some. rewrite K1. discriminate.
      - congruence. }
    apply Nat.eqb_neq in H0. rewrite H0. reflexivity.
Qed.

Lemma zrange_nodup a b : NoDup (zrange a b).
Proof. unfold zrange. apply FinFun.Injective_map_NoDup; [intros x y; lia|apply seq_NoDup]. Qed.

Lemma in_zrange a b x : In x (zrange a b) <-> (a <= x < b)%Z.
Proof.
  unfold zrange. rewrite in_map_iff. split.
  - intros [k [<- H]]. apply in_seq in H. lia.
  - intros H. exists (Z.to_nat (x - a)). split; [lia|]. apply in_seq. lia.
Qed.

Fixpoint nsum (l : list nat) : nat := match l with [] => 0 | x :: t => x + nsum t end.
Lemma nsum_app l l' : nsum (l ++ l') = nsum l + nsum l'.
Proof. induction l; cbn; lia. Qed.
Lemma length_concat_nsum {A} (l : list (list A)) : length (concat l) = nsum (map (@length A) l).
Proof. induction l; cbn; [reflexivity|]. rewrite app_length, IHl. reflexivity. Qed.

Lemma zrange_S_l a b : (a < b)%Z -> zrange a b = a :: zrange (a + 1) b.
Proof.
  intros H. unfold zrange. replace (Z.to_nat (b - a)) with (S (Z.to_nat (b - (a + 1)))) by lia.
  cbn [seq map]. f_equal; [lia|]. rewrite <- seq_shift, map_map. apply map_ext. intros. lia.
Qed.
Lemma zrange_S_r a b : (a <= b)%Z -> zrange a (b + 1) = zrange a b ++ [b].
Proof.
  intros H. unfold zrange. replace (Z.to_nat (b + 1 - a)) with (S (Z.to_nat (b - a))) by lia.
  rewrite seq_S, map_app. cbn. do 2 f_equal. lia.
Qed.

Lemma sum_orders L : 1 <= L ->
  nsum (map (fun m => L - Z.abs_nat m) (zrange (- (Z.of_nat L - 1)) (Z.of_nat L))) = L * L.
Proof.
  induction L as [|L IH]; [lia|]. intros _. destruct L as [|L]; [reflexivity|].
  specialize (IH ltac:(lia)).
  replace (Z.of_nat (S (S L))) with (Z.of_nat (S L) + 1)%Z by lia.
  rewrite zrange_S_l by lia. rewrite zrange_S_r by lia.
  replace (- (Z.of_nat (S L) + 1 - 1) + 1)%Z with (- (Z.of_nat (S L) - 1))%Z by lia.
  cbn [map nsum]. rewrite map_app, nsum_app. cbn [map nsum].
  set (ms := zrange (- (Z.of_nat (S L) - 1)) (Z.of_nat (S L))) in *.
  assert (E : nsum (map (fun m => S (S L) - Z.abs_nat m) ms) = nsum (map (fun m => S L - Z.abs_nat m) ms) + length ms).
  { assert (F : forall m, In m ms -> Z.abs_nat m <= S L) by (intros m Hm; apply in_zrange in Hm; lia).
    clearbody ms. clear IH. induction ms as [|m ms IHm]; [reflexivity|].
    cbn [map nsum length]. rewrite IHm by (intros; apply F; right; assumption).
    specialize (F m (or_introl eq_refl)). lia. }
  rewrite E, IH. unfold ms. rewrite zrange_length. lia.
Qed.

Section AllOrders.
  Variable argsort : list R -> list nat.
  Hypothesis sorted : argsort_ok argsort.
  Variable eigh : nat -> (nat -> nat -> R) -> list R * list (list R).
  Variable Dm : nat -> nat -> nat -> R.
  Variable L : nat.
  Hypothesis Lpos : 1 <= L.
  Hypothesis exact_eigh : forall a, a < L ->
    eigen_r (L - a) (Dm a) (fst (eigh (L - a) (Dm a))) (snd (eigh (L - a) (Dm a))).

  Let ms := zrange (- (Z.of_nat L - 1)) (Z.of_nat L).
  Let out (m : Z) : list R * list (list C) :=
    match solve_order argsort eigh Dm L m with Ok x => x | Err _ => ([], []) end.

  Lemma ms_bound m : In m ms -> Z.abs_nat m < L.
  Proof. intros H. apply in_zrange in H. lia. Qed.

  Lemma out_ok m : In m ms ->
    solve_order argsort eigh Dm L m = Ok (out m) /\
    order_result L m (fst (eigh (L - Z.abs_nat m) (Dm (Z.abs_nat m))))
        (snd (eigh (L - Z.abs_nat m) (Dm (Z.abs_nat m)))) (fst (out m)) (snd (out m)).
  Proof.
    intros H. apply ms_bound in H.
    destruct (solve_order_spec argsort sorted eigh Dm L m) as (ev & rows & E & R).
    { cbv zeta. apply exact_eigh. exact H. }
    unfold out. rewrite E. split; [reflexivity|exact R].
  Qed.

  (** What a triple (eigenvalue, row, order) of the result satisfies. *)
  Definition good_triple (e : R) (row : list C) (m : Z) : Prop :=
    Z.abs_nat m < L /\ length row = L * L /\
    (forall j, j < L * L -> snd (ind2elm j) <> m -> nth j row (RtoC 0) = RtoC 0) /\
    (forall t, t < L - Z.abs_nat m ->
      csum (L - Z.abs_nat m) (fun s => Cmult (RtoC (Dm (Z.abs_nat m) t s))
          (nth (elm2ind (Z.abs_nat m + s) m) row (RtoC 0)))
      = Cmult (RtoC e) (nth (elm2ind (Z.abs_nat m + t) m) row (RtoC 0))).

  Lemma out_triples m : In m ms -> forall p e row,
    nth_error (fst (out m)) p = Some e -> nth_error (snd (out m)) p = Some row -> good_triple e row m.
  Proof.
    intros H p e row He Hr. destruct (out_ok m H) as [_ R]. pose proof (ms_bound m H) as B.
    assert (E := exact_eigh _ B). split; [exact B|].
    pose proof R as (R1 & R2 & R3 & R4 & idx & ND & R5).
    destruct (R5 p row Hr) as (k & v & c & K1 & K2 & K3 & K4 & (P1 & P2 & P3)).
    split; [exact P1|]. split; [exact P2|]. intros t Ht.
    rewrite (order_eigen L m _ _ _ _ _ _ eq_refl E R p row Hr t Ht).
    rewrite (nth_error_nth _ _ _ He). reflexivity.
  Qed.

  Let ev_all := concat (map (fun m => fst (out m)) ms).
  Let rows_all := concat (map (fun m => snd (out m)) ms).
  Let ord_all := concat (map (fun m => repeat m (length (fst (out m)))) ms).

  Lemma concat_triples (l : list Z) (P : R -> list C -> Z -> Prop) :
    (forall m, In m l -> length (snd (out m)) = length (fst (out m)) /\
       forall p e row, nth_error (fst (out m)) p = Some e -> nth_error (snd (out m)) p = Some row -> P e row m) ->
    let ev := concat (map (fun m => fst (out m)) l) in
    let rows := concat (map (fun m => snd (out m)) l) in
    let ords := concat (map (fun m => repeat m (length (fst (out m)))) l) in
    length rows = length ev /\ length ords = length ev /\
    forall p e row m, nth_error ev p = Some e -> nth_error rows p = Some row -> nth_error ords p = Some m -> P e row m.
  Proof.
    cbv zeta. induction l as [|m l IH]; intros H.
    - split; [reflexivity|]. split; [reflexivity|]. intros [|p]; discriminate.
    - destruct IH as (I1 & I2 & I3). { intros; apply H; right; assumption. }
      destruct (H m (or_introl eq_refl)) as [G1 G2]. cbn [map concat].
      rewrite !app_length, repeat_length. split; [lia|]. split; [lia|].
      intros p e row m' He Hr Hm. destruct (le_lt_dec (length (fst (out m))) p) as [Hp|Hp].
      + rewrite nth_error_app2 in He by lia. rewrite nth_error_app2 in Hr by lia.
        rewrite nth_error_app2 in Hm by (rewrite repeat_length; lia). rewrite repeat_length in Hm.
        rewrite G1 in Hr. eauto.
      + rewrite nth_error_app1 in He by lia. rewrite nth_error_app1 in Hr by lia.
        rewrite nth_error_app1 in Hm by (rewrite repeat_length; lia).
        apply nth_error_In, repeat_spec in Hm. subst m'. eauto.
  Qed.

  Lemma all_rows_orthonormal : orthonormal_rows (L * L) rows_all.
  Proof.
    apply (orthonormal_concat (L * L) (fun m => snd (out m)) ms).
    - apply zrange_nodup.
    - intros m H. destruct (out_ok m H) as [_ R].
      eapply order_orthonormal; [reflexivity| |exact R]. apply exact_eigh. apply ms_bound. exact H.
    - intros m m' u v H H' N Hu Hv.
      apply In_nth_error in Hu. destruct Hu as [p Hp]. apply In_nth_error in Hv. destruct Hv as [q Hq].
      destruct (out_ok m H) as [_ (_ & _ & _ & _ & i1 & _ & A)].
      destruct (out_ok m' H') as [_ (_ & _ & _ & _ & i2 & _ & B)].
      destruct (A p u Hp) as (k & x & c & _ & _ & _ & _ & K5).
      destruct (B q v Hq) as (l & y & d & _ & _ & _ & _ & L5).
      exact (placed_cross L m m' c d x y u v N K5 L5).
  Qed.

  Lemma all_length : length ev_all = L * L.
  Proof.
    unfold ev_all. rewrite length_concat_nsum, map_map.
    rewrite (map_ext_in _ (fun m => L - Z.abs_nat m)).
    - apply sum_orders. exact Lpos.
    - intros m H. destruct (out_ok m H) as [_ (E & _)]. exact E.
  Qed.

  Lemma solve_all_orders_spec :
    exists evals rows orders,
      solve_all_orders argsort eigh Dm L = Ok (evals, rows, orders) /\
      length evals = L * L /\ length rows = L * L /\ length orders = L * L /\
      descending evals /\ orthonormal_rows (L * L) rows /\
      (forall p e row m, nth_error evals p = Some e -> nth_error rows p = Some row ->
         nth_error orders p = Some m -> good_triple e row m) /\
      Permutation evals (concat (map (fun m => fst (eigh (L - Z.abs_nat m) (Dm (Z.abs_nat m)))) ms)) /\
      Permutation orders (concat (map (fun m => repeat m (L - Z.abs_nat m)) ms)).
  Proof.
    unfold solve_all_orders. fold ms.
    rewrite (rmap_ok _ (fun m => (fst (out m), snd (out m), repeat m (length (fst (out m)))))).
    2:{ intros m H. destruct (out_ok m H) as [E _]. rewrite E. cbn [rbind].
        destruct (out m) as [a b]. reflexivity. }
    cbn [rbind]. rewrite !map_map. cbn [fst snd]. fold ev_all rows_all ord_all.
    destruct (concat_triples ms good_triple) as (T1 & T2 & T3).
    { intros m H. destruct (out_ok m H) as [_ (E1 & E2 & _)]. split; [congruence|].
      apply out_triples. exact H. }
    fold ev_all rows_all ord_all in T1, T2, T3.
    rewrite (idx_evals argsort sorted). cbn [rbind].
    destruct (fancy_cols argsort sorted ev_all rows_all T1) as (rows' & R1 & R2 & R3). rewrite R1. cbn [rbind].
    destruct (fancy_cols argsort sorted ev_all ord_all T2) as (ord' & O1 & O2 & O3). rewrite O1. cbn [rbind].
    eexists. eexists. eexists. split; [reflexivity|].
    pose proof all_length as AL.
    split; [rewrite map_length, (idx_length argsort sorted); exact AL|].
    split; [congruence|]. split; [congruence|].
    split; [apply (idx_descending argsort sorted)|].
    split; [eapply orthonormal_select; [apply all_rows_orthonormal|apply (idx_nodup argsort sorted ev_all)|exact R3]|].
    split; [|split].
    - intros p e row m He Hr Hm. destruct (R3 p row Hr) as [k [K1 K2]]. destruct (O3 p m Hm) as [l [L1 L2]].
      assert (k = l) by congruence. subst l. apply (T3 k e row m); try assumption.
      rewrite nth_error_map, K1 in He. cbn in He. injection He as <-.
      apply nth_error_nth'. rewrite <- T1. apply nth_error_Some. rewrite K2. discriminate.
    - rewrite (idx_evals_perm argsort sorted). unfold ev_all.
      assert (PC : forall (f g : Z -> list R) l, (forall m, In m l -> Permutation (f m) (g m)) ->
               Permutation (concat (map f l)) (concat (map g l))).
      { intros f g l. induction l as [|m l IH]; intros H; [reflexivity|]. cbn.
        apply Permutation_app; [apply H; left; reflexivity|]. apply IH. intros; apply H; right; assumption. }
      apply PC. intros m H. destruct (out_ok m H) as [_ (_ & _ & E & _)]. exact E.
    - assert (O4 : Permutation ord' ord_all).
      { rewrite (fancy_ok 0%Z) in O1.
        - injection O1 as <-. rewrite (idx_perm argsort sorted ev_all), <- T2, map_nth_seq. reflexivity.
        - intros i Hi. rewrite T2. apply (idx_range argsort sorted). exact Hi. }
      rewrite O4. unfold ord_all. erewrite map_ext_in; [reflexivity|].
      intros m H. destruct (out_ok m H) as [_ (E & _)]. cbv beta. rewrite E. reflexivity.
  Qed.
End AllOrders.

(** ** A sorting function exists *)
Fixpoint rinsert (l : list R) (i : nat) (s : list nat) : list nat :=
  match s with
  | [] => [i]
  | j :: t => if Rleb (nth i l 0%R) (nth j l 0%R) then i :: s else j :: rinsert l i t
  end.
Fixpoint risort (l : list R) (s : list nat) : list nat :=
  match s with [] => [] | i :: t => rinsert l i (risort l t) end.
Definition insertion_argsort (l : list R) : list nat := risort l (seq 0 (length l)).

Lemma rinsert_perm l i s : Permutation (rinsert l i s) (i :: s).
Proof.
  induction s as [|j t IH]; [reflexivity|]. cbn. destruct (Rleb _ _); [reflexivity|].
  rewrite IH. apply perm_swap.
Qed.
Lemma risort_perm l s : Permutation (risort l s) s.
Proof. induction s as [|i t IH]; [reflexivity|]. cbn. rewrite rinsert_perm, IH. reflexivity. Qed.

Inductive rsorted (l : list R) : list nat -> Prop :=
| rs_nil : rsorted l []
| rs_cons i t : (forall j, In j t -> (nth i l 0 <= nth j l 0)%R) -> rsorted l t -> rsorted l (i :: t).

Lemma rinsert_sorted l i s : rsorted l s -> rsorted l (rinsert l i s).
Proof.
  induction 1 as [|j t Hj Ht IH]; cbn.
  - constructor; [intros j []|constructor].
  - destruct (Rleb (nth i l 0%R) (nth j l 0%R)) eqn:E.
    + apply Rleb_spec in E. constructor; [|constructor; assumption].
      intros k [<-|Hk]; [exact E|]. specialize (Hj k Hk). lra.
    + apply Rleb_false in E. constructor; [|assumption].
      intros k Hk. apply (Permutation_in _ (rinsert_perm l i t)) in Hk.
      destruct Hk as [<-|Hk]; [lra|auto].
Qed.
Lemma risort_sorted l s : rsorted l (risort l s).
Proof. induction s; cbn; [constructor|]. apply rinsert_sorted. assumption. Qed.

Lemma rsorted_nth l s : rsorted l s -> forall p q i j, p < q -> nth_error s p = Some i ->
  nth_error s q = Some j -> (nth i l 0 <= nth j l 0)%R.
Proof.
  induction 1 as [|a t Ha Ht IH]; intros p q i j Hpq Hi Hj.
  - destruct p; discriminate.
  - destruct q as [|q]; [lia|]. destruct p as [|p]; cbn in *.
    + injection Hi as <-. apply Ha. eapply nth_error_In. exact Hj.
    + apply (IH p q i j); try assumption. lia.
Qed.

Lemma insertion_argsort_ok : argsort_ok insertion_argsort.
Proof.
  intros l. split; [apply risort_perm|]. apply rsorted_nth. apply risort_sorted.
Qed.
