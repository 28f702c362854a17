From Coq Require Import List ZArith Arith Bool Reals Lra Lia.
From Coquelicot Require Import Complex.
From Verif Require Import Base ListLemmas RSum CSum PyNum Index IndexProofs Numpy Noise SpecField NoiseProofs.
Import ListNotations.
Local Open Scope nat_scope.

(** ** Earth coefficients *)

Definition filled (table : list C) (el : nat) (m : Z) : C :=
  if (m <? 0)%Z then mirror (coeff table el (- m)) (Z.abs_nat m) else coeff table el m.

Lemma earth_order_step table L ell flm k :
  L * L <= length flm -> ell < L -> 1 <= k <= ell ->
  coeff flm ell (Z.of_nat k) = coeff table ell (Z.of_nat k) ->
  exists flm', earth_order ell flm k = Ok flm' /\ length flm' = length flm /\
    forall el m, valid L el m ->
      coeff flm' el m = if (Nat.eqb el ell && Z.eqb m (- Z.of_nat k))%bool
                        then filled table el m else coeff flm el m.
Proof.
  intros Hl He Hk Hc.
  assert (Vp : valid L ell (Z.of_nat k)) by (split; lia).
  assert (Vn : valid L ell (- Z.of_nat k)) by (split; lia).
  unfold earth_order. rewrite (np_get_ok _ _ _ (coeff_get flm L ell _ Hl Vp)). cbn [rbind].
  rewrite np_set_ok.
  2:{ pose proof (elm2ind_lt L ell _ (proj1 Vn) (proj2 Vn)). lia. }
  eexists. split; [reflexivity|]. split; [apply set_nth_length|].
  intros el m V. rewrite (coeff_set flm L) by auto.
  destruct (Nat.eqb_spec el ell) as [->|]; cbn [andb]; [|reflexivity].
  destruct (Z.eqb_spec m (- Z.of_nat k)) as [->|]; [|reflexivity].
  unfold filled. destruct (Z.ltb_spec (- Z.of_nat k) 0); [|lia].
  rewrite Z.opp_involutive, Hc. replace (Z.abs_nat (- Z.of_nat k)) with k by lia. reflexivity.
Qed.

Lemma earth_orders table L ell flm n :
  L * L <= length flm -> ell < L -> n <= ell ->
  (forall k, 1 <= k <= ell -> coeff flm ell (Z.of_nat k) = coeff table ell (Z.of_nat k)) ->
  exists flm', rfold (earth_order ell) (seq 1 n) flm = Ok flm' /\ length flm' = length flm /\
    forall el m, valid L el m ->
      coeff flm' el m = if (Nat.eqb el ell && Z.ltb m 0 && Z.leb (- m) (Z.of_nat n))%bool
                        then filled table el m else coeff flm el m.
Proof.
  intros Hl He Hn Hc. induction n as [|n IH].
  - exists flm. split; [reflexivity|]. split; [reflexivity|]. intros el m V.
    destruct (Nat.eqb el ell); cbn [andb]; [|reflexivity].
    destruct (Z.ltb_spec m 0), (Z.leb_spec (- m) (Z.of_nat 0)); try reflexivity; lia.
  - destruct IH as (f1 & E1 & L1 & C1); [lia|].
    destruct (earth_order_step table L ell f1 (S n)) as (f2 & E2 & L2 & C2); [lia|lia|lia| |].
    { rewrite C1 by (split; lia). rewrite Nat.eqb_refl. cbn [andb].
      destruct (Z.ltb_spec (Z.of_nat (S n)) 0); [lia|]. apply Hc. lia. }
    exists f2. rewrite seq_S, rfold_app, E1. cbn [rbind rfold]. replace (1 + n) with (S n) by lia.
    rewrite E2. cbn [rbind]. split; [reflexivity|]. split; [lia|].
    intros el m V. rewrite C2, C1 by exact V.
    destruct (Nat.eqb el ell); cbn [andb]; [|reflexivity].
    destruct (Z.eqb_spec m (- Z.of_nat (S n))), (Z.ltb_spec m 0),
      (Z.leb_spec (- m) (Z.of_nat n)), (Z.leb_spec (- m) (Z.of_nat (S n)));
      cbn [andb]; try reflexivity; lia.
Qed.

Definition earth_fill (table : list C) (L : nat) : res (list C) :=
  rfold (fun flm ell => rfold (earth_order ell) (seq 1 ell) flm) (seq 1 (L - 1)) table.

Lemma earth_fill_spec table L : L * L <= length table ->
  exists flm, earth_fill table L = Ok flm /\ length flm = length table /\
    forall el m, valid L el m -> coeff flm el m = filled table el m.
Proof.
  intros Hl. unfold earth_fill.
  assert (H : forall n, n <= L - 1 -> exists flm,
    rfold (fun flm ell => rfold (earth_order ell) (seq 1 ell) flm) (seq 1 n) table = Ok flm /\
    length flm = length table /\
    forall el m, valid L el m -> coeff flm el m = if el <=? n then filled table el m else coeff table el m).
  { induction n as [|n IH]; intros Hn.
    - exists table. split; [reflexivity|]. split; [reflexivity|]. intros el m V.
      destruct (Nat.leb_spec el 0); [|reflexivity]. unfold filled. destruct V as [V1 V2].
      destruct (Z.ltb_spec m 0); [lia|reflexivity].
    - destruct IH as (f1 & E1 & L1 & C1); [lia|].
      destruct (earth_orders table L (S n) f1 (S n)) as (f2 & E2 & L2 & C2); [lia|lia|lia| |].
      { intros k Hk. rewrite C1 by (split; lia).
        destruct (Nat.leb_spec (S n) n); [lia|reflexivity]. }
      exists f2. rewrite seq_S, rfold_app, E1. cbn [rbind rfold]. replace (1 + n) with (S n) by lia.
      rewrite E2. cbn [rbind]. split; [reflexivity|]. split; [lia|].
      intros el m V. rewrite C2, C1 by exact V.
      destruct (Nat.eqb_spec el (S n)) as [->|Hne].
      + destruct (Nat.leb_spec (S n) (S n)); [|lia]. destruct (Nat.leb_spec (S n) n); [lia|].
        cbn [andb]. unfold filled. destruct V as [V1 V2].
        destruct (Z.ltb_spec m 0); [|reflexivity].
        destruct (Z.leb_spec (- m) (Z.of_nat (S n))); [reflexivity|lia].
      + cbn [andb]. destruct (Nat.leb_spec el n), (Nat.leb_spec el (S n)); try reflexivity; lia. }
  destruct (H (L - 1) (le_n _)) as (flm & E & Hf & Hc). exists flm. rewrite E.
  split; [reflexivity|]. split; [exact Hf|].
  intros el m V. rewrite Hc by exact V. destruct V as [V1 V2].
  destruct (Nat.leb_spec el (L - 1)); [reflexivity|lia].
Qed.

Lemma create_earth_spec table L : L * L <= length table ->
  exists flm, create_earth_flm table L None = Ok flm /\ length flm = L * L /\
    forall el m, valid L el m -> coeff flm el m = Cconj (filled table el m).
Proof.
  intros Hl. destruct (earth_fill_spec table L Hl) as (f & E & Hf & Hc).
  unfold create_earth_flm. fold (earth_fill table L). rewrite E. cbn [rbind].
  eexists. split; [reflexivity|]. split.
  - rewrite map_length, firstn_length. lia.
  - intros el m V. rewrite (coeff_map _ _ L) by (auto; rewrite firstn_length; lia).
    rewrite (coeff_firstn _ _ L) by auto. rewrite Hc by exact V. reflexivity.
Qed.

Lemma filled_reality table el m :
  (forall k, Im (coeff table k 0) = 0%R) ->
  Cconj (filled table el (- m)) = mirror (Cconj (filled table el m)) (Z.abs_nat m).
Proof.
  intros H0. unfold filled.
  destruct (Z.ltb_spec (- m) 0), (Z.ltb_spec m 0); try lia.
  - rewrite Z.opp_involutive. replace (Z.abs_nat (- m)) with (Z.abs_nat m) by lia.
    unfold mirror. rewrite Cconj_mult, Cconj_R. reflexivity.
  - unfold mirror. rewrite !Cconj_mult, !Cconj_R, !Cconj_conj, Cmult_assoc, <- RtoC_mult, neg1_pow_sq.
    rewrite Cmult_1_l. reflexivity.
  - assert (m = 0%Z) by lia. subst m. change (- 0)%Z with 0%Z. change (Z.abs_nat 0) with 0.
    unfold mirror. cbn [pow]. rewrite Cmult_1_l, Cconj_conj.
    specialize (H0 el). destruct (coeff table el 0) as [a b]. cbn in H0. subst b.
    unfold Cconj. cbn. f_equal. lra.
Qed.

Lemma earth_reality table L flm : L * L <= length table ->
  (forall k, Im (coeff table k 0) = 0%R) ->
  create_earth_flm table L None = Ok flm -> reality L flm.
Proof.
  intros Hl H0 E el m V. destruct (create_earth_spec table L Hl) as (f & E' & _ & Hc).
  rewrite E in E'. injection E' as <-. rewrite !Hc by (auto using valid_opp).
  apply filled_reality, H0.
Qed.

Lemma earth_prefix table L L' flm flm' : L <= L' -> L' * L' <= length table ->
  create_earth_flm table L None = Ok flm -> create_earth_flm table L' None = Ok flm' ->
  flm = firstn (L * L) flm'.
Proof.
  intros HL Hl E E'.
  destruct (create_earth_spec table L ltac:(nia)) as (x & Ex & Lx & Cx).
  rewrite E in Ex. injection Ex as <-.
  destruct (create_earth_spec table L' Hl) as (y & Ey & Ly & Cy).
  rewrite E' in Ey. injection Ey as <-.
  apply (coeff_ext L); [exact Lx|rewrite firstn_length; nia|].
  intros el m V. rewrite (coeff_firstn _ _ L) by auto.
  rewrite Cx, Cy by (eauto using valid_mono). reflexivity.
Qed.

(** A table that is too short. *)
Lemma rfold_index_error {S A} (f : S -> A -> res S) (P : S -> Prop) l x l' s :
  P s -> (forall s y, P s -> match f s y with Ok s' => P s' | Err e => e = IndexError end) ->
  (forall s, P s -> f s x = Err IndexError) ->
  rfold f (l ++ x :: l') s = Err IndexError.
Proof.
  intros Hs Hf Hx. revert s Hs. induction l as [|y l IH]; intros s Hs; cbn [app rfold].
  - rewrite Hx by exact Hs. reflexivity.
  - specialize (Hf s y Hs). destruct (f s y) as [s'|e]; cbn [rbind]; [apply IH, Hf|congruence].
Qed.

Lemma earth_order_inv n ell flm k : length flm = n ->
  match earth_order ell flm k with Ok f => length f = n | Err e => e = IndexError end.
Proof.
  intros H. unfold earth_order, np_get. destruct (nth_error flm _); cbn [rbind]; [|reflexivity].
  unfold np_set. destruct (_ <? _); [|reflexivity]. rewrite set_nth_length. exact H.
Qed.

Lemma earth_orders_inv n ell flm l : length flm = n ->
  match rfold (earth_order ell) l flm with Ok f => length f = n | Err e => e = IndexError end.
Proof.
  revert flm. induction l as [|k l IH]; intros flm H; cbn [rfold]; [exact H|].
  pose proof (earth_order_inv n ell flm k H) as I.
  destruct (earth_order ell flm k); cbn [rbind]; [apply IH, I|exact I].
Qed.

Lemma earth_short table L s : 2 <= L -> length table < L * L ->
  create_earth_flm table L s = Err IndexError.
Proof.
  intros HL Hl. unfold create_earth_flm.
  replace (L - 1) with (S (L - 2)) by lia. rewrite seq_S.
  rewrite (rfold_index_error _ (fun f => length f = length table)); [reflexivity|reflexivity| |].
  - intros f ell Hf. apply earth_orders_inv, Hf.
  - intros f Hf. replace (1 + (L - 2)) with (S (L - 2)) by lia. rewrite seq_S.
    apply (rfold_index_error _ (fun f => length f = length table)); [exact Hf| |].
    + intros f' k Hf'. apply earth_order_inv, Hf'.
    + intros f' Hf'. unfold earth_order, np_get.
      rewrite (proj2 (nth_error_None _ _)); [reflexivity|].
      unfold elm2ind. nia.
Qed.

(** ** Smoothing *)

Lemma nth_combine_seq {A B} (g : nat -> A -> B) (l : list A) (d : A) (e : B) i : i < length l ->
  nth i (map (fun p => g (fst p) (snd p)) (combine (seq 0 (length l)) l)) e = g i (nth i l d).
Proof.
  intros H. rewrite (nth_indep _ e (g 0 d)).
  2:{ rewrite map_length, combine_length, seq_length. lia. }
  rewrite (map_nth (fun p => g (fst p) (snd p)) (combine (seq 0 (length l)) l) (0, d)).
  rewrite combine_nth by apply seq_length. cbn [fst snd]. rewrite seq_nth by exact H. reflexivity.
Qed.

Lemma smoothing_length flm sigma : length (gaussian_smoothing flm sigma) = length flm.
Proof. unfold gaussian_smoothing. rewrite map_length, combine_length, seq_length. lia. Qed.

Lemma smoothing_coeff flm sigma L el m : L * L <= length flm -> valid L el m ->
  coeff (gaussian_smoothing flm sigma) el m
  = Cmult (RtoC (exp (- INR el ^ 2 * sigma ^ 2))) (coeff flm el m).
Proof.
  intros Hl [V1 V2]. rewrite !coeff_elm. unfold gaussian_smoothing.
  pose proof (elm2ind_lt L el m V1 V2).
  rewrite (nth_combine_seq (fun i z => Cmult (RtoC (exp (- INR (fst (ind2elm i)) ^ 2 * sigma ^ 2))) z)
             flm (RtoC 0) (RtoC 0)) by lia.
  rewrite ind2elm_elm2ind by exact V2. reflexivity.
Qed.

Lemma smoothing_reality flm sigma L : L * L <= length flm -> reality L flm ->
  reality L (gaussian_smoothing flm sigma).
Proof.
  intros Hl H el m V. rewrite !(smoothing_coeff _ _ L) by (auto using valid_opp).
  rewrite (H el m V), Cconj_mult, Cconj_R. ring.
Qed.

Lemma exp_damp el sigma : (0 < exp (- INR el ^ 2 * sigma ^ 2) <= 1)%R.
Proof.
  split; [apply exp_pos|].
  pose proof (Rmult_le_pos _ _ (pow2_ge_0 (INR el)) (pow2_ge_0 sigma)) as H.
  destruct H as [H|H].
  - left. rewrite <- exp_0. apply exp_increasing. lra.
  - replace (- INR el ^ 2 * sigma ^ 2)%R with 0%R by lra. rewrite exp_0. lra.
Qed.

(** ** Noise on a mesh, and adding noise *)

Lemma mesh_noise_spec normal u snr_in :
  create_mesh_noise normal u snr_in
  = Ok (map (fun i => (compute_sigma_noise u snr_in None * normal RANDOM_SEED i)%R) (seq 0 (length u))).
Proof.
  unfold create_mesh_noise. set (sigma := compute_sigma_noise u snr_in None).
  set (body := fun (st : list R * gen) i => _).
  assert (H : forall n, n <= length u ->
    rfold body (seq 0 n) (repeat 0%R (length u), default_rng RANDOM_SEED)
    = Ok (map (fun i => (sigma * normal RANDOM_SEED i)%R) (seq 0 n) ++ repeat 0%R (length u - n),
          at_pos RANDOM_SEED n)).
  { induction n as [|n IH]; intros Hn.
    - cbn [seq map app rfold]. rewrite Nat.sub_0_r. reflexivity.
    - rewrite seq_S, rfold_app, IH by lia. cbn [rbind rfold]. unfold body at 1.
      cbn [standard_normal at_pos g_seed g_pos].
      replace (length u - n) with (S (length u - S n)) by lia. cbn [repeat].
      rewrite np_set_ok.
      2:{ rewrite app_length, map_length, seq_length. cbn. lia. }
      cbn [rbind]. rewrite Nat.add_0_l. rewrite map_app. cbn [map].
      f_equal. f_equal. rewrite <- app_assoc. cbn [app].
      assert (G : forall l x y (t : list R), length l = n -> set_nth n x (l ++ y :: t) = l ++ x :: t).
      { clear. intros l x y t <-. induction l as [|a l IH]; [reflexivity|]. cbn. rewrite IH. reflexivity. }
      apply G. rewrite map_length, seq_length. reflexivity. }
  rewrite H by lia. cbn [rbind fst]. rewrite Nat.sub_diag. cbn [repeat]. rewrite app_nil_r. reflexivity.
Qed.

Lemma broadcast_same {A B D} (op : A -> B -> D) a b : length a = length b ->
  broadcast op a b = Ok (map (fun p => op (fst p) (snd p)) (combine a b)).
Proof. intros H. unfold broadcast. rewrite (proj2 (Nat.eqb_eq _ _) H). reflexivity. Qed.

Lemma broadcast_fail {A B D} (op : A -> B -> D) a b :
  length a <> length b -> length a <> 1 -> length b <> 1 -> broadcast op a b = Err ValueError.
Proof.
  intros H H1 H2. unfold broadcast. destruct (Nat.eqb_spec (length a) (length b)); [lia|].
  destruct a as [|x [|y a]]; destruct b as [|z [|w b]]; cbn in *; try lia; reflexivity.
Qed.

Lemma nth_combine_map {A B D} (op : A -> B -> D) a b i x y d :
  nth_error a i = Some x -> nth_error b i = Some y ->
  nth i (map (fun p => op (fst p) (snd p)) (combine a b)) d = op x y.
Proof.
  revert a b. induction i as [|i IH]; intros [|a l] [|b l'] Ha Hb; try discriminate; cbn in *.
  - congruence.
  - apply IH; assumption.
Qed.

Lemma nth_error_C (l : list C) i : i < length l -> nth_error l i = Some (nth i l (RtoC 0)).
Proof. apply nth_error_nth'. Qed.

Lemma add_noise_spec normal L coefficients snr_in :
  length coefficients = L * L ->
  exists nlm noisy, create_noise normal L coefficients snr_in = Ok nlm /\
    flm_add_noise normal L coefficients (Some snr_in)
    = Ok (noisy, Some coefficients, Some (compute_snr coefficients nlm)) /\
    length noisy = L * L /\
    forall i, i < L * L -> nth i noisy (RtoC 0) = Cplus (nth i coefficients (RtoC 0)) (nth i nlm (RtoC 0)).
Proof.
  intros Hc. destruct (create_noise_spec normal L coefficients snr_in) as (nlm & E & Hl & _).
  exists nlm, (map (fun p => Cplus (fst p) (snd p)) (combine coefficients nlm)).
  split; [exact E|]. unfold flm_add_noise. rewrite E. cbn [rbind].
  rewrite broadcast_same by congruence. cbn [rbind]. split; [reflexivity|].
  split; [rewrite map_length, combine_length; lia|].
  intros i Hi. rewrite (nth_combine_map Cplus coefficients nlm i _ _ (RtoC 0)
    (nth_error_C coefficients i ltac:(lia)) (nth_error_C nlm i ltac:(lia))). reflexivity.
Qed.

Lemma add_noise_reality L f g h :
  length f = L * L -> length g = L * L -> length h = L * L ->
  reality L f -> reality L g ->
  (forall i, i < L * L -> nth i h (RtoC 0) = Cplus (nth i f (RtoC 0)) (nth i g (RtoC 0))) ->
  reality L h.
Proof.
  intros Lf Lg Lh Hf Hg Hh el m V. pose proof (valid_opp L el m V) as V'.
  rewrite !coeff_elm, !Hh by (apply elm2ind_lt; apply V || apply V').
  rewrite <- !coeff_elm. rewrite (Hf el m V), (Hg el m V), Cconj_plus. ring.
Qed.
