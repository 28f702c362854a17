(** C16, C17, C49: what the solvers return from an exact eigendecomposition. *)
From Coq Require Import List ZArith Arith Bool Reals Permutation Lia Lra.
From Coquelicot Require Import Complex.
From Verif Require Import Base PyNum PyNumProofs Index RSum CSum Eigen SpecEigen EigenProofs PolarEigenProofs.
Import ListNotations.
Local Open Scope nat_scope.

(** ** C16 *)

(** [argsort_ok] is satisfiable. *)
Theorem C16_argsort_exists : exists argsort, argsort_ok argsort.
Proof. exists insertion_argsort. exact insertion_argsort_ok. Qed.
Print Assumptions C16_argsort_exists.

Theorem C16_lat_lon : forall argsort, argsort_ok argsort ->
  forall n M evals cols, eigen_c n M evals cols -> hermitian n M ->
  cleaned n M evals (clean_lat_lon argsort evals cols).
Proof. exact clean_lat_lon_spec. Qed.
Print Assumptions C16_lat_lon.

Theorem C16_arbitrary : forall argsort, argsort_ok argsort ->
  forall n M evals cols, eigen_c n M evals cols -> hermitian n M ->
  cleaned n M evals (clean_arbitrary argsort evals cols).
Proof. exact clean_arbitrary_spec. Qed.
Print Assumptions C16_arbitrary.

Theorem C16_mesh : forall argsort, argsort_ok argsort ->
  forall n M evals cols, eigen_r n M evals cols ->
  exists evals' rows, clean_mesh argsort evals cols = Ok (evals', rows) /\
    length rows = n /\ Permutation evals' evals /\ descending evals' /\
    (forall p q u v, nth_error rows p = Some u -> nth_error rows q = Some v ->
       rdot n u v = if Nat.eqb p q then 1%R else 0%R) /\
    (forall p row, nth_error rows p = Some row -> length row = n /\
       forall r, r < n -> rsum n (fun c => (M r c * nth c row 0)%R)
                          = (nth p evals' 0 * nth r row 0)%R).
Proof. exact clean_mesh_spec. Qed.
Print Assumptions C16_mesh.

(** A Hermitian 2x2 matrix with complex entries and its decomposition. *)
Definition ex_M (r c : nat) : C :=
  if Nat.eqb r c then RtoC 2 else if Nat.ltb r c then Ci else Copp Ci.
Definition ex_cols : list (list C) :=
  [[RtoC (/ sqrt 2); Cmult Ci (RtoC (/ sqrt 2))];
   [RtoC (/ sqrt 2); Copp (Cmult Ci (RtoC (/ sqrt 2)))]].

Lemma half_sq : (/ sqrt 2 * / sqrt 2 = / 2)%R.
Proof. rewrite <- Rinv_mult, sqrt_def; lra. Qed.

Example C16_example : eigen_c 2 ex_M [1%R; 3%R] ex_cols /\ hermitian 2 ex_M.
Proof.
  split.
  - split; [reflexivity|]. split; [reflexivity|]. split; [|split].
    + intros [|[|[|k]]] v H; cbn in H; try discriminate; injection H as <-; reflexivity.
    + intros [|[|[|k]]] v [|[|r]] H Hr; cbn in H; try discriminate; try lia; injection H as <-;
        apply C_ext; cbn; ring.
    + pose proof half_sq as Q.
      intros [|[|[|j]]] [|[|[|k]]] u v H H'; cbn in H, H'; try discriminate; injection H as <-; injection H' as <-;
        apply C_ext; cbn; nra.
  - intros [|[|r]] [|[|c]] Hr Hc; try lia; apply C_ext; cbn; ring.
Qed.

(** ** C17 *)

(** One order: [L - |m|] rows, each zero outside the slots of order [m],
    holding a block eigenvector in increasing degree up to a factor of modulus
    one (a sign for [m >= 0], times [i] for [m < 0]). *)
Theorem C17_one_order : forall argsort, argsort_ok argsort ->
  forall eigh Dm L m, Z.abs_nat m < L ->
  (let n := L - Z.abs_nat m in
   eigen_r n (Dm (Z.abs_nat m)) (fst (eigh n (Dm (Z.abs_nat m)))) (snd (eigh n (Dm (Z.abs_nat m))))) ->
  exists evals' rows, solve_order argsort eigh Dm L m = Ok (evals', rows) /\
    length rows = L - Z.abs_nat m /\ length evals' = L - Z.abs_nat m /\
    Permutation evals' (fst (eigh (L - Z.abs_nat m) (Dm (Z.abs_nat m)))) /\
    descending evals' /\ orthonormal_rows (L * L) rows /\
    forall p row, nth_error rows p = Some row ->
      length row = L * L /\
      (forall j, j < L * L -> snd (ind2elm j) <> m -> nth j row (RtoC 0) = RtoC 0) /\
      (forall t, t < L - Z.abs_nat m ->
        csum (L - Z.abs_nat m) (fun s => Cmult (RtoC (Dm (Z.abs_nat m) t s))
            (nth (elm2ind (Z.abs_nat m + s) m) row (RtoC 0)))
        = Cmult (RtoC (nth p evals' 0%R)) (nth (elm2ind (Z.abs_nat m + t) m) row (RtoC 0))) /\
      exists k v c, nth_error (snd (eigh (L - Z.abs_nat m) (Dm (Z.abs_nat m)))) k = Some v /\
        nth p evals' 0%R = nth k (fst (eigh (L - Z.abs_nat m) (Dm (Z.abs_nat m)))) 0%R /\
        (if (m <? 0)%Z then c = Ci \/ c = Copp Ci else c = RtoC 1 \/ c = RtoC (-1)) /\
        forall el, Z.abs_nat m <= el < L ->
          nth (elm2ind el m) row (RtoC 0) = Cmult c (RtoC (nth (el - Z.abs_nat m) v 0%R)).
Proof.
  intros argsort sorted eigh Dm L m Hm HE. cbv zeta in HE.
  destruct (solve_order_spec argsort sorted eigh Dm L m HE) as (ev & rows & E & R).
  exists ev, rows. split; [exact E|]. pose proof R as (R1 & R2 & R3 & R4 & idx & ND & R5).
  split; [exact R2|]. split; [exact R1|]. split; [exact R3|]. split; [exact R4|].
  split; [eapply order_orthonormal; [reflexivity|exact HE|exact R]|].
  intros p row Hp. destruct (R5 p row Hp) as (k & v & c & K1 & K2 & K3 & K4 & (P1 & P2 & P3)).
  split; [exact P1|]. split; [exact P2|].
  split; [apply (order_eigen L m _ _ _ _ _ _ eq_refl HE R p row Hp)|].
  exists k, v, c. split; [exact K2|]. split; [exact K3|]. split; [|exact P3].
  destruct K4 as [[A B]|[A B]]; destruct (Z.ltb_spec m 0); try lia; exact B.
Qed.
Print Assumptions C17_one_order.

(** All orders: exactly [L^2] rows, sorted, orthonormal, each with its order. *)
Theorem C17_all_orders : forall argsort, argsort_ok argsort ->
  forall eigh Dm L, 1 <= L ->
  (forall a, a < L ->
    eigen_r (L - a) (Dm a) (fst (eigh (L - a) (Dm a))) (snd (eigh (L - a) (Dm a)))) ->
  exists evals rows orders,
    solve_all_orders argsort eigh Dm L = Ok (evals, rows, orders) /\
    length evals = L * L /\ length rows = L * L /\ length orders = L * L /\
    descending evals /\ orthonormal_rows (L * L) rows /\
    (forall p e row m, nth_error evals p = Some e -> nth_error rows p = Some row ->
       nth_error orders p = Some m ->
       Z.abs_nat m < L /\ length row = L * L /\
       (forall j, j < L * L -> snd (ind2elm j) <> m -> nth j row (RtoC 0) = RtoC 0) /\
       (forall t, t < L - Z.abs_nat m ->
         csum (L - Z.abs_nat m) (fun s => Cmult (RtoC (Dm (Z.abs_nat m) t s))
             (nth (elm2ind (Z.abs_nat m + s) m) row (RtoC 0)))
         = Cmult (RtoC e) (nth (elm2ind (Z.abs_nat m + t) m) row (RtoC 0)))) /\
    let ms := map (fun k => (Z.of_nat k - (Z.of_nat L - 1))%Z) (seq 0 (2 * L - 1)) in
    Permutation evals (concat (map (fun m => fst (eigh (L - Z.abs_nat m) (Dm (Z.abs_nat m)))) ms)) /\
    Permutation orders (concat (map (fun m => repeat m (L - Z.abs_nat m)) ms)).
Proof.
  intros argsort sorted eigh Dm L HL HE.
  destruct (solve_all_orders_spec argsort sorted eigh Dm L HL HE)
    as (ev & rows & ords & E & H1 & H2 & H3 & H4 & H5 & H6 & H7 & H8).
  exists ev, rows, ords. do 6 (split; [assumption|]). split; [exact H6|]. cbv zeta.
  assert (X : map (fun k => (Z.of_nat k - (Z.of_nat L - 1))%Z) (seq 0 (2 * L - 1))
              = zrange (- (Z.of_nat L - 1)) (Z.of_nat L)).
  { unfold zrange. replace (Z.to_nat (Z.of_nat L - - (Z.of_nat L - 1))) with (2 * L - 1) by lia.
    apply map_ext. intros. lia. }
  rewrite X. split; assumption.
Qed.
Print Assumptions C17_all_orders.

(** The hypotheses hold for L = 2 with a non-diagonal block of order 0. *)
Definition ex_Dm (a r c : nat) : R :=
  if Nat.eqb a 0 then (if Nat.eqb r c then 2 else 1)%R else 5%R.
Definition ex_eigh (n : nat) (_ : nat -> nat -> R) : list R * list (list R) :=
  if Nat.eqb n 2 then ([1; 3]%R, [[/ sqrt 2; - / sqrt 2]%R; [/ sqrt 2; / sqrt 2]%R])
  else ([5%R], [[1%R]]).
Example C17_example : forall a, a < 2 ->
  eigen_r (2 - a) (ex_Dm a) (fst (ex_eigh (2 - a) (ex_Dm a))) (snd (ex_eigh (2 - a) (ex_Dm a))).
Proof.
  intros [|[|a]] Ha; [| |lia].
  - split; [reflexivity|]. split; [reflexivity|]. split; [|split].
    + intros [|[|[|k]]] v H; cbn in H; try discriminate; injection H as <-; reflexivity.
    + intros [|[|[|k]]] v [|[|r]] H Hr; cbn in H; try discriminate; try lia; injection H as <-; cbn; ring.
    + pose proof half_sq as Q.
      intros [|[|[|j]]] [|[|[|k]]] u v H H'; cbn in H, H'; try discriminate; injection H as <-; injection H' as <-;
        cbn; nra.
  - split; [reflexivity|]. split; [reflexivity|]. split; [|split].
    + intros [|[|k]] v H; cbn in H; try discriminate; injection H as <-; reflexivity.
    + intros [|[|k]] v [|r] H Hr; cbn in H, Hr; try discriminate; try lia; injection H as <-; cbn; ring.
    + intros [|[|j]] [|[|k]] u v H H'; cbn in H, H'; try discriminate; injection H as <-; injection H' as <-;
        cbn; ring.
Qed.

(** ** C49: the sign convention *)

Lemma fancy_in {A} (l : list A) idx out : fancy l idx = Ok out -> forall x, In x out -> In x l.
Proof.
  unfold fancy. revert out. induction idx as [|i idx IH]; intros out H x I; cbn [rmap] in H.
  - injection H as <-. destruct I.
  - destruct (nth_error l i) as [y|] eqn:E; [|discriminate H]. cbn [rbind] in H. destruct (rmap _ idx) as [ys|] eqn:F; [|discriminate H]. cbn [rbind] in H.
    injection H as <-. destruct I as [->|I]; [exact (nth_error_In _ _ E)|exact (IH ys eq_refl x I)].
Qed.

Lemma signed_row cols idx cs : fancy cols idx = Ok cs ->
  forall p row, nth_error (map fix_sign (map (map Cconj) cs)) p = Some row ->
    (~ (fst (hd (RtoC 0) row) < 0 \/ (fst (hd (RtoC 0) row) = 0 /\ snd (hd (RtoC 0) row) < 0))%R) /\
    exists col s, In col cols /\ (s = RtoC 1 \/ s = RtoC (-1)) /\ row = map (fun y => Cmult s (Cconj y)) col.
Proof.
  intros F p row E. rewrite map_map, nth_error_map in E. destruct (nth_error cs p) as [col|] eqn:Ec; [|discriminate E]. cbn in E. injection E as <-. split.
  - rewrite <- Cltb0_spec. pose proof (fix_sign_first (map Cconj col)) as K. congruence.
  - destruct (fix_sign_eq (map Cconj col)) as (s & _ & Hs & Q). exists col, s. split; [exact (fancy_in _ _ _ F _ (nth_error_In _ _ Ec))|]. split; [exact Hs|].
    rewrite Q, map_map. reflexivity.
Qed.

Lemma times_i_row pairs rows p row : nth_error (times_i pairs rows) p = Some row ->
  exists r, nth_error rows p = Some r /\ if existsb (Nat.eqb p) pairs then row = map (Cmult Ci) r else row = r.
Proof.
  unfold times_i. rewrite nth_error_map. destruct (nth_error (combine (seq 0 (length rows)) rows) p) as [[a r]|] eqn:E; [|discriminate].
  cbn. intros [= <-].
  assert (F : a = p /\ nth_error rows p = Some r).
  { change p with (0 + p)%nat at 1. revert E. generalize 0%nat. revert p. induction rows as [|x t IH]; intros p s E; [destruct p; discriminate|].
    destruct p as [|p]; cbn in *; [injection E as <- <-; split; [lia|reflexivity]|]. destruct (IH p (S s) E) as [-> R]. split; [lia|exact R]. }
  destruct F as [-> F]. exists r. split; [exact F|]. destruct (existsb _ _); reflexivity.
Qed.

(** Where the first component does not vanish, the result does not depend on
    the sign that the eigensolver gave to each vector. *)
Theorem C49_lat_lon_sign_canonical : forall argsort evals cols cols',
  Forall (fun c => hd (RtoC 0) c <> RtoC 0) cols -> resigned cols cols' ->
  clean_lat_lon argsort evals cols' = clean_lat_lon argsort evals cols.
Proof. exact clean_lat_lon_sign. Qed.
Print Assumptions C49_lat_lon_sign_canonical.

Theorem C49_arbitrary_sign_canonical : forall argsort evals cols cols',
  Forall (fun c => hd (RtoC 0) c <> RtoC 0) cols -> resigned cols cols' ->
  clean_arbitrary argsort evals cols' = clean_arbitrary argsort evals cols.
Proof. exact clean_arbitrary_sign. Qed.
Print Assumptions C49_arbitrary_sign_canonical.

(** Not negative in numpy's order of complex numbers. *)
Definition not_negative (x : C) : Prop := ~ (fst x < 0 \/ (fst x = 0 /\ snd x < 0))%R.

(** Row p of a box is plus or minus the conjugate of an eigenvector, with the sign
    that makes its first entry not negative. *)
Theorem C49_lat_lon_first : forall argsort evals cols evals' rows,
  clean_lat_lon argsort evals cols = Ok (evals', rows) ->
  forall p row, nth_error rows p = Some row -> not_negative (hd (RtoC 0) row) /\
    exists col s, In col cols /\ (s = RtoC 1 \/ s = RtoC (-1)) /\ row = map (fun y => Cmult s (Cconj y)) col.
Proof.
  intros argsort evals cols evals' rows H p row E. unfold clean_lat_lon in H.
  destruct (fancy evals _) as [ev|]; [|discriminate H]. cbn [rbind] in H. destruct (fancy cols _) as [cs|] eqn:F; [|discriminate H]. cbn [rbind] in H.
  injection H as _ <-. exact (signed_row cols _ cs F p row E).
Qed.
Print Assumptions C49_lat_lon_first.

(** For arbitrary regions the rows whose eigenvalue is within 1e-14 of the one
    before are, after that, multiplied by i; no other row is. *)
Theorem C49_arbitrary_phase : forall argsort evals cols evals' rows,
  clean_arbitrary argsort evals cols = Ok (evals', rows) ->
  forall p row, nth_error rows p = Some row -> exists r,
    not_negative (hd (RtoC 0) r) /\
    (exists col s, In col cols /\ (s = RtoC 1 \/ s = RtoC (-1)) /\ r = map (fun y => Cmult s (Cconj y)) col) /\
    ((1 <= p)%nat /\ (p < length evals')%nat /\ (Rabs (nth (p - 1) evals' 0 - nth p evals' 0) < 1 / 10 ^ 14)%R -> row = map (Cmult Ci) r) /\
    (~ ((1 <= p)%nat /\ (p < length evals')%nat /\ (Rabs (nth (p - 1) evals' 0 - nth p evals' 0) < 1 / 10 ^ 14)%R) -> row = r).
Proof.
  intros argsort evals cols evals' rows H p row E. unfold clean_arbitrary in H.
  destruct (fancy evals _) as [ev|]; [|discriminate H]. cbn [rbind] in H. destruct (fancy cols _) as [cs|] eqn:F; [|discriminate H]. cbn [rbind] in H.
  injection H as <- <-. destruct (times_i_row _ _ _ _ E) as (r & Er & Hr). exists r.
  destruct (signed_row cols _ cs F p r Er) as [N S]. split; [exact N|]. split; [exact S|].
  assert (M : (1 / 10 ^ 14)%R = MACHINE_EPSILON) by (unfold MACHINE_EPSILON; lra). rewrite M.
  assert (B : existsb (Nat.eqb p) (close_pairs ev) = true <-> ((1 <= p)%nat /\ (p < length ev)%nat /\ (Rabs (nth (p - 1) ev 0 - nth p ev 0) < MACHINE_EPSILON)%R)).
  { rewrite existsb_exists. unfold close_pairs. split.
    - intros (q & I & Eq). apply Nat.eqb_eq in Eq. subst q. apply filter_In in I. destruct I as [I R]. apply in_seq in I. apply Rltb_spec in R.
      rewrite Rabs_minus_sym in R. repeat split; [lia|lia|exact R].
    - intros (A & B & R). exists p. split; [|apply Nat.eqb_refl]. apply filter_In. split; [apply in_seq; lia|]. apply Rltb_spec. rewrite Rabs_minus_sym. exact R. }
  destruct (existsb (Nat.eqb p) (close_pairs ev)).
  - split; [intros _; exact Hr|]. intros X. exfalso. apply X, B. reflexivity.
  - split; [|intros _; exact Hr]. intros X. apply B in X. discriminate X.
Qed.
Print Assumptions C49_arbitrary_phase.

(** A double eigenvalue: the second row is multiplied by i. *)
Example C49_phase_case :
  clean_arbitrary (fun _ => [0; 1]) [1%R; 1%R] [[RtoC (-1); RtoC 0]; [RtoC 0; RtoC 1]] =
  Ok ([1%R; 1%R], [[RtoC 0; RtoC 1]; [Ci; RtoC 0]]).
Proof.
  unfold clean_arbitrary. cbn [rev app fancy rmap nth_error rbind map]. f_equal. f_equal.
  assert (P : close_pairs [1%R; 1%R] = [1%nat]).
  { unfold close_pairs. cbn [length Nat.sub seq filter nth]. replace (Rltb (Rabs (1 - 1)) MACHINE_EPSILON) with true; [reflexivity|].
    symmetry. apply Rltb_spec. rewrite Rminus_diag_eq, Rabs_R0 by reflexivity. unfold MACHINE_EPSILON. lra. }
  rewrite P. unfold times_i, fix_sign. cbn [length seq combine map fst snd existsb Nat.eqb orb].
  assert (A : Cltb0 (Cconj (RtoC 0)) = false) by (apply not_true_iff_false; rewrite Cltb0_spec; cbn; lra).
  assert (B : Cltb0 (Cconj (RtoC (-1))) = true) by (apply Cltb0_spec; cbn; lra).
  rewrite A, B. repeat (f_equal; try (apply C_ext; cbn; ring)).
Qed.

Theorem C49_polar_order_zero_sign_canonical : forall argsort, argsort_ok argsort ->
  forall L evals gl gl' emm,
  create_emm_vector L = Ok emm -> length evals = L -> length gl = L ->
  (forall k v, nth_error gl k = Some v -> length v = L /\ nth 0 v 0%R <> 0%R) ->
  resigned_r gl gl' ->
  clean_polar argsort L evals gl' emm 0 = clean_polar argsort L evals gl emm 0.
Proof. exact clean_polar_sign. Qed.
Print Assumptions C49_polar_order_zero_sign_canonical.

(** The rows of every other order keep the sign of the eigensolver, because
    the first slot belongs to order 0. *)
Theorem C49_polar_other_orders_keep_sign : forall argsort, argsort_ok argsort ->
  forall L m evals gl emm,
  create_emm_vector L = Ok emm -> m <> 0%Z ->
  length evals = L - Z.abs_nat m -> length gl = L - Z.abs_nat m ->
  (forall k v, nth_error gl k = Some v -> length v = L - Z.abs_nat m) ->
  exists rows, clean_polar argsort L evals gl emm m
    = Ok (map (fun i => nth i evals 0%R) (rev (argsort evals)), rows) /\
    forall p row, nth_error rows p = Some row ->
      exists k v, nth_error (rev (argsort evals)) p = Some k /\ nth_error gl k = Some v /\
        forall el, Z.abs_nat m <= el < L -> nth (elm2ind el m) row (RtoC 0)
          = Cmult (if (m <? 0)%Z then Ci else RtoC 1) (RtoC (nth (el - Z.abs_nat m) v 0%R)).
Proof. exact clean_polar_keeps_sign. Qed.
Print Assumptions C49_polar_other_orders_keep_sign.

(** So the same decomposition up to sign gives two different answers. *)
Theorem C49_polar_sign_canonical_refuted :
  exists argsort L m evals gl gl' emm out out',
    argsort_ok argsort /\ create_emm_vector L = Ok emm /\ Z.abs_nat m < L /\
    eigen_r 1 (fun _ _ => 5%R) evals gl /\ eigen_r 1 (fun _ _ => 5%R) evals gl' /\
    resigned_r gl gl' /\
    clean_polar argsort L evals gl emm m = Ok out /\
    clean_polar argsort L evals gl' emm m = Ok out' /\ out <> out'.
Proof.
  assert (EM : exists emm, create_emm_vector 2 = Ok emm) by (vm_compute; eauto).
  destruct EM as [emm EM].
  assert (K : forall x : R, exists rows, clean_polar insertion_argsort 2 [5%R] [[x]] emm 1
      = Ok (map (fun i => nth i [5%R] 0%R) (rev (insertion_argsort [5%R])), rows) /\
      exists row, nth_error rows 0 = Some row /\ nth 3 row (RtoC 0) = RtoC x).
  { intros x. destruct (clean_polar_rows insertion_argsort insertion_argsort_ok 2 1 [5%R] [[x]] emm EM)
      as (rows & E & Ln & _); try reflexivity.
    { intros [|[|k]] v H; cbn in H; try discriminate. injection H as <-. reflexivity. }
    destruct (clean_polar_keeps_sign insertion_argsort insertion_argsort_ok 2 1 [5%R] [[x]] emm EM)
      as (rows' & E' & H); try reflexivity; try lia.
    { intros [|[|k]] v H; cbn in H; try discriminate. injection H as <-. reflexivity. }
    rewrite E in E'. assert (rows' = rows) by congruence. subst rows'.
    exists rows. split; [exact E|]. cbn in Ln. destruct rows as [|row rows]; [discriminate|].
    exists row. split; [reflexivity|]. destruct (H 0 row eq_refl) as (k & v & K1 & K2 & K3).
    assert (v = [x]).
    { destruct k as [|[|k]]; cbn in K2; try discriminate. congruence. }
    subst v. specialize (K3 1 ltac:(cbn; lia)). change (elm2ind 1 1) with 3 in K3. change (1 - Z.abs_nat 1) with 0 in K3. rewrite K3. apply C_ext; cbn; ring. }
  destruct (K 1%R) as (r1 & E1 & w1 & A1 & B1). destruct (K (-1)%R) as (r2 & E2 & w2 & A2 & B2).
  exists insertion_argsort, 2, 1%Z, [5%R], [[1%R]], [[(-1)%R]], emm.
  eexists. eexists. split; [exact insertion_argsort_ok|]. split; [exact EM|]. split; [cbn; lia|].
  assert (EG : forall x, (x * x = 1)%R -> eigen_r 1 (fun _ _ => 5%R) [5%R] [[x]]).
  { intros x Hx. split; [reflexivity|]. split; [reflexivity|]. split; [|split].
    - intros [|[|k]] v H; cbn in H; try discriminate; injection H as <-; reflexivity.
    - intros [|[|k]] v [|r] H Hr; cbn in H, Hr; try discriminate; try lia; injection H as <-; cbn; ring.
    - intros [|[|j]] [|[|k]] u v H H'; cbn in H, H'; try discriminate; injection H as <-; injection H' as <-;
        cbn; lra. }
  split; [apply EG; ring|]. split; [apply EG; ring|].
  split; [constructor; [right; cbn; f_equal; ring|constructor]|].
  split; [exact E1|]. split; [exact E2|]. intros X. assert (r1 = r2) by congruence. subst r2.
  assert (w1 = w2) by congruence. subst w2. rewrite B1 in B2. apply (f_equal Re) in B2. cbn in B2. lra.
Qed.
Print Assumptions C49_polar_sign_canonical_refuted.

Example C49_example : Forall (fun c => hd (RtoC 0) c <> RtoC 0) ex_cols /\
  resigned ex_cols (match ex_cols with a :: t => map Copp a :: t | [] => [] end).
Proof.
  split.
  - repeat constructor; cbn; intros E; apply (f_equal Re) in E; cbn in E;
      pose proof half_sq; rewrite E in *; lra.
  - unfold ex_cols, resigned. constructor; [right; reflexivity|]. constructor; [left; reflexivity|constructor].
Qed.
