From Coq Require Import List ZArith Arith Bool Reals Permutation Lia Lra.
From Coquelicot Require Import Complex.
From Verif Require Import Base ListLemmas PyNum PyNumProofs Index IndexProofs RSum CSum Eigen SpecEigen.
Import ListNotations.
Local Open Scope nat_scope.

(** ** Fancy indexing *)
Lemma rmap_ok {A B} (f : A -> res B) (g : A -> B) l :
  (forall x, In x l -> f x = Ok (g x)) -> rmap f l = Ok (map g l).
Proof.
  induction l as [|x t IH]; intros H; [reflexivity|].
  cbn. rewrite H by (left; reflexivity). cbn. rewrite IH by (intros; apply H; right; assumption).
  reflexivity.
Qed.

Lemma fancy_ok {A} (d : A) (a : list A) idx :
  (forall i, In i idx -> i < length a) -> fancy a idx = Ok (map (fun i => nth i a d) idx).
Proof.
  intros H. unfold fancy. apply rmap_ok. intros i Hi.
  rewrite (nth_error_nth' a d) by (apply H; exact Hi). reflexivity.
Qed.

Lemma map_nth_seq {A} (d : A) (l : list A) : map (fun i => nth i l d) (seq 0 (length l)) = l.
Proof.
  apply nth_error_ext. intros i. destruct (le_lt_dec (length l) i) as [H|H].
  - rewrite (proj2 (nth_error_None l i)) by lia. apply nth_error_None.
    rewrite map_length, seq_length. lia.
  - rewrite nth_error_map, nth_error_seq by lia. cbn.
    rewrite (nth_error_nth' l d) by lia. reflexivity.
Qed.

(** The descending index array. *)
Section Order.
  Variable argsort : list R -> list nat.
  Hypothesis sorted : argsort_ok argsort.
  Variable evals : list R.
  Let idx := rev (argsort evals).

  Lemma idx_perm : Permutation idx (seq 0 (length evals)).
  Proof.
    unfold idx. rewrite <- Permutation_rev. apply sorted.
  Qed.
  Lemma idx_length : length idx = length evals.
  Proof. rewrite (Permutation_length idx_perm). apply seq_length. Qed.
  Lemma idx_range i : In i idx -> i < length evals.
  Proof. intros H. apply (Permutation_in _ idx_perm) in H. apply in_seq in H. lia. Qed.
  Lemma idx_nodup : NoDup idx.
  Proof. apply (Permutation_NoDup (Permutation_sym idx_perm)). apply seq_NoDup. Qed.

  Lemma idx_evals : fancy evals idx = Ok (map (fun i => nth i evals 0%R) idx).
  Proof. apply fancy_ok. apply idx_range. Qed.

  Lemma idx_evals_perm : Permutation (map (fun i => nth i evals 0%R) idx) evals.
  Proof. rewrite idx_perm. rewrite map_nth_seq. reflexivity. Qed.

  Lemma nth_error_rev {A} (l : list A) p : p < length l ->
    nth_error (rev l) p = nth_error l (length l - S p).
  Proof.
    intros H. destruct l as [|d t]; [cbn in H; lia|].
    rewrite (nth_error_nth' (rev (d :: t)) d) by (rewrite rev_length; exact H).
    rewrite rev_nth by exact H.
    rewrite (nth_error_nth' _ d) by lia. reflexivity.
  Qed.

  Lemma idx_descending : descending (map (fun i => nth i evals 0%R) idx).
  Proof.
    intros p q a b H Ha Hb. rewrite nth_error_map in Ha, Hb.
    destruct (nth_error idx p) as [i|] eqn:Ei; [|discriminate].
    destruct (nth_error idx q) as [j|] eqn:Ej; [|discriminate].
    cbn in Ha, Hb. injection Ha as <-. injection Hb as <-.
    assert (Q : q < length (argsort evals)).
    { rewrite <- rev_length. apply nth_error_Some. fold idx. rewrite Ej. discriminate. }
    unfold idx in Ei, Ej. rewrite nth_error_rev in Ei by lia. rewrite nth_error_rev in Ej by lia.
    destruct (sorted evals) as [_ SO].
    apply (SO (length (argsort evals) - S q) (length (argsort evals) - S p)); [lia| |]; assumption.
  Qed.
End Order.

(** ** Phases *)
Definition unit_c (c : C) : Prop := Cmult c (Cconj c) = RtoC 1.

Lemma unit_1 : unit_c (RtoC 1).
Proof. unfold unit_c. rewrite Cconj_R. apply C_ext; cbn; ring. Qed.
Lemma unit_m1 : unit_c (RtoC (-1)).
Proof. unfold unit_c. rewrite Cconj_R. apply C_ext; cbn; ring. Qed.
Lemma unit_i : unit_c Ci.
Proof. unfold unit_c. apply C_ext; cbn; ring. Qed.
Lemma unit_mult c d : unit_c c -> unit_c d -> unit_c (Cmult c d).
Proof.
  unfold unit_c. intros H1 H2. rewrite Cconj_mult.
  replace (Cmult (Cmult c d) (Cmult (Cconj c) (Cconj d)))
    with (Cmult (Cmult c (Cconj c)) (Cmult d (Cconj d))) by ring.
  rewrite H1, H2. ring.
Qed.

Definition sign_of (x : C) : C := if Cltb0 x then RtoC (-1) else RtoC 1.
Lemma sign_unit x : unit_c (sign_of x).
Proof. unfold sign_of. destruct (Cltb0 x); [apply unit_m1|apply unit_1]. Qed.

Lemma fix_sign_eq row : exists c, unit_c c /\ (c = RtoC 1 \/ c = RtoC (-1)) /\ fix_sign row = map (Cmult c) row.
Proof.
  destruct row as [|x t].
  - exists (RtoC 1). split; [apply unit_1|]. auto.
  - exists (sign_of x). split; [apply sign_unit|]. split; [unfold sign_of; destruct (Cltb0 x); auto|]. reflexivity.
Qed.

Lemma nth_map_C (f : C -> C) l j : f (RtoC 0) = RtoC 0 -> nth j (map f l) (RtoC 0) = f (nth j l (RtoC 0)).
Proof. intros H. rewrite <- H at 1. apply map_nth. Qed.

(** [row] is a phase times the conjugate of [col]. *)
Definition phase_conj (row col : list C) : Prop :=
  exists c, unit_c c /\ row = map (fun y => Cmult c (Cconj y)) col.

Lemma phase_conj_nth c col j :
  nth j (map (fun y => Cmult c (Cconj y)) col) (RtoC 0) = Cmult c (Cconj (nth j col (RtoC 0))).
Proof. apply (nth_map_C (fun y => Cmult c (Cconj y))). rewrite Cconj_R. ring. Qed.

Lemma phase_conj_scale c row col : unit_c c -> phase_conj row col -> phase_conj (map (Cmult c) row) col.
Proof.
  intros H [d [Hd ->]]. exists (Cmult c d). split; [apply unit_mult; assumption|].
  rewrite map_map. apply map_ext. intros. ring.
Qed.

Lemma phase_conj_start col : phase_conj (map Cconj col) col.
Proof. exists (RtoC 1). split; [apply unit_1|]. apply map_ext. intros. ring. Qed.

Lemma cdot_conj_sym n u v : cdot n u v = Cconj (cdot n v u).
Proof.
  unfold cdot. rewrite csum_conj. apply csum_ext. intros. rewrite Cconj_mult, Cconj_conj. ring.
Qed.

Lemma phase_conj_dot n c d u v :
  cdot n (map (fun y => Cmult c (Cconj y)) u) (map (fun y => Cmult d (Cconj y)) v)
  = Cmult (Cmult c (Cconj d)) (Cconj (cdot n u v)).
Proof.
  unfold cdot. rewrite csum_conj, <- csum_scal_l. apply csum_ext. intros j _.
  rewrite !phase_conj_nth, !Cconj_mult, !Cconj_conj. ring.
Qed.

(** Rows that are phases of conjugated eigenvector columns are orthonormal left
    eigenvectors. *)
Lemma phase_rows n M evals cols idx rows :
  eigen_c n M evals cols -> hermitian n M -> NoDup idx ->
  (forall p row, nth_error rows p = Some row ->
     exists k col, nth_error idx p = Some k /\ nth_error cols k = Some col /\ phase_conj row col) ->
  orthonormal_rows n rows /\
  (forall p row k, nth_error rows p = Some row -> nth_error idx p = Some k ->
     length row = n /\
     forall r, r < n -> csum n (fun j => Cmult (nth j row (RtoC 0)) (M j r))
                        = Cmult (RtoC (nth k evals 0%R)) (nth r row (RtoC 0))).
Proof.
  intros (H1 & H2 & H3 & H4 & H5) Hh ND HR. split.
  - intros p q u v Hp Hq.
    destruct (HR p u Hp) as (k & cu & K1 & K2 & [c [Uc ->]]).
    destruct (HR q v Hq) as (l & cv & L1 & L2 & [d [Ud ->]]).
    rewrite phase_conj_dot, (H5 k l cu cv K2 L2).
    destruct (Nat.eqb_spec p q) as [->|N].
    + assert (k = l) by congruence. subst l. rewrite Nat.eqb_refl.
      rewrite L2 in K2. injection K2 as ->. rewrite Hp in Hq. injection Hq as Hq.
      assert (Cmult (Cmult c (Cconj d)) (Cconj (RtoC 1)) = RtoC 1); [|assumption].
      (* the same row, hence the same dot product with itself *)
      pose proof (phase_conj_dot n c d cu cu) as P.
      pose proof (phase_conj_dot n c c cu cu) as P'.
      rewrite <- Hq in P. rewrite P in P'. rewrite (H5 k k cu cu L2 L2), Nat.eqb_refl in P'.
      rewrite P'. rewrite Uc, Cconj_R. ring.
    + assert (k <> l).
      { intros ->. apply N. apply (proj1 (NoDup_nth_error idx) ND).
        - apply nth_error_Some. rewrite K1. discriminate.
        - congruence. }
      apply Nat.eqb_neq in H. rewrite H, Cconj_R. ring.
  - intros p row k Hp Hk. destruct (HR p row Hp) as (k' & col & K1 & K2 & [c [Uc ->]]).
    assert (k' = k) by congruence. subst k'. split; [rewrite map_length; eauto|].
    intros r Hr. rewrite phase_conj_nth.
    rewrite (csum_ext n _ (fun j => Cmult c (Cconj (Cmult (M r j) (nth j col (RtoC 0)))))).
    + rewrite csum_scal_l, <- csum_conj, (H4 k col r K2 Hr), Cconj_mult, Cconj_R. ring.
    + intros j Hj. rewrite phase_conj_nth, (Hh j r Hj Hr), Cconj_mult. ring.
Qed.

Section CleanProofs.
  Variable argsort : list R -> list nat.
  Hypothesis sorted : argsort_ok argsort.

  Lemma fancy_cols {A} (evals : list R) (cols : list A) :
    length cols = length evals ->
    exists cols', fancy cols (rev (argsort evals)) = Ok cols' /\ length cols' = length evals /\
      forall p x, nth_error cols' p = Some x ->
        exists k, nth_error (rev (argsort evals)) p = Some k /\ nth_error cols k = Some x.
  Proof.
    intros H. destruct cols as [|d cs].
    - assert (E : evals = []) by (destruct evals; [reflexivity|discriminate]).
      assert (I : rev (argsort evals) = []).
      { apply length_zero_iff_nil. rewrite (idx_length argsort sorted evals). rewrite E. reflexivity. }
      rewrite I. exists []. split; [reflexivity|]. rewrite E. split; [reflexivity|]. intros [|p] x; discriminate.
    - rewrite (fancy_ok d).
      + eexists. split; [reflexivity|]. split; [rewrite map_length; apply (idx_length argsort sorted)|].
        intros p x Hx. rewrite nth_error_map in Hx.
        destruct (nth_error (rev (argsort evals)) p) as [k|] eqn:E; [|discriminate].
        cbn [option_map] in Hx. assert (X : x = nth k (d :: cs) d) by congruence. rewrite X. exists k. split; [reflexivity|].
        apply nth_error_nth'. rewrite H. apply (idx_range argsort sorted).
        eapply nth_error_In. exact E.
      + intros i Hi. rewrite H. apply (idx_range argsort sorted). exact Hi.
  Qed.

  (** Common conclusion for the two complex cleaning functions. *)
  Lemma clean_from_phases n M evals cols out evals' rows :
    eigen_c n M evals cols -> hermitian n M ->
    out = Ok (evals', rows) -> length rows = n ->
    evals' = map (fun i => nth i evals 0%R) (rev (argsort evals)) ->
    (forall p row, nth_error rows p = Some row ->
     exists k col, nth_error (rev (argsort evals)) p = Some k /\ nth_error cols k = Some col /\ phase_conj row col) ->
    cleaned n M evals out.
  Proof.
    intros HE HH Ho Hl Hev HR.
    destruct (phase_rows n M evals cols _ rows HE HH (idx_nodup argsort sorted evals) HR) as [O E].
    exists evals', rows. split; [exact Ho|]. split; [exact Hl|]. subst evals'.
    split; [apply (idx_evals_perm argsort sorted)|].
    split; [apply (idx_descending argsort sorted)|]. split; [exact O|].
    intros p row Hp. destruct (HR p row Hp) as (k & col & K1 & K2 & _).
    destruct (E p row k Hp K1) as [E1 E2]. split; [exact E1|]. intros r Hr. rewrite (E2 r Hr).
    do 2 f_equal. symmetry. apply nth_error_nth. rewrite nth_error_map, K1. reflexivity.
  Qed.

  Lemma clean_lat_lon_spec n M evals cols :
    eigen_c n M evals cols -> hermitian n M ->
    cleaned n M evals (clean_lat_lon argsort evals cols).
  Proof.
    intros HE HH. pose proof HE as (H1 & H2 & H3 & H4 & H5).
    unfold clean_lat_lon. rewrite (idx_evals argsort sorted). cbn [rbind].
    destruct (fancy_cols evals cols) as (cols' & C1 & C2 & C3); [congruence|]. rewrite C1. cbn [rbind].
    apply (clean_from_phases n M evals cols _ _ _ HE HH eq_refl); [|reflexivity|].
    - rewrite !map_length. congruence.
    - intros p row Hp. rewrite !nth_error_map in Hp.
      destruct (nth_error cols' p) as [col|] eqn:E; [|discriminate]. cbn in Hp. injection Hp as <-.
      destruct (C3 p col E) as [k [K1 K2]]. exists k, col. split; [exact K1|]. split; [exact K2|].
      destruct (fix_sign_eq (map Cconj col)) as [c [U [_ ->]]]. apply phase_conj_scale; [exact U|].
      apply phase_conj_start.
  Qed.

  Lemma nth_error_times_i pairs rows p row :
    nth_error (times_i pairs rows) p = Some row ->
    exists r, nth_error rows p = Some r /\ (row = r \/ row = map (Cmult Ci) r).
  Proof.
    unfold times_i. rewrite nth_error_map.
    destruct (nth_error (combine (seq 0 (length rows)) rows) p) as [[a r]|] eqn:E; [|discriminate].
    cbn. intros [= <-].
    assert (F : nth_error rows p = Some r).
    { clear -E. revert E. generalize 0. revert p. induction rows as [|x t IH]; intros p s E.
      - destruct p; discriminate.
      - destruct p as [|p]; cbn in *.
        + injection E as _ <-. reflexivity.
        + eapply IH. exact E. }
    exists r. split; [exact F|]. destruct (existsb _ _); auto.
  Qed.

  Lemma times_i_length pairs rows : length (times_i pairs rows) = length rows.
  Proof. unfold times_i. rewrite map_length, combine_length, seq_length. lia. Qed.

  Lemma clean_arbitrary_spec n M evals cols :
    eigen_c n M evals cols -> hermitian n M ->
    cleaned n M evals (clean_arbitrary argsort evals cols).
  Proof.
    intros HE HH. pose proof HE as (H1 & H2 & H3 & H4 & H5).
    unfold clean_arbitrary. rewrite (idx_evals argsort sorted). cbn [rbind].
    destruct (fancy_cols evals cols) as (cols' & C1 & C2 & C3); [congruence|]. rewrite C1. cbn [rbind].
    apply (clean_from_phases n M evals cols _ _ _ HE HH eq_refl); [|reflexivity|].
    - rewrite times_i_length, !map_length. congruence.
    - intros p row Hp. destruct (nth_error_times_i _ _ _ _ Hp) as [r [Hr Hrow]].
      rewrite !nth_error_map in Hr.
      destruct (nth_error cols' p) as [col|] eqn:E; [|discriminate]. cbn in Hr. injection Hr as <-.
      destruct (C3 p col E) as [k [K1 K2]]. exists k, col. split; [exact K1|]. split; [exact K2|].
      destruct (fix_sign_eq (map Cconj col)) as [c [U [_ Ec]]]. rewrite Ec in Hrow.
      destruct Hrow as [->| ->]; [|apply phase_conj_scale; [apply unit_i|]];
        apply phase_conj_scale; try exact U; apply phase_conj_start.
  Qed.

  (** Mesh: real rows, no conjugation. *)
  Lemma clean_mesh_spec n M evals cols :
    eigen_r n M evals cols ->
    exists evals' rows, clean_mesh argsort evals cols = Ok (evals', rows) /\
      length rows = n /\ Permutation evals' evals /\ descending evals' /\
      (forall p q u v, nth_error rows p = Some u -> nth_error rows q = Some v ->
         rdot n u v = if Nat.eqb p q then 1%R else 0%R) /\
      (forall p row, nth_error rows p = Some row -> length row = n /\
         forall r, r < n -> rsum n (fun c => (M r c * nth c row 0)%R) = (nth p evals' 0 * nth r row 0)%R).
  Proof.
    intros (H1 & H2 & H3 & H4 & H5).
    unfold clean_mesh. rewrite (idx_evals argsort sorted). cbn [rbind].
    destruct (fancy_cols evals cols) as (cols' & C1 & C2 & C3); [congruence|]. rewrite C1. cbn [rbind].
    eexists. eexists. split; [reflexivity|]. split; [congruence|].
    split; [apply (idx_evals_perm argsort sorted)|]. split; [apply (idx_descending argsort sorted)|].
    split.
    - intros p q u v Hp Hq. destruct (C3 p u Hp) as [k [K1 K2]]. destruct (C3 q v Hq) as [l [L1 L2]].
      rewrite (H5 k l u v K2 L2). destruct (Nat.eqb_spec p q) as [->|N].
      + assert (k = l) by congruence. subst. rewrite Nat.eqb_refl. reflexivity.
      + assert (k <> l).
        { intros ->. apply N. apply (proj1 (NoDup_nth_error _) (idx_nodup argsort sorted evals)).
          - apply nth_error_Some. rewrite K1. discriminate.
          - congruence. }
        apply Nat.eqb_neq in H. rewrite H. reflexivity.
    - intros p row Hp. destruct (C3 p row Hp) as [k [K1 K2]]. split; [eapply H3; exact K2|].
      intros r Hr. rewrite (H4 k row r K2 Hr). f_equal. symmetry. apply nth_error_nth.
      rewrite nth_error_map, K1. reflexivity.
  Qed.
End CleanProofs.

(** ** Independence of the sign chosen by the eigensolver *)
Lemma rmap_rel {A B D} (R : A -> B -> Prop) (f : D -> res A) (g : D -> res B) l :
  (forall x, In x l -> match f x, g x with
     | Ok a, Ok b => R a b | Err e, Err e' => e = e' | _, _ => False end) ->
  match rmap f l, rmap g l with
  | Ok a, Ok b => Forall2 R a b | Err e, Err e' => e = e' | _, _ => False end.
Proof.
  induction l as [|x l IH]; intros H; cbn; [constructor|].
  pose proof (H x (or_introl eq_refl)) as Hx.
  specialize (IH (fun y Hy => H y (or_intror Hy))).
  destruct (f x), (g x); cbn; try contradiction; [|assumption].
  destruct (rmap f l), (rmap g l); cbn; try contradiction; [|assumption].
  constructor; assumption.
Qed.

Lemma fancy_rel {A B} (R : A -> B -> Prop) l l' idx : Forall2 R l l' ->
  match fancy l idx, fancy l' idx with
  | Ok a, Ok b => Forall2 R a b | Err e, Err e' => e = e' | _, _ => False end.
Proof.
  intros H. unfold fancy. apply rmap_rel. intros i _.
  revert i. induction H as [|x y l l' Hxy HF IH]; intros [|i]; cbn; auto. apply IH.
Qed.

Lemma Forall2_in_l {A B} (R : A -> B -> Prop) (P : A -> Prop) l l' :
  Forall2 R l l' -> Forall P l -> Forall2 (fun a b => P a /\ R a b) l l'.
Proof. induction 1; intros HP; inversion HP; subst; constructor; auto. Qed.

Lemma Cltb0_spec x : Cltb0 x = true <-> (fst x < 0 \/ (fst x = 0 /\ snd x < 0))%R.
Proof.
  unfold Cltb0. rewrite orb_true_iff, andb_true_iff, !Rltb_spec, Reqb_spec. reflexivity.
Qed.

Lemma Cltb0_opp x : x <> RtoC 0 -> Cltb0 (Copp x) = negb (Cltb0 x).
Proof.
  intros N. apply eq_true_iff_eq. rewrite negb_true_iff, <- not_true_iff_false, !Cltb0_spec.
  destruct x as [a b]. cbn. split.
  - intros H. lra.
  - intros H. assert (a <> 0 \/ b <> 0)%R.
    { destruct (Req_dec a 0) as [->|]; [|auto]. destruct (Req_dec b 0) as [->|]; [|auto]. contradiction N. reflexivity. }
    lra.
Qed.

Lemma fix_sign_opp row : hd (RtoC 0) row <> RtoC 0 -> fix_sign (map Copp row) = fix_sign row.
Proof.
  destruct row as [|x row]; intros N; [reflexivity|]. cbn in N. unfold fix_sign.
  cbn [map]. rewrite (Cltb0_opp x N). rewrite map_map.
  destruct (Cltb0 x); cbn [negb]; f_equal; try (apply map_ext; intros); apply C_ext; cbn; ring.
Qed.

Lemma fix_sign_first row : Cltb0 (hd (RtoC 0) (fix_sign row)) = false.
Proof.
  destruct row as [|x row].
  - apply not_true_iff_false. rewrite Cltb0_spec. cbn. lra.
  - unfold fix_sign. cbn [map hd]. destruct (Cltb0 x) eqn:E; apply not_true_iff_false; rewrite Cltb0_spec.
    + apply Cltb0_spec in E. cbn. lra.
    + apply not_true_iff_false in E. rewrite Cltb0_spec in E. cbn in *. lra.
Qed.

Lemma Forall2_weaken {A B} (P Q : A -> B -> Prop) l l' :
  (forall a b, P a b -> Q a b) -> Forall2 P l l' -> Forall2 Q l l'.
Proof. intros H. induction 1; constructor; auto. Qed.

Lemma map_eq_Forall2 {A B C} (f : A -> C) (g : B -> C) l l' :
  Forall2 (fun a b => f a = g b) l l' -> map f l = map g l'.
Proof. induction 1; cbn; f_equal; auto. Qed.

Lemma rows_resigned cols cols' :
  Forall2 (fun c c' => hd (RtoC 0) c <> RtoC 0 /\ (c' = c \/ c' = map Copp c)) cols cols' ->
  map fix_sign (map (map Cconj) cols') = map fix_sign (map (map Cconj) cols).
Proof.
  intros H. rewrite !map_map. symmetry. apply map_eq_Forall2.
  eapply Forall2_weaken; [|exact H]. intros c c' [N [->| ->]]; [reflexivity|].
  assert (X : map Cconj (map Copp c) = map Copp (map Cconj c)).
  { rewrite !map_map. apply map_ext. intros x. apply C_ext; cbn; ring. }
  rewrite X. symmetry. apply fix_sign_opp.
  destruct c as [|x c]; cbn in *; [exact N|]. intros E. apply N.
  rewrite <- (Cconj_conj x), E. apply Cconj_R.
Qed.

Lemma clean_lat_lon_sign argsort evals cols cols' :
  Forall (fun c => hd (RtoC 0) c <> RtoC 0) cols -> resigned cols cols' ->
  clean_lat_lon argsort evals cols' = clean_lat_lon argsort evals cols.
Proof.
  intros HN HR. unfold clean_lat_lon. destruct (fancy evals _) as [ev|]; [|reflexivity]. cbn [rbind].
  pose proof (fancy_rel _ cols cols' (rev (argsort evals)) (Forall2_in_l _ _ _ _ HR HN)) as H.
  destruct (fancy cols _), (fancy cols' _); cbn [rbind]; try contradiction; [|congruence].
  rewrite (rows_resigned _ _ H). reflexivity.
Qed.

Lemma clean_arbitrary_sign argsort evals cols cols' :
  Forall (fun c => hd (RtoC 0) c <> RtoC 0) cols -> resigned cols cols' ->
  clean_arbitrary argsort evals cols' = clean_arbitrary argsort evals cols.
Proof.
  intros HN HR. unfold clean_arbitrary. destruct (fancy evals _) as [ev|]; [|reflexivity]. cbn [rbind].
  pose proof (fancy_rel _ cols cols' (rev (argsort evals)) (Forall2_in_l _ _ _ _ HR HN)) as H.
  destruct (fancy cols _), (fancy cols' _); cbn [rbind]; try contradiction; [|congruence].
  rewrite (rows_resigned _ _ H). reflexivity.
Qed.

