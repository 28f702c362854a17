(** * Proofs: eigenvectors with errors. *)
From Coq Require Import List ZArith Arith Bool Reals Lia Lra Classical Sorting.Permutation.
From Coquelicot Require Import Rcomplements Complex.
From Verif Require Import Base ListLemmas PyNum PyNumProofs Index IndexProofs RSum CSum OrthoProofs Eigen SpecEigen EigenProofs PolarEigenProofs SpecLatLon LatLonIntegrals LatLonProofs SpecConcentration ConcentrationProofs CompactProofs SpectralProofs WeylProofs SpecRounding.
Import ListNotations.
Local Open Scope nat_scope.

(** ** Inequalities *)
Lemma Cmod_abs2 z : (Cmod z ^ 2 = abs2 z)%R.
Proof. apply RtoC_inj. rewrite <- Cmult_conj_abs2. apply Cmod2. Qed.

Lemma Cmod_conj z : Cmod (Cconj z) = Cmod z.
Proof. unfold Cmod, Cconj. cbn [fst snd]. f_equal. ring. Qed.

Lemma Cmod_csum n f : (Cmod (csum n f) <= rsum n (fun i => Cmod (f i)))%R.
Proof.
  induction n as [|n IH]; cbn [csum rsum]; [rewrite Cmod_0; lra|]. eapply Rle_trans; [apply Cmod_triangle|]. lra.
Qed.

Lemma rsum_square n x : (rsum n x ^ 2 <= INR n * rsum n (fun i => x i ^ 2))%R.
Proof.
  induction n as [|n IH]; [cbn; lra|]. rewrite S_INR. cbn [rsum].
  assert (T : (2 * x n * rsum n x <= INR n * x n ^ 2 + rsum n (fun i => x i ^ 2))%R).
  { clear IH. induction n as [|n IH]; [cbn; lra|]. rewrite S_INR. cbn [rsum].
    assert (IH' : (2 * x (S n) * rsum n x <= INR n * x (S n) ^ 2 + rsum n (fun i => x i ^ 2))%R).
    { clear IH. generalize (x (S n)). intros y. induction n as [|n IH]; [cbn; lra|]. rewrite S_INR. cbn [rsum].
      pose proof (pow2_ge_0 (y - x n)) as Q. lra. }
    pose proof (pow2_ge_0 (x (S n) - x n)) as Q. lra. }
  lra.
Qed.

Lemma nrm2_Cmod n f : nrm2 n f = rsum n (fun i => (Cmod (f i) ^ 2)%R).
Proof. unfold nrm2. apply rsum_ext. intros i _. rewrite Cmod_abs2. reflexivity. Qed.

Lemma re_le z : (Rabs (Re z) <= Cmod z)%R.
Proof.
  pose proof (Cmod_abs2 z) as E. unfold abs2 in E. apply Rabs_le_between. pose proof (Cmod_ge_0 z). pose proof (pow2_ge_0 (Im z)). split; nra.
Qed.

(** The sum of the moduli of a vector. *)
Definition total (n : nat) (f : nat -> C) : R := rsum n (fun i => Cmod (f i)).
Lemma total_pos n f : (0 <= total n f)%R.
Proof. apply rsum_nonneg. intros i _. apply Cmod_ge_0. Qed.
Lemma total_square n f : (total n f ^ 2 <= INR n * nrm2 n f)%R.
Proof. rewrite nrm2_Cmod. apply rsum_square. Qed.
Lemma total_product n f g : (total n f * total n g <= INR n * (nrm2 n f + nrm2 n g) / 2)%R.
Proof. pose proof (total_square n f). pose proof (total_square n g). pose proof (pow2_ge_0 (total n f - total n g)). lra. Qed.
Lemma total_one n f : (total n f <= (INR n + nrm2 n f) / 2)%R.
Proof.
  rewrite nrm2_Cmod. unfold total. induction n as [|n IH]; [cbn; lra|]. rewrite S_INR. cbn [rsum].
  pose proof (pow2_ge_0 (Cmod (f n) - 1)). lra.
Qed.

Lemma form_bound n (e : R) (F : nat -> nat -> C) a b : (0 <= e)%R -> (forall i j, i < n -> j < n -> (Cmod (F i j) <= e)%R) ->
  (Cmod (csum n (fun i => csum n (fun j => Cmult (Cmult (a i) (Cconj (b j))) (F i j)))) <= e * (total n a * total n b))%R.
Proof.
  intros He HF. eapply Rle_trans; [apply Cmod_csum|].
  replace (e * (total n a * total n b))%R with (rsum n (fun i => Cmod (a i) * (e * total n b))%R) by (rewrite rsum_scal_r; unfold total; ring).
  apply rsum_le. intros i Hi. eapply Rle_trans; [apply Cmod_csum|]. unfold total. rewrite <- !rsum_scal_l. apply rsum_le. intros j Hj.
  rewrite !Cmod_mult, Cmod_conj. pose proof (Cmod_ge_0 (a i)). pose proof (Cmod_ge_0 (b j)). specialize (HF i j Hi Hj).
  replace (Cmod (a i) * (e * Cmod (b j)))%R with (Cmod (a i) * Cmod (b j) * e)%R by ring. apply Rmult_le_compat_l; [apply Rmult_le_pos; assumption|exact HF].
Qed.

Lemma ip_bound n (e : R) f g : (0 <= e)%R -> (forall j, j < n -> (Cmod (f j) <= e)%R) -> (Cmod (ip n f g) <= e * total n g)%R.
Proof.
  intros He HF. unfold ip. eapply Rle_trans; [apply Cmod_csum|]. unfold total. rewrite <- rsum_scal_l. apply rsum_le. intros j Hj.
  rewrite Cmod_mult, Cmod_conj. apply Rmult_le_compat_r; [apply Cmod_ge_0|apply HF; exact Hj].
Qed.

(** ** What is computed from such vectors *)
Definition near_decomposed (eta : R) (n : nat) (K : nat -> nat -> C) (evals : list R) (rows : list (list C)) : Prop :=
  length evals = n /\ length rows = n /\ descending evals /\
  (forall p q, p < n -> q < n ->
     (Cmod (Cminus (ip n (fun i => nth i (nth p rows []) (RtoC 0)) (fun i => nth i (nth q rows []) (RtoC 0))) (if Nat.eqb p q then RtoC 1 else RtoC 0)) <= eta)%R) /\
  (forall p j, p < n -> j < n ->
     (Cmod (Cminus (csum n (fun i => Cmult (nth i (nth p rows []) (RtoC 0)) (K i j))) (Cmult (RtoC (nth p evals 0%R)) (nth j (nth p rows []) (RtoC 0)))) <= eta)%R).

Lemma near_decomposed_ext eta n K K' evals rows : (forall i j, i < n -> j < n -> K i j = K' i j) -> near_decomposed eta n K evals rows -> near_decomposed eta n K' evals rows.
Proof.
  intros E (H1 & H2 & H3 & H4 & H5). repeat (split; [assumption|]). intros p j Hp Hj.
  rewrite (csum_ext n _ (fun i => Cmult (nth i (nth p rows []) (RtoC 0)) (K i j))) by (intros i Hi; rewrite E by assumption; reflexivity). apply H5; assumption.
Qed.

Lemma Cmod_unit c : unit_c c -> Cmod c = 1%R.
Proof.
  intros U. assert (C2 : RtoC (Cmod c ^ 2) = RtoC 1) by (unfold unit_c in U; rewrite <- U; apply Cmod2).
  apply RtoC_inj in C2. pose proof (Cmod_ge_0 c). nra.
Qed.

Lemma near_phase_rows eta n M evals cols idx rows :
  eigen_near_c eta n M evals cols -> hermitian n M -> NoDup idx ->
  (forall p row, nth_error rows p = Some row ->
     exists k col, nth_error idx p = Some k /\ nth_error cols k = Some col /\ phase_conj row col) ->
  near_rows eta n rows /\
  (forall p row k, nth_error rows p = Some row -> nth_error idx p = Some k ->
     length row = n /\
     forall r, r < n -> (Cmod (Cminus (csum n (fun j => Cmult (nth j row (RtoC 0)) (M j r))) (Cmult (RtoC (nth k evals 0%R)) (nth r row (RtoC 0)))) <= eta)%R).
Proof.
  intros (H1 & H2 & H3 & H4 & H5) Hh ND HR. split.
  - intros p q u v Hp Hq.
    destruct (HR p u Hp) as (k & cu & K1 & K2 & [c [Uc Eu]]).
    destruct (HR q v Hq) as (l & cv & L1 & L2 & [d [Ud Ev]]).
    destruct (Nat.eqb_spec p q) as [->|N].
    + assert (l = k) by congruence. subst l. assert (VU : v = u) by congruence. rewrite VU. clear Ev VU.
      specialize (H5 k k cu cu K2 K2). rewrite Nat.eqb_refl in H5. rewrite Eu, (phase_conj_dot n c c cu cu). unfold unit_c in Uc. rewrite Uc.
      rewrite <- Cmod_conj in H5. unfold Cminus in H5. rewrite Cconj_plus, Cconj_opp, Cconj_R in H5.
      replace (Cminus (Cmult (RtoC 1) (Cconj (cdot n cu cu))) (RtoC 1)) with (Cplus (Cconj (cdot n cu cu)) (Copp (RtoC 1))) by ring. exact H5.
    + assert (NK : k <> l).
      { intros ->. apply N. apply (proj1 (NoDup_nth_error idx) ND).
        - apply nth_error_Some. rewrite K1. discriminate.
        - congruence. }
      specialize (H5 k l cu cv K2 L2). rewrite (proj2 (Nat.eqb_neq k l) NK) in H5. rewrite Eu, Ev, phase_conj_dot.
      replace (Cminus (cdot n cu cv) (RtoC 0)) with (cdot n cu cv) in H5 by ring.
      match goal with |- (Cmod ?x <= _)%R => replace x with (Cmult (Cmult c (Cconj d)) (Cconj (cdot n cu cv))) by ring end.
      rewrite !Cmod_mult, !Cmod_conj, (Cmod_unit c Uc), (Cmod_unit d Ud). lra.
  - intros p row k Hp Hk. destruct (HR p row Hp) as (k' & col & K1 & K2 & [c [Uc ->]]).
    assert (k' = k) by congruence. subst k'. split; [rewrite map_length; eauto|].
    intros r Hr. rewrite phase_conj_nth.
    rewrite (csum_ext n _ (fun j => Cmult c (Cconj (Cmult (M r j) (nth j col (RtoC 0)))))).
    + specialize (H4 k col r K2 Hr). rewrite csum_scal_l, <- csum_conj.
      replace (Cminus (Cmult c (Cconj (csum n (fun j => Cmult (M r j) (nth j col (RtoC 0)))))) (Cmult (RtoC (nth k evals 0%R)) (Cmult c (Cconj (nth r col (RtoC 0))))))
        with (Cmult c (Cconj (Cminus (csum n (fun j => Cmult (M r j) (nth j col (RtoC 0)))) (Cmult (RtoC (nth k evals 0%R)) (nth r col (RtoC 0)))))).
      * rewrite Cmod_mult, Cmod_conj, (Cmod_unit c Uc). lra.
      * unfold Cminus. rewrite Cconj_plus, Cconj_opp, Cconj_mult, Cconj_R. ring.
    + intros j Hj. rewrite phase_conj_nth, (Hh j r Hj Hr), Cconj_mult. ring.
Qed.

Section NearClean.
  Variable argsort : list R -> list nat.
  Hypothesis sorted : argsort_ok argsort.

  Lemma near_clean_phases eta n M evals cols out evals' rows :
    eigen_near_c eta n M evals cols -> hermitian n M ->
    out = Ok (evals', rows) -> length rows = n ->
    evals' = map (fun i => nth i evals 0%R) (rev (argsort evals)) ->
    (forall p row, nth_error rows p = Some row ->
     exists k col, nth_error (rev (argsort evals)) p = Some k /\ nth_error cols k = Some col /\ phase_conj row col) ->
    cleaned_near eta n M evals out.
  Proof.
    intros HE HH Ho Hl Hev HR.
    destruct (near_phase_rows eta n M evals cols _ rows HE HH (idx_nodup argsort sorted evals) HR) as [O E].
    exists evals', rows. split; [exact Ho|]. subst evals'.
    split; [rewrite map_length, (idx_length argsort sorted); apply HE|]. split; [exact Hl|].
    split; [apply (idx_descending argsort sorted)|]. split; [apply (idx_evals_perm argsort sorted)|]. split; [exact O|].
    intros p row Hp. destruct (HR p row Hp) as (k & col & K1 & K2 & _).
    destruct (E p row k Hp K1) as [E1 E2]. split; [exact E1|]. intros r Hr.
    replace (nth p (map (fun i => nth i evals 0%R) (rev (argsort evals))) 0%R) with (nth k evals 0%R); [exact (E2 r Hr)|].
    symmetry. apply nth_error_nth. rewrite nth_error_map, K1. reflexivity.
  Qed.

  Lemma near_lat_lon eta n M evals cols : eigen_near_c eta n M evals cols -> hermitian n M ->
    cleaned_near eta n M evals (clean_lat_lon argsort evals cols).
  Proof.
    intros HE HH. pose proof HE as (H1 & H2 & H3 & H4 & H5).
    unfold clean_lat_lon. rewrite (idx_evals argsort sorted). cbn [rbind].
    destruct (fancy_cols argsort sorted evals cols) as (cols' & C1 & C2 & C3); [congruence|]. rewrite C1. cbn [rbind].
    apply (near_clean_phases eta n M evals cols _ _ _ HE HH eq_refl); [|reflexivity|].
    - rewrite !map_length. congruence.
    - intros p row Hp. rewrite !nth_error_map in Hp.
      destruct (nth_error cols' p) as [col|] eqn:E; [|discriminate]. cbn in Hp. injection Hp as <-.
      destruct (C3 p col E) as [k [K1 K2]]. exists k, col. split; [exact K1|]. split; [exact K2|].
      destruct (fix_sign_eq (map Cconj col)) as [c [U [_ ->]]]. apply phase_conj_scale; [exact U|].
      apply phase_conj_start.
  Qed.

  Lemma near_arbitrary eta n M evals cols : eigen_near_c eta n M evals cols -> hermitian n M ->
    cleaned_near eta n M evals (clean_arbitrary argsort evals cols).
  Proof.
    intros HE HH. pose proof HE as (H1 & H2 & H3 & H4 & H5).
    unfold clean_arbitrary. rewrite (idx_evals argsort sorted). cbn [rbind].
    destruct (fancy_cols argsort sorted evals cols) as (cols' & C1 & C2 & C3); [congruence|]. rewrite C1. cbn [rbind].
    apply (near_clean_phases eta n M evals cols _ _ _ HE HH eq_refl); [|reflexivity|].
    - rewrite times_i_length, !map_length. congruence.
    - intros p row Hp. destruct (nth_error_times_i _ _ _ _ Hp) as [r [Hr Hrow]].
      rewrite !nth_error_map in Hr.
      destruct (nth_error cols' p) as [col|] eqn:E; [|discriminate]. cbn in Hr. injection Hr as <-.
      destruct (C3 p col E) as [k [K1 K2]]. exists k, col. split; [exact K1|]. split; [exact K2|].
      destruct (fix_sign_eq (map Cconj col)) as [c [U [_ Ec]]]. rewrite Ec in Hrow.
      destruct Hrow as [->| ->]; [|apply phase_conj_scale; [apply unit_i|]];
        apply phase_conj_scale; try exact U; apply phase_conj_start.
  Qed.
End NearClean.

Lemma near_family eta n K evals out : cleaned_near eta n K evals out ->
  exists evals' rows, out = Ok (evals', rows) /\ near_decomposed eta n K evals' rows.
Proof.
  intros (evals' & rows & E & H1 & H2 & Hd & _ & Ho & He). exists evals', rows. split; [exact E|]. split; [exact H1|]. split; [exact H2|]. split; [exact Hd|].
  assert (N : forall p, p < n -> nth_error rows p = Some (nth p rows [])) by (intros p Hp; apply nth_error_nth'; lia).
  split.
  - intros p q Hp Hq. exact (Ho p q _ _ (N p Hp) (N q Hq)).
  - intros p j Hp Hj. exact (proj2 (He p _ (N p Hp)) j Hj).
Qed.

(** ** Distance from the exact solution *)
Section Near.
  Variables (eta B : R) (n : nat) (K : nat -> nat -> C) (evals : list R) (rows : list (list C)) (lam : list R) (exact : list (list C)).
  Hypothesis near : near_decomposed eta n K evals rows.
  Hypothesis true : decomposed n K lam exact.
  Hypothesis range : forall p, p < n -> (0 <= nth p lam 0 <= B)%R.
  Hypothesis above : (1 <= B)%R.
  Hypothesis some : 1 <= n.
  Hypothesis small : (INR n * eta <= 1 / 2)%R.
  Let v p i := nth i (nth p rows []) (RtoC 0).
  Let u p i := nth i (nth p exact []) (RtoC 0).
  Let mu p := nth p evals 0%R.
  Let res p j := Cminus (csum n (fun i => Cmult (v p i) (K i j))) (Cmult (RtoC (mu p)) (v p j)).

  Lemma eta_pos : (0 <= eta)%R.
  Proof. destruct near as (_ & _ & _ & H & _). eapply Rle_trans; [|apply (H 0 0); lia]. apply Cmod_ge_0. Qed.
  Lemma n_pos : (1 <= INR n)%R.
  Proof. change 1%R with (INR 1). apply le_INR. exact some. Qed.
  Lemma eta_small : (eta <= 1 / 2)%R.
  Proof. pose proof eta_pos. pose proof n_pos. assert (1 * eta <= INR n * eta)%R by (apply Rmult_le_compat_r; lra). lra. Qed.
  Lemma ortho_near p q : p < n -> q < n -> (Cmod (Cminus (ip n (v p) (v q)) (if p =? q then RtoC 1 else RtoC 0)) <= eta)%R.
  Proof. destruct near as (_ & _ & _ & H & _). apply H. Qed.
  Lemma res_small p j : p < n -> j < n -> (Cmod (res p j) <= eta)%R.
  Proof. destruct near as (_ & _ & _ & _ & H). apply H. Qed.
  Lemma norm_near p : p < n -> (Rabs (nrm2 n (v p) - 1) <= eta)%R.
  Proof.
    intros Hp. pose proof (ortho_near p p Hp Hp) as O. rewrite Nat.eqb_refl, ip_self in O.
    replace (Cminus (RtoC (nrm2 n (v p))) (RtoC 1)) with (RtoC (nrm2 n (v p) - 1)) in O by (rewrite RtoC_minus; reflexivity). rewrite Cmod_R in O. exact O.
  Qed.
  Definition root : R := sqrt (INR n).
  Lemma root_square : (root * root = INR n)%R.
  Proof. unfold root. apply sqrt_sqrt, pos_INR. Qed.
  Lemma root_pos : (1 <= root)%R.
  Proof. unfold root. rewrite <- sqrt_1. apply sqrt_le_1_alt. exact n_pos. Qed.
  Lemma root_le : (root <= INR n)%R.
  Proof. rewrite <- root_square. pose proof root_pos. rewrite <- (Rmult_1_r root) at 1. apply Rmult_le_compat_l; lra. Qed.
  Lemma total_near p : p < n -> (total n (v p) <= 5 / 4 * root)%R.
  Proof.
    intros Hp. pose proof (norm_near p Hp) as N. apply Rabs_le_between in N. pose proof (total_square n (v p)) as T. pose proof n_pos. pose proof eta_small. pose proof root_pos.
    apply Rsqr_incr_0_var; [|lra]. unfold Rsqr. cbn [pow] in T. rewrite Rmult_1_r in T. eapply Rle_trans; [exact T|].
    replace (5 / 4 * root * (5 / 4 * root))%R with (25 / 16 * (root * root))%R by field. rewrite root_square, (Rmult_comm (25 / 16)). apply Rmult_le_compat_l; lra.
  Qed.

  Lemma gram_res p w : p < n -> gram n K (v p) w = Cplus (Cmult (RtoC (mu p)) (ip n (v p) w)) (ip n (res p) w).
  Proof.
    intros Hp. rewrite gram_eq. unfold ip. rewrite <- csum_scal_l, <- csum_plus. apply csum_ext. intros j Hj. unfold res. ring.
  Qed.

  Lemma form_le w : (0 <= Re (gram n K w w) <= B * nrm2 n w)%R.
  Proof.
    pose proof true as (_ & _ & _ & O & E). rewrite (gram_form n K u (fun q => nth q lam 0%R) O E w). cbn [Re RtoC fst].
    rewrite <- (parseval n u O w). unfold nrm2. split.
    - apply rsum_nonneg. intros q Hq. apply Rmult_le_pos; [apply range; exact Hq|apply abs2_nonneg].
    - rewrite <- rsum_scal_l. apply rsum_le. intros q Hq. apply Rmult_le_compat_r; [apply abs2_nonneg|apply range; exact Hq].
  Qed.

  Lemma mu_bound p : p < n -> (Rabs (mu p) <= 17 / 4 * B)%R.
  Proof.
    intros Hp. pose proof (gram_res p (v p) Hp) as G. apply (f_equal Re) in G. rewrite ip_self in G.
    assert (G' : Re (gram n K (v p) (v p)) = (mu p * nrm2 n (v p) + Re (ip n (res p) (v p)))%R) by (rewrite G; unfold Re, Cplus, Cmult, RtoC; cbn [fst snd]; ring). clear G.
    pose proof (form_le (v p)) as F. pose proof (norm_near p Hp) as N. apply Rabs_le_between in N.
    pose proof (ip_bound n eta (res p) (v p) eta_pos (fun j Hj => res_small p j Hp Hj)) as I.
    pose proof (Rle_trans _ _ _ (re_le (ip n (res p) (v p))) I) as I'. apply Rabs_le_between in I'.
    pose proof (total_near p Hp) as T. pose proof eta_pos as E0. pose proof eta_small as E1.
    assert (T' : (eta * total n (v p) <= 5 / 8)%R) by (apply Rle_trans with (eta * (5 / 4 * root))%R; [apply Rmult_le_compat_l; assumption|]; pose proof (Rmult_le_compat_l eta _ _ E0 root_le); lra).
    set (N2 := nrm2 n (v p)) in *. set (x := mu p) in *. set (Rr := Re (ip n (res p) (v p))) in *. clearbody N2 x Rr.
    assert (BN : (B * N2 <= 3 / 2 * B)%R) by (rewrite (Rmult_comm B); apply Rmult_le_compat_r; lra).
    assert (XN : (Rabs (x * N2) <= 17 / 8 * B)%R) by (apply Rabs_le; lra).
    rewrite Rabs_mult, (Rabs_pos_eq N2) in XN by lra. pose proof (Rabs_pos x).
    assert (Rabs x * (1 / 2) <= Rabs x * N2)%R by (apply Rmult_le_compat_l; lra). lra.
  Qed.

  (** Energies of the computed vectors. *)
  Lemma gram_near p q : p < n -> q < n ->
    (Cmod (Cminus (gram n K (v p) (v q)) (if p =? q then RtoC (mu p) else RtoC 0)) <= 11 / 2 * B * root * eta)%R.
  Proof.
    intros Hp Hq. rewrite (gram_res p (v q) Hp).
    replace (Cminus (Cplus (Cmult (RtoC (mu p)) (ip n (v p) (v q))) (ip n (res p) (v q))) (if p =? q then RtoC (mu p) else RtoC 0))
      with (Cplus (Cmult (RtoC (mu p)) (Cminus (ip n (v p) (v q)) (if p =? q then RtoC 1 else RtoC 0))) (ip n (res p) (v q))) by (destruct (p =? q); ring).
    eapply Rle_trans; [apply Cmod_triangle|]. rewrite Cmod_mult, Cmod_R.
    pose proof (mu_bound p Hp) as M. pose proof (ortho_near p q Hp Hq) as O. pose proof (total_near q Hq) as T. pose proof eta_pos as E0. pose proof root_pos as N1.
    pose proof (ip_bound n eta (res p) (v q) E0 (fun j Hj => res_small p j Hp Hj)) as I.
    assert (A1 : (Rabs (mu p) * Cmod (Cminus (ip n (v p) (v q)) (if p =? q then RtoC 1 else RtoC 0)) <= 17 / 4 * B * eta)%R)
      by (apply Rmult_le_compat; [apply Rabs_pos|apply Cmod_ge_0|exact M|exact O]).
    assert (A2 : (eta * total n (v q) <= eta * (5 / 4 * root))%R) by (apply Rmult_le_compat_l; assumption).
    assert (A3 : (B * eta * 1 <= B * eta * root)%R) by (apply Rmult_le_compat_l; [apply Rmult_le_pos; lra|exact N1]).
    assert (A4 : (1 * (eta * root) <= B * (eta * root))%R) by (apply Rmult_le_compat_r; [apply Rmult_le_pos; lra|exact above]). lra.
  Qed.

  (** Combinations of computed vectors. *)
  Definition comb (a : nat -> C) (i : nat) : C := csum n (fun s => Cmult (a s) (v s i)).
  Lemma comb_ip a w : ip n (comb a) w = csum n (fun s => Cmult (a s) (ip n (v s) w)).
  Proof. unfold comb. apply ip_sum_l. Qed.

  Lemma comb_norm a : (Rabs (nrm2 n (comb a) - nrm2 n a) <= INR n * eta * nrm2 n a)%R.
  Proof.
    assert (E : RtoC (nrm2 n (comb a) - nrm2 n a) = csum n (fun s => csum n (fun t => Cmult (Cmult (a s) (Cconj (a t))) (Cminus (ip n (v s) (v t)) (if s =? t then RtoC 1 else RtoC 0))))).
    { rewrite RtoC_minus, <- ip_self, <- (ip_self n a), comb_ip.
      assert (D : ip n a a = csum n (fun s => csum n (fun t => Cmult (Cmult (a s) (Cconj (a t))) (if s =? t then RtoC 1 else RtoC 0)))).
      { rewrite <- gram_identity. unfold gram. apply csum_ext. intros s _. apply csum_ext. intros t _. destruct (s =? t); reflexivity. }
      rewrite D. unfold Cminus. rewrite <- csum_opp, <- csum_plus. apply csum_ext. intros s Hs.
      unfold comb. rewrite ip_sum_r. rewrite <- csum_opp, <- csum_scal_l, <- csum_plus. apply csum_ext. intros t Ht. ring. }
    rewrite <- Cmod_R, E. eapply Rle_trans; [apply (form_bound n eta _ a a eta_pos); intros s t Hs Ht; apply ortho_near; assumption|].
    pose proof (total_square n a) as T. pose proof eta_pos. replace (INR n * eta * nrm2 n a)%R with (eta * (INR n * nrm2 n a))%R by ring.
    apply Rmult_le_compat_l; [assumption|]. cbn [pow] in T. lra.
  Qed.

  Lemma comb_gram a : (Rabs (Re (gram n K (comb a) (comb a)) - rsum n (fun s => mu s * abs2 (a s))) <= 11 / 2 * B * INR n * eta * nrm2 n a)%R.
  Proof.
    set (r := fun j => csum n (fun s => Cmult (a s) (res s j))).
    assert (E : Cminus (gram n K (comb a) (comb a)) (RtoC (rsum n (fun s => mu s * abs2 (a s))%R))
      = Cplus (csum n (fun s => csum n (fun t => Cmult (Cmult (a s) (Cconj (a t))) (Cmult (RtoC (mu s)) (Cminus (ip n (v s) (v t)) (if s =? t then RtoC 1 else RtoC 0)))))) (ip n r (comb a))).
    { assert (G : gram n K (comb a) (comb a) = csum n (fun s => Cmult (a s) (gram n K (v s) (comb a)))).
      { rewrite gram_eq.
        rewrite (csum_ext n _ (fun j => csum n (fun s => Cmult (a s) (Cmult (Cconj (comb a j)) (csum n (fun i => Cmult (v s i) (K i j))))))).
        - rewrite csum_swap. apply csum_ext. intros s _. rewrite csum_scal_l, gram_eq. reflexivity.
        - intros j _.
          assert (Q : csum n (fun i => Cmult (comb a i) (K i j)) = csum n (fun s => Cmult (a s) (csum n (fun i => Cmult (v s i) (K i j))))).
          { unfold comb. rewrite (csum_ext n _ (fun i => csum n (fun s => Cmult (a s) (Cmult (v s i) (K i j))))).
            - rewrite csum_swap. apply csum_ext. intros s _. apply csum_scal_l.
            - intros i _. rewrite <- csum_scal_r. apply csum_ext. intros s _. ring. }
          rewrite Q, <- csum_scal_l. apply csum_ext. intros s _. ring. }
      assert (D : RtoC (rsum n (fun s => mu s * abs2 (a s))%R) = csum n (fun s => csum n (fun t => Cmult (Cmult (a s) (Cconj (a t))) (Cmult (RtoC (mu s)) (if s =? t then RtoC 1 else RtoC 0))))).
      { rewrite <- csum_RtoC. apply csum_ext. intros s Hs. rewrite (csum_single n s); [|exact Hs|].
        - rewrite Nat.eqb_refl, Cmult_conj_abs2, RtoC_mult. ring.
        - intros t _ N. rewrite (proj2 (Nat.eqb_neq s t)) by lia. ring. }
      assert (P : ip n r (comb a) = csum n (fun s => Cmult (a s) (ip n (res s) (comb a)))) by (unfold r; apply ip_sum_l).
      rewrite G, D, P. unfold Cminus. rewrite <- csum_opp, <- csum_plus, <- csum_plus. apply csum_ext. intros s Hs.
      rewrite (gram_res s (comb a) Hs). rewrite <- csum_opp. unfold comb at 1. rewrite ip_sum_r.
      rewrite (csum_ext n (fun t => Cmult (Cmult (a s) (Cconj (a t))) (Cmult (RtoC (mu s)) (Cplus (ip n (v s) (v t)) (Copp (if s =? t then RtoC 1 else RtoC 0)))))
                (fun t => Cplus (Cmult (Cmult (a s) (RtoC (mu s))) (Cmult (Cconj (a t)) (ip n (v s) (v t)))) (Copp (Cmult (Cmult (a s) (Cconj (a t))) (Cmult (RtoC (mu s)) (if s =? t then RtoC 1 else RtoC 0))))))
        by (intros t _; ring).
      rewrite csum_plus, csum_scal_l. ring. }
    pose proof eta_pos as E0. pose proof n_pos as N1. pose proof (nrm2_nonneg n a) as NA. pose proof (total_square n a) as T. pose proof (comb_norm a) as CN. apply Rabs_le_between in CN.
    assert (SA : (INR n * eta * nrm2 n a <= 1 / 2 * nrm2 n a)%R) by (apply Rmult_le_compat_r; [exact NA|exact small]).
    set (e := (17 / 4 * B * eta)%R). assert (Pe : (0 <= e)%R) by (unfold e; apply Rmult_le_pos; lra).
    pose proof (form_bound n e (fun s t => Cmult (RtoC (mu s)) (Cminus (ip n (v s) (v t)) (if s =? t then RtoC 1 else RtoC 0))) a a Pe) as F. cbn beta in F.
    assert (F1 : (Cmod (csum n (fun s => csum n (fun t => Cmult (Cmult (a s) (Cconj (a t))) (Cmult (RtoC (mu s)) (Cminus (ip n (v s) (v t)) (if s =? t then RtoC 1 else RtoC 0)))))) <= e * (total n a * total n a))%R).
    { apply F. intros s t Hs Ht. rewrite Cmod_mult, Cmod_R. unfold e. apply Rmult_le_compat; [apply Rabs_pos|apply Cmod_ge_0|apply mu_bound; exact Hs|apply ortho_near; assumption]. }
    clear F.
    assert (F2 : (Cmod (ip n r (comb a)) <= eta * total n a * total n (comb a))%R).
    { apply ip_bound; [apply Rmult_le_pos; [exact E0|apply total_pos]|]. intros j Hj. unfold r. eapply Rle_trans; [apply Cmod_csum|].
      unfold total. rewrite <- rsum_scal_l. apply rsum_le. intros s Hs. rewrite Cmod_mult, Rmult_comm. apply Rmult_le_compat_r; [apply Cmod_ge_0|apply res_small; assumption]. }
    pose proof (total_product n a (comb a)) as TP.
    assert (Y1 : (e * (total n a * total n a) <= e * (INR n * nrm2 n a))%R) by (apply Rmult_le_compat_l; [exact Pe|cbn [pow] in T; lra]).
    assert (Y2 : (eta * (total n a * total n (comb a)) <= eta * (5 / 4 * (INR n * nrm2 n a)))%R).
    { apply Rmult_le_compat_l; [exact E0|]. eapply Rle_trans; [exact TP|].
      assert (INR n * (nrm2 n a + nrm2 n (comb a)) <= INR n * (5 / 2 * nrm2 n a))%R by (apply Rmult_le_compat_l; lra). lra. }
    assert (Y3 : (1 * (eta * INR n * nrm2 n a) <= B * (eta * INR n * nrm2 n a))%R) by (apply Rmult_le_compat_r; [apply Rmult_le_pos; [apply Rmult_le_pos; lra|exact NA]|exact above]).
    pose proof (re_le (Cminus (gram n K (comb a) (comb a)) (RtoC (rsum n (fun s => mu s * abs2 (a s))%R)))) as X.
    replace (Re (Cminus (gram n K (comb a) (comb a)) (RtoC (rsum n (fun s => mu s * abs2 (a s))%R)))) with (Re (gram n K (comb a) (comb a)) - rsum n (fun s => mu s * abs2 (a s)))%R in X
      by (unfold Re, Cminus, Cplus, Copp, RtoC; cbn [fst snd]; ring).
    eapply Rle_trans; [exact X|]. rewrite E. eapply Rle_trans; [apply Cmod_triangle|]. unfold e in *. lra.
  Qed.

  Lemma exact_sorted p q : p <= q -> q < n -> (nth q lam 0 <= nth p lam 0)%R.
  Proof. apply (decomposed_sorted n K lam exact true). Qed.
  Lemma mu_sorted p q : p <= q -> q < n -> (mu q <= mu p)%R.
  Proof. intros Hpq Hq. destruct near as (Hl & _ & Hd & _). apply descending_nth; [exact Hd|exact Hpq|lia]. Qed.

  Lemma support_zero m (a : nat -> C) j : j < m -> m <= n -> a j <> RtoC 0 -> (0 < nrm2 n a)%R.
  Proof.
    intros Hj Hm Na. pose proof (nrm2_nonneg n a) as G. destruct (Req_dec (nrm2 n a) 0) as [Z|]; [|lra]. exfalso. apply Na. apply (nrm2_zero n a Z). lia.
  Qed.

  (** Every computed eigenvalue is near the exact one of the same rank. *)
  Lemma eigenvalue_near p : p < n -> (Rabs (mu p - nth p lam 0) <= 13 / 2 * B * INR n * eta)%R.
  Proof.
    intros Hp. pose proof true as (_ & _ & _ & O & E). pose proof eta_pos as E0. pose proof n_pos as N1. pose proof (range p Hp) as RP.
    apply Rabs_le. split.
    - (* combinations of the vectors from [p] on, orthogonal to the exact ones after [p] *)
      destruct (common_zero (n - p) (n - p - 1) (fun q s => ip n (v (p + s)) (u (p + 1 + q))) ltac:(lia)) as (x & (j0 & Hj0 & Nj0) & Hx).
      set (a := fun s => if s <? p then RtoC 0 else x (s - p)).
      assert (POS : (0 < nrm2 n a)%R).
      { apply (support_zero n a (p + j0)); [lia|lia|]. unfold a. rewrite (proj2 (Nat.ltb_ge (p + j0) p)) by lia. replace (p + j0 - p) with j0 by lia. exact Nj0. }
      assert (Z : forall q, p < q -> q < n -> ip n (comb a) (u q) = RtoC 0).
      { intros q Hq Hqn. rewrite comb_ip. replace n with (p + (n - p)) at 1 by lia. rewrite csum_app, (csum_zero p).
        - rewrite Cplus_0_l. rewrite <- (Hx (q - p - 1)) by lia. apply csum_ext. intros s Hs. unfold a. rewrite (proj2 (Nat.ltb_ge (p + s) p)) by lia.
          replace (p + s - p) with s by lia. replace (p + 1 + (q - p - 1)) with q by lia. reflexivity.
        - intros s Hs. unfold a. rewrite (proj2 (Nat.ltb_lt s p)) by exact Hs. ring. }
      assert (LO : (nth p lam 0 * nrm2 n (comb a) <= Re (gram n K (comb a) (comb a)))%R).
      { rewrite (gram_form n K u (fun q => nth q lam 0%R) O E). cbn [Re RtoC fst]. rewrite <- (parseval n u O (comb a)). unfold nrm2. rewrite <- rsum_scal_l.
        apply rsum_le. intros q Hq. change (Re (ip n (comb a) (u q)) ^ 2 + Im (ip n (comb a) (u q)) ^ 2)%R with (abs2 (ip n (comb a) (u q))).
        destruct (Nat.le_gt_cases q p) as [Q|Q].
        - apply Rmult_le_compat_r; [apply abs2_nonneg|]. apply exact_sorted; [exact Q|exact Hp].
        - rewrite (Z q Q Hq). unfold abs2. cbn. right. ring. }
      assert (UP : (rsum n (fun s => mu s * abs2 (a s)) <= mu p * nrm2 n a)%R).
      { unfold nrm2. rewrite <- rsum_scal_l. apply rsum_le. intros s Hs. change (Re (a s) ^ 2 + Im (a s) ^ 2)%R with (abs2 (a s)). destruct (Nat.lt_ge_cases s p) as [Q|Q].
        - unfold a. rewrite (proj2 (Nat.ltb_lt s p)) by exact Q. unfold abs2. cbn. right. ring.
        - apply Rmult_le_compat_r; [apply abs2_nonneg|]. apply mu_sorted; [exact Q|exact Hs]. }
      pose proof (comb_norm a) as CN. apply Rabs_le_between in CN. pose proof (comb_gram a) as CG. apply Rabs_le_between in CG.
      assert (L1 : (nth p lam 0 * (nrm2 n a - INR n * eta * nrm2 n a) <= nth p lam 0 * nrm2 n (comb a))%R) by (apply Rmult_le_compat_l; lra).
      assert (L2 : (nth p lam 0 * (INR n * eta * nrm2 n a) <= B * (INR n * eta * nrm2 n a))%R)
        by (apply Rmult_le_compat_r; [apply Rmult_le_pos; [apply Rmult_le_pos; lra|lra]|lra]).
      apply (Rmult_le_reg_r (nrm2 n a)); [exact POS|]. lra.
    - destruct (common_zero (p + 1) p (fun q s => ip n (v s) (u q)) ltac:(lia)) as (x & (j0 & Hj0 & Nj0) & Hx).
      set (a := fun s => if s <? p + 1 then x s else RtoC 0).
      assert (POS : (0 < nrm2 n a)%R).
      { apply (support_zero n a j0); [lia|lia|]. unfold a. rewrite (proj2 (Nat.ltb_lt j0 (p + 1))) by exact Hj0. exact Nj0. }
      assert (Z : forall q, q < p -> ip n (comb a) (u q) = RtoC 0).
      { intros q Hq. rewrite comb_ip. replace n with (p + 1 + (n - (p + 1))) at 1 by lia. rewrite csum_app, (csum_zero (n - (p + 1))).
        - rewrite <- (Hx q Hq) at 2. rewrite (csum_ext (p + 1) _ (fun s => Cmult (x s) (ip n (v s) (u q)))); [ring|].
          intros s Hs. unfold a. rewrite (proj2 (Nat.ltb_lt s (p + 1))) by exact Hs. reflexivity.
        - intros s _. unfold a. rewrite (proj2 (Nat.ltb_ge (p + 1 + s) (p + 1))) by lia. ring. }
      pose proof (gram_bound n K u (fun q => nth q lam 0%R) O E (comb a) p Hp exact_sorted Z) as UP. cbn beta in UP.
      assert (LO : (mu p * nrm2 n a <= rsum n (fun s => mu s * abs2 (a s)))%R).
      { unfold nrm2. rewrite <- rsum_scal_l. apply rsum_le. intros s Hs. change (Re (a s) ^ 2 + Im (a s) ^ 2)%R with (abs2 (a s)). destruct (Nat.lt_ge_cases s (p + 1)) as [Q|Q].
        - apply Rmult_le_compat_r; [apply abs2_nonneg|]. apply mu_sorted; lia.
        - unfold a. rewrite (proj2 (Nat.ltb_ge s (p + 1))) by exact Q. unfold abs2. cbn. right. ring. }
      pose proof (comb_norm a) as CN. apply Rabs_le_between in CN. pose proof (comb_gram a) as CG. apply Rabs_le_between in CG.
      assert (L1 : (nth p lam 0 * nrm2 n (comb a) <= nth p lam 0 * (nrm2 n a + INR n * eta * nrm2 n a))%R) by (apply Rmult_le_compat_l; lra).
      assert (L2 : (nth p lam 0 * (INR n * eta * nrm2 n a) <= B * (INR n * eta * nrm2 n a))%R)
        by (apply Rmult_le_compat_r; [apply Rmult_le_pos; [apply Rmult_le_pos; lra|lra]|lra]).
      apply (Rmult_le_reg_r (nrm2 n a)); [exact POS|]. lra.
  Qed.

  (** A computed vector has little of the exact ones of other eigenvalues. *)
  Lemma component_res p q : p < n -> q < n -> Cmult (RtoC (nth q lam 0 - mu p)%R) (ip n (v p) (u q)) = ip n (res p) (u q).
  Proof.
    intros Hp Hq. pose proof true as (_ & _ & _ & O & E). pose proof (decomposed_hermitian n K lam exact true) as HH.
    assert (G : gram n K (v p) (u q) = Cmult (RtoC (nth q lam 0%R)) (ip n (v p) (u q))).
    { unfold gram. unfold ip. rewrite <- csum_scal_l. apply csum_ext. intros i Hi.
      rewrite (csum_ext n _ (fun j => Cmult (v p i) (Cconj (Cmult (u q j) (K j i))))).
      - rewrite csum_scal_l, <- csum_conj. unfold u at 1. rewrite (E q i Hq Hi), Cconj_mult, Cconj_R. unfold u. ring.
      - intros j Hj. rewrite (HH i j Hi Hj), Cconj_mult. ring. }
    rewrite (gram_res p (u q) Hp) in G.
    rewrite RtoC_minus. transitivity (Cminus (Cmult (RtoC (nth q lam 0%R)) (ip n (v p) (u q))) (Cmult (RtoC (mu p)) (ip n (v p) (u q)))); [ring|]. rewrite <- G. ring.
  Qed.

  Lemma components_near p : p < n -> (rsum n (fun q => (Rabs (nth q lam 0 - mu p) * Cmod (ip n (v p) (u q))) ^ 2) <= (root * eta) ^ 2)%R.
  Proof.
    intros Hp. pose proof true as (_ & _ & _ & O & E).
    rewrite (rsum_ext n _ (fun q => abs2 (ip n (res p) (u q)))).
    - change (nrm2 n (fun q => ip n (res p) (u q)) <= (root * eta) ^ 2)%R. rewrite (parseval n u O (res p)), nrm2_Cmod.
      replace ((root * eta) ^ 2)%R with (INR n * eta ^ 2)%R by (rewrite <- root_square; ring). rewrite <- rsum_const. apply rsum_le. intros j Hj.
      apply pow_incr. split; [apply Cmod_ge_0|apply res_small; assumption].
    - intros q Hq. rewrite <- Cmod_abs2, <- (component_res p q Hp Hq), Cmod_mult, Cmod_R. reflexivity.
  Qed.

  Lemma component_near p q : p < n -> q < n -> (Rabs (nth q lam 0 - mu p) * Cmod (ip n (v p) (u q)) <= root * eta)%R.
  Proof.
    intros Hp Hq. pose proof (components_near p Hp) as C. pose proof root_pos. pose proof eta_pos.
    apply Rsqr_incr_0_var; [|apply Rmult_le_pos; lra]. rewrite !Rsqr_pow2. eapply Rle_trans; [|exact C].
    apply (rsum_term n (fun q => ((Rabs (nth q lam 0 - mu p) * Cmod (ip n (v p) (u q))) ^ 2)%R) q Hq). intros. apply pow2_ge_0.
  Qed.

  (** The part of a computed vector outside the exact vectors of a set [S] of ranks. *)
  Lemma defect_near p g (S : nat -> bool) : p < n -> (0 < g)%R -> (forall q, q < n -> S q = false -> (g <= Rabs (nth q lam 0 - mu p))%R) ->
    (nrm2 n (fun i => Cminus (v p i) (csum n (fun q => if S q then Cmult (ip n (v p) (u q)) (u q i) else RtoC 0))) <= (root * eta / g) ^ 2)%R.
  Proof.
    intros Hp Hg HS. pose proof true as (_ & _ & _ & O & E).
    set (d := fun q => if S q then RtoC 0 else ip n (v p) (u q)).
    assert (Q : nrm2 n (fun i => Cminus (v p i) (csum n (fun q => if S q then Cmult (ip n (v p) (u q)) (u q i) else RtoC 0))) = nrm2 n d).
    { rewrite <- (nrm2_comb n n u O d). unfold nrm2. apply rsum_ext. intros i Hi.
      assert (X : Cminus (v p i) (csum n (fun q => if S q then Cmult (ip n (v p) (u q)) (u q i) else RtoC 0)) = csum n (fun q => Cmult (d q) (u q i))).
      { rewrite <- (reconstruct n u O (v p) i Hi). unfold proj. rewrite <- csum_minus. apply csum_ext. intros q _. unfold d. destruct (S q); ring. }
      rewrite X. reflexivity. }
    rewrite Q, nrm2_Cmod. pose proof (components_near p Hp) as C.
    replace ((root * eta / g) ^ 2)%R with ((root * eta) ^ 2 * / (g ^ 2))%R by (field; lra).
    assert (G2 : (0 < g ^ 2)%R) by (apply pow_lt; exact Hg).
    apply (Rmult_le_reg_r (g ^ 2)); [exact G2|]. rewrite Rmult_assoc, Rinv_l, Rmult_1_r by lra. eapply Rle_trans; [|exact C].
    rewrite Rmult_comm, <- rsum_scal_l. apply rsum_le. intros q Hq. unfold d. destruct (S q) eqn:ES.
    - rewrite Cmod_0. replace (g ^ 2 * 0 ^ 2)%R with 0%R by ring. apply pow2_ge_0.
    - specialize (HS q Hq ES). rewrite <- Rpow_mult_distr. pose proof (Cmod_ge_0 (ip n (v p) (u q))) as C0. apply pow_incr. split; [apply Rmult_le_pos; lra|]. apply Rmult_le_compat_r; assumption.
  Qed.
End Near.

(** ** All orders of a polar cap *)
Lemma near_app eta w A B : (0 <= eta)%R -> near_rows eta w A -> near_rows eta w B ->
  (forall u v, In u A -> In v B -> cdot w u v = RtoC 0) -> near_rows eta w (A ++ B).
Proof.
  intros He HA HB HX p q u v Hp Hq.
  assert (Z : (Cmod (Cminus (RtoC 0) (RtoC 0)) <= eta)%R) by (replace (Cminus (RtoC 0) (RtoC 0)) with (RtoC 0) by ring; rewrite Cmod_0; exact He).
  destruct (le_lt_dec (length A) p) as [Pp|Pp]; destruct (le_lt_dec (length A) q) as [Qq|Qq].
  - rewrite nth_error_app2 in Hp, Hq by lia.
    replace (Nat.eqb p q) with (Nat.eqb (p - length A) (q - length A)); [exact (HB _ _ u v Hp Hq)|].
    destruct (Nat.eqb_spec p q), (Nat.eqb_spec (p - length A) (q - length A)); auto; lia.
  - rewrite nth_error_app2 in Hp by lia. rewrite nth_error_app1 in Hq by lia. rewrite (proj2 (Nat.eqb_neq p q)) by lia.
    rewrite cdot_conj_sym, HX, Cconj_R; [exact Z| |]; eapply nth_error_In; eassumption.
  - rewrite nth_error_app1 in Hp by lia. rewrite nth_error_app2 in Hq by lia. rewrite (proj2 (Nat.eqb_neq p q)) by lia.
    rewrite HX; [exact Z| |]; eapply nth_error_In; eassumption.
  - rewrite nth_error_app1 in Hp, Hq by lia. apply HA; assumption.
Qed.

Lemma near_concat eta w (rows_of : Z -> list (list C)) ms : (0 <= eta)%R -> NoDup ms ->
  (forall m, In m ms -> near_rows eta w (rows_of m)) ->
  (forall m m' u v, In m ms -> In m' ms -> m <> m' -> In u (rows_of m) -> In v (rows_of m') -> cdot w u v = RtoC 0) ->
  near_rows eta w (concat (map rows_of ms)).
Proof.
  intros He. induction ms as [|m ms IH]; intros ND H1 H2.
  - intros [|p] q u v Hp; discriminate.
  - inversion ND as [|m0 ms0 Hnot HND]; subst. cbn [map concat]. apply near_app; [exact He| | |].
    + apply H1. left. reflexivity.
    + apply IH; [assumption| |].
      * intros. apply H1. right. assumption.
      * intros m1 m2 u v I1 I2. apply H2; right; assumption.
    + intros u v Hu Hv. apply in_concat in Hv. destruct Hv as [rs [Hrs Hv]].
      apply in_map_iff in Hrs. destruct Hrs as [m' [<- Hm']].
      apply (H2 m m' u v); auto; [left; reflexivity|right; assumption|congruence].
Qed.

Lemma near_select eta w rows idx rows' : near_rows eta w rows -> NoDup idx ->
  (forall p x, nth_error rows' p = Some x -> exists k, nth_error idx p = Some k /\ nth_error rows k = Some x) ->
  near_rows eta w rows'.
Proof.
  intros H ND S p q u v Hp Hq.
  destruct (S p u Hp) as [k [K1 K2]]. destruct (S q v Hq) as [l [L1 L2]].
  replace (Nat.eqb p q) with (Nat.eqb k l); [exact (H k l u v K2 L2)|].
  destruct (Nat.eqb_spec p q) as [E|N].
  - subst q. assert (E : k = l) by congruence. subst l. apply Nat.eqb_refl.
  - apply Nat.eqb_neq. intros ->. apply N. apply (proj1 (NoDup_nth_error _) ND).
    + apply nth_error_Some. rewrite K1. discriminate.
    + congruence.
Qed.

Section NearOrders.
  Variable argsort : list R -> list nat.
  Hypothesis sorted : argsort_ok argsort.
  Variable eigh : nat -> (nat -> nat -> R) -> list R * list (list R).
  Variable Dm : nat -> nat -> nat -> R.
  Variables (eta : R) (L : nat).
  Hypothesis Lpos : 1 <= L.
  Hypothesis near_eigh : forall a, a < L ->
    eigen_near_r eta (L - a) (Dm a) (fst (eigh (L - a) (Dm a))) (snd (eigh (L - a) (Dm a))).

  Let ms := zrange (- (Z.of_nat L - 1)) (Z.of_nat L).
  Let out (m : Z) : list R * list (list C) :=
    match solve_order argsort eigh Dm L m with Ok x => x | Err _ => ([], []) end.

  Lemma near_ms m : In m ms -> Z.abs_nat m < L.
  Proof. intros H. apply in_zrange in H. lia. Qed.

  Lemma near_eta : (0 <= eta)%R.
  Proof.
    destruct (near_eigh 0 ltac:(lia)) as (_ & H2 & _ & _ & H5). set (cols := snd (eigh (L - 0) (Dm 0))) in *.
    destruct cols as [|c t]; [cbn in H2; lia|]. eapply Rle_trans; [|exact (H5 0 0 c c eq_refl eq_refl)]. apply Rabs_pos.
  Qed.

  Lemma near_out m : In m ms ->
    solve_order argsort eigh Dm L m = Ok (out m) /\
    order_result L m (fst (eigh (L - Z.abs_nat m) (Dm (Z.abs_nat m))))
        (snd (eigh (L - Z.abs_nat m) (Dm (Z.abs_nat m)))) (fst (out m)) (snd (out m)).
  Proof.
    intros H. apply near_ms in H. destruct (near_eigh _ H) as (H1 & H2 & H3 & _).
    unfold out, solve_order. destruct (emm_vector_spec L) as (emm & E & _). rewrite E. cbn [rbind].
    destruct (eigh (L - Z.abs_nat m) (Dm (Z.abs_nat m))) as [ev gl]. cbn [fst snd] in *.
    destruct (clean_polar_spec argsort sorted L m ev gl emm E H1 H2 H3) as (ev' & rows & EC & OR). rewrite EC. split; [reflexivity|exact OR].
  Qed.

  Definition near_triple (e : R) (row : list C) (m : Z) : Prop :=
    Z.abs_nat m < L /\ length row = L * L /\
    (forall j, j < L * L -> snd (ind2elm j) <> m -> nth j row (RtoC 0) = RtoC 0) /\
    (forall t, t < L - Z.abs_nat m ->
      (Cmod (Cminus (csum (L - Z.abs_nat m) (fun s => Cmult (RtoC (Dm (Z.abs_nat m) t s)) (nth (elm2ind (Z.abs_nat m + s) m) row (RtoC 0))))
                    (Cmult (RtoC e) (nth (elm2ind (Z.abs_nat m + t) m) row (RtoC 0)))) <= eta)%R).

  Lemma near_triples m : In m ms -> forall p e row,
    nth_error (fst (out m)) p = Some e -> nth_error (snd (out m)) p = Some row -> near_triple e row m.
  Proof.
    intros H p e row He Hr. destruct (near_out m H) as [_ OR]. pose proof (near_ms m H) as B.
    destruct (near_eigh _ B) as (E1 & E2 & E3 & E4 & E5). split; [exact B|].
    destruct OR as (R1 & R2 & R3 & R4 & idx & ND & R5).
    destruct (R5 p row Hr) as (k & v & c & K1 & K2 & K3 & K4 & (P1 & P2 & P3)).
    split; [exact P1|]. split; [exact P2|]. intros t Ht. specialize (E4 k v t K2 Ht).
    rewrite P3 by lia. replace (Z.abs_nat m + t - Z.abs_nat m) with t by lia.
    rewrite (csum_ext _ _ (fun s => Cmult c (RtoC (Dm (Z.abs_nat m) t s * nth s v 0%R)))).
    - rewrite csum_scal_l, csum_RtoC. rewrite (nth_error_nth _ _ _ He) in K3. rewrite K3.
      set (x := rsum _ _) in *. set (y := nth k _ 0%R) in *. set (z := nth t v 0%R) in *.
      replace (Cminus (Cmult c (RtoC x)) (Cmult (RtoC y) (Cmult c (RtoC z)))) with (Cmult c (RtoC (x - y * z))) by (rewrite RtoC_minus, RtoC_mult; ring).
      rewrite Cmod_mult, Cmod_R, (Cmod_unit c (order_phase_unit m c K4)). lra.
    - intros s Hs. rewrite P3 by lia. replace (Z.abs_nat m + s - Z.abs_nat m) with s by lia. rewrite RtoC_mult. ring.
  Qed.

  Lemma near_order m : In m ms -> near_rows eta (L * L) (snd (out m)).
  Proof.
    intros H p q u v Hp Hq. destruct (near_out m H) as [_ (R1 & R2 & R3 & R4 & idx & ND & R5)].
    destruct (near_eigh _ (near_ms m H)) as (_ & _ & _ & _ & E5).
    destruct (R5 p u Hp) as (k & x & c & K1 & K2 & K3 & K4 & K5).
    destruct (R5 q v Hq) as (l & y & d & L1 & L2 & L3 & L4 & L5).
    pose proof (order_phase_unit m c K4) as Uc. pose proof (order_phase_unit m d L4) as Ud.
    destruct (Nat.eqb_spec p q) as [->|N].
    - assert (VU : v = u) by congruence. rewrite VU. clear L5 VU. rewrite (placed_dot L m c c x x u u K5 K5).
      specialize (E5 k k x x K2 K2). rewrite Nat.eqb_refl in E5. unfold unit_c in Uc. rewrite Uc.
      replace (Cminus (Cmult (RtoC 1) (RtoC (rdot (L - Z.abs_nat m) x x))) (RtoC 1)) with (RtoC (rdot (L - Z.abs_nat m) x x - 1)) by (rewrite RtoC_minus; ring).
      rewrite Cmod_R. exact E5.
    - rewrite (placed_dot L m c d x y u v K5 L5). specialize (E5 k l x y K2 L2).
      assert (NK : k <> l).
      { intros ->. apply N. apply (proj1 (NoDup_nth_error _) ND).
        - apply nth_error_Some. rewrite K1. discriminate.
        - congruence. }
      rewrite (proj2 (Nat.eqb_neq k l) NK), Rminus_0_r in E5.
      match goal with |- (Cmod ?w <= _)%R => replace w with (Cmult (Cmult c (Cconj d)) (RtoC (rdot (L - Z.abs_nat m) x y))) by ring end.
      rewrite !Cmod_mult, Cmod_conj, (Cmod_unit c Uc), (Cmod_unit d Ud), Cmod_R. lra.
  Qed.

  Lemma near_concat_triples (l : list Z) (P : R -> list C -> Z -> Prop) :
    (forall m, In m l -> length (snd (out m)) = length (fst (out m)) /\
       forall p e row, nth_error (fst (out m)) p = Some e -> nth_error (snd (out m)) p = Some row -> P e row m) ->
    let ev := concat (map (fun m => fst (out m)) l) in
    let rows := concat (map (fun m => snd (out m)) l) in
    let ords := concat (map (fun m => repeat m (length (fst (out m)))) l) in
    length rows = length ev /\ length ords = length ev /\
    forall p e row m, nth_error ev p = Some e -> nth_error rows p = Some row -> nth_error ords p = Some m -> P e row m.
  Proof.
    cbv zeta. induction l as [|m l IH]; intros H.
    - split; [reflexivity|]. split; [reflexivity|]. intros [|p]; discriminate.
    - destruct IH as (I1 & I2 & I3). { intros; apply H; right; assumption. }
      destruct (H m (or_introl eq_refl)) as [G1 G2]. cbn [map concat].
      rewrite !app_length, repeat_length. split; [lia|]. split; [lia|].
      intros p e row m' He Hr Hm. destruct (le_lt_dec (length (fst (out m))) p) as [Hp|Hp].
      + rewrite nth_error_app2 in He by lia. rewrite nth_error_app2 in Hr by lia.
        rewrite nth_error_app2 in Hm by (rewrite repeat_length; lia). rewrite repeat_length in Hm.
        rewrite G1 in Hr. eauto.
      + rewrite nth_error_app1 in He by lia. rewrite nth_error_app1 in Hr by lia.
        rewrite nth_error_app1 in Hm by (rewrite repeat_length; lia).
        apply nth_error_In, repeat_spec in Hm. subst m'. eauto.
  Qed.

  Lemma near_all_orders : exists evals rows orders,
      solve_all_orders argsort eigh Dm L = Ok (evals, rows, orders) /\
      length evals = L * L /\ length rows = L * L /\ length orders = L * L /\
      descending evals /\ near_rows eta (L * L) rows /\
      (forall p e row m, nth_error evals p = Some e -> nth_error rows p = Some row ->
         nth_error orders p = Some m -> near_triple e row m).
  Proof.
    unfold solve_all_orders. fold ms.
    set (ev_all := concat (map (fun m => fst (out m)) ms)).
    set (rows_all := concat (map (fun m => snd (out m)) ms)).
    set (ord_all := concat (map (fun m => repeat m (length (fst (out m)))) ms)).
    rewrite (rmap_ok _ (fun m => (fst (out m), snd (out m), repeat m (length (fst (out m)))))).
    2:{ intros m H. destruct (near_out m H) as [E _]. rewrite E. cbn [rbind]. destruct (out m) as [a b]. reflexivity. }
    cbn [rbind]. rewrite !map_map. cbn [fst snd]. fold ev_all rows_all ord_all.
    destruct (near_concat_triples ms near_triple) as (T1 & T2 & T3).
    { intros m H. destruct (near_out m H) as [_ (E1 & E2 & _)]. split; [congruence|].
      apply near_triples. exact H. }
    fold ev_all rows_all ord_all in T1, T2, T3.
    rewrite (idx_evals argsort sorted). cbn [rbind].
    destruct (fancy_cols argsort sorted ev_all rows_all T1) as (rows' & R1 & R2 & R3). rewrite R1. cbn [rbind].
    destruct (fancy_cols argsort sorted ev_all ord_all T2) as (ord' & O1 & O2 & O3). rewrite O1. cbn [rbind].
    eexists. eexists. eexists. split; [reflexivity|].
    assert (AL : length ev_all = L * L).
    { unfold ev_all. rewrite length_concat_nsum, map_map. rewrite (map_ext_in _ (fun m => L - Z.abs_nat m)).
      - apply sum_orders. exact Lpos.
      - intros m H. destruct (near_out m H) as [_ (E & _)]. exact E. }
    split; [rewrite map_length, (idx_length argsort sorted); exact AL|].
    split; [congruence|]. split; [congruence|].
    split; [apply (idx_descending argsort sorted)|].
    split.
    - eapply near_select; [|apply (idx_nodup argsort sorted ev_all)|exact R3].
      apply (near_concat eta (L * L) (fun m => snd (out m)) ms near_eta (zrange_nodup _ _) near_order).
      intros m m' u v H H' N Hu Hv.
      apply In_nth_error in Hu. destruct Hu as [p Hp]. apply In_nth_error in Hv. destruct Hv as [q Hq].
      destruct (near_out m H) as [_ (_ & _ & _ & _ & i1 & _ & A)].
      destruct (near_out m' H') as [_ (_ & _ & _ & _ & i2 & _ & B)].
      destruct (A p u Hp) as (k & x & c & _ & _ & _ & _ & K5).
      destruct (B q v Hq) as (l & y & d & _ & _ & _ & _ & L5).
      exact (placed_cross L m m' c d x y u v N K5 L5).
    - intros p e row m He Hr Hm. destruct (R3 p row Hr) as [k [K1 K2]]. destruct (O3 p m Hm) as [l [L1 L2]].
      assert (E : k = l) by congruence. subst l. apply (T3 k e row m); try assumption.
      rewrite nth_error_map, K1 in He. cbn in He. injection He as <-.
      apply nth_error_nth'. rewrite <- T1. apply nth_error_Some. rewrite K2. discriminate.
  Qed.
End NearOrders.
