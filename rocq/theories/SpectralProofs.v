(** * Proofs: every Hermitian matrix has a complete orthonormal family of
    eigenvectors, and two such families agree on every function of the matrix. *)
From Coq Require Import List Arith Bool Reals Lia Lra Classical Sorting.Permutation.
From Coquelicot Require Import Complex.
From Verif Require Import Base ListLemmas RSum CSum OrthoProofs SpecEigen CompactProofs.
Import ListNotations.
Local Open Scope nat_scope.

Definition app (n : nat) (D : nat -> nat -> C) (x : nat -> C) (r : nat) : C := csum n (fun c => Cmult (D r c) (x c)).
Definition qf (n : nat) (D : nat -> nat -> C) (x : nat -> C) : R := Re (ip n (app n D x) x).

Lemma ip_plus_l n f f' g : ip n (fun j => Cplus (f j) (f' j)) g = Cplus (ip n f g) (ip n f' g).
Proof. unfold ip. rewrite <- csum_plus. apply csum_ext. intros. ring. Qed.
Lemma ip_plus_r n f g g' : ip n f (fun j => Cplus (g j) (g' j)) = Cplus (ip n f g) (ip n f g').
Proof. unfold ip. rewrite <- csum_plus. apply csum_ext. intros. rewrite Cconj_plus. ring. Qed.
Lemma ip_scal_l n a f g : ip n (fun j => Cmult a (f j)) g = Cmult a (ip n f g).
Proof. unfold ip. rewrite <- csum_scal_l. apply csum_ext. intros. ring. Qed.
Lemma ip_scal_r n a f g : ip n f (fun j => Cmult a (g j)) = Cmult (Cconj a) (ip n f g).
Proof. unfold ip. rewrite <- csum_scal_l. apply csum_ext. intros. rewrite Cconj_mult. ring. Qed.
Lemma app_plus n D x y r : app n D (fun j => Cplus (x j) (y j)) r = Cplus (app n D x r) (app n D y r).
Proof. unfold app. rewrite <- csum_plus. apply csum_ext. intros. ring. Qed.
Lemma app_scal n D a x r : app n D (fun j => Cmult a (x j)) r = Cmult a (app n D x r).
Proof. unfold app. rewrite <- csum_scal_l. apply csum_ext. intros. ring. Qed.
Lemma app_ext n D x y r : (forall j, j < n -> x j = y j) -> app n D x r = app n D y r.
Proof. intros H. apply csum_ext. intros c Hc. rewrite H by exact Hc. reflexivity. Qed.

Lemma app_herm n D x y : hermitian n D -> ip n (app n D x) y = ip n x (app n D y).
Proof.
  intros HD. unfold ip, app.
  rewrite (csum_ext n _ (fun r => csum n (fun c => Cmult (Cmult (x c) (Cconj (D c r))) (Cconj (y r))))).
  - rewrite csum_swap. apply csum_ext. intros c Hc. rewrite csum_conj, <- csum_scal_l. apply csum_ext. intros r Hr. rewrite Cconj_mult. ring.
  - intros r Hr. rewrite <- csum_scal_r. apply csum_ext. intros c Hc. rewrite (HD r c Hr Hc). ring.
Qed.

Lemma nrm2_scal n a f : nrm2 n (fun j => Cmult (RtoC a) (f j)) = (a * a * nrm2 n f)%R.
Proof. unfold nrm2. rewrite <- rsum_scal_l. apply rsum_ext. intros j _. destruct (f j) as [p q]. cbn. ring. Qed.

Lemma qf_scal n D a x : qf n D (fun j => Cmult (RtoC a) (x j)) = (a * a * qf n D x)%R.
Proof.
  unfold qf. rewrite (ip_ext n (app n D (fun j => Cmult (RtoC a) (x j))) (fun r => Cmult (RtoC a) (app n D x r)) _ (fun j => Cmult (RtoC a) (x j))).
  - rewrite ip_scal_l, ip_scal_r, Cconj_R. destruct (ip n (app n D x) x). cbn. ring.
  - intros r _. apply app_scal.
  - reflexivity.
Qed.

Lemma qf_line n D x r t : hermitian n D ->
  qf n D (fun j => Cplus (x j) (Cmult (RtoC t) (r j))) = (qf n D x + 2 * t * Re (ip n (app n D x) r) + t * t * qf n D r)%R.
Proof.
  intros HD. unfold qf.
  rewrite (ip_ext n _ (fun i => Cplus (app n D x i) (Cmult (RtoC t) (app n D r i))) _ (fun j => Cplus (x j) (Cmult (RtoC t) (r j)))).
  2: { intros i _. rewrite app_plus, app_scal. reflexivity. }
  2: reflexivity.
  rewrite ip_plus_l, !ip_plus_r, !ip_scal_l, !ip_scal_r, !Cconj_R.
  rewrite (app_herm n D r x HD), <- (ip_conj n (app n D x) r). destruct (ip n (app n D x) x), (ip n (app n D x) r), (ip n (app n D r) r). cbn. ring.
Qed.

Lemma nrm2_line n x r t : nrm2 n (fun j => Cplus (x j) (Cmult (RtoC t) (r j))) = (nrm2 n x + 2 * t * Re (ip n x r) + t * t * nrm2 n r)%R.
Proof.
  assert (E : forall f, nrm2 n f = Re (ip n f f)) by (intros f; rewrite ip_self; reflexivity). rewrite !E.
  rewrite ip_plus_l, !ip_plus_r, !ip_scal_l, !ip_scal_r, !Cconj_R, <- (ip_conj n x r). destruct (ip n x x), (ip n x r), (ip n r r). cbn. ring.
Qed.

Lemma nrm2_ext n f g : (forall j, j < n -> f j = g j) -> nrm2 n f = nrm2 n g.
Proof. intros H. apply rsum_ext. intros j Hj. rewrite H by exact Hj. reflexivity. Qed.

Lemma rsum_pos_term n f : (0 < rsum n f)%R -> exists i, i < n /\ (0 < f i)%R.
Proof.
  induction n as [|n IH]; cbn [rsum]; intros H; [lra|]. destruct (Rlt_dec 0 (f n)) as [P|P]; [exists n; split; [lia|exact P]|].
  destruct IH as (i & Hi & Hp); [lra|]. exists i. split; [lia|exact Hp].
Qed.

Section Step.
  Variable n k : nat.
  Variable D : nat -> nat -> C.
  Variable u : nat -> nat -> C.
  Variable mu : nat -> R.
  Hypothesis herm : hermitian n D.
  Hypothesis few : k < n.
  Hypothesis ortho : forall p q, p < k -> q < k -> ip n (u p) (u q) = if Nat.eqb p q then RtoC 1 else RtoC 0.
  Hypothesis eig : forall p r, p < k -> r < n -> app n D (u p) r = Cmult (RtoC (mu p)) (u p r).

  Definition perp (x : nat -> C) : Prop := forall p, p < k -> ip n x (u p) = RtoC 0.

  Lemma perp_exists : exists x, nrm2 n x = 1%R /\ perp x.
  Proof.
    set (d := fun i => nrm2 n (fun j => Cminus (basis_vec i j) (proj n k u (basis_vec i) j))).
    assert (S : rsum n d = (INR n - INR k)%R).
    { rewrite (rsum_ext n d (fun i => 1 - rsum k (fun p => abs2 (u p i)))%R).
      - rewrite rsum_minus, rsum_const, rsum_swap, Rmult_1_r. f_equal.
        rewrite (rsum_ext k _ (fun _ => 1%R)).
        + rewrite rsum_const. ring.
        + intros p Hp. pose proof (ortho p p Hp Hp) as H. rewrite Nat.eqb_refl, ip_self in H. injection H as H. exact H.
      - intros i Hi. unfold d. rewrite (defect n k u ortho), nrm2_basis by exact Hi. f_equal.
        apply rsum_ext. intros p Hp. rewrite ip_basis by exact Hi. unfold abs2. destruct (u p i); cbn; ring. }
    destruct (rsum_pos_term n d) as (i & Hi & Hp). { rewrite S. apply lt_INR in few. lra. }
    set (x := fun j => Cminus (basis_vec i j) (proj n k u (basis_vec i) j)). change (d i) with (nrm2 n x) in Hp.
    assert (PX : perp x).
    { intros p Hpk. unfold x. rewrite ip_minus_l. unfold proj. rewrite (ip_comb n k u ortho (fun q => ip n (basis_vec i) (u q)) p Hpk). ring. }
    pose proof (sqrt_lt_R0 _ Hp) as SP. pose proof (sqrt_sqrt (nrm2 n x) (Rlt_le _ _ Hp)) as SS.
    exists (fun j => Cmult (RtoC (/ sqrt (nrm2 n x))) (x j)). split.
    - rewrite nrm2_scal. rewrite <- SS at 3. field. lra.
    - intros p Hpk. rewrite ip_scal_l, PX by exact Hpk. ring.
  Qed.

  (** Real coordinates. *)
  Definition cv (x : nat -> R) (j : nat) : C := (x j, x (n + j)).
  Definition rv (z : nat -> C) (i : nat) : R := if i <? n then Re (z i) else if i <? 2 * n then Im (z (i - n)) else 0%R.

  Lemma cv_rv z j : j < n -> cv (rv z) j = z j.
  Proof.
    intros Hj. unfold cv, rv. rewrite (proj2 (Nat.ltb_lt j n)) by exact Hj.
    rewrite (proj2 (Nat.ltb_ge (n + j) n)), (proj2 (Nat.ltb_lt (n + j) (2 * n))) by lia.
    replace (n + j - n) with j by lia. symmetry. apply surjective_pairing.
  Qed.

  Lemma rv_cube z : nrm2 n z = 1%R -> cube (rv z).
  Proof.
    intros H. assert (B : forall j, j < n -> (-1 <= Re (z j) <= 1)%R /\ (-1 <= Im (z j) <= 1)%R).
    { intros j Hj. assert (T : (Re (z j) ^ 2 + Im (z j) ^ 2 <= 1)%R).
      { rewrite <- H. apply (rsum_term n (fun j => (Re (z j) ^ 2 + Im (z j) ^ 2)%R) j Hj). intros i _. apply abs2_nonneg. }
      split; split; nra. }
    intros i. unfold rv. destruct (Nat.ltb_spec i n) as [L|G]; [apply (B i L)|].
    destruct (Nat.ltb_spec i (2 * n)) as [L|G']; [apply (B (i - n) ltac:(lia))|lra].
  Qed.

  Lemma clip_cv j : j < n -> clip (2 * n) (fun x => cv x j).
  Proof. intros Hj. split; cbn [cv Re Im fst snd]; apply lip_coord; lia. Qed.

  Lemma clip_ip (G : nat -> (nat -> R) -> C) (H : nat -> (nat -> R) -> C) :
    (forall j, j < n -> clip (2 * n) (G j)) -> (forall j, j < n -> clip (2 * n) (H j)) ->
    clip (2 * n) (fun x => ip n (fun j => G j x) (fun j => H j x)).
  Proof.
    intros HG HH. apply (clip_sum (2 * n) n (fun j x => Cmult (G j x) (Cconj (H j x)))). intros j Hj. apply clip_mult; [apply HG, Hj|apply clip_conj, HH, Hj].
  Qed.

  Lemma clip_app r : clip (2 * n) (fun x => app n D (cv x) r).
  Proof. apply (clip_sum (2 * n) n (fun c x => Cmult (D r c) (cv x c))). intros c Hc. apply clip_mult; [apply clip_const|apply clip_cv, Hc]. Qed.

  Lemma lip_qf : lip (2 * n) (fun x => qf n D (cv x)).
  Proof. apply (clip_ip (fun r x => app n D (cv x) r) (fun j x => cv x j)); intros j Hj; [apply clip_app|apply clip_cv, Hj]. Qed.

  Lemma lip_abs2 F : clip (2 * n) F -> lip (2 * n) (fun x => abs2 (F x)).
  Proof.
    intros [H1 H2]. apply (lip_ext _ (fun x => Re (F x) * Re (F x) + Im (F x) * Im (F x))%R); [intros x; unfold abs2; ring|].
    apply lip_plus; apply lip_mult; assumption.
  Qed.

  Lemma lip_nrm2 : lip (2 * n) (fun x => nrm2 n (cv x)).
  Proof. apply (lip_sum (2 * n) n (fun j x => abs2 (cv x j))). intros j Hj. apply lip_abs2, clip_cv, Hj. Qed.

  Lemma qf_ext x y : (forall j, j < n -> x j = y j) -> qf n D x = qf n D y.
  Proof. intros H. unfold qf. f_equal. apply ip_ext; [|exact H]. intros r _. apply app_ext, H. Qed.

  (** The largest value of the form is attained. *)
  Lemma best_exists : exists x, nrm2 n x = 1%R /\ perp x /\ forall y, nrm2 n y = 1%R -> perp y -> (qf n D y <= qf n D x)%R.
  Proof.
    set (E := fun r => exists x, nrm2 n x = 1%R /\ perp x /\ r = qf n D x).
    assert (BD : bound E).
    { destruct (lip_bounded _ _ lip_qf) as (B & _ & HB). exists B. intros r (x & N & _ & ->).
      specialize (HB (rv x) (rv_cube x N)). rewrite (qf_ext (cv (rv x)) x (cv_rv x)) in HB. pose proof (Rle_abs (qf n D x)). lra. }
    assert (NE : exists r, E r) by (destruct perp_exists as (x & N & P); exists (qf n D x), x; repeat split; assumption).
    destruct (Raxioms.completeness E BD NE) as (M & UP & LEAST).
    set (F := fun x => ((nrm2 n (cv x) - 1) * (nrm2 n (cv x) - 1) + rsum k (fun p => abs2 (ip n (cv x) (u p))) + (M - qf n D (cv x)) * (M - qf n D (cv x)))%R).
    assert (LF : lip (2 * n) F).
    { unfold F. apply (lip_plus _ (fun x => ((nrm2 n (cv x) - 1) * (nrm2 n (cv x) - 1) + rsum k (fun p => abs2 (ip n (cv x) (u p))))%R) (fun x => ((M - qf n D (cv x)) * (M - qf n D (cv x)))%R)).
      - apply (lip_plus _ (fun x => ((nrm2 n (cv x) - 1) * (nrm2 n (cv x) - 1))%R)).
        + apply lip_mult; apply lip_minus; try apply lip_const; apply lip_nrm2.
        + apply (lip_sum (2 * n) k (fun p x => abs2 (ip n (cv x) (u p)))). intros p _. apply lip_abs2.
          apply (clip_ip (fun j x => cv x j) (fun j _ => u p j)); intros j Hj; [apply clip_cv, Hj|apply clip_const].
      - apply lip_mult; apply lip_minus; try apply lip_const; apply lip_qf. }
    destruct (lip_min _ F LF) as (x & Cx & Hmin).
    assert (SQ : forall a : R, (0 <= a * a)%R) by (intros a; apply Rle_0_sqr).
    assert (PP : (0 <= rsum k (fun p => abs2 (ip n (cv x) (u p))))%R) by (apply rsum_nonneg; intros; apply abs2_nonneg).
    assert (Z : (F x <= 0)%R).
    { apply Rnot_lt_le. intros Fp. set (e := Rmin 1 (F x)). assert (e0 : (0 < e <= 1)%R) by (unfold e, Rmin; destruct Rle_dec; lra).
      assert (e1 : (e <= F x)%R) by (unfold e, Rmin; destruct Rle_dec; lra).
      assert (NU : ~ is_upper_bound E (M - e)) by (intros U; specialize (LEAST _ U); lra).
      apply not_all_ex_not in NU. destruct NU as [r NU]. apply imply_to_and in NU. destruct NU as [(y & Ny & Py & ->) NU].
      specialize (UP (qf n D y) (ex_intro _ y (conj Ny (conj Py eq_refl)))).
      specialize (Hmin (rv y) (rv_cube y Ny)). unfold F at 2 in Hmin.
      rewrite (qf_ext (cv (rv y)) y (cv_rv y)), (nrm2_ext n (cv (rv y)) y (cv_rv y)), Ny in Hmin.
      rewrite (rsum_zero k) in Hmin.
      2: { intros p Hp. rewrite (ip_ext n (cv (rv y)) y (u p) (u p) (cv_rv y)) by reflexivity. rewrite Py by exact Hp. unfold abs2. cbn. ring. }
      assert (0 <= M - qf n D y < e)%R by lra. assert ((M - qf n D y) * (M - qf n D y) < e * 1)%R by nra. lra. }
    unfold F in Z. pose proof (SQ (nrm2 n (cv x) - 1)%R) as Z1. pose proof (SQ (M - qf n D (cv x))%R) as Z2.
    exists (cv x). split; [|split].
    - assert (X : ((nrm2 n (cv x) - 1) * (nrm2 n (cv x) - 1) = 0)%R) by lra. apply Rmult_integral in X. lra.
    - intros p Hp. apply abs2_zero. apply (rsum_zero_terms k (fun p => abs2 (ip n (cv x) (u p)))); [intros; apply abs2_nonneg|lra|exact Hp].
    - intros y Ny Py. assert (X : ((M - qf n D (cv x)) * (M - qf n D (cv x)) = 0)%R) by lra. apply Rmult_integral in X.
      specialize (UP (qf n D y) (ex_intro _ y (conj Ny (conj Py eq_refl)))). lra.
  Qed.

  Lemma next_vector : exists x lam, nrm2 n x = 1%R /\ perp x /\ forall r, r < n -> app n D x r = Cmult (RtoC lam) (x r).
  Proof.
    destruct best_exists as (x & Nx & Px & Hbest). set (M := qf n D x) in *. exists x, M. split; [exact Nx|]. split; [exact Px|].
    set (r := fun j => Cplus (app n D x j) (Cmult (RtoC (- M)) (x j))).
    assert (ALL : forall z, perp z -> (qf n D z <= M * nrm2 n z)%R).
    { intros z Pz. destruct (Req_dec (nrm2 n z) 0) as [N0|N0].
      - rewrite N0, Rmult_0_r. right. unfold qf. rewrite (ip_ext n _ (app n D z) z (fun _ => RtoC 0)) by (try reflexivity; intros; apply (nrm2_zero n z); assumption).
        unfold ip. rewrite csum_zero by (intros; rewrite Cconj_R; ring). reflexivity.
      - assert (NP : (0 < nrm2 n z)%R) by (pose proof (nrm2_nonneg n z); lra). pose proof (sqrt_lt_R0 _ NP) as SP. pose proof (sqrt_sqrt _ (Rlt_le _ _ NP)) as SS.
        specialize (Hbest (fun j => Cmult (RtoC (/ sqrt (nrm2 n z))) (z j))). rewrite nrm2_scal, qf_scal in Hbest.
        assert (I : (/ sqrt (nrm2 n z) * / sqrt (nrm2 n z) = / nrm2 n z)%R) by (rewrite <- SS at 3; field; lra). rewrite I in Hbest.
        assert (Q : (/ nrm2 n z * qf n D z <= M)%R). { apply Hbest; [field; exact N0|]. intros p Hp. rewrite ip_scal_l, Pz by exact Hp. ring. }
        apply (Rmult_le_compat_l (nrm2 n z)) in Q; [|lra]. replace (nrm2 n z * (/ nrm2 n z * qf n D z))%R with (qf n D z) in Q by (field; exact N0). lra. }
    assert (Pr : perp r).
    { intros p Hp. unfold r. rewrite ip_plus_l, ip_scal_l, (Px p Hp), app_herm by exact herm.
      rewrite (ip_ext n x x (app n D (u p)) (fun j => Cmult (RtoC (mu p)) (u p j))) by (try reflexivity; intros j Hj; apply eig; assumption).
      rewrite ip_scal_r, (Px p Hp). ring. }
    assert (Rr : Re (ip n (app n D x) r) = (M * Re (ip n x r) + nrm2 n r)%R).
    { assert (X : ip n r r = Cplus (ip n (app n D x) r) (Cmult (RtoC (- M)) (ip n x r))) by (unfold r at 1; rewrite ip_plus_l, ip_scal_l; reflexivity).
      rewrite ip_self in X. apply (f_equal Re) in X. destruct (ip n (app n D x) r), (ip n x r). cbn in X |- *. lra. }
    assert (Z : nrm2 n r = 0%R).
    { pose proof (nrm2_nonneg n r) as NR. destruct (Req_dec (nrm2 n r) 0) as [E|NE]; [exact E|exfalso].
      set (a := nrm2 n r) in *. set (c := (qf n D r - M * a)%R).
      assert (LINE : forall t, (2 * t * a + t * t * c <= 0)%R).
      { intros t. specialize (ALL (fun j => Cplus (x j) (Cmult (RtoC t) (r j)))).
        rewrite qf_line, nrm2_line, Rr, Nx in ALL by exact herm. fold M a in ALL. unfold c.
        assert (P : perp (fun j => Cplus (x j) (Cmult (RtoC t) (r j)))) by (intros p Hp; rewrite ip_plus_l, ip_scal_l, (Px p Hp), (Pr p Hp); ring).
        specialize (ALL P). lra. }
      assert (a0 : (0 < a)%R) by lra. pose proof (Rabs_pos c) as C0. pose proof (Rle_abs (- c)) as C1. rewrite Rabs_Ropp in C1.
      set (t := (a / (Rabs c + 1))%R). assert (t0 : (0 < t)%R) by (apply Rdiv_lt_0_compat; lra).
      assert (ta : (t * (Rabs c + 1) = a)%R) by (unfold t; field; lra). specialize (LINE t).
      assert (t * (- c) <= t * Rabs c)%R by (apply Rmult_le_compat_l; lra).
      assert (t * (2 * a + t * c) <= 0)%R by lra. assert (0 < 2 * a + t * c)%R by lra.
      pose proof (Rmult_lt_0_compat _ _ t0 H1). lra. }
    intros j Hj. pose proof (nrm2_zero n r Z j Hj) as R0. unfold r in R0.
    transitivity (Cplus (Cplus (app n D x j) (Cmult (RtoC (- M)) (x j))) (Cmult (RtoC M) (x j))).
    - rewrite RtoC_opp. ring.
    - rewrite R0. ring.
  Qed.
End Step.

(** ** The spectral theorem *)
Lemma spectral_family n D : hermitian n D -> forall k, k <= n ->
  exists (u : nat -> nat -> C) (mu : nat -> R),
    (forall p q, p < k -> q < k -> ip n (u p) (u q) = if Nat.eqb p q then RtoC 1 else RtoC 0) /\
    (forall p r, p < k -> r < n -> app n D (u p) r = Cmult (RtoC (mu p)) (u p r)).
Proof.
  intros HD k. induction k as [|k IH]; intros Hk.
  - exists (fun _ _ => RtoC 0), (fun _ => 0%R). split; intros; lia.
  - destruct (IH ltac:(lia)) as (u & mu & Ho & He). destruct (next_vector n k D u mu HD Hk Ho He) as (x & lam & Nx & Px & Ex).
    exists (fun p => if p =? k then x else u p), (fun p => if p =? k then lam else mu p). split.
    + intros p q Hp Hq. destruct (Nat.eqb_spec p k) as [Ep|Np]; destruct (Nat.eqb_spec q k) as [Eq|Nq].
      * rewrite Ep, Eq, Nat.eqb_refl, ip_self, Nx. reflexivity.
      * rewrite (Px q ltac:(lia)). destruct (Nat.eqb_spec p q); [lia|reflexivity].
      * rewrite <- ip_conj, (Px p ltac:(lia)), Cconj_R. destruct (Nat.eqb_spec p q); [lia|reflexivity].
      * apply Ho; lia.
    + intros p r Hp Hr. destruct (Nat.eqb_spec p k) as [Ep|Np]; [apply Ex, Hr|apply He; [lia|exact Hr]].
Qed.

Definition cols_of {A} (n : nat) (u : nat -> nat -> A) : list (list A) := map (fun p => map (u p) (seq 0 n)) (seq 0 n).

Lemma cols_nth {A} n (u : nat -> nat -> A) p v : nth_error (cols_of n u) p = Some v -> p < n /\ v = map (u p) (seq 0 n).
Proof.
  intros H. assert (Hp : p < n). { assert (X : nth_error (cols_of n u) p <> None) by congruence. apply nth_error_Some in X. unfold cols_of in X. rewrite map_length, seq_length in X. exact X. }
  split; [exact Hp|]. unfold cols_of in H. rewrite nth_error_map in H. rewrite (nth_error_nth' (seq 0 n) 0) in H by (rewrite seq_length; exact Hp).
  rewrite seq_nth in H by exact Hp. cbn in H. congruence.
Qed.

Lemma nth_map_seq {A} n (f : nat -> A) j d : j < n -> nth j (map f (seq 0 n)) d = f j.
Proof. intros H. rewrite (nth_indep _ d (f 0)) by (rewrite map_length, seq_length; exact H). rewrite map_nth, seq_nth by exact H. reflexivity. Qed.

Lemma spectral_c n D : hermitian n D -> exists w v, eigen_c n D w v.
Proof.
  intros HD. destruct (spectral_family n D HD n (Nat.le_refl n)) as (u & mu & Ho & He).
  exists (map mu (seq 0 n)), (cols_of n u). split; [rewrite map_length, seq_length; reflexivity|].
  split; [unfold cols_of; rewrite map_length, seq_length; reflexivity|].
  split; [|split].
  - intros p v Hv. apply cols_nth in Hv. destruct Hv as [_ ->]. rewrite map_length, seq_length. reflexivity.
  - intros p v r Hv Hr. apply cols_nth in Hv. destruct Hv as [Hp ->]. rewrite !nth_map_seq by assumption. rewrite <- (He p r Hp Hr).
    apply csum_ext. intros c Hc. rewrite nth_map_seq by exact Hc. reflexivity.
  - intros p q v w Hv Hw. apply cols_nth in Hv, Hw. destruct Hv as [Hp ->]. destruct Hw as [Hq ->]. rewrite <- (Ho p q Hp Hq).
    apply csum_ext. intros j Hj. rewrite !nth_map_seq by exact Hj. reflexivity.
Qed.

(** *** Real matrices have real eigenvectors *)
Lemma ip_real n (f g : nat -> R) : ip n (fun j => RtoC (f j)) (fun j => RtoC (g j)) = RtoC (rsum n (fun j => f j * g j)%R).
Proof. unfold ip. rewrite <- csum_RtoC. apply csum_ext. intros. rewrite Cconj_R, RtoC_mult. reflexivity. Qed.

Lemma ip_parts n x (g : nat -> R) : ip n x (fun j => RtoC (g j)) = (rsum n (fun j => Re (x j) * g j)%R, rsum n (fun j => Im (x j) * g j)%R).
Proof.
  apply C_ext; unfold ip; [rewrite csum_re|rewrite csum_im]; apply rsum_ext; intros j _; destruct (x j); cbn; ring.
Qed.

Lemma app_parts n (D : nat -> nat -> R) x r : app n (fun i j => RtoC (D i j)) x r = (rsum n (fun c => D r c * Re (x c))%R, rsum n (fun c => D r c * Im (x c))%R).
Proof.
  apply C_ext; unfold app; [rewrite csum_re|rewrite csum_im]; apply rsum_ext; intros j _; destruct (x j); cbn; ring.
Qed.

Lemma spectral_family_real n (D : nat -> nat -> R) : (forall r c, r < n -> c < n -> D r c = D c r) -> forall k, k <= n ->
  exists (u : nat -> nat -> R) (mu : nat -> R),
    (forall p q, p < k -> q < k -> rsum n (fun j => u p j * u q j)%R = if Nat.eqb p q then 1%R else 0%R) /\
    (forall p r, p < k -> r < n -> rsum n (fun c => D r c * u p c)%R = (mu p * u p r)%R).
Proof.
  intros HD k. induction k as [|k IH]; intros Hk.
  - exists (fun _ _ => 0%R), (fun _ => 0%R). split; intros; lia.
  - destruct (IH ltac:(lia)) as (u & mu & Ho & He).
    destruct (next_vector n k (fun i j => RtoC (D i j)) (fun p j => RtoC (u p j)) mu) as (x & lam & Nx & Px & Ex).
    { intros r c Hr Hc. rewrite Cconj_R, HD by assumption. reflexivity. }
    { exact Hk. }
    { intros p q Hp Hq. rewrite ip_real, Ho by assumption. destruct (p =? q); reflexivity. }
    { intros p r Hp Hr. rewrite app_parts. apply C_ext.
      - cbn. rewrite (He p r Hp Hr). ring.
      - cbn. rewrite rsum_zero by (intros; ring). ring. }
    assert (G : exists y, (0 < rsum n (fun j => y j * y j))%R /\ (forall p, p < k -> rsum n (fun j => y j * u p j)%R = 0%R) /\
       forall r, r < n -> rsum n (fun c => D r c * y c)%R = (lam * y r)%R).
    { assert (P : forall p, p < k -> rsum n (fun j => Re (x j) * u p j)%R = 0%R /\ rsum n (fun j => Im (x j) * u p j)%R = 0%R).
      { intros p Hp. pose proof (Px p Hp) as X. cbn beta in X. rewrite (ip_parts n x (u p)) in X. split; [exact (f_equal Re X)|exact (f_equal Im X)]. }
      assert (EE : forall r, r < n -> rsum n (fun c => D r c * Re (x c))%R = (lam * Re (x r))%R /\ rsum n (fun c => D r c * Im (x c))%R = (lam * Im (x r))%R).
      { intros r Hr. pose proof (Ex r Hr) as X. rewrite app_parts in X. split.
        - apply (f_equal Re) in X. destruct (x r). cbn in X |- *. lra.
        - apply (f_equal Im) in X. destruct (x r). cbn in X |- *. lra. }
      assert (SUM : (rsum n (fun j => Re (x j) * Re (x j)) + rsum n (fun j => Im (x j) * Im (x j)) = 1)%R).
      { rewrite <- rsum_plus, <- Nx. apply rsum_ext. intros. ring. }
      destruct (Rlt_dec 0 (rsum n (fun j => (Re (x j) * Re (x j))%R))) as [Q|Q].
      - exists (fun j => Re (x j)). split; [exact Q|]. split; [intros p Hp; apply (P p Hp)|intros r Hr; apply (EE r Hr)].
      - exists (fun j => Im (x j)). split; [lra|]. split; [intros p Hp; apply (P p Hp)|intros r Hr; apply (EE r Hr)]. }
    destruct G as (y & Yn & Yp & Ye). set (s := rsum n (fun j => (y j * y j)%R)) in *.
    pose proof (sqrt_lt_R0 _ Yn) as SP. pose proof (sqrt_sqrt s (Rlt_le _ _ Yn)) as SS.
    set (z := fun j => (/ sqrt s * y j)%R).
    assert (Z1 : rsum n (fun j => z j * z j)%R = 1%R).
    { unfold z. rewrite (rsum_ext n _ (fun j => / sqrt s * / sqrt s * (y j * y j))%R) by (intros; ring). rewrite rsum_scal_l. fold s. rewrite <- SS at 3. field. lra. }
    assert (Z2 : forall p, p < k -> rsum n (fun j => z j * u p j)%R = 0%R).
    { intros p Hp. unfold z. rewrite (rsum_ext n _ (fun j => / sqrt s * (y j * u p j))%R) by (intros; ring). rewrite rsum_scal_l, Yp by exact Hp. ring. }
    exists (fun p => if p =? k then z else u p), (fun p => if p =? k then lam else mu p). split.
    + intros p q Hp Hq. destruct (Nat.eqb_spec p k) as [Ep|Np]; destruct (Nat.eqb_spec q k) as [Eq|Nq].
      * rewrite Ep, Eq, Nat.eqb_refl. exact Z1.
      * rewrite (Z2 q ltac:(lia)). destruct (Nat.eqb_spec p q); [lia|reflexivity].
      * rewrite (rsum_ext n _ (fun j => z j * u p j)%R) by (intros; ring). rewrite (Z2 p ltac:(lia)). destruct (Nat.eqb_spec p q); [lia|reflexivity].
      * apply Ho; lia.
    + intros p r Hp Hr. destruct (Nat.eqb_spec p k) as [Ep|Np]; [|apply He; [lia|exact Hr]].
      unfold z. rewrite (rsum_ext n _ (fun c => / sqrt s * (D r c * y c))%R) by (intros; ring). rewrite rsum_scal_l, Ye by exact Hr. ring.
Qed.

Lemma spectral_r n D : (forall r c, r < n -> c < n -> D r c = D c r) -> exists w v, eigen_r n D w v.
Proof.
  intros HD. destruct (spectral_family_real n D HD n (Nat.le_refl n)) as (u & mu & Ho & He).
  exists (map mu (seq 0 n)), (cols_of n u). split; [rewrite map_length, seq_length; reflexivity|].
  split; [unfold cols_of; rewrite map_length, seq_length; reflexivity|].
  split; [|split].
  - intros p v Hv. apply cols_nth in Hv. destruct Hv as [_ ->]. rewrite map_length, seq_length. reflexivity.
  - intros p v r Hv Hr. apply cols_nth in Hv. destruct Hv as [Hp ->]. rewrite !nth_map_seq by assumption. rewrite <- (He p r Hp Hr).
    apply rsum_ext. intros c Hc. rewrite nth_map_seq by exact Hc. reflexivity.
  - intros p q v w Hv Hw. apply cols_nth in Hv, Hw. destruct Hv as [Hp ->]. destruct Hw as [Hq ->]. rewrite <- (Ho p q Hp Hq).
    apply rsum_ext. intros j Hj. rewrite !nth_map_seq by exact Hj. reflexivity.
Qed.

(** ** Two decompositions of one matrix *)
(** The rows [u] and [v] are left eigenvectors of the same matrix. *)
Section Two.
  Variable n : nat.
  Variable K : nat -> nat -> C.
  Variable u v : nat -> nat -> C.
  Variable lam mu : nat -> R.
  Hypothesis herm : hermitian n K.
  Hypothesis orthou : forall p q, p < n -> q < n -> ip n (u p) (u q) = if Nat.eqb p q then RtoC 1 else RtoC 0.
  Hypothesis orthov : forall p q, p < n -> q < n -> ip n (v p) (v q) = if Nat.eqb p q then RtoC 1 else RtoC 0.
  Hypothesis eigu : forall p j, p < n -> j < n -> csum n (fun i => Cmult (u p i) (K i j)) = Cmult (RtoC (lam p)) (u p j).
  Hypothesis eigv : forall p j, p < n -> j < n -> csum n (fun i => Cmult (v p i) (K i j)) = Cmult (RtoC (mu p)) (v p j).

  Lemma overlap_equal p q : p < n -> q < n -> ip n (u p) (v q) <> RtoC 0 -> lam p = mu q.
  Proof.
    intros Hp Hq N.
    assert (E : Cmult (RtoC (lam p)) (ip n (u p) (v q)) = Cmult (RtoC (mu q)) (ip n (u p) (v q))).
    { unfold ip at 1. rewrite <- csum_scal_l. rewrite (csum_ext n _ (fun j => csum n (fun i => Cmult (Cmult (u p i) (K i j)) (Cconj (v q j))))).
      - rewrite csum_swap. unfold ip. rewrite <- csum_scal_l. apply csum_ext. intros i Hi.
        rewrite (csum_ext n _ (fun j => Cmult (u p i) (Cconj (Cmult (v q j) (K j i))))).
        + rewrite csum_scal_l, <- csum_conj, (eigv q i Hq Hi), Cconj_mult, Cconj_R. ring.
        + intros j Hj. rewrite (herm i j Hi Hj), Cconj_mult. ring.
      - intros j Hj. rewrite csum_scal_r, (eigu p j Hp Hj). ring. }
    assert (Z : Cmult (RtoC (lam p - mu q)) (ip n (u p) (v q)) = RtoC 0).
    { rewrite RtoC_minus. transitivity (Cminus (Cmult (RtoC (lam p)) (ip n (u p) (v q))) (Cmult (RtoC (mu q)) (ip n (u p) (v q)))); [ring|]. rewrite E. ring. }
    destruct (Req_dec (lam p) (mu q)) as [Q|Q]; [exact Q|exfalso]. apply N.
    transitivity (Cmult (RtoC (/ (lam p - mu q))) (Cmult (RtoC (lam p - mu q)) (ip n (u p) (v q)))).
    - rewrite Cmult_assoc, <- RtoC_mult, Rinv_l by lra. ring.
    - rewrite Z. ring.
  Qed.

  (** A function of the matrix does not depend on the family. *)
  Lemma same_function (f : R -> R) i j : i < n -> j < n ->
    csum n (fun p => Cmult (RtoC (f (lam p))) (Cmult (u p i) (Cconj (u p j)))) =
    csum n (fun q => Cmult (RtoC (f (mu q))) (Cmult (v q i) (Cconj (v q j)))).
  Proof.
    intros Hi Hj.
    rewrite (csum_ext n _ (fun p => csum n (fun q => Cmult (Cmult (RtoC (f (mu q))) (v q i)) (Cmult (ip n (u p) (v q)) (Cconj (u p j)))))).
    - rewrite csum_swap. apply csum_ext. intros q Hq. rewrite csum_scal_l, Cmult_assoc. f_equal.
      rewrite <- (reconstruct n u orthou (v q) j Hj). unfold proj. rewrite csum_conj. apply csum_ext. intros p _. rewrite Cconj_mult, ip_conj. reflexivity.
    - intros p Hp. rewrite <- (reconstruct n v orthov (u p) i Hi) at 1. unfold proj. rewrite <- csum_scal_r, <- csum_scal_l. apply csum_ext. intros q Hq.
      destruct (classic (ip n (u p) (v q) = RtoC 0)) as [Z|N]; [rewrite Z; ring|]. rewrite (overlap_equal p q Hp Hq N). ring.
  Qed.

  Lemma same_count (f : R -> R) : rsum n (fun p => f (lam p)) = rsum n (fun q => f (mu q)).
  Proof.
    assert (T : forall (w : nat -> nat -> C) (th : nat -> R), (forall p q, p < n -> q < n -> ip n (w p) (w q) = if Nat.eqb p q then RtoC 1 else RtoC 0) ->
      RtoC (rsum n (fun p => f (th p))) = csum n (fun i => csum n (fun p => Cmult (RtoC (f (th p))) (Cmult (w p i) (Cconj (w p i)))))).
    { intros w th Hw. rewrite csum_swap, <- csum_RtoC. apply csum_ext. intros p Hp. rewrite csum_scal_l.
      change (csum n (fun j => Cmult (w p j) (Cconj (w p j)))) with (ip n (w p) (w p)). rewrite Hw, Nat.eqb_refl by exact Hp. ring. }
    apply RtoC_inj. rewrite (T u lam orthou), (T v mu orthov). apply csum_ext. intros i Hi. apply same_function; assumption.
  Qed.

  Lemma same_sorted : (forall p q, p <= q -> q < n -> (lam q <= lam p)%R) -> (forall p q, p <= q -> q < n -> (mu q <= mu p)%R) ->
    forall p, p < n -> lam p = mu p.
  Proof.
    assert (LE : forall a b : nat -> R, (forall p q, p <= q -> q < n -> (a q <= a p)%R) -> (forall p q, p <= q -> q < n -> (b q <= b p)%R) ->
      (forall f : R -> R, rsum n (fun p => f (a p)) = rsum n (fun p => f (b p))) -> forall p, p < n -> (a p <= b p)%R).
    { intros a b Ha Hb Hf p Hp. apply Rnot_lt_le. intros L.
      specialize (Hf (fun x => if Rle_dec (a p) x then 1 else 0)%R).
      assert (A : (INR (S p) <= rsum n (fun q => if Rle_dec (a p) (a q) then 1 else 0))%R).
      { rewrite <- (Rmult_1_r (INR (S p))), <- rsum_const.
        apply Rle_trans with (rsum (S p) (fun q => if Rle_dec (a p) (a q) then 1 else 0)%R).
        - apply rsum_le. intros q Hq. destruct (Rle_dec (a p) (a q)) as [_|N]; [lra|]. exfalso. apply N. apply Ha; lia.
        - apply rsum_le_n; [lia|]. intros q _. destruct (Rle_dec (a p) (a q)); lra. }
      assert (B : (rsum n (fun q => if Rle_dec (a p) (b q) then 1 else 0) <= INR p)%R).
      { replace n with (p + (n - p)) by lia. rewrite rsum_app. rewrite (rsum_zero (n - p)).
        - rewrite Rplus_0_r, <- (Rmult_1_r (INR p)), <- rsum_const. apply rsum_le. intros q _. destruct (Rle_dec (a p) (b q)); lra.
        - intros q Hq. destruct (Rle_dec (a p) (b (p + q))) as [N|_]; [|reflexivity]. specialize (Hb p (p + q) ltac:(lia) ltac:(lia)). lra. }
      rewrite S_INR in A. lra. }
    intros Ha Hb p Hp. apply Rle_antisym; [exact (LE lam mu Ha Hb same_count p Hp)|].
    exact (LE mu lam Hb Ha (fun f => eq_sym (same_count f)) p Hp).
  Qed.
End Two.
