(** * Orthonormal families: Bessel, completeness, Parseval. *)
From Coq Require Import List ZArith Arith Bool Reals Lra Lia.
From Coquelicot Require Import Complex.
From Verif Require Import Base RSum CSum.
Local Open Scope nat_scope.

Definition ip (n : nat) (f g : nat -> C) : C := csum n (fun j => Cmult (f j) (Cconj (g j))).
Definition nrm2 (n : nat) (f : nat -> C) : R := rsum n (fun j => (Re (f j) ^ 2 + Im (f j) ^ 2)%R).
Definition abs2 (z : C) : R := (Re z ^ 2 + Im z ^ 2)%R.

Lemma Cmult_conj_abs2 z : Cmult z (Cconj z) = RtoC (abs2 z).
Proof. destruct z. unfold abs2. apply C_ext; cbn; ring. Qed.

Lemma abs2_nonneg z : (0 <= abs2 z)%R.
Proof. unfold abs2. pose proof (pow2_ge_0 (Re z)). pose proof (pow2_ge_0 (Im z)). lra. Qed.

Lemma abs2_zero z : abs2 z = 0%R -> z = RtoC 0.
Proof.
  unfold abs2. intros H. pose proof (pow2_ge_0 (Re z)). pose proof (pow2_ge_0 (Im z)).
  apply C_ext; cbn; apply Rsqr_0_uniq; unfold Rsqr; lra.
Qed.

Lemma nrm2_nonneg n f : (0 <= nrm2 n f)%R.
Proof. apply rsum_nonneg. intros. apply abs2_nonneg. Qed.

Lemma ip_self n f : ip n f f = RtoC (nrm2 n f).
Proof. unfold ip, nrm2. rewrite <- csum_RtoC. apply csum_ext. intros. apply Cmult_conj_abs2. Qed.

Lemma nrm2_zero n f : nrm2 n f = 0%R -> forall j, j < n -> f j = RtoC 0.
Proof.
  intros H j Hj. apply abs2_zero. apply (rsum_zero_terms n (fun j => abs2 (f j))); auto.
  intros. apply abs2_nonneg.
Qed.

Lemma ip_conj n f g : Cconj (ip n f g) = ip n g f.
Proof. unfold ip. rewrite csum_conj. apply csum_ext. intros. rewrite Cconj_mult, Cconj_conj. ring. Qed.

Lemma ip_ext n f f' g g' : (forall j, j < n -> f j = f' j) -> (forall j, j < n -> g j = g' j) ->
  ip n f g = ip n f' g'.
Proof. intros H H'. apply csum_ext. intros. rewrite H, H' by assumption. reflexivity. Qed.

Lemma ip_minus_l n f f' g : ip n (fun j => Cminus (f j) (f' j)) g = Cminus (ip n f g) (ip n f' g).
Proof. unfold ip. rewrite <- csum_minus. apply csum_ext. intros. ring. Qed.

Lemma ip_sum_l n m a (u : nat -> nat -> C) g :
  ip n (fun j => csum m (fun p => Cmult (a p) (u p j))) g = csum m (fun p => Cmult (a p) (ip n (u p) g)).
Proof.
  unfold ip. rewrite (csum_ext n _ (fun j => csum m (fun p => Cmult (a p) (Cmult (u p j) (Cconj (g j)))))).
  - rewrite csum_swap. apply csum_ext. intros. apply csum_scal_l.
  - intros. rewrite <- csum_scal_r. apply csum_ext. intros. ring.
Qed.

Lemma ip_sum_r n m a (u : nat -> nat -> C) g :
  ip n g (fun j => csum m (fun p => Cmult (a p) (u p j))) = csum m (fun p => Cmult (Cconj (a p)) (ip n g (u p))).
Proof.
  rewrite <- ip_conj, ip_sum_l, csum_conj. apply csum_ext. intros.
  rewrite Cconj_mult, ip_conj. reflexivity.
Qed.

Lemma csum_abs2 m c : csum m (fun p => Cmult (c p) (Cconj (c p))) = RtoC (nrm2 m c).
Proof. exact (ip_self m c). Qed.

Section Ortho.
  Variable n m : nat.
  Variable u : nat -> nat -> C.
  Hypothesis ortho : forall p q, p < m -> q < m -> ip n (u p) (u q) = if Nat.eqb p q then RtoC 1 else RtoC 0.

  Definition proj (f : nat -> C) (j : nat) : C := csum m (fun p => Cmult (ip n f (u p)) (u p j)).

  (** Coefficients of a combination. *)
  Lemma ip_comb a q : q < m -> ip n (fun j => csum m (fun p => Cmult (a p) (u p j))) (u q) = a q.
  Proof.
    intros Hq. rewrite ip_sum_l. rewrite (csum_single m q).
    - rewrite ortho by assumption. rewrite Nat.eqb_refl. ring.
    - exact Hq.
    - intros p Hp N. rewrite ortho by assumption. destruct (Nat.eqb_spec p q); [congruence|]. ring.
  Qed.

  Lemma nrm2_comb a : nrm2 n (fun j => csum m (fun p => Cmult (a p) (u p j))) = nrm2 m a.
  Proof.
    assert (H : RtoC (nrm2 n (fun j => csum m (fun p => Cmult (a p) (u p j)))) = RtoC (nrm2 m a)).
    { rewrite <- ip_self, ip_sum_r, <- csum_abs2. apply csum_ext. intros p Hp.
      rewrite ip_comb by exact Hp. ring. }
    injection H as H. exact H.
  Qed.

  Lemma defect f : nrm2 n (fun j => Cminus (f j) (proj f j)) = (nrm2 n f - nrm2 m (fun p => ip n f (u p)))%R.
  Proof.
    set (c := fun p => ip n f (u p)).
    assert (B1 : ip n f (proj f) = RtoC (nrm2 m c)).
    { unfold proj. rewrite (ip_sum_r n m (fun p => ip n f (u p)) u f), <- csum_abs2.
      apply csum_ext. intros. unfold c. ring. }
    assert (B2 : ip n (proj f) (proj f) = RtoC (nrm2 m c)).
    { rewrite ip_self. f_equal. apply (nrm2_comb c). }
    assert (H : RtoC (nrm2 n (fun j => Cminus (f j) (proj f j))) = RtoC (nrm2 n f - nrm2 m c)).
    { rewrite <- ip_self, ip_minus_l.
      rewrite <- (ip_conj n _ f), <- (ip_conj n _ (proj f)), !ip_minus_l.
      rewrite <- (ip_conj n f (proj f)), B1, B2, ip_self, RtoC_minus.
      unfold Cminus. rewrite !Cconj_plus, !Cconj_opp, !Cconj_R. ring. }
    injection H as H. exact H.
  Qed.

  Lemma bessel f : (nrm2 m (fun p => ip n f (u p)) <= nrm2 n f)%R.
  Proof. pose proof (nrm2_nonneg n (fun j => Cminus (f j) (proj f j))) as H. rewrite defect in H. lra. Qed.
End Ortho.

Definition basis_vec (i j : nat) : C := if Nat.eqb j i then RtoC 1 else RtoC 0.

Lemma ip_basis n i g : i < n -> ip n (basis_vec i) g = Cconj (g i).
Proof.
  intros Hi. unfold ip. rewrite (csum_single n i).
  - unfold basis_vec. rewrite Nat.eqb_refl. ring.
  - exact Hi.
  - intros k Hk N. unfold basis_vec. destruct (Nat.eqb_spec k i); [congruence|]. ring.
Qed.

Section Complete.
  Variable n : nat.
  Variable u : nat -> nat -> C.
  Hypothesis ortho : forall p q, p < n -> q < n -> ip n (u p) (u q) = if Nat.eqb p q then RtoC 1 else RtoC 0.

  Lemma nrm2_unit p : p < n -> nrm2 n (u p) = 1%R.
  Proof.
    intros Hp. pose proof (ortho p p Hp Hp) as H. rewrite Nat.eqb_refl, ip_self in H. injection H as H. exact H.
  Qed.

  Lemma nrm2_basis i : i < n -> nrm2 n (basis_vec i) = 1%R.
  Proof.
    intros Hi. assert (H : RtoC (nrm2 n (basis_vec i)) = RtoC 1).
    { rewrite <- ip_self, ip_basis by exact Hi. unfold basis_vec. rewrite Nat.eqb_refl. apply Cconj_R. }
    injection H as H. exact H.
  Qed.

  Lemma defect_basis i : i < n -> nrm2 n (fun j => Cminus (basis_vec i j) (proj n n u (basis_vec i) j)) = 0%R.
  Proof.
    set (d := fun i => nrm2 n (fun j => Cminus (basis_vec i j) (proj n n u (basis_vec i) j))).
    intros Hi. apply (rsum_zero_terms n d); [intros; apply nrm2_nonneg| |exact Hi].
    rewrite (rsum_ext n d (fun i => 1 - rsum n (fun p => abs2 (u p i)))%R).
    - rewrite rsum_minus, rsum_const, rsum_swap.
      rewrite (rsum_ext n (fun p => rsum n (fun i => abs2 (u p i))) (fun _ => 1%R)) by (intros p Hp; apply (nrm2_unit p Hp)).
      rewrite rsum_const. ring.
    - intros k Hk. unfold d. rewrite (defect n n u ortho), nrm2_basis by exact Hk. f_equal.
      apply rsum_ext. intros p Hp. rewrite ip_basis by exact Hk. unfold abs2. destruct (u p k); cbn; ring.
  Qed.

  (** Columns are orthonormal too. *)
  Lemma completeness i j : i < n -> j < n ->
    csum n (fun p => Cmult (Cconj (u p i)) (u p j)) = if Nat.eqb i j then RtoC 1 else RtoC 0.
  Proof.
    intros Hi Hj. pose proof (nrm2_zero _ _ (defect_basis i Hi) j Hj) as H.
    assert (E : proj n n u (basis_vec i) j = basis_vec i j).
    { transitivity (Cminus (basis_vec i j) (Cminus (basis_vec i j) (proj n n u (basis_vec i) j))); [ring|].
      cbn beta in H. rewrite H. ring. }
    unfold proj in E. rewrite (csum_ext n _ (fun p => Cmult (Cconj (u p i)) (u p j))) in E
      by (intros; rewrite ip_basis by exact Hi; reflexivity).
    rewrite E. unfold basis_vec. rewrite Nat.eqb_sym. reflexivity.
  Qed.

  Lemma reconstruct f j : j < n -> proj n n u f j = f j.
  Proof.
    intros Hj. unfold proj, ip.
    rewrite (csum_ext n _ (fun p => csum n (fun i => Cmult (f i) (Cmult (Cconj (u p i)) (u p j)))))
      by (intros; rewrite <- csum_scal_r; apply csum_ext; intros; ring).
    rewrite csum_swap. rewrite (csum_single n j).
    - rewrite csum_scal_l, completeness, Nat.eqb_refl by exact Hj. ring.
    - exact Hj.
    - intros i Hi N. rewrite csum_scal_l, completeness by assumption.
      destruct (Nat.eqb_spec i j); [congruence|]. ring.
  Qed.

  Lemma parseval f : nrm2 n (fun p => ip n f (u p)) = nrm2 n f.
  Proof.
    pose proof (defect n n u ortho f) as D.
    assert (Z : nrm2 n (fun j => Cminus (f j) (proj n n u f j)) = 0%R).
    { unfold nrm2. apply rsum_zero. intros j Hj. rewrite reconstruct by exact Hj.
      destruct (f j); cbn; ring. }
    lra.
  Qed.
End Complete.

(** Distance to an arbitrary combination: the coefficients [ip f u_p] are the
    best ones. *)
Section Best.
  Variable n m : nat.
  Variable u : nat -> nat -> C.
  Hypothesis ortho : forall p q, p < m -> q < m -> ip n (u p) (u q) = if Nat.eqb p q then RtoC 1 else RtoC 0.

  Lemma distance f c :
    nrm2 n (fun j => Cminus (f j) (csum m (fun p => Cmult (c p) (u p j))))
    = (nrm2 n (fun j => Cminus (f j) (proj n m u f j))
       + nrm2 m (fun p => Cminus (ip n f (u p)) (c p)))%R.
  Proof.
    pose (r := fun j => Cminus (f j) (csum m (fun p => Cmult (c p) (u p j)))).
    pose proof (defect n m u ortho r) as D.
    assert (Hip : forall p, p < m -> ip n r (u p) = Cminus (ip n f (u p)) (c p)).
    { intros p Hp. unfold r. rewrite ip_minus_l. rewrite (ip_comb n m u ortho c p Hp). reflexivity. }
    assert (E : nrm2 n (fun j => Cminus (r j) (proj n m u r j)) = nrm2 n (fun j => Cminus (f j) (proj n m u f j))).
    { unfold nrm2. apply rsum_ext. intros j Hj.
      assert (X : Cminus (r j) (proj n m u r j) = Cminus (f j) (proj n m u f j)).
      { unfold proj. rewrite (csum_ext m (fun p => Cmult (ip n r (u p)) (u p j))
           (fun p => Cminus (Cmult (ip n f (u p)) (u p j)) (Cmult (c p) (u p j)))).
        - rewrite csum_minus. unfold r. ring.
        - intros p Hp. rewrite Hip by exact Hp. ring. }
      rewrite X. reflexivity. }
    assert (E2 : nrm2 m (fun p => ip n r (u p)) = nrm2 m (fun p => Cminus (ip n f (u p)) (c p))).
    { unfold nrm2. apply rsum_ext. intros p Hp. rewrite Hip by exact Hp. reflexivity. }
    rewrite E, E2 in D. fold r. lra.
  Qed.
End Best.
