(** * Lemmas: real orthonormal families. *)
From Coq Require Import List ZArith Arith Bool Reals Lra Lia.
From Coquelicot Require Import Complex.
From Verif Require Import Base RSum CSum OrthoProofs.
Local Open Scope nat_scope.

Definition rip (n : nat) (f g : nat -> R) : R := rsum n (fun j => (f j * g j)%R).

Lemma rip_ext n f f' g g' : (forall j, j < n -> f j = f' j) -> (forall j, j < n -> g j = g' j) -> rip n f g = rip n f' g'.
Proof. intros H H'. apply rsum_ext. intros. rewrite H, H' by assumption. reflexivity. Qed.

Lemma rip_comm n f g : rip n f g = rip n g f.
Proof. apply rsum_ext. intros. ring. Qed.

Lemma rip_minus_l n f f' g : rip n (fun j => f j - f' j)%R g = (rip n f g - rip n f' g)%R.
Proof. unfold rip. rewrite <- rsum_minus. apply rsum_ext. intros. ring. Qed.

Lemma rip_sum_l n m a (u : nat -> nat -> R) g :
  rip n (fun j => rsum m (fun p => a p * u p j)%R) g = rsum m (fun p => a p * rip n (u p) g)%R.
Proof.
  unfold rip. transitivity (rsum n (fun j => rsum m (fun p => a p * (u p j * g j))%R)).
  - apply rsum_ext. intros. rewrite <- rsum_scal_r. apply rsum_ext. intros. ring.
  - rewrite rsum_swap. apply rsum_ext. intros. apply rsum_scal_l.
Qed.

Lemma rip_nonneg n f : (0 <= rip n f f)%R.
Proof. apply rsum_nonneg. intros. nra. Qed.

Lemma rip_zero n f : rip n f f = 0%R -> forall j, j < n -> f j = 0%R.
Proof.
  intros H j Hj. apply Rsqr_0_uniq. unfold Rsqr. apply (rsum_zero_terms n (fun j => f j * f j)%R); auto.
  intros. nra.
Qed.

Lemma rip_embed n f g : ip n (fun j => RtoC (f j)) (fun j => RtoC (g j)) = RtoC (rip n f g).
Proof. unfold ip, rip. rewrite <- csum_RtoC. apply csum_ext. intros. rewrite Cconj_R. apply C_ext; cbn; ring. Qed.

Section Ortho.
  Variable n m : nat.
  Variable u : nat -> nat -> R.
  Hypothesis ortho : forall p q, p < m -> q < m -> rip n (u p) (u q) = if Nat.eqb p q then 1%R else 0%R.

  Lemma rip_comb a q : q < m -> rip n (fun j => rsum m (fun p => a p * u p j)%R) (u q) = a q.
  Proof.
    intros Hq. rewrite rip_sum_l. rewrite (rsum_single m q).
    - rewrite ortho by assumption. rewrite Nat.eqb_refl. ring.
    - exact Hq.
    - intros p Hp N. rewrite ortho by assumption. destruct (Nat.eqb_spec p q); [congruence|]. ring.
  Qed.

  Lemma rip_comb2 a b : rip n (fun j => rsum m (fun p => a p * u p j)%R) (fun j => rsum m (fun p => b p * u p j)%R)
    = rip m a b.
  Proof.
    rewrite rip_comm, rip_sum_l. apply rsum_ext. intros p Hp. rewrite rip_comm, rip_comb by exact Hp. ring.
  Qed.

  Definition rproj (f : nat -> R) (j : nat) : R := rsum m (fun p => rip n f (u p) * u p j)%R.

  Lemma rip_proj f q : q < m -> rip n (rproj f) (u q) = rip n f (u q).
  Proof. intros Hq. exact (rip_comb (fun p => rip n f (u p)) q Hq). Qed.

  Lemma rproj_residual f q : q < m -> rip n (fun j => f j - rproj f j)%R (u q) = 0%R.
  Proof. intros Hq. rewrite rip_minus_l, rip_proj by exact Hq. ring. Qed.

  Lemma rdistance f c :
    rip n (fun j => f j - rsum m (fun p => c p * u p j))%R (fun j => f j - rsum m (fun p => c p * u p j))%R
    = (rip n (fun j => f j - rproj f j) (fun j => f j - rproj f j)
       + rip m (fun p => rip n f (u p) - c p) (fun p => rip n f (u p) - c p))%R.
  Proof.
    set (d := fun p => (rip n f (u p) - c p)%R). set (r := fun j => (f j - rproj f j)%R).
    set (w := fun j => rsum m (fun p => d p * u p j)%R).
    assert (E : forall j, (f j - rsum m (fun p => c p * u p j))%R = (r j + w j)%R).
    { intros j. unfold r, w, rproj, d. rewrite (rsum_ext m (fun p => (rip n f (u p) - c p) * u p j)%R
        (fun p => rip n f (u p) * u p j - c p * u p j)%R) by (intros; ring). rewrite rsum_minus. ring. }
    rewrite (rip_ext n _ (fun j => r j + w j)%R _ (fun j => r j + w j)%R) by (intros; apply E).
    assert (RW : rip n r w = 0%R).
    { rewrite rip_comm. unfold w. rewrite rip_sum_l. apply rsum_zero. intros p Hp.
      rewrite rip_comm. unfold r. rewrite rproj_residual by exact Hp. ring. }
    assert (WW : rip n w w = rip m d d) by apply rip_comb2.
    transitivity (rip n r r + 2 * rip n r w + rip n w w)%R; [|rewrite RW, WW; ring].
    unfold rip. rewrite <- rsum_scal_l, <- !rsum_plus. apply rsum_ext. intros. ring.
  Qed.

  Lemma rpythagoras f : rip n f f = (rip n (fun j => f j - rproj f j) (fun j => f j - rproj f j)
      + rip m (fun p => rip n f (u p)) (fun p => rip n f (u p)))%R.
  Proof.
    pose proof (rdistance f (fun _ => 0%R)) as D.
    rewrite (rip_ext n _ f _ f) in D by (intros; rewrite (rsum_zero m) by (intros; ring); ring).
    rewrite D. f_equal. apply rip_ext; intros; ring.
  Qed.

  Lemma rbessel f : (rip m (fun p => rip n f (u p)) (fun p => rip n f (u p)) <= rip n f f)%R.
  Proof. rewrite (rpythagoras f). pose proof (rip_nonneg n (fun j => f j - rproj f j)%R). lra. Qed.
End Ortho.

Section Complete.
  Variable n : nat.
  Variable u : nat -> nat -> R.
  Hypothesis ortho : forall p q, p < n -> q < n -> rip n (u p) (u q) = if Nat.eqb p q then 1%R else 0%R.

  Let ortho_c : forall p q, p < n -> q < n ->
    ip n (fun j => RtoC (u p j)) (fun j => RtoC (u q j)) = if Nat.eqb p q then RtoC 1 else RtoC 0.
  Proof. intros p q Hp Hq. rewrite rip_embed, ortho by assumption. destruct (Nat.eqb p q); reflexivity. Qed.

  Lemma rcomplete i j : i < n -> j < n ->
    rsum n (fun p => u p i * u p j)%R = if Nat.eqb i j then 1%R else 0%R.
  Proof.
    intros Hi Hj. pose proof (completeness n (fun p j => RtoC (u p j)) ortho_c i j Hi Hj) as H.
    apply RtoC_inj. rewrite <- csum_RtoC.
    rewrite (csum_ext n _ (fun p => Cmult (Cconj (RtoC (u p i))) (RtoC (u p j)))).
    - rewrite H. destruct (Nat.eqb i j); reflexivity.
    - intros. rewrite Cconj_R. apply C_ext; cbn; ring.
  Qed.

  Lemma rreconstruct f j : j < n -> rproj n n u f j = f j.
  Proof.
    intros Hj. unfold rproj, rip.
    rewrite (rsum_ext n _ (fun p => rsum n (fun i => f i * (u p i * u p j))%R))
      by (intros; rewrite <- rsum_scal_r; apply rsum_ext; intros; ring).
    rewrite rsum_swap. rewrite (rsum_single n j).
    - rewrite rsum_scal_l, rcomplete, Nat.eqb_refl by exact Hj. ring.
    - exact Hj.
    - intros i Hi N. rewrite rsum_scal_l, rcomplete by assumption.
      destruct (Nat.eqb_spec i j); [congruence|]. ring.
  Qed.

  Lemma rparseval f : rip n (fun p => rip n f (u p)) (fun p => rip n f (u p)) = rip n f f.
  Proof.
    rewrite (rpythagoras n n u ortho f).
    assert (rip n (fun j => f j - rproj n n u f j) (fun j => f j - rproj n n u f j) = 0)%R as ->; [|ring].
    apply rsum_zero. intros j Hj. rewrite rreconstruct by exact Hj. ring.
  Qed.
End Complete.

(** Restriction of the sum to a mask. *)
Definition rmask (mask : nat -> bool) (n : nat) (f g : nat -> R) : R :=
  rsum n (fun v => if mask v then f v * g v else 0)%R.

Lemma rmask_le mask n f : (0 <= rmask mask n f f <= rip n f f)%R.
Proof.
  split.
  - apply rsum_nonneg. intros. destruct (mask i); nra.
  - apply rsum_le. intros. destruct (mask i); nra.
Qed.
