(** * Legendre polynomials: derivative, parity, integrals between colatitudes. *)
From Coq Require Import List ZArith Arith Bool Reals Lia Lra.
From Coquelicot Require Import Coquelicot.
From Verif Require Import Base RSum SpecWigner SpecHarmonics SpecLegendre.
Import ListNotations.
Local Open Scope R_scope.

Lemma legendre_0 x : legendre 0 x = 1.
Proof. reflexivity. Qed.
Lemma legendre_1 x : legendre 1 x = x.
Proof. reflexivity. Qed.
Lemma legendre_snd n x : snd (legendre_pair n x) = legendre (S n) x.
Proof. unfold legendre. cbn [legendre_pair]. destruct (legendre_pair n x). reflexivity. Qed.
Lemma legendre_SS n x :
  legendre (S (S n)) x = ((2 * INR n + 3) * x * legendre (S n) x - (INR n + 1) * legendre n x) / (INR n + 2).
Proof.
  rewrite <- (legendre_snd (S n)), <- (legendre_snd n). unfold legendre. cbn [legendre_pair].
  destruct (legendre_pair n x). reflexivity.
Qed.

Lemma two_step (P : nat -> Prop) : P 0%nat -> P 1%nat -> (forall n, P n -> P (S n) -> P (S (S n))) -> forall n, P n.
Proof.
  intros H0 H1 H n. enough (G : P n /\ P (S n)) by apply G. induction n as [|n [A B]]; split; auto.
Qed.

(** The derivatives, by the differentiated recurrence. *)
Fixpoint dlegendre_pair (n : nat) (x : R) : R * R :=
  match n with
  | O => (0, 1)
  | S k => let (a, b) := dlegendre_pair k x in
           (b, ((2 * INR k + 3) * (legendre (S k) x + x * b) - (INR k + 1) * a) / (INR k + 2))
  end.
Definition dlegendre n x := fst (dlegendre_pair n x).
Lemma dlegendre_snd n x : snd (dlegendre_pair n x) = dlegendre (S n) x.
Proof. unfold dlegendre. cbn [dlegendre_pair]. destruct (dlegendre_pair n x). reflexivity. Qed.
Lemma dlegendre_SS n x :
  dlegendre (S (S n)) x = ((2 * INR n + 3) * (legendre (S n) x + x * dlegendre (S n) x) - (INR n + 1) * dlegendre n x) / (INR n + 2).
Proof.
  rewrite <- (dlegendre_snd (S n)), <- (dlegendre_snd n). unfold dlegendre. cbn [dlegendre_pair].
  destruct (dlegendre_pair n x). reflexivity.
Qed.

Lemma legendre_derive n : forall x, is_derive (legendre n) x (dlegendre n x).
Proof.
  induction n as [| |n IH0 IH1] using two_step; intros x.
  - apply (is_derive_ext (fun _ => 1)); [intros t; reflexivity|]. apply @is_derive_const.
  - apply (is_derive_ext (fun t => t)); [intros t; reflexivity|]. apply @is_derive_id.
  - apply (is_derive_ext (fun t => ((2 * INR n + 3) * t * legendre (S n) t - (INR n + 1) * legendre n t) / (INR n + 2)));
      [intros t; symmetry; apply legendre_SS|].
    rewrite dlegendre_SS. specialize (IH0 x). specialize (IH1 x).
    pose proof (pos_INR n) as Hn.
    auto_derive; [repeat split; [exists (dlegendre (S n) x)|exists (dlegendre n x)]; assumption|].
    replace (Derive (fun x0 => legendre (S n) x0) x) with (dlegendre (S n) x) by (symmetry; apply is_derive_unique; exact IH1).
    replace (Derive (fun x0 => legendre n x0) x) with (dlegendre n x) by (symmetry; apply is_derive_unique; exact IH0).
    field. lra.
Qed.

Lemma legendre_AB n x :
  x * dlegendre (S n) x - dlegendre n x = (INR n + 1) * legendre (S n) x /\
  dlegendre (S n) x - x * dlegendre n x = (INR n + 1) * legendre n x.
Proof.
  induction n as [|n [A B]].
  - cbn. lra.
  - rewrite S_INR. pose proof (pos_INR n) as Hn. set (k := INR n) in *.
    assert (B' : dlegendre (S (S n)) x - x * dlegendre (S n) x = (k + 1 + 1) * legendre (S n) x).
    { rewrite dlegendre_SS. fold k. replace (dlegendre n x) with (x * dlegendre (S n) x - (k + 1) * legendre (S n) x) by lra. field. lra. }
    split; [|exact B'].
    assert (E : (k + 2) * legendre (S (S n)) x = (2 * k + 3) * x * legendre (S n) x - (k + 1) * legendre n x)
      by (rewrite legendre_SS; fold k; field; lra).
    replace (k + 1 + 1) with (k + 2) by ring. rewrite E.
    replace (dlegendre (S (S n)) x) with (x * dlegendre (S n) x + (k + 2) * legendre (S n) x) by lra.
    assert (Q : x * (x * dlegendre (S n) x - dlegendre n x) - (dlegendre (S n) x - x * dlegendre n x) = x * ((k + 1) * legendre (S n) x) - (k + 1) * legendre n x)
      by (rewrite A, B; reflexivity).
    lra.
Qed.

Lemma legendre_difference n x : dlegendre (S (S n)) x - dlegendre n x = (2 * INR n + 3) * legendre (S n) x.
Proof.
  destruct (legendre_AB n x) as [A _]. destruct (legendre_AB (S n) x) as [_ B]. rewrite S_INR in B. lra.
Qed.

Lemma legendre_at_1 n : legendre n 1 = 1.
Proof.
  induction n as [| |n IH0 IH1] using two_step; try reflexivity.
  rewrite legendre_SS, IH0, IH1. pose proof (pos_INR n). field. lra.
Qed.

Lemma legendre_neg n x : legendre n (- x) = (-1) ^ n * legendre n x.
Proof.
  induction n as [| |n IH0 IH1] using two_step; [rewrite !legendre_0|rewrite !legendre_1|]; try (cbn; ring).
  rewrite !legendre_SS, IH0, IH1. pose proof (pos_INR n). cbn [pow]. field. lra.
Qed.

(** The antiderivative in the colatitude: P_(n-1) - P_(n+1) at cos, with
    P_(-1) = 1. *)
Definition edge (n : nat) (x : R) : R := (match n with O => 1 | S k => legendre k x end) - legendre (S n) x.

Lemma edge_derive n t : is_derive (fun t => edge n (cos t)) t ((2 * INR n + 1) * legendre n (cos t) * sin t).
Proof.
  destruct n as [|n].
  - apply (is_derive_ext (fun t => 1 - cos t)); [intros s; reflexivity|]. rewrite legendre_0. auto_derive; [trivial|]. cbn. ring.
  - unfold edge. rewrite S_INR. replace (2 * (INR n + 1) + 1) with (2 * INR n + 3) by ring. rewrite <- legendre_difference.
    pose proof (legendre_derive n (cos t)) as H0. pose proof (legendre_derive (S (S n)) (cos t)) as H2.
    auto_derive; [repeat split; [exists (dlegendre n (cos t))|exists (dlegendre (S (S n)) (cos t))]; assumption|].
    replace (Derive (fun x => legendre n x) (cos t)) with (dlegendre n (cos t)) by (symmetry; apply is_derive_unique; exact H0).
    replace (Derive (fun x => legendre (S (S n)) x) (cos t)) with (dlegendre (S (S n)) (cos t)) by (symmetry; apply is_derive_unique; exact H2).
    ring.
Qed.

Lemma legendre_continuous n x : continuous (legendre n) x.
Proof. apply (ex_derive_continuous (V := R_NormedModule)). exists (dlegendre n x). apply legendre_derive. Qed.

Lemma legendre_integral n a b :
  is_RInt (fun t => (2 * INR n + 1) * legendre n (cos t) * sin t) a b (edge n (cos b) - edge n (cos a)).
Proof.
  apply (is_RInt_derive (V := R_CompleteNormedModule) (fun t => edge n (cos t))).
  - intros t _. apply edge_derive.
  - intros t _. apply (continuous_mult (K := R_AbsRing) (fun t => (2 * INR n + 1) * legendre n (cos t)) sin).
    + apply (continuous_mult (K := R_AbsRing) (fun _ => 2 * INR n + 1) (fun t => legendre n (cos t))); [apply continuous_const|].
      apply (continuous_comp cos (legendre n)); [|apply legendre_continuous].
      apply (ex_derive_continuous (V := R_NormedModule)). auto_derive. trivial.
    + apply (ex_derive_continuous (V := R_NormedModule)). auto_derive. trivial.
Qed.

Lemma edge_north n : edge n (cos 0) = 0.
Proof. rewrite cos_0. unfold edge. destruct n; rewrite !legendre_at_1; ring. Qed.

Lemma edge_south n x : edge n (-1) - edge n (- x) = (-1) ^ n * edge n x.
Proof.
  unfold edge. destruct n as [|n].
  - rewrite !legendre_1. cbn. ring.
  - assert (M : forall k, legendre k (-1) = (-1) ^ k) by (intros k; replace (-1)%R with (- (1))%R at 1 by ring; rewrite legendre_neg, legendre_at_1; ring).
    rewrite !M, !legendre_neg. cbn [pow]. ring.
Qed.
