(** * Lemmas about the generators of scale-discretised wavelets. *)
From Coq Require Import List Arith Reals Lra Lia Psatz.
From Verif Require Import RSum SpecTiling.
Import ListNotations.
Local Open Scope R_scope.

Section Tiling.
  Variables (B : nat) (k : R -> R).
  Hypothesis T : tiling B k.

  Lemma base_ge : 2 <= INR B.
  Proof. destruct T as (H & _). apply (le_INR 2) in H. cbn in H. lra. Qed.
  Lemma power_pos a : 0 < INR B ^ a.
  Proof. apply pow_lt. pose proof base_ge. lra. Qed.

  Lemma k_range t : 0 <= t -> 0 <= k t <= 1.
  Proof.
    intros Ht. pose proof base_ge as HB. destruct T as (_ & K1 & K0 & KS).
    destruct (Rle_dec (t * INR B) 1) as [H|H]; [rewrite (K1 t Ht H); lra|].
    destruct (Rle_dec 1 t) as [H1|H1]; [rewrite (K0 t H1); lra|].
    assert (A : k t < k (/ INR B)) by (apply KS; [rewrite Rinv_l by lra; lra|apply Rnot_le_lt in H; apply (Rmult_lt_reg_r (INR B)); [lra|rewrite Rinv_l by lra; exact H]|lra]).
    rewrite (K1 (/ INR B)) in A; [|left; apply Rinv_0_lt_compat; lra|rewrite Rinv_l by lra; lra].
    assert (C : k 1 < k t) by (apply KS; lra). rewrite (K0 1) in C by lra. lra.
  Qed.

  (** One dilation: the difference is never negative, and positive exactly inside the band. *)
  Lemma k_step t : 0 <= t -> let d := k (t / INR B) - k t in 0 <= d <= 1 /\ (0 < d <-> 1 < t * INR B /\ t < INR B).
  Proof.
    intros Ht d. pose proof base_ge as HB. pose proof T as (_ & K1 & K0 & KS).
    assert (H0 : 0 <= t / INR B) by (apply Rmult_le_pos; [exact Ht|left; apply Rinv_0_lt_compat; lra]).
    pose proof (k_range t Ht) as R1. pose proof (k_range _ H0) as R2. unfold d.
    assert (E : t / INR B * INR B = t) by (field; lra).
    destruct (Rle_dec (t * INR B) 1) as [H|H].
    - rewrite (K1 t Ht H). rewrite (K1 (t / INR B) H0) by (rewrite E; nra). split; [lra|]. split; [lra|intros [A _]; lra].
    - apply Rnot_le_lt in H. destruct (Rle_dec t 1) as [H1|H1].
      + rewrite (K1 (t / INR B) H0) by (rewrite E; exact H1).
        assert (A : k t < k (/ INR B)) by (apply KS; [rewrite Rinv_l by lra; lra|apply (Rmult_lt_reg_r (INR B)); [lra|rewrite Rinv_l by lra; exact H]|lra]).
        rewrite (K1 (/ INR B)) in A; [|left; apply Rinv_0_lt_compat; lra|rewrite Rinv_l by lra; lra].
        split; [lra|]. split; [intros _; split; [exact H|lra]|intros _; lra].
      + apply Rnot_le_lt in H1. rewrite (K0 t) by lra. split; [lra|]. split.
        * intros P. split; [exact H|]. apply Rnot_le_lt. intros G. rewrite (K0 (t / INR B)) in P; [lra|]. apply (Rmult_le_reg_r (INR B)); [lra|rewrite E; lra].
        * intros [_ G]. assert (A : k 1 < k (t / INR B)) by (apply KS; [rewrite E; lra| |lra]; apply (Rmult_lt_reg_r (INR B)); [lra|rewrite E; lra]).
          rewrite (K0 1) in A by lra. lra.
  Qed.

  Definition difference (p a : nat) : R := k (INR p / INR B ^ (a + 1)) - k (INR p / INR B ^ a).

  Lemma difference_step p a : difference p a = k (INR p / INR B ^ a / INR B) - k (INR p / INR B ^ a).
  Proof.
    unfold difference. do 2 f_equal. rewrite pow_add, pow_1. pose proof (power_pos a). pose proof base_ge. field. split; lra.
  Qed.

  Lemma ratio_pos p a : 0 <= INR p / INR B ^ a.
  Proof. apply Rmult_le_pos; [apply pos_INR|left; apply Rinv_0_lt_compat, power_pos]. Qed.

  Lemma difference_range p a : 0 <= difference p a <= 1.
  Proof. rewrite difference_step. exact (proj1 (k_step _ (ratio_pos p a))). Qed.

  Lemma difference_band p a : 0 < difference p a <-> (B ^ a < B * p)%nat /\ (p < B ^ (a + 1))%nat.
  Proof.
    rewrite difference_step, (proj2 (k_step _ (ratio_pos p a))). pose proof (power_pos a) as P.
    assert (I : forall x y, INR x < INR y <-> (x < y)%nat) by (intros; split; [apply INR_lt|apply lt_INR]).
    rewrite <- !I, pow_INR, mult_INR, pow_INR, pow_add, pow_1.
    replace (INR p / INR B ^ a * INR B) with (INR B * INR p / INR B ^ a) by (field; lra).
    assert (Q : forall x y, (x < y / INR B ^ a <-> x * INR B ^ a < y)).
    { intros x y. split; intros H.
      - apply (Rmult_lt_compat_r (INR B ^ a)) in H; [|exact P]. replace (y / INR B ^ a * INR B ^ a) with y in H by (field; lra). exact H.
      - apply (Rmult_lt_reg_r (INR B ^ a)); [exact P|]. replace (y / INR B ^ a * INR B ^ a) with y by (field; lra). exact H. }
    assert (Q' : forall x y, (y / INR B ^ a < x <-> y < x * INR B ^ a)).
    { intros x y. split; intros H.
      - apply (Rmult_lt_compat_r (INR B ^ a)) in H; [|exact P]. replace (y / INR B ^ a * INR B ^ a) with y in H by (field; lra). exact H.
      - apply (Rmult_lt_reg_r (INR B ^ a)); [exact P|]. replace (y / INR B ^ a * INR B ^ a) with y by (field; lra). exact H. }
    rewrite Q, Q', Rmult_1_l, (Rmult_comm (INR B) (INR B ^ a)). reflexivity.
  Qed.

  Lemma telescope p j_min n : k (INR p / INR B ^ j_min) + rsum n (fun j => difference p (j_min + j)) = k (INR p / INR B ^ (j_min + n)).
  Proof.
    induction n as [|n IH]; [cbn [rsum]; rewrite Nat.add_0_r; ring|]. cbn [rsum]. rewrite <- Rplus_assoc, IH. unfold difference.
    replace (j_min + S n)%nat with (j_min + n + 1)%nat by lia. ring.
  Qed.

  Lemma covered p xlim j_min J : covers B xlim j_min J -> (p < xlim)%nat -> k (INR p / INR B ^ (j_min + (J + 1 - j_min))) = 1.
  Proof.
    intros [H1 H2] Hp. pose proof T as (_ & K1 & _). replace (j_min + (J + 1 - j_min))%nat with (J + 1)%nat by lia.
    apply K1; [apply ratio_pos|]. rewrite pow_add, pow_1. pose proof (power_pos J) as P. pose proof base_ge as HB.
    replace (INR p / (INR B ^ J * INR B) * INR B) with (INR p / INR B ^ J) by (field; split; lra).
    apply (Rmult_le_reg_r (INR B ^ J)); [exact P|]. replace (INR p / INR B ^ J * INR B ^ J) with (INR p) by (field; lra). rewrite Rmult_1_l, <- pow_INR. apply le_INR. lia.
  Qed.

  (** A scale reaches below [N] exactly if its band begins there. *)
  Lemma reaches N a : (exists p, (p < N)%nat /\ (B ^ a < B * p)%nat /\ (p < B ^ (a + 1))%nat) <-> (B ^ a < B * (N - 1))%nat.
  Proof.
    destruct T as (HB & _). split.
    - intros (p & H1 & H2 & _). nia.
    - intros H. destruct a as [|a].
      + exists 1%nat. cbn in *. split; [destruct N as [|[|N]]; cbn in H; lia|]. lia.
      + exists (B ^ a + 1)%nat. assert (P : (1 <= B ^ a)%nat) by (apply Nat.neq_0_lt_0, Nat.pow_nonzero; lia).
        rewrite Nat.pow_succ_r' in H. split; [nia|]. rewrite Nat.pow_succ_r'. split; [nia|]. replace (S a + 1)%nat with (S (S a)) by lia. rewrite !Nat.pow_succ_r'. nia.
  Qed.
End Tiling.

(** A property that, once false, stays false holds below some number. *)
Lemma prefix_count (P : nat -> bool) n : (forall i j, (i <= j)%nat -> P j = true -> P i = true) ->
  exists c, (c <= n)%nat /\ forall j, (j < n)%nat -> (P j = true <-> (j < c)%nat).
Proof.
  intros M. induction n as [|n (c & Hc & H)]; [exists 0%nat; split; [lia|intros; lia]|]. destruct (P n) eqn:E.
  - exists (S n). split; [lia|]. intros j Hj. split; [intros; lia|]. intros _. apply (M j n); [lia|exact E].
  - exists c. split; [lia|]. intros j Hj. destruct (Nat.eq_dec j n) as [->|N]; [|apply H; lia]. split; [congruence|lia].
Qed.
