(** Finite sums of reals: by index ([rsum]) and over lists ([rlsum]). *)
From Coq Require Import List ZArith Arith Lia Reals Lra Sorting.Permutation.
From Verif Require Import Base ListLemmas.
Import ListNotations.
Local Open Scope R_scope.

Fixpoint rsum (n : nat) (f : nat -> R) : R :=
  match n with O => 0 | S k => rsum k f + f k end.

Fixpoint rlsum (l : list R) : R :=
  match l with [] => 0 | x :: t => x + rlsum t end.

Lemma rsum_ext n f g : (forall i, (i < n)%nat -> f i = g i) -> rsum n f = rsum n g.
Proof.
  induction n as [|n IH]; intros H; simpl; [reflexivity|].
  rewrite IH by (intros; apply H; lia). rewrite H by lia. reflexivity.
Qed.

Lemma rsum_zero n f : (forall i, (i < n)%nat -> f i = 0) -> rsum n f = 0.
Proof.
  induction n as [|n IH]; intros H; simpl; [reflexivity|].
  rewrite IH by (intros; apply H; lia). rewrite H by lia. ring.
Qed.

Lemma rsum_plus n f g : rsum n (fun i => f i + g i) = rsum n f + rsum n g.
Proof. induction n as [|n IH]; simpl; [ring|]. rewrite IH. ring. Qed.

Lemma rsum_minus n f g : rsum n (fun i => f i - g i) = rsum n f - rsum n g.
Proof. induction n as [|n IH]; simpl; [ring|]. rewrite IH. ring. Qed.

Lemma rsum_scal_l a n f : rsum n (fun i => a * f i) = a * rsum n f.
Proof. induction n as [|n IH]; simpl; [ring|]. rewrite IH. ring. Qed.

Lemma rsum_scal_r a n f : rsum n (fun i => f i * a) = rsum n f * a.
Proof. induction n as [|n IH]; simpl; [ring|]. rewrite IH. ring. Qed.

Lemma rsum_opp n f : rsum n (fun i => - f i) = - rsum n f.
Proof. induction n as [|n IH]; simpl; [ring|]. rewrite IH. ring. Qed.

Lemma rsum_app n m f : rsum (n + m) f = rsum n f + rsum m (fun i => f (n + i)%nat).
Proof.
  induction m as [|m IH]; simpl.
  - rewrite Nat.add_0_r. ring.
  - rewrite Nat.add_succ_r. simpl. rewrite IH. ring.
Qed.

Lemma rsum_S_l n f : rsum (S n) f = f 0%nat + rsum n (fun i => f (S i)).
Proof. change (S n) with (1 + n)%nat. rewrite rsum_app. simpl. ring. Qed.

Lemma rsum_swap n m f :
  rsum n (fun i => rsum m (fun j => f i j)) = rsum m (fun j => rsum n (fun i => f i j)).
Proof.
  induction n as [|n IH]; simpl.
  - symmetry. apply rsum_zero. reflexivity.
  - rewrite IH, <- rsum_plus. reflexivity.
Qed.

Lemma rsum_single n k f :
  (k < n)%nat -> (forall i, (i < n)%nat -> i <> k -> f i = 0) -> rsum n f = f k.
Proof.
  induction n as [|n IH]; intros Hk H; [lia|]. simpl.
  destruct (Nat.eq_dec k n) as [->|Hne].
  - rewrite rsum_zero by (intros; apply H; lia). ring.
  - rewrite IH by (try lia; intros; apply H; lia). rewrite (H n) by lia. ring.
Qed.

Lemma rsum_rev n f : rsum n f = rsum n (fun i => f (n - 1 - i)%nat).
Proof.
  revert f. induction n as [|n IH]; intros f; [reflexivity|].
  rewrite rsum_S_l. simpl. replace (n - 0 - n)%nat with 0%nat by lia.
  rewrite (IH (fun i => f (S i))).
  rewrite (rsum_ext n (fun i => f (n - 0 - i)%nat) (fun i => f (S (n - 1 - i)))).
  - ring.
  - intros i Hi. f_equal. lia.
Qed.

Lemma rsum_mult n m f g :
  rsum n f * rsum m g = rsum n (fun i => rsum m (fun j => f i * g j)).
Proof.
  rewrite <- rsum_scal_r. apply rsum_ext. intros i _. rewrite <- rsum_scal_l. reflexivity.
Qed.

Lemma rlsum_app l l' : rlsum (l ++ l') = rlsum l + rlsum l'.
Proof. induction l as [|x l IH]; simpl; [ring|]. rewrite IH. ring. Qed.

Lemma rlsum_perm l l' : Permutation l l' -> rlsum l = rlsum l'.
Proof. induction 1; simpl; try rewrite IHPermutation; try ring. congruence. Qed.

Lemma rlsum_map_seq f n : rlsum (map f (seq 0 n)) = rsum n f.
Proof.
  induction n as [|n IH]; [reflexivity|].
  rewrite seq_S, map_app, rlsum_app, IH. simpl. ring.
Qed.

Lemma rlsum_map_seq_s f s n : rlsum (map f (seq s n)) = rsum n (fun i => f (s + i)%nat).
Proof.
  induction n as [|n IH]; [reflexivity|].
  rewrite seq_S, map_app, rlsum_app, IH. simpl. ring.
Qed.

Lemma rlsum_map_ext {A} (f g : A -> R) l :
  (forall x, In x l -> f x = g x) -> rlsum (map f l) = rlsum (map g l).
Proof. intros H. f_equal. apply map_ext_in, H. Qed.

Lemma rlsum_map_scal_l {A} a (f : A -> R) l :
  rlsum (map (fun x => a * f x) l) = a * rlsum (map f l).
Proof. induction l as [|x l IH]; simpl; [ring|]. rewrite IH. ring. Qed.

Lemma rlsum_map_plus {A} (f g : A -> R) l :
  rlsum (map (fun x => f x + g x) l) = rlsum (map f l) + rlsum (map g l).
Proof. induction l as [|x l IH]; simpl; [ring|]. rewrite IH. ring. Qed.

Lemma rlsum_nth l : rlsum l = rsum (length l) (fun i => nth i l 0).
Proof.
  rewrite <- rlsum_map_seq. f_equal. symmetry.
  apply nth_error_ext. intros i. destruct (le_lt_dec (length l) i).
  - rewrite !(proj2 (nth_error_None _ _)); auto. rewrite map_length, seq_length. lia.
  - rewrite nth_error_map_seq by lia. simpl. symmetry. apply nth_error_nth'. lia.
Qed.

(** ** Order *)

Lemma rsum_nonneg n f : (forall i, (i < n)%nat -> 0 <= f i) -> 0 <= rsum n f.
Proof.
  induction n as [|n IH]; intros H; simpl; [lra|].
  specialize (IH ltac:(intros; apply H; lia)). specialize (H n ltac:(lia)). lra.
Qed.

Lemma rsum_le n f g : (forall i, (i < n)%nat -> f i <= g i) -> rsum n f <= rsum n g.
Proof.
  induction n as [|n IH]; intros H; simpl; [lra|].
  specialize (IH ltac:(intros; apply H; lia)). specialize (H n ltac:(lia)). lra.
Qed.

Lemma rsum_le_n n m f : (n <= m)%nat -> (forall i, (i < m)%nat -> 0 <= f i) -> rsum n f <= rsum m f.
Proof.
  intros Hn H. replace m with (n + (m - n))%nat by lia. rewrite rsum_app.
  pose proof (rsum_nonneg (m - n) (fun i => f (n + i)%nat)
    ltac:(intros; apply H; lia)). lra.
Qed.

Lemma rsum_const n a : rsum n (fun _ => a) = INR n * a.
Proof. induction n as [|n IH]; [simpl; ring|]. rewrite S_INR. simpl rsum. rewrite IH. ring. Qed.

Lemma rsum_zero_terms n f :
  (forall i, (i < n)%nat -> 0 <= f i) -> rsum n f = 0 -> forall i, (i < n)%nat -> f i = 0.
Proof.
  intros H H0 i Hi. revert H H0. induction n as [|n IH]; intros H H0; [lia|]. simpl in H0.
  pose proof (rsum_nonneg n f ltac:(intros; apply H; lia)).
  pose proof (H n ltac:(lia)).
  destruct (Nat.eq_dec i n) as [->|]; [lra|]. apply IH; [lia|intros; apply H; lia|lra].
Qed.

Lemma rlsum_nonneg l : Forall (fun x => 0 <= x) l -> 0 <= rlsum l.
Proof. induction 1; simpl; lra. Qed.
