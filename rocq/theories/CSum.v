(** Finite sums of complex numbers: by index ([csum]) and over lists ([clsum]). *)
From Coq Require Import List ZArith Arith Lia Reals Lra Sorting.Permutation.
From Coquelicot Require Import Complex.
From Verif Require Import Base ListLemmas RSum.
Import ListNotations.
Local Open Scope C_scope.

Fixpoint csum (n : nat) (f : nat -> C) : C :=
  match n with O => RtoC 0 | S k => csum k f + f k end.

Fixpoint clsum (l : list C) : C :=
  match l with [] => RtoC 0 | x :: t => x + clsum t end.

Lemma csum_ext n f g : (forall i, (i < n)%nat -> f i = g i) -> csum n f = csum n g.
Proof.
  induction n as [|n IH]; intros H; simpl; [reflexivity|].
  rewrite IH by (intros; apply H; lia). rewrite H by lia. reflexivity.
Qed.

Lemma csum_zero n (f : nat -> C) : (forall i, (i < n)%nat -> f i = RtoC 0) -> csum n f = RtoC 0.
Proof.
  induction n as [|n IH]; intros H; simpl; [reflexivity|].
  rewrite IH by (intros; apply H; lia). rewrite H by lia. ring.
Qed.

Lemma csum_plus n f g : csum n (fun i => f i + g i) = csum n f + csum n g.
Proof. induction n as [|n IH]; simpl; [ring|]. rewrite IH. ring. Qed.

Lemma csum_minus n f g : csum n (fun i => f i - g i) = csum n f - csum n g.
Proof. induction n as [|n IH]; simpl; [ring|]. rewrite IH. ring. Qed.

Lemma csum_scal_l a n f : csum n (fun i => a * f i) = a * csum n f.
Proof. induction n as [|n IH]; simpl; [ring|]. rewrite IH. ring. Qed.

Lemma csum_scal_r a n f : csum n (fun i => f i * a) = csum n f * a.
Proof. induction n as [|n IH]; simpl; [ring|]. rewrite IH. ring. Qed.

Lemma csum_opp n f : csum n (fun i => - f i) = - csum n f.
Proof. induction n as [|n IH]; simpl; [ring|]. rewrite IH. ring. Qed.

Lemma csum_app n m f : csum (n + m) f = csum n f + csum m (fun i => f (n + i)%nat).
Proof.
  induction m as [|m IH]; simpl.
  - rewrite Nat.add_0_r. ring.
  - rewrite Nat.add_succ_r. simpl. rewrite IH. ring.
Qed.

Lemma csum_S_l n f : csum (S n) f = f 0%nat + csum n (fun i => f (S i)).
Proof. change (S n) with (1 + n)%nat. rewrite csum_app. simpl. ring. Qed.

Lemma csum_swap n m f :
  csum n (fun i => csum m (fun j => f i j)) = csum m (fun j => csum n (fun i => f i j)).
Proof.
  induction n as [|n IH]; simpl.
  - symmetry. apply csum_zero. reflexivity.
  - rewrite IH, <- csum_plus. reflexivity.
Qed.

Lemma csum_single n k (f : nat -> C) :
  (k < n)%nat -> (forall i, (i < n)%nat -> i <> k -> f i = RtoC 0) -> csum n f = f k.
Proof.
  induction n as [|n IH]; intros Hk H; [lia|]. simpl.
  destruct (Nat.eq_dec k n) as [->|Hne].
  - rewrite csum_zero by (intros; apply H; lia). ring.
  - rewrite IH by (try lia; intros; apply H; lia). rewrite (H n) by lia. ring.
Qed.

Lemma csum_rev n f : csum n f = csum n (fun i => f (n - 1 - i)%nat).
Proof.
  revert f. induction n as [|n IH]; intros f; [reflexivity|].
  rewrite csum_S_l. simpl. replace (n - 0 - n)%nat with 0%nat by lia.
  rewrite (IH (fun i => f (S i))).
  rewrite (csum_ext n (fun i => f (n - 0 - i)%nat) (fun i => f (S (n - 1 - i)))).
  - ring.
  - intros i Hi. f_equal. lia.
Qed.

Lemma csum_mult n m f g :
  csum n f * csum m g = csum n (fun i => csum m (fun j => f i * g j)).
Proof.
  rewrite <- csum_scal_r. apply csum_ext. intros i _. rewrite <- csum_scal_l. reflexivity.
Qed.

Lemma clsum_app l l' : clsum (l ++ l') = clsum l + clsum l'.
Proof. induction l as [|x l IH]; simpl; [ring|]. rewrite IH. ring. Qed.

Lemma clsum_perm l l' : Permutation l l' -> clsum l = clsum l'.
Proof. induction 1; simpl; try rewrite IHPermutation; try ring. congruence. Qed.

Lemma clsum_map_seq f n : clsum (map f (seq 0 n)) = csum n f.
Proof.
  induction n as [|n IH]; [reflexivity|].
  rewrite seq_S, map_app, clsum_app, IH. simpl. ring.
Qed.

Lemma clsum_map_seq_s f s n : clsum (map f (seq s n)) = csum n (fun i => f (s + i)%nat).
Proof.
  induction n as [|n IH]; [reflexivity|].
  rewrite seq_S, map_app, clsum_app, IH. simpl. ring.
Qed.

Lemma clsum_map_ext {A} (f g : A -> C) l :
  (forall x, In x l -> f x = g x) -> clsum (map f l) = clsum (map g l).
Proof. intros H. f_equal. apply map_ext_in, H. Qed.

Lemma clsum_map_scal_l {A} a (f : A -> C) l :
  clsum (map (fun x => a * f x) l) = a * clsum (map f l).
Proof. induction l as [|x l IH]; simpl; [ring|]. rewrite IH. ring. Qed.

Lemma clsum_map_plus {A} (f g : A -> C) l :
  clsum (map (fun x => f x + g x) l) = clsum (map f l) + clsum (map g l).
Proof. induction l as [|x l IH]; simpl; [ring|]. rewrite IH. ring. Qed.

Lemma clsum_nth l : clsum l = csum (length l) (fun i => nth i l (RtoC 0)).
Proof.
  rewrite <- clsum_map_seq. f_equal. symmetry.
  apply nth_error_ext. intros i. destruct (le_lt_dec (length l) i).
  - rewrite !(proj2 (nth_error_None _ _)); auto. rewrite map_length, seq_length. lia.
  - rewrite nth_error_map_seq by lia. simpl. symmetry. apply nth_error_nth'. lia.
Qed.

(** ** Conjugation, real and imaginary parts *)

Lemma Cconj_plus x y : Cconj (x + y) = Cconj x + Cconj y.
Proof. unfold Cconj, Cplus. simpl. f_equal. lra. Qed.

Lemma Cconj_mult x y : Cconj (x * y) = Cconj x * Cconj y.
Proof. unfold Cconj, Cmult. simpl. f_equal; lra. Qed.

Lemma Cconj_conj x : Cconj (Cconj x) = x.
Proof. destruct x. unfold Cconj. simpl. f_equal. lra. Qed.

Lemma Cconj_R (x : R) : Cconj (RtoC x) = RtoC x.
Proof. unfold Cconj, RtoC. simpl. f_equal. lra. Qed.

Lemma Cconj_opp x : Cconj (- x) = - Cconj x.
Proof. unfold Cconj, Copp. simpl. f_equal. Qed.

Lemma csum_conj n f : Cconj (csum n f) = csum n (fun i => Cconj (f i)).
Proof.
  induction n as [|n IH]; simpl; [apply Cconj_R|]. rewrite Cconj_plus, IH. reflexivity.
Qed.

Lemma csum_re n f : Re (csum n f) = rsum n (fun i => Re (f i)).
Proof. induction n as [|n IH]; simpl; [reflexivity|]. rewrite <- IH. reflexivity. Qed.

Lemma csum_im n f : Im (csum n f) = rsum n (fun i => Im (f i)).
Proof. induction n as [|n IH]; simpl; [reflexivity|]. rewrite <- IH. reflexivity. Qed.

Lemma csum_RtoC n f : csum n (fun i => RtoC (f i)) = RtoC (rsum n f).
Proof. induction n as [|n IH]; simpl; [reflexivity|]. rewrite IH, RtoC_plus. reflexivity. Qed.

Lemma C_ext (x y : C) : Re x = Re y -> Im x = Im y -> x = y.
Proof. destruct x, y. unfold Re, Im. simpl. congruence. Qed.
