(** * Proofs: a polynomial in finitely many variables attains its minimum on a
    cube. *)
From Coq Require Import List Arith Bool Reals Lia Lra.
From Coquelicot Require Import Complex.
From Verif Require Import Base RSum CSum.
Local Open Scope R_scope.

Definition cube (x : nat -> R) : Prop := forall i, -1 <= x i <= 1.
Definition dist1 (N : nat) (x y : nat -> R) : R := rsum N (fun i => Rabs (x i - y i)).
Definition upd (x : nat -> R) (k : nat) (t : R) : nat -> R := fun i => if Nat.eqb i k then t else x i.

Lemma dist1_nonneg N x y : 0 <= dist1 N x y.
Proof. apply rsum_nonneg. intros. apply Rabs_pos. Qed.
Lemma dist1_sym N x y : dist1 N x y = dist1 N y x.
Proof. apply rsum_ext. intros. apply Rabs_minus_sym. Qed.
Lemma dist1_ext N x y x' y' : (forall i, (i < N)%nat -> x i = x' i) -> (forall i, (i < N)%nat -> y i = y' i) -> dist1 N x y = dist1 N x' y'.
Proof. intros H H'. apply rsum_ext. intros i Hi. rewrite H, H' by exact Hi. reflexivity. Qed.
Lemma dist1_same N x y : (forall i, (i < N)%nat -> x i = y i) -> dist1 N x y = 0.
Proof. intros H. apply rsum_zero. intros i Hi. rewrite H by exact Hi. rewrite Rminus_diag_eq by reflexivity. apply Rabs_R0. Qed.
Lemma dist1_upd n x y s t : dist1 (S n) (upd x n s) (upd y n t) = dist1 n x y + Rabs (s - t).
Proof.
  unfold dist1. cbn [rsum]. f_equal.
  - apply rsum_ext. intros i Hi. unfold upd. rewrite (proj2 (Nat.eqb_neq i n)) by lia. reflexivity.
  - unfold upd. rewrite Nat.eqb_refl. reflexivity.
Qed.

Lemma lipschitz_min : forall N F K, 0 <= K -> (forall x y, Rabs (F x - F y) <= K * dist1 N x y) ->
  exists x, cube x /\ forall y, cube y -> F x <= F y.
Proof.
  induction N as [|n IH]; intros F K HK H.
  - exists (fun _ => 0). split; [intros i; lra|]. intros y _. specialize (H (fun _ => 0) y).
    unfold dist1 in H. cbn [rsum] in H. rewrite Rmult_0_r in H. pose proof (Rabs_pos (F (fun _ => 0) - F y)) as P.
    pose proof (Rle_abs (F (fun _ => 0) - F y)). lra.
  - set (E := fun x r => exists t, -1 <= t <= 1 /\ r = - F (upd x n t)).
    assert (LT : forall x s t, Rabs (F (upd x n s) - F (upd x n t)) <= K * Rabs (s - t)).
    { intros x s t. eapply Rle_trans; [apply H|]. rewrite dist1_upd, (dist1_same n x x) by reflexivity. right. ring. }
    assert (BD : forall x, bound (E x)).
    { intros x. exists (- F (upd x n 0) + K). intros r (t & Ht & ->). specialize (LT x t 0). rewrite Rminus_0_r in LT.
      assert (Rabs t <= 1) by (apply Rabs_le; lra). assert (K * Rabs t <= K * 1) by (apply Rmult_le_compat_l; assumption).
      pose proof (Rle_abs (- (F (upd x n t) - F (upd x n 0)))) as Q. rewrite Rabs_Ropp in Q. lra. }
    assert (NE : forall x, exists r, E x r) by (intros x; exists (- F (upd x n 0)), 0; split; [lra|reflexivity]).
    set (G := fun x => - proj1_sig (completeness (E x) (BD x) (NE x))).
    assert (GL : forall x t, -1 <= t <= 1 -> G x <= F (upd x n t)).
    { intros x t Ht. unfold G. destruct (completeness (E x) (BD x) (NE x)) as [m UL]. cbn [proj1_sig]. pose proof (proj1 UL) as U.
      specialize (U (- F (upd x n t)) (ex_intro _ t (conj Ht eq_refl))). lra. }
    assert (GA : forall x, exists t, -1 <= t <= 1 /\ G x = F (upd x n t)).
    { intros x. destruct (continuity_ab_min (fun t => F (upd x n t)) (-1) 1) as (t & T1 & T2); [lra| |].
      - intros c _. intros eps He. exists (eps / (K + 1)). split; [apply Rdiv_lt_0_compat; lra|].
        intros y [_ Hy]. unfold dist in *. cbn in Hy |- *. unfold R_dist in *. eapply Rle_lt_trans; [apply LT|].
        apply Rle_lt_trans with ((K + 1) * Rabs (y - c)); [apply Rmult_le_compat_r; [apply Rabs_pos|lra]|].
        replace eps with ((K + 1) * (eps / (K + 1))) at 1 by (field; lra). apply Rmult_lt_compat_l; [lra|exact Hy].
      - exists t. split; [exact T2|]. apply Rle_antisym; [apply GL, T2|].
        unfold G. destruct (completeness (E x) (BD x) (NE x)) as [m UL]. cbn [proj1_sig]. pose proof (proj2 UL) as L.
        assert (m <= - F (upd x n t)). { apply L. intros r (s & Hs & ->). specialize (T1 s Hs). cbn beta in T1. lra. } lra. }
    assert (GK : forall x y, G x - G y <= K * dist1 n x y).
    { intros x y. destruct (GA y) as (t & Ht & Ey). pose proof (GL x t Ht) as Gx. pose proof (H (upd x n t) (upd y n t)) as B.
      rewrite dist1_upd, (Rminus_diag_eq t t eq_refl), Rabs_R0, Rplus_0_r in B.
      pose proof (Rle_abs (F (upd x n t) - F (upd y n t))). lra. }
    destruct (IH G K HK) as (x & Hx & Hmin).
    { intros x y. apply Rabs_le. pose proof (GK x y). pose proof (GK y x). rewrite (dist1_sym n y x) in H1. lra. }
    destruct (GA x) as (t & Ht & Ex). exists (upd x n t). split.
    + intros i. unfold upd. destruct (Nat.eqb i n); [exact Ht|apply Hx].
    + intros y Hy. rewrite <- Ex. apply Rle_trans with (G y); [apply Hmin, Hy|]. eapply Rle_trans; [apply (GL y (y n)), Hy|].
      specialize (H (upd y n (y n)) y). rewrite dist1_same in H.
      * rewrite Rmult_0_r in H. pose proof (Rle_abs (F (upd y n (y n)) - F y)). lra.
      * intros i _. unfold upd. destruct (Nat.eqb_spec i n) as [->|]; reflexivity.
Qed.

(** ** Functions that are Lipschitz on the cube *)
Definition lip (N : nat) (F : (nat -> R) -> R) : Prop :=
  exists K, 0 <= K /\ forall x y, cube x -> cube y -> Rabs (F x - F y) <= K * dist1 N x y.

Definition clamp (t : R) : R := Rmax (-1) (Rmin 1 t).
Lemma clamp_range t : -1 <= clamp t <= 1.
Proof. unfold clamp, Rmax, Rmin. destruct (Rle_dec 1 t); destruct (Rle_dec (-1) _); lra. Qed.
Lemma clamp_id t : -1 <= t <= 1 -> clamp t = t.
Proof. intros H. unfold clamp, Rmax, Rmin. destruct (Rle_dec 1 t); destruct (Rle_dec (-1) _); lra. Qed.
Lemma clamp_near s t : Rabs (clamp s - clamp t) <= Rabs (s - t).
Proof.
  unfold clamp, Rmax, Rmin. destruct (Rle_dec 1 s); destruct (Rle_dec 1 t);
    repeat match goal with |- context [Rle_dec (-1) ?x] => destruct (Rle_dec (-1) x) end;
    unfold Rabs; repeat destruct Rcase_abs; lra.
Qed.

Lemma lip_min N F : lip N F -> exists x, cube x /\ forall y, cube y -> F x <= F y.
Proof.
  intros (K & HK & H). set (cl := fun (x : nat -> R) i => clamp (x i)).
  assert (CC : forall x, cube (cl x)) by (intros x i; apply clamp_range).
  destruct (lipschitz_min N (fun x => F (cl x)) K HK) as (x & Hx & Hm).
  - intros x y. eapply Rle_trans; [apply H; apply CC|]. apply Rmult_le_compat_l; [exact HK|]. apply rsum_le. intros i _. apply clamp_near.
  - exists (cl x). split; [apply CC|]. intros y Hy. eapply Rle_trans; [apply (Hm y Hy)|].
    specialize (H (cl y) y (CC y) Hy). rewrite dist1_same in H.
    + rewrite Rmult_0_r in H. pose proof (Rle_abs (F (cl y) - F y)). lra.
    + intros i _. apply clamp_id, Hy.
Qed.

Lemma lip_const N c : lip N (fun _ => c).
Proof. exists 0. split; [lra|]. intros x y _ _. rewrite Rminus_diag_eq, Rabs_R0 by reflexivity. lra. Qed.

Lemma rsum_term N f i : (i < N)%nat -> (forall j, (j < N)%nat -> 0 <= f j) -> f i <= rsum N f.
Proof.
  intros Hi H. assert (E : rsum N (fun j => if Nat.eqb j i then f j else 0) = f i).
  { rewrite (rsum_single N i) by (try exact Hi; intros j _ N'; rewrite (proj2 (Nat.eqb_neq j i) N'); reflexivity). rewrite Nat.eqb_refl. reflexivity. }
  rewrite <- E. apply rsum_le. intros j Hj. destruct (Nat.eqb_spec j i); [lra|apply H, Hj].
Qed.

Lemma lip_coord N i : (i < N)%nat -> lip N (fun x => x i).
Proof.
  intros Hi. exists 1. split; [lra|]. intros x y _ _. rewrite Rmult_1_l.
  apply (rsum_term N (fun i => Rabs (x i - y i)) i Hi). intros. apply Rabs_pos.
Qed.

Lemma lip_ext N F G : (forall x, F x = G x) -> lip N F -> lip N G.
Proof. intros E (K & HK & H). exists K. split; [exact HK|]. intros x y Hx Hy. rewrite <- !E. apply H; assumption. Qed.

Lemma lip_plus N F G : lip N F -> lip N G -> lip N (fun x => F x + G x).
Proof.
  intros (K & HK & H) (K' & HK' & H'). exists (K + K'). split; [lra|]. intros x y Hx Hy. specialize (H x y Hx Hy). specialize (H' x y Hx Hy).
  replace (F x + G x - (F y + G y)) with ((F x - F y) + (G x - G y)) by ring. eapply Rle_trans; [apply Rabs_triang|]. lra.
Qed.

Lemma lip_opp N F : lip N F -> lip N (fun x => - F x).
Proof.
  intros (K & HK & H). exists K. split; [exact HK|]. intros x y Hx Hy. replace (- F x - - F y) with (- (F x - F y)) by ring.
  rewrite Rabs_Ropp. apply H; assumption.
Qed.

Lemma lip_minus N F G : lip N F -> lip N G -> lip N (fun x => F x - G x).
Proof. intros H H'. apply (lip_plus N F (fun x => - G x) H (lip_opp N G H')). Qed.

Lemma lip_bounded N F : lip N F -> exists B, 0 <= B /\ forall x, cube x -> Rabs (F x) <= B.
Proof.
  intros (K & HK & H). exists (Rabs (F (fun _ => 0)) + K * INR N). pose proof (Rabs_pos (F (fun _ => 0))). pose proof (pos_INR N) as PN.
  pose proof (Rmult_le_pos K (INR N) HK PN). split; [lra|]. intros x Hx.
  assert (C0 : cube (fun _ => 0)) by (intros i; lra). specialize (H x _ Hx C0).
  assert (D : dist1 N x (fun _ => 0) <= INR N).
  { unfold dist1. rewrite <- (Rmult_1_r (INR N)), <- rsum_const. apply rsum_le. intros i _. rewrite Rminus_0_r. apply Rabs_le. apply Hx. }
  assert (K * dist1 N x (fun _ => 0) <= K * INR N) by (apply Rmult_le_compat_l; assumption).
  pose proof (Rabs_triang (F x - F (fun _ => 0)) (F (fun _ => 0))) as T.
  replace (F x - F (fun _ => 0) + F (fun _ => 0)) with (F x) in T by ring. lra.
Qed.

Lemma lip_mult N F G : lip N F -> lip N G -> lip N (fun x => F x * G x).
Proof.
  intros HF HG. destruct (lip_bounded N F HF) as (A & HA & BA). destruct (lip_bounded N G HG) as (B & HB & BB).
  destruct HF as (K & HK & H). destruct HG as (K' & HK' & H').
  exists (K * B + A * K'). pose proof (Rmult_le_pos K B HK HB). pose proof (Rmult_le_pos A K' HA HK'). split; [lra|].
  intros x y Hx Hy. specialize (H x y Hx Hy). specialize (H' x y Hx Hy). specialize (BA y Hy). specialize (BB x Hx).
  replace (F x * G x - F y * G y) with ((F x - F y) * G x + F y * (G x - G y)) by ring.
  eapply Rle_trans; [apply Rabs_triang|]. rewrite !Rabs_mult.
  assert (Rabs (F x - F y) * Rabs (G x) <= K * dist1 N x y * B) by (apply Rmult_le_compat; try assumption; apply Rabs_pos).
  assert (Rabs (F y) * Rabs (G x - G y) <= A * (K' * dist1 N x y)) by (apply Rmult_le_compat; try assumption; apply Rabs_pos).
  lra.
Qed.

Lemma lip_sum N m (F : nat -> (nat -> R) -> R) : (forall i, (i < m)%nat -> lip N (F i)) -> lip N (fun x => rsum m (fun i => F i x)).
Proof.
  induction m as [|m IH]; intros H; cbn [rsum]; [apply lip_const|].
  apply (lip_plus N (fun x => rsum m (fun i => F i x)) (F m)); [apply IH; intros; apply H; lia|apply H; lia].
Qed.

(** ** Complex values *)
Definition clip (N : nat) (F : (nat -> R) -> C) : Prop := lip N (fun x => Re (F x)) /\ lip N (fun x => Im (F x)).

Lemma clip_const N c : clip N (fun _ => c).
Proof. split; apply lip_const. Qed.
Lemma clip_mult N F G : clip N F -> clip N G -> clip N (fun x => Cmult (F x) (G x)).
Proof.
  intros [F1 F2] [G1 G2]. split.
  - apply (lip_minus N (fun x => Re (F x) * Re (G x)) (fun x => Im (F x) * Im (G x))); apply lip_mult; assumption.
  - apply (lip_plus N (fun x => Re (F x) * Im (G x)) (fun x => Im (F x) * Re (G x))); apply lip_mult; assumption.
Qed.
Lemma clip_conj N F : clip N F -> clip N (fun x => Cconj (F x)).
Proof. intros [F1 F2]. split; [exact F1|exact (lip_opp _ _ F2)]. Qed.
Lemma clip_sum N m (F : nat -> (nat -> R) -> C) : (forall i, (i < m)%nat -> clip N (F i)) -> clip N (fun x => csum m (fun i => F i x)).
Proof.
  intros H. split.
  - apply (lip_ext N (fun x => rsum m (fun i => Re (F i x)))); [intros x; symmetry; apply csum_re|]. apply (lip_sum N m (fun i x => Re (F i x))). intros i Hi. apply H, Hi.
  - apply (lip_ext N (fun x => rsum m (fun i => Im (F i x)))); [intros x; symmetry; apply csum_im|]. apply (lip_sum N m (fun i x => Im (F i x))). intros i Hi. apply H, Hi.
Qed.
