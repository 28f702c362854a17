(** The three matrix constructions with failing workers. *)
From Coq Require Import List ZArith Arith Bool Reals Lia Lra.
From Coquelicot Require Import Complex.
From Verif Require Import Base RSum CSum Parallel ParallelProofs Machine MachineProofs Job JobProofs
  Fault FaultProofs Index IndexProofs Wigner PolarMatrix SpecPolar PolarMatrixProofs
  Integration ArbitraryMatrix ArbitraryMatrixProofs.
Import ListNotations.

Section Polar.
  Variable L m ncpu : nat.
  Variable gap : bool.
  Variable ylm_edge : nat -> R.
  Hypothesis m_lt : m < L.
  Hypothesis ncpu_pos : 0 < ncpu.
  Variable Pl : list R.
  Variable emm : list Z.
  Hypothesis emm_ok : create_emm_vector L = Ok emm.
  Hypothesis Pl_ok : legendre_table L ylm_edge emm = Ok Pl.
  Variable faults : nat -> option (nat * exn).
  Variable garbage : nat -> nat -> nat -> R.
  Notation run sched := (faulty_run 1 (dm_matrix_helper L gap m Pl) (fun _ => tt) (L - m) ncpu faults garbage sched).

  Lemma Pl_edge : exists P : Z -> R, forall n, n < 2 * L -> nth_error Pl n = Some (P (Z.of_nat n)).
  Proof.
    destruct (edge_values_exist L ylm_edge) as [P HP]. exists P.
    rewrite (legendre_table_ok L ylm_edge emm emm_ok) in Pl_ok. injection Pl_ok as <-.
    exact (edge_table L ylm_edge P HP).
  Qed.

  Lemma polar_fault_safe sched :
    pfail (par (run sched)) = None /\
    forall k t e, nth_error (pool (run sched)) k = Some t -> failed t = Some e ->
      exists c, faults k = Some (c, e).
  Proof.
    destruct Pl_edge as [P HP].
    exact (job_fault_safe (L - m) 1 (fun _ => tt) _ (pOwn L m) (pOwn L m) (pval m gap P)
      (pOwn_disjoint L m Pl m_lt P HP ncpu ncpu_pos garbage) ltac:(auto) (dm_seg_ok L m gap Pl m_lt P HP ncpu ncpu_pos garbage)
      (dm_seg_frame L m gap Pl m_lt P HP ncpu ncpu_pos garbage) (dm_seg_value L m gap Pl m_lt P HP ncpu ncpu_pos garbage) ncpu ltac:(lia) ncpu_pos
      faults garbage sched).
  Qed.

  Lemma polar_fault_result sched : finished (run sched) ->
    exists a, outcome (run sched) = Ok a /\
      (forall k ch i r c cut e, nth_error (split_arr_into_chunks (L - m) ncpu) k = Some ch -> In i ch ->
         faults k = Some (cut, e) -> cut <= 1 -> r < L - m -> c < L - m -> Nat.min r c = i ->
         a 0 r c = 0%R).
  Proof.
    intros Hf. destruct Pl_edge as [P HP].
    destruct (job_fault_result (L - m) 1 (fun _ => tt) _ (pOwn L m) (pOwn L m) (pval m gap P)
      (pOwn_disjoint L m Pl m_lt P HP ncpu ncpu_pos garbage) ltac:(auto) (dm_seg_ok L m gap Pl m_lt P HP ncpu ncpu_pos garbage)
      (dm_seg_frame L m gap Pl m_lt P HP ncpu ncpu_pos garbage) (dm_seg_value L m gap Pl m_lt P HP ncpu ncpu_pos garbage) ncpu ltac:(lia) ncpu_pos
      faults garbage sched Hf) as ((a & Ho & _ & H0) & _).
    exists a. split; [exact Ho|]. intros k ch i r c cut e Hk Hi Hfk Hcut Hr Hc Hm.
    eapply (H0 k ch i 0 r c cut e); eauto. unfold pOwn. auto.
  Qed.
End Polar.

Section Arb.
  Variable L ns : nat.
  Variable mask weight : nat -> R.
  Variable harmonic : nat -> nat -> C.
  Variable ncpu : nat.
  Hypothesis L_pos : 0 < L.
  Hypothesis ncpu_pos : 0 < ncpu.
  Variable faults : nat -> option (nat * exn).
  Variable garbage : nat -> nat -> nat -> R.
  Notation run sched := (faulty_run 2 (matrix_helper L ns mask weight) harmonic (L * L) ncpu faults garbage sched).

  Lemma arb_fault_safe sched :
    pfail (par (run sched)) = None /\
    forall k t e, nth_error (pool (run sched)) k = Some t -> failed t = Some e ->
      exists c, faults k = Some (c, e).
  Proof.
    exact (job_fault_safe (L * L) 2 harmonic _ (aOwn L) (aDet L) (aval ns mask weight harmonic)
      (aOwn_disjoint L mask weight harmonic) (aDet_Own L mask weight harmonic) (helper_ok L ns mask weight harmonic)
      (helper_frame L ns mask weight harmonic) (helper_value L ns mask weight harmonic)
      ncpu ltac:(nia) ncpu_pos faults garbage sched).
  Qed.

  Lemma arb_fault_result sched : finished (run sched) ->
    exists a, outcome (run sched) = Ok a /\
      (forall k ch i r c cut e, nth_error (split_arr_into_chunks (L * L) ncpu) k = Some ch -> In i ch ->
         faults k = Some (cut, e) -> cut <= 2 -> r < L * L -> c = i ->
         a 0 r c = 0%R /\ a 1 r c = 0%R).
  Proof.
    intros Hf.
    destruct (job_fault_result (L * L) 2 harmonic _ (aOwn L) (aDet L) (aval ns mask weight harmonic)
      (aOwn_disjoint L mask weight harmonic) (aDet_Own L mask weight harmonic) (helper_ok L ns mask weight harmonic)
      (helper_frame L ns mask weight harmonic) (helper_value L ns mask weight harmonic)
      ncpu ltac:(nia) ncpu_pos faults garbage sched Hf) as ((a & Ho & _ & H0) & _).
    exists a. split; [exact Ho|]. intros k ch i r c cut e Hk Hi Hfk Hcut Hr ->.
    split; [eapply (H0 k ch i 0 r i cut e)|eapply (H0 k ch i 1 r i cut e)]; eauto; unfold aOwn; auto.
  Qed.
End Arb.

Section Mesh.
  Variable nbasis nv : nat.
  Variable region : nat -> bool.
  Variable basis : nat -> nat -> R.
  Variable ncpu : nat.
  Hypothesis nbasis_pos : 0 < nbasis.
  Hypothesis ncpu_pos : 0 < ncpu.
  Variable faults : nat -> option (nat * exn).
  Variable garbage : nat -> nat -> nat -> R.
  Notation run sched := (faulty_run 1 (fill_D_elements nbasis nv region basis) (fun _ => tt) nbasis ncpu faults garbage sched).

  Lemma mesh_fault_safe sched :
    pfail (par (run sched)) = None /\
    forall k t e, nth_error (pool (run sched)) k = Some t -> failed t = Some e ->
      exists c, faults k = Some (c, e).
  Proof.
    exact (job_fault_safe nbasis 1 (fun _ => tt) _ (mOwn nbasis) (mOwn nbasis) (mval nv region basis)
      (mOwn_disjoint nbasis region basis) ltac:(auto) (mseg_ok nbasis nv region basis)
      (mseg_frame nbasis nv region basis) (mseg_value nbasis nv region basis)
      ncpu nbasis_pos ncpu_pos faults garbage sched).
  Qed.

  Lemma mesh_fault_result sched : finished (run sched) ->
    exists a, outcome (run sched) = Ok a /\
      (forall k ch i r c, nth_error (split_arr_into_chunks nbasis ncpu) k = Some ch -> In i ch ->
         faults k = None -> c = i -> i <= r < nbasis -> a 0 r c = mesh_integral nv region basis r c) /\
      (forall k ch i r c cut e, nth_error (split_arr_into_chunks nbasis ncpu) k = Some ch -> In i ch ->
         faults k = Some (cut, e) -> cut <= 1 -> c = i -> i <= r < nbasis -> a 0 r c = 0%R).
  Proof.
    intros Hf.
    destruct (job_fault_result nbasis 1 (fun _ => tt) _ (mOwn nbasis) (mOwn nbasis) (mval nv region basis)
      (mOwn_disjoint nbasis region basis) ltac:(auto) (mseg_ok nbasis nv region basis)
      (mseg_frame nbasis nv region basis) (mseg_value nbasis nv region basis)
      ncpu nbasis_pos ncpu_pos faults garbage sched Hf) as ((a & Ho & H1 & H0) & _).
    exists a. split; [exact Ho|]. split.
    - intros k ch i r c Hk Hi Hfk -> Hr. apply (H1 k ch i 0 r i); auto. unfold mOwn. lia.
    - intros k ch i r c cut e Hk Hi Hfk Hcut -> Hr.
      eapply (H0 k ch i 0 r i cut e); eauto. unfold mOwn. lia.
  Qed.
End Mesh.

(** ** Hermitian completion *)
Lemma fill_upper_lower n M r c : c <= r -> fill_upper n M r c = M r c.
Proof. intros H. unfold fill_upper. destruct (Nat.ltb_spec r c); [lia|reflexivity]. Qed.
Lemma fill_upper_upper n M r c : r < c < n -> fill_upper n M r c = Cconj (M c r).
Proof.
  intros H. unfold fill_upper. destruct (Nat.ltb_spec r c); [|lia].
  destruct (Nat.ltb_spec c n); [reflexivity|lia].
Qed.
Lemma fill_upper_idem n M r c : r < n -> c < n ->
  fill_upper n (fill_upper n M) r c = fill_upper n M r c.
Proof.
  intros Hr Hc. destruct (le_lt_dec c r) as [H|H].
  - rewrite fill_upper_lower by exact H. reflexivity.
  - rewrite (fill_upper_upper n (fill_upper n M)) by lia. rewrite fill_upper_lower by lia.
    rewrite fill_upper_upper by lia. reflexivity.
Qed.
Lemma fill_upper_ext n M M' : (forall r c, c <= r -> M r c = M' r c) ->
  forall r c, r < n -> c < n -> fill_upper n M r c = fill_upper n M' r c.
Proof.
  intros H r c Hr Hc. destruct (le_lt_dec c r).
  - rewrite !fill_upper_lower by assumption. auto.
  - rewrite !fill_upper_upper by lia. rewrite H by lia. reflexivity.
Qed.
Lemma conj_real (z : C) : Cconj z = z <-> Im z = 0%R.
Proof.
  destruct z as [x y]. unfold Cconj, Im. simpl. split; intros H.
  - injection H as H. lra.
  - subst y. f_equal. ring.
Qed.
Lemma fill_upper_hermitian n M :
  (forall r c, r < n -> c < n -> fill_upper n M r c = Cconj (fill_upper n M c r)) <->
  (forall r, r < n -> Im (M r r) = 0%R).
Proof.
  split.
  - intros H r Hr. specialize (H r r Hr Hr). rewrite fill_upper_lower in H by lia.
    apply conj_real. symmetry. exact H.
  - intros H r c Hr Hc. destruct (lt_eq_lt_dec r c) as [[Hlt| ->]|Hgt].
    + rewrite fill_upper_upper, fill_upper_lower by lia. reflexivity.
    + rewrite fill_upper_lower by lia. symmetry. apply conj_real. auto.
    + rewrite fill_upper_lower by lia. rewrite fill_upper_upper by lia.
      rewrite Cconj_conj. reflexivity.
Qed.
