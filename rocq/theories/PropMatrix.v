(** C02, C03, C04, C06, C07, C18, C35, C45: the matrices behind the Slepian
    eigenproblems and the threads that build them. *)
From Coq Require Import List ZArith Arith Bool Reals Lia Lra.
From Coquelicot Require Import Complex.
From Verif Require Import Base RSum CSum Parallel Machine MachineProofs Job Fault FaultProofs
  Index Wigner SpecWigner WignerProofs PolarMatrix SpecPolar PolarMatrixProofs
  Integration ArbitraryMatrix ArbitraryMatrixProofs MatrixFaultProofs.
Import ListNotations.

(** ** C02 polar cap *)

(** Whatever the number of workers, their interleaving with each other and
    with the caller, and the previous contents of memory: a finished run
    returns the matrix of the published formula. [ylm_edge] are the harmonics
    at the edge of the cap, [P] the Legendre polynomials there. *)
Theorem C02_polar_matrix_any_schedule :
  forall L m gap ylm_edge P ncpu garbage sched y,
  m < L -> 0 < ncpu ->
  (forall n, n < 2 * L ->
     ylm_edge (n * n + n) = (sqrt ((2 * INR n + 1) / (4 * PI)) * P (Z.of_nat n))%R) ->
  dm_state L gap ylm_edge m ncpu garbage sched = Ok y -> finished y ->
  exists D, create_Dm_matrix L gap ylm_edge m ncpu garbage sched = Ok D /\
    forall r c, r < L - m -> c < L - m ->
      D r c = polar_entry gap P (Z.of_nat m)
                (Z.of_nat (m + Nat.min r c)) (Z.of_nat (m + Nat.max r c)).
Proof. exact create_Dm_matrix_spec. Qed.
Print Assumptions C02_polar_matrix_any_schedule.

(** No schedule makes anybody fail, and every partial schedule can be
    continued to the end. *)
Theorem C02_polar_never_fails : forall L m gap ylm_edge ncpu garbage sched,
  m < L -> 0 < ncpu ->
  exists y, dm_state L gap ylm_edge m ncpu garbage sched = Ok y /\
    pfail (par y) = None /\ Forall (fun t => failed t = None) (pool y).
Proof. exact dm_state_safe. Qed.
Print Assumptions C02_polar_never_fails.

Theorem C02_polar_can_finish : forall L m gap ylm_edge ncpu garbage sched,
  exists sched' y, dm_state L gap ylm_edge m ncpu garbage (sched ++ sched') = Ok y /\ finished y.
Proof. exact dm_state_completable. Qed.
Print Assumptions C02_polar_can_finish.

(** Two runs with different worker counts and schedules agree, and the matrix
    is symmetric. *)
Theorem C02_polar_schedule_independent :
  forall L m gap ylm_edge ncpu1 ncpu2 g1 g2 s1 s2 y1 y2,
  m < L -> 0 < ncpu1 -> 0 < ncpu2 ->
  dm_state L gap ylm_edge m ncpu1 g1 s1 = Ok y1 -> finished y1 ->
  dm_state L gap ylm_edge m ncpu2 g2 s2 = Ok y2 -> finished y2 ->
  exists D1 D2,
    create_Dm_matrix L gap ylm_edge m ncpu1 g1 s1 = Ok D1 /\
    create_Dm_matrix L gap ylm_edge m ncpu2 g2 s2 = Ok D2 /\
    forall r c, r < L - m -> c < L - m -> D1 r c = D2 r c /\ D1 r c = D1 c r.
Proof.
  intros L m gap ylm ncpu1 ncpu2 g1 g2 s1 s2 y1 y2 Hm H1 H2 E1 F1 E2 F2.
  destruct (edge_values_exist L ylm) as [P HP].
  destruct (create_Dm_matrix_spec L m gap ylm P ncpu1 g1 s1 y1 Hm H1 HP E1 F1) as (D1 & A1 & B1).
  destruct (create_Dm_matrix_spec L m gap ylm P ncpu2 g2 s2 y2 Hm H2 HP E2 F2) as (D2 & A2 & B2).
  exists D1, D2. split; [exact A1|]. split; [exact A2|]. intros r c Hr Hc. split.
  - rewrite B1, B2 by assumption. reflexivity.
  - rewrite !B1 by assumption. rewrite Nat.min_comm, Nat.max_comm. reflexivity.
Qed.
Print Assumptions C02_polar_schedule_independent.

(** The hypotheses are met: bandlimit 2, order 0, two workers, run to the end. *)
Example C02_instance : exists sched y,
  dm_state 2 false (fun i => INR i) 0 2 (fun _ _ _ => 0%R) sched = Ok y /\ finished y.
Proof.
  destruct (C02_polar_can_finish 2 0 false (fun i => INR i) 2 (fun _ _ _ => 0%R) [])
    as (s & y & H). exists s, y. exact H.
Qed.

(** ** C03 arbitrary region on the sphere *)

(** For every schedule the matrix handed to the eigensolver holds the
    quadrature inner products of the harmonics over the region, in spite of
    the shared dictionary of fields and the order-zero short cut. *)
Theorem C03_arbitrary_matrix_any_schedule :
  forall L ns mask weight harmonic ncpu,
  0 < L -> 0 < ncpu -> forall garbage,
  (forall el m s, el < L -> (Z.abs m <= Z.of_nat el)%Z ->
     harmonic (elm2ind el (- m)) s = (RtoC (pm1 m) * Cconj (harmonic (elm2ind el m) s))%C) ->
  forall sched,
  finished (arbitrary_job L ns mask weight harmonic ncpu garbage sched) ->
  exists D, solved_D_matrix L ns mask weight harmonic ncpu garbage sched = Ok D /\
    forall a b, a < L * L -> b < L * L ->
      D a b = csum ns (fun s =>
        (RtoC (mask s * weight s) * harmonic a s * Cconj (harmonic b s))%C).
Proof. exact solved_D_matrix_spec. Qed.
Print Assumptions C03_arbitrary_matrix_any_schedule.

Theorem C03_arbitrary_never_fails : forall L ns mask weight harmonic ncpu,
  0 < L -> 0 < ncpu -> forall garbage sched,
  let y := arbitrary_job L ns mask weight harmonic ncpu garbage sched in
  pfail (par y) = None /\ Forall (fun t => failed t = None) (pool y).
Proof. exact arb_safe. Qed.
Print Assumptions C03_arbitrary_never_fails.

Theorem C03_arbitrary_can_finish : forall L ns mask weight harmonic ncpu garbage sched,
  exists sched', finished (arbitrary_job L ns mask weight harmonic ncpu garbage (sched ++ sched')).
Proof.
  intros. apply completable.
Qed.
Print Assumptions C03_arbitrary_can_finish.

(** The symmetry hypothesis is met by fields that are not all real. *)
Example C03_instance :
  let harmonic (k s : nat) : C :=
    let (el, m) := ind2elm k in
    if (m =? 0)%Z then RtoC 1 else if (0 <? m)%Z then (1, 1)%R else (RtoC (pm1 m) * (1, -1)%R)%C in
  (forall el m s, el < 2 -> (Z.abs m <= Z.of_nat el)%Z ->
     harmonic (elm2ind el (- m)) s = (RtoC (pm1 m) * Cconj (harmonic (elm2ind el m) s))%C) /\
  exists sched, finished (arbitrary_job 2 3 (fun _ => 1%R) (fun _ => 1%R) harmonic 3 (fun _ _ _ => 5%R) sched).
Proof.
  split; [|exact (C03_arbitrary_can_finish 2 3 _ _ _ 3 _ [])].
  intros el m s Hel Hm. cbv zeta.
  rewrite !IndexProofs.ind2elm_elm2ind by lia.
  assert (Hc : (m = 0 \/ m = 1 \/ m = -1)%Z) by lia.
  destruct Hc as [->|[->| ->]]; unfold pm1; simpl; unfold Cconj, Cmult, RtoC; simpl;
    f_equal; ring.
Qed.

(** ** C04 region on a mesh *)
Theorem C04_mesh_matrix_any_schedule : forall nbasis nv region basis ncpu,
  0 < nbasis -> 0 < ncpu -> forall garbage sched,
  finished (mesh_job nbasis nv region basis ncpu garbage sched) ->
  exists D, mesh_D_matrix nbasis nv region basis ncpu garbage sched = Ok D /\
    forall a b, a < nbasis -> b < nbasis ->
      D a b = rsum nv (fun v => if region v then basis a v * basis b v else 0)%R.
Proof. exact mesh_D_matrix_spec. Qed.
Print Assumptions C04_mesh_matrix_any_schedule.

Theorem C04_mesh_never_fails : forall nbasis nv region basis ncpu,
  0 < nbasis -> 0 < ncpu -> forall garbage sched,
  let y := mesh_job nbasis nv region basis ncpu garbage sched in
  pfail (par y) = None /\ Forall (fun t => failed t = None) (pool y).
Proof. exact mesh_safe. Qed.
Print Assumptions C04_mesh_never_fails.

Theorem C04_mesh_can_finish : forall nbasis nv region basis ncpu garbage sched,
  exists sched', finished (mesh_job nbasis nv region basis ncpu garbage (sched ++ sched')).
Proof. intros. apply completable. Qed.
Print Assumptions C04_mesh_can_finish.

Example C04_instance : exists sched,
  finished (mesh_job 3 4 (fun v => Nat.even v) (fun i v => INR (i + v)) 2 (fun _ _ _ => 7%R) sched).
Proof. exact (C04_mesh_can_finish 3 4 _ _ 2 _ []). Qed.

(** ** C06 failing workers *)

(** A worker's exception never reaches the caller: for every set of injected
    failures and every schedule, the caller gets a matrix. *)
Theorem C06_polar_failure_not_reported :
  forall L m ncpu gap ylm_edge, m < L -> 0 < ncpu -> forall Pl emm,
  create_emm_vector L = Ok emm -> legendre_table L ylm_edge emm = Ok Pl ->
  forall faults garbage sched,
  let y := faulty_run 1 (dm_matrix_helper L gap m Pl) (fun _ => tt) (L - m) ncpu faults garbage sched in
  finished y ->
  exists a, outcome y = Ok a /\
    forall k ch i r c cut e,
      nth_error (split_arr_into_chunks (L - m) ncpu) k = Some ch -> In i ch ->
      faults k = Some (cut, e) -> cut <= 1 ->
      r < L - m -> c < L - m -> Nat.min r c = i -> a 0 r c = 0%R.
Proof. exact polar_fault_result. Qed.
Print Assumptions C06_polar_failure_not_reported.

Theorem C06_arbitrary_failure_not_reported :
  forall L ns mask weight harmonic ncpu, 0 < L -> 0 < ncpu ->
  forall faults garbage sched,
  let y := faulty_run 2 (matrix_helper L ns mask weight) harmonic (L * L) ncpu faults garbage sched in
  finished y ->
  exists a, outcome y = Ok a /\
    forall k ch i r c cut e,
      nth_error (split_arr_into_chunks (L * L) ncpu) k = Some ch -> In i ch ->
      faults k = Some (cut, e) -> cut <= 2 -> r < L * L -> c = i ->
      a 0 r c = 0%R /\ a 1 r c = 0%R.
Proof. exact arb_fault_result. Qed.
Print Assumptions C06_arbitrary_failure_not_reported.

Theorem C06_mesh_failure_not_reported :
  forall nbasis nv region basis ncpu, 0 < nbasis -> 0 < ncpu ->
  forall faults garbage sched,
  let y := faulty_run 1 (fill_D_elements nbasis nv region basis) (fun _ => tt) nbasis ncpu
             faults garbage sched in
  finished y ->
  exists a, outcome y = Ok a /\
    (forall k ch i r c, nth_error (split_arr_into_chunks nbasis ncpu) k = Some ch -> In i ch ->
       faults k = None -> c = i -> i <= r < nbasis -> a 0 r c = mesh_integral nv region basis r c) /\
    (forall k ch i r c cut e, nth_error (split_arr_into_chunks nbasis ncpu) k = Some ch -> In i ch ->
       faults k = Some (cut, e) -> cut <= 1 -> c = i -> i <= r < nbasis -> a 0 r c = 0%R).
Proof. exact mesh_fault_result. Qed.
Print Assumptions C06_mesh_failure_not_reported.

(** The expected property is false: a worker that cannot attach leaves a zero
    where the inner product is one, and the caller returns normally. *)
Theorem C06_failing_worker_raises_refuted :
  exists sched a,
    let y := faulty_run 1 (fill_D_elements 1 1 (fun _ => true) (fun _ _ => 1%R)) (fun _ => tt) 1 1
               (fun _ => Some (0, RuntimeError)) (fun _ _ _ => 0%R) sched in
    finished y /\ Exists (fun t => failed t <> None) (pool y) /\
    outcome y = Ok a /\ a 0 0 0 = 0%R /\
    rsum 1 (fun v => if true then 1 * 1 else 0)%R = 1%R.
Proof.
  exists [Caller; Caller; Worker 0; Caller; Caller; Caller; Caller]. eexists. cbv zeta.
  split; [reflexivity|]. split; [constructor; simpl; discriminate|].
  split; [reflexivity|]. split; [reflexivity|]. simpl. ring.
Qed.
Print Assumptions C06_failing_worker_raises_refuted.

(** ** C07 shared memory protocol *)

(** With any injected failures, a worker only ever ends with the exception
    injected into it: no access through a closed mapping ([Segfault]), no
    attaching after release ([FileNotFoundError]), no missing key
    ([KeyError]), no index error; and the caller's own steps never fail, so
    each block is released exactly once. *)
Theorem C07_polar_protocol_safe :
  forall L m ncpu gap ylm_edge, m < L -> 0 < ncpu -> forall Pl emm,
  create_emm_vector L = Ok emm -> legendre_table L ylm_edge emm = Ok Pl ->
  forall faults garbage sched,
  let y := faulty_run 1 (dm_matrix_helper L gap m Pl) (fun _ => tt) (L - m) ncpu faults garbage sched in
  pfail (par y) = None /\
  forall k t e, nth_error (pool y) k = Some t -> failed t = Some e ->
    exists c, faults k = Some (c, e).
Proof. exact polar_fault_safe. Qed.
Print Assumptions C07_polar_protocol_safe.

Theorem C07_arbitrary_protocol_safe :
  forall L ns mask weight harmonic ncpu, 0 < L -> 0 < ncpu ->
  forall faults garbage sched,
  let y := faulty_run 2 (matrix_helper L ns mask weight) harmonic (L * L) ncpu faults garbage sched in
  pfail (par y) = None /\
  forall k t e, nth_error (pool y) k = Some t -> failed t = Some e ->
    exists c, faults k = Some (c, e).
Proof. exact arb_fault_safe. Qed.
Print Assumptions C07_arbitrary_protocol_safe.

Theorem C07_mesh_protocol_safe :
  forall nbasis nv region basis ncpu, 0 < nbasis -> 0 < ncpu ->
  forall faults garbage sched,
  let y := faulty_run 1 (fill_D_elements nbasis nv region basis) (fun _ => tt) nbasis ncpu
             faults garbage sched in
  pfail (par y) = None /\
  forall k t e, nth_error (pool y) k = Some t -> failed t = Some e ->
    exists c, faults k = Some (c, e).
Proof. exact mesh_fault_safe. Qed.
Print Assumptions C07_mesh_protocol_safe.

(** For any worker code at all: while some worker still runs, the caller has
    copied nothing, and every block exists and is mapped by the caller. *)
Theorem C07_caller_waits :
  forall (F : Type) dim (compute : nat -> F) nb codes sched garbage,
  let y := run_system dim compute nb codes sched (init_system nb garbage) in
  (exists t, In t (pool y) /\ code t <> []) ->
  pcopy (par y) = None /\
  forall b, b < nb -> linked (sh y) b = true /\ pmapped (par y) b = true.
Proof. intros F. exact caller_waits. Qed.
Print Assumptions C07_caller_waits.

(** When no worker fails everything is closed and released at the end. *)
Theorem C07_polar_clean_exit : forall L m gap ylm_edge ncpu garbage sched y,
  m < L -> 0 < ncpu ->
  dm_state L gap ylm_edge m ncpu garbage sched = Ok y -> finished y ->
  Forall (fun t => code t = [] /\ failed t = None /\ forall b, mapped (tloc t) b = false) (pool y) /\
  (forall b, pmapped (par y) b = false) /\ (forall b, b < 1 -> linked (sh y) b = false).
Proof. exact dm_state_clean. Qed.
Print Assumptions C07_polar_clean_exit.

Theorem C07_arbitrary_clean_exit : forall L ns mask weight harmonic ncpu,
  0 < L -> 0 < ncpu -> forall garbage sched,
  let y := arbitrary_job L ns mask weight harmonic ncpu garbage sched in
  finished y ->
  Forall (fun t => code t = [] /\ failed t = None /\ forall b, mapped (tloc t) b = false) (pool y) /\
  (forall b, pmapped (par y) b = false) /\ (forall b, b < 2 -> linked (sh y) b = false).
Proof.
  intros L ns mask weight h ncpu HL Hn g sched y Hf.
  exact (proj2 (arb_result L ns mask weight h ncpu HL Hn g sched Hf)).
Qed.
Print Assumptions C07_arbitrary_clean_exit.

Theorem C07_mesh_clean_exit : forall nbasis nv region basis ncpu,
  0 < nbasis -> 0 < ncpu -> forall garbage sched,
  let y := mesh_job nbasis nv region basis ncpu garbage sched in
  finished y ->
  Forall (fun t => code t = [] /\ failed t = None /\ forall b, mapped (tloc t) b = false) (pool y) /\
  (forall b, pmapped (par y) b = false) /\ (forall b, b < 1 -> linked (sh y) b = false).
Proof.
  intros nb nv region basis ncpu HL Hn g sched y Hf.
  exact (proj2 (mesh_result nb nv region basis ncpu HL Hn g sched Hf)).
Qed.
Print Assumptions C07_mesh_clean_exit.

(** A failing worker leaks its mapping: the block is released with one mapping
    still open. *)
Theorem C07_mapping_closed_on_failure_refuted :
  exists sched,
    let y := faulty_run 1 (fill_D_elements 1 1 (fun _ => true) (fun _ _ => 1%R)) (fun _ => tt) 1 1
               (fun _ => Some (1, RuntimeError)) (fun _ _ _ => 0%R) sched in
    finished y /\ Exists (fun t => mapped (tloc t) 0 = true) (pool y) /\ linked (sh y) 0 = false.
Proof.
  exists [Caller; Caller; Worker 0; Worker 0; Caller; Caller; Caller; Caller]. cbv zeta.
  split; [reflexivity|]. split; [constructor; reflexivity|reflexivity].
Qed.
Print Assumptions C07_mapping_closed_on_failure_refuted.

(** ** C18 Hermitian completion *)
Theorem C18_lower_kept : forall n M r c, c <= r -> fill_upper n M r c = M r c.
Proof. exact fill_upper_lower. Qed.
Print Assumptions C18_lower_kept.
Theorem C18_upper_is_conjugate : forall n M r c, r < c < n -> fill_upper n M r c = Cconj (M c r).
Proof. exact fill_upper_upper. Qed.
Print Assumptions C18_upper_is_conjugate.
Theorem C18_idempotent : forall n M r c, r < n -> c < n ->
  fill_upper n (fill_upper n M) r c = fill_upper n M r c.
Proof. exact fill_upper_idem. Qed.
Print Assumptions C18_idempotent.
Theorem C18_ignores_upper : forall n M M', (forall r c, c <= r -> M r c = M' r c) ->
  forall r c, r < n -> c < n -> fill_upper n M r c = fill_upper n M' r c.
Proof. exact fill_upper_ext. Qed.
Print Assumptions C18_ignores_upper.
Theorem C18_hermitian_iff_real_diagonal : forall n M,
  (forall r c, r < n -> c < n -> fill_upper n M r c = Cconj (fill_upper n M c r)) <->
  (forall r, r < n -> Im (M r r) = 0%R).
Proof. exact fill_upper_hermitian. Qed.
Print Assumptions C18_hermitian_iff_real_diagonal.

(** ** C35 Wigner 3j *)

(** No argument makes the routine fail (no factorial of a negative number). *)
Theorem C35_total : forall l1 l2 l3 m1 m2 m3, exists x, wigner3j l1 l2 l3 m1 m2 m3 = Ok x.
Proof. exact wigner3j_total. Qed.
Print Assumptions C35_total.
Theorem C35_zero_outside_selection : forall l1 l2 l3 m1 m2 m3,
  ~ selection l1 l2 l3 m1 m2 m3 -> wigner3j l1 l2 l3 m1 m2 m3 = Ok 0%R.
Proof. exact wigner3j_zero. Qed.
Print Assumptions C35_zero_outside_selection.
Theorem C35_racah : forall l1 l2 l3 m1 m2 m3,
  selection l1 l2 l3 m1 m2 m3 -> wigner3j l1 l2 l3 m1 m2 m3 = Ok (racah l1 l2 l3 m1 m2 m3).
Proof. exact wigner3j_racah. Qed.
Print Assumptions C35_racah.
Theorem C35_column_swap : forall l1 l2 l3 m1 m2 m3 x,
  wigner3j l1 l2 l3 m1 m2 m3 = Ok x ->
  wigner3j l2 l1 l3 m2 m1 m3 = Ok (pm1 (l1 + l2 + l3) * x)%R.
Proof. exact wigner3j_swap. Qed.
Print Assumptions C35_column_swap.
Theorem C35_reflection : forall l1 l2 l3 m1 m2 m3 x,
  wigner3j l1 l2 l3 m1 m2 m3 = Ok x ->
  wigner3j l1 l2 l3 (- m1) (- m2) (- m3) = Ok (pm1 (l1 + l2 + l3) * x)%R.
Proof. exact wigner3j_reflect. Qed.
Print Assumptions C35_reflection.
Theorem C35_parity : forall l1 l2 l3,
  Z.odd (l1 + l2 + l3) = true -> wigner3j l1 l2 l3 0 0 0 = Ok 0%R.
Proof. exact wigner3j_parity. Qed.
Print Assumptions C35_parity.

(** A case inside the selection rules. *)
Example C35_instance : selection 1 1 2 1 (-1) 0.
Proof. unfold selection. lia. Qed.

(** ** C45 polar gap *)

(** The matrix of a gap against the matrix of one cap with the same edge. *)
Theorem C45_gap_doubles_even_kills_odd :
  forall L m ylm_edge ncpu1 ncpu2 g1 g2 s1 s2 y1 y2,
  m < L -> 0 < ncpu1 -> 0 < ncpu2 ->
  dm_state L false ylm_edge m ncpu1 g1 s1 = Ok y1 -> finished y1 ->
  dm_state L true ylm_edge m ncpu2 g2 s2 = Ok y2 -> finished y2 ->
  exists cap gap,
    create_Dm_matrix L false ylm_edge m ncpu1 g1 s1 = Ok cap /\
    create_Dm_matrix L true ylm_edge m ncpu2 g2 s2 = Ok gap /\
    forall r c, r < L - m -> c < L - m ->
      gap r c = (if Nat.even ((m + r) + (m + c)) then 2 * cap r c else 0)%R.
Proof.
  intros L m ylm n1 n2 g1 g2 s1 s2 y1 y2 Hm H1 H2 E1 F1 E2 F2.
  destruct (edge_values_exist L ylm) as [P HP].
  destruct (create_Dm_matrix_spec L m false ylm P n1 g1 s1 y1 Hm H1 HP E1 F1) as (D1 & A1 & B1).
  destruct (create_Dm_matrix_spec L m true ylm P n2 g2 s2 y2 Hm H2 HP E2 F2) as (D2 & A2 & B2).
  exists D1, D2. split; [exact A1|]. split; [exact A2|]. intros r c Hr Hc.
  rewrite B1, B2 by assumption. unfold polar_entry.
  set (p := Z.of_nat (m + Nat.min r c)). set (q := Z.of_nat (m + Nat.max r c)).
  assert (E : pm1 (p + q) = if Nat.even ((m + r) + (m + c)) then 1%R else (-1)%R).
  { unfold pm1. replace (p + q)%Z with (Z.of_nat ((m + r) + (m + c))) by (unfold p, q; lia).
    rewrite <- (Nat2Z.id ((m + r) + (m + c))) at 2.
    assert (H : forall n, Z.even (Z.of_nat n) = Nat.even n).
    { clear. intros n. induction n as [|n IH]; [reflexivity|].
      rewrite Nat2Z.inj_succ, Z.even_succ, Nat.even_succ, <- Z.negb_even, <- Nat.negb_even, IH.
      reflexivity. }
    rewrite H, Nat2Z.id. reflexivity. }
  rewrite E. destruct (Nat.even _); field.
Qed.
Print Assumptions C45_gap_doubles_even_kills_odd.
