(** * Property C79: the eigenproblem of a mesh has solutions, what is computed does
    not depend on the solver, the threads or the sorting, and how the eigenvalues
    follow the region and the basis; with an eigensolver that rounds as well. *)
From Coq Require Import List ZArith Arith Bool Reals Lra Lia.
From Coquelicot Require Import Complex Rcomplements.
From Verif Require Import Base ListLemmas RSum CSum PyNum PyNumProofs Numpy RealOrtho Machine Job Integration ArbitraryMatrix
  SpecEigen Eigen EigenProofs PropMatrix PropEigen OrthoProofs ConcentrationProofs SpectralProofs WeylProofs MotionProofs CompactProofs PropSpectral
  SpecRounding RoundingProofs Transform Mesh SpecMesh MeshProofs PropMesh PropMeshSlepian MeshSpectralProofs.
Import ListNotations.
Local Open Scope nat_scope.

(** A mesh with an orthonormal basis. *)
Definition mesh_ready (m : mesh) : Prop := well_formed m /\ orthonormal_basis m /\ 0 < nv m /\ 0 < nb m.

(** The matrix the threads have filled in. *)
Definition mesh_matrix (ncpu : nat) (garbage : nat -> nat -> nat -> R) (sched : list who) (m : mesh) : res (nat -> nat -> R) :=
  mesh_D_matrix (length (m_evals m)) (length (m_vertices m)) (fun v => nth v (m_region m) false)
    (fun i v => nth v (nth i (m_basis m) []) 0%R) ncpu garbage sched.

(** The schedule lets all threads finish. *)
Definition mesh_finished (ncpu : nat) (garbage : nat -> nat -> nat -> R) (sched : list who) (m : mesh) : Prop :=
  finished (mesh_job (length (m_evals m)) (length (m_vertices m)) (fun v => nth v (m_region m) false)
              (fun i v => nth v (nth i (m_basis m) []) 0%R) ncpu garbage sched).

(** The calls made for a mesh are answered correctly: numpy sorts, LAPACK solves the
    eigenproblem of the one matrix it is given. *)
Definition mesh_calls (eigh : (nat -> nat -> R) -> list R * list (list R)) (argsort : list R -> list nat)
    (ncpu : nat) (garbage : nat -> nat -> nat -> R) (sched : list who) (m : mesh) : Prop :=
  argsort_ok argsort /\ 0 < ncpu /\ mesh_finished ncpu garbage sched m /\
  (forall D, mesh_matrix ncpu garbage sched m = Ok D -> eigen_r (nb m) D (fst (eigh D)) (snd (eigh D))).

(** ... up to errors of [eta]. *)
Definition mesh_calls_rounded (eta : R) (eigh : (nat -> nat -> R) -> list R * list (list R)) (argsort : list R -> list nat)
    (ncpu : nat) (garbage : nat -> nat -> nat -> R) (sched : list who) (m : mesh) : Prop :=
  argsort_ok argsort /\ 0 < ncpu /\ mesh_finished ncpu garbage sched m /\
  (forall D, mesh_matrix ncpu garbage sched m = Ok D -> eigen_near_r eta (nb m) D (fst (eigh D)) (snd (eigh D))).

Lemma matrix_conc ncpu garbage sched m : mesh_ready m -> 0 < ncpu -> mesh_finished ncpu garbage sched m ->
  exists D, mesh_matrix ncpu garbage sched m = Ok D /\ forall a b, a < nb m -> b < nb m -> D a b = conc m a b.
Proof.
  intros (wf & ob & Hv & Hb) Hc HF. pose proof wf as (_ & Hev & _). unfold mesh_finished, mesh_matrix in *. rewrite Hev in *.
  destruct (C04_mesh_matrix_any_schedule (nb m) (length (m_vertices m)) (fun v => nth v (m_region m) false)
     (fun i v => nth v (nth i (m_basis m) []) 0%R) ncpu Hb Hc garbage sched HF) as (D & ED & HD).
  exists D. split; [exact ED|]. intros a b Ha Hb'. apply HD; assumption.
Qed.

(** The calls can be answered for every mesh, number of threads, memory and beginning
    of the schedule. *)
Theorem C79_answers : forall m ncpu garbage sched, mesh_ready m -> 0 < ncpu ->
  exists eigh argsort more, mesh_calls eigh argsort ncpu garbage (sched ++ more) m.
Proof.
  intros m ncpu garbage sched HM Hc. unfold mesh_calls. destruct C16_argsort_exists as (argsort & HA).
  destruct (C04_mesh_can_finish (length (m_evals m)) (length (m_vertices m)) (fun v => nth v (m_region m) false)
    (fun i v => nth v (nth i (m_basis m) []) 0%R) ncpu garbage sched) as (more & HF).
  destruct (matrix_conc ncpu garbage (sched ++ more) m HM Hc HF) as (D & ED & HD).
  destruct (C73_eigh_real (nb m) D) as (w & v & HE).
  { intros r c Hr Hc'. rewrite !HD by assumption. apply conc_sym. }
  exists (fun _ => (w, v)), argsort, more. split; [exact HA|]. split; [exact Hc|]. split; [exact HF|].
  intros D' ED'. rewrite ED in ED'. injection ED' as <-. exact HE.
Qed.
Print Assumptions C79_answers.

(** With such answers the call succeeds with orthonormal eigenvectors, all of them,
    the best concentrated first. *)
Theorem C79_run : forall eigh argsort ncpu garbage sched m, mesh_ready m -> mesh_calls eigh argsort ncpu garbage sched m ->
  exists s, mesh_slepian_fresh argsort eigh ncpu garbage sched m = Ok s /\
    ms_mesh s = m /\ compute_mesh_shannon m = Ok (ms_N s) /\
    slepian_functions_ok s /\ slepian_eigen s /\ descending (ms_evals s) /\ length (ms_functions s) = nb m.
Proof.
  intros eigh argsort ncpu garbage sched m HM (HA & Hc & HF & HE). pose proof HM as (wf & ob & Hv & Hb). pose proof wf as (Hreg & Hev & Hnum & Hrow).
  destruct (compute_mesh_shannon m) as [N|e] eqn:EN.
  2:{ exfalso. unfold compute_mesh_shannon in EN. destruct (Nat.eqb_spec (length (m_region m)) 0); [lia|discriminate]. }
  pose proof (shannon_range m N EN) as HN. rewrite Hev in HN.
  destruct (matrix_conc ncpu garbage sched m HM Hc HF) as (D & ED & Dc).
  specialize (HE D ED). destruct (eigh D) as [evals cols] eqn:Eh. cbn [fst snd] in HE.
  destruct (C16_mesh argsort HA (nb m) D evals cols HE) as (ev & rows & Ecl & Hlen & Hperm & Hdesc & Hort & Heig).
  assert (Hrl : forall p, p < nb m -> nth_error rows p = Some (nth p rows [])) by (intros p Hp; apply nth_error_nth'; lia).
  assert (Hevl : length ev = nb m) by (rewrite (Permutation.Permutation_length Hperm); apply HE).
  assert (Hrlen : forall row, In row rows -> length row = nb m).
  { intros row Hin. apply In_nth_error in Hin. destruct Hin as [p Hp]. apply (Heig p row Hp). }
  exists {| ms_mesh := m; ms_N := N; ms_evals := ev; ms_functions := rows |}.
  split; [unfold mesh_slepian_fresh; rewrite EN; cbn [rbind]; unfold mesh_matrix in ED; rewrite ED; cbn [rbind]; rewrite Eh, Ecl; reflexivity|].
  split; [reflexivity|]. split; [reflexivity|]. split; [|split; [|split; [exact Hdesc|exact Hlen]]].
  - unfold slepian_functions_ok, ns, sfun. cbn [ms_mesh ms_N ms_evals ms_functions].
    repeat (split; [first [assumption|lia]|]). intros p q Hp Hq. apply (Hort p q); apply Hrl; lia.
  - unfold slepian_eigen, sfun. cbn [ms_mesh ms_N ms_evals ms_functions]. intros p a Hp Ha.
    destruct (Heig p (nth p rows [])) as [_ He]; [apply Hrl; lia|]. specialize (He a Ha).
    unfold val. rewrite <- He. apply rsum_ext. intros b Hb'. rewrite Dc by assumption. reflexivity.
Qed.
Print Assumptions C79_run.

Lemma mesh_run eigh argsort ncpu garbage sched m s : mesh_ready m -> mesh_calls eigh argsort ncpu garbage sched m ->
  mesh_slepian_fresh argsort eigh ncpu garbage sched m = Ok s ->
  ms_mesh s = m /\ compute_mesh_shannon m = Ok (ms_N s) /\ slepian_functions_ok s /\ slepian_eigen s /\ descending (ms_evals s) /\
  length (ms_functions s) = nb m /\ real_rows (nb m) (conc m) (ms_evals s) (ms_functions s).
Proof.
  intros HM X E. destruct (C79_run _ _ _ _ _ _ HM X) as (s0 & E0 & H1 & H2 & H3 & H4 & H5 & H6). rewrite E in E0. injection E0 as <-.
  repeat (split; [assumption|]). subst m. apply slepian_rows; assumption.
Qed.

(** Two solutions of one problem: equal eigenvalues; the sum over the first [N]
    functions of the product of the values at two vertices, from which every
    approximation by [N] functions is made, is the same if the eigenvalues [N - 1] and
    [N] differ; a function with a simple eigenvalue is the same up to its sign. *)
Definition same_on_mesh (n : nat) (evals : list R) (F : nat -> nat -> R) (evals' : list R) (F' : nat -> nat -> R) : Prop :=
  evals' = evals /\
  (forall N v w, N <= n -> separated evals N -> rsum N (fun p => F' p v * F' p w)%R = rsum N (fun p => F p v * F p w)%R) /\
  (forall p, p < n -> separated evals p -> separated evals (p + 1) ->
     exists c, (c = 1 \/ c = -1)%R /\ forall v, F' p v = (c * F p v)%R).

Definition row_field (m : mesh) (rows : list (list R)) (p v : nat) : R := field m (nth p rows []) v.

Lemma rows_solution m K evals rows evals' rows' : (forall a b, a < nb m -> b < nb m -> K a b = K b a) ->
  real_rows (nb m) K evals rows -> real_rows (nb m) K evals' rows' ->
  same_on_mesh (nb m) evals (row_field m rows) evals' (row_field m rows').
Proof.
  intros SY H H'. pose proof (decomposed_same _ _ _ _ _ _ (real_decomposed _ _ _ _ SY H) (real_decomposed _ _ _ _ SY H')) as E. subst evals'.
  split; [reflexivity|].
  assert (KER : forall N, N <= nb m -> separated evals N -> forall i j, i < nb m -> j < nb m ->
    rsum N (fun p => val (nth p rows' []) i * val (nth p rows' []) j)%R = rsum N (fun p => val (nth p rows []) i * val (nth p rows []) j)%R).
  { intros N HN G. exact (real_kernel (nb m) K evals rows rows' N SY H H' HN G). }
  assert (FLD : forall N r v w, rsum N (fun p => row_field m r p v * row_field m r p w)%R =
     rsum (nb m) (fun i => rsum (nb m) (fun j => phi m i v * phi m j w * rsum N (fun p => val (nth p r []) i * val (nth p r []) j)))%R).
  { intros N r v w. rewrite (rsum_ext N _ (fun p => rsum (nb m) (fun i => rsum (nb m) (fun j => phi m i v * phi m j w * (val (nth p r []) i * val (nth p r []) j)))%R)).
    - rewrite rsum_swap. apply rsum_ext. intros i _. rewrite rsum_swap. apply rsum_ext. intros j _. rewrite rsum_scal_l. reflexivity.
    - intros p _. unfold row_field, field. rewrite <- rsum_scal_r. apply rsum_ext. intros i _. rewrite <- rsum_scal_l. apply rsum_ext. intros j _. ring. }
  split.
  - intros N v w HN G. rewrite !FLD. apply rsum_ext. intros i Hi. apply rsum_ext. intros j Hj. rewrite (KER N HN G i j Hi Hj). reflexivity.
  - intros p Hp G0 G1. destruct (same_sign (nb m) (val (nth p rows [])) (val (nth p rows' []))) as (c & Hc & HS).
    + destruct H as (_ & _ & _ & O & _). rewrite O, Nat.eqb_refl by assumption. reflexivity.
    + intros i j Hi Hj. rewrite Nat.add_1_r in G1. pose proof (KER (S p) ltac:(lia) G1 i j Hi Hj) as E1. pose proof (KER p ltac:(lia) G0 i j Hi Hj) as E0.
      cbn [rsum] in E1. rewrite E0 in E1. lra.
    + exists c. split; [exact Hc|]. intros v. unfold row_field, field. rewrite <- rsum_scal_l. apply rsum_ext. intros i Hi. rewrite HS by exact Hi. ring.
Qed.

(** Any two runs on one mesh. *)
Theorem C79_unique : forall eigh argsort ncpu garbage sched eigh' argsort' ncpu' garbage' sched' m s s', mesh_ready m ->
  mesh_calls eigh argsort ncpu garbage sched m -> mesh_calls eigh' argsort' ncpu' garbage' sched' m ->
  mesh_slepian_fresh argsort eigh ncpu garbage sched m = Ok s -> mesh_slepian_fresh argsort' eigh' ncpu' garbage' sched' m = Ok s' ->
  ms_N s' = ms_N s /\ same_on_mesh (nb m) (ms_evals s) (slep s) (ms_evals s') (slep s').
Proof.
  intros eigh argsort ncpu garbage sched eigh' argsort' ncpu' garbage' sched' m s s' HM X X' E E'.
  destruct (mesh_run _ _ _ _ _ _ _ HM X E) as (M1 & N1 & _ & _ & _ & _ & R1). destruct (mesh_run _ _ _ _ _ _ _ HM X' E') as (M2 & N2 & _ & _ & _ & _ & R2).
  split; [congruence|]. pose proof (rows_solution m (conc m) _ _ _ _ (fun a b _ _ => conc_sym m a b) R1 R2) as Q.
  assert (A1 : slep s = row_field m (ms_functions s)) by (unfold slep, row_field, sfun; rewrite M1; reflexivity).
  assert (A2 : slep s' = row_field m (ms_functions s')) by (unfold slep, row_field, sfun; rewrite M2; reflexivity).
  rewrite A1, A2. exact Q.
Qed.
Print Assumptions C79_unique.

Lemma forward_u s u : slepian_functions_ok s -> length u = nv (ms_mesh s) ->
  slepian_mesh_forward s (of_u u) None = Ok (map (fun p => rip (nv (ms_mesh s)) (val u) (slep s p)) (seq 0 (ns s))).
Proof.
  intros ok Hu. unfold slepian_mesh_forward. cbn [of_u mesh_detect_method mg_u_i mg_u mg_mask rbind]. rewrite <- (N_nat s ok).
  apply (decompose_all_ok s); [apply (N_fun s ok)|]. intros p Hp. pose proof (N_fun s ok). apply (sphere_ok s ok); [reflexivity|exact Hu|lia].
Qed.

(** The approximation of a signal by the first [N] functions does not depend on the
    solver when the eigenvalues [N - 1] and [N] differ, [N] the Shannon number. *)
Theorem C79_approximation : forall eigh argsort ncpu garbage sched eigh' argsort' ncpu' garbage' sched' m s s' u, mesh_ready m ->
  mesh_calls eigh argsort ncpu garbage sched m -> mesh_calls eigh' argsort' ncpu' garbage' sched' m ->
  mesh_slepian_fresh argsort eigh ncpu garbage sched m = Ok s -> mesh_slepian_fresh argsort' eigh' ncpu' garbage' sched' m = Ok s' ->
  separated (ms_evals s) (ns s) -> length u = nv m ->
  exists f_p f_p' w, slepian_mesh_forward s (of_u u) None = Ok f_p /\ slepian_mesh_inverse s f_p = Ok w /\
    slepian_mesh_forward s' (of_u u) None = Ok f_p' /\ slepian_mesh_inverse s' f_p' = Ok w /\
    rsum (ns s) (fun p => val f_p p ^ 2)%R = rsum (ns s) (fun p => val f_p' p ^ 2)%R.
Proof.
  intros eigh argsort ncpu garbage sched eigh' argsort' ncpu' garbage' sched' m s s' u HM X X' E E' G Hu.
  destruct (C79_unique _ _ _ _ _ _ _ _ _ _ _ _ _ HM X X' E E') as (NN & _ & KER & _).
  destruct (mesh_run _ _ _ _ _ _ _ HM X E) as (M1 & _ & O1 & _ & _ & F1 & _). destruct (mesh_run _ _ _ _ _ _ _ HM X' E') as (M2 & _ & O2 & _ & _ & F2 & _).
  assert (NS : ns s' = ns s) by (unfold ns; rewrite NN; reflexivity).
  assert (LE : ns s <= nb m) by (rewrite <- F1; apply (N_fun s O1)).
  eexists. eexists. exists (map (sfield s (map (fun p => rip (nv (ms_mesh s)) (val u) (slep s p)) (seq 0 (ns s)))) (seq 0 (nv m))).
  split; [apply forward_u; [exact O1|rewrite M1; exact Hu]|].
  split; [rewrite (slepian_inverse_mesh_ok s O1) by (rewrite map_length, seq_length; lia); rewrite M1; reflexivity|].
  split; [apply forward_u; [exact O2|rewrite M2; exact Hu]|].
  assert (VAL : forall t, ms_mesh t = m -> ns t = ns s -> forall p, p < ns s -> val (map (fun p => rip (nv (ms_mesh t)) (val u) (slep t p)) (seq 0 (ns t))) p = rip (nv m) (val u) (slep t p)).
  { intros t Mt Nt p Hp. rewrite Mt, Nt. apply val_map_seq. exact Hp. }
  split.
  - rewrite (slepian_inverse_mesh_ok s' O2) by (rewrite map_length, seq_length; lia). rewrite M2. do 1 f_equal. apply map_ext. intros v.
    unfold sfield. rewrite NS, M1.
    assert (SW : forall t, ms_mesh t = m -> ns t = ns s -> rsum (ns s) (fun p => val (map (fun p => rip (nv m) (val u) (slep t p)) (seq 0 (ns s))) p * slep t p v)%R
       = rsum (nv m) (fun w => val u w * rsum (ns s) (fun p => slep t p w * slep t p v))%R).
    { intros t Mt Nt. rewrite (rsum_ext (ns s) _ (fun p => rsum (nv m) (fun w => val u w * (slep t p w * slep t p v)))%R).
      - rewrite rsum_swap. apply rsum_ext. intros w _. rewrite rsum_scal_l. reflexivity.
      - intros p Hp. rewrite val_map_seq by exact Hp. unfold rip. rewrite <- rsum_scal_r. apply rsum_ext. intros w _. ring. }
    rewrite (SW s' M2 NS), (SW s M1 eq_refl). apply rsum_ext. intros w _. rewrite (KER (ns s) w v LE G). reflexivity.
  - assert (SQ : forall t, ms_mesh t = m -> ns t = ns s -> rsum (ns s) (fun p => val (map (fun p => rip (nv (ms_mesh t)) (val u) (slep t p)) (seq 0 (ns t))) p ^ 2)%R
       = rsum (nv m) (fun v => rsum (nv m) (fun w => val u v * val u w * rsum (ns s) (fun p => slep t p v * slep t p w)))%R).
    { intros t Mt Nt. rewrite (rsum_ext (ns s) _ (fun p => rsum (nv m) (fun v => rsum (nv m) (fun w => val u v * val u w * (slep t p v * slep t p w))))%R).
      - rewrite rsum_swap. apply rsum_ext. intros v _. rewrite rsum_swap. apply rsum_ext. intros w _. rewrite rsum_scal_l. reflexivity.
      - intros p Hp. rewrite (VAL t Mt Nt p Hp). cbn [pow]. rewrite Rmult_1_r. unfold rip. rewrite <- rsum_scal_r. apply rsum_ext. intros v _. rewrite <- rsum_scal_l. apply rsum_ext. intros w _. ring. }
    rewrite (SQ s M1 eq_refl), (SQ s' M2 NS). apply rsum_ext. intros v _. apply rsum_ext. intros w _. rewrite (KER (ns s) v w LE G). reflexivity.
Qed.
Print Assumptions C79_approximation.

(** ** Regions *)

(** The mesh with the other vertices as its region. *)
Definition complement_mesh (m : mesh) : mesh := {|
  m_vertices := m_vertices m; m_faces := m_faces m; m_region := map negb (m_region m);
  m_evals := m_evals m; m_basis := m_basis m; m_number := m_number m |}.

(** It has the eigenvalues [1 - lambda] in the opposite order, with the same
    functions. *)
Theorem C79_complement : forall eigh argsort ncpu garbage sched eigh' argsort' ncpu' garbage' sched' m s s', mesh_ready m ->
  mesh_calls eigh argsort ncpu garbage sched m -> mesh_calls eigh' argsort' ncpu' garbage' sched' (complement_mesh m) ->
  mesh_slepian_fresh argsort eigh ncpu garbage sched m = Ok s -> mesh_slepian_fresh argsort' eigh' ncpu' garbage' sched' (complement_mesh m) = Ok s' ->
  same_on_mesh (nb m) (rev (map (fun x => (1 - x)%R) (ms_evals s))) (fun p => slep s (nb m - 1 - p)) (ms_evals s') (slep s').
Proof.
  intros eigh argsort ncpu garbage sched eigh' argsort' ncpu' garbage' sched' m s s' HM X X' E E'.
  assert (HM' : mesh_ready (complement_mesh m)).
  { destruct HM as ((W1 & W2 & W3 & W4) & ob & Hv & Hb). split; [|split; [exact ob|split; assumption]].
    split; [cbn; rewrite map_length; exact W1|]. split; [exact W2|]. split; [exact W3|exact W4]. }
  destruct (mesh_run _ _ _ _ _ _ _ HM X E) as (M1 & _ & _ & _ & _ & F1 & R1). destruct (mesh_run _ _ _ _ _ _ _ HM' X' E') as (M2 & _ & _ & _ & _ & _ & R2).
  change (nb (complement_mesh m)) with (nb m) in R2.
  assert (IC : forall v, v < nv m -> inside (complement_mesh m) v = negb (inside m v)).
  { intros v Hv. destruct HM as ((W1 & _) & _). unfold inside. cbn [complement_mesh m_region].
    rewrite (nth_indep _ false (negb false)) by (rewrite map_length, W1; exact Hv). apply map_nth. }
  assert (SUM : forall a b, a < nb m -> b < nb m -> (conc m a b + conc (complement_mesh m) a b)%R = (if a =? b then 1 else 0)%R).
  { intros a b Ha Hb. destruct HM as (_ & ob & _). rewrite <- (ob a b Ha Hb). unfold conc, rmask, rip. change (nv (complement_mesh m)) with (nv m). rewrite <- rsum_plus. apply rsum_ext. intros v Hv.
    rewrite (IC v Hv). change (phi (complement_mesh m)) with (phi m). destruct (inside m v); cbn [negb]; ring. }
  assert (R3 : real_rows (nb m) (conc (complement_mesh m)) (rev (map (fun x => (1 - x)%R) (ms_evals s))) (rev (ms_functions s))).
  { destruct R1 as (L1 & L2 & D1 & O1 & E1).
    assert (RN : forall p, p < nb m -> nth p (rev (ms_functions s)) [] = nth (nb m - S p) (ms_functions s) []) by (intros p Hp; rewrite rev_nth by (rewrite L2; exact Hp); rewrite L2; reflexivity).
    assert (EN : forall p, p < nb m -> nth p (rev (map (fun x => (1 - x)%R) (ms_evals s))) 0%R = (1 - nth (nb m - S p) (ms_evals s) 0)%R).
    { intros p Hp. rewrite rev_nth by (rewrite map_length, L1; exact Hp). rewrite map_length, L1.
      rewrite (nth_indep _ 0%R (1 - 0)%R) by (rewrite map_length, L1; lia). exact (map_nth (fun x => (1 - x)%R) (ms_evals s) 0%R (nb m - S p)). }
    split; [rewrite rev_length, map_length; exact L1|]. split; [rewrite rev_length; exact L2|]. split; [|split].
    - assert (DC : decomposed (nb m) (fun a b => RtoC (conc (complement_mesh m) a b)) (rev (map (fun x => (1 - x)%R) (ms_evals s))) (rev (crows (ms_functions s)))).
      { apply (decomposed_complement (nb m) (fun a b => RtoC (conc m a b))).
        - intros i j Hi Hj. rewrite <- RtoC_plus, SUM by assumption. reflexivity.
        - apply real_decomposed; [intros; apply conc_sym|]. repeat (split; [assumption|]). assumption. }
      apply DC.
    - intros p q Hp Hq. rewrite !RN by assumption. rewrite O1 by lia.
      destruct (Nat.eqb_spec p q) as [->|N]; [rewrite Nat.eqb_refl; reflexivity|]. rewrite (proj2 (Nat.eqb_neq _ _)) by lia. reflexivity.
    - intros p a Hp Ha. rewrite RN, EN by exact Hp. set (r := nth (nb m - S p) (ms_functions s) []).
      assert (T : rsum (nb m) (fun b => (conc m a b + conc (complement_mesh m) a b) * val r b)%R = val r a).
      { rewrite (rsum_single (nb m) a); [rewrite SUM, Nat.eqb_refl by assumption; ring|exact Ha|]. intros b Hb Nb. rewrite SUM by assumption.
        rewrite (proj2 (Nat.eqb_neq a b)) by (intros Q; apply Nb; symmetry; exact Q). ring. }
      rewrite (rsum_ext (nb m) _ (fun b => conc m a b * val r b + conc (complement_mesh m) a b * val r b)%R), rsum_plus in T by (intros; ring).
      unfold r in T at 1. rewrite E1 in T by lia. fold r in T. lra. }
  pose proof (rows_solution m (conc (complement_mesh m)) _ _ _ _ (fun a b _ _ => conc_sym _ a b) R3 R2) as (Q1 & Q2 & Q3).
  assert (A2 : slep s' = row_field m (ms_functions s')) by (unfold slep, row_field, sfun; rewrite M2; reflexivity).
  assert (A1 : forall p, p < nb m -> row_field m (rev (ms_functions s)) p = slep s (nb m - 1 - p)).
  { intros p Hp. unfold slep, row_field, sfun. rewrite M1. rewrite rev_nth by (rewrite F1; exact Hp). rewrite F1. replace (nb m - S p) with (nb m - 1 - p) by lia. reflexivity. }
  rewrite A2. split; [exact Q1|]. split.
  - intros N v w HN G. rewrite (Q2 N v w HN G). apply rsum_ext. intros p Hp. rewrite A1 by lia. reflexivity.
  - intros p Hp G0 G1. rewrite <- A1 by exact Hp. exact (Q3 p Hp G0 G1).
Qed.
Print Assumptions C79_complement.

(** More vertices in the region or more basis functions: no eigenvalue is smaller. *)
Theorem C79_grows : forall eigh argsort ncpu garbage sched eigh' argsort' ncpu' garbage' sched' m m' s s' p, mesh_ready m -> mesh_ready m' ->
  nv m' = nv m -> nb m <= nb m' -> (forall i v, i < nb m -> v < nv m -> phi m' i v = phi m i v) ->
  (forall v, v < nv m -> inside m v = true -> inside m' v = true) ->
  mesh_calls eigh argsort ncpu garbage sched m -> mesh_calls eigh' argsort' ncpu' garbage' sched' m' ->
  mesh_slepian_fresh argsort eigh ncpu garbage sched m = Ok s -> mesh_slepian_fresh argsort' eigh' ncpu' garbage' sched' m' = Ok s' ->
  p < nb m -> (val (ms_evals s) p <= val (ms_evals s') p)%R.
Proof.
  intros eigh argsort ncpu garbage sched eigh' argsort' ncpu' garbage' sched' m m' s s' p HM HM' HV HB HP HI X X' E E' Hp.
  destruct (mesh_run _ _ _ _ _ _ _ HM X E) as (M1 & _ & _ & _ & _ & F1 & R1). destruct (mesh_run _ _ _ _ _ _ _ HM' X' E') as (M2 & _ & _ & _ & _ & _ & R2).
  pose proof (real_decomposed _ _ _ _ (fun a b _ _ => conc_sym m a b) R1) as D1. pose proof (real_decomposed _ _ _ _ (fun a b _ _ => conc_sym m' a b) R2) as D2.
  refine (weyl (nb m) (nb m') _ _ _ _ _ _ HB D1 D2 _ p Hp). intros w. rewrite !conc_form, HV. apply rsum_le. intros v Hv.
  assert (PAD : forall (f : C -> R), f (RtoC 0) = 0%R -> rsum (nb m') (fun i => f (padded (nb m) w i) * phi m' i v)%R = rsum (nb m) (fun i => f (w i) * phi m i v)%R).
  { intros f F0. replace (nb m') with (nb m + (nb m' - nb m)) by lia. rewrite rsum_app, (rsum_zero (nb m' - nb m)).
    - rewrite Rplus_0_r. apply rsum_ext. intros i Hi. unfold padded. rewrite (proj2 (Nat.ltb_lt i (nb m))) by exact Hi. rewrite HP by assumption. reflexivity.
    - intros i _. unfold padded. rewrite (proj2 (Nat.ltb_ge (nb m + i) (nb m))) by lia. rewrite F0. ring. }
  rewrite (PAD Re eq_refl), (PAD Im eq_refl). pose proof (HI v Hv) as I.
  set (x := rsum (nb m) (fun i => Re (w i) * phi m i v)%R). set (y := rsum (nb m) (fun i => Im (w i) * phi m i v)%R).
  pose proof (pow2_ge_0 x). pose proof (pow2_ge_0 y). destruct (inside m v); [rewrite (I eq_refl); lra|]. destruct (inside m' v); lra.
Qed.
Print Assumptions C79_grows.

(** No more eigenvalues differ from 0 than the region has vertices, and no more differ
    from 1 than there are vertices outside. *)
Theorem C79_rank : forall eigh argsort ncpu garbage sched m s p, mesh_ready m -> mesh_calls eigh argsort ncpu garbage sched m ->
  mesh_slepian_fresh argsort eigh ncpu garbage sched m = Ok s -> p < nb m ->
  (length (filter (fun b => b) (m_region m)) <= p -> val (ms_evals s) p = 0%R) /\
  (p + length (filter negb (m_region m)) < nb m -> val (ms_evals s) p = 1%R).
Proof.
  intros eigh argsort ncpu garbage sched m s p HM X E Hp. destruct (mesh_run _ _ _ _ _ _ _ HM X E) as (M1 & _ & ok & eig & desc & F1 & R1). subst m. set (m := ms_mesh s) in *.
  assert (RG : forall q, q < nb m -> (0 <= val (ms_evals s) q <= 1)%R) by (intros q Hq; apply (C56_range s q ok eig); rewrite F1; exact Hq).
  assert (SD : forall q r, q <= r -> r < nb m -> (val (ms_evals s) r <= val (ms_evals s) q)%R).
  { intros q r Hqr Hr. apply descending_nth; [exact desc|exact Hqr|]. destruct R1 as (L1 & _). rewrite L1. exact Hr. }
  split; intros HK.
  - destruct (vanishing s ok F1 0 (p + 1) (fun b => b)) as (x & Px & Zx); [fold m; lia|fold m; lia|]. fold m in Zx.
    destruct (combination_energy s ok eig F1 0 (p + 1) x) as [EI _]; [fold m; lia|]. fold m in EI.
    rewrite rsum_zero in EI by (intros v Hv; destruct (inside m v) eqn:I; [rewrite (Zx v Hv I); ring|reflexivity]).
    assert (LE : (val (ms_evals s) p * rsum (p + 1) (fun t => x t ^ 2) <= 0)%R).
    { rewrite EI, <- rsum_scal_l. apply rsum_le. intros t Ht. apply Rmult_le_compat_r; [apply pow2_ge_0|]. apply SD; lia. }
    specialize (RG p Hp). apply Rle_antisym; [|lra]. apply Rnot_lt_le. intros L. pose proof (Rmult_lt_0_compat _ _ L Px). lra.
  - destruct (vanishing s ok F1 p (nb m - p) negb) as (x & Px & Zx); [fold m; lia|fold m; lia|]. fold m in Zx.
    destruct (combination_energy s ok eig F1 p (nb m - p) x) as [EI ET]; [fold m; lia|]. fold m in EI, ET.
    assert (EQ : rsum (nb m - p) (fun t => val (ms_evals s) (p + t) * x t ^ 2)%R = rsum (nb m - p) (fun t => x t ^ 2)%R).
    { rewrite <- EI, <- ET. apply rsum_ext. intros v Hv. destruct (inside m v) eqn:I; [reflexivity|]. rewrite (Zx v Hv ltac:(rewrite I; reflexivity)). ring. }
    assert (LE : (rsum (nb m - p) (fun t => x t ^ 2) <= val (ms_evals s) p * rsum (nb m - p) (fun t => x t ^ 2))%R).
    { rewrite <- EQ at 1. rewrite <- rsum_scal_l. apply rsum_le. intros t Ht. apply Rmult_le_compat_r; [apply pow2_ge_0|]. apply SD; lia. }
    specialize (RG p Hp). apply Rle_antisym; [lra|]. apply Rnot_lt_le. intros L.
    assert (0 < (1 - val (ms_evals s) p) * rsum (nb m - p) (fun t => x t ^ 2))%R by (apply Rmult_lt_0_compat; [lra|exact Px]). lra.
Qed.
Print Assumptions C79_rank.

(** An orthonormal basis has no more functions than the mesh has vertices, so no more
    functions are kept (the Shannon number) than the region has vertices. *)
Theorem C79_shannon : forall m N, mesh_ready m -> compute_mesh_shannon m = Ok N ->
  nb m <= nv m /\ (0 <= N <= Z.of_nat (length (filter (fun b => b) (m_region m))))%Z.
Proof.
  intros m N HM EN. destruct HM as ((W1 & W2 & _) & ob & Hv & Hb).
  assert (LE : nb m <= nv m).
  { apply Nat.nlt_ge. intros L. destruct (real_common_zero (nb m) (nv m) (fun v i => phi m i v) L) as (x & (j & Hj & Nj) & Hx).
    assert (Z : rip (nv m) (field m (map x (seq 0 (nb m)))) (field m (map x (seq 0 (nb m)))) = 0%R).
    { apply rsum_zero. intros v Hv'. unfold field. rewrite (rsum_ext (nb m) _ (fun i => x i * phi m i v)%R) by (intros i Hi; rewrite val_map_seq by exact Hi; reflexivity).
      rewrite (Hx v Hv'). ring. }
    rewrite field_product in Z by exact ob. unfold rip in Z.
    rewrite (rsum_ext (nb m) _ (fun i => x i ^ 2)%R) in Z by (intros i Hi; rewrite val_map_seq by exact Hi; ring).
    pose proof (rsum_term (nb m) (fun i => (x i ^ 2)%R) j Hj (fun i _ => pow2_ge_0 (x i))) as T. cbn beta in T. pose proof (pow2_gt_0 (x j) Nj). lra. }
  split; [exact LE|]. unfold compute_mesh_shannon in EN. destruct (Nat.eqb_spec (length (m_region m)) 0) as [H|H]; [discriminate|]. injection EN as <-. apply py_round_between.
  set (k := length (filter (fun b => b) (m_region m))) in *. rewrite W1, W2, <- INR_IZR_INZ. change (IZR 0) with 0%R.
  pose proof (pos_INR k) as K. pose proof (pos_INR (nb m)) as B. assert (T : (0 < INR (nv m))%R) by (apply lt_0_INR; lia). apply le_INR in LE.
  assert (Q : (0 <= INR k / INR (nv m))%R) by (apply Rmult_le_pos; [exact K|left; apply Rinv_0_lt_compat; exact T]).
  split; [apply Rmult_le_pos; assumption|]. replace (INR k) with (INR k / INR (nv m) * INR (nv m))%R at 2 by (field; lra). apply Rmult_le_compat_l; assumption.
Qed.
Print Assumptions C79_shannon.

(** ** An eigensolver that rounds *)

(** What the run computes with answers off by [eta], compared with an exact run: the
    functions are orthonormal and diagonalise the region up to small errors, the
    eigenvalues are near the exact ones, and every function is near a combination of
    the exact functions with eigenvalues nearby. *)
Definition near_on_mesh (eta : R) (m : mesh) (evals : list R) (F : nat -> nat -> R) (lam : list R) (G : nat -> nat -> R) : Prop :=
  (forall p q, p < nb m -> q < nb m -> (Rabs (rsum (nv m) (fun v => F p v * F q v) - (if p =? q then 1 else 0)) <= eta)%R) /\
  (forall p q, p < nb m -> q < nb m ->
     (Rabs (rsum (nv m) (fun v => if inside m v then F p v * F q v else 0) - (if p =? q then val evals p else 0)) <= 6 * sqrt (INR (nb m)) * eta)%R) /\
  (forall p, p < nb m -> (Rabs (val evals p - val lam p) <= 7 * INR (nb m) * eta)%R) /\
  (forall p q, p < nb m -> q < nb m -> (Rabs (val lam q - val evals p) * Rabs (rsum (nv m) (fun v => F p v * G q v)) <= sqrt (INR (nb m)) * eta)%R) /\
  (forall p g, p < nb m -> (0 < g)%R -> exists a, (forall q, q < nb m -> (g <= Rabs (val lam q - val evals p))%R -> a q = 0%R) /\
     (rsum (nv m) (fun v => (F p v - rsum (nb m) (fun q => a q * G q v)) ^ 2) <= (sqrt (INR (nb m)) * eta / g) ^ 2)%R).

Lemma masked_rows m f g : rsum (nv m) (fun v => if inside m v then field m f v * field m g v else 0)%R =
  Re (gram (nb m) (fun a b => RtoC (conc m a b)) (fun i => RtoC (val f i)) (fun i => RtoC (val g i))).
Proof.
  unfold gram. rewrite csum_re.
  rewrite (rsum_ext (nb m) (fun i => Re (csum (nb m) _)) (fun i => rsum (nb m) (fun j => val f i * val g j * conc m i j)%R)).
  2:{ intros i _. rewrite csum_re. apply rsum_ext. intros j _. unfold Re, Cmult, Cconj, RtoC. cbn [fst snd]. ring. }
  rewrite (rsum_ext (nv m) _ (fun v => rsum (nb m) (fun i => rsum (nb m) (fun j => val f i * val g j * (if inside m v then phi m i v * phi m j v else 0)))%R)).
  - rewrite rsum_swap. apply rsum_ext. intros i _. rewrite rsum_swap. apply rsum_ext. intros j _. rewrite rsum_scal_l. reflexivity.
  - intros v _. destruct (inside m v).
    + unfold field. rewrite <- rsum_scal_r. apply rsum_ext. intros i _. rewrite <- rsum_scal_l. apply rsum_ext. intros j _. ring.
    + symmetry. apply rsum_zero. intros i _. apply rsum_zero. intros j _. ring.
Qed.

Theorem C79_rounded : forall eta eigh argsort ncpu garbage sched eigh' argsort' ncpu' garbage' sched' m s', mesh_ready m ->
  (INR (nb m) * eta <= 1 / 2)%R ->
  mesh_calls_rounded eta eigh argsort ncpu garbage sched m -> mesh_calls eigh' argsort' ncpu' garbage' sched' m ->
  mesh_slepian_fresh argsort' eigh' ncpu' garbage' sched' m = Ok s' ->
  exists s, mesh_slepian_fresh argsort eigh ncpu garbage sched m = Ok s /\ ms_mesh s = m /\ ms_N s = ms_N s' /\
    length (ms_evals s) = nb m /\ length (ms_functions s) = nb m /\ descending (ms_evals s) /\
    near_on_mesh eta m (ms_evals s) (slep s) (ms_evals s') (slep s').
Proof.
  intros eta eigh argsort ncpu garbage sched eigh' argsort' ncpu' garbage' sched' m s' HM SM (HA & Hc & HF & HE) X' E'.
  destruct (mesh_run _ _ _ _ _ _ _ HM X' E') as (M' & N' & ok' & eig' & _ & F' & R'). pose proof HM as (wf & ob & Hv & Hb).
  destruct (matrix_conc ncpu garbage sched m HM Hc HF) as (D & ED & Dc). specialize (HE D ED). destruct (eigh D) as [ev0 cols] eqn:Eh. cbn [fst snd] in HE.
  destruct (clean_mesh_near argsort HA eta (nb m) D ev0 cols HE) as (evals & rows & Ecl & L1 & L2 & Hd & LR & HO & HG).
  exists {| ms_mesh := m; ms_N := ms_N s'; ms_evals := evals; ms_functions := rows |}.
  split; [unfold mesh_slepian_fresh; rewrite N'; cbn [rbind]; unfold mesh_matrix in ED; rewrite ED; cbn [rbind]; rewrite Eh, Ecl; reflexivity|].
  split; [reflexivity|]. split; [reflexivity|]. cbn [ms_evals ms_functions]. split; [exact L1|]. split; [exact L2|]. split; [exact Hd|].
  assert (A1 : slep {| ms_mesh := m; ms_N := ms_N s'; ms_evals := evals; ms_functions := rows |} = row_field m rows) by reflexivity.
  assert (A2 : slep s' = row_field m (ms_functions s')) by (unfold slep, row_field, sfun; rewrite M'; reflexivity).
  rewrite A1, A2. clear A1 A2. set (lam := ms_evals s') in *. set (exact := ms_functions s') in *.
  assert (ND : near_decomposed eta (nb m) (fun a b => RtoC (conc m a b)) evals (crows rows)).
  { apply near_real; try assumption; [intros; apply conc_sym|]. intros p a Hp Ha.
    rewrite (rsum_ext (nb m) _ (fun b => D a b * val (nth p rows []) b)%R) by (intros b Hb'; rewrite Dc by assumption; reflexivity). apply HG; assumption. }
  pose proof (real_decomposed _ _ _ _ (fun a b _ _ => conc_sym m a b) R') as DD.
  assert (RG : forall p, p < nb m -> (0 <= nth p lam 0 <= 1)%R) by (intros p Hp; apply (C56_range s' p ok' eig'); fold exact; rewrite F'; exact Hp).
  pose proof (eta_pos _ _ _ _ _ ND Hb) as E0. pose proof (n_pos _ Hb) as NP. pose proof (root_pos _ Hb) as RP. unfold root in RP.
  assert (IPR : forall (r r' : list (list R)) p q, ip (nb m) (fun i => nth i (nth p (crows r) []) (RtoC 0)) (fun i => nth i (nth q (crows r') []) (RtoC 0)) = RtoC (rip (nb m) (val (nth p r [])) (val (nth q r' [])))).
  { intros r r' p q. rewrite (ip_ext (nb m) _ (fun i => RtoC (val (nth p r []) i)) _ (fun i => RtoC (val (nth q r' []) i))) by (intros; apply crows_nth). apply rip_real. }
  split; [|split; [|split; [|split]]].
  - intros p q Hp Hq. pose proof (HO p q Hp Hq) as O. rewrite <- field_product in O by exact ob. exact O.
  - intros p q Hp Hq. pose proof (gram_near eta 1 (nb m) _ evals (crows rows) lam (crows exact) ND DD RG (Rle_refl 1) Hb SM p q Hp Hq) as G. cbn beta in G. unfold root in G.
    unfold row_field. rewrite masked_rows.
    replace (Re (gram (nb m) (fun a b => RtoC (conc m a b)) (fun i => RtoC (val (nth p rows []) i)) (fun i => RtoC (val (nth q rows []) i))) - (if p =? q then val evals p else 0))%R
      with (Re (Cminus (gram (nb m) (fun a b => RtoC (conc m a b)) (fun i => nth i (nth p (crows rows) []) (RtoC 0)) (fun i => nth i (nth q (crows rows) []) (RtoC 0))) (if p =? q then RtoC (nth p evals 0%R) else RtoC 0))).
    + eapply Rle_trans; [apply re_le|]. eapply Rle_trans; [exact G|]. rewrite Rmult_1_r. apply Rmult_le_compat_r; [exact E0|]. apply Rmult_le_compat_r; lra.
    + assert (GE : gram (nb m) (fun a b => RtoC (conc m a b)) (fun i => nth i (nth p (crows rows) []) (RtoC 0)) (fun i => nth i (nth q (crows rows) []) (RtoC 0))
        = gram (nb m) (fun a b => RtoC (conc m a b)) (fun i => RtoC (val (nth p rows []) i)) (fun i => RtoC (val (nth q rows []) i))).
      { unfold gram. apply csum_ext. intros i _. apply csum_ext. intros j _. rewrite !crows_nth. reflexivity. }
      rewrite GE.
      destruct (p =? q); unfold Re, Cminus, Cplus, Copp, RtoC, val; cbn [fst snd]; ring.
  - intros p Hp. pose proof (eigenvalue_near eta 1 (nb m) _ evals (crows rows) lam (crows exact) ND DD RG (Rle_refl 1) Hb SM p Hp) as G. cbn beta in G.
    eapply Rle_trans; [exact G|]. rewrite Rmult_1_r. apply Rmult_le_compat_r; [exact E0|]. apply Rmult_le_compat_r; lra.
  - intros p q Hp Hq. pose proof (component_near eta (nb m) _ evals (crows rows) lam (crows exact) ND DD Hb p q Hp Hq) as G. cbn beta in G. rewrite IPR, Cmod_R in G. unfold root in G.
    unfold row_field. change (rsum (nv m) (fun v => field m (nth p rows []) v * field m (nth q exact []) v)%R) with (rip (nv m) (field m (nth p rows [])) (field m (nth q exact []))). rewrite field_product by exact ob. exact G.
  - intros p g Hp Hg. set (near := fun q => if Rle_dec g (Rabs (nth q lam 0 - nth p evals 0)%R) then false else true).
    set (a := fun q => if near q then rip (nb m) (val (nth p rows [])) (val (nth q exact [])) else 0%R). exists a. split.
    + intros q Hq HG'. unfold a, near. destruct (Rle_dec _ _) as [_|Z]; [reflexivity|]. exfalso. apply Z. exact HG'.
    + assert (HS : forall q, q < nb m -> near q = false -> (g <= Rabs (nth q lam 0 - nth p evals 0))%R) by (intros q Hq; unfold near; destruct (Rle_dec _ _) as [Y|_]; [intros _; exact Y|discriminate]).
      pose proof (defect_near eta (nb m) _ evals (crows rows) lam (crows exact) ND DD p g near Hp Hg HS) as G. cbn beta in G. unfold root in G.
      set (d := fun i => (val (nth p rows []) i - rsum (nb m) (fun q => a q * val (nth q exact []) i))%R).
      assert (Q : nrm2 (nb m) (fun i => RtoC (d i)) = rsum (nv m) (fun v => (row_field m rows p v - rsum (nb m) (fun q => a q * row_field m exact q v)) ^ 2)%R).
      { transitivity (rip (nb m) (val (map d (seq 0 (nb m)))) (val (map d (seq 0 (nb m))))).
        - unfold nrm2, rip. apply rsum_ext. intros i Hi. rewrite val_map_seq by exact Hi. unfold abs2, Re, Im, RtoC. cbn [fst snd]. ring.
        - rewrite <- field_product by exact ob. apply rsum_ext. intros v _.
          assert (FV : field m (map d (seq 0 (nb m))) v = (row_field m rows p v - rsum (nb m) (fun q => a q * row_field m exact q v))%R).
          { unfold field at 1. rewrite (rsum_ext (nb m) _ (fun i => val (nth p rows []) i * phi m i v + - rsum (nb m) (fun q => a q * (val (nth q exact []) i * phi m i v)))%R).
            - rewrite rsum_plus. unfold row_field, field at 1. unfold Rminus. f_equal.
              rewrite (rsum_ext (nb m) (fun i => - _)%R (fun i => (-1) * rsum (nb m) (fun q => a q * (val (nth q exact []) i * phi m i v)))%R) by (intros; ring).
              rewrite rsum_scal_l, rsum_swap.
              rewrite (rsum_ext (nb m) _ (fun q => a q * field m (nth q exact []) v)%R) by (intros q _; unfold field; rewrite <- rsum_scal_l; reflexivity). ring.
            - intros i Hi. rewrite val_map_seq by exact Hi. unfold d.
              rewrite (rsum_ext (nb m) (fun q => a q * (val (nth q exact []) i * phi m i v))%R (fun q => (a q * val (nth q exact []) i) * phi m i v)%R) by (intros; ring). rewrite rsum_scal_r. ring. }
          rewrite FV. ring. }
      rewrite <- Q. eapply Rle_trans; [right|exact G]. apply nrm2_ext. intros i Hi. unfold d. rewrite crows_nth, RtoC_minus. f_equal.
      rewrite <- csum_RtoC. apply csum_ext. intros q _. unfold a. destruct (near q); [rewrite IPR, crows_nth, RtoC_mult; reflexivity|]. apply C_ext; cbn; ring.
Qed.
Print Assumptions C79_rounded.

Module MeshSpectralCases.
  Lemma ex_ready : mesh_ready ex_mesh.
  Proof. destruct ex_mesh_ok as [wf ob]. split; [exact wf|]. split; [exact ob|]. split; unfold nv, nb; cbn; lia. Qed.
  Lemma ex_other_ready : mesh_ready (complement_mesh ex_mesh).
  Proof.
    destruct ex_mesh_ok as [(W1 & W2 & W3 & W4) ob]. split; [|split; [exact ob|split; unfold nv, nb; cbn; lia]].
    split; [reflexivity|]. split; [exact W2|]. split; [exact W3|exact W4].
  Qed.
  Lemma ex_rows : real_rows (nb ex_mesh) (conc ex_mesh) [1; 9/25]%R [[0; 1]; [1; 0]]%R.
  Proof.
    destruct ex_slepian_ok as (ok & eig & _). apply (slepian_rows ex_slepian ok eig); [|reflexivity].
    intros [|[|[|p]]] [|[|[|q]]] a b Hpq Ha Hb; cbn in Ha, Hb; try lia; try discriminate. injection Ha as <-. injection Hb as <-. lra.
  Qed.

  (** The mesh of C28: its matrix can be filled in by two threads and solved, every run
      ends with the eigenvalues 1 and 9/25, keeps one function, and that function is
      determined up to its sign: 0, 1, 0 or 0, -1, 0. *)
  Example C79_case : (exists eigh argsort sched, mesh_calls eigh argsort 2 (fun _ _ _ => 7%R) sched ex_mesh) /\
    forall eigh argsort ncpu garbage sched, mesh_calls eigh argsort ncpu garbage sched ex_mesh ->
    exists s, mesh_slepian_fresh argsort eigh ncpu garbage sched ex_mesh = Ok s /\ ms_evals s = [1; 9/25]%R /\ ms_N s = 1%Z /\
      separated (ms_evals s) (ns s) /\
      exists c, (c = 1 \/ c = -1)%R /\ slep s 0 0 = 0%R /\ slep s 0 1 = c /\ slep s 0 2 = 0%R.
  Proof.
    split.
    - destruct (C79_answers ex_mesh 2 (fun _ _ _ => 7%R) [] ex_ready ltac:(lia)) as (eigh & argsort & more & X). exists eigh, argsort, more. exact X.
    - intros eigh argsort ncpu garbage sched X. destruct (C79_run _ _ _ _ _ _ ex_ready X) as (s & E & M & N & _). exists s. split; [exact E|].
      destruct (mesh_run _ _ _ _ _ _ _ ex_ready X E) as (_ & _ & _ & _ & _ & _ & R1).
      destruct (rows_solution ex_mesh (conc ex_mesh) _ _ _ _ (fun a b _ _ => conc_sym ex_mesh a b) ex_rows R1) as (EV & _ & SG).
      destruct ex_slepian_ok as (_ & _ & SH). rewrite SH in N. injection N as N.
      assert (S1 : separated [1; 9/25]%R 1).
      { intros p q Hp Hq Hl. cbn in Hl. assert (p = 0) by lia. assert (q = 1) by lia. subst. cbn. lra. }
      split; [exact EV|]. split; [symmetry; exact N|]. split; [rewrite EV; unfold ns; rewrite <- N; exact S1|].
      destruct (SG 0) as (c & Hc & V); [unfold nb; cbn; lia|intros p q Hp; lia|exact S1|]. exists c. split; [exact Hc|].
      assert (A : forall v, slep s 0 v = (c * row_field ex_mesh [[0; 1]; [1; 0]]%R 0 v)%R) by (intros v; rewrite <- V; unfold slep, row_field, sfun; rewrite M; reflexivity).
      rewrite !A. unfold row_field, field, phi, val, nb. cbn. split; [ring|split; ring].
  Qed.

  (** The other vertex as region: 16/25 and 0, the second because the region has one
      vertex only. *)
  Example C79_complement_case : (exists eigh argsort sched, mesh_calls eigh argsort 3 (fun _ _ _ => 7%R) sched (complement_mesh ex_mesh)) /\
    forall eigh argsort ncpu garbage sched, mesh_calls eigh argsort ncpu garbage sched (complement_mesh ex_mesh) ->
    exists s, mesh_slepian_fresh argsort eigh ncpu garbage sched (complement_mesh ex_mesh) = Ok s /\ ms_evals s = [16/25; 0]%R.
  Proof.
    split.
    - destruct (C79_answers (complement_mesh ex_mesh) 3 (fun _ _ _ => 7%R) [] ex_other_ready ltac:(lia)) as (eigh & argsort & more & X). exists eigh, argsort, more. exact X.
    - intros eigh argsort ncpu garbage sched X. destruct (C79_run _ _ _ _ _ _ ex_other_ready X) as (s & E & _). exists s. split; [exact E|].
      destruct C79_case as ((eigh0 & argsort0 & sched0 & X0) & V). destruct (V _ _ _ _ _ X0) as (s0 & E0 & EV & _).
      destruct (C79_complement _ _ _ _ _ _ _ _ _ _ _ _ _ ex_ready X0 X E0 E) as (Q & _). rewrite Q, EV. cbn [map rev List.app]. replace (1 - 9 / 25)%R with (16 / 25)%R by field. replace (1 - 1)%R with 0%R by ring. reflexivity.
  Qed.

  (** A solver whose eigenvalues are all too large by [eta]. *)
  Lemma shifted eta n M evals cols : (0 <= eta)%R -> eigen_r n M evals cols -> eigen_near_r eta n M (map (fun x => (x + eta)%R) evals) cols.
  Proof.
    intros He (H1 & H2 & H3 & H4 & H5). split; [rewrite map_length; exact H1|]. split; [exact H2|]. split; [exact H3|]. split.
    - intros k v r Hk Hr. assert (Kn : k < length evals) by (rewrite H1, <- H2; apply nth_error_Some; congruence).
      rewrite (nth_indep _ 0%R ((fun x => (x + eta)%R) 0%R)) by (rewrite map_length; exact Kn). rewrite (map_nth (fun x => (x + eta)%R)). cbn beta.
      rewrite (H4 k v r Hk Hr). match goal with |- (Rabs ?z <= _)%R => replace z with (- (eta * nth r v 0))%R by ring end.
      rewrite Rabs_Ropp, Rabs_mult, Rabs_pos_eq by exact He.
      assert (U : rsum n (fun i => nth i v 0 ^ 2)%R = 1%R).
      { specialize (H5 k k v v Hk Hk). rewrite Nat.eqb_refl in H5. rewrite <- H5. apply rsum_ext. intros. ring. }
      pose proof (rsum_term n (fun i => (nth i v 0 ^ 2)%R) r Hr (fun i _ => pow2_ge_0 _)) as T. cbn beta in T. rewrite U in T.
      assert (B : (Rabs (nth r v 0) <= 1)%R) by (apply Rsqr_incr_0_var; [|lra]; rewrite !Rsqr_pow2, pow1, pow2_abs; exact T).
      pose proof (Rmult_le_compat_l eta _ _ He B). lra.
    - intros j k u v Hj Hk. rewrite (H5 j k u v Hj Hk), Rminus_eq_0, Rabs_R0. exact He.
  Qed.

  (** The mesh solved with errors up to [10 ^ -12]: eigenvalues within [10 ^ -10], the
      best function within an energy of [10 ^ -22] of a multiple of 0, 1, 0. *)
  Example C79_rounded_case : (exists eigh argsort sched, mesh_calls_rounded (1 / 10 ^ 12) eigh argsort 2 (fun _ _ _ => 7%R) sched ex_mesh) /\
    forall eta eigh argsort ncpu garbage sched, (eta <= 1 / 10 ^ 12)%R -> mesh_calls_rounded eta eigh argsort ncpu garbage sched ex_mesh ->
    exists s, mesh_slepian_fresh argsort eigh ncpu garbage sched ex_mesh = Ok s /\
      (Rabs (val (ms_evals s) 0 - 1) <= 1 / 10 ^ 10)%R /\ (Rabs (val (ms_evals s) 1 - 9/25) <= 1 / 10 ^ 10)%R /\
      exists a, (slep s 0 0 ^ 2 + (slep s 0 1 - a) ^ 2 + slep s 0 2 ^ 2 <= 1 / 10 ^ 22)%R.
  Proof.
    destruct C79_case as ((eigh0 & argsort0 & sched0 & X0) & V0). split.
    - destruct X0 as (HA & HN & HF & HE). exists (fun K => (map (fun x => (x + 1 / 10 ^ 12)%R) (fst (eigh0 K)), snd (eigh0 K))), argsort0, sched0.
      split; [exact HA|]. split; [exact HN|]. split; [exact HF|]. intros D ED. cbn [fst snd]. apply shifted; [lra|exact (HE D ED)].
    - intros eta eigh argsort ncpu garbage sched He X. destruct (V0 _ _ _ _ _ X0) as (s0 & E0 & EV & _ & _ & c & Hc & Z0 & Z1 & Z2).
      assert (NB : nb ex_mesh = 2) by reflexivity.
      assert (SM : (INR (nb ex_mesh) * eta <= 1 / 2)%R) by (rewrite NB; cbn [INR]; lra).
      destruct (C79_rounded eta eigh argsort ncpu garbage sched eigh0 argsort0 2 (fun _ _ _ => 7%R) sched0 ex_mesh s0 ex_ready SM X X0 E0) as (s & E & _ & _ & _ & _ & _ & (N1 & _ & N3 & _ & N5)).
      exists s. split; [exact E|]. rewrite EV in N3, N5. rewrite NB in N1, N3, N5.
      assert (P0 : (0 <= eta)%R) by (eapply Rle_trans; [apply Rabs_pos|apply (N1 0 0); lia]).
      pose proof (N3 0 ltac:(lia)) as A0. pose proof (N3 1 ltac:(lia)) as A1. unfold val in A0, A1. cbn [nth INR] in A0, A1.
      assert (B0 : (Rabs (val (ms_evals s) 0 - 1) <= 1 / 10 ^ 10)%R) by (eapply Rle_trans; [exact A0|]; lra).
      split; [exact B0|]. split; [eapply Rle_trans; [exact A1|]; lra|].
      destruct (N5 0 (1 / 2)%R ltac:(lia) ltac:(lra)) as (a & AZ & EB). exists (a 0%nat * c)%R.
      assert (Q : a 1 = 0%R).
      { apply AZ; [lia|]. unfold val at 1. cbn [nth]. apply Rabs_le_between in B0. rewrite Rabs_left1; lra. }
      change (nv ex_mesh) with 3 in EB. cbn [rsum] in EB. rewrite Q, Z0, Z1, Z2 in EB.
      match type of EB with (?x <= _)%R => replace (slep s 0 0 ^ 2 + (slep s 0 1 - a 0%nat * c) ^ 2 + slep s 0 2 ^ 2)%R with x by ring end.
      eapply Rle_trans; [exact EB|]. cbn [INR].
      assert (S2 : (0 <= sqrt (1 + 1) <= 3 / 2)%R).
      { split; [apply sqrt_pos|]. rewrite <- (sqrt_square (3 / 2)) by lra. apply sqrt_le_1_alt. lra. }
      assert (T0 : (0 <= sqrt (1 + 1) * eta)%R) by (apply Rmult_le_pos; lra).
      assert (T1 : (sqrt (1 + 1) * eta <= 3 / 2 * (1 / 10 ^ 12))%R) by (apply Rmult_le_compat; lra).
      assert (T : (0 <= sqrt (1 + 1) * eta / (1 / 2) <= 1 / 10 ^ 11)%R) by lra.
      eapply Rle_trans; [apply (pow_incr _ (1 / 10 ^ 11)%R); exact T|]. lra.
  Qed.

  (** The hypotheses of [C79_grows]: the same mesh with all vertices in the region. *)
  Definition whole_mesh : mesh := {|
    m_vertices := m_vertices ex_mesh; m_faces := m_faces ex_mesh; m_region := [true; true; true];
    m_evals := m_evals ex_mesh; m_basis := m_basis ex_mesh; m_number := 2 |}.
  Example C79_grows_case : mesh_ready whole_mesh /\ nv whole_mesh = nv ex_mesh /\ nb ex_mesh <= nb whole_mesh /\
    (forall v, v < nv ex_mesh -> inside ex_mesh v = true -> inside whole_mesh v = true) /\
    forall eigh argsort ncpu garbage sched s, mesh_calls eigh argsort ncpu garbage sched whole_mesh ->
      mesh_slepian_fresh argsort eigh ncpu garbage sched whole_mesh = Ok s -> ms_evals s = [1; 1]%R.
  Proof.
    assert (W : mesh_ready whole_mesh).
    { destruct ex_mesh_ok as [(W1 & W2 & W3 & W4) ob]. split; [|split; [exact ob|split; unfold nv, nb; cbn; lia]].
      split; [reflexivity|]. split; [exact W2|]. split; [exact W3|exact W4]. }
    split; [exact W|]. split; [reflexivity|]. split; [reflexivity|]. split.
    - intros v Hv _. unfold nv in Hv. cbn in Hv. destruct v as [|[|[|v]]]; [reflexivity..|lia].
    - intros eigh argsort ncpu garbage sched s X E. destruct (mesh_run _ _ _ _ _ _ _ W X E) as (_ & _ & _ & _ & _ & _ & (L1 & _)).
      change (nb whole_mesh) with 2 in L1.
      destruct (C79_rank _ _ _ _ _ _ _ 0 W X E ltac:(unfold nb; cbn; lia)) as [_ A0]. destruct (C79_rank _ _ _ _ _ _ _ 1 W X E ltac:(unfold nb; cbn; lia)) as [_ A1].
      specialize (A0 ltac:(unfold nb; cbn; lia)). specialize (A1 ltac:(unfold nb; cbn; lia)).
      destruct (ms_evals s) as [|x [|y [|]]]; try discriminate. unfold val in A0, A1. cbn in A0, A1. subst. reflexivity.
  Qed.
End MeshSpectralCases.
