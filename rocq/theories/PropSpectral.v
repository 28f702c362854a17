(** * C73, C74: the eigenvectors the solvers ask for exist for every region and
    band limit; the result does not depend on the eigensolver; two solvers for one
    region agree; larger regions and band limits give larger eigenvalues. *)
From Coq Require Import List ZArith Arith Bool Reals Lia Lra Sorting.Permutation.
From Coquelicot Require Import Coquelicot.
From Verif Require Import Base ListLemmas RSum CSum Numpy SpecPolar OrthoProofs Machine Job Mask Quadrature ArbitraryMatrix SpecArbitrary ArbitrarySolve ArbitrarySolveProofs Index IndexProofs Eigen SpecEigen EigenProofs PolarEigenProofs
  LatLon SpecLatLon LatLonIntegrals LatLonProofs LatLonParallel LatLonSolve SpecConcentration ConcentrationProofs
  SpecHarmonics SpecLegendre LegendreProofs CapProofs TextbookProofs SpecWigner WignerProofs SpecWignerD WignerDProofs SpectralProofs WeylProofs MotionProofs
  PropEigen PropMatrix PropLatLon PropConcentration PropCap PropArbitrary PropWignerD.
Import ListNotations.
Local Open Scope nat_scope.

(** ** C73: existence *)
(** What is asked of [LA.eigh] can be answered for every Hermitian matrix ... *)
Theorem C73_eigh : forall n D, hermitian n D -> exists evals cols, eigen_c n D evals cols.
Proof. exact spectral_c. Qed.
Print Assumptions C73_eigh.

(** ... with real vectors if the matrix is real. *)
Theorem C73_eigh_real : forall n D, (forall r c, r < n -> c < n -> D r c = D c r) -> exists evals cols, eigen_r n D evals cols.
Proof. exact spectral_r. Qed.
Print Assumptions C73_eigh_real.

(** The calls made for a box can be answered: any band limit, any box, any table of
    Wigner's values, any order of the iterations. *)
Theorem C73_box_answers : forall theta_min theta_max phi_min phi_max dl order L, 1 <= L -> wigner_generated dl L -> schedule order L ->
  exists eigh argsort, box_calls eigh argsort theta_min theta_max phi_min phi_max dl order L.
Proof.
  intros tmin tmax pmin pmax dl order L HL HW HO. destruct (C05_matrix tmin tmax pmin pmax dl order L HL (proj1 HW) HO) as (K & E & _).
  pose proof (C05_hermitian tmin tmax pmin pmax dl order L K HL (proj1 HW) HO E) as HH.
  destruct (spectral_c _ _ HH) as (w & v & EV). exists (fun _ => (w, v)), insertion_argsort.
  split; [exact insertion_argsort_ok|]. split; [exact HW|]. split; [exact HO|]. intros K' E'. rewrite E in E'. injection E' as <-. exact EV.
Qed.
Print Assumptions C73_box_answers.

Lemma finite_choice {A} (P : nat -> A -> Prop) (d : A) L : (forall a, a < L -> exists x, P a x) -> exists f, forall a, a < L -> P a (f a).
Proof.
  induction L as [|L IH]; intros H; [exists (fun _ => d); intros; lia|].
  destruct IH as [f Hf]; [intros a Ha; apply H; lia|]. destruct (H L ltac:(lia)) as [x Hx].
  exists (fun a => if a =? L then x else f a). intros a Ha. destruct (Nat.eqb_spec a L) as [->|N]; [exact Hx|apply Hf; lia].
Qed.

Lemma finished_exists L gap Theta ylm_edge a : edge_harmonics L Theta ylm_edge -> a < L -> exists D, finished_matrix L gap ylm_edge a D.
Proof.
  intros HY H. destruct (C02_polar_can_finish L a gap ylm_edge 2 (fun _ _ _ => 7%R) []) as (sched & y & E & F).
  destruct (C02_polar_matrix_any_schedule L a gap ylm_edge (cap_P Theta) 2 (fun _ _ _ => 7%R) ([] ++ sched) y H ltac:(lia)) as (D & ED & _).
  - intros n Hn. unfold cap_P. rewrite Nat2Z.id. apply (edge_value L Theta _ n HY Hn).
  - exact E.
  - exact F.
  - exists D, 2, (fun _ _ _ => 7%R), ([] ++ sched), y. split; [lia|]. split; [exact E|]. split; [exact F|exact ED].
Qed.

(** The calls made for a cap or a gap: every finished set of matrices can be
    decomposed, and there is one. *)
Theorem C73_cap_answers : forall L gap Theta ylm_edge, edge_harmonics L Theta ylm_edge ->
  (exists Dm, forall a, a < L -> finished_matrix L gap ylm_edge a (Dm a)) /\
  forall Dm, (forall a, a < L -> finished_matrix L gap ylm_edge a (Dm a)) -> exists eigh argsort, polar_calls eigh argsort L gap Theta ylm_edge Dm.
Proof.
  intros L gap Theta ylm HY. split.
  - apply (finite_choice (fun a D => finished_matrix L gap ylm a D) (fun _ _ => 0%R)). intros a Ha. exact (finished_exists L gap Theta ylm a HY Ha).
  - intros Dm HD.
    destruct (finite_choice (fun a (x : list R * list (list R)) => eigen_r (L - a) (Dm a) (fst x) (snd x)) ([], []) L) as [f Hf].
    { intros a Ha. destruct (spectral_r (L - a) (Dm a)) as (w & v & H); [|exists (w, v); exact H].
      intros r c Hr Hc. rewrite !(matrix_value L gap Theta ylm a (Dm a) _ _ Ha HY (HD a Ha)) by assumption. rewrite (Nat.min_comm c r), (Nat.max_comm c r). reflexivity. }
    exists (fun n _ => f (L - n)), insertion_argsort. split; [exact insertion_argsort_ok|]. split; [exact HY|]. split; [exact HD|].
    intros a Ha. replace (L - (L - a)) with a by lia. exact (Hf a Ha).
Qed.
Print Assumptions C73_cap_answers.

(** The calls made for a mask: any number of threads, any schedule so far. *)
Theorem C73_mask_answers : forall L mask ncpu garbage sched, 1 <= L -> 0 < ncpu -> shape mask = repeat (4 * L) (2 * L + 1) ->
  exists eigh argsort samples_of more, mask_calls eigh argsort L mask samples_of ncpu garbage (sched ++ more).
Proof.
  intros L mask ncpu garbage sched HL HN HM.
  set (f := fun i s => ylm_number i (colatitude (2 * L) (s / (4 * L))) (longitude (2 * L) (s mod (4 * L)))).
  destruct (C03_arbitrary_can_finish L (samples (2 * L)) (flat_mask mask) (flat_weight (2 * L)) f ncpu garbage sched) as (more & F).
  pose proof (table_textbook L) as T.
  assert (SYM : forall el m s, el < L -> (Z.abs m <= Z.of_nat el)%Z -> f (elm2ind el (- m)) s = (RtoC (pm1 m) * Cconj (f (elm2ind el m) s))%C).
  { intros el m s Hel Hm. assert (B : forall k, (Z.abs k <= Z.of_nat el)%Z -> elm2ind el k < L * L) by (intros k Hk; unfold elm2ind; nia).
    unfold f. rewrite <- !(number_ylm wigner_table L _ _ _ T) by (apply B; lia). rewrite !harmonic_number_elm by lia. unfold pm1. apply (textbook_conjugate _ L T); lia. }
  destruct (C03_arbitrary_matrix_any_schedule L _ _ _ f ncpu HL HN garbage SYM (sched ++ more) F) as (D & ED & HD).
  assert (HH : hermitian (L * L) D).
  { intros r c Hr Hc. rewrite !HD by assumption. rewrite csum_conj. apply csum_ext. intros s _. rewrite !Cconj_mult, Cconj_conj, Cconj_R. ring. }
  destruct (spectral_c _ _ HH) as (w & v & EV). exists (fun _ => (w, v)), insertion_argsort, f, more.
  split; [exact HN|]. split; [exact insertion_argsort_ok|]. split; [exact HM|]. split; [reflexivity|]. split; [exact F|].
  intros D' E'. rewrite ED in E'. injection E' as <-. exact EV.
Qed.
Print Assumptions C73_mask_answers.

(** ** C73: the result does not depend on the eigensolver *)
(** The first [N] eigenvalues are larger than the others. *)
Definition separated (evals : list R) (N : nat) : Prop :=
  forall p q, p < N -> N <= q -> q < length evals -> (nth q evals 0 < nth p evals 0)%R.

(** Two solutions [evals], [F] and [evals'], [F'] of one problem: equal eigenvalues;
    the sum over the first [N] functions of F_p at one point times its conjugate at
    another, from which every approximation by [N] functions is made, is the same;
    a function whose eigenvalue is simple is the same up to a phase. *)
Definition same_solution (n : nat) (evals : list R) (F : nat -> R -> R -> C) (evals' : list R) (F' : nat -> R -> R -> C) : Prop :=
  evals' = evals /\
  (forall N theta phi theta' phi', N <= n -> separated evals N ->
     csum N (fun p => Cmult (F' p theta phi) (Cconj (F' p theta' phi'))) = csum N (fun p => Cmult (F p theta phi) (Cconj (F p theta' phi')))) /\
  (forall p, p < n -> separated evals p -> separated evals (p + 1) ->
     exists c, Cmod c = 1%R /\ forall theta phi, F' p theta phi = Cmult c (F p theta phi)).

Lemma kernel_functions L rows rows' N : N <= L * L ->
  (forall i j, i < L * L -> j < L * L ->
    csum N (fun p => Cmult (nth i (nth p rows' []) (RtoC 0)) (Cconj (nth j (nth p rows' []) (RtoC 0)))) =
    csum N (fun p => Cmult (nth i (nth p rows []) (RtoC 0)) (Cconj (nth j (nth p rows []) (RtoC 0))))) ->
  forall theta phi theta' phi',
     csum N (fun p => Cmult (row_function L rows' p theta phi) (Cconj (row_function L rows' p theta' phi'))) =
     csum N (fun p => Cmult (row_function L rows p theta phi) (Cconj (row_function L rows p theta' phi'))).
Proof.
  intros HN H t p t' p'.
  assert (E : forall r, csum N (fun q => Cmult (row_function L r q t p) (Cconj (row_function L r q t' p'))) =
     csum (L * L) (fun i => csum (L * L) (fun j => Cmult (csum N (fun q => Cmult (nth i (nth q r []) (RtoC 0)) (Cconj (nth j (nth q r []) (RtoC 0))))) (Cmult (ylm_number i t p) (Cconj (ylm_number j t' p')))))).
  { intros r. rewrite (csum_ext N _ (fun q => csum (L * L) (fun i => csum (L * L) (fun j => Cmult (Cmult (nth i (nth q r []) (RtoC 0)) (Cconj (nth j (nth q r []) (RtoC 0)))) (Cmult (ylm_number i t p) (Cconj (ylm_number j t' p'))))))).
    - rewrite csum_swap. apply csum_ext. intros i _. rewrite csum_swap. apply csum_ext. intros j _. rewrite csum_scal_r. reflexivity.
    - intros q _. unfold row_function, expansion. rewrite csum_conj, csum_mult. apply csum_ext. intros i _. apply csum_ext. intros j _. rewrite Cconj_mult. ring. }
  rewrite !E. apply csum_ext. intros i Hi. apply csum_ext. intros j Hj. rewrite H by assumption. reflexivity.
Qed.

Lemma decomposed_solution L K evals rows evals' rows' : decomposed (L * L) K evals rows -> decomposed (L * L) K evals' rows' ->
  same_solution (L * L) evals (row_function L rows) evals' (row_function L rows').
Proof.
  intros H H'. pose proof (decomposed_same _ _ _ _ _ _ H H') as EV. subst evals'. split; [reflexivity|].
  assert (KER : forall N, N <= L * L -> separated evals N -> forall i j, i < L * L -> j < L * L ->
    csum N (fun p => Cmult (nth i (nth p rows' []) (RtoC 0)) (Cconj (nth j (nth p rows' []) (RtoC 0)))) =
    csum N (fun p => Cmult (nth i (nth p rows []) (RtoC 0)) (Cconj (nth j (nth p rows []) (RtoC 0))))).
  { intros N HN G i j Hi Hj. symmetry. apply (decomposed_kernel (L * L) K evals rows evals rows' N H H' HN); [|exact Hi|exact Hj].
    intros p q Hp Hq Hq'. apply G; [exact Hp|exact Hq|]. destruct H as (-> & _). exact Hq'. }
  split.
  - intros N t p t' p' HN G. apply (kernel_functions L rows rows' N HN). exact (KER N HN G).
  - intros p Hp G0 G1. set (u := fun i => nth i (nth p rows []) (RtoC 0)). set (v := fun i => nth i (nth p rows' []) (RtoC 0)).
    assert (ONE : forall i j, i < L * L -> j < L * L -> Cmult (v i) (Cconj (v j)) = Cmult (u i) (Cconj (u j))).
    { intros i j Hi Hj. rewrite Nat.add_1_r in G1. pose proof (KER (S p) ltac:(lia) G1 i j Hi Hj) as E1. pose proof (KER p ltac:(lia) G0 i j Hi Hj) as E0. cbn [csum] in E1. rewrite E0 in E1.
      set (s := csum p _) in E1. fold (u i) (u j) (v i) (v j) in E1. transitivity (Cminus (Cplus s (Cmult (v i) (Cconj (v j)))) s); [ring|]. rewrite E1. ring. }
    destruct H as (_ & _ & _ & Ou & _). destruct H' as (_ & _ & _ & Ov & _).
    pose proof (Ou p p Hp Hp) as U1. rewrite Nat.eqb_refl in U1. pose proof (Ov p p Hp Hp) as V1. rewrite Nat.eqb_refl in V1. fold u in U1. fold v in V1.
    set (c := ip (L * L) v u). exists c.
    assert (VU : forall i, i < L * L -> v i = Cmult c (u i)).
    { intros i Hi. rewrite <- (Cmult_1_r (v i)). rewrite <- V1. unfold ip at 1. rewrite <- csum_scal_l.
      rewrite (csum_ext (L * L) _ (fun j => Cmult (Cmult (v j) (Cconj (u j))) (u i))).
      - rewrite csum_scal_r. reflexivity.
      - intros j Hj. transitivity (Cmult (v j) (Cmult (v i) (Cconj (v j)))); [ring|]. rewrite ONE by assumption. ring. }
    split.
    + assert (N1 : Cmult c (Cconj c) = RtoC 1).
      { rewrite (ip_ext (L * L) v (fun i => Cmult c (u i)) v (fun i => Cmult c (u i)) VU VU) in V1. rewrite ip_scal_l, ip_scal_r, U1 in V1.
        rewrite <- V1. ring. }
      assert (C2 : RtoC (Cmod c ^ 2) = RtoC 1) by (rewrite <- N1; apply Cmod2). apply RtoC_inj in C2. pose proof (Cmod_ge_0 c). nra.
    + intros t ph. unfold row_function, expansion. rewrite <- csum_scal_l. apply csum_ext. intros i Hi.
      change (nth i (nth p rows' []) (RtoC 0)) with (v i). change (nth i (nth p rows []) (RtoC 0)) with (u i). rewrite (VU i Hi). ring.
Qed.

Lemma same_solution_ext n evals F evals' F' G' : (forall p t ph, p < n -> F' p t ph = G' p t ph) ->
  same_solution n evals F evals' F' -> same_solution n evals F evals' G'.
Proof.
  intros X (E & K & P). split; [exact E|]. split.
  - intros N t p t' p' HN G. rewrite <- (K N t p t' p' HN G). apply csum_ext. intros q Hq. rewrite !X by lia. reflexivity.
  - intros p Hp G0 G1. destruct (P p Hp G0 G1) as (c & Hc & H). exists c. split; [exact Hc|]. intros t ph. rewrite <- X by exact Hp. apply H.
Qed.

Lemma box_run eigh argsort tmin tmax pmin pmax dl order L evals rows : 1 <= L -> box_calls eigh argsort tmin tmax pmin pmax dl order L ->
  solve_lat_lon eigh argsort tmin tmax pmin pmax dl order L = Ok (evals, rows) ->
  exists K, (forall i j, i < L * L -> j < L * L -> inner (ylm_number i) (ylm_number j) tmin tmax pmin pmax (K i j)) /\ decomposed (L * L) K evals rows.
Proof.
  intros HL (HA & HW & HO & HE) ES. pose proof (proj2 (C71_table L) dl HW) as T. pose proof (proj1 HW) as HG.
  assert (X : external_calls eigh argsort tmin tmax pmin pmax dl order L)
    by (split; [exact HA|]; split; [exact HG|]; split; [exact HO|]; split; [exact T|exact HE]).
  destruct (solved eigh argsort tmin tmax pmin pmax dl order L HL X) as (K & evals' & rows' & E & HK & Hl & Hr & Hd & Ho & He).
  rewrite ES in E. injection E as <- <-. exists K. split; [|repeat split; assumption].
  intros i j Hi Hj. exact (inner_same _ _ _ _ _ _ _ _ _ (fun t p => number_ylm _ L i t p T Hi) (fun t p => number_ylm _ L j t p T Hj) (HK i j Hi Hj)).
Qed.

(** The same box, another eigensolver, another sorting of ties, another order of
    the iterations. *)
Theorem C73_box_unique : forall eigh argsort dl order eigh' argsort' dl' order' theta_min theta_max phi_min phi_max L evals rows evals' rows', 1 <= L ->
  box_calls eigh argsort theta_min theta_max phi_min phi_max dl order L ->
  box_calls eigh' argsort' theta_min theta_max phi_min phi_max dl' order' L ->
  solve_lat_lon eigh argsort theta_min theta_max phi_min phi_max dl order L = Ok (evals, rows) ->
  solve_lat_lon eigh' argsort' theta_min theta_max phi_min phi_max dl' order' L = Ok (evals', rows') ->
  same_solution (L * L) evals (row_function L rows) evals' (row_function L rows').
Proof.
  intros eigh argsort dl order eigh' argsort' dl' order' tmin tmax pmin pmax L evals rows evals' rows' HL X X' E E'.
  destruct (box_run _ _ _ _ _ _ _ _ _ _ _ HL X E) as (K & HK & D). destruct (box_run _ _ _ _ _ _ _ _ _ _ _ HL X' E') as (K' & HK' & D').
  apply (decomposed_solution L K); [exact D|]. apply (decomposed_ext _ K'); [|exact D'].
  intros i j Hi Hj. exact (inner_unique _ _ _ _ _ _ _ _ (HK' i j Hi Hj) (HK i j Hi Hj)).
Qed.
Print Assumptions C73_box_unique.

Lemma caps_run eigh argsort L gap Theta ylm_edge Dm evals rows orders : 1 <= L -> polar_calls eigh argsort L gap Theta ylm_edge Dm ->
  solve_all_orders argsort eigh Dm L = Ok (evals, rows, orders) ->
  (forall i j, i < L * L -> j < L * L -> caps_inner gap Theta (ylm_number i) (ylm_number j) (cap_matrix gap Theta i j)) /\ decomposed (L * L) (cap_matrix gap Theta) evals rows.
Proof.
  intros HL (HA & HY & HD & HE) ES. pose proof (table_textbook L) as T.
  assert (X : cap_calls eigh argsort wigner_table L gap Theta ylm_edge Dm) by (split; [exact HA|]; split; [exact T|]; split; [exact HY|]; split; assumption).
  destruct (cap_solved _ _ _ L gap Theta ylm_edge Dm HL X) as (evals' & rows' & orders' & E & Hl & Hr & Ho & Hd & Hor & He & _).
  rewrite ES in E. injection E as <- <- <-. split; [|repeat split; assumption].
  intros i j Hi Hj. pose proof (cap_overlap wigner_table L gap Theta i j (textbook_product _ _ T) Hi Hj) as G.
  exact (caps_same _ _ _ _ _ _ _ (fun t p => number_ylm _ L i t p T Hi) (fun t p => number_ylm _ L j t p T Hj) G).
Qed.

Theorem C73_cap_unique : forall eigh argsort ylm_edge Dm eigh' argsort' ylm_edge' Dm' L gap Theta evals rows orders evals' rows' orders', 1 <= L ->
  polar_calls eigh argsort L gap Theta ylm_edge Dm -> polar_calls eigh' argsort' L gap Theta ylm_edge' Dm' ->
  solve_all_orders argsort eigh Dm L = Ok (evals, rows, orders) -> solve_all_orders argsort' eigh' Dm' L = Ok (evals', rows', orders') ->
  same_solution (L * L) evals (row_function L rows) evals' (row_function L rows').
Proof.
  intros eigh argsort ylm Dm eigh' argsort' ylm' Dm' L gap Theta evals rows orders evals' rows' orders' HL X X' E E'.
  exact (decomposed_solution L (cap_matrix gap Theta) _ _ _ _ (proj2 (caps_run _ _ _ _ _ _ _ _ _ _ HL X E)) (proj2 (caps_run _ _ _ _ _ _ _ _ _ _ HL X' E'))).
Qed.
Print Assumptions C73_cap_unique.

Lemma mask_run eigh argsort L mask samples_of ncpu garbage sched evals rows : 1 <= L -> mask_calls eigh argsort L mask samples_of ncpu garbage sched ->
  solve_arbitrary eigh argsort L mask samples_of ncpu garbage sched = Ok (evals, rows) ->
  decomposed (L * L) (fun i j => grid_inner (2 * L) (masked mask) (ylm_number i) (ylm_number j)) evals rows.
Proof.
  intros HL (HN & HA & HM & HF & HD & HE) ES. pose proof (table_textbook L) as T.
  assert (X : arbitrary_calls eigh argsort wigner_table L mask samples_of ncpu garbage sched).
  { split; [exact HN|]. split; [exact HA|]. split; [exact HM|]. split; [|split; [exact T|split; assumption]].
    intros i s Hi. rewrite (number_ylm _ L) by assumption. replace (2 * (2 * L)) with (4 * L) by lia. apply HF, Hi. }
  destruct (solved_arbitrary _ _ _ _ _ _ _ _ _ HL X) as (D & evals' & rows' & E & HG & Hl & Hr & Hd & _ & Ho & He).
  rewrite ES in E. injection E as <- <-. apply (decomposed_ext _ D); [|repeat split; assumption].
  intros i j Hi Hj. rewrite (HG i j Hi Hj). apply grid_same; intros t p; apply (number_ylm _ L); assumption.
Qed.

Theorem C73_mask_unique : forall eigh argsort samples_of ncpu garbage sched eigh' argsort' samples_of' ncpu' garbage' sched' L mask evals rows evals' rows', 1 <= L ->
  mask_calls eigh argsort L mask samples_of ncpu garbage sched -> mask_calls eigh' argsort' L mask samples_of' ncpu' garbage' sched' ->
  solve_arbitrary eigh argsort L mask samples_of ncpu garbage sched = Ok (evals, rows) ->
  solve_arbitrary eigh' argsort' L mask samples_of' ncpu' garbage' sched' = Ok (evals', rows') ->
  same_solution (L * L) evals (row_function L rows) evals' (row_function L rows').
Proof.
  intros eigh argsort f ncpu garbage sched eigh' argsort' f' ncpu' garbage' sched' L mask evals rows evals' rows' HL X X' E E'.
  exact (decomposed_solution L _ _ _ _ _ (mask_run _ _ _ _ _ _ _ _ _ _ HL X E) (mask_run _ _ _ _ _ _ _ _ _ _ HL X' E')).
Qed.
Print Assumptions C73_mask_unique.

(** A polar cap is also a box over all longitudes: the two solvers, which share no
    formula, agree. *)
Theorem C73_cap_is_box : forall eigh argsort dl order eigh' argsort' ylm_edge Dm L Theta evals rows evals' rows' orders, 1 <= L ->
  box_calls eigh argsort 0 Theta 0 (2 * PI) dl order L -> polar_calls eigh' argsort' L false Theta ylm_edge Dm ->
  solve_lat_lon eigh argsort 0 Theta 0 (2 * PI) dl order L = Ok (evals, rows) ->
  solve_all_orders argsort' eigh' Dm L = Ok (evals', rows', orders) ->
  same_solution (L * L) evals (row_function L rows) evals' (row_function L rows').
Proof.
  intros eigh argsort dl order eigh' argsort' ylm Dm L Theta evals rows evals' rows' orders HL X X' E E'.
  destruct (box_run _ _ _ _ _ _ _ _ _ _ _ HL X E) as (K & HK & D). destruct (caps_run _ _ _ _ _ _ _ _ _ _ HL X' E') as [HC D'].
  apply (decomposed_solution L K); [exact D|]. apply (decomposed_ext _ (cap_matrix false Theta)); [|exact D'].
  intros i j Hi Hj. destruct (HC i j Hi Hj) as (north & south & HN & _ & Q). cbn iota in Q. rewrite Q. exact (inner_unique _ _ _ _ _ _ _ _ HN (HK i j Hi Hj)).
Qed.
Print Assumptions C73_cap_is_box.

(** The eigenvalues are a function of the region and the band limit alone. *)
Theorem C73_box_determined : forall theta_min theta_max phi_min phi_max L, 1 <= L -> exists spectrum, length spectrum = L * L /\
  forall eigh argsort dl order, box_calls eigh argsort theta_min theta_max phi_min phi_max dl order L ->
  exists rows, solve_lat_lon eigh argsort theta_min theta_max phi_min phi_max dl order L = Ok (spectrum, rows).
Proof.
  intros tmin tmax pmin pmax L HL.
  assert (OK : forall eigh argsort dl order, box_calls eigh argsort tmin tmax pmin pmax dl order L ->
    exists evals rows, solve_lat_lon eigh argsort tmin tmax pmin pmax dl order L = Ok (evals, rows) /\ length evals = L * L).
  { intros eigh argsort dl order (HA & HW & HO & HE). pose proof (proj2 (C71_table L) dl HW) as T.
    assert (X : external_calls eigh argsort tmin tmax pmin pmax dl order L)
      by (split; [exact HA|]; split; [exact (proj1 HW)|]; split; [exact HO|]; split; [exact T|exact HE]).
    destruct (solved eigh argsort tmin tmax pmin pmax dl order L HL X) as (K & evals & rows & E & _ & Hl & _). exists evals, rows. split; assumption. }
  destruct (proj1 (C71_table L)) as (dl & HW).
  destruct (C73_box_answers tmin tmax pmin pmax dl (zrange 0 (Z.of_nat L)) L HL HW (Permutation_refl _)) as (eigh & argsort & X).
  destruct (OK _ _ _ _ X) as (evals & rows & E & Hl). exists evals. split; [exact Hl|].
  intros eigh' argsort' dl' order' X'. destruct (OK _ _ _ _ X') as (evals' & rows' & E' & _). exists rows'. rewrite E'.
  destruct (C73_box_unique _ _ _ _ _ _ _ _ _ _ _ _ _ _ _ _ _ HL X X' E E') as (-> & _). reflexivity.
Qed.
Print Assumptions C73_box_determined.

Theorem C73_cap_determined : forall gap Theta L, 1 <= L -> exists spectrum, length spectrum = L * L /\
  forall eigh argsort ylm_edge Dm, polar_calls eigh argsort L gap Theta ylm_edge Dm ->
  exists rows orders, solve_all_orders argsort eigh Dm L = Ok (spectrum, rows, orders).
Proof.
  intros gap Theta L HL.
  assert (OK : forall eigh argsort ylm_edge Dm, polar_calls eigh argsort L gap Theta ylm_edge Dm ->
    exists evals rows orders, solve_all_orders argsort eigh Dm L = Ok (evals, rows, orders) /\ length evals = L * L).
  { intros eigh argsort ylm Dm (HA & HY & HD & HE). pose proof (table_textbook L) as T.
    assert (X : cap_calls eigh argsort wigner_table L gap Theta ylm Dm) by (split; [exact HA|]; split; [exact T|]; split; [exact HY|]; split; assumption).
    destruct (cap_solved _ _ _ L gap Theta ylm Dm HL X) as (evals & rows & orders & E & Hl & _). exists evals, rows, orders. split; assumption. }
  destruct (C73_cap_answers L gap Theta (CapCases.ylm Theta) (CapCases.ylm_ok L Theta)) as [(Dm & HD) H]. destruct (H Dm HD) as (eigh & argsort & X).
  destruct (OK _ _ _ _ X) as (evals & rows & orders & E & Hl). exists evals. split; [exact Hl|].
  intros eigh' argsort' ylm' Dm' X'. destruct (OK _ _ _ _ X') as (evals' & rows' & orders' & E' & _). exists rows', orders'. rewrite E'.
  destruct (C73_cap_unique _ _ _ _ _ _ _ _ _ _ _ _ _ _ _ _ _ HL X X' E E') as (-> & _). reflexivity.
Qed.
Print Assumptions C73_cap_determined.

Theorem C73_mask_determined : forall mask L, 1 <= L -> shape mask = repeat (4 * L) (2 * L + 1) -> exists spectrum, length spectrum = L * L /\
  forall eigh argsort samples_of ncpu garbage sched, mask_calls eigh argsort L mask samples_of ncpu garbage sched ->
  exists rows, solve_arbitrary eigh argsort L mask samples_of ncpu garbage sched = Ok (spectrum, rows).
Proof.
  intros mask L HL HM.
  destruct (C73_mask_answers L mask 1 (fun _ _ _ => 0%R) [] HL Nat.lt_0_1 HM) as (eigh & argsort & f & more & X).
  destruct (C71_mask_functions _ _ _ _ _ _ _ _ HL X) as (evals & rows & E & Hl & _). exists evals. split; [exact Hl|].
  intros eigh' argsort' f' ncpu' garbage' sched' X'. destruct (C71_mask_functions _ _ _ _ _ _ _ _ HL X') as (evals' & rows' & E' & _). exists rows'. rewrite E'.
  destruct (C73_mask_unique _ _ _ _ _ _ _ _ _ _ _ _ _ _ _ _ _ _ HL X X' E E') as (-> & _). reflexivity.
Qed.
Print Assumptions C73_mask_determined.

(** ** C74: moved, mirrored, complementary and larger regions *)
(** A box turned by [delta] about the polar axis: the same eigenvalues, and the
    functions turn with it. *)
Theorem C74_turned : forall eigh argsort dl order eigh' argsort' dl' order' theta_min theta_max phi_min phi_max delta L evals rows evals' rows', 1 <= L ->
  box_calls eigh argsort theta_min theta_max phi_min phi_max dl order L ->
  box_calls eigh' argsort' theta_min theta_max (phi_min + delta) (phi_max + delta) dl' order' L ->
  solve_lat_lon eigh argsort theta_min theta_max phi_min phi_max dl order L = Ok (evals, rows) ->
  solve_lat_lon eigh' argsort' theta_min theta_max (phi_min + delta) (phi_max + delta) dl' order' L = Ok (evals', rows') ->
  same_solution (L * L) evals (row_function L rows) evals' (fun p theta phi => row_function L rows' p theta (phi + delta)%R).
Proof.
  intros eigh argsort dl order eigh' argsort' dl' order' tmin tmax pmin pmax d L evals rows evals' rows' HL X X' E E'.
  destruct (box_run _ _ _ _ _ _ _ _ _ _ _ HL X E) as (K & HK & D). destruct (box_run _ _ _ _ _ _ _ _ _ _ _ HL X' E') as (K' & HK' & D').
  set (s := fun i => expi (IZR (order_of i) * d)).
  assert (U : forall i, i < L * L -> Cmult (s i) (Cconj (s i)) = RtoC 1).
  { intros i _. unfold s. rewrite <- expi_neg, <- expi_plus, Rplus_opp_r. apply expi_0. }
  assert (EK : forall i j, i < L * L -> j < L * L -> K' i j = Cmult (Cmult (s i) (Cconj (s j))) (K i j)).
  { intros i j Hi Hj. pose proof (box_shift _ _ _ _ _ _ _ (HK' i j Hi Hj)) as H1. pose proof (box_scal (Cmult (s i) (Cconj (s j))) _ _ _ _ _ _ (HK i j Hi Hj)) as H2.
    refine (box_integral_unique _ _ _ _ _ _ _ (box_ext _ _ _ _ _ _ _ _ H1) H2). intros t p. cbn beta. rewrite !number_turn, Cconj_mult. fold (s i) (s j). ring. }
  pose proof (decomposed_solution L K _ _ _ _ D (decomposed_phase _ K K' s _ _ U EK D')) as Q. refine (same_solution_ext _ _ _ _ _ _ _ Q).
  intros p t ph Hp. unfold row_function, expansion. apply csum_ext. intros i Hi. rewrite number_turn. fold (s i).
  rewrite (nth_map_seq (L * L) (fun p => map (fun i => Cmult (s i) (nth i (nth p rows' []) (RtoC 0))) (seq 0 (L * L))) p [] Hp).
  rewrite (nth_map_seq (L * L) (fun i => Cmult (s i) (nth i (nth p rows' []) (RtoC 0))) i (RtoC 0) Hi). ring.
Qed.
Print Assumptions C74_turned.

(** A box mirrored in the equator. *)
Theorem C74_mirrored : forall eigh argsort dl order eigh' argsort' dl' order' theta_min theta_max phi_min phi_max L evals rows evals' rows', 1 <= L ->
  box_calls eigh argsort theta_min theta_max phi_min phi_max dl order L ->
  box_calls eigh' argsort' (PI - theta_max) (PI - theta_min) phi_min phi_max dl' order' L ->
  solve_lat_lon eigh argsort theta_min theta_max phi_min phi_max dl order L = Ok (evals, rows) ->
  solve_lat_lon eigh' argsort' (PI - theta_max) (PI - theta_min) phi_min phi_max dl' order' L = Ok (evals', rows') ->
  same_solution (L * L) evals (row_function L rows) evals' (fun p theta phi => row_function L rows' p (PI - theta)%R phi).
Proof.
  intros eigh argsort dl order eigh' argsort' dl' order' tmin tmax pmin pmax L evals rows evals' rows' HL X X' E E'.
  destruct (box_run _ _ _ _ _ _ _ _ _ _ _ HL X E) as (K & HK & D). destruct (box_run _ _ _ _ _ _ _ _ _ _ _ HL X' E') as (K' & HK' & D').
  set (s := fun i => RtoC (pm1 (Z.of_nat (Nat.sqrt i) + order_of i))).
  assert (U : forall i, i < L * L -> Cmult (s i) (Cconj (s i)) = RtoC 1).
  { intros i _. unfold s. rewrite Cconj_R, <- RtoC_mult, WignerProofs.pm1_sq. reflexivity. }
  assert (EK : forall i j, i < L * L -> j < L * L -> K' i j = Cmult (Cmult (s i) (Cconj (s j))) (K i j)).
  { intros i j Hi Hj. pose proof (box_mirror _ _ _ _ _ _ _ (HK' i j Hi Hj)) as H1. pose proof (box_scal (Cmult (s i) (Cconj (s j))) _ _ _ _ _ _ (HK i j Hi Hj)) as H2.
    refine (box_integral_unique _ _ _ _ _ _ _ (box_ext _ _ _ _ _ _ _ _ H1) H2). intros t p. cbn beta. rewrite !number_mirror, Cconj_mult, sin_PI_x. fold (s i) (s j). ring. }
  pose proof (decomposed_solution L K _ _ _ _ D (decomposed_phase _ K K' s _ _ U EK D')) as Q. refine (same_solution_ext _ _ _ _ _ _ _ Q).
  intros p t ph Hp. unfold row_function, expansion. apply csum_ext. intros i Hi. rewrite number_mirror. fold (s i).
  rewrite (nth_map_seq (L * L) (fun p => map (fun i => Cmult (s i) (nth i (nth p rows' []) (RtoC 0))) (seq 0 (L * L))) p [] Hp).
  rewrite (nth_map_seq (L * L) (fun i => Cmult (s i) (nth i (nth p rows' []) (RtoC 0))) i (RtoC 0) Hi). ring.
Qed.
Print Assumptions C74_mirrored.

(** The part of the sphere outside a polar cap: its eigenvalues are one minus those
    of the cap in the opposite order, its functions those of the cap in the opposite
    order. *)
Theorem C74_complement : forall eigh argsort dl order eigh' argsort' ylm_edge Dm L Theta evals rows orders evals' rows', 1 <= L ->
  polar_calls eigh' argsort' L false Theta ylm_edge Dm -> box_calls eigh argsort Theta PI 0 (2 * PI) dl order L ->
  solve_all_orders argsort' eigh' Dm L = Ok (evals, rows, orders) ->
  solve_lat_lon eigh argsort Theta PI 0 (2 * PI) dl order L = Ok (evals', rows') ->
  same_solution (L * L) (rev (map (fun x => (1 - x)%R) evals)) (fun p => row_function L rows (L * L - 1 - p)) evals' (row_function L rows').
Proof.
  intros eigh argsort dl order eigh' argsort' ylm Dm L Theta evals rows orders evals' rows' HL X X' E E'.
  destruct (caps_run _ _ _ _ _ _ _ _ _ _ HL X E) as [HC D]. destruct (box_run _ _ _ _ _ _ _ _ _ _ _ HL X' E') as (K' & HK' & D').
  assert (SUM : forall i j, i < L * L -> j < L * L -> Cplus (cap_matrix false Theta i j) (K' i j) = RtoC (if i =? j then 1 else 0)).
  { intros i j Hi Hj. destruct (HC i j Hi Hj) as (north & south & HN & _ & Q). cbn iota in Q. rewrite Q.
    exact (box_integral_unique _ _ _ _ _ _ _ (box_split_theta _ _ _ _ _ _ _ _ HN (HK' i j Hi Hj)) (C71_orthonormal i j)). }
  destruct (decomposed_solution L K' _ _ _ _ (decomposed_complement _ _ _ _ _ SUM D) D') as (Q1 & Q2 & Q3).
  assert (R0 : forall p, p < L * L -> row_function L (rev rows) p = row_function L rows (L * L - 1 - p)).
  { intros p Hp. unfold row_function. destruct D as (_ & LR & _). rewrite rev_nth by (rewrite LR; exact Hp). rewrite LR. replace (L * L - S p) with (L * L - 1 - p) by lia. reflexivity. }
  split; [exact Q1|]. split.
  - intros N t p t' p' HN G. rewrite (Q2 N t p t' p' HN G). apply csum_ext. intros q Hq. rewrite R0 by lia. reflexivity.
  - intros p Hp G0 G1. rewrite <- R0 by exact Hp. exact (Q3 p Hp G0 G1).
Qed.
Print Assumptions C74_complement.

Lemma form_box L K w a b c e : (forall i j, i < L * L -> j < L * L -> inner (ylm_number i) (ylm_number j) a b c e (K i j)) ->
  energy (expansion (L * L) w) a b c e (Re (gram (L * L) K w w)).
Proof.
  intros H. pose proof (table_textbook L) as T. apply (inner_energy (expansion (L * L) w) a b c e (gram (L * L) K w w)).
  refine (inner_same _ _ _ _ _ _ _ _ _ _ _ (inner_gram wigner_table (L * L) K w w a b c e _)); try (intros; apply limited_ylm; exact T).
  intros i j Hi Hj. refine (inner_same _ _ _ _ _ _ _ _ _ _ _ (H i j Hi Hj)); intros t p; symmetry; apply (number_ylm _ L); assumption.
Qed.

Lemma expansion_energy L w a b c e : 1 <= L -> exists v, energy (expansion (L * L) w) a b c e v.
Proof.
  intros HL. destruct (C71_table L) as [[dl G] T]. specialize (T dl G). pose proof (proj1 G) as (D0 & D1 & D2).
  destruct (energy_exists dl L w a b c e HL D0 D1 D2) as (v & E). exists v.
  refine (energy_same _ _ _ _ _ _ _ _ E). intros t p. exact (limited_ylm _ L w t p T).
Qed.

Lemma nested_energy L w a b c e a' b' c' e' v v' : 1 <= L -> (0 <= a' <= a)%R -> (a <= b)%R -> (b <= b' <= PI)%R -> (c' <= c)%R -> (c <= e)%R -> (e <= e')%R ->
  energy (expansion (L * L) w) a b c e v -> energy (expansion (L * L) w) a' b' c' e' v' -> (v <= v')%R.
Proof.
  intros HL Ha Hab Hb Hc Hce He E E'. set (f := expansion (L * L) w) in *.
  assert (P : forall t p, (0 <= t <= PI)%R -> (0 <= Cmod (f t p) ^ 2 * sin t)%R).
  { intros t p Ht. apply Rmult_le_pos; [apply pow2_ge_0|apply sin_ge_0; lra]. }
  destruct (expansion_energy L w a' a c e HL) as (v1 & E1). destruct (expansion_energy L w b b' c e HL) as (v2 & E2).
  destruct (expansion_energy L w a' b' c' c HL) as (v3 & E3). destruct (expansion_energy L w a' b' e e' HL) as (v4 & E4). fold f in E1, E2, E3, E4.
  pose proof (box_split_theta _ _ _ _ _ _ _ _ (box_split_theta _ _ _ _ _ _ _ _ E1 E) E2) as EA.
  pose proof (box_split_phi _ _ _ _ _ _ _ _ (box_split_phi _ _ _ _ _ _ _ _ E3 EA) E4) as EB.
  pose proof (box_integral_unique _ _ _ _ _ _ _ EB E') as Q. apply (f_equal Re) in Q. cbn in Q.
  apply box_nonneg in E1; [|lra|lra|intros; apply P; lra]. apply box_nonneg in E2; [|lra|lra|intros; apply P; lra].
  apply box_nonneg in E3; [|lra|lra|intros; apply P; lra]. apply box_nonneg in E4; [|lra|lra|intros; apply P; lra]. lra.
Qed.

Lemma padded_expansion L L' w t p : L <= L' -> expansion (L * L) w t p = expansion (L' * L') (padded (L * L) w) t p.
Proof.
  intros H. assert (LE : L * L <= L' * L') by nia. unfold expansion. replace (L' * L') with (L * L + (L' * L' - L * L)) by lia. rewrite csum_more.
  - apply csum_ext. intros i Hi. unfold padded. destruct (Nat.ltb_spec i (L * L)); [reflexivity|lia].
  - intros i Hi. unfold padded. destruct (Nat.ltb_spec i (L * L)); [lia|ring].
Qed.

(** A larger box, or a larger band limit, has no smaller [p]-th eigenvalue. *)
Theorem C74_box_grows : forall eigh argsort dl order L eigh' argsort' dl' order' L' theta_min theta_max phi_min phi_max theta_min' theta_max' phi_min' phi_max' evals rows evals' rows' p,
  1 <= L <= L' -> on_sphere theta_min' theta_max' phi_min' phi_max' ->
  (theta_min' <= theta_min <= theta_max)%R -> (theta_max <= theta_max')%R -> (phi_min' <= phi_min <= phi_max)%R -> (phi_max <= phi_max')%R ->
  box_calls eigh argsort theta_min theta_max phi_min phi_max dl order L ->
  box_calls eigh' argsort' theta_min' theta_max' phi_min' phi_max' dl' order' L' ->
  solve_lat_lon eigh argsort theta_min theta_max phi_min phi_max dl order L = Ok (evals, rows) ->
  solve_lat_lon eigh' argsort' theta_min' theta_max' phi_min' phi_max' dl' order' L' = Ok (evals', rows') ->
  p < L * L -> (nth p evals 0 <= nth p evals' 0)%R.
Proof.
  intros eigh argsort dl order L eigh' argsort' dl' order' L' a b c e a' b' c' e' evals rows evals' rows' p HL (S1 & S2 & S3 & S4) Ha Hb Hc He X X' E E' Hp.
  destruct (box_run _ _ _ _ _ _ _ _ _ _ _ (proj1 HL) X E) as (K & HK & D). destruct (box_run eigh' argsort' a' b' c' e' dl' order' L' evals' rows' ltac:(lia) X' E') as (K' & HK' & D').
  apply (weyl (L * L) (L' * L') K K' evals rows evals' rows' ltac:(nia) D D'); [|exact Hp].
  intros w. pose proof (form_box L K w _ _ _ _ HK) as F. pose proof (form_box L' K' (padded (L * L) w) _ _ _ _ HK') as F'.
  apply (energy_same _ (expansion (L' * L') (padded (L * L) w))) in F; [|intros; apply padded_expansion; lia].
  refine (nested_energy L' (padded (L * L) w) a b c e a' b' c' e' _ _ _ _ _ _ _ _ _ F F'); lra || lia.
Qed.
Print Assumptions C74_box_grows.

Lemma cap_form L gap Theta w : 1 <= L -> exists north south,
  energy (expansion (L * L) w) 0 Theta 0 (2 * PI) north /\ energy (expansion (L * L) w) (PI - Theta) PI 0 (2 * PI) south /\
  Re (gram (L * L) (cap_matrix gap Theta) w w) = if gap then (north + south)%R else north.
Proof.
  intros HL. pose proof (table_textbook L) as T. destruct (cap_gram wigner_table L gap Theta w w (textbook_product _ _ T)) as (n & s & Hn & Hs & Q).
  assert (V : forall t p, band_limited wigner_table (L * L) w t p = expansion (L * L) w t p) by (intros; apply limited_ylm; exact T).
  exists (Re n), (Re s). split; [apply (inner_energy (expansion (L * L) w)); exact (inner_same _ _ _ _ _ _ _ _ _ V V Hn)|].
  split; [apply (inner_energy (expansion (L * L) w)); exact (inner_same _ _ _ _ _ _ _ _ _ V V Hs)|]. rewrite Q. destruct gap; reflexivity.
Qed.

(** A larger cap, a cap with its mirror image added, a larger band limit. *)
Theorem C74_cap_grows : forall eigh argsort ylm_edge Dm L eigh' argsort' ylm_edge' Dm' L' gap gap' Theta Theta' evals rows orders evals' rows' orders' p,
  1 <= L <= L' -> (0 <= Theta <= Theta')%R -> (Theta' <= PI)%R -> (gap = true -> gap' = true) ->
  polar_calls eigh argsort L gap Theta ylm_edge Dm -> polar_calls eigh' argsort' L' gap' Theta' ylm_edge' Dm' ->
  solve_all_orders argsort eigh Dm L = Ok (evals, rows, orders) -> solve_all_orders argsort' eigh' Dm' L' = Ok (evals', rows', orders') ->
  p < L * L -> (nth p evals 0 <= nth p evals' 0)%R.
Proof.
  intros eigh argsort ylm Dm L eigh' argsort' ylm' Dm' L' gap gap' Theta Theta' evals rows orders evals' rows' orders' p HL HT HP HG X X' E E' Hp.
  pose proof (proj2 (caps_run _ _ _ _ _ _ _ _ _ _ (proj1 HL) X E)) as D.
  pose proof (proj2 (caps_run eigh' argsort' L' gap' Theta' ylm' Dm' evals' rows' orders' ltac:(lia) X' E')) as D'.
  apply (weyl (L * L) (L' * L') _ _ evals rows evals' rows' ltac:(nia) D D'); [|exact Hp].
  intros w. destruct (cap_form L gap Theta w (proj1 HL)) as (n & s & Hn & Hs & ->). destruct (cap_form L' gap' Theta' (padded (L * L) w) ltac:(lia)) as (n' & s' & Hn' & Hs' & ->).
  assert (V : forall t p, expansion (L * L) w t p = expansion (L' * L') (padded (L * L) w) t p) by (intros; apply padded_expansion; lia).
  apply (energy_same _ _ _ _ _ _ _ V) in Hn. apply (energy_same _ _ _ _ _ _ _ V) in Hs. pose proof PI_RGT_0 as HPI.
  assert (N1 : (n <= n')%R) by (refine (nested_energy L' (padded (L * L) w) _ _ _ _ _ _ _ _ _ _ _ _ _ _ _ _ _ Hn Hn'); lra || lia).
  assert (N2 : (s <= s')%R) by (refine (nested_energy L' (padded (L * L) w) _ _ _ _ _ _ _ _ _ _ _ _ _ _ _ _ _ Hs Hs'); lra || lia).
  assert (N3 : (0 <= s')%R).
  { apply (box_nonneg (fun t p => (Cmod (expansion (L' * L') (padded (L * L) w) t p) ^ 2 * sin t)%R) (PI - Theta') PI 0 (2 * PI) s'); [lra|lra| |exact Hs'].
    intros t q Ht. apply Rmult_le_pos; [apply pow2_ge_0|apply sin_ge_0; lra]. }
  destruct gap; [rewrite (HG eq_refl); lra|]. destruct gap'; lra.
Qed.
Print Assumptions C74_cap_grows.

(** A box inside a cap. *)
Theorem C74_box_in_cap : forall eigh argsort dl order L eigh' argsort' ylm_edge Dm L' gap Theta theta_min theta_max phi_min phi_max evals rows evals' rows' orders p,
  1 <= L <= L' -> on_sphere theta_min theta_max phi_min phi_max -> (theta_max <= Theta <= PI)%R ->
  box_calls eigh argsort theta_min theta_max phi_min phi_max dl order L -> polar_calls eigh' argsort' L' gap Theta ylm_edge Dm ->
  solve_lat_lon eigh argsort theta_min theta_max phi_min phi_max dl order L = Ok (evals, rows) ->
  solve_all_orders argsort' eigh' Dm L' = Ok (evals', rows', orders) ->
  p < L * L -> (nth p evals 0 <= nth p evals' 0)%R.
Proof.
  intros eigh argsort dl order L eigh' argsort' ylm Dm L' gap Theta a b c e evals rows evals' rows' orders p HL (S1 & S2 & S3 & S4) HT X X' E E' Hp.
  destruct (box_run _ _ _ _ _ _ _ _ _ _ _ (proj1 HL) X E) as (K & HK & D).
  pose proof (proj2 (caps_run eigh' argsort' L' gap Theta ylm Dm evals' rows' orders ltac:(lia) X' E')) as D'.
  apply (weyl (L * L) (L' * L') _ _ evals rows evals' rows' ltac:(nia) D D'); [|exact Hp].
  intros w. pose proof (form_box L K w _ _ _ _ HK) as F. destruct (cap_form L' gap Theta (padded (L * L) w) ltac:(lia)) as (n' & s' & Hn' & Hs' & ->).
  apply (energy_same _ (expansion (L' * L') (padded (L * L) w))) in F; [|intros; apply padded_expansion; lia]. pose proof PI_RGT_0 as HPI.
  assert (N1 : (Re (gram (L * L) K w w) <= n')%R) by (refine (nested_energy L' (padded (L * L) w) _ _ _ _ _ _ _ _ _ _ _ _ _ _ _ _ _ F Hn'); lra || lia).
  assert (N3 : (0 <= s')%R).
  { apply (box_nonneg (fun t p => (Cmod (expansion (L' * L') (padded (L * L) w) t p) ^ 2 * sin t)%R) (PI - Theta) PI 0 (2 * PI) s'); [lra|lra| |exact Hs'].
    intros t q Ht. apply Rmult_le_pos; [apply pow2_ge_0|apply sin_ge_0; lra]. }
  destruct gap; lra.
Qed.
Print Assumptions C74_box_in_cap.

Lemma grid_form L mask w : Re (gram (L * L) (fun i j => grid_inner (2 * L) (masked mask) (ylm_number i) (ylm_number j)) w w) = grid_energy (2 * L) (masked mask) (expansion (L * L) w).
Proof.
  assert (E : gram (L * L) (fun i j => grid_inner (2 * L) (masked mask) (ylm_number i) (ylm_number j)) w w = RtoC (grid_energy (2 * L) (masked mask) (expansion (L * L) w))); [|rewrite E; reflexivity].
  unfold grid_energy. rewrite <- csum_RtoC.
  unfold gram. rewrite (csum_ext (L * L) _ (fun i => csum (2 * L + 1) (fun t => csum (L * L) (fun j => Cmult (Cmult (w i) (Cconj (w j))) (csum (2 * (2 * L)) (fun p =>
    if masked mask t p then Cmult (Cmult (ylm_number i (colatitude (2 * L) t) (longitude (2 * L) p)) (Cconj (ylm_number j (colatitude (2 * L) t) (longitude (2 * L) p)))) (RtoC (cell (2 * L) t)) else RtoC 0)))))).
  2: { intros i _. rewrite <- csum_swap. apply csum_ext. intros j _. unfold grid_inner. rewrite <- csum_scal_l. reflexivity. }
  rewrite csum_swap. apply csum_ext. intros t _. rewrite <- csum_RtoC.
  rewrite (csum_ext (L * L) _ (fun i => csum (2 * (2 * L)) (fun p => csum (L * L) (fun j => Cmult (Cmult (w i) (Cconj (w j)))
    (if masked mask t p then Cmult (Cmult (ylm_number i (colatitude (2 * L) t) (longitude (2 * L) p)) (Cconj (ylm_number j (colatitude (2 * L) t) (longitude (2 * L) p)))) (RtoC (cell (2 * L) t)) else RtoC 0))))).
  2: { intros i _. rewrite <- csum_swap. apply csum_ext. intros j _. rewrite <- csum_scal_l. reflexivity. }
  rewrite csum_swap. apply csum_ext. intros p _. destruct (masked mask t p).
  - rewrite RtoC_mult, Cmod2. unfold expansion. rewrite csum_conj, csum_mult, <- csum_scal_r. apply csum_ext. intros i _. rewrite <- csum_scal_r. apply csum_ext. intros j _. rewrite Cconj_mult. ring.
  - apply csum_zero. intros i _. apply csum_zero. intros j _. ring.
Qed.

(** A mask with more points. *)
Theorem C74_mask_grows : forall eigh argsort samples_of ncpu garbage sched eigh' argsort' samples_of' ncpu' garbage' sched' L mask mask' evals rows evals' rows' p, 1 <= L ->
  (forall t q, masked mask t q = true -> masked mask' t q = true) ->
  mask_calls eigh argsort L mask samples_of ncpu garbage sched -> mask_calls eigh' argsort' L mask' samples_of' ncpu' garbage' sched' ->
  solve_arbitrary eigh argsort L mask samples_of ncpu garbage sched = Ok (evals, rows) ->
  solve_arbitrary eigh' argsort' L mask' samples_of' ncpu' garbage' sched' = Ok (evals', rows') ->
  p < L * L -> (nth p evals 0 <= nth p evals' 0)%R.
Proof.
  intros eigh argsort f ncpu garbage sched eigh' argsort' f' ncpu' garbage' sched' L mask mask' evals rows evals' rows' p HL HM X X' E E' Hp.
  pose proof (mask_run _ _ _ _ _ _ _ _ _ _ HL X E) as D. pose proof (mask_run _ _ _ _ _ _ _ _ _ _ HL X' E') as D'.
  apply (weyl (L * L) (L * L) _ _ evals rows evals' rows' (le_n _) D D'); [|exact Hp].
  intros w. assert (PW : forall i, i < L * L -> padded (L * L) w i = w i) by (intros i Hi; unfold padded; destruct (Nat.ltb_spec i (L * L)); [reflexivity|lia]).
  replace (gram (L * L) (fun i j => grid_inner (2 * L) (masked mask') (ylm_number i) (ylm_number j)) (padded (L * L) w) (padded (L * L) w))
    with (gram (L * L) (fun i j => grid_inner (2 * L) (masked mask') (ylm_number i) (ylm_number j)) w w)
    by (unfold gram; apply csum_ext; intros i Hi; apply csum_ext; intros j Hj; rewrite !PW by assumption; reflexivity).
  rewrite !grid_form. unfold grid_energy. apply rsum_le. intros t Ht. apply rsum_le. intros q Hq. pose proof (cell_nonneg (2 * L) t ltac:(lia) ltac:(lia)) as CN.
  specialize (HM t q). destruct (masked mask t q); [rewrite (HM eq_refl); lra|]. destruct (masked mask' t q); [|lra]. apply Rmult_le_pos; [apply pow2_ge_0|exact CN].
Qed.
Print Assumptions C74_mask_grows.

(** ** Cases *)
Module SpectralCases.
  (** The regions of the theorems are solved at every band limit. *)
  Example C73_box_case : forall L, 1 <= L -> exists eigh argsort dl order evals rows,
    box_calls eigh argsort (PI / 6) (PI / 3) (PI / 4) PI dl order L /\
    solve_lat_lon eigh argsort (PI / 6) (PI / 3) (PI / 4) PI dl order L = Ok (evals, rows) /\ length evals = L * L.
  Proof.
    intros L HL. destruct (proj1 (C71_table L)) as (dl & HW).
    destruct (C73_box_answers (PI / 6) (PI / 3) (PI / 4) PI dl (rev (zrange 0 (Z.of_nat L))) L HL HW ltac:(apply Permutation_sym, Permutation_rev)) as (eigh & argsort & X).
    destruct (C73_box_determined (PI / 6) (PI / 3) (PI / 4) PI L HL) as (evals & Hl & H). destruct (H _ _ _ _ X) as (rows & E).
    exists eigh, argsort, dl, (rev (zrange 0 (Z.of_nat L))), evals, rows. split; [exact X|]. split; assumption.
  Qed.

  Example C73_mask_case : forall L, 1 <= L -> exists eigh argsort samples_of sched evals rows,
    let mask := map (fun t => map (fun q => t + q <? 2 * L) (seq 0 (4 * L))) (seq 0 (2 * L + 1)) in
    mask_calls eigh argsort L mask samples_of 3 (fun _ _ _ => 7%R) sched /\
    solve_arbitrary eigh argsort L mask samples_of 3 (fun _ _ _ => 7%R) sched = Ok (evals, rows) /\ length evals = L * L.
  Proof.
    intros L HL. set (mask := map _ _).
    assert (HM : shape mask = repeat (4 * L) (2 * L + 1)).
    { unfold shape, mask. rewrite map_map. rewrite (map_ext _ (fun _ => 4 * L)) by (intros; rewrite map_length, seq_length; reflexivity).
      assert (C : forall k a, map (fun _ : nat => 4 * L) (seq a k) = repeat (4 * L) k) by (induction k as [|k IH]; intros a; [reflexivity|]; cbn [seq map repeat]; rewrite IH; reflexivity).
      apply C. }
    destruct (C73_mask_answers L mask 3 (fun _ _ _ => 7%R) [] HL ltac:(lia) HM) as (eigh & argsort & f & more & X).
    destruct (C73_mask_determined mask L HL HM) as (evals & Hl & H). destruct (H _ _ _ _ _ _ X) as (rows & E).
    exists eigh, argsort, f, more, evals, rows. cbv zeta. split; [exact X|]. split; assumption.
  Qed.

  (** The hemisphere at band limit 2. *)
  Definition hemisphere : list R := [1 / 2 + sqrt 3 / 4; 1 / 2; 1 / 2; 1 / 2 - sqrt 3 / 4]%R.
  Definition hemisphere_rows : list (list C) :=
    map (map RtoC) [[/ sqrt 2; 0; / sqrt 2; 0]; [0; 1; 0; 0]; [0; 0; 0; 1]; [/ sqrt 2; 0; - / sqrt 2; 0]]%R.

  Lemma hemisphere_entry i j : i < 4 -> j < 4 ->
    cap_matrix false (PI / 2) i j = RtoC (if i =? j then 1 / 2 else if (i + j =? 2) && negb (i =? 1) then sqrt 3 / 4 else 0).
  Proof.
    intros Hi Hj.
    destruct (CapCases.two_matrices false (PI / 2)) as (Dm & H).
    assert (M : forall a r c, a < 2 -> r < 2 - a -> c < 2 - a -> polar_entry false (cap_P (PI / 2)) (Z.of_nat a) (Z.of_nat (a + Nat.min r c)) (Z.of_nat (a + Nat.max r c)) = Dm a r c)
      by (intros a r c Ha Hr Hc; rewrite (matrix_value 2 false (PI / 2) _ a (Dm a) r c Ha (CapCases.ylm_ok 2 (PI / 2)) (H a Ha)) by assumption; reflexivity).
    assert (E : forall a r c, (a < 2)%nat -> (r < 2 - a)%nat -> (c < 2 - a)%nat -> _) by (intros a r c Ha; exact (CapCases.entry2 false (PI / 2) a (Dm a) r c Ha (H a Ha))).
    rewrite cos_PI2 in E. unfold edge in E. rewrite ?CapCases.leg2, ?CapCases.leg3, ?legendre_1, ?legendre_0 in E. cbv iota in E.
    unfold cap_matrix.
    destruct i as [|[|[|[|i]]]]; [| | | |lia]; (destruct j as [|[|[|[|j]]]]; [| | | |lia]); cbn -[polar_entry cap_P sqrt Rdiv IZR]; try reflexivity; f_equal.
    - change (polar_entry false (cap_P (PI / 2)) (Z.of_nat 0) (Z.of_nat (0 + Nat.min 0 0)) (Z.of_nat (0 + Nat.max 0 0)) = 1 / 2)%R. rewrite M, E by lia. field.
    - change (polar_entry false (cap_P (PI / 2)) (Z.of_nat 0) (Z.of_nat (0 + Nat.min 0 1)) (Z.of_nat (0 + Nat.max 0 1)) = sqrt 3 / 4)%R. rewrite M, E by lia. field.
    - change (polar_entry false (cap_P (PI / 2)) (Z.of_nat 1) (Z.of_nat (1 + Nat.min 0 0)) (Z.of_nat (1 + Nat.max 0 0)) = 1 / 2)%R. rewrite M, E by lia. field.
    - change (polar_entry false (cap_P (PI / 2)) (Z.of_nat 0) (Z.of_nat (0 + Nat.min 1 0)) (Z.of_nat (0 + Nat.max 1 0)) = sqrt 3 / 4)%R. rewrite M, E by lia. field.
    - change (polar_entry false (cap_P (PI / 2)) (Z.of_nat 0) (Z.of_nat (0 + Nat.min 1 1)) (Z.of_nat (0 + Nat.max 1 1)) = 1 / 2)%R. rewrite M, E by lia. field.
    - change (polar_entry false (cap_P (PI / 2)) (Z.of_nat 1) (Z.of_nat (1 + Nat.min 0 0)) (Z.of_nat (1 + Nat.max 0 0)) = 1 / 2)%R. rewrite M, E by lia. field.
  Qed.

  Lemma hemisphere_decomposed : decomposed (2 * 2) (cap_matrix false (PI / 2)) hemisphere hemisphere_rows.
  Proof.
    assert (S3 : (0 < sqrt 3)%R) by (apply sqrt_lt_R0; lra). pose proof LatLonCases.half2 as Q.
    split; [reflexivity|]. split; [reflexivity|]. split; [|split].
    - intros p q a b Hpq Ha Hb.
      destruct p as [|[|[|[|p]]]]; cbn [hemisphere nth_error] in Ha; [| | | |destruct p; discriminate]; injection Ha as <-;
      (destruct q as [|[|[|[|q]]]]; cbn [hemisphere nth_error] in Hb; [| | | |destruct q; discriminate]); injection Hb as <-; lia || lra.
    - intros p q Hp Hq. destruct p as [|[|[|[|p]]]]; [| | | |lia]; (destruct q as [|[|[|[|q]]]]; [| | | |lia]); apply C_ext; cbn; lra.
    - intros p j Hp Hj.
      rewrite (csum_ext (2 * 2) _ (fun i => Cmult (nth i (nth p hemisphere_rows []) (RtoC 0)) (RtoC (if i =? j then 1 / 2 else if (i + j =? 2) && negb (i =? 1) then sqrt 3 / 4 else 0))))
        by (intros i Hi; rewrite hemisphere_entry by (lia || exact Hj); reflexivity).
      destruct p as [|[|[|[|p]]]]; [| | | |lia]; (destruct j as [|[|[|[|j]]]]; [| | | |lia]); apply C_ext; cbn -[Rdiv]; field; apply Rgt_not_eq, sqrt_lt_R0; lra.
  Qed.

  (** Every run for it returns these eigenvalues, and its best function is unique up
      to a phase. *)
  Example C73_cap_case : separated hemisphere 0 /\ separated hemisphere 1 /\ separated hemisphere 3 /\ ~ separated hemisphere 2 /\
    (exists eigh argsort Dm, polar_calls eigh argsort 2 false (PI / 2) (CapCases.ylm (PI / 2)) Dm) /\
    forall eigh argsort ylm_edge Dm evals rows orders, polar_calls eigh argsort 2 false (PI / 2) ylm_edge Dm ->
      solve_all_orders argsort eigh Dm 2 = Ok (evals, rows, orders) -> evals = hemisphere.
  Proof.
    assert (S3 : (0 < sqrt 3)%R) by (apply sqrt_lt_R0; lra).
    split; [intros p q H; lia|].
    split; [intros [|p] [|[|[|[|q]]]] H1 H2 H3; cbn in H3 |- *; lia || lra|].
    split; [intros [|[|[|p]]] [|[|[|[|q]]]] H1 H2 H3; cbn in H3 |- *; lia || lra|].
    split; [intros H; specialize (H 1 2 ltac:(lia) ltac:(lia) ltac:(cbn; lia)); cbn in H; lra|].
    split.
    - destruct (C73_cap_answers 2 false (PI / 2) _ (CapCases.ylm_ok 2 (PI / 2))) as [(Dm & HD) H]. destruct (H Dm HD) as (eigh & argsort & X). exists eigh, argsort, Dm. exact X.
    - intros eigh argsort ylm Dm evals rows orders X E.
      symmetry. exact (decomposed_same _ _ _ _ _ _ hemisphere_decomposed (proj2 (caps_run _ _ 2 _ _ _ _ _ _ _ ltac:(lia) X E))).
  Qed.

  (** Caps that contain the hemisphere do at least as well at every band limit. *)
  Example C74_case : forall eigh argsort ylm_edge Dm L Theta evals rows orders, 2 <= L -> (PI / 2 <= Theta <= PI)%R ->
    polar_calls eigh argsort L false Theta ylm_edge Dm -> solve_all_orders argsort eigh Dm L = Ok (evals, rows, orders) ->
    (1 / 2 + sqrt 3 / 4 <= nth 0 evals 0)%R.
  Proof.
    intros eigh argsort ylm Dm L Theta evals rows orders HL HT X E. pose proof PI_RGT_0 as P.
    destruct C73_cap_case as (_ & _ & _ & _ & (eigh2 & argsort2 & Dm2 & X2) & V).
    destruct (C73_cap_determined false (PI / 2) 2 ltac:(lia)) as (evals2 & _ & H). destruct (H _ _ _ _ X2) as (rows2 & orders2 & E2).
    pose proof (V _ _ _ _ _ _ _ X2 E2) as EV. subst evals2.
    exact (C74_cap_grows _ _ _ _ 2 _ _ _ _ L false false (PI / 2) Theta _ _ _ _ _ _ 0 ltac:(lia) ltac:(lra) ltac:(lra) (fun h => h) X2 X E2 E ltac:(lia)).
  Qed.

  (** Equal caps about the two poles; the hemisphere's complement is the other one. *)
  Example C74_hemispheres : forall eigh argsort dl order evals rows, box_calls eigh argsort (PI / 2) PI 0 (2 * PI) dl order 2 ->
    solve_lat_lon eigh argsort (PI / 2) PI 0 (2 * PI) dl order 2 = Ok (evals, rows) -> evals = hemisphere.
  Proof.
    intros eigh argsort dl order evals rows X E.
    destruct C73_cap_case as (_ & _ & _ & _ & (eigh2 & argsort2 & Dm2 & X2) & V).
    destruct (C73_cap_determined false (PI / 2) 2 ltac:(lia)) as (evals2 & _ & H). destruct (H _ _ _ _ X2) as (rows2 & orders2 & E2).
    pose proof (V _ _ _ _ _ _ _ X2 E2) as EV. subst evals2.
    destruct (C74_complement _ _ _ _ _ _ _ _ 2 (PI / 2) _ _ _ _ _ ltac:(lia) X2 X E2 E) as (-> & _).
    unfold hemisphere. cbn [map rev app]. do 4 (apply (f_equal2 (@cons R)); [lra|]). reflexivity.
  Qed.
End SpectralCases.
