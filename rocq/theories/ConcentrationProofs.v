(** * Proofs: concentration of the functions of a Gram matrix. *)
From Coq Require Import List ZArith Arith Bool Reals Lia Lra Sorting.Permutation.
From Coquelicot Require Import Coquelicot.
From Verif Require Import Base ListLemmas RSum CSum Numpy OrthoProofs SpecEigen LatLon SpecLatLon LatLonIntegrals
  LatLonProofs SpecConcentration.
Import ListNotations.
Local Open Scope nat_scope.

(** ** Algebra *)
Section Gram.
  Variable n : nat.
  Variable K : nat -> nat -> C.
  Variable u : nat -> nat -> C.
  Variable lam : nat -> R.
  Hypothesis ortho : forall p q, p < n -> q < n -> ip n (u p) (u q) = if Nat.eqb p q then RtoC 1 else RtoC 0.
  Hypothesis eig : forall p j, p < n -> j < n -> csum n (fun i => Cmult (u p i) (K i j)) = Cmult (RtoC (lam p)) (u p j).

  Definition gram (v w : nat -> C) : C := csum n (fun i => csum n (fun j => Cmult (Cmult (v i) (Cconj (w j))) (K i j))).

  Lemma gram_eq v w : gram v w = csum n (fun j => Cmult (Cconj (w j)) (csum n (fun i => Cmult (v i) (K i j)))).
  Proof. unfold gram. rewrite csum_swap. apply csum_ext. intros j _. rewrite <- csum_scal_l. apply csum_ext. intros i _. ring. Qed.

  Lemma gram_row p w : p < n -> gram (u p) w = Cmult (RtoC (lam p)) (ip n (u p) w).
  Proof.
    intros Hp. rewrite gram_eq. unfold ip. rewrite <- csum_scal_l. apply csum_ext. intros j Hj. rewrite eig by assumption. ring.
  Qed.

  Lemma gram_rows p q : p < n -> q < n -> gram (u p) (u q) = if Nat.eqb p q then RtoC (lam p) else RtoC 0.
  Proof. intros Hp Hq. rewrite gram_row, ortho by assumption. destruct (Nat.eqb p q); ring. Qed.

  Lemma gram_form w : gram w w = RtoC (rsum n (fun q => lam q * abs2 (ip n w (u q)))%R).
  Proof.
    rewrite gram_eq, <- csum_RtoC.
    rewrite (csum_ext n _ (fun j => csum n (fun q => Cmult (Cmult (RtoC (lam q)) (ip n w (u q))) (Cmult (u q j) (Cconj (w j)))))).
    - rewrite csum_swap. apply csum_ext. intros q Hq. rewrite csum_scal_l. change (csum n (fun j => Cmult (u q j) (Cconj (w j)))) with (ip n (u q) w).
      rewrite <- (ip_conj n w (u q)), <- Cmult_assoc, Cmult_conj_abs2, <- RtoC_mult. reflexivity.
    - intros j Hj. rewrite (csum_ext n (fun i => Cmult (w i) (K i j)) (fun i => csum n (fun q => Cmult (ip n w (u q)) (Cmult (u q i) (K i j))))).
      + rewrite csum_swap, <- csum_scal_l. apply csum_ext. intros q Hq. rewrite csum_scal_l, eig by assumption. ring.
      + intros i Hi. rewrite <- (reconstruct n u ortho w i Hi) at 1. unfold proj. rewrite <- csum_scal_r. apply csum_ext. intros q _. ring.
  Qed.

  Lemma gram_bound w p : p < n -> (forall q q', q <= q' -> q' < n -> (lam q' <= lam q)%R) ->
    (forall q, q < p -> ip n w (u q) = RtoC 0) -> (Re (gram w w) <= lam p * nrm2 n w)%R.
  Proof.
    intros Hp Hd Hz. rewrite gram_form. cbn [Re RtoC fst]. rewrite <- (parseval n u ortho w). unfold nrm2 at 1.
    change (rsum n (fun j => (Re (ip n w (u j)) ^ 2 + Im (ip n w (u j)) ^ 2)%R)) with (rsum n (fun j => abs2 (ip n w (u j)))).
    rewrite <- rsum_scal_l. apply rsum_le. intros q Hq. destruct (Nat.lt_ge_cases q p) as [Q|Q].
    - rewrite Hz by exact Q. unfold abs2. cbn. right. ring.
    - apply Rmult_le_compat_r; [apply abs2_nonneg|]. apply Hd; assumption.
  Qed.

  Lemma gram_trace : RtoC (rsum n lam) = csum n (fun i => K i i).
  Proof.
    rewrite <- csum_RtoC. rewrite (csum_ext n _ (fun p => gram (u p) (u p))) by (intros p Hp; rewrite gram_rows, Nat.eqb_refl by assumption; reflexivity).
    unfold gram. rewrite csum_swap. apply csum_ext. intros i Hi. rewrite csum_swap.
    rewrite (csum_single n i); [|exact Hi|].
    - rewrite (csum_ext n _ (fun p => Cmult (Cmult (Cconj (u p i)) (u p i)) (K i i))) by (intros; ring).
      rewrite csum_scal_r, (completeness n u ortho i i Hi Hi), Nat.eqb_refl. ring.
    - intros j Hj N. rewrite (csum_ext n _ (fun p => Cmult (Cmult (Cconj (u p j)) (u p i)) (K i j))) by (intros; ring).
      rewrite csum_scal_r, (completeness n u ortho j i Hj Hi), (proj2 (Nat.eqb_neq j i) N). ring.
  Qed.
End Gram.

(** ** Inner products of band-limited functions *)
Lemma inner_gram d n K v w a b c e :
  (forall i j, i < n -> j < n -> overlap d i j a b c e (K i j)) ->
  inner (band_limited d n v) (band_limited d n w) a b c e (gram n K v w).
Proof.
  intros H. unfold inner, gram.
  eapply box_ext; [|apply (box_csum n (fun i t p => csum n (fun j => Cmult (Cmult (v i) (Cconj (w j)))
     (Cmult (Cmult (harmonic_number d i t p) (Cconj (harmonic_number d j t p))) (RtoC (sin t)))))
     (fun i => csum n (fun j => Cmult (Cmult (v i) (Cconj (w j))) (K i j))))].
  - intros t p. cbn beta. unfold band_limited. rewrite csum_conj. rewrite <- !csum_scal_r. apply csum_ext. intros i _.
    rewrite <- csum_scal_l, <- csum_scal_r. apply csum_ext. intros j _. rewrite Cconj_mult. ring.
  - intros i Hi. apply (box_csum n (fun j t p => Cmult (Cmult (v i) (Cconj (w j)))
     (Cmult (Cmult (harmonic_number d i t p) (Cconj (harmonic_number d j t p))) (RtoC (sin t))))).
    intros j Hj. exact (box_scal _ _ _ _ _ _ _ (H i j Hi Hj)).
Qed.

Lemma gram_identity n v w : gram n (fun i j => RtoC (if i =? j then 1 else 0)) v w = ip n v w.
Proof.
  unfold gram, ip. apply csum_ext. intros i Hi. rewrite (csum_single n i); [|exact Hi|].
  - rewrite Nat.eqb_refl. ring.
  - intros j _ N. rewrite (proj2 (Nat.eqb_neq i j)) by lia. ring.
Qed.

Lemma inner_unique f g a b c e v v' : inner f g a b c e v -> inner f g a b c e v' -> v = v'.
Proof. apply box_integral_unique. Qed.

Lemma inner_energy f a b c e v : inner f f a b c e v <-> energy f a b c e (Re v) /\ v = RtoC (Re v).
Proof.
  unfold inner, energy. assert (E : forall t p, Cmult (Cmult (f t p) (Cconj (f t p))) (RtoC (sin t)) = RtoC (Cmod (f t p) ^ 2 * sin t)).
  { intros t p. rewrite RtoC_mult, Cmod2. reflexivity. }
  split.
  - intros H. assert (H' := box_ext _ _ _ _ _ _ _ E H). pose proof (energy_real _ _ _ _ _ _ H') as R0. split; [|exact R0]. rewrite <- R0. exact H'.
  - intros [H R0]. rewrite R0. refine (box_ext _ _ _ _ _ _ _ _ H). intros t p. symmetry. apply E.
Qed.

(** ** Rows of a cleaned decomposition as a family *)
Lemma cleaned_family n K evals out : cleaned n K evals out -> length evals = n ->
  exists evals' rows, out = Ok (evals', rows) /\ length evals' = n /\ length rows = n /\ descending evals' /\ Permutation evals' evals /\
    let u := fun p i => nth i (nth p rows []) (RtoC 0) in let lam := fun p => nth p evals' 0%R in
    (forall p q, p < n -> q < n -> ip n (u p) (u q) = if Nat.eqb p q then RtoC 1 else RtoC 0) /\
    (forall p j, p < n -> j < n -> csum n (fun i => Cmult (u p i) (K i j)) = Cmult (RtoC (lam p)) (u p j)).
Proof.
  intros (evals' & rows & E & Hl & HP & Hd & Ho & He) Hn. exists evals', rows. split; [exact E|].
  split; [rewrite (Permutation_length HP); exact Hn|]. split; [exact Hl|]. split; [exact Hd|]. split; [exact HP|]. cbv zeta.
  assert (N : forall p, p < n -> nth_error rows p = Some (nth p rows [])) by (intros p Hp; apply nth_error_nth'; lia).
  split.
  - intros p q Hp Hq. exact (Ho p q _ _ (N p Hp) (N q Hq)).
  - intros p j Hp Hj. exact (proj2 (He p _ (N p Hp)) j Hj).
Qed.

Lemma descending_nth l : descending l -> forall q q', q <= q' -> q' < length l -> (nth q' l 0 <= nth q l 0)%R.
Proof.
  intros H q q' Hq Hl. destruct (Nat.eq_dec q q') as [->|N]; [lra|].
  apply (H q q'); [lia|apply nth_error_nth'; lia|apply nth_error_nth'; lia].
Qed.

(** ** The addition theorem *)
(** The harmonics of one degree have constant energy. *)
Definition degree_sums (d : Z -> Z -> Z -> R) (L : nat) : Prop := forall l theta phi, (0 <= l < Z.of_nat L)%Z ->
  clsum (map (fun m => Cmult (harmonic d l m theta phi) (Cconj (harmonic d l m theta phi))) (zrange (- l) (l + 1)))
  = RtoC (IZR (2 * l + 1) / (4 * PI)).

Lemma sqrt_block l k : k <= 2 * l -> Nat.sqrt (l * l + k) = l.
Proof. intros H. apply Nat.sqrt_unique. lia. Qed.

Lemma addition d L n theta phi : degree_sums d L -> n <= L ->
  csum (n * n) (fun i => Cmult (harmonic_number d i theta phi) (Cconj (harmonic_number d i theta phi))) = RtoC (INR n * INR n / (4 * PI)).
Proof.
  intros W Hn. assert (P : (0 < PI)%R) by apply PI_RGT_0. induction n as [|n IH].
  - cbn [csum Nat.mul]. f_equal. cbn [INR]. field. lra.
  - replace (S n * S n) with (n * n + (2 * n + 1)) by lia. rewrite csum_app, IH by lia.
    rewrite (csum_ext (2 * n + 1) _ (fun k => (fun m => Cmult (harmonic d (Z.of_nat n) m theta phi) (Cconj (harmonic d (Z.of_nat n) m theta phi))) (- Z.of_nat n + Z.of_nat k)%Z)).
    + pose proof (W (Z.of_nat n) theta phi ltac:(lia)) as D. unfold zrange in D. rewrite map_map, clsum_map_seq in D.
      replace (Z.to_nat (Z.of_nat n + 1 - - Z.of_nat n)) with (2 * n + 1) in D by lia. rewrite D, <- RtoC_plus. f_equal.
      rewrite S_INR. rewrite plus_IZR, mult_IZR, <- INR_IZR_INZ. field. lra.
    + intros k Hk. unfold harmonic_number. rewrite sqrt_block by lia. cbv beta.
      replace (Z.of_nat (n * n + k) - Z.of_nat n * Z.of_nat n - Z.of_nat n)%Z with (- Z.of_nat n + Z.of_nat k)%Z by lia. reflexivity.
Qed.

Lemma csum_box_sum d L a b c e K : degree_sums d L ->
  (forall i j, i < L * L -> j < L * L -> overlap d i j a b c e (K i j)) ->
  csum (L * L) (fun i => K i i) = RtoC ((e - c) * (cos a - cos b) * (INR L * INR L) / (4 * PI)).
Proof.
  intros W H. assert (P : (0 < PI)%R) by apply PI_RGT_0.
  apply (box_integral_unique (fun theta phi => Cmult (RtoC (INR L * INR L / (4 * PI))) (RtoC (sin theta))) a b c e).
  - eapply box_ext; [|apply (box_csum (L * L) (fun i t p => Cmult (Cmult (harmonic_number d i t p) (Cconj (harmonic_number d i t p))) (RtoC (sin t))) (fun i => K i i))].
    + intros t p. cbn beta. rewrite csum_scal_r, (addition d L L) by (assumption || lia). reflexivity.
    + intros i Hi. exact (H i i Hi Hi).
  - eapply box_val; [|apply box_scal; exists (fun _ => RtoC (cos a - cos b)); split].
    + rewrite <- RtoC_mult. f_equal. instantiate (1 := ((e - c) * (cos a - cos b))%R). field. lra.
    + intros p. split; cbn.
      * replace (cos a - cos b)%R with ((- cos b) - (- cos a))%R by ring.
        apply (is_RInt_derive (fun x => - cos x)%R sin a b); [intros x _; auto_derive; [trivial|ring]|intros x _; cont].
      * exact (proj2 (cint_zero a b)).
    + split; cbn.
      * eapply is_RInt_val; [|exact (is_RInt_const c e (cos a - cos b)%R)]. unfold scal; cbn; unfold mult; cbn; reflexivity.
      * exact (proj2 (cint_zero c e)).
Qed.
