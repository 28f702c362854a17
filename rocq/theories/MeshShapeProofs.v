(** * Proofs about meshes of the same shape and bases of the same space. *)
From Coq Require Import List ZArith Arith Bool Reals Lra Lia Psatz Permutation.
From Verif Require Import Base ListLemmas RSum RealOrtho SpecEigen Mesh SpecMesh MeshProofs MeshSpectralProofs PropMeshSpectral
  MeshGeometry SpecMeshGeometry MeshGeometryProofs SpecMeshShape.
Import ListNotations.
Local Open Scope R_scope.

(** ** The Laplacian and the shape *)

Lemma div_scale s a b : 0 < s -> s * a / (s * b) = a / b.
Proof.
  intros Hs. destruct (Req_dec b 0) as [->|N]; [|field; split; lra].
  unfold Rdiv. rewrite Rmult_0_r, RIneq.Rinv_0. ring.
Qed.

Lemma doublearea_scale s a b c : 0 < s -> doublearea (s * a) (s * b) (s * c) = s * doublearea a b c.
Proof.
  intros Hs. unfold doublearea.
  replace (2 * (s * a * (s * b) + s * b * (s * c) + s * c * (s * a)) - ((s * a) ^ 2 + (s * b) ^ 2 + (s * c) ^ 2))
    with (s * s * (2 * (a * b + b * c + c * a) - (a ^ 2 + b ^ 2 + c ^ 2))) by ring.
  rewrite sqrt_mult_alt by nra. rewrite sqrt_square by lra. field.
Qed.

Lemma entries_similar V V' f : similar V V' -> (forall v, In v (corners f) -> (v < length V)%nat) ->
  cotmatrix_entries V' f = cotmatrix_entries V f.
Proof.
  intros (_ & s & Hs & H) R. destruct f as [[i j] k]. unfold cotmatrix_entries.
  rewrite !H by (apply R; cbn; tauto). rewrite doublearea_scale by exact Hs.
  set (D := doublearea _ _ _). set (l0 := sqdist (corner V j) (corner V k)). set (l1 := sqdist (corner V k) (corner V i)). set (l2 := sqdist (corner V i) (corner V j)).
  replace (s * l1 + s * l2 - s * l0) with (s * (l1 + l2 - l0)) by ring.
  replace (s * l2 + s * l0 - s * l1) with (s * (l2 + l0 - l1)) by ring.
  replace (s * l0 + s * l1 - s * l2) with (s * (l0 + l1 - l2)) by ring.
  rewrite !div_scale by exact Hs. reflexivity.
Qed.

(** What one triangle adds to an entry. *)
Definition part (V : list point) (i j : nat) (f : face) : R := of_triplets (cot_triplets V f) i j.

Lemma laplacian_parts V F i j : mesh_laplacian V F i j = - rlsum (map (part V i j) F).
Proof. unfold mesh_laplacian, cotmatrix, of_triplets, part. f_equal. apply rlsum_flat_map. Qed.

Lemma laplacian_similar V V' F i j : (forall f, In f F -> forall v, In v (corners f) -> (v < length V)%nat) ->
  similar V V' -> mesh_laplacian V' F i j = mesh_laplacian V F i j.
Proof.
  intros R H. rewrite !laplacian_parts. f_equal. apply rlsum_map_ext. intros [[a b] c] Hf. unfold part, cot_triplets.
  rewrite (entries_similar V V') by (try exact H; apply R, Hf). reflexivity.
Qed.

Lemma laplacian_renumbered p V V' F i j : (forall f, In f F -> forall v, In v (corners f) -> (v < length V)%nat) ->
  renumbered p V V' -> (i < length V)%nat -> (j < length V)%nat ->
  mesh_laplacian V' (map (fun f : face => let '(a, b, c) := f in (p a, p b, p c)) F) (p i) (p j) = mesh_laplacian V F i j.
Proof.
  intros R (_ & Hc & Hi) Li Lj. rewrite !laplacian_parts. f_equal. rewrite map_map. apply rlsum_map_ext. intros [[a b] c] Hf.
  specialize (R _ Hf). assert (Ha : (a < length V)%nat) by (apply R; cbn; tauto).
  assert (Hb : (b < length V)%nat) by (apply R; cbn; tauto). assert (Hcc : (c < length V)%nat) by (apply R; cbn; tauto).
  unfold part, cot_triplets, cotmatrix_entries. rewrite (proj2 (Hc a Ha)), (proj2 (Hc b Hb)), (proj2 (Hc c Hcc)).
  assert (E : forall u v, (u < length V)%nat -> (v < length V)%nat -> Nat.eqb (p u) (p v) = Nat.eqb u v).
  { intros u v Hu Hv. destruct (Nat.eqb_spec u v) as [->|N]; [apply Nat.eqb_refl|]. apply Nat.eqb_neq. intros X. apply N, Hi; assumption. }
  unfold of_triplets. cbn [flat_map List.app map]. rewrite !E by assumption. reflexivity.
Qed.

Lemma sqdist_sym p q : sqdist p q = sqdist q p.
Proof. destruct p as [[? ?] ?], q as [[? ?] ?]. unfold sqdist. ring. Qed.

Lemma doublearea_swap a b c : doublearea b a c = doublearea a b c.
Proof. unfold doublearea. f_equal. f_equal. ring. Qed.
Lemma doublearea_turn a b c : doublearea b c a = doublearea a b c.
Proof. unfold doublearea. f_equal. f_equal. ring. Qed.

Lemma part_turn V i j a b c : part V i j (b, c, a) = part V i j (a, b, c).
Proof.
  unfold part, of_triplets, cot_triplets, cotmatrix_entries.
  rewrite (doublearea_turn (sqdist (corner V b) (corner V c))).
  cbn [flat_map List.app map]. unfold rlsum. cbn [fold_right].
  set (D := doublearea _ _ _). ring.
Qed.

Lemma part_swap V i j a b c : part V i j (b, a, c) = part V i j (a, b, c).
Proof.
  unfold part, of_triplets, cot_triplets, cotmatrix_entries.
  rewrite (sqdist_sym (corner V a) (corner V c)), (sqdist_sym (corner V c) (corner V b)), (sqdist_sym (corner V b) (corner V a)).
  rewrite (doublearea_swap (sqdist (corner V b) (corner V c))).
  cbn [flat_map List.app map]. unfold rlsum. cbn [fold_right].
  set (D := doublearea _ _ _).
  set (l0 := sqdist (corner V b) (corner V c)). set (l1 := sqdist (corner V c) (corner V a)). set (l2 := sqdist (corner V a) (corner V b)).
  replace ((l2 + l0 - l1) / D / 4) with ((l0 + l2 - l1) / D / 4) by (f_equal; f_equal; ring).
  replace ((l2 + l1 - l0) / D / 4) with ((l1 + l2 - l0) / D / 4) by (f_equal; f_equal; ring).
  replace ((l1 + l0 - l2) / D / 4) with ((l0 + l1 - l2) / D / 4) by (f_equal; f_equal; ring).
  ring.
Qed.

Lemma three_perm (a b c a' b' c' : nat) : Permutation [a; b; c] [a'; b'; c'] ->
  (a', b', c') = (a, b, c) \/ (a', b', c') = (b, c, a) \/ (a', b', c') = (c, a, b) \/
  (a', b', c') = (b, a, c) \/ (a', b', c') = (a, c, b) \/ (a', b', c') = (c, b, a).
Proof.
  intros H.
  assert (Hin : In a' [a; b; c]) by (apply (Permutation_in _ (Permutation_sym H)); cbn; tauto).
  cbn in Hin. destruct Hin as [<-|[<-|[<-|[]]]].
  - apply Permutation_cons_inv in H. apply Permutation_length_2_inv in H. destruct H as [E|E]; injection E as -> ->; tauto.
  - assert (H' : Permutation (b :: [a; c]) (b :: [b'; c'])) by (rewrite <- H; apply perm_swap).
    apply Permutation_cons_inv in H'. apply Permutation_length_2_inv in H'. destruct H' as [E|E]; injection E as -> ->; tauto.
  - assert (H' : Permutation (c :: [a; b]) (c :: [b'; c'])).
    { rewrite <- H. change (c :: [a; b]) with ([c] ++ [a; b])%list. rewrite Permutation_app_comm. reflexivity. }
    apply Permutation_cons_inv in H'. apply Permutation_length_2_inv in H'. destruct H' as [E|E]; injection E as -> ->; tauto.
Qed.

Lemma part_perm V i j f f' : Permutation (corners f) (corners f') -> part V i j f' = part V i j f.
Proof.
  destruct f as [[a b] c], f' as [[a' b'] c']. intros H. apply three_perm in H.
  destruct H as [E|[E|[E|[E|[E|E]]]]]; rewrite E.
  - reflexivity.
  - apply part_turn.
  - rewrite <- (part_turn V i j c a b). reflexivity.
  - apply part_swap.
  - rewrite (part_turn V i j b a c). apply part_swap.
  - rewrite <- (part_turn V i j c b a). apply part_swap.
Qed.

Lemma laplacian_triangles V F F' i j : same_triangles F F' -> mesh_laplacian V F' i j = mesh_laplacian V F i j.
Proof.
  intros (G & P & H). rewrite !laplacian_parts. f_equal.
  rewrite (rlsum_perm (map (part V i j) F) (map (part V i j) G)) by (apply Permutation_map, P).
  clear P. induction H as [|f f' G F' Hf H IH]; [reflexivity|]. cbn [map].
  change (rlsum (?h :: ?t)) with (h + rlsum t). rewrite IH, (part_perm V i j f f' Hf). reflexivity.
Qed.

(** ** Two bases of one space *)

Section Two.
  Variables n k : nat.
  Variables U W : nat -> nat -> R.
  Hypothesis OU : forall p q, (p < k)%nat -> (q < k)%nat -> rip n (U p) (U q) = if Nat.eqb p q then 1 else 0.
  Hypothesis OW : forall p q, (p < k)%nat -> (q < k)%nat -> rip n (W p) (W q) = if Nat.eqb p q then 1 else 0.

  Definition overlap (i j : nat) : R := rip n (U i) (W j).

  (** Every [W j] is a combination of the [U i]. *)
  Hypothesis in_span : forall j v, (j < k)%nat -> (v < n)%nat -> W j v = rsum k (fun i => overlap i j * U i v).

  Lemma overlap_columns p q : (p < k)%nat -> (q < k)%nat ->
    rip k (fun i => overlap i p) (fun i => overlap i q) = if Nat.eqb p q then 1 else 0.
  Proof.
    intros Hp Hq. rewrite <- (OW p q Hp Hq). rewrite <- (rip_comb2 n k U OU). apply rip_ext; intros v Hv; symmetry; apply in_span; assumption.
  Qed.

  Lemma overlap_rows i i' : (i < k)%nat -> (i' < k)%nat ->
    rsum k (fun j => overlap i j * overlap i' j) = if Nat.eqb i i' then 1 else 0.
  Proof. intros Hi Hi'. exact (rcomplete k (fun j i => overlap i j) overlap_columns i i' Hi Hi'). Qed.

  Lemma back_in_span i v : (i < k)%nat -> (v < n)%nat -> U i v = rsum k (fun j => overlap i j * W j v).
  Proof.
    intros Hi Hv. rewrite (rsum_ext k _ (fun j => rsum k (fun i' => overlap i j * overlap i' j * U i' v))).
    - rewrite rsum_swap, (rsum_single k i).
      + rewrite rsum_scal_r, overlap_rows, Nat.eqb_refl by exact Hi. ring.
      + exact Hi.
      + intros i' Hi' N. rewrite rsum_scal_r, overlap_rows by assumption. destruct (Nat.eqb_spec i i'); [congruence|ring].
    - intros j Hj. rewrite in_span by assumption. rewrite <- rsum_scal_l. apply rsum_ext. intros. ring.
  Qed.

  Lemma same_kernel v w : (v < n)%nat -> (w < n)%nat ->
    rsum k (fun j => W j v * W j w) = rsum k (fun i => U i v * U i w).
  Proof.
    intros Hv Hw.
    rewrite (rsum_ext k (fun j => W j v * W j w) (fun j => rsum k (fun i => overlap i j * W j w * U i v))).
    - rewrite rsum_swap. apply rsum_ext. intros i Hi. rewrite rsum_scal_r, <- back_in_span by assumption. ring.
    - intros j Hj. rewrite (in_span j v) by assumption. rewrite <- rsum_scal_r. apply rsum_ext. intros. ring.
  Qed.
End Two.

Section Spans.
  Variables n k : nat.
  Variable M : nat -> nat -> R.
  Hypothesis sym : forall i j, (i < n)%nat -> (j < n)%nat -> M i j = M j i.

  Lemma times_sym x y : rip n y (times n M x) = rip n x (times n M y).
  Proof.
    unfold rip, times.
    rewrite (rsum_ext n _ (fun i => rsum n (fun j => M i j * x j * y i))) by (intros; rewrite <- rsum_scal_l; apply rsum_ext; intros; ring).
    rewrite rsum_swap. apply rsum_ext. intros j Hj. rewrite <- rsum_scal_l. apply rsum_ext. intros i Hi. rewrite (sym i j) by assumption. ring.
  Qed.

  Lemma times_eigen lam y z : (forall i, (i < n)%nat -> times n M y i = lam * y i) -> rip n z (times n M y) = lam * rip n z y.
  Proof. intros H. unfold rip. rewrite <- rsum_scal_l. apply rsum_ext. intros j Hj. rewrite H by exact Hj. ring. Qed.

  (** The part of an eigenvector outside an invariant space. *)
  Lemma residual_eigen (U : nat -> nat -> R) lam w mu :
    (forall p q, (p < k)%nat -> (q < k)%nat -> rip n (U p) (U q) = if Nat.eqb p q then 1 else 0) ->
    (forall i v, (i < k)%nat -> (v < n)%nat -> times n M (U i) v = lam i * U i v) ->
    (forall v, (v < n)%nat -> times n M w v = mu * w v) ->
    let t := fun v => w v - rproj n k U w v in
    (forall v, (v < n)%nat -> times n M t v = mu * t v) /\ (forall i, (i < k)%nat -> rip n t (U i) = 0).
  Proof.
    intros O HU Hw t. split; [|intros i Hi; apply rproj_residual; assumption].
    assert (Z : forall i, (i < k)%nat -> lam i * rip n w (U i) = mu * rip n w (U i)).
    { intros i Hi. pose proof (times_sym (U i) w) as S. rewrite (times_eigen (lam i) (U i) w (fun v Hv => HU i v Hi Hv)) in S.
      rewrite (times_eigen mu w (U i) Hw), (rip_comm n (U i) w) in S. exact S. }
    intros v Hv. unfold t at 2. rewrite Rmult_minus_distr_l, <- (Hw v Hv). unfold times, t, rproj.
    rewrite (rsum_ext n _ (fun j => M v j * w j - M v j * rsum k (fun p => rip n w (U p) * U p j))) by (intros; ring).
    rewrite rsum_minus. f_equal.
    rewrite (rsum_ext n _ (fun j => rsum k (fun p => rip n w (U p) * (M v j * U p j)))) by (intros; rewrite <- rsum_scal_l; apply rsum_ext; intros; ring).
    rewrite rsum_swap, <- rsum_scal_l. apply rsum_ext. intros p Hp. rewrite rsum_scal_l.
    pose proof (HU p v Hp Hv) as E. unfold times in E. rewrite E, <- !Rmult_assoc, <- (Z p Hp). ring.
  Qed.

  Definition gap (U : nat -> nat -> R) (lam : nat -> R) : Prop :=
    forall mu x, eigenpair n M mu x -> (forall i, (i < k)%nat -> rip n x (U i) = 0) -> forall i, (i < k)%nat -> lam i < mu.

  Lemma one_span (U W : nat -> nat -> R) lam mu :
    (forall p q, (p < k)%nat -> (q < k)%nat -> rip n (U p) (U q) = if Nat.eqb p q then 1 else 0) ->
    (forall p q, (p < k)%nat -> (q < k)%nat -> rip n (W p) (W q) = if Nat.eqb p q then 1 else 0) ->
    (forall i v, (i < k)%nat -> (v < n)%nat -> times n M (U i) v = lam i * U i v) ->
    (forall i v, (i < k)%nat -> (v < n)%nat -> times n M (W i) v = mu i * W i v) ->
    gap U lam -> gap W mu ->
    forall j v, (j < k)%nat -> (v < n)%nat -> W j v = rsum k (fun i => overlap n U W i j * U i v).
  Proof.
    intros OU OW EU EW GU GW.
    assert (D : (forall j v, (j < k)%nat -> (v < n)%nat -> W j v - rproj n k U (W j) v = 0) \/
                (forall i v, (i < k)%nat -> (v < n)%nat -> U i v - rproj n k W (U i) v = 0)).
    { destruct (Classical_Prop.classic (exists j v, (j < k)%nat /\ (v < n)%nat /\ W j v - rproj n k U (W j) v <> 0)) as [(j & v & Hj & Hv & Nj)|X].
      - right. intros i w Hi Hw. destruct (Req_dec (U i w - rproj n k W (U i) w) 0) as [Z|Ni]; [exact Z|]. exfalso.
        destruct (residual_eigen U lam (W j) (mu j) OU EU (fun v => EW j v Hj)) as [E1 E2].
        destruct (residual_eigen W mu (U i) (lam i) OW EW (fun v => EU i v Hi)) as [E3 E4].
        assert (L1 : lam i < mu j) by (apply (GU (mu j) (fun v => W j v - rproj n k U (W j) v)); [split; [exists v; tauto|exact E1]|exact E2|exact Hi]).
        assert (L2 : mu j < lam i) by (apply (GW (lam i) (fun v => U i v - rproj n k W (U i) v)); [split; [exists w; tauto|exact E3]|exact E4|exact Hj]).
        lra.
      - left. intros j v Hj Hv. destruct (Req_dec (W j v - rproj n k U (W j) v) 0) as [Z|N]; [exact Z|]. exfalso. apply X. exists j, v. tauto. }
    destruct D as [D|D].
    - intros j v Hj Hv. specialize (D j v Hj Hv). unfold rproj in D.
      transitivity (rsum k (fun p => rip n (W j) (U p) * U p v)); [lra|]. apply rsum_ext. intros i _. unfold overlap. rewrite rip_comm. reflexivity.
    - assert (S : forall j v, (j < k)%nat -> (v < n)%nat -> U j v = rsum k (fun i => overlap n W U i j * W i v)).
      { intros j v Hj Hv. specialize (D j v Hj Hv). unfold rproj in D.
        transitivity (rsum k (fun p => rip n (U j) (W p) * W p v)); [lra|]. apply rsum_ext. intros i _. unfold overlap. rewrite rip_comm. reflexivity. }
      intros j v Hj Hv. rewrite (back_in_span n k W U OW OU S j v Hj Hv). apply rsum_ext. intros i _. unfold overlap. rewrite rip_comm. reflexivity.
  Qed.
End Spans.

Lemma nodup_front {A} (l l' : list A) : NoDup (l ++ l') -> NoDup l.
Proof.
  induction l as [|x l IH]; intros H; [constructor|]. cbn in H. inversion H as [|y z N D]; subst. constructor; [|apply IH, D].
  intros I. apply N. apply in_or_app. left. exact I.
Qed.

(** ** Slepian functions in two bases of one space *)

Lemma rsum_swap3 n k f : rsum n (fun v => rsum k (fun i => rsum k (fun j => f v i j))) = rsum k (fun i => rsum k (fun j => rsum n (fun v => f v i j))).
Proof. rewrite rsum_swap. apply rsum_ext. intros i _. apply rsum_swap. Qed.

Section Bases.
  Variables m m' : mesh.
  Hypothesis wf : well_formed m.
  Hypothesis wf' : well_formed m'.
  Hypothesis ob : orthonormal_basis m.
  Hypothesis ob' : orthonormal_basis m'.
  Hypothesis same_v : nv m' = nv m.
  Hypothesis same_b : nb m' = nb m.
  Hypothesis same_region : m_region m' = m_region m.
  Hypothesis span : forall j v, (j < nb m)%nat -> (v < nv m)%nat ->
    phi m' j v = rsum (nb m) (fun i => overlap (nv m) (phi m) (phi m') i j * phi m i v).

  Let n := nv m.
  Let k := nb m.
  Let Q := overlap (nv m) (phi m) (phi m').

  Lemma basis'_orth p q : (p < k)%nat -> (q < k)%nat -> rip n (phi m' p) (phi m' q) = if Nat.eqb p q then 1 else 0.
  Proof. intros Hp Hq. unfold n. rewrite <- same_v. apply ob'; rewrite same_b; assumption. Qed.

  Lemma Q_columns p q : (p < k)%nat -> (q < k)%nat -> rip k (fun i => Q i p) (fun i => Q i q) = if Nat.eqb p q then 1 else 0.
  Proof. apply (overlap_columns n k (phi m) (phi m') ob basis'_orth span). Qed.

  Lemma Q_rows i i' : (i < k)%nat -> (i' < k)%nat -> rsum k (fun j => Q i j * Q i' j) = if Nat.eqb i i' then 1 else 0.
  Proof. apply (overlap_rows n k (phi m) (phi m') ob basis'_orth span). Qed.

  (** Coefficients in the other basis. *)
  Definition turned (row : list R) : list R := map (fun i => rsum k (fun a => Q i a * val row a)) (seq 0 k).

  Lemma turned_val row i : (i < k)%nat -> val (turned row) i = rsum k (fun a => Q i a * val row a).
  Proof. apply val_map_seq. Qed.

  Lemma phi_outside mm i v : well_formed mm -> (nv mm <= v)%nat -> phi mm i v = 0.
  Proof.
    intros (_ & _ & _ & Hr) Hv. unfold phi, val. apply nth_overflow.
    destruct (Nat.lt_ge_cases i (length (m_basis mm))) as [L|L].
    - rewrite (Hr _ (nth_In _ _ L)). exact Hv.
    - rewrite nth_overflow by exact L. cbn. lia.
  Qed.

  Lemma turned_field row v : field m (turned row) v = field m' row v.
  Proof.
    destruct (Nat.lt_ge_cases v n) as [Hv|Hv].
    - unfold field. rewrite same_b. fold k.
      rewrite (rsum_ext k _ (fun i => rsum k (fun a => val row a * (Q i a * phi m i v)))).
      + rewrite rsum_swap. apply rsum_ext. intros a Ha. rewrite rsum_scal_l. unfold Q, k. rewrite <- span by assumption. reflexivity.
      + intros i Hi. rewrite turned_val by exact Hi. rewrite <- rsum_scal_r. apply rsum_ext. intros. ring.
    - unfold field. rewrite !rsum_zero; [reflexivity| |]; intros i _; rewrite phi_outside; try ring; try assumption.
      rewrite same_v. exact Hv.
  Qed.

  Lemma turned_rip r r' : rip k (val (turned r)) (val (turned r')) = rip k (val r) (val r').
  Proof.
    rewrite (rip_ext k _ (fun i => rsum k (fun a => val r a * Q i a)) _ (fun i => rsum k (fun a => val r' a * Q i a))).
    - exact (rip_comb2 k k (fun a i => Q i a) Q_columns (val r) (val r')).
    - intros i Hi. rewrite turned_val by exact Hi. apply rsum_ext. intros. ring.
    - intros i Hi. rewrite turned_val by exact Hi. apply rsum_ext. intros. ring.
  Qed.

  Lemma conc_turned a b : (a < k)%nat -> (b < k)%nat ->
    conc m' a b = rsum k (fun i => rsum k (fun j => Q i a * Q j b * conc m i j)).
  Proof.
    intros Ha Hb. unfold conc, rmask. rewrite same_v. fold n.
    rewrite (rsum_ext k _ (fun i => rsum k (fun j => rsum n (fun v => if inside m v then Q i a * phi m i v * (Q j b * phi m j v) else 0)))).
    - rewrite <- (rsum_swap3 n k (fun v i j => if inside m v then Q i a * phi m i v * (Q j b * phi m j v) else 0)).
      apply rsum_ext. intros v Hv. unfold inside. rewrite same_region. destruct (nth v (m_region m) false).
      + rewrite (span a v Ha Hv), (span b v Hb Hv). fold Q k. rewrite rsum_mult. reflexivity.
      + symmetry. apply rsum_zero. intros i _. apply rsum_zero. reflexivity.
    - intros i _. apply rsum_ext. intros j _. rewrite <- rsum_scal_l. apply rsum_ext. intros v _. destruct (inside m v); ring.
  Qed.

  Lemma turned_rows evals rows : real_rows (nb m') (conc m') evals rows -> real_rows (nb m) (conc m) evals (map turned rows).
  Proof.
    intros (H1 & H2 & H3 & H4 & H5). rewrite same_b in H1, H2, H4, H5. change (nb m) with k in H1, H2, H4, H5 |- *.
    assert (N : forall p, (p < k)%nat -> nth p (map turned rows) [] = turned (nth p rows [])).
    { intros p Hp. rewrite (nth_indep _ [] (turned [])) by (rewrite map_length, H2; exact Hp). apply map_nth. }
    split; [exact H1|]. split; [rewrite map_length; exact H2|]. split; [exact H3|]. split.
    - intros p q Hp Hq. rewrite !N by assumption. rewrite turned_rip. apply H4; assumption.
    - intros p i Hp Hi. rewrite N by exact Hp. set (r := nth p rows []) in *.
      assert (E : forall a, (a < k)%nat -> rsum k (fun i' => Q i' a * rsum k (fun j => conc m i' j * val (turned r) j)) = nth p evals 0 * val r a).
      { intros a Ha. pose proof (H5 p a Hp Ha) as X. fold r in X. rewrite <- X.
        transitivity (rsum k (fun b => rsum k (fun i' => rsum k (fun j => Q i' a * Q j b * conc m i' j)) * val r b)).
        - rewrite (rsum_ext k (fun b => rsum k (fun i' => rsum k (fun j => Q i' a * Q j b * conc m i' j)) * val r b)
                     (fun b => rsum k (fun i' => rsum k (fun j => Q i' a * Q j b * conc m i' j * val r b))))
            by (intros; rewrite <- rsum_scal_r; apply rsum_ext; intros; rewrite <- rsum_scal_r; reflexivity).
          rewrite (rsum_swap3 k k (fun b i' j => Q i' a * Q j b * conc m i' j * val r b)).
          apply rsum_ext. intros i' Hi'. rewrite <- rsum_scal_l. apply rsum_ext. intros j Hj. rewrite turned_val by exact Hj.
          rewrite <- rsum_scal_l, <- rsum_scal_l. apply rsum_ext. intros. ring.
        - apply rsum_ext. intros b Hb. rewrite <- conc_turned by assumption. reflexivity. }
      transitivity (rsum k (fun a => Q i a * rsum k (fun i' => Q i' a * rsum k (fun j => conc m i' j * val (turned r) j)))).
      + rewrite (rsum_ext k (fun a => Q i a * rsum k (fun i' => Q i' a * rsum k (fun j => conc m i' j * val (turned r) j)))
                   (fun a => rsum k (fun i' => Q i a * Q i' a * rsum k (fun j => conc m i' j * val (turned r) j))))
          by (intros; rewrite <- rsum_scal_l; apply rsum_ext; intros; ring).
        rewrite rsum_swap. symmetry. rewrite (rsum_single k i).
        * rewrite rsum_scal_r, Q_rows, Nat.eqb_refl by exact Hi. ring.
        * exact Hi.
        * intros i' Hi' Ne. rewrite rsum_scal_r, Q_rows by assumption. destruct (Nat.eqb_spec i i'); [congruence|ring].
      + rewrite (rsum_ext k _ (fun a => nth p evals 0 * (Q i a * val r a))) by (intros a Ha; rewrite E by exact Ha; ring).
        rewrite rsum_scal_l, turned_val by exact Hi. reflexivity.
  Qed.

  Lemma turned_solution evals rows evals' rows' : real_rows (nb m) (conc m) evals rows -> real_rows (nb m') (conc m') evals' rows' ->
    same_on_mesh (nb m) evals (row_field m rows) evals' (row_field m' rows').
  Proof.
    intros H H'. pose proof (rows_solution m (conc m) _ _ _ _ (fun a b _ _ => conc_sym m a b) H (turned_rows _ _ H')) as (E1 & E2 & E3).
    assert (T : forall p v, (p < k)%nat -> row_field m (map turned rows') p v = row_field m' rows' p v).
    { intros p v Hp. unfold row_field. destruct H' as (_ & HL & _). rewrite same_b in HL.
      rewrite (nth_indep _ [] (turned [])) by (rewrite map_length, HL; exact Hp). rewrite map_nth. apply turned_field. }
    split; [exact E1|]. split.
    - intros N v w HN G. rewrite <- (E2 N v w HN G). apply rsum_ext. intros p Hp. rewrite !T by (unfold k; lia). reflexivity.
    - intros p Hp G0 G1. destruct (E3 p Hp G0 G1) as (c & Hc & Hv). exists c. split; [exact Hc|]. intros v.
      rewrite <- T by exact Hp. apply Hv.
  Qed.
End Bases.
