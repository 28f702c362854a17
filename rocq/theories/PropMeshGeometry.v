(** * C82: the configuration, the refinement and the Laplacian of a mesh. *)
From Coq Require Import String List ZArith Arith Bool Reals Lra Lia Psatz.
From Verif Require Import Base ListLemmas RSum RealOrtho PyNum PyNumProofs Numpy Names Mesh SpecMesh Eigen SpecEigen PropMesh MeshGeometry SpecMeshGeometry MeshGeometryProofs SpectralProofs.
Import ListNotations.
Local Open Scope R_scope.

(** ** The region *)

(** The infinite bounds of the files make no difference to [create_mesh_region]
    as modelled with real bounds: for the vertices of a mesh some real bounds
    do the same. *)
Lemma coordinate_bound (l : list R) : exists B, forall x, In x l -> - B < x < B.
Proof.
  induction l as [|y l (B & H)]; [exists 0; intros x []|].
  exists (Rmax B (Rabs y + 1)). intros x [<-|Hx].
  - pose proof (Rmax_r B (Rabs y + 1)). pose proof (Rle_abs y). pose proof (Rle_abs (- y)). rewrite Rabs_Ropp in *. lra.
  - pose proof (Rmax_l B (Rabs y + 1)). specialize (H x Hx). lra.
Qed.

Theorem C82_infinite : forall cfg vertices, exists b, create_mesh_region b vertices = create_region cfg vertices.
Proof.
  intros cfg vs.
  destruct (coordinate_bound (flat_map (fun v : point => let '(x, y, z) := v in [x; y; z]) vs)) as (B & HB).
  set (lo := fun b => match b with Minus_inf => - B | Finite r => r | Plus_inf => B end).
  unfold create_region. destruct (MIN cfg) as [[mx my] mz], (MAX cfg) as [[Mx My] Mz].
  exists {| XMIN := lo mx; XMAX := lo Mx; YMIN := lo my; YMAX := lo My; ZMIN := lo mz; ZMAX := lo Mz |}.
  assert (T : forall x y : R, x < y -> Rleb x y = true) by (intros; apply Rleb_spec; lra).
  assert (N : forall x y : R, x < y -> Rleb y x = false) by (intros; rewrite <- not_true_iff_false, Rleb_spec; lra).
  assert (A : forall b x, - B < x < B -> Rleb (lo b) x = above b x).
  { intros [|r|] x [H1 H2]; cbn; [apply T, H1|reflexivity|apply N, H2]. }
  assert (U : forall b x, - B < x < B -> Rleb x (lo b) = below b x).
  { intros [|r|] x [H1 H2]; cbn; [apply N, H1|reflexivity|apply T, H2]. }
  apply map_ext_in. intros [[x y] z] Hin. cbn [XMIN XMAX YMIN YMAX ZMIN ZMAX].
  assert (Hc : forall t, In t [x; y; z] -> - B < t < B) by (intros t Ht; apply HB, in_flat_map; exists (x, y, z); split; [exact Hin|exact Ht]).
  rewrite !A, !U by (apply Hc; cbn; tauto). reflexivity.
Qed.
Print Assumptions C82_infinite.

(** The six files describe regions that are neither empty nor everything. *)
Theorem C82_regions : forall name, In name MESHES ->
  exists cfg p q, extract_mesh_config name = Ok cfg /\ create_region cfg [p; q] = [true; false].
Proof.
  intros name H.
  assert (T : forall x y : R, x <= y -> Rleb x y = true) by (intros; apply Rleb_spec; lra).
  assert (N : forall x y : R, x < y -> Rleb y x = false) by (intros; rewrite <- not_true_iff_false, Rleb_spec; lra).
  cbn in H. destruct H as [<-|[<-|[<-|[<-|[<-|[<-|[]]]]]]].
  - exists bird, (1, 0, 0), (0, 0, 0). split; [reflexivity|]. unfold create_region. cbn.
    rewrite !(T (18/100)), !(N 0 (18/100)), !(T 0 (6/100)), !(T (-88/100)), !(T 0 (28/100)) by lra. reflexivity.
  - exists cheetah, (1, -1, 9), (0, 0, 0). split; [reflexivity|]. unfold create_region. cbn.
    rewrite !(T (7/10)), !(N 0 (7/10)), !(T (-1)), !(T 8 9) by lra. reflexivity.
  - exists cube, (0, 1, 0), (0, 0, 0). split; [reflexivity|]. unfold create_region. cbn.
    rewrite !(T (5/10)), !(N 0 (5/10)) by lra. reflexivity.
  - exists dragon, (1, 0, 0), (0, 0, 0). split; [reflexivity|]. unfold create_region. cbn.
    rewrite !(T (15/100)), !(N 0 (15/100)), !(T (-13/100)), !(T 0 (93/100)), !(T (-46/100)), !(T 0 (44/100)) by lra. reflexivity.
  - exists homer, (0, 1, 0), (0, 0, 0). split; [reflexivity|]. unfold create_region. cbn.
    rewrite !(T (15/100)), !(N 0 (15/100)) by lra. reflexivity.
  - exists teapot, (0, 3, 0), (0, 0, 0). split; [reflexivity|]. unfold create_region. cbn.
    rewrite !(T (225/100)), !(N 0 (225/100)), !(T 0 (15/10)) by lra. reflexivity.
Qed.
Print Assumptions C82_regions.

(** Any other name has no file. *)
Theorem C82_unknown : forall read eigsh name zoom number, ~ In name MESHES ->
  mesh_post_init read eigsh name zoom number = Err FileNotFoundError.
Proof.
  intros read eigsh name zoom number H. unfold mesh_post_init, extract_mesh_config.
  repeat (match goal with |- context [String.eqb name ?s] => destruct (String.eqb_spec name s) as [E|_] end;
          [exfalso; apply H; rewrite E; cbn; tauto|]).
  reflexivity.
Qed.
Print Assumptions C82_unknown.

(** ** The refinement *)

(** Once: the vertices are kept and followed by one new vertex in the middle
    of every edge, shared by the triangles at that edge; every triangle is
    replaced by its four quarters, turned the same way. *)
Theorem C82_subdivide : forall V F V' F',
  (forall f, In f F -> forall v, In v (corners f) -> (v < length V)%nat) ->
  subdivide (V, F) = (V', F') ->
  firstn (length V) V' = V /\
  exists mid : nat -> nat -> nat,
    (forall u v, edge F u v -> (length V <= mid u v < length V')%nat /\
       corner V' (mid u v) = midpoint (corner V u) (corner V v)) /\
    (forall u v u' v', edge F u v -> edge F u' v' ->
       (mid u v = mid u' v' <-> (u, v) = (u', v') \/ (u, v) = (v', u'))) /\
    (forall k, (length V <= k < length V')%nat -> exists u v, edge F u v /\ k = mid u v) /\
    F' = flat_map (fun f : face => let '(a, b, c) := f in
           [(a, mid a b, mid c a); (b, mid b c, mid a b); (mid a b, mid b c, mid c a); (mid b c, c, mid c a)]) F /\
    forall a b c f', In (a, b, c) F ->
      In f' [(a, mid a b, mid c a); (b, mid b c, mid a b); (mid a b, mid b c, mid c a); (mid b c, c, mid c a)] ->
      cross (side1 V' f') (side2 V' f') = combination (/ 4) (cross (side1 V (a, b, c)) (side2 V (a, b, c))) 0 (0, 0, 0).
Proof.
  intros V F V' F' R E. assert (E1 : V' = fst (subdivide (V, F))) by (rewrite E; reflexivity).
  assert (E2 : F' = snd (subdivide (V, F))) by (rewrite E; reflexivity). clear E. subst V' F'. split.
  - rewrite V'_eq. rewrite firstn_app, Nat.sub_diag, firstn_all. cbn [firstn]. apply app_nil_r.
  - exists (mid V F). split; [exact (mid_facts V F)|]. split.
    { intros u v u' v' H H'. rewrite (mid_same V F u v u' v' H H'), same_edge_spec. reflexivity. }
    split; [exact (mid_onto V F)|]. split; [exact (F'_eq V F)|].
    intros a b c f' Hf Hq. exact (quarter_cross V F R (a, b, c) f' Hf Hq).
Qed.
Print Assumptions C82_subdivide.

(** Any number of times: the old vertices come first, the triangles are four
    times as many each time, their total area is the same, and a connected
    mesh of proper triangles remains one. *)
Theorem C82_upsample : forall V F k V' F', (forall f, In f F -> forall v, In v (corners f) -> (v < length V)%nat) ->
  upsample V F k = (V', F') ->
  firstn (length V) V' = V /\ length F' = (4 ^ k * length F)%nat /\ total_area V' F' = total_area V F /\
  (good V F -> good V' F').
Proof.
  intros V F k V' F' R E.
  assert (G : good V F -> good V' F') by (intros G; pose proof (upsample_good V F k G) as X; rewrite E in X; exact X).
  cut (firstn (length V) V' = V /\ length F' = (4 ^ k * length F)%nat /\ total_area V' F' = total_area V F /\
       (forall f, In f F' -> forall v, In v (corners f) -> (v < length V')%nat)); [tauto|].
  clear G. revert V' F' E. induction k as [|k IH]; intros V' F' E.
  - injection E as <- <-. rewrite firstn_all. cbn [Nat.pow]. rewrite Nat.mul_1_l. tauto.
  - rewrite upsample_S in E. destruct (upsample V F k) as [V1 F1] eqn:E1. destruct (IH V1 F1 eq_refl) as (H1 & H2 & H3 & H4).
    assert (EV : V' = fst (subdivide (V1, F1))) by (rewrite E; reflexivity).
    assert (EF : F' = flat_map (quarter V1 F1) F1) by (rewrite <- F'_eq, E; reflexivity).
    subst V' F'. split; [|split; [|split]].
    + rewrite V'_eq, firstn_app.
      assert (L : (length V <= length V1)%nat) by (rewrite <- H1, firstn_length; lia).
      replace (length V - length V1)%nat with 0%nat by lia. cbn [firstn]. rewrite app_nil_r. exact H1.
    + rewrite Nat.pow_succ_r', <- Nat.mul_assoc, <- H2. clear. set (q := quarter V1 F1).
      assert (Q : forall f, length (q f) = 4%nat) by (intros [[a b] c]; reflexivity). clearbody q.
      induction F1 as [|f F1 IH]; [reflexivity|]. cbn [flat_map length]. rewrite app_length, Q, IH. lia.
    + rewrite refined_area by exact H4. exact H3.
    + intros f Hf. apply in_flat_map in Hf. destruct Hf as (f0 & Hf0 & Hq). exact (quarter_range V1 F1 H4 f0 f Hf0 Hq).
Qed.
Print Assumptions C82_upsample.

(** A triangle with all its corners in the region is refined inside it. *)
Theorem C82_refined_region : forall cfg V F V' F' a b c,
  (forall f, In f F -> forall v, In v (corners f) -> (v < length V)%nat) -> subdivide (V, F) = (V', F') ->
  In (a, b, c) F -> (forall v, In v [a; b; c] -> nth v (create_region cfg V) false = true) ->
  forall u v, In (u, v) (edges_of (a, b, c)) ->
  exists k, corner V' k = midpoint (corner V u) (corner V v) /\ (length V <= k < length V')%nat /\
    nth k (create_region cfg V') false = true.
Proof.
  intros cfg V F V' F' a b c R E Hf Hin u v He.
  assert (EV : V' = fst (subdivide (V, F))) by (rewrite E; reflexivity). clear E.
  assert (Hed : edge F u v) by (exists (a, b, c); tauto).
  destruct (mid_facts V F u v Hed) as [B M]. rewrite <- EV in B, M. clear EV.
  exists (mid V F u v). split; [exact M|]. split; [exact B|].
  assert (Hu : nth u (create_region cfg V) false = true) by (apply Hin; cbn in He |- *; destruct He as [X|[X|[X|[]]]]; injection X; intros; subst; tauto).
  assert (Hv : nth v (create_region cfg V) false = true) by (apply Hin; cbn in He |- *; destruct He as [X|[X|[X|[]]]]; injection X; intros; subst; tauto).
  destruct (edge_range V F R u v Hed) as [Ru Rv]. clear Hin He Hf.
  set (k := mid V F u v) in *. clearbody k. unfold create_region in *. destruct (MIN cfg) as [[mx my] mz], (MAX cfg) as [[Mx My] Mz].
  set (t := fun w : point => _) in *.
  assert (X : forall W i, (i < length W)%nat -> nth i (map t W) false = t (corner W i)).
  { intros W i Hi. rewrite (nth_indep _ false (t (0, 0, 0))) by (rewrite map_length; exact Hi). apply map_nth. }
  rewrite X in Hu by exact Ru. rewrite X in Hv by exact Rv. rewrite X by apply B. rewrite M. clear X M B.
  destruct (corner V u) as [[xu yu] zu], (corner V v) as [[xv yv] zv]. unfold midpoint, t in *.
  rewrite !andb_true_iff in *.
  assert (A : forall b x y, above b x = true -> above b y = true -> above b (x / 2 + y / 2) = true).
  { intros [|r|] x y; cbn; [tauto| |tauto]. rewrite !Rleb_spec. lra. }
  assert (U : forall b x y, below b x = true -> below b y = true -> below b (x / 2 + y / 2) = true).
  { intros [|r|] x y; cbn; [tauto| |tauto]. rewrite !Rleb_spec. lra. }
  repeat split; first [apply A|apply U]; tauto.
Qed.
Print Assumptions C82_refined_region.

(** ** The Laplacian *)

Lemma times_delta n M j i : (j < n)%nat -> times n M (fun k => if Nat.eqb k j then 1 else 0) i = M i j.
Proof.
  intros Hj. unfold times. rewrite <- (rsum_delta n j (fun k => M i k)) by exact Hj. apply rsum_ext. intros k _.
  destruct (Nat.eqb k j); ring.
Qed.

Lemma form_sym V f x y : form V f x y = form V f y x.
Proof. destruct f as [[a b] c]. unfold form. destruct (cotmatrix_entries V (a, b, c)) as [[c0 c1] c2]. ring. Qed.

Lemma laplacian_sym V F i j : mesh_laplacian V F i j = mesh_laplacian V F j i.
Proof.
  unfold mesh_laplacian, cotmatrix, of_triplets. f_equal. rewrite !rlsum_flat_map. apply rlsum_map_ext. intros [[a b] c] _.
  unfold cot_triplets. destruct (cotmatrix_entries V (a, b, c)) as [[c0 c1] c2].
  cbn [flat_map List.app map]. unfold rlsum. cbn [fold_right].
  rewrite !(andb_comm (Nat.eqb j _)). ring.
Qed.

(** The matrix is symmetric, its rows sum to zero, vertices that do not share
    a triangle are not coupled, and its quadratic form is the energy of the
    piecewise linear function with the given values: the squared slopes times
    the areas of the triangles. *)
Theorem C82_laplacian : forall V F, (forall f, In f F -> forall v, In v (corners f) -> (v < length V)%nat) ->
  (forall i j, mesh_laplacian V F i j = mesh_laplacian V F j i) /\
  (forall i, (i < length V)%nat -> rsum (length V) (mesh_laplacian V F i) = 0) /\
  (forall i j, i <> j -> ~ neighbours F i j -> mesh_laplacian V F i j = 0) /\
  (forall x slope, (forall f, In f F -> proper V f /\ gradient V f x (slope f)) ->
     rip (length V) x (times (length V) (mesh_laplacian V F) x)
     = rlsum (map (fun f => area V f * dot (slope f) (slope f)) F)).
Proof.
  intros V F R. split; [apply laplacian_sym|]. split; [|split].
  - intros i Hi. pose proof (laplacian_form V F (fun _ => 1) (fun k => if Nat.eqb k i then 1 else 0) R) as H.
    unfold rip in H. rewrite (rsum_ext _ _ (fun k => if Nat.eqb k i then times (length V) (mesh_laplacian V F) (fun _ => 1) k else 0)) in H
      by (intros k _; destruct (Nat.eqb k i); ring).
    rewrite (rsum_delta _ i (times (length V) (mesh_laplacian V F) (fun _ => 1))) in H by exact Hi. unfold times in H.
    rewrite (rsum_ext _ _ (mesh_laplacian V F i)) in H by (intros; ring). rewrite H.
    clear. induction F as [|f F IH]; [reflexivity|]. cbn [map]. change (rlsum (?h :: ?t)) with (h + rlsum t). rewrite IH.
    destruct f as [[a b] c]. unfold form. destruct (cotmatrix_entries V (a, b, c)) as [[c0 c1] c2]. ring.
  - intros i j Hij N. unfold mesh_laplacian, cotmatrix, of_triplets. rewrite rlsum_flat_map.
    rewrite (rlsum_map_ext _ (fun _ => 0)).
    + clear. induction F as [|f F IH]; [cbn; ring|]. cbn [map]. change (rlsum (?h :: ?t)) with (h + rlsum t). lra.
    + intros f Hf. destruct f as [[a b] c]. unfold cot_triplets. destruct (cotmatrix_entries V (a, b, c)) as [[c0 c1] c2].
      cbn [flat_map List.app map]. unfold rlsum. cbn [fold_right].
      assert (Z : forall s d t, In s [a; b; c] -> In d [a; b; c] -> (if Nat.eqb i s && Nat.eqb j d then t else 0) = 0).
      { intros s d t Hs Hd. destruct (Nat.eqb_spec i s) as [->|]; [|reflexivity]. destruct (Nat.eqb_spec j d) as [->|]; [|reflexivity].
        exfalso. apply N. exists (a, b, c). split; [exact Hf|]. split; assumption. }
      rewrite !Z by (cbn; tauto). ring.
  - intros x slope H. rewrite laplacian_form by exact R. apply rlsum_map_ext. intros f Hf.
    destruct (H f Hf) as [P G]. exact (form_gradient V f x (slope f) P G).
Qed.
Print Assumptions C82_laplacian.

(** Refining the mesh changes the energy of no function of the coarse mesh
    (continued linearly). *)
Theorem C82_refined_energy : forall V F V' F' x y, (forall f, In f F -> proper V f) -> subdivide (V, F) = (V', F') ->
  (forall i, (i < length V)%nat -> y i = x i) ->
  (forall u v k, edge F u v -> (length V <= k < length V')%nat -> corner V' k = midpoint (corner V u) (corner V v) ->
     y k = (x u + x v) / 2) ->
  rip (length V') y (times (length V') (mesh_laplacian V' F') y)
  = rip (length V) x (times (length V) (mesh_laplacian V F) x).
Proof.
  intros V F V' F' x y P E Ho Hm.
  assert (R : forall f, In f F -> forall v, In v (corners f) -> (v < length V)%nat) by (intros f Hf; apply (P f Hf)).
  assert (E1 : V' = fst (subdivide (V, F))) by (rewrite E; reflexivity).
  assert (E2 : F' = flat_map (quarter V F) F) by (rewrite <- F'_eq, E; reflexivity). clear E. subst V' F'.
  rewrite !laplacian_form.
  - apply refined_form; [exact R| |exact P]. split; [exact Ho|]. intros u v H. destruct (mid_facts V F u v H) as [B M].
    apply Hm; assumption.
  - exact R.
  - intros f Hf. apply in_flat_map in Hf. destruct Hf as (f0 & Hf0 & Hq). exact (quarter_range V F R f0 f Hf0 Hq).
Qed.
Print Assumptions C82_refined_energy.

(** ** Its kernel and eigenvectors *)

Lemma energy_zero V F x : good V F -> rip (length V) x (times (length V) (mesh_laplacian V F) x) = 0 ->
  forall u v, (u < length V)%nat -> (v < length V)%nat -> x u = x v.
Proof.
  intros [P C] E u v Hu Hv.
  assert (R : forall f, In f F -> forall v, In v (corners f) -> (v < length V)%nat) by (intros f Hf; apply (P f Hf)).
  rewrite laplacian_form in E by exact R.
  assert (Z : forall f, In f F -> form V f x x = 0).
  { clear C R u v Hu Hv. induction F as [|f F IH]; [intros f []|]. cbn [map] in E. change (rlsum (?h :: ?t)) with (h + rlsum t) in E.
    assert (H0 : 0 <= form V f x x) by (apply form_nonneg, P; left; reflexivity).
    assert (H1 : 0 <= rlsum (map (fun f => form V f x x) F)).
    { apply rlsum_nonneg, Forall_map, Forall_forall. intros g Hg. apply form_nonneg, P. right. exact Hg. }
    intros g [<-|Hg]; [lra|]. apply IH; [intros h Hh; apply P; right; exact Hh|lra|exact Hg]. }
  specialize (C u v Hu Hv). clear Hu Hv. induction C as [|v w J IH (f & Hf & Hv & Hw)]; [reflexivity|].
  rewrite IH. exact (form_zero V f x (P f Hf) (Z f Hf) v w Hv Hw).
Qed.

(** On a connected mesh of proper triangles only the constant functions are
    mapped to zero. *)
Theorem C82_kernel : forall V F x, good V F ->
  ((forall i, (i < length V)%nat -> times (length V) (mesh_laplacian V F) x i = 0) <->
   (exists c, forall i, (i < length V)%nat -> x i = c)).
Proof.
  intros V F x G.
  assert (R : forall f, In f F -> forall v, In v (corners f) -> (v < length V)%nat) by (intros f Hf; apply (proj1 G f Hf)).
  split.
  - intros H. exists (x 0%nat). intros i Hi. apply (energy_zero V F x G); [|exact Hi|lia].
    unfold rip. apply rsum_zero. intros j Hj. rewrite H by exact Hj. ring.
  - intros (c & H) i Hi. unfold times.
    rewrite (rsum_ext _ _ (fun j => mesh_laplacian V F i j * c)) by (intros j Hj; rewrite H by exact Hj; reflexivity).
    rewrite rsum_scal_r, (proj1 (proj2 (C82_laplacian V F R)) i Hi). ring.
Qed.
Print Assumptions C82_kernel.

(** [eigsh] is asked for the eigenvalues nearest to [sigma=0] and works with
    the inverse of the Laplacian minus [sigma]: there is none. *)
Theorem C82_singular_refuted : forall V F, V <> [] ->
  (forall f, In f F -> forall v, In v (corners f) -> (v < length V)%nat) ->
  ~ exists inv : nat -> nat -> R, forall x i, (i < length V)%nat ->
      times (length V) inv (times (length V) (mesh_laplacian V F) x) i = x i.
Proof.
  intros V F HV R (inv & H). assert (L : (0 < length V)%nat) by (destruct V; [congruence|cbn; lia]).
  specialize (H (fun _ => 1) 0%nat L). unfold times at 1 in H. rewrite rsum_zero in H; [lra|].
  intros j Hj. unfold times. rewrite (rsum_ext _ _ (mesh_laplacian V F j)) by (intros; ring).
  rewrite (proj1 (proj2 (C82_laplacian V F R)) j Hj). ring.
Qed.
Print Assumptions C82_singular_refuted.

Lemma laplacian_selfadjoint V F x y : (forall f, In f F -> forall v, In v (corners f) -> (v < length V)%nat) ->
  rip (length V) y (times (length V) (mesh_laplacian V F) x) = rip (length V) x (times (length V) (mesh_laplacian V F) y).
Proof. intros R. rewrite !laplacian_form by exact R. apply rlsum_map_ext. intros f _. apply form_sym. Qed.

Lemma rip_pos n x : (exists v, (v < n)%nat /\ x v <> 0) -> 0 < rip n x x.
Proof.
  intros (v & Hv & N). unfold rip. destruct (Rle_lt_or_eq_dec 0 (rsum n (fun j => x j * x j))) as [L|E].
  - apply rsum_nonneg. intros. nra.
  - exact L.
  - exfalso. symmetry in E. pose proof (rsum_zero_terms n (fun j => x j * x j)) as Z.
    assert (x v * x v = 0) by (apply Z; [intros; nra|exact E|exact Hv]). nra.
Qed.

(** Eigenvalues are not negative; eigenvectors of different eigenvalues are
    orthogonal for the plain sum over the vertices, which is what
    [integrate_whole_mesh] computes; the eigenvectors of zero are constant. *)
Theorem C82_eigen : forall V F lam x, good V F -> eigenpair (length V) (mesh_laplacian V F) lam x ->
  0 <= lam /\
  (forall mu y, eigenpair (length V) (mesh_laplacian V F) mu y -> lam <> mu -> rip (length V) x y = 0) /\
  (lam = 0 <-> exists c, forall i, (i < length V)%nat -> x i = c).
Proof.
  intros V F lam x G [Nx Ex].
  assert (R : forall f, In f F -> forall v, In v (corners f) -> (v < length V)%nat) by (intros f Hf; apply (proj1 G f Hf)).
  pose proof (rip_pos _ _ Nx) as Px.
  assert (Q : forall mu y z, (forall i, (i < length V)%nat -> times (length V) (mesh_laplacian V F) y i = mu * y i) ->
                rip (length V) z (times (length V) (mesh_laplacian V F) y) = mu * rip (length V) z y).
  { intros mu y z H. unfold rip. rewrite <- rsum_scal_l. apply rsum_ext. intros j Hj. rewrite H by exact Hj. ring. }
  assert (En : 0 <= lam * rip (length V) x x).
  { rewrite <- (Q lam x x Ex), laplacian_form by exact R. apply rlsum_nonneg, Forall_map, Forall_forall. intros f Hf.
    apply form_nonneg, (proj1 G f Hf). }
  split; [nra|]. split.
  - intros mu y [_ Ey] N. pose proof (laplacian_selfadjoint V F x y R) as S. rewrite (Q lam x y Ex), (Q mu y x Ey) in S.
    rewrite (rip_comm _ y x) in S. nra.
  - rewrite <- (C82_kernel V F x G). split.
    + intros -> i Hi. rewrite Ex by exact Hi. ring.
    + intros H. destruct Nx as (v & Hv & N). specialize (Ex v Hv). rewrite H in Ex by exact Hv.
      symmetry in Ex. apply Rmult_integral in Ex. destruct Ex; [assumption|contradiction].
Qed.
Print Assumptions C82_eigen.

(** The matrix has as many eigenpairs as a solver can be asked for. *)
Theorem C82_solvable : forall V F k, (k <= length V)%nat ->
  exists r, solves (length V) (mesh_laplacian V F) r /\ length (snd r) = k.
Proof.
  intros V F k Hk. set (n := length V) in *.
  destruct (spectral_family_real n (mesh_laplacian V F) (fun r c _ _ => laplacian_sym V F r c) k Hk) as (u & mu & Ho & He).
  set (row := fun i => map (u i) (seq 0 n)).
  assert (Er : forall i v, (v < n)%nat -> val (row i) v = u i v).
  { intros i v Hv. unfold val, row. rewrite (nth_indep _ 0 (u i 0%nat)) by (rewrite map_length, seq_length; exact Hv).
    rewrite map_nth, seq_nth by exact Hv. reflexivity. }
  assert (Em : forall i, (i < k)%nat -> val (map mu (seq 0 k)) i = mu i).
  { intros i Hi. unfold val. rewrite (nth_indep _ 0 (mu 0%nat)) by (rewrite map_length, seq_length; exact Hi).
    rewrite map_nth, seq_nth by exact Hi. reflexivity. }
  assert (Hrow : forall i r, nth_error (map row (seq 0 k)) i = Some r -> (i < k)%nat /\ r = row i).
  { intros i r E. assert (L : (i < k)%nat).
    { pose proof (proj1 (nth_error_Some (map row (seq 0 k)) i) ltac:(congruence)) as B. rewrite map_length, seq_length in B. exact B. }
    split; [exact L|]. rewrite nth_error_map in E. rewrite (nth_error_nth' _ 0%nat) in E by (rewrite seq_length; exact L).
    rewrite seq_nth in E by exact L. cbn in E. congruence. }
  assert (Hip : forall i j, rip n (val (row i)) (val (row j)) = rsum n (fun v => u i v * u j v)).
  { intros i j. unfold rip. apply rsum_ext. intros v Hv. rewrite !Er by exact Hv. reflexivity. }
  exists (map mu (seq 0 k), map row (seq 0 k)). cbn [fst snd]. split; [split; [|split]|].
  - cbn [fst snd]. rewrite !map_length. reflexivity.
  - intros i r E. destruct (Hrow i r E) as [L ->]. split; [unfold row; rewrite map_length, seq_length; reflexivity|].
    cbn [fst]. rewrite Em by exact L. split.
    + destruct (Classical_Prop.classic (exists v, (v < n)%nat /\ val (row i) v <> 0)) as [X|X]; [exact X|]. exfalso.
      pose proof (Ho i i L L) as O. rewrite Nat.eqb_refl in O. rewrite rsum_zero in O; [lra|]. intros v Hv.
      destruct (Req_dec (u i v) 0) as [->|N]; [ring|]. exfalso. apply X. exists v. split; [exact Hv|]. rewrite Er by exact Hv. exact N.
    + intros v Hv. rewrite Er by exact Hv. rewrite <- (He i v L Hv). unfold times. apply rsum_ext. intros w Hw.
      rewrite Er by exact Hw. reflexivity.
  - intros i j r r' E E' N _. destruct (Hrow i r E) as [L ->]. destruct (Hrow j r' E') as [L' ->].
    rewrite Hip, (Ho i j L L'). destruct (Nat.eqb_spec i j); [contradiction|reflexivity].
  - rewrite map_length, seq_length. reflexivity.
Qed.
Print Assumptions C82_solvable.

(** ** [Mesh] *)

Lemma shipped_config name : In name MESHES -> exists cfg, extract_mesh_config name = Ok cfg /\
  FILENAME cfg = (name ++ ".off")%string /\ 0 < DEFAULT_ZOOM cfg /\ 0 < REGION_ZOOM cfg.
Proof.
  intros H. cbn in H. destruct H as [<-|[<-|[<-|[<-|[<-|[<-|[]]]]]]];
    [exists bird|exists cheetah|exists cube|exists dragon|exists homer|exists teapot];
    (split; [reflexivity|]); (split; [reflexivity|]); cbn; split; lra.
Qed.

Lemma camera_ok d z c : 0 < z -> create_camera d z c = Ok {| eye := combination (/ z) d 0 (0, 0, 0); centre := c |}.
Proof.
  intros Hz. destruct d as [[dx dy] dz]. unfold create_camera, div. destruct (Req_EM_T z 0) as [E|_]; [lra|].
  cbn [rbind]. unfold combination. f_equal. f_equal. f_equal; [f_equal|]; field; lra.
Qed.

(** For each of the six meshes, whose files hold connected surfaces of proper
    triangles, with or without [zoom]: the camera looks from the configured
    direction, at the configured centre when zooming; the vertices of the
    file come first; the basis functions are the eigenvectors found by the
    solver, scaled to be orthonormal eigenvectors of the Laplacian of the
    refined mesh, and their eigenvalues are not negative; one with eigenvalue
    zero is constant. *)
Theorem C82_mesh : forall read eigsh name zoom number V F,
  In name MESHES -> read ("meshes_polygons_" ++ name ++ ".off")%string = Ok (V, F) -> good V F ->
  exists cfg V' F', extract_mesh_config name = Ok cfg /\ upsample V F (UPSAMPLE cfg) = (V', F') /\
    let n := length V' in
    let L := mesh_laplacian V' F' in
    let k := match number with Some k => k | None => (Z.of_nat n / 4)%Z end in
    (0 <= k)%Z -> solves n L (eigsh L n k) -> Z.of_nat (length (snd (eigsh L n k))) = k ->
    exists o, mesh_post_init read eigsh name zoom number = Ok o /\
      (exists z, 0 < z /\ z = (if zoom then REGION_ZOOM cfg else DEFAULT_ZOOM cfg) /\
         CAMERA cfg = combination z (eye (o_camera o)) 0 (0, 0, 0)) /\
      centre (o_camera o) = (if zoom then CENTRE cfg else (0, 0, 0)) /\
      o_colourbar_pos o = (if zoom then REGION_COLOURBAR_POS cfg else DEFAULT_COLOURBAR_POS cfg) /\
      m_vertices (o_mesh o) = V' /\ m_faces (o_mesh o) = map corners F' /\
      m_region (o_mesh o) = create_region cfg V' /\ m_number (o_mesh o) = k /\
      well_formed (o_mesh o) /\ orthonormal_basis (o_mesh o) /\ m_evals (o_mesh o) = fst (eigsh L n k) /\
      (forall i row, nth_error (snd (eigsh L n k)) i = Some row ->
         exists c, 0 < c /\ forall v, (v < n)%nat -> phi (o_mesh o) i v = c * val row v) /\
      forall i, (i < nb (o_mesh o))%nat ->
        0 <= val (m_evals (o_mesh o)) i /\ eigenpair n L (val (m_evals (o_mesh o)) i) (phi (o_mesh o) i) /\
        (val (m_evals (o_mesh o)) i = 0 ->
           exists s, (s = 1 \/ s = -1) /\ forall v, (v < n)%nat -> phi (o_mesh o) i v = s / sqrt (INR n)).
Proof.
  intros read eigsh name zoom number V F Hname Hread G.
  destruct (shipped_config name Hname) as (cfg & Ecfg & Efile & Z1 & Z2).
  destruct (upsample V F (UPSAMPLE cfg)) as [V' F'] eqn:EU. exists cfg, V', F'. split; [exact Ecfg|]. split; [exact EU|].
  intros n L k Hk Hs Hl.
  assert (G' : good V' F') by (pose proof (upsample_good V F (UPSAMPLE cfg) G) as X; rewrite EU in X; exact X).
  destruct Hs as (Hlen & Hpair & Horth).
  assert (NZ : forall row, In row (snd (eigsh L n k)) -> length row = n /\ exists x, In x row /\ x <> 0).
  { intros row Hin. apply In_nth_error in Hin. destruct Hin as (i & Hi). destruct (Hpair i row Hi) as [Hr [(v & Hv & N) _]].
    split; [exact Hr|]. exists (val row v). split; [apply nth_In; rewrite Hr; exact Hv|exact N]. }
  destruct (C29_decomposition (eigsh L n) V' number k) as (rows & Ed & Hrl & Hrows).
  { unfold k, n. destruct number; reflexivity. }
  { intros row Hin. apply (NZ row Hin). }
  unfold mesh_post_init. rewrite Ecfg. cbn [rbind].
  set (z := if zoom then REGION_ZOOM cfg else DEFAULT_ZOOM cfg).
  assert (Hz : 0 < z) by (unfold z; destruct zoom; assumption).
  rewrite camera_ok by exact Hz. cbn [rbind]. unfold read_mesh. rewrite Efile, Hread. cbn [rbind]. rewrite EU.
  fold n. fold L. rewrite Ed. cbn [rbind].
  eexists. split; [reflexivity|]. cbn [o_camera o_colourbar_pos o_mesh m_vertices m_faces m_region m_number m_evals m_basis eye centre].
  assert (Hphi : forall i, (i < length rows)%nat -> exists row kk, nth_error (snd (eigsh L n k)) i = Some row /\ 0 < kk /\
            length (nth i rows []) = n /\ (forall v, (v < n)%nat -> val (nth i rows []) v = kk * val row v) /\
            rip n (val (nth i rows [])) (val (nth i rows [])) = 1).
  { intros i Hi. destruct (nth_error (snd (eigsh L n k)) i) as [row|] eqn:E; [|apply nth_error_None in E; lia].
    destruct (Hrows i row E) as (row' & kk & Hr' & Hkk & Erow & Hss). exists row, kk. split; [reflexivity|]. split; [exact Hkk|].
    pose proof (proj1 (NZ row (nth_error_In _ _ E))) as Hn. rewrite (nth_error_nth _ _ [] Hr').
    assert (Hn' : length row' = n) by (rewrite Erow, map_length; exact Hn).
    split; [exact Hn'|]. split.
    - intros v Hv. rewrite Erow. unfold val. rewrite (nth_indep _ 0 (kk * 0)) by (rewrite map_length; lia).
      rewrite (map_nth (fun x => kk * x)). reflexivity.
    - unfold sumsq in Hss. rewrite Hn' in Hss. rewrite <- Hss. unfold rip. apply rsum_ext. intros. ring. }
  split; [|split; [|split; [|split; [|split; [|split; [|split; [|split; [|split; [|split; [|split]]]]]]]]]].
  - exists z. split; [exact Hz|]. split; [reflexivity|]. destruct (CAMERA cfg) as [[x y] t]. unfold combination.
    f_equal; [f_equal|]; field; lra.
  - reflexivity.
  - reflexivity.
  - reflexivity.
  - apply map_ext. intros [[a b] c]. reflexivity.
  - reflexivity.
  - reflexivity.
  - unfold well_formed, nv, nb. cbn [m_vertices m_region m_evals m_basis m_number]. split; [|split; [|split]].
    + unfold create_region. destruct (MIN cfg) as [[? ?] ?], (MAX cfg) as [[? ?] ?]. apply map_length.
    + rewrite Hrl. exact Hlen.
    + rewrite Hrl. symmetry. exact Hl.
    + intros row Hin. apply In_nth with (d := []) in Hin. destruct Hin as (i & Hi & <-).
      destruct (Hphi i Hi) as (r & kk & _ & _ & Hn & _). exact Hn.
  - intros i j Hi Hj. unfold nb, nv, phi in *. cbn [m_basis m_vertices] in *. fold n.
    destruct (Hphi i Hi) as (r & kk & Er & Hkk & Hn & Hv & H1). destruct (Nat.eqb_spec i j) as [<-|Nij]; [exact H1|].
    destruct (Hphi j Hj) as (r' & kk' & Er' & Hkk' & Hn' & Hv' & H1').
    assert (O : rip n (val r) (val r') = 0).
    { destruct (Req_dec (val (fst (eigsh L n k)) i) (val (fst (eigsh L n k)) j)) as [E|N].
      - exact (Horth i j r r' Er Er' Nij E).
      - destruct (C82_eigen V' F' _ _ G' (proj2 (Hpair i r Er))) as (_ & X & _).
        exact (X _ _ (proj2 (Hpair j r' Er')) N). }
    transitivity (kk * kk' * rip n (val r) (val r')); [|rewrite O; ring].
    unfold rip. rewrite <- rsum_scal_l. apply rsum_ext. intros v Hvn. rewrite Hv, Hv' by exact Hvn. ring.
  - reflexivity.
  - intros i row Hi. unfold phi. cbn [m_basis].
    destruct (Hphi i) as (r & kk & Er & Hkk & _ & Hv & _); [rewrite Hrl; apply nth_error_Some; congruence|].
    rewrite Hi in Er. injection Er as <-. exists kk. split; [exact Hkk|exact Hv].
  - intros i Hi. unfold nb, phi in *. cbn [m_basis] in *.
    destruct (Hphi i Hi) as (r & kk & Er & Hkk & Hn & Hv & H1). destruct (Hpair i r Er) as [_ HP].
    assert (EP : eigenpair n L (val (fst (eigsh L n k)) i) (val (nth i rows []))).
    { destruct HP as [(v & Hvn & N) E]. split.
      - exists v. split; [exact Hvn|]. rewrite Hv by exact Hvn. apply Rmult_integral_contrapositive. split; [lra|exact N].
      - intros v' Hv'. rewrite Hv by exact Hv'. transitivity (kk * times n L (val r) v'); [|rewrite E by exact Hv'; ring].
        unfold times. rewrite <- rsum_scal_l. apply rsum_ext. intros w Hw. rewrite Hv by exact Hw. ring. }
    destruct (C82_eigen V' F' _ _ G' EP) as (H0 & _ & HC). split; [exact H0|]. split; [exact EP|].
    intros E0. destruct (proj1 HC E0) as (c & Hc). fold n in Hc.
    assert (S : INR n * (c * c) = 1).
    { rewrite <- H1. unfold rip. rewrite (rsum_ext _ _ (fun _ => c * c)) by (intros v Hvn; rewrite Hc by exact Hvn; reflexivity).
      rewrite rsum_const. reflexivity. }
    assert (Pn : 0 < INR n).
    { destruct (Rle_lt_or_eq_dec 0 (INR n) (pos_INR n)) as [X|X]; [exact X|]. rewrite <- X in S. lra. }
    pose proof (sqrt_lt_R0 _ Pn) as Q. pose proof (sqrt_sqrt (INR n) (Rlt_le _ _ Pn)) as QQ.
    assert (E2 : (c * sqrt (INR n) - 1) * (c * sqrt (INR n) + 1) = 0).
    { replace ((c * sqrt (INR n) - 1) * (c * sqrt (INR n) + 1)) with (sqrt (INR n) * sqrt (INR n) * (c * c) - 1) by ring.
      rewrite QQ, S. ring. }
    apply Rmult_integral in E2. destruct E2 as [E2|E2].
    + exists 1. split; [left; reflexivity|]. intros v Hvn. rewrite Hc by exact Hvn.
      apply (Rmult_eq_reg_r (sqrt (INR n))); [|lra]. unfold Rdiv. rewrite Rmult_assoc, Rinv_l by lra. lra.
    + exists (-1). split; [right; reflexivity|]. intros v Hvn. rewrite Hc by exact Hvn.
      apply (Rmult_eq_reg_r (sqrt (INR n))); [|lra]. unfold Rdiv. rewrite Rmult_assoc, Rinv_l by lra. lra.
Qed.
Print Assumptions C82_mesh.

(** ** Cases *)

(** A square of two triangles: five edges, nine vertices, eight triangles. *)
Definition square_V : list point := [(0, 0, 0); (1, 0, 0); (1, 1, 0); (0, 1, 0)].
Definition square_F : list face := [(0, 1, 2); (0, 2, 3)]%nat.

Example C82_subdivide_case : forall V' F', subdivide (square_V, square_F) = (V', F') ->
  length V' = 9%nat /\ corner V' 6 = (1 / 2, 1 / 2, 0) /\
  F' = [(0, 4, 6); (1, 5, 4); (4, 5, 6); (5, 2, 6); (0, 6, 8); (2, 7, 6); (6, 7, 8); (7, 3, 8)]%nat.
Proof.
  intros V' F' E. injection E as <- <-. split; [reflexivity|]. split; [|reflexivity]. cbn.
  f_equal; [f_equal|]; field.
Qed.

Lemma square_good : good square_V square_F.
Proof.
  split.
  - intros f [<-|[<-|[]]]; (split; [intros v [<-|[<-|[<-|[]]]]; cbn; lia|]); cbn; intros E; injection E; lra.
  - assert (J : forall v, (v < 4)%nat -> joined square_F 0 v).
    { intros v Hv. destruct v as [|[|[|[|v]]]]; [| | | |lia].
      - constructor.
      - apply (joined_one _ _ _ (0, 1, 2)%nat); cbn; tauto.
      - apply (joined_one _ _ _ (0, 1, 2)%nat); cbn; tauto.
      - apply (joined_one _ _ _ (0, 2, 3)%nat); cbn; tauto. }
    intros u v Hu Hv. apply (joined_trans _ _ 0%nat); [apply joined_sym, J, Hu|apply J, Hv].
Qed.

Example C82_upsample_case : let (V', F') := upsample square_V square_F 2 in
  length F' = 32%nat /\ total_area V' F' = 1 /\ good V' F'.
Proof.
  destruct (upsample square_V square_F 2) as [V' F'] eqn:E.
  destruct (C82_upsample square_V square_F 2 V' F') as (_ & H1 & H2 & H3).
  - intros f Hf. apply (proj1 square_good f Hf).
  - exact E.
  - split; [exact H1|]. split; [|apply H3, square_good]. rewrite H2. unfold total_area, area, norm. cbn.
    match goal with |- sqrt ?a / 2 + (sqrt ?b / 2 + 0) = 1 => replace a with 1 by ring; replace b with 1 by ring end.
    rewrite sqrt_1. field.
Qed.

(** Two right angles and four of 45 degrees. *)
Example C82_laplacian_case : forall i, (i < 4)%nat ->
  map (mesh_laplacian square_V square_F i) [0; 1; 2; 3]%nat
  = nth i [[1; - / 2; 0; - / 2]; [- / 2; 1; - / 2; 0]; [0; - / 2; 1; - / 2]; [- / 2; 0; - / 2; 1]] [].
Proof.
  assert (E1 : cotmatrix_entries square_V (0, 1, 2)%nat = (/ 2, 0, / 2)).
  { rewrite entries. unfold gram. cbn. match goal with |- context [sqrt ?a] => replace a with 1 by ring end.
    rewrite sqrt_1. f_equal; [f_equal|]; field. }
  assert (E2 : cotmatrix_entries square_V (0, 2, 3)%nat = (/ 2, / 2, 0)).
  { rewrite entries. unfold gram. cbn. match goal with |- context [sqrt ?a] => replace a with 1 by ring end.
    rewrite sqrt_1. f_equal; [f_equal|]; field. }
  intros i Hi. unfold mesh_laplacian, cotmatrix, square_F. cbn [flat_map cot_triplets]. rewrite E1, E2.
  unfold of_triplets, rlsum. destruct i as [|[|[|[|i]]]]; [| | | |lia]; cbn; repeat (f_equal; try field).
Qed.

(** The energy of the height function [x]: slope one on area one. *)
Example C82_energy_case : let x := fun v => fst (fst (corner square_V v)) in
  rip 4 x (times 4 (mesh_laplacian square_V square_F) x) = 1.
Proof.
  intros x.
  assert (R : forall f, In f square_F -> forall v, In v (corners f) -> (v < length square_V)%nat)
    by (intros f Hf; apply (proj1 square_good f Hf)).
  change 4%nat with (length square_V).
  rewrite (proj2 (proj2 (proj2 (C82_laplacian square_V square_F R))) x (fun _ => (1, 0, 0))).
  - unfold area, norm. cbn.
    match goal with |- sqrt ?a / 2 * _ + (sqrt ?b / 2 * _ + 0) = 1 => replace a with 1 by ring; replace b with 1 by ring end.
    rewrite sqrt_1. field.
  - intros f Hf. split; [apply (proj1 square_good f Hf)|]. destruct Hf as [<-|[<-|[]]]; cbn.
    + split; [exists 1, 0; f_equal; [f_equal|]; ring|split; ring].
    + split; [exists 1, (-1); f_equal; [f_equal|]; ring|split; ring].
Qed.

(** The kernel does not consist of the constants when the mesh has two pieces. *)
Example C82_connected_needed : exists V F x, (forall f, In f F -> proper V f) /\
  (forall i, (i < length V)%nat -> times (length V) (mesh_laplacian V F) x i = 0) /\ x 0%nat <> x 3%nat.
Proof.
  set (V := [(0, 0, 0); (1, 0, 0); (0, 1, 0); (5, 0, 0); (6, 0, 0); (5, 1, 0)] : list point).
  set (F := [(0, 1, 2); (3, 4, 5)]%nat : list face).
  exists V, F, (fun v => if Nat.ltb v 3 then 0 else 1).
  assert (P : forall f, In f F -> proper V f).
  { intros f [<-|[<-|[]]]; (split; [intros v [<-|[<-|[<-|[]]]]; cbn; lia|]); cbn; intros E; injection E; lra. }
  split; [exact P|]. split; [|cbn; lra]. intros i Hi.
  pose proof (laplacian_form V F (fun v => if Nat.ltb v 3 then 0 else 1) (fun k => if Nat.eqb k i then 1 else 0)
                (fun f Hf => proj1 (P f Hf))) as H.
  unfold rip in H.
  rewrite (rsum_ext _ _ (fun k => if Nat.eqb k i then times (length V) (mesh_laplacian V F) (fun v => if Nat.ltb v 3 then 0 else 1) k else 0)) in H
    by (intros k _; destruct (Nat.eqb k i); ring).
  rewrite (rsum_delta _ i (times (length V) (mesh_laplacian V F) (fun v => if Nat.ltb v 3 then 0 else 1))) in H by exact Hi.
  rewrite H. unfold F. cbn [map]. unfold form.
  destruct (cotmatrix_entries V (0, 1, 2)%nat) as [[c0 c1] c2], (cotmatrix_entries V (3, 4, 5)%nat) as [[d0 d1] d2].
  unfold rlsum. cbn [fold_right Nat.ltb Nat.leb]. ring.
Qed.

(** The square in the place of the cube, with two basis functions; a solver
    as assumed exists. *)
Example C82_mesh_case : exists eigsh o,
  mesh_post_init (fun file => if String.eqb file "meshes_polygons_cube.off" then Ok (square_V, square_F) else Err FileNotFoundError)
    eigsh "cube" true (Some 2%Z) = Ok o /\
  orthonormal_basis (o_mesh o) /\ nb (o_mesh o) = 2%nat /\ m_region (o_mesh o) = [false; false; true; true] /\
  CAMERA cube = combination (96 / 100) (eye (o_camera o)) 0 (0, 0, 0) /\ centre (o_camera o) = (0, 0, 25 / 100).
Proof.
  destruct (C82_solvable square_V square_F 2) as (r & Hr & Hl); [cbn; lia|].
  set (read := fun file => if String.eqb file "meshes_polygons_cube.off" then Ok (square_V, square_F) else Err FileNotFoundError).
  destruct (C82_mesh read (fun _ _ _ => r) "cube" true (Some 2%Z) square_V square_F) as (cfg & V' & F' & Ec & EU & H).
  - cbn. tauto.
  - reflexivity.
  - exact square_good.
  - injection Ec as <-. injection EU as <- <-. cbn zeta in H.
    destruct H as (o & E & (z & _ & Ez & EC) & Ece & _ & Hv & _ & Hreg & Hn & W & O & _).
    + lia.
    + exact Hr.
    + cbv beta. rewrite Hl. reflexivity.
    + exists (fun _ _ _ => r), o. split; [exact E|]. split; [exact O|].
      split; [destruct W as (_ & _ & W & _); rewrite Hn in W; lia|]. split.
      * rewrite Hreg. unfold create_region, square_V. cbn.
        assert (T : Rleb (5 / 10) 1 = true) by (apply Rleb_spec; lra).
        assert (N : Rleb (5 / 10) 0 = false) by (rewrite <- not_true_iff_false, Rleb_spec; lra).
        rewrite T, N. reflexivity.
      * split; [rewrite Ez in EC; exact EC|exact Ece].
Qed.

(** The bird is refined once. *)
Example C82_bird_case : exists cfg, extract_mesh_config "bird" = Ok cfg /\ UPSAMPLE cfg = 1%nat /\
  create_region cfg [(2 / 10, -1, 0); (1 / 10, -1, 0); (2 / 10, 1, 0)] = [true; false; false].
Proof.
  exists bird. split; [reflexivity|]. split; [reflexivity|]. unfold create_region. cbn.
  assert (T : forall x y : R, x <= y -> Rleb x y = true) by (intros; apply Rleb_spec; lra).
  assert (N : forall x y : R, x < y -> Rleb y x = false) by (intros; rewrite <- not_true_iff_false, Rleb_spec; lra).
  rewrite !(T (18/100)), !(N (1/10)), !(T (-1)), !(T (-88/100)), !(T 0), !(N (6/100) 1) by lra. reflexivity.
Qed.
