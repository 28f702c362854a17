(** * Property C83: which parts of a mesh its basis and its Slepian functions depend
    on: not on the position, the size and the numbering, and not on the solver of
    the eigenproblem as long as no eigenvalue is cut in two. *)
From Coq Require Import String List ZArith Arith Bool Reals Lra Lia Psatz Permutation.
From Verif Require Import Base ListLemmas RSum PyNum PyNumProofs RealOrtho Names Machine SpecEigen Eigen EigenProofs PropEigen SpectralProofs PropSpectral
  Transform Mesh SpecMesh MeshProofs PropMesh PropMeshSlepian MeshSpectralProofs PropMeshSpectral
  MeshGeometry SpecMeshGeometry MeshGeometryProofs PropMeshGeometry SpecMeshShape MeshShapeProofs.
Import ListNotations.
Local Open Scope R_scope.

(** ** The shape *)

(** Moving, turning, mirroring or scaling a mesh does not change its Laplacian. *)
Theorem C83_similar : forall V V' F i j, (forall f, In f F -> forall v, In v (corners f) -> (v < length V)%nat) ->
  similar V V' -> mesh_laplacian V' F i j = mesh_laplacian V F i j.
Proof. exact laplacian_similar. Qed.
Print Assumptions C83_similar.

(** The order of the triangles and of the corners of each does not matter. *)
Theorem C83_triangles : forall V F F' i j, same_triangles F F' -> mesh_laplacian V F' i j = mesh_laplacian V F i j.
Proof. exact laplacian_triangles. Qed.
Print Assumptions C83_triangles.

(** Giving other numbers to the vertices gives other numbers to the rows and
    columns. *)
Theorem C83_numbers : forall p V V' F i j, (forall f, In f F -> forall v, In v (corners f) -> (v < length V)%nat) ->
  renumbered p V V' -> (i < length V)%nat -> (j < length V)%nat ->
  mesh_laplacian V' (map (fun f : face => let '(a, b, c) := f in (p a, p b, p c)) F) (p i) (p j) = mesh_laplacian V F i j.
Proof. exact laplacian_renumbered. Qed.
Print Assumptions C83_numbers.

(** ** The solver *)

(** A solver can always be answered with the lowest eigenvalues. *)
Theorem C83_lowest : forall V F k, (k <= length V)%nat ->
  exists r, lowest (length V) (mesh_laplacian V F) r /\ length (snd r) = k.
Proof.
  intros V F k Hk. set (n := length V) in *. set (L := mesh_laplacian V F).
  destruct (spectral_family_real n L (fun r c _ _ => laplacian_sym V F r c) n (Nat.le_refl n)) as (u & mu & Ho & He).
  destruct C16_argsort_exists as (argsort & HA). set (ev := map mu (seq 0 n)).
  assert (Lev : length ev = n) by (unfold ev; rewrite map_length, seq_length; reflexivity).
  assert (Vev : forall i, (i < n)%nat -> nth i ev 0 = mu i).
  { intros i Hi. unfold ev. rewrite (nth_indep _ 0 (mu 0%nat)) by (rewrite map_length, seq_length; exact Hi).
    rewrite map_nth, seq_nth by exact Hi. reflexivity. }
  destruct (HA ev) as [HP HS]. rewrite Lev in HP. set (a := argsort ev) in *.
  assert (La : length a = n) by (rewrite (Permutation_length HP), seq_length; reflexivity).
  assert (Ra : forall i, In i a -> (i < n)%nat) by (intros i Hi; apply (Permutation_in _ HP), in_seq in Hi; lia).
  assert (Na : NoDup a) by (apply (Permutation_NoDup (Permutation_sym HP)), seq_NoDup).
  set (b := firstn k a).
  assert (Rb : forall i, In i b -> (i < n)%nat).
  { intros i Hi. apply Ra. rewrite <- (firstn_skipn k a). apply in_or_app. left. exact Hi. }
  assert (Lb : length b = k) by (unfold b; rewrite firstn_length; lia).
  assert (Nb : NoDup b) by (rewrite <- (firstn_skipn k a) in Na; exact (nodup_front _ _ Na)).
  set (row := fun i => map (u i) (seq 0 n)).
  assert (Er : forall i v, (v < n)%nat -> val (row i) v = u i v) by (intros i v Hv; apply val_map_seq, Hv).
  assert (Hip : forall i j, (i < n)%nat -> (j < n)%nat -> rip n (val (row i)) (val (row j)) = if Nat.eqb i j then 1 else 0).
  { intros i j Hi Hj. rewrite <- (Ho i j Hi Hj). unfold rip. apply rsum_ext. intros v Hv. rewrite !Er by exact Hv. reflexivity. }
  assert (Hrow : forall p r, nth_error (map row b) p = Some r -> exists i, nth_error b p = Some i /\ (i < n)%nat /\ r = row i /\ val (map mu b) p = mu i).
  { intros p r E. rewrite nth_error_map in E. destruct (nth_error b p) as [i|] eqn:Ei; [|discriminate]. cbn in E. injection E as <-.
    exists i. split; [reflexivity|]. split; [apply Rb, (nth_error_In _ _ Ei)|]. split; [reflexivity|].
    unfold val. apply nth_error_nth. rewrite nth_error_map, Ei. reflexivity. }
  exists (map mu b, map row b). cbn [fst snd]. split; [split; [split; [|split]|]|].
  - cbn [fst snd]. rewrite !map_length. reflexivity.
  - cbn [fst snd]. intros p r E. destruct (Hrow p r E) as (i & _ & Hi & -> & ->). split; [unfold row; rewrite map_length, seq_length; reflexivity|]. split.
    + destruct (Classical_Prop.classic (exists v, (v < n)%nat /\ val (row i) v <> 0)) as [X|X]; [exact X|]. exfalso.
      pose proof (Hip i i Hi Hi) as O. rewrite Nat.eqb_refl in O. unfold rip in O. rewrite rsum_zero in O; [lra|]. intros v Hv.
      destruct (Req_dec (val (row i) v) 0) as [->|N]; [ring|]. exfalso. apply X. exists v. split; [exact Hv|exact N].
    + intros v Hv. rewrite Er by exact Hv. rewrite <- (He i v Hi Hv). unfold times. apply rsum_ext. intros w Hw.
      rewrite Er by exact Hw. reflexivity.
  - cbn [fst snd]. intros p q r r' E E' N _. destruct (Hrow p r E) as (i & Ei & Hi & -> & _). destruct (Hrow q r' E') as (j & Ej & Hj & -> & _).
    rewrite Hip by assumption. destruct (Nat.eqb_spec i j) as [<-|]; [|reflexivity]. exfalso. apply N.
    apply (proj1 (NoDup_nth_error b) Nb); [apply nth_error_Some; congruence|congruence].
  - intros m x [(v0 & Hv0 & Nx) Ex] Hx lam Hlam. cbn [fst snd] in *.
    (* some other eigenvector is not orthogonal to x *)
    destruct (Classical_Prop.classic (exists j, (j < n)%nat /\ rip n x (u j) <> 0)) as [(j & Hj & Nj)|X].
    + assert (Em : m = mu j).
      { pose proof (times_sym n L (fun r c _ _ => laplacian_sym V F r c) x (u j)) as S.
        rewrite (times_eigen n L m x (u j) Ex) in S. rewrite (times_eigen n L (mu j) (u j) x (fun v Hv => He j v Hj Hv)) in S.
        rewrite (rip_comm n (u j) x) in S. apply (Rmult_eq_reg_r (rip n x (u j))); assumption. }
      assert (Nb' : ~ In j b).
      { intros Hb. apply Nj. rewrite <- (Hx (row j)) by (apply in_map, Hb). apply rip_ext; intros v Hv; [reflexivity|]. symmetry. apply Er, Hv. }
      assert (Ij : In j (skipn k a)).
      { assert (I : In j a) by (apply (Permutation_in _ (Permutation_sym HP)), in_seq; lia).
        rewrite <- (firstn_skipn k a) in I. apply in_app_or in I. destruct I as [I|I]; [contradiction|exact I]. }
      apply in_map_iff in Hlam. destruct Hlam as (i & <- & Hi). apply In_nth_error in Hi. destruct Hi as (p & Hp).
      apply In_nth_error in Ij. destruct Ij as (q & Hq).
      assert (P : (p < k)%nat) by (rewrite <- Lb; apply nth_error_Some; congruence).
      assert (Ep : nth_error a p = Some i).
      { rewrite <- (firstn_skipn k a), nth_error_app1; [exact Hp|]. fold b. lia. }
      assert (Eq : nth_error a (k + q) = Some j).
      { rewrite <- (firstn_skipn k a), nth_error_app2; fold b; [|lia]. rewrite Lb. replace (k + q - k)%nat with q by lia. exact Hq. }
      pose proof (HS p (k + q)%nat i j ltac:(lia) Ep Eq) as H. rewrite !Vev in H; [|exact Hj|apply Ra, (nth_error_In _ _ Ep)]. rewrite Em. exact H.
    + exfalso. apply Nx. apply (rip_zero n x); [|exact Hv0]. rewrite <- (rparseval n u Ho x). unfold rip at 1. apply rsum_zero.
      intros j Hj. destruct (Req_dec (rip n x (u j)) 0) as [->|N]; [ring|]. exfalso. apply X. exists j. split; assumption.
  - rewrite map_length. exact Lb.
Qed.
Print Assumptions C83_lowest.

Lemma solved_gap n L r m : lowest_whole n L r -> nv m = n -> nb m = length (snd r) -> m_evals m = fst r ->
  (forall i row, nth_error (snd r) i = Some row -> exists c, 0 < c /\ forall v, (v < n)%nat -> phi m i v = c * val row v) ->
  gap n (nb m) L (phi m) (val (m_evals m)).
Proof.
  intros [(Hl & _) Hlow] Hn Hb He Hphi mu x Ex Hx i Hi. apply (Hlow mu x Ex).
  - intros row Hin. apply In_nth_error in Hin. destruct Hin as (j & Hj). destruct (Hphi j row Hj) as (c & Hc & Hv).
    assert (Lj : (j < nb m)%nat) by (rewrite Hb; apply nth_error_Some; congruence).
    specialize (Hx j Lj). unfold rip in *. rewrite (rsum_ext n _ (fun v => c * (x v * val row v))) in Hx by (intros v Hvn; rewrite Hv by exact Hvn; ring).
    rewrite rsum_scal_l in Hx. apply Rmult_integral in Hx. destruct Hx; [lra|assumption].
  - rewrite He. apply nth_In. rewrite Hl, <- Hb. exact Hi.
Qed.

(** What the two solvers' meshes have in common. *)
Lemma two_meshes read eigsh eigsh' name zoom zoom' number V F cfg V' F' :
  In name MESHES -> read ("meshes_polygons_" ++ name ++ ".off")%string = Ok (V, F) -> good V F ->
  extract_mesh_config name = Ok cfg -> upsample V F (UPSAMPLE cfg) = (V', F') ->
  let n := length V' in
  let L := mesh_laplacian V' F' in
  let k := match number with Some k => k | None => (Z.of_nat n / 4)%Z end in
  (0 < k)%Z -> lowest_whole n L (eigsh L n k) -> Z.of_nat (length (snd (eigsh L n k))) = k ->
  lowest_whole n L (eigsh' L n k) -> Z.of_nat (length (snd (eigsh' L n k))) = k ->
  exists o o', mesh_post_init read eigsh name zoom number = Ok o /\ mesh_post_init read eigsh' name zoom' number = Ok o' /\
    mesh_ready (o_mesh o) /\ mesh_ready (o_mesh o') /\ nv (o_mesh o) = n /\ nv (o_mesh o') = nv (o_mesh o) /\ nb (o_mesh o') = nb (o_mesh o) /\
    Z.of_nat (nb (o_mesh o)) = k /\
    m_region (o_mesh o') = m_region (o_mesh o) /\
    forall j v, (j < nb (o_mesh o))%nat -> (v < nv (o_mesh o))%nat ->
      phi (o_mesh o') j v = rsum (nb (o_mesh o)) (fun i => overlap (nv (o_mesh o)) (phi (o_mesh o)) (phi (o_mesh o')) i j * phi (o_mesh o) i v).
Proof.
  intros Hname Hread G Ec EU n L k Hk Hs Hl Hs' Hl'.
  destruct (C82_mesh read eigsh name zoom number V F Hname Hread G) as (cfg1 & V1 & F1 & Ec1 & EU1 & H).
  rewrite Ec in Ec1. injection Ec1 as <-. rewrite EU in EU1. injection EU1 as <- <-. cbv zeta in H. fold n L k in H.
  destruct (H ltac:(lia) (proj1 Hs) Hl) as (o & Eo & _ & _ & _ & Mv & _ & Mr & Mk & W & O & Me & Mphi & Mp). clear H.
  destruct (C82_mesh read eigsh' name zoom' number V F Hname Hread G) as (cfg1 & V1 & F1 & Ec1 & EU1 & H).
  rewrite Ec in Ec1. injection Ec1 as <-. rewrite EU in EU1. injection EU1 as <- <-. cbv zeta in H. fold n L k in H.
  destruct (H ltac:(lia) (proj1 Hs') Hl') as (o' & Eo' & _ & _ & _ & Mv' & _ & Mr' & Mk' & W' & O' & Me' & Mphi' & Mp'). clear H.
  exists o, o'. split; [exact Eo|]. split; [exact Eo'|].
  assert (N : nv (o_mesh o) = n) by (unfold nv; rewrite Mv; reflexivity).
  assert (N' : nv (o_mesh o') = n) by (unfold nv; rewrite Mv'; reflexivity).
  assert (B : Z.of_nat (nb (o_mesh o)) = k) by (destruct W as (_ & _ & X & _); congruence).
  assert (B' : Z.of_nat (nb (o_mesh o')) = k) by (destruct W' as (_ & _ & X & _); congruence).
  assert (BB : nb (o_mesh o') = nb (o_mesh o)) by lia.
  assert (P : (0 < n)%nat).
  { destruct (Mp 0%nat ltac:(lia)) as (_ & [(v & Hv & _) _] & _). lia. }
  split; [unfold mesh_ready; split; [exact W|]; split; [exact O|]; lia|].
  split; [unfold mesh_ready; split; [exact W'|]; split; [exact O'|]; lia|].
  split; [exact N|]. split; [congruence|]. split; [exact BB|]. split; [exact B|]. split; [congruence|].
  rewrite N. apply (one_span n (nb (o_mesh o)) L (fun r c _ _ => laplacian_sym V' F' r c) (phi (o_mesh o)) (phi (o_mesh o'))
    (val (m_evals (o_mesh o))) (val (m_evals (o_mesh o')))).
  - intros p q Hp Hq. rewrite <- N. apply O; assumption.
  - intros p q Hp Hq. rewrite <- N'. apply O'; rewrite BB; assumption.
  - intros i v Hi Hv. apply (proj2 (proj1 (proj2 (Mp i Hi)))), Hv.
  - intros i v Hi Hv. rewrite <- BB in Hi. apply (proj2 (proj1 (proj2 (Mp' i Hi)))), Hv.
  - apply (solved_gap n L (eigsh L n k)); try assumption. lia.
  - rewrite <- BB. apply (solved_gap n L (eigsh' L n k)); try assumption. lia.
Qed.

(** Two solvers, both returning the lowest eigenvalues with all their
    eigenvectors: the part of a field that a mesh can represent is the same. *)
Theorem C83_basis : forall read eigsh eigsh' name zoom zoom' number V F cfg V' F',
  In name MESHES -> read ("meshes_polygons_" ++ name ++ ".off")%string = Ok (V, F) -> good V F ->
  extract_mesh_config name = Ok cfg -> upsample V F (UPSAMPLE cfg) = (V', F') ->
  let n := length V' in
  let L := mesh_laplacian V' F' in
  let k := match number with Some k => k | None => (Z.of_nat n / 4)%Z end in
  (0 < k)%Z -> lowest_whole n L (eigsh L n k) -> Z.of_nat (length (snd (eigsh L n k))) = k ->
  lowest_whole n L (eigsh' L n k) -> Z.of_nat (length (snd (eigsh' L n k))) = k ->
  exists o o', mesh_post_init read eigsh name zoom number = Ok o /\ mesh_post_init read eigsh' name zoom' number = Ok o' /\
    forall u, length u = n -> exists c c' w,
      mesh_forward (o_mesh o) u = Ok c /\ mesh_inverse (o_mesh o) c = Ok w /\
      mesh_forward (o_mesh o') u = Ok c' /\ mesh_inverse (o_mesh o') c' = Ok w /\
      rsum (length c) (fun i => val c i ^ 2) = rsum (length c') (fun i => val c' i ^ 2).
Proof.
  intros read eigsh eigsh' name zoom zoom' number V F cfg V' F' Hname Hread G Ec EU n L k Hk Hs Hl Hs' Hl'.
  destruct (two_meshes read eigsh eigsh' name zoom zoom' number V F cfg V' F' Hname Hread G Ec EU Hk Hs Hl Hs' Hl')
    as (o & o' & Eo & Eo' & (W & O & _) & (W' & O' & _) & N & NN & BB & B & _ & SP).
  exists o, o'. split; [exact Eo|]. split; [exact Eo'|]. intros u Hu.
  set (m := o_mesh o) in *. set (m' := o_mesh o') in *.
  assert (O'' : forall p q, (p < nb m)%nat -> (q < nb m)%nat -> rip (nv m) (phi m' p) (phi m' q) = if Nat.eqb p q then 1 else 0).
  { intros p q Hp Hq. rewrite <- NN. apply O'; rewrite BB; assumption. }
  pose proof (same_kernel (nv m) (nb m) (phi m) (phi m') O O'' SP) as K.
  assert (U : length u = nv m) by (rewrite N; exact Hu). assert (U' : length u = nv m') by congruence.
  assert (SW : forall f : nat -> nat -> R, forall v, rsum (nb m) (fun i => rip (nv m) (val u) (f i) * f i v)
     = rsum (nv m) (fun w => val u w * rsum (nb m) (fun i => f i w * f i v))).
  { intros f v. rewrite (rsum_ext (nb m) _ (fun i => rsum (nv m) (fun w => val u w * (f i w * f i v)))).
    - rewrite rsum_swap. apply rsum_ext. intros w _. rewrite rsum_scal_l. reflexivity.
    - intros i _. unfold rip. rewrite <- rsum_scal_r. apply rsum_ext. intros w _. ring. }
  assert (SQ : forall f : nat -> nat -> R, rsum (nb m) (fun i => rip (nv m) (val u) (f i) ^ 2)
     = rsum (nv m) (fun v => rsum (nv m) (fun w => val u w * rsum (nb m) (fun i => f i w * f i v)) * val u v)).
  { intros f. rewrite (rsum_ext (nv m) _ (fun v => rsum (nb m) (fun i => rip (nv m) (val u) (f i) * (val u v * f i v)))).
    - rewrite rsum_swap. apply rsum_ext. intros i _. rewrite rsum_scal_l. unfold rip. ring.
    - intros v _. rewrite <- SW, <- rsum_scal_r. apply rsum_ext. intros i _. ring. }
  eexists. eexists. eexists. split; [apply (forward_ok m W u U)|].
  split; [apply (inverse_ok m W); rewrite map_length, seq_length; reflexivity|].
  split; [apply (forward_ok m' W' u U')|].
  split.
  - rewrite (inverse_ok m' W') by (rewrite map_length, seq_length; reflexivity). rewrite NN. f_equal. apply map_ext_in.
    intros v Hv. apply in_seq in Hv. unfold field. rewrite BB.
    rewrite (rsum_ext (nb m) (fun i => val (map (fun i => rip (nv m) (val u) (phi m' i)) (seq 0 (nb m))) i * phi m' i v) (fun i => rip (nv m) (val u) (phi m' i) * phi m' i v))
      by (intros i Hi; rewrite val_map_seq by exact Hi; reflexivity).
    rewrite (rsum_ext (nb m) (fun i => val (map (fun i => rip (nv m) (val u) (phi m i)) (seq 0 (nb m))) i * phi m i v) (fun i => rip (nv m) (val u) (phi m i) * phi m i v))
      by (intros i Hi; rewrite val_map_seq by exact Hi; reflexivity).
    rewrite !SW. apply rsum_ext. intros w Hw. rewrite K by (assumption || lia). reflexivity.
  - rewrite !map_length, !seq_length, NN, BB.
    rewrite (rsum_ext (nb m) _ (fun i => rip (nv m) (val u) (phi m i) ^ 2)) by (intros i Hi; rewrite val_map_seq by exact Hi; reflexivity).
    rewrite (rsum_ext (nb m) (fun i => val (map (fun i => rip (nv m) (val u) (phi m' i)) (seq 0 (nb m))) i ^ 2) (fun i => rip (nv m) (val u) (phi m' i) ^ 2))
      by (intros i Hi; rewrite val_map_seq by exact Hi; reflexivity).
    rewrite !SQ. apply rsum_ext. intros v Hv. f_equal. apply rsum_ext. intros w Hw. rewrite K by assumption. reflexivity.
Qed.
Print Assumptions C83_basis.

(** ... and so are the Slepian eigenvalues and functions, whatever solver,
    threads and sorting are used for these. *)
Theorem C83_slepian : forall read eigsh eigsh' name zoom zoom' number V F cfg V' F',
  In name MESHES -> read ("meshes_polygons_" ++ name ++ ".off")%string = Ok (V, F) -> good V F ->
  extract_mesh_config name = Ok cfg -> upsample V F (UPSAMPLE cfg) = (V', F') ->
  let n := length V' in
  let L := mesh_laplacian V' F' in
  let k := match number with Some k => k | None => (Z.of_nat n / 4)%Z end in
  (0 < k)%Z -> lowest_whole n L (eigsh L n k) -> Z.of_nat (length (snd (eigsh L n k))) = k ->
  lowest_whole n L (eigsh' L n k) -> Z.of_nat (length (snd (eigsh' L n k))) = k ->
  exists o o', mesh_post_init read eigsh name zoom number = Ok o /\ mesh_post_init read eigsh' name zoom' number = Ok o' /\
    forall eigh argsort ncpu garbage sched eigh' argsort' ncpu' garbage' sched',
    mesh_calls eigh argsort ncpu garbage sched (o_mesh o) -> mesh_calls eigh' argsort' ncpu' garbage' sched' (o_mesh o') ->
    exists s s', mesh_slepian_fresh argsort eigh ncpu garbage sched (o_mesh o) = Ok s /\
      mesh_slepian_fresh argsort' eigh' ncpu' garbage' sched' (o_mesh o') = Ok s' /\
      ms_N s' = ms_N s /\ same_on_mesh (Z.to_nat k) (ms_evals s) (slep s) (ms_evals s') (slep s').
Proof.
  intros read eigsh eigsh' name zoom zoom' number V F cfg V' F' Hname Hread G Ec EU n L k Hk Hs Hl Hs' Hl'.
  destruct (two_meshes read eigsh eigsh' name zoom zoom' number V F cfg V' F' Hname Hread G Ec EU Hk Hs Hl Hs' Hl')
    as (o & o' & Eo & Eo' & MR & MR' & N & NN & BB & B & RR & SP).
  exists o, o'. split; [exact Eo|]. split; [exact Eo'|]. intros eigh argsort ncpu garbage sched eigh' argsort' ncpu' garbage' sched' X X'.
  set (m := o_mesh o) in *. set (m' := o_mesh o') in *.
  destruct (C79_run _ _ _ _ _ _ MR X) as (s & E & _). destruct (C79_run _ _ _ _ _ _ MR' X') as (s' & E' & _).
  exists s, s'. split; [exact E|]. split; [exact E'|].
  destruct (mesh_run _ _ _ _ _ _ _ MR X E) as (M1 & N1 & _ & _ & _ & _ & R1).
  destruct (mesh_run _ _ _ _ _ _ _ MR' X' E') as (M2 & N2 & _ & _ & _ & _ & R2).
  pose proof MR as (W & O & _). pose proof MR' as (W' & O' & _).
  split.
  - assert (CS : compute_mesh_shannon m' = compute_mesh_shannon m).
    { unfold compute_mesh_shannon. rewrite RR. destruct W as (_ & -> & _). destruct W' as (_ & -> & _). rewrite BB. reflexivity. }
    congruence.
  - pose proof (turned_solution m m' W W' O O' NN BB RR SP _ _ _ _ R1 R2) as Q.
    assert (A1 : slep s = row_field m (ms_functions s)) by (unfold slep, row_field, sfun; rewrite M1; reflexivity).
    assert (A2 : slep s' = row_field m' (ms_functions s')) by (unfold slep, row_field, sfun; rewrite M2; reflexivity).
    rewrite A1, A2. replace (Z.to_nat k) with (nb m) by (transitivity (Z.to_nat (Z.of_nat (nb m))); [symmetry; apply Nat2Z.id|f_equal; exact B]). exact Q.
Qed.
Print Assumptions C83_slepian.

(** A mesh with fewer basis functions than vertices loses some field entirely. *)
Theorem C83_lossy : forall m, well_formed m -> (nb m < nv m)%nat ->
  exists u, length u = nv m /\ (exists x, In x u /\ x <> 0) /\ mesh_forward m u = Ok (repeat 0 (nb m)).
Proof.
  intros m W H. destruct (real_common_zero (nv m) (nb m) (phi m) H) as (x & (j & Hj & N) & Hx).
  exists (map x (seq 0 (nv m))). split; [rewrite map_length, seq_length; reflexivity|]. split.
  - exists (x j). split; [|exact N]. apply in_map, in_seq. lia.
  - rewrite (forward_ok m W) by (rewrite map_length, seq_length; reflexivity). f_equal.
    transitivity (map (fun _ : nat => 0) (seq 0 (nb m))).
    + apply map_ext_in. intros q Hq. apply in_seq in Hq. rewrite <- (Hx q) by lia. unfold rip. apply rsum_ext. intros v Hv.
      rewrite val_map_seq by exact Hv. reflexivity.
    + clear H Hx. generalize 0%nat. induction (nb m) as [|k IH]; intros a; [reflexivity|]. cbn [seq map repeat]. rewrite IH. reflexivity.
Qed.
Print Assumptions C83_lossy.

(** ** An eigenvalue cut in two *)

(** The square stood on a corner: eigenvalues 0, 1, 1 and 2. *)
Definition diamond_V : list point := [(0, 1, 0); (1, 0, 0); (0, -1, 0); (-1, 0, 0)].

Lemma diamond_similar : similar square_V diamond_V.
Proof.
  split; [reflexivity|]. exists 2. split; [lra|]. intros i j Hi Hj. cbn [length square_V] in Hi, Hj.
  destruct i as [|[|[|[|i]]]]; [| | | |lia]; (destruct j as [|[|[|[|j]]]]; [| | | |lia]); unfold sqdist; cbn; ring.
Qed.

Lemma diamond_good : good diamond_V square_F.
Proof.
  split.
  - intros f [<-|[<-|[]]]; (split; [intros v [<-|[<-|[<-|[]]]]; cbn; lia|]); cbn; intros E; injection E; lra.
  - exact (proj2 square_good).
Qed.

Lemma diamond_times x i : (i < 4)%nat ->
  times 4 (mesh_laplacian diamond_V square_F) x i
  = nth i [x 0%nat - x 1%nat / 2 - x 3%nat / 2; x 1%nat - x 0%nat / 2 - x 2%nat / 2;
           x 2%nat - x 1%nat / 2 - x 3%nat / 2; x 3%nat - x 0%nat / 2 - x 2%nat / 2] 0.
Proof.
  intros Hi. unfold times. rewrite (rsum_ext 4 _ (fun j => mesh_laplacian square_V square_F i j * x j)).
  - pose proof (C82_laplacian_case i Hi) as H. cbn [map] in H. cbn [rsum].
    destruct i as [|[|[|[|i]]]]; [| | | |lia]; cbn [nth] in H |- *; injection H as -> -> -> ->; field.
  - intros j _. rewrite (laplacian_similar square_V diamond_V); [reflexivity| |exact diamond_similar].
    intros f Hf. apply (proj1 square_good f Hf).
Qed.

(** Two answers a solver may give for two eigenvalues. *)
Definition first_answer : list R * list (list R) := ([0; 1], [[1; 1; 1; 1]; [1; 0; -1; 0]]).
Definition second_answer : list R * list (list R) := ([0; 1], [[1; 1; 1; 1]; [0; 1; 0; -1]]).

Lemma first_lowest : lowest 4 (mesh_laplacian diamond_V square_F) first_answer.
Proof.
  split.
  - split; [reflexivity|]. split.
    + intros i row E. destruct i as [|[|i]]; cbn in E; [| |destruct i; discriminate]; injection E as <-; (split; [reflexivity|]).
      * split; [exists 0%nat; split; [lia|cbn; lra]|]. intros i Hi. rewrite diamond_times by exact Hi.
        destruct i as [|[|[|[|i]]]]; [| | | |lia]; cbn; lra.
      * split; [exists 0%nat; split; [lia|cbn; lra]|]. intros i Hi. rewrite diamond_times by exact Hi.
        destruct i as [|[|[|[|i]]]]; [| | | |lia]; cbn; lra.
    + intros i j row row' E E' N _. destruct i as [|[|i]]; cbn in E; [| |destruct i; discriminate];
        (destruct j as [|[|j]]; cbn in E'; [| |destruct j; discriminate]); try contradiction;
        injection E as <-; injection E' as <-; unfold rip, val; cbn; ring.
  - intros mu x [(v & Hv & Nv) Ex] Hx lam Hlam.
    pose proof (Hx _ (or_introl eq_refl)) as O1. pose proof (Hx _ (or_intror (or_introl eq_refl))) as O2. unfold rip, val in O1, O2. cbn in O1, O2.
    pose proof (Ex 0%nat ltac:(lia)) as E0. pose proof (Ex 1%nat ltac:(lia)) as E1. pose proof (Ex 3%nat ltac:(lia)) as E3.
    rewrite diamond_times in E0, E1, E3 by lia. cbn in E0, E1, E3.
    assert (M : 1 <= mu).
    { assert (S : x 2%nat = x 0%nat) by lra. assert (T : x 3%nat = - 2 * x 0%nat - x 1%nat) by lra. rewrite S, T in *.
      destruct (Req_dec (x 0%nat) 0) as [Z|Z].
      - rewrite Z in *. destruct (Req_dec (x 1%nat) 0) as [Z'|Z'].
        + exfalso. apply Nv. destruct v as [|[|[|[|v]]]]; [exact Z|exact Z'|lra| |lia]. rewrite T. lra.
        + assert (mu = 1) by (apply (Rmult_eq_reg_r (x 1%nat)); lra). lra.
      - assert (mu = 2) by (apply (Rmult_eq_reg_r (x 0%nat)); lra). lra. }
    destruct Hlam as [<-|[<-|[]]]; lra.
Qed.

Lemma second_lowest : lowest 4 (mesh_laplacian diamond_V square_F) second_answer.
Proof.
  split.
  - split; [reflexivity|]. split.
    + intros i row E. destruct i as [|[|i]]; cbn in E; [| |destruct i; discriminate]; injection E as <-; (split; [reflexivity|]).
      * split; [exists 0%nat; split; [lia|cbn; lra]|]. intros i Hi. rewrite diamond_times by exact Hi.
        destruct i as [|[|[|[|i]]]]; [| | | |lia]; cbn; lra.
      * split; [exists 1%nat; split; [lia|cbn; lra]|]. intros i Hi. rewrite diamond_times by exact Hi.
        destruct i as [|[|[|[|i]]]]; [| | | |lia]; cbn; lra.
    + intros i j row row' E E' N _. destruct i as [|[|i]]; cbn in E; [| |destruct i; discriminate];
        (destruct j as [|[|j]]; cbn in E'; [| |destruct j; discriminate]); try contradiction;
        injection E as <-; injection E' as <-; unfold rip, val; cbn; ring.
  - intros mu x [(v & Hv & Nv) Ex] Hx lam Hlam.
    pose proof (Hx _ (or_introl eq_refl)) as O1. pose proof (Hx _ (or_intror (or_introl eq_refl))) as O2. unfold rip, val in O1, O2. cbn in O1, O2.
    pose proof (Ex 0%nat ltac:(lia)) as E0. pose proof (Ex 1%nat ltac:(lia)) as E1. pose proof (Ex 2%nat ltac:(lia)) as E2.
    rewrite diamond_times in E0, E1, E2 by lia. cbn in E0, E1, E2.
    assert (M : 1 <= mu).
    { assert (S : x 3%nat = x 1%nat) by lra. assert (T : x 2%nat = - 2 * x 1%nat - x 0%nat) by lra. rewrite S, T in *.
      destruct (Req_dec (x 1%nat) 0) as [Z|Z].
      - rewrite Z in *. destruct (Req_dec (x 0%nat) 0) as [Z'|Z'].
        + exfalso. apply Nv. destruct v as [|[|[|[|v]]]]; [exact Z'|exact Z| |lra|lia]. rewrite T. lra.
        + assert (mu = 1) by (apply (Rmult_eq_reg_r (x 0%nat)); lra). lra.
      - assert (mu = 2) by (apply (Rmult_eq_reg_r (x 1%nat)); lra). lra. }
    destruct Hlam as [<-|[<-|[]]]; lra.
Qed.

Definition diamond_file (file : string) : res (list point * list face) :=
  if String.eqb file "meshes_polygons_cube.off" then Ok (diamond_V, square_F) else Err FileNotFoundError.

Lemma diamond_mesh r a b : solves 4 (mesh_laplacian diamond_V square_F) r -> snd r = [[1; 1; 1; 1]; [a; b; - a; - b]] -> a ^ 2 + b ^ 2 = 1 ->
  exists o, mesh_post_init diamond_file (fun _ _ _ => r) "cube" false (Some 2%Z) = Ok o /\ mesh_ready (o_mesh o) /\
    forall eigh argsort ncpu garbage sched s, mesh_calls eigh argsort ncpu garbage sched (o_mesh o) ->
      mesh_slepian_fresh argsort eigh ncpu garbage sched (o_mesh o) = Ok s -> rsum 2 (val (ms_evals s)) = / 4 + a ^ 2 / 2.
Proof.
  intros Hs Er Hab.
  destruct (C82_mesh diamond_file (fun _ _ _ => r) "cube" false (Some 2%Z) diamond_V square_F) as (cfg & V' & F' & Ec & EU & H).
  - cbn. tauto.
  - reflexivity.
  - exact diamond_good.
  - injection Ec as <-. injection EU as <- <-. cbv zeta in H.
    destruct H as (o & E & _ & _ & _ & Hv & _ & Hreg & Hn & W & O & _ & Hphi & _).
    + lia.
    + exact Hs.
    + cbv beta. rewrite Er. reflexivity.
    + exists o. set (m := o_mesh o) in *.
      assert (N : nv m = 4%nat) by (unfold nv; rewrite Hv; reflexivity).
      assert (B : nb m = 2%nat) by (destruct W as (_ & _ & W & _); rewrite Hn in W; lia).
      assert (MR : mesh_ready m) by (split; [exact W|]; split; [exact O|]; lia).
      split; [exact E|]. split; [exact MR|].
      intros eigh argsort ncpu garbage sched s X Es.
      destruct (mesh_run _ _ _ _ _ _ _ MR X Es) as (Ms & _ & S1 & S2 & _ & S3 & _).
      destruct (C56_trace s S1 S2) as [T _]; [rewrite Ms; exact S3|]. rewrite Ms, B, N in T. rewrite T.
      assert (R : m_region m = [true; false; false; false]).
      { rewrite Hreg. unfold create_region, diamond_V. cbn.
        assert (T1 : Rleb (5 / 10) 1 = true) by (apply Rleb_spec; lra).
        assert (N0 : Rleb (5 / 10) 0 = false) by (rewrite <- not_true_iff_false, Rleb_spec; lra).
        assert (N1 : Rleb (5 / 10) (-1) = false) by (rewrite <- not_true_iff_false, Rleb_spec; lra).
        rewrite T1, N0, N1. reflexivity. }
      cbn [rsum]. unfold inside. rewrite R. cbn [nth].
      rewrite Er in Hphi. destruct (Hphi 0%nat _ eq_refl) as (c & Hc & Vc). destruct (Hphi 1%nat _ eq_refl) as (d & Hd & Vd).
      pose proof (O 0%nat 0%nat ltac:(lia) ltac:(lia)) as O0. pose proof (O 1%nat 1%nat ltac:(lia) ltac:(lia)) as O1.
      rewrite N in O0, O1. unfold rip in O0, O1. cbn [rsum Nat.eqb] in O0, O1.
      rewrite !Vc in O0 by (cbn; lia). rewrite !Vd in O1 by (cbn; lia). rewrite Vc, Vd by (cbn; lia). unfold val in *. cbn [nth] in *.
      assert (C : c ^ 2 = / 4) by lra. assert (D : d ^ 2 = / 2).
      { replace (d ^ 2) with (d ^ 2 * (a ^ 2 + b ^ 2)) by (rewrite Hab; ring). lra. }
      replace ((d * a) ^ 2) with (d ^ 2 * a ^ 2) by ring. replace ((c * 1) ^ 2) with (c ^ 2) by ring. rewrite C, D. lra.
Qed.

(** When the number asked for cuts an eigenvalue in two, solvers that both do what
    they should lead to different Slepian eigenvalues: a larger sum for one basis
    than for the other. *)
Theorem C83_split_refuted : exists read V F r r',
  read "meshes_polygons_cube.off"%string = Ok (V, F) /\ good V F /\ upsample V F (UPSAMPLE cube) = (V, F) /\
  lowest (length V) (mesh_laplacian V F) r /\ lowest (length V) (mesh_laplacian V F) r' /\ fst r = fst r' /\
  length (snd r) = 2%nat /\ length (snd r') = 2%nat /\
  exists o o', mesh_post_init read (fun _ _ _ => r) "cube" false (Some 2%Z) = Ok o /\
    mesh_post_init read (fun _ _ _ => r') "cube" false (Some 2%Z) = Ok o' /\ mesh_ready (o_mesh o) /\ mesh_ready (o_mesh o') /\
    forall eigh argsort ncpu garbage sched eigh' argsort' ncpu' garbage' sched' s s',
    mesh_calls eigh argsort ncpu garbage sched (o_mesh o) -> mesh_calls eigh' argsort' ncpu' garbage' sched' (o_mesh o') ->
    mesh_slepian_fresh argsort eigh ncpu garbage sched (o_mesh o) = Ok s ->
    mesh_slepian_fresh argsort' eigh' ncpu' garbage' sched' (o_mesh o') = Ok s' ->
    rsum 2 (val (ms_evals s)) = 3 / 4 /\ rsum 2 (val (ms_evals s')) = 1 / 4.
Proof.
  exists diamond_file, diamond_V, square_F, first_answer, second_answer.
  split; [reflexivity|]. split; [exact diamond_good|]. split; [reflexivity|].
  split; [exact first_lowest|]. split; [exact second_lowest|]. split; [reflexivity|]. split; [reflexivity|]. split; [reflexivity|].
  destruct (diamond_mesh first_answer 1 0 (proj1 first_lowest)) as (o & E & MR & H); [cbn; repeat f_equal; ring|ring|].
  destruct (diamond_mesh second_answer 0 1 (proj1 second_lowest)) as (o' & E' & MR' & H'); [cbn; repeat f_equal; ring|ring|].
  exists o, o'. split; [exact E|]. split; [exact E'|]. split; [exact MR|]. split; [exact MR'|].
  intros eigh argsort ncpu garbage sched eigh' argsort' ncpu' garbage' sched' s s' X X' Es Es'.
  rewrite (H _ _ _ _ _ _ X Es), (H' _ _ _ _ _ _ X' Es'). split; field.
Qed.
Print Assumptions C83_split_refuted.

(** ** Cases *)

(** The square turned by 45 degrees and enlarged, its triangles listed otherwise,
    its first two vertices exchanged. *)
Example C83_similar_case : mesh_laplacian diamond_V square_F 0 1 = - / 2.
Proof.
  rewrite (C83_similar square_V diamond_V); [|intros f Hf; apply (proj1 square_good f Hf)|exact diamond_similar].
  pose proof (C82_laplacian_case 0 ltac:(lia)) as H. cbn in H. injection H. tauto.
Qed.

Example C83_triangles_case : same_triangles square_F [(3, 0, 2); (2, 1, 0)]%nat.
Proof.
  exists [(0, 2, 3); (0, 1, 2)]%nat. split; [apply perm_swap|]. constructor; [|constructor; [|constructor]]; cbn.
  - apply perm_trans with [0; 3; 2]%nat; [apply perm_skip, perm_swap|apply perm_swap].
  - apply perm_trans with [1; 0; 2]%nat; [apply perm_swap|]. apply perm_trans with [1; 2; 0]%nat; [apply perm_skip, perm_swap|apply perm_swap].
Qed.

Example C83_numbers_case : renumbered (fun v => match v with 0 => 1 | 1 => 0 | v => v end)%nat square_V [(1, 0, 0); (0, 0, 0); (1, 1, 0); (0, 1, 0)].
Proof.
  split; [reflexivity|]. split.
  - intros i Hi. cbn in Hi |- *. destruct i as [|[|[|[|i]]]]; [| | | |lia]; (split; [lia|reflexivity]).
  - intros i j Hi Hj. cbn in Hi, Hj. destruct i as [|[|[|[|i]]]]; [| | | |lia]; (destruct j as [|[|[|[|j]]]]; [| | | |lia]); intros E; lia || reflexivity || discriminate.
Qed.

(** With three functions no eigenvalue of the square is cut, and both orders of the
    two in the middle are fine. *)
Lemma diamond_three (a b c d : R) : a ^ 2 + b ^ 2 <> 0 -> c ^ 2 + d ^ 2 <> 0 -> a * c + b * d = 0 ->
  lowest_whole 4 (mesh_laplacian diamond_V square_F) ([0; 1; 1], [[1; 1; 1; 1]; [a; b; - a; - b]; [c; d; - c; - d]]).
Proof.
  intros Na Nc Hac.
  assert (NZ : forall p q, p ^ 2 + q ^ 2 <> 0 -> exists v, (v < 4)%nat /\ val [p; q; - p; - q] v <> 0).
  { intros p q N. destruct (Req_dec p 0) as [->|P]; [|exists 0%nat; split; [lia|exact P]].
    exists 1%nat. split; [lia|]. cbn. intros ->. apply N. ring. }
  assert (EP : forall p q, p ^ 2 + q ^ 2 <> 0 -> eigenpair 4 (mesh_laplacian diamond_V square_F) 1 (val [p; q; - p; - q])).
  { intros p q N. split; [apply NZ, N|]. intros i Hi. rewrite diamond_times by exact Hi.
    destruct i as [|[|[|[|i]]]]; [| | | |lia]; unfold val; cbn; lra. }
  split.
  - split; [reflexivity|]. split.
    + intros i row E. destruct i as [|[|[|i]]]; cbn in E; [| | |destruct i; discriminate]; injection E as <-; (split; [reflexivity|]).
      * split; [exists 0%nat; split; [lia|cbn; lra]|]. intros i Hi. rewrite diamond_times by exact Hi.
        destruct i as [|[|[|[|i]]]]; [| | | |lia]; unfold val; cbn; lra.
      * apply (EP a b Na).
      * apply (EP c d Nc).
    + intros i j row row' E E' N _. destruct i as [|[|[|i]]]; cbn in E; [| | |destruct i; discriminate];
        (destruct j as [|[|[|j]]]; cbn in E'; [| | |destruct j; discriminate]); try contradiction;
        injection E as <-; injection E' as <-; unfold rip, val; cbn; lra.
  - intros mu x [(v & Hv & Nv) Ex] Hx lam Hlam.
    pose proof (Hx _ (or_introl eq_refl)) as O1. pose proof (Hx _ (or_intror (or_introl eq_refl))) as O2.
    pose proof (Hx _ (or_intror (or_intror (or_introl eq_refl)))) as O3. unfold rip, val in O1, O2, O3. cbn in O1, O2, O3.
    pose proof (Ex 0%nat ltac:(lia)) as E0. rewrite diamond_times in E0 by lia. cbn in E0.
    set (p := x 0%nat - x 2%nat). set (q := x 1%nat - x 3%nat).
    assert (H2 : a * p + b * q = 0) by (unfold p, q; lra). assert (H3 : c * p + d * q = 0) by (unfold p, q; lra).
    assert (D : (a * d - b * c) ^ 2 = (a ^ 2 + b ^ 2) * (c ^ 2 + d ^ 2)).
    { transitivity ((a * d - b * c) ^ 2 + (a * c + b * d) ^ 2); [rewrite Hac; ring|ring]. }
    assert (Dn : a * d - b * c <> 0).
    { intros Z. rewrite Z in D. symmetry in D. replace (0 ^ 2) with 0 in D by ring. apply Rmult_integral in D. tauto. }
    assert (P : p = 0).
    { apply (Rmult_eq_reg_l (a * d - b * c)); [|exact Dn]. transitivity (d * (a * p + b * q) - b * (c * p + d * q)); [ring|rewrite H2, H3; ring]. }
    assert (Q : q = 0).
    { apply (Rmult_eq_reg_l (a * d - b * c)); [|exact Dn]. transitivity (a * (c * p + d * q) - c * (a * p + b * q)); [ring|rewrite H2, H3; ring]. }
    unfold p in P. unfold q in Q. assert (S2 : x 2%nat = x 0%nat) by lra. assert (S3 : x 3%nat = x 1%nat) by lra.
    assert (S1 : x 1%nat = - x 0%nat) by lra.
    assert (Z : x 0%nat <> 0). { intros Z. apply Nv. destruct v as [|[|[|[|v]]]]; [exact Z|lra|lra|lra|lia]. }
    assert (M : mu = 2) by (apply (Rmult_eq_reg_r (x 0%nat)); lra).
    destruct Hlam as [<-|[<-|[<-|[]]]]; lra.
Qed.

Example C83_slepian_case : exists o o',
  mesh_post_init diamond_file (fun _ _ _ => ([0; 1; 1], [[1; 1; 1; 1]; [1; 0; -1; -0]; [0; 1; -0; -1]])) "cube" false (Some 3%Z) = Ok o /\
  mesh_post_init diamond_file (fun _ _ _ => ([0; 1; 1], [[1; 1; 1; 1]; [3; 4; -3; -4]; [-4; 3; - -4; -3]])) "cube" true (Some 3%Z) = Ok o' /\
  forall eigh argsort ncpu garbage sched eigh' argsort' ncpu' garbage' sched',
  mesh_calls eigh argsort ncpu garbage sched (o_mesh o) -> mesh_calls eigh' argsort' ncpu' garbage' sched' (o_mesh o') ->
  exists s s', mesh_slepian_fresh argsort eigh ncpu garbage sched (o_mesh o) = Ok s /\
    mesh_slepian_fresh argsort' eigh' ncpu' garbage' sched' (o_mesh o') = Ok s' /\ ms_evals s' = ms_evals s.
Proof.
  destruct (C83_slepian diamond_file (fun _ _ _ => ([0; 1; 1], [[1; 1; 1; 1]; [1; 0; -1; -0]; [0; 1; -0; -1]]))
    (fun _ _ _ => ([0; 1; 1], [[1; 1; 1; 1]; [3; 4; -3; -4]; [-4; 3; - -4; -3]])) "cube" false true (Some 3%Z) diamond_V square_F cube diamond_V square_F)
    as (o & o' & E & E' & H).
  - cbn. tauto.
  - reflexivity.
  - exact diamond_good.
  - reflexivity.
  - reflexivity.
  - lia.
  - apply diamond_three; lra.
  - reflexivity.
  - apply diamond_three; lra.
  - reflexivity.
  - exists o, o'. split; [exact E|]. split; [exact E'|]. intros eigh argsort ncpu garbage sched eigh' argsort' ncpu' garbage' sched' X X'.
    destruct (H _ _ _ _ _ _ _ _ _ _ X X') as (s & s' & Es & Es' & _ & Ev & _). exists s, s'. tauto.
Qed.

(** Two functions on four vertices: some field is lost. *)
Example C83_lossy_case : exists o u, mesh_post_init diamond_file (fun _ _ _ => first_answer) "cube" false (Some 2%Z) = Ok o /\
  (exists x, In x u /\ x <> 0) /\ mesh_forward (o_mesh o) u = Ok [0; 0].
Proof.
  destruct (diamond_mesh first_answer 1 0 (proj1 first_lowest)) as (o & E & (W & _) & _); [cbn; repeat f_equal; ring|ring|].
  destruct (C82_mesh diamond_file (fun _ _ _ => first_answer) "cube" false (Some 2%Z) diamond_V square_F) as (cfg & V' & F' & Ec & EU & H);
    [cbn; tauto|reflexivity|exact diamond_good|].
  injection Ec as <-. injection EU as <- <-. cbv zeta in H.
  destruct (H ltac:(lia) (proj1 first_lowest) eq_refl) as (o1 & E1 & _ & _ & _ & Hv & _ & _ & Hn & _). rewrite E in E1. injection E1 as <-.
  assert (B : nb (o_mesh o) = 2%nat) by (destruct W as (_ & _ & X & _); rewrite Hn in X; lia).
  destruct (C83_lossy (o_mesh o) W) as (u & _ & Hu & Hf); [rewrite B; unfold nv; rewrite Hv; cbn; lia|].
  exists o, u. split; [exact E|]. split; [exact Hu|]. rewrite Hf, B. reflexivity.
Qed.
