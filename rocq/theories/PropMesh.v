(** * Properties C28, C29, C30, C48: meshes. *)
From Coq Require Import List ZArith Arith Bool Reals Lra Lia.
From Coquelicot Require Import Complex.
From Coq Require Import Permutation.
From Verif Require Import Base ListLemmas RSum CSum PyNum PyNumProofs Numpy RealOrtho Machine Job Integration ArbitraryMatrix
  SpecEigen Eigen EigenProofs PropMatrix PropEigen
  SpecField Noise NoiseProofs ConvolutionProofs EarthProofs TransformProofs Transform Mesh SpecMesh MeshProofs.
Import ListNotations.
Local Open Scope nat_scope.

(** ** C28 transforms *)

Theorem C28_forward_inverse : forall m c, well_formed m -> orthonormal_basis m -> length c = nb m ->
  exists u, mesh_inverse m c = Ok u /\ length u = nv m /\ mesh_forward m u = Ok c.
Proof.
  intros m c wf ob Hc. exists (map (field m c) (seq 0 (nv m))). split; [apply inverse_ok; assumption|].
  split; [rewrite map_length, seq_length; reflexivity|]. apply forward_inverse; assumption.
Qed.
Print Assumptions C28_forward_inverse.

(** The value of the inverse transform at a vertex. *)
Theorem C28_inverse_value : forall m c, well_formed m -> length c = nb m ->
  exists u, mesh_inverse m c = Ok u /\ length u = nv m /\
    forall v, v < nv m -> val u v = rsum (nb m) (fun i => val c i * phi m i v)%R.
Proof.
  intros m c wf Hc. exists (map (field m c) (seq 0 (nv m))). split; [apply inverse_ok; assumption|].
  split; [rewrite map_length, seq_length; reflexivity|]. intros v Hv. apply val_map_seq, Hv.
Qed.
Print Assumptions C28_inverse_value.

(** Inverse after forward is the orthogonal projection onto the span of the
    basis: the residual is orthogonal to every basis function and no other
    band-limited field is closer; with as many functions as vertices nothing
    is lost. *)
Theorem C28_projection : forall m u, well_formed m -> orthonormal_basis m -> length u = nv m ->
  exists c w, mesh_forward m u = Ok c /\ length c = nb m /\ mesh_inverse m c = Ok w /\ length w = nv m /\
    (forall i, i < nb m -> rip (nv m) (fun v => val u v - val w v)%R (phi m i) = 0%R) /\
    (forall c' w', length c' = nb m -> mesh_inverse m c' = Ok w' ->
       (rsum (nv m) (fun v => (val u v - val w v) ^ 2) <= rsum (nv m) (fun v => (val u v - val w' v) ^ 2))%R) /\
    (rsum (nb m) (fun i => val c i ^ 2) <= rsum (nv m) (fun v => val u v ^ 2))%R /\
    (nb m = nv m -> w = u).
Proof.
  intros m u wf ob Hu.
  set (c := map (fun i => rip (nv m) (val u) (phi m i)) (seq 0 (nb m))).
  assert (Hc : length c = nb m) by (unfold c; rewrite map_length, seq_length; reflexivity).
  set (w := map (field m c) (seq 0 (nv m))).
  assert (Hw : length w = nv m) by (unfold w; rewrite map_length, seq_length; reflexivity).
  assert (Wv : forall v, v < nv m -> val w v = rproj (nv m) (nb m) (phi m) (val u) v).
  { intros v Hv. unfold w. rewrite val_map_seq by exact Hv. unfold field, rproj. apply rsum_ext. intros i Hi.
    unfold c. rewrite val_map_seq by exact Hi. reflexivity. }
  exists c, w. split; [apply forward_ok; assumption|]. split; [exact Hc|].
  split; [apply inverse_ok; assumption|]. split; [exact Hw|]. split; [|split; [|split]].
  - intros i Hi. rewrite <- (rproj_residual (nv m) (nb m) (phi m) ob (val u) i Hi).
    apply rip_ext; intros v Hv; [rewrite Wv by exact Hv|]; reflexivity.
  - intros c' w' Hc' Ew. rewrite (inverse_ok m wf c' Hc') in Ew. injection Ew as <-.
    pose proof (rdistance (nv m) (nb m) (phi m) ob (val u) (val c')) as D.
    pose proof (rip_nonneg (nb m) (fun p => rip (nv m) (val u) (phi m p) - val c' p)%R) as P.
    unfold rip at 1 2 in D.
    rewrite (rsum_ext (nv m) (fun v => (val u v - val w v) ^ 2)%R
      (fun v => (val u v - rproj (nv m) (nb m) (phi m) (val u) v) * (val u v - rproj (nv m) (nb m) (phi m) (val u) v))%R)
      by (intros v Hv; rewrite Wv by exact Hv; ring).
    rewrite (rsum_ext (nv m) (fun v => (val u v - val (map (field m c') (seq 0 (nv m))) v) ^ 2)%R
      (fun v => (val u v - rsum (nb m) (fun p => val c' p * phi m p v)) * (val u v - rsum (nb m) (fun p => val c' p * phi m p v)))%R)
      by (intros v Hv; rewrite val_map_seq by exact Hv; unfold field; ring).
    lra.
  - pose proof (rbessel (nv m) (nb m) (phi m) ob (val u)) as B. unfold rip at 1 in B.
    rewrite (rsum_ext (nb m) (fun i => val c i ^ 2)%R (fun i => rip (nv m) (val u) (phi m i) * rip (nv m) (val u) (phi m i))%R)
      by (intros i Hi; unfold c; rewrite val_map_seq by exact Hi; ring).
    rewrite (rsum_ext (nv m) (fun v => val u v ^ 2)%R (fun v => val u v * val u v)%R) by (intros; ring).
    exact B.
  - intros E. apply (val_ext _ _ (nv m) Hw Hu). intros v Hv. rewrite Wv by exact Hv.
    rewrite E. apply rreconstruct; [|exact Hv]. intros p q Hp Hq. apply ob; lia.
Qed.
Print Assumptions C28_projection.

(** Fields whose length is not the number of vertices are rejected, unless it
    is one. *)
Theorem C28_wrong_length : forall m u, well_formed m -> 0 < nb m -> length u <> nv m -> length u <> 1 -> nv m <> 1 ->
  mesh_forward m u = Err ValueError.
Proof.
  intros m u wf Hn H1 H2 H3. unfold mesh_forward.
  destruct (m_basis m) as [|row rows] eqn:E; [unfold nb in Hn; rewrite E in Hn; cbn in Hn; lia|].
  cbn [length seq combine rfold]. unfold integrate_mesh_whole.
  assert (length row = nv m) by (apply wf; rewrite E; left; reflexivity).
  rewrite broadcast_fail by lia. reflexivity.
Qed.
Print Assumptions C28_wrong_length.

(** Masking a band-limited signal multiplies its coefficients by the
    concentration matrix. *)
Theorem C28_masked : forall m c, well_formed m -> orthonormal_basis m -> length c = nb m ->
  exists c', ensure_masked_bandlimit_mesh_signal m c = Ok c' /\ length c' = nb m /\
    forall a, a < nb m -> val c' a = rsum (nb m) (fun b =>
      rsum (nv m) (fun v => if inside m v then phi m a v * phi m b v else 0) * val c b)%R.
Proof.
  intros m c wf ob Hc. eexists. split; [apply masked_ok; assumption|]. split; [rewrite map_length, seq_length; reflexivity|].
  intros a Ha. rewrite val_map_seq by exact Ha. reflexivity.
Qed.
Print Assumptions C28_masked.

(** ** The three Slepian decomposition methods agree on every band-limited
    signal. *)
Theorem C28_methods_agree : forall s c n, slepian_functions_ok s -> slepian_eigen s -> length c = nb (ms_mesh s) ->
  n <= length (ms_functions s) -> (forall p, p < n -> val (ms_evals s) p <> 0%R) ->
  exists u f_p, mesh_inverse (ms_mesh s) c = Ok u /\ length f_p = n /\
    (forall p, p < n -> val f_p p = rip (nb (ms_mesh s)) (val c) (val (sfun s p))) /\
    slepian_mesh_forward s {| mg_mask := false; mg_u_i := Some c; mg_u := None |} (Some (Z.of_nat n)) = Ok f_p /\
    slepian_mesh_forward s {| mg_mask := false; mg_u_i := None; mg_u := Some u |} (Some (Z.of_nat n)) = Ok f_p /\
    slepian_mesh_forward s {| mg_mask := true; mg_u_i := None; mg_u := Some u |} (Some (Z.of_nat n)) = Ok f_p.
Proof.
  intros s c n ok HE Hc Hn Hev. set (m := ms_mesh s) in *.
  pose proof (sl_wf s ok) as wf. pose proof (sl_ob s ok) as ob. fold m in wf, ob.
  set (u := map (field m c) (seq 0 (nv m))).
  assert (Hu : length u = nv m) by (unfold u; rewrite map_length, seq_length; reflexivity).
  set (h := fun p => rip (nb m) (val c) (val (sfun s p))).
  assert (Uv : forall v, v < nv m -> val u v = field m c v) by (intros v Hv; apply val_map_seq, Hv).
  exists u, (map h (seq 0 n)). split; [apply inverse_ok; assumption|].
  split; [rewrite map_length, seq_length; reflexivity|]. split; [intros p Hp; apply val_map_seq, Hp|].
  split; [|split]; unfold slepian_mesh_forward; cbn [mesh_detect_method mg_u_i mg_u mg_mask rbind];
    apply decompose_all_ok; try exact Hn; intros p Hp.
  - apply harmonic_ok; [exact ok|reflexivity|exact Hc|lia].
  - rewrite (sphere_ok s ok {| mg_mask := false; mg_u_i := None; mg_u := Some u |} u p eq_refl Hu) by lia. f_equal. unfold h, m. rewrite <- (field_slep s ok c p).
    apply rip_ext; intros v Hv; [apply Uv, Hv|reflexivity].
  - rewrite (region_method_ok s ok {| mg_mask := true; mg_u_i := None; mg_u := Some u |} u p eq_refl Hu) by lia. f_equal. fold m.
    transitivity (rmask (inside m) (nv m) (field m c) (slep s p) / val (ms_evals s) p)%R.
    + f_equal. apply rsum_ext. intros v Hv. rewrite Uv by exact Hv. reflexivity.
    + unfold m. rewrite region_slep by (try assumption; lia). unfold h, m. field. apply Hev, Hp.
Qed.
Print Assumptions C28_methods_agree.

(** Slepian inverse then Slepian forward gives the coefficients back, with no
    quadrature error. *)
Theorem C28_slepian_round_trip : forall s f_p, slepian_functions_ok s -> ns s <= length f_p ->
  exists u, slepian_mesh_inverse s f_p = Ok u /\ length u = nv (ms_mesh s) /\
    slepian_mesh_forward s (of_u u) None = Ok (firstn (ns s) f_p) /\
    rsum (nv (ms_mesh s)) (fun v => val u v ^ 2)%R = rsum (ns s) (fun p => val f_p p ^ 2)%R.
Proof.
  intros s f_p ok Hf. set (m := ms_mesh s).
  set (u := map (sfield s f_p) (seq 0 (nv m))).
  assert (Hu : length u = nv m) by (unfold u; rewrite map_length, seq_length; reflexivity).
  assert (Uv : forall v, v < nv m -> val u v = sfield s f_p v) by (intros v Hv; apply val_map_seq, Hv).
  exists u. split; [apply slepian_inverse_mesh_ok; assumption|]. split; [exact Hu|]. split.
  - unfold slepian_mesh_forward. cbn [of_u mesh_detect_method mg_u_i mg_u mg_mask rbind].
    rewrite <- (N_nat s ok). rewrite (decompose_all_ok s _ _ (ns s) (val f_p) (N_fun s ok)).
    + f_equal. apply (val_ext _ _ (ns s)); [rewrite map_length, seq_length; reflexivity|rewrite firstn_length; lia|].
      intros p Hp. rewrite val_map_seq by exact Hp. unfold val.
      rewrite <- (firstn_skipn (ns s) f_p) at 1. rewrite app_nth1 by (rewrite firstn_length; lia). reflexivity.
    + intros p Hp. pose proof (N_fun s ok). rewrite (sphere_ok s ok (of_u u) u p eq_refl Hu) by lia. f_equal.
      rewrite <- (sfield_coefficient s ok f_p p Hp). apply rip_ext; intros v Hv; [apply Uv, Hv|reflexivity].
  - transitivity (rip (nv m) (sfield s f_p) (sfield s f_p)).
    + apply rsum_ext. intros v Hv. rewrite Uv by exact Hv. ring.
    + unfold m. rewrite sfield_product by exact ok. apply rsum_ext. intros. ring.
Qed.
Print Assumptions C28_slepian_round_trip.

(** ** From the mesh to its Slepian functions, for every schedule of the
    threads. *)
Lemma filter_length_le {A} (f : A -> bool) l : length (filter f l) <= length l.
Proof. induction l as [|x l IH]; [reflexivity|]. cbn. destruct (f x); cbn; lia. Qed.

Lemma shannon_range m N : compute_mesh_shannon m = Ok N -> (0 <= N <= Z.of_nat (length (m_evals m)))%Z.
Proof.
  unfold compute_mesh_shannon. destruct (Nat.eqb_spec (length (m_region m)) 0) as [H|H]; [discriminate|].
  intros E. injection E as <-. apply py_round_between.
  assert (length (filter (fun b => b) (m_region m)) <= length (m_region m)) as Hf by apply filter_length_le.
  set (k := length (filter (fun b => b) (m_region m))) in *. set (t := length (m_region m)) in *.
  rewrite <- !INR_IZR_INZ. pose proof (pos_INR k) as K. pose proof (pos_INR (length (m_evals m))) as E.
  assert (0 < INR t)%R as T by (apply lt_0_INR; lia). apply le_INR in Hf.
  assert (0 <= INR k / INR t <= 1)%R as [Q1 Q2].
  { split; [apply Rmult_le_pos; [exact K|left; apply Rinv_0_lt_compat; exact T]|]. apply (Rmult_le_reg_r (INR t)); [lra|]. field_simplify; lra. }
  change (IZR 0) with 0%R. split; [nra|]. rewrite <- (Rmult_1_l (INR (length (m_evals m)))) at 2. nra.
Qed.

Theorem C28_pipeline : forall argsort eigh ncpu garbage sched m,
  argsort_ok argsort -> well_formed m -> orthonormal_basis m -> 0 < nv m -> 0 < nb m -> 0 < ncpu ->
  (forall D, (forall a b, a < nb m -> b < nb m -> D a b = D b a) ->
     eigen_r (nb m) D (fst (eigh D)) (snd (eigh D))) ->
  finished (mesh_job (length (m_evals m)) (length (m_vertices m)) (fun v => nth v (m_region m) false)
              (fun i v => nth v (nth i (m_basis m) []) 0%R) ncpu garbage sched) ->
  exists s s', mesh_slepian_fresh argsort eigh ncpu garbage sched m = Ok s /\
    mesh_slepian_cached argsort eigh ncpu garbage sched m = Ok s' /\
    ms_mesh s = m /\ ms_mesh s' = m /\ compute_mesh_shannon m = Ok (ms_N s) /\ ms_N s' = ms_N s /\
    slepian_functions_ok s /\ slepian_eigen s /\ descending (ms_evals s) /\ length (ms_functions s) = nb m /\
    slepian_functions_ok s' /\ slepian_eigen s' /\ length (ms_functions s') = ns s' /\
    (forall p, p < ns s -> sfun s' p = sfun s p).
Proof.
  intros argsort eigh ncpu garbage sched m HA wf ob Hv Hb Hc HE HF. pose proof wf as (Hreg & Hev & Hnum & Hrow).
  destruct (compute_mesh_shannon m) as [N|e] eqn:EN.
  2:{ exfalso. unfold compute_mesh_shannon in EN. destruct (Nat.eqb_spec (length (m_region m)) 0); [lia|discriminate]. }
  pose proof (shannon_range m N EN) as HN. rewrite Hev in HN, HF.
  destruct (C04_mesh_matrix_any_schedule (nb m) (length (m_vertices m)) (fun v => nth v (m_region m) false)
     (fun i v => nth v (nth i (m_basis m) []) 0%R) ncpu Hb Hc garbage sched HF) as (D & ED & HD).
  assert (Dc : forall a b, a < nb m -> b < nb m -> D a b = conc m a b) by (intros a b Ha Hb'; apply HD; assumption).
  assert (Dsym : forall a b, a < nb m -> b < nb m -> D a b = D b a).
  { intros a b Ha Hb'. rewrite !Dc by assumption. apply rsum_ext. intros v _. destruct (inside m v); ring. }
  specialize (HE D Dsym). destruct (eigh D) as [evals cols] eqn:Eh. cbn [fst snd] in HE.
  destruct (C16_mesh argsort HA (nb m) D evals cols HE) as (ev & rows & Ecl & Hlen & Hperm & Hdesc & Hort & Heig).
  assert (Hrl : forall p, p < nb m -> nth_error rows p = Some (nth p rows [])).
  { intros p Hp. apply nth_error_nth'. lia. }
  assert (Hevl : length ev = nb m) by (rewrite (Permutation_length Hperm); apply HE).
  set (s := {| ms_mesh := m; ms_N := N; ms_evals := ev; ms_functions := rows |}).
  assert (Es : mesh_slepian_fresh argsort eigh ncpu garbage sched m = Ok s).
  { unfold mesh_slepian_fresh. rewrite EN. cbn [rbind]. rewrite Hev, ED. cbn [rbind]. rewrite Eh, Ecl. reflexivity. }
  set (s' := {| ms_mesh := m; ms_N := N; ms_evals := ev; ms_functions := py_prefix N rows |}).
  assert (Hpre : py_prefix N rows = firstn (Z.to_nat N) rows) by (apply py_prefix_nat; lia).
  assert (Hfl : length (firstn (Z.to_nat N) rows) = Z.to_nat N) by (rewrite firstn_length; lia).
  assert (Hnth : forall p, p < Z.to_nat N -> nth p (firstn (Z.to_nat N) rows) [] = nth p rows []).
  { intros p Hp. rewrite <- (firstn_skipn (Z.to_nat N) rows) at 2. rewrite app_nth1 by lia. reflexivity. }
  assert (Hrlen : forall row, In row rows -> length row = nb m).
  { intros row Hin. apply In_nth_error in Hin. destruct Hin as [p Hp]. apply (Heig p row Hp). }
  exists s, s'. split; [exact Es|].
  split. { unfold mesh_slepian_cached. rewrite Es, EN. reflexivity. }
  do 2 (split; [reflexivity|]). split; [reflexivity|]. split; [reflexivity|].
  assert (S1 : slepian_functions_ok s).
  { unfold slepian_functions_ok, ns, sfun. cbn [s ms_mesh ms_N ms_evals ms_functions].
    repeat (split; [first [assumption|lia]|]).
    intros p q Hp Hq. apply (Hort p q); apply Hrl; lia. }
  assert (S2 : slepian_eigen s).
  { unfold slepian_eigen, sfun. cbn [s ms_mesh ms_N ms_evals ms_functions]. intros p a Hp Ha.
    destruct (Heig p (nth p rows [])) as [_ He]; [apply Hrl; lia|]. specialize (He a Ha).
    unfold val. rewrite <- He. apply rsum_ext. intros b Hb'. rewrite Dc by assumption. reflexivity. }
  split; [exact S1|]. split; [exact S2|]. split; [exact Hdesc|]. split; [exact Hlen|].
  split; [|split; [|split]].
  - unfold slepian_functions_ok, ns, sfun. cbn [s' ms_mesh ms_N ms_evals ms_functions]. rewrite Hpre.
    repeat (split; [first [assumption|lia]|]). split; [intros row Hin; apply Hrlen; rewrite <- (firstn_skipn (Z.to_nat N) rows); apply in_or_app; left; exact Hin|].
    intros p q Hp Hq. rewrite Hfl in *. rewrite !Hnth by lia. apply S1; cbn [s ms_functions]; lia.
  - unfold slepian_eigen, sfun. cbn [s' ms_mesh ms_N ms_evals ms_functions]. rewrite Hpre. intros p a Hp Ha.
    rewrite Hfl in Hp. rewrite Hnth by lia. apply (S2 p a); cbn [s ms_functions]; [lia|exact Ha].
  - unfold ns. cbn [s' ms_N ms_functions]. rewrite Hpre. exact Hfl.
  - unfold ns, sfun. cbn [s s' ms_N ms_functions]. intros p Hp. rewrite Hpre. apply Hnth, Hp.
Qed.
Print Assumptions C28_pipeline.

(** ** C29 normalisation *)

Definition sumsq (row : list R) : R := rsum (length row) (fun v => val row v ^ 2)%R.

Theorem C29_normalised : forall rows, (forall row, In row rows -> exists x, In x row /\ x <> 0%R) ->
  exists rows', orthonormalise_basis_functions rows = Ok rows' /\ length rows' = length rows /\
    forall i row, nth_error rows i = Some row -> exists row' k, nth_error rows' i = Some row' /\
      (0 < k)%R /\ row' = map (fun x => k * x)%R row /\ sumsq row' = 1%R.
Proof.
  intros rows Hnz. unfold orthonormalise_basis_functions.
  rewrite (rmap_ok _ (fun row => sumsq row)).
  2:{ intros row _. rewrite (whole_ok row row (length row)) by reflexivity. f_equal. apply rsum_ext. intros. ring. }
  cbn [rbind]. rewrite map_map. rewrite broadcast_same by (rewrite map_length; reflexivity).
  set (scale := fun row => map (fun x => x / sqrt (sumsq row))%R row).
  assert (E : map (fun p => map (fun x => x / snd p)%R (fst p)) (combine rows (map (fun row => sqrt (sumsq row)) rows)) = map scale rows).
  { clear Hnz. induction rows as [|r rows IH]; [reflexivity|]. cbn [map combine fst snd]. f_equal. exact IH. }
  rewrite E. exists (map scale rows). split; [reflexivity|]. split; [apply map_length|].
  intros i row Hi. exists (scale row), (/ sqrt (sumsq row))%R.
  assert (P : (0 < sumsq row)%R).
  { destruct (Hnz row (nth_error_In _ _ Hi)) as (x & Hx & Hne).
    destruct (Rle_lt_or_eq_dec 0 (sumsq row)) as [H|H]; [apply rsum_nonneg; intros; apply pow2_ge_0|exact H|].
    exfalso. apply Hne. apply In_nth with (d := 0%R) in Hx. destruct Hx as (v & Hv & <-).
    assert (Z : (val row v ^ 2 = 0)%R).
    { apply (rsum_zero_terms (length row) (fun v => val row v ^ 2)%R); [intros; apply pow2_ge_0|symmetry; exact H|exact Hv]. }
    unfold val in Z. apply Rsqr_0_uniq. unfold Rsqr. lra. }
  pose proof (sqrt_lt_R0 _ P) as Q.
  assert (Esc : scale row = map (fun x => / sqrt (sumsq row) * x)%R row)
    by (apply map_ext; intros; unfold Rdiv; ring).
  split; [rewrite nth_error_map, Hi; reflexivity|]. split; [apply Rinv_0_lt_compat; exact Q|]. split; [exact Esc|].
  rewrite Esc. unfold sumsq at 1. rewrite map_length.
  rewrite (rsum_ext _ _ (fun v => (/ sqrt (sumsq row)) ^ 2 * val row v ^ 2)%R).
  - rewrite rsum_scal_l. fold (sumsq row). rewrite pow_inv, pow2_sqrt by lra. field. lra.
  - intros v Hv. unfold val at 1. rewrite (nth_indep _ 0%R (/ sqrt (sumsq row) * 0)%R) by (rewrite map_length; exact Hv).
    rewrite (map_nth (fun x => / sqrt (sumsq row) * x)%R). unfold val. ring.
Qed.
Print Assumptions C29_normalised.

Lemma rdot_scaled n k k' r r' : length r = n -> length r' = n ->
  rdot n (map (fun x => k * x)%R r) (map (fun x => k' * x)%R r') = (k * k' * rdot n r r')%R.
Proof.
  intros H H'. unfold rdot. rewrite <- rsum_scal_l. apply rsum_ext. intros j Hj.
  rewrite (nth_indep (map (fun x => k * x)%R r) 0%R (k * 0)%R) by (rewrite map_length; lia).
  rewrite (nth_indep (map (fun x => k' * x)%R r') 0%R (k' * 0)%R) by (rewrite map_length; lia).
  rewrite (map_nth (fun x => k * x)%R), (map_nth (fun x => k' * x)%R). ring.
Qed.

(** Two functions are orthogonal afterwards exactly when they were before: an
    orthogonal family becomes orthonormal, another one does not. *)
Theorem C29_orthogonal : forall rows rows' n i j r r',
  (forall row, In row rows -> length row = n /\ exists x, In x row /\ x <> 0%R) ->
  orthonormalise_basis_functions rows = Ok rows' ->
  nth_error rows i = Some r -> nth_error rows j = Some r' ->
  exists q q', nth_error rows' i = Some q /\ nth_error rows' j = Some q' /\ rdot n q q = 1%R /\
    (rdot n q q' = 0%R <-> rdot n r r' = 0%R).
Proof.
  intros rows rows' n i j r r' H E Hi Hj.
  destruct (C29_normalised rows) as (rs & E' & Hl & Hrs); [intros row Hin; apply H, Hin|].
  rewrite E in E'. injection E' as <-.
  destruct (Hrs i r Hi) as (q & k & Hq & Hk & -> & Hs). destruct (Hrs j r' Hj) as (q' & k' & Hq' & Hk' & -> & Hs').
  pose proof (proj1 (H r (nth_error_In _ _ Hi))) as Hr. pose proof (proj1 (H r' (nth_error_In _ _ Hj))) as Hr'.
  eexists; eexists. split; [exact Hq|]. split; [exact Hq'|]. split.
  - unfold sumsq in Hs. rewrite map_length, Hr in Hs. rewrite <- Hs. apply rsum_ext. intros. unfold val. ring.
  - rewrite rdot_scaled by assumption. split; intros Z; [|rewrite Z; ring].
    apply Rmult_integral in Z. destruct Z as [Z|Z]; [|exact Z]. exfalso. nra.
Qed.
Print Assumptions C29_orthogonal.

(** Unless told otherwise a quarter as many basis functions as vertices are
    requested, and those returned are the eigenvectors scaled to unit length,
    with their eigenvalues. *)
Theorem C29_decomposition : forall eigsh vertices number n,
  n = match number with None => (Z.of_nat (length vertices) / 4)%Z | Some k => k end ->
  (forall row, In row (snd (eigsh n)) -> exists x, In x row /\ x <> 0%R) ->
  exists rows, mesh_eigendecomposition eigsh vertices number = Ok (fst (eigsh n), rows, n) /\
    length rows = length (snd (eigsh n)) /\
    forall i row, nth_error (snd (eigsh n)) i = Some row -> exists row' k, nth_error rows i = Some row' /\
      (0 < k)%R /\ row' = map (fun x => k * x)%R row /\ sumsq row' = 1%R.
Proof.
  intros eigsh vertices number n En Hnz. destruct (C29_normalised _ Hnz) as (rows & E & Hl & H).
  exists rows. split; [|split; [exact Hl|exact H]]. unfold mesh_eigendecomposition. rewrite <- En.
  destruct (eigsh n) as [ev vecs]. cbn [fst snd] in *. rewrite E. reflexivity.
Qed.
Print Assumptions C29_decomposition.

Example C29_decomposition_case : exists rows,
  mesh_eigendecomposition (fun k => ([0; 1]%R, repeat [3; 4]%R (Z.to_nat k))) (repeat (0, 0, 0)%R 9) None
  = Ok ([0; 1]%R, rows, 2%Z) /\ length rows = 2.
Proof.
  destruct (C29_decomposition (fun k => ([0; 1]%R, repeat [3; 4]%R (Z.to_nat k))) (repeat (0, 0, 0)%R 9) None 2) as (rows & E & Hl & _).
  - reflexivity.
  - intros row Hr. cbn in Hr. exists 3%R. destruct Hr as [<-|[<-|[]]]; (split; [left; reflexivity|lra]).
  - exists rows. split; [exact E|exact Hl].
Qed.

(** ** C30 regions *)

Theorem C30_vertices : forall b vertices,
  length (create_mesh_region b vertices) = length vertices /\
  forall k x y z, nth_error vertices k = Some (x, y, z) ->
    (nth_error (create_mesh_region b vertices) k = Some true <->
     (XMIN b <= x <= XMAX b)%R /\ (YMIN b <= y <= YMAX b)%R /\ (ZMIN b <= z <= ZMAX b)%R).
Proof.
  intros b vs. split; [apply map_length|]. intros k x y z Hk. unfold create_mesh_region.
  rewrite nth_error_map, Hk. cbn [option_map]. split.
  - intros E. injection E as E. rewrite !andb_true_iff, !Rleb_spec in E. tauto.
  - intros H. f_equal. rewrite !andb_true_iff, !Rleb_spec. tauto.
Qed.
Print Assumptions C30_vertices.

Lemma nth_error_combine {A B} (l : list A) (l' : list B) k : nth_error (combine l l') k
  = match nth_error l k, nth_error l' k with Some x, Some y => Some (x, y) | _, _ => None end.
Proof.
  revert l l'. induction k as [|k IH]; intros [|x l] [|y l']; cbn; try reflexivity; [destruct (nth_error l k); reflexivity|apply IH].
Qed.

Lemma argwhere_spec mask v : existsb (Nat.eqb v) (argwhere mask) = nth v mask false.
Proof.
  apply eq_true_iff_eq. rewrite existsb_exists. split.
  - intros (x & Hx & E). apply Nat.eqb_eq in E. subst x. apply in_map_iff in Hx. destruct Hx as ([i b] & <- & Hin).
    apply filter_In in Hin. destruct Hin as [Hin Hb]. cbn in *. subst b.
    apply In_nth_error in Hin. destruct Hin as [k Hk]. rewrite nth_error_combine in Hk.
    destruct (nth_error (seq 0 (length mask)) k) as [j|] eqn:E1; [|discriminate].
    destruct (nth_error mask k) as [b|] eqn:E2; [|discriminate]. injection Hk as -> ->.
    assert (Hkl : k < length mask) by (apply nth_error_Some; congruence).
    rewrite (nth_error_nth' _ 0) in E1 by (rewrite seq_length; exact Hkl). injection E1 as E1.
    rewrite seq_nth in E1 by exact Hkl. cbn in E1. subst i. apply nth_error_nth. exact E2.
  - intros H. exists v. split; [|apply Nat.eqb_refl].
    destruct (le_lt_dec (length mask) v) as [L|L]; [rewrite nth_overflow in H by exact L; discriminate|].
    apply in_map_iff. exists (v, true). split; [reflexivity|]. apply filter_In. split; [|reflexivity].
    apply (nth_error_In _ v). rewrite nth_error_combine.
    rewrite (nth_error_nth' (seq 0 (length mask)) 0) by (rewrite seq_length; exact L).
    rewrite (nth_error_nth' mask false) by exact L. rewrite seq_nth by exact L. cbn. rewrite H. reflexivity.
Qed.

Theorem C30_faces : forall m,
  length (convert_region_on_vertices_to_faces m) = length (m_faces m) /\
  forall k face, nth_error (m_faces m) k = Some face ->
    nth_error (convert_region_on_vertices_to_faces m) k = Some 1%R /\ (forall v, In v face -> nth v (m_region m) false = true)
    \/ nth_error (convert_region_on_vertices_to_faces m) k = Some 0%R /\ (exists v, In v face /\ nth v (m_region m) false = false).
Proof.
  intros m.
  assert (E : convert_region_on_vertices_to_faces m
    = map (fun face => if forallb (fun v => nth v (m_region m) false) face then 1%R else 0%R) (m_faces m)).
  { unfold convert_region_on_vertices_to_faces. induction (m_faces m) as [|f fs IH]; [reflexivity|].
    cbn [map length repeat combine fst snd]. f_equal; [|exact IH].
    assert (forallb (fun v => existsb (Nat.eqb v) (argwhere (m_region m))) f = forallb (fun v => nth v (m_region m) false) f) as ->; [|reflexivity].
    clear IH. induction f as [|v f IH]; [reflexivity|]. cbn [forallb]. rewrite argwhere_spec, IH. reflexivity. }
  rewrite E. split; [apply map_length|]. intros k face Hk. rewrite nth_error_map, Hk. cbn [option_map].
  destruct (forallb (fun v => nth v (m_region m) false) face) eqn:F.
  - left. split; [reflexivity|]. apply forallb_forall. exact F.
  - right. split; [reflexivity|]. clear Hk. induction face as [|v face IH]; [discriminate|]. cbn [forallb] in F.
    destruct (nth v (m_region m) false) eqn:V; [|exists v; split; [left; reflexivity|exact V]].
    destruct (IH F) as (w & Hw & HV). exists w. split; [right; exact Hw|exact HV].
Qed.
Print Assumptions C30_faces.

(** ** C48 Shannon number *)

Theorem C48_range : forall m, 0 < length (m_region m) ->
  exists N, compute_mesh_shannon m = Ok N /\ (0 <= N <= Z.of_nat (length (m_evals m)))%Z /\
    (Forall (fun b => b = true) (m_region m) -> N = Z.of_nat (length (m_evals m))) /\
    (Forall (fun b => b = false) (m_region m) -> N = 0%Z) /\
    (Rabs (IZR N - INR (length (filter (fun b => b) (m_region m))) * INR (length (m_evals m)) / INR (length (m_region m))) <= 1 / 2)%R.
Proof.
  intros m H. destruct (compute_mesh_shannon m) as [N|e] eqn:E.
  2:{ exfalso. unfold compute_mesh_shannon in E. destruct (Nat.eqb_spec (length (m_region m)) 0); [lia|discriminate]. }
  exists N. split; [reflexivity|]. split; [apply shannon_range, E|].
  unfold compute_mesh_shannon in E. destruct (Nat.eqb_spec (length (m_region m)) 0); [lia|]. injection E as <-.
  assert (0 < INR (length (m_region m)))%R as T by (apply lt_0_INR; lia).
  split; [|split].
  - intros F. assert (filter (fun b => b) (m_region m) = m_region m) as ->.
    { clear -F. induction F as [|b l -> F IH]; [reflexivity|]. cbn [filter]. f_equal. exact IH. }
    replace (INR (length (m_region m)) / INR (length (m_region m)) * INR (length (m_evals m)))%R with (INR (length (m_evals m))) by (field; lra).
    rewrite INR_IZR_INZ. apply py_round_IZR.
  - intros F. assert (filter (fun b => b) (m_region m) = []) as ->.
    { clear -F. induction F as [|b l -> F IH]; [reflexivity|exact IH]. }
    cbn [length INR]. replace (0 / INR (length (m_region m)) * INR (length (m_evals m)))%R with (IZR 0) by (field; lra).
    apply py_round_IZR.
  - replace (INR (length (filter (fun b => b) (m_region m))) * INR (length (m_evals m)) / INR (length (m_region m)))%R
      with (INR (length (filter (fun b => b) (m_region m))) / INR (length (m_region m)) * INR (length (m_evals m)))%R by (field; lra).
    apply py_round_half.
Qed.
Print Assumptions C48_range.

Theorem C48_monotone : forall m m' N N', length (m_evals m) = length (m_evals m') ->
  Forall2 (fun b b' => b = true -> b' = true) (m_region m) (m_region m') ->
  compute_mesh_shannon m = Ok N -> compute_mesh_shannon m' = Ok N' -> (N <= N')%Z.
Proof.
  intros m m' N N' He HR E E'. unfold compute_mesh_shannon in E, E'.
  assert (Hl : length (m_region m) = length (m_region m')) by (clear -HR; induction HR; cbn; congruence).
  destruct (Nat.eqb_spec (length (m_region m)) 0); [discriminate|].
  destruct (Nat.eqb_spec (length (m_region m')) 0); [discriminate|]. injection E as <-. injection E' as <-.
  apply py_round_mono. rewrite He, Hl. apply Rmult_le_compat_r; [apply pos_INR|].
  apply Rmult_le_compat_r; [left; apply Rinv_0_lt_compat, lt_0_INR; lia|]. apply le_INR.
  clear -HR. induction HR as [|b b' l l' Hb HR IH]; [reflexivity|]. cbn [filter].
  destruct b; [rewrite (Hb eq_refl); cbn [length]; lia|]. destruct b'; cbn [length]; lia.
Qed.
Print Assumptions C48_monotone.

Theorem C48_no_vertices : forall m, m_region m = [] -> compute_mesh_shannon m = Err ValueError.
Proof. intros m H. unfold compute_mesh_shannon. rewrite H. reflexivity. Qed.
Print Assumptions C48_no_vertices.
(** Only the ranks of the basis functions are decomposed, by every method. *)
Theorem C28_rank_error : forall s g mth rank, well_formed (ms_mesh s) -> (rank < 0 \/ Z.of_nat (nb (ms_mesh s)) <= rank)%Z ->
  mesh_decompose s g mth rank = Err ValueError.
Proof.
  intros s g mth rank (_ & _ & Hn & _) H. unfold mesh_decompose, mesh_validate_rank. rewrite Hn.
  destruct (Z.ltb_spec rank 0); [reflexivity|]. destruct (Z.leb_spec (Z.of_nat (nb (ms_mesh s))) rank); [reflexivity|lia].
Qed.
Print Assumptions C28_rank_error.


(** ** Instances: a mesh with three vertices and two basis functions *)

Definition ex_mesh : mesh := {|
  m_vertices := [(0, 0, 0); (1, 0, 0); (0, 1, 0)]%R;
  m_faces := [[0; 1; 2]; [0; 1; 1]];
  m_region := [true; true; false];
  m_evals := [0; 1]%R;
  m_basis := [[3/5; 0; 4/5]; [0; 1; 0]]%R;
  m_number := 2
|}.

Example ex_mesh_ok : well_formed ex_mesh /\ orthonormal_basis ex_mesh.
Proof.
  split.
  - split; [reflexivity|]. split; [reflexivity|]. split; [reflexivity|].
    intros row [<-|[<-|[]]]; reflexivity.
  - intros i j Hi Hj. unfold nb in *. cbn in Hi, Hj.
    destruct i as [|[|i]]; destruct j as [|[|j]]; try lia; unfold rip, nv, phi, val; cbn; field.
Qed.

(** The forward transform of a field outside the span loses something. *)
Example C28_not_identity : exists c w, mesh_forward ex_mesh [1; 0; 0]%R = Ok c /\ mesh_inverse ex_mesh c = Ok w /\
  c = [3/5; 0]%R /\ w = [9/25; 0; 12/25]%R.
Proof.
  eexists; eexists. split; [reflexivity|]. split; [reflexivity|].
  unfold integrate_mesh_whole. cbn. split; repeat (f_equal; try field).
Qed.

(** Eigenvectors of the concentration matrix diag(9/25, 1). *)
Definition ex_slepian : mesh_slepian := {|
  ms_mesh := ex_mesh; ms_N := 1; ms_evals := [1; 9/25]%R; ms_functions := [[0; 1]; [1; 0]]%R
|}.

Example ex_slepian_ok : slepian_functions_ok ex_slepian /\ slepian_eigen ex_slepian /\
  compute_mesh_shannon ex_mesh = Ok 1%Z.
Proof.
  destruct ex_mesh_ok as [wf ob]. split; [|split].
  - split; [exact wf|]. split; [exact ob|]. split; [cbn; lia|]. split; [cbn; lia|]. split; [cbn; lia|].
    split; [reflexivity|]. split.
    + intros row [<-|[<-|[]]]; reflexivity.
    + intros p q Hp Hq. cbn in Hp, Hq.
      destruct p as [|[|p]]; destruct q as [|[|q]]; try lia; unfold rip, val, sfun; cbn; field.
  - intros p a Hp Ha. cbn in Hp, Ha. unfold nb in Ha. cbn in Ha.
    destruct p as [|[|p]]; destruct a as [|[|a]]; try lia;
      unfold conc, rmask, phi, val, sfun, inside, nv; cbn; field.
  - unfold compute_mesh_shannon. cbn [ex_mesh m_region m_evals length filter Nat.eqb]. f_equal.
    replace (INR 2 / INR 3 * INR 2)%R with (4 / 3)%R by (cbn; field).
    unfold py_round. rewrite (rfloor_unique (4 / 3) 1) by lra.
    assert (Rltb (4 / 3 - 1) (1 / 2) = true) as -> by (apply Rltb_spec; lra). reflexivity.
Qed.

(** All hypotheses of [C28_methods_agree] hold here for both functions. *)
Example C28_rank_instance : forall g mth, mesh_decompose ex_slepian g mth 2 = Err ValueError.
Proof. intros g mth. apply C28_rank_error; [apply ex_mesh_ok|right; unfold nb; cbn; lia]. Qed.

Example C28_agree_instance : forall p, p < 2 -> val (ms_evals ex_slepian) p <> 0%R.
Proof. intros [|[|p]] H; unfold val; cbn; try lra; lia. Qed.

Example C28_pipeline_instance : exists sched,
  finished (mesh_job (length (m_evals ex_mesh)) (length (m_vertices ex_mesh)) (fun v => nth v (m_region ex_mesh) false)
              (fun i v => nth v (nth i (m_basis ex_mesh) []) 0%R) 2 (fun _ _ _ => 7%R) sched).
Proof. exact (C04_mesh_can_finish _ _ _ _ 2 _ []). Qed.

(** Two functions that are normalised but not orthogonalised. *)
Example C29_refuted_orthonormal : exists rows, orthonormalise_basis_functions [[1; 0]; [3; 4]]%R = Ok rows /\
  rdot 2 (nth 0 rows []) (nth 0 rows []) = 1%R /\ rdot 2 (nth 1 rows []) (nth 1 rows []) = 1%R /\
  rdot 2 (nth 0 rows []) (nth 1 rows []) <> 0%R.
Proof.
  assert (NZ : forall row, In row [[1; 0]; [3; 4]]%R -> length row = 2 /\ exists x, In x row /\ x <> 0%R).
  { intros row [<-|[<-|[]]]; (split; [reflexivity|]); [exists 1%R|exists 3%R]; (split; [left; reflexivity|lra]). }
  destruct (C29_normalised [[1; 0]; [3; 4]]%R) as (rows & E & _); [intros row Hin; apply NZ, Hin|].
  exists rows. split; [exact E|].
  destruct (C29_orthogonal _ _ 2 0 1 _ _ NZ E eq_refl eq_refl) as (q & q' & Hq & Hq' & H1 & H2).
  destruct (C29_orthogonal _ _ 2 1 0 _ _ NZ E eq_refl eq_refl) as (r & r' & Hr & Hr' & H3 & _).
  rewrite Hq' in Hr. injection Hr as <-. rewrite (nth_error_nth _ _ _ Hq), (nth_error_nth _ _ _ Hq').
  split; [exact H1|]. split; [exact H3|]. intros Z. apply H2 in Z. unfold rdot in Z. cbn in Z. lra.
Qed.

Example C30_instance : convert_region_on_vertices_to_faces ex_mesh = [0; 1]%R /\
  create_mesh_region {| XMIN := 0; XMAX := 1; YMIN := 0; YMAX := 1/2; ZMIN := -1; ZMAX := 1 |} (m_vertices ex_mesh)
  = [true; true; false].
Proof.
  split; [reflexivity|]. unfold create_mesh_region. cbn [map ex_mesh m_vertices XMIN XMAX YMIN YMAX ZMIN ZMAX].
  repeat (f_equal; [|]); try reflexivity;
    try (rewrite !andb_true_iff, !Rleb_spec; repeat split; lra).
  assert (Rleb 1 (1/2) = false) as ->; [|rewrite andb_false_r; reflexivity].
  destruct (Rleb 1 (1 / 2)) eqn:E; [|reflexivity]. apply Rleb_spec in E. lra.
Qed.
