(** * Creating and plotting the functions on a mesh: property C72. *)
From Coq Require Import List ZArith QArith Arith Bool Reals Qreals String Sorted Lra Lia.
From Coquelicot Require Import Complex.
From Verif Require Import Base ListLemmas RSum CSum PyNum PyNumProofs Numpy RealOrtho SpecEigen Eigen EigenProofs SpecField Noise NoiseProofs
  Convolution ConvolutionProofs EarthProofs Transform TransformProofs SpecTransform Wavelet WaveletProofs Names FnNames Mesh SpecMesh MeshProofs
  Args Plot PlotProofs Cli MeshObjects PropNoise PropWavelet PropMesh PropMeshSlepian PropArgs PropNames PropPlot PropFigure.
Import ListNotations.
Local Open Scope string_scope.
Local Open Scope list_scope.
Local Open Scope nat_scope.

Tactic Notation "ok" hyp(H) "as" simple_intropattern(p) ident(E) :=
  match type of H with
  | rbind ?e _ = Ok _ => destruct e as [p|] eqn:E; cbn [rbind] in H; [|discriminate H]
  end.

Section Creation.
Variable solver : mesh -> res mesh_slepian.
Variable normals : mesh -> list R.
Variable normal : Z -> nat -> R.
Variable axisym_wav_l : Z -> nat -> Z -> list R * nat * list (list R).
Variable jmax : Z -> nat -> Z -> Z.
Variable fmt_e : R -> string.

Notation create := (create_mesh_function solver normals normal axisym_wav_l jmax fmt_e).

(** The solver succeeds with Slepian functions of this mesh (see C28, C56). *)
Definition solved (m : mesh) (s : mesh_slepian) : Prop :=
  solver m = Ok s /\ ms_mesh s = m /\ slepian_functions_ok s.

(** Nothing was added to the coefficients. *)
Definition noise_free (o : mesh_obj) : Prop := mo_unnoised o = None /\ mo_snr o = None.

(** ** The classes without noise *)

(** The basis function of the rank: its coefficients are zero except one, and
    what is drawn is that basis function. *)
Theorem C72_basis_functions : forall mesh_name zoom m rank extra_args region k, well_formed m -> orthonormal_basis m ->
  (0 <= rank)%Z -> (extra_args = None \/ exists r, extra_args = Some [r]) ->
  used_rank rank extra_args = Z.of_nat k -> k < nb m ->
  exists o, create MeshBasisFunctions mesh_name zoom m (Rank rank) extra_args None region = Ok o /\ noise_free o /\
    mo_params o = Rank (Z.of_nat k) /\ mo_slepian o = None /\ mo_coefficients o = unit_vector (nb m) k /\
    mo_name o = mesh_add_details (mesh_create_name MeshBasisFunctions mesh_name (fmt_e (val (m_evals m) k)) (Rank (Z.of_nat k)))
                  mesh_name region None zoom /\
    coefficients_to_field_mesh m None (mo_coefficients o) = Ok (nth k (m_basis m) []).
Proof.
  intros name zoom m rank extra region k wf ob Hr Hx Hu Hk. pose proof wf as (_ & He & _).
  pose proof (C58_basis_function m rank extra k wf ob Hr Hx Hu Hk) as B. unfold mesh_basis_function_coefficients in B.
  assert (V : mesh_basis_validate_rank m extra = Ok tt).
  { destruct (mesh_basis_validate_rank m extra) as [[]|e] eqn:E; [reflexivity|].
    unfold check_mesh_rank at 1 in B. destruct (Z.ltb_spec rank 0); [lia|]. discriminate B. }
  unfold create_mesh_function, mesh_construct. cbn [mesh_default_params same_fields].
  unfold check_mesh_rank at 1 2. unfold check_mesh_rank at 1 in B. destruct (Z.ltb_spec rank 0); [lia|]. cbn [rbind] in *.
  rewrite V in *. cbn [rbind mesh_basis_validate_rank mesh_rank_setup_args mesh_is_slepian] in *.
  rewrite (rank_accepted rank extra k Hr Hu Hx) in *. cbn [rbind mesh_lam] in *.
  rewrite (py_index_nat (m_evals m) k 0%R) in * by lia. cbn [rbind mesh_create_coefficients] in *.
  rewrite (py_index_nat (m_basis m) k []) in * by exact Hk. cbn [rbind] in *. rewrite B. cbn [rbind mesh_add_noise option_map].
  eexists. split; [reflexivity|]. cbn [noise_free mo_unnoised mo_snr mo_params mo_slepian mo_coefficients mo_name].
  split; [split; reflexivity|]. repeat (split; [reflexivity|]).
  cbn [coefficients_to_field_mesh]. assert (Lu : List.length (unit_vector (nb m) k) = nb m) by (unfold unit_vector; rewrite map_length, seq_length; reflexivity).
  rewrite (inverse_ok m wf) by exact Lu. f_equal. symmetry.
  rewrite (list_val (nth k (m_basis m) []) (nv m) (row_length m wf k Hk)). apply map_ext_in. intros v _. unfold field.
  rewrite (rsum_ext (nb m) _ (fun i => if i =? k then phi m i v else 0)%R).
  - symmetry. rewrite (rsum_single (nb m) k _ Hk).
    + rewrite Nat.eqb_refl. reflexivity.
    + intros i _ Hi. destruct (Nat.eqb_spec i k); [contradiction|reflexivity].
  - intros i Hi. unfold unit_vector. rewrite val_map_seq by exact Hi. destruct (i =? k); ring.
Qed.

(** The normals of the mesh. *)
Theorem C72_field : forall mesh_name zoom m region, well_formed m -> List.length (normals m) = nv m ->
  exists o, create MeshField mesh_name zoom m No_params None None region = Ok o /\ noise_free o /\
    mo_slepian o = None /\ List.length (mo_coefficients o) = nb m /\
    mo_name o = mesh_add_details (mesh_create_name MeshField mesh_name "" No_params) mesh_name region None zoom /\
    forall i, i < nb m -> val (mo_coefficients o) i = rsum (nv m) (fun v => val (normals m) v * phi m i v)%R.
Proof.
  intros name zoom m region wf Hn. unfold create_mesh_function, mesh_construct. cbn [mesh_default_params same_fields rbind mesh_is_slepian].
  cbn [mesh_lam rbind mesh_create_coefficients]. unfold mesh_field_coefficients. rewrite (forward_ok m wf) by exact Hn.
  cbn [rbind mesh_add_noise option_map]. eexists. split; [reflexivity|]. cbn [mo_slepian mo_coefficients mo_name].
  split; [split; reflexivity|]. split; [reflexivity|]. split; [rewrite map_length, seq_length; reflexivity|]. split; [reflexivity|].
  intros i Hi. rewrite val_map_seq by exact Hi. reflexivity.
Qed.

(** The Slepian function of the rank: drawn as it is when the rank is below the
    Shannon number; beyond it, the coefficients and the field are zero. *)
Theorem C72_slepian_functions : forall mesh_name zoom m s rank extra_args region k, solved m s ->
  (0 <= rank)%Z -> (extra_args = None \/ exists r, extra_args = Some [r]) ->
  used_rank rank extra_args = Z.of_nat k -> k < List.length (ms_functions s) ->
  exists o f, create MeshSlepianFunctions mesh_name zoom m (Rank rank) extra_args None region = Ok o /\ noise_free o /\
    mo_params o = Rank (Z.of_nat k) /\ mo_slepian o = Some s /\ mo_coefficients o = unit_vector (ns s) k /\
    mo_name o = mesh_add_details (mesh_create_name MeshSlepianFunctions mesh_name (fmt_e (val (ms_evals s) k)) (Rank (Z.of_nat k)))
                  mesh_name region None zoom /\
    coefficients_to_field_mesh m (mo_slepian o) (mo_coefficients o) = Ok f /\ List.length f = nv m /\
    forall v, v < nv m -> val f v = if k <? ns s then slep s k v else 0%R.
Proof.
  intros name zoom m s rank extra region k (Es & <- & okk) Hr Hx Hu Hk. pose proof okk as (_ & _ & _ & HN & Hl & He & _).
  pose proof (C58_slepian_function s rank extra k okk Hr Hx Hu) as B. unfold mesh_slepian_function_coefficients in B.
  destruct (Nat.ltb_spec k (List.length (ms_functions s))); [|lia].
  unfold create_mesh_function, mesh_construct. cbn [mesh_default_params same_fields].
  unfold check_mesh_rank at 1 2. unfold check_mesh_rank at 1 in B. destruct (Z.ltb_spec rank 0); [lia|]. cbn [rbind] in *.
  cbn [mesh_rank_setup_args mesh_is_slepian]. rewrite Es. cbn [rbind].
  rewrite (rank_accepted rank extra k Hr Hu Hx) in *. cbn [rbind mesh_lam the_slepian] in *.
  rewrite (py_index_nat (ms_evals s) k 0%R) in * by lia. cbn [rbind mesh_create_coefficients the_slepian] in *.
  rewrite (py_index_nat (ms_functions s) k []) in * by exact Hk. cbn [rbind] in *. rewrite B. cbn [rbind mesh_add_noise option_map].
  assert (Lu : List.length (unit_vector (ns s) k) = ns s) by (unfold unit_vector; rewrite map_length, seq_length; reflexivity).
  eexists. exists (map (sfield s (unit_vector (ns s) k)) (seq 0 (nv (ms_mesh s)))). split; [reflexivity|].
  cbn [mo_params mo_slepian mo_coefficients mo_name]. split; [split; reflexivity|]. repeat (split; [reflexivity|]).
  split; [|split; [rewrite map_length, seq_length; reflexivity|]].
  - cbn [coefficients_to_field_mesh]. apply (slepian_inverse_mesh_ok s okk). lia.
  - intros v Hv. rewrite val_map_seq by exact Hv. unfold sfield.
    rewrite (rsum_ext (ns s) _ (fun p => if p =? k then slep s p v else 0)%R).
    + destruct (Nat.ltb_spec k (ns s)) as [L|L].
      * rewrite (rsum_single (ns s) k _ L).
        -- rewrite Nat.eqb_refl. reflexivity.
        -- intros i _ Hi. destruct (Nat.eqb_spec i k); [contradiction|reflexivity].
      * apply rsum_zero. intros i Hi. destruct (Nat.eqb_spec i k); [lia|reflexivity].
    + intros i Hi. unfold unit_vector. rewrite val_map_seq by exact Hi. destruct (i =? k); ring.
Qed.

(** The Slepian coefficients of the normals. *)
Theorem C72_slepian_field : forall mesh_name zoom m s region, solved m s -> List.length (normals m) = nv m ->
  exists o, create MeshSlepianField mesh_name zoom m No_params None None region = Ok o /\ noise_free o /\
    mo_slepian o = Some s /\ List.length (mo_coefficients o) = ns s /\
    mo_name o = mesh_add_details (mesh_create_name MeshSlepianField mesh_name "" No_params) mesh_name region None zoom /\
    forall p, p < ns s -> val (mo_coefficients o) p = rsum (nv m) (fun v => val (normals m) v * slep s p v)%R.
Proof.
  intros name zoom m s region (Es & <- & okk) Hn. unfold create_mesh_function, mesh_construct.
  cbn [mesh_default_params same_fields rbind mesh_is_slepian]. rewrite Es. cbn [mesh_lam rbind mesh_create_coefficients the_slepian].
  destruct (C58_slepian_field normals s okk Hn) as (f_p & E & Hl & H). rewrite E. cbn [rbind mesh_add_noise option_map].
  eexists. split; [reflexivity|]. cbn [mo_slepian mo_coefficients mo_name].
  split; [split; reflexivity|]. split; [reflexivity|]. split; [exact Hl|]. split; [reflexivity|exact H].
Qed.

(** The noise for the normals at the given level: decorrelated noise on the
    mesh, taken to Slepian space. *)
Theorem C72_slepian_noise_field : forall mesh_name zoom m s SNR region, solved m s -> List.length (normals m) = nv m ->
  exists o f, create MeshSlepianField mesh_name zoom m No_params None None region = Ok f /\
    create MeshSlepianNoiseField mesh_name zoom m (Snr SNR) None None region = Ok o /\ noise_free o /\
    mo_slepian o = Some s /\ List.length (mo_coefficients o) = ns s /\
    forall p, p < ns s -> val (mo_coefficients o) p
      = (sqrt (Rpower 10 (- Q2R SNR / 10) * rsum (ns s) (fun q => val (mo_coefficients f) q ^ 2) / INR (nb m))
         * rsum (nb m) (fun i => normal 30%Z i * val (sfun s p) i))%R.
Proof.
  intros name zoom m s SNR region (Es & <- & okk) Hn. unfold create_mesh_function, mesh_construct.
  cbn [mesh_default_params same_fields rbind mesh_is_slepian]. rewrite Es. cbn [mesh_lam rbind mesh_create_coefficients the_slepian].
  unfold mesh_slepian_noise_field_coefficients.
  destruct (C58_slepian_field normals s okk Hn) as (f_p & E & Hl & H). rewrite E. cbn [rbind mesh_add_noise option_map].
  destruct (C57_noise normal s f_p (Q2R SNR) okk Hl) as (n_p & En & Ln & Vn). rewrite En. cbn [rbind].
  eexists; eexists. split; [reflexivity|]. split; [reflexivity|]. cbn [mo_slepian mo_coefficients].
  split; [split; reflexivity|]. split; [reflexivity|]. split; [exact Ln|exact Vn].
Qed.

(** The method [noise_field] fails for every mesh. *)
Theorem C72_noise_field_refuted : forall mesh_name zoom m SNR extra_args noise region,
  (extra_args = None \/ exists x, extra_args = Some [x]) ->
  create MeshNoiseField mesh_name zoom m (Snr SNR) extra_args noise region = Err AttributeError.
Proof. intros name zoom m SNR extra noise region [->|[x ->]]; reflexivity. Qed.

(** ** Wavelets *)

(** The generators have one entry per basis function. *)
Definition generators_fit (m : mesh) (B j_min : Z) : Prop :=
  let '(kappa0, _, kappa) := axisym_wav_l B (nb m) j_min in List.length kappa0 = nb m /\ List.length kappa = nb m.
(** Generator [j] at rank [p]: the scaling function, then the wavelets. *)
Definition kappa_at (m : mesh) (B j_min : Z) (j p : nat) : R :=
  let '(kappa0, _, kappa) := axisym_wav_l B (nb m) j_min in
  match j with 0 => nth p kappa0 0%R | S j => nth j (nth p kappa []) 0%R end.
Definition scales_of (m : mesh) (B j_min : Z) : nat := let '(_, n, _) := axisym_wav_l B (nb m) j_min in n.
Definition row_of (j : option Z) : Z := match j with None => 0%Z | Some j => (j + 1)%Z end.

Lemma kappas_shape m B j_min : generators_fit m B j_min ->
  List.length (create_kappas axisym_wav_l (nb m) B j_min) = S (scales_of m B j_min) /\
  forall j, j < S (scales_of m B j_min) -> List.length (nth j (create_kappas axisym_wav_l (nb m) B j_min) []) = nb m /\
    forall p, p < nb m -> val (nth j (create_kappas axisym_wav_l (nb m) B j_min) []) p = kappa_at m B j_min j p.
Proof.
  unfold generators_fit, scales_of, kappa_at, create_kappas. destruct (axisym_wav_l B (nb m) j_min) as [[k0 n] kap]. intros [H0 Hk].
  split; [cbn [List.length]; rewrite map_length, seq_length; reflexivity|]. intros [|j] Hj; cbn [nth].
  - split; [exact H0|]. reflexivity.
  - assert (E : nth j (map (fun j0 => map (fun row => nth j0 row 0%R) kap) (seq 0 n)) [] = map (fun row => nth j row 0%R) kap).
    { apply (nth_map_seq (fun j0 => map (fun row => nth j0 row 0%R) kap) n j []). lia. }
    rewrite E. split; [rewrite map_length; exact Hk|]. intros p Hp. unfold val.
    rewrite (nth_indep _ 0%R (nth j [] 0%R)) by (rewrite map_length; lia).
    exact (map_nth (fun row => nth j row 0%R) kap [] p).
Qed.

(** A wavelet of a mesh: the generator of the scale, one value per basis
    function. *)
Theorem C72_wavelets : forall mesh_name zoom m s B j_min j region k, solved m s -> generators_fit m B j_min ->
  mesh_in_range jmax m (Scale B j_min j) -> row_of j = Z.of_nat k -> k < S (scales_of m B j_min) ->
  exists o, create MeshSlepianWavelets mesh_name zoom m (Scale B j_min j) None None region = Ok o /\ noise_free o /\
    mo_slepian o = Some s /\ List.length (mo_coefficients o) = nb m /\ List.length (mo_wavelets o) = S (scales_of m B j_min) /\
    (forall p, p < nb m -> val (mo_coefficients o) p = kappa_at m B j_min k p) /\
    forall i p, i < S (scales_of m B j_min) -> p < nb m -> val (nth i (mo_wavelets o) []) p = kappa_at m B j_min i p.
Proof.
  intros name zoom m s B j_min j region k (Es & <- & okk) HG HR Hk Hks. pose proof (sl_wf s okk) as (_ & He & _).
  destruct (kappas_shape _ _ _ HG) as [Lk Vk].
  unfold create_mesh_function. destruct (C41_mesh_keywords jmax MeshSlepianWavelets (ms_mesh s) (Scale B j_min j) eq_refl) as [[_ ->]|[N _]]; [|contradiction].
  cbn [rbind mesh_is_slepian]. rewrite Es. cbn [rbind mesh_lam mesh_create_coefficients]. unfold create_mesh_wavelets. rewrite He.
  unfold select_scale. fold (row_of j). rewrite Hk, (py_index_nat _ k []) by (rewrite Lk; exact Hks). cbn [rbind mesh_add_noise option_map].
  eexists. split; [reflexivity|]. cbn [mo_slepian mo_coefficients mo_wavelets]. split; [split; reflexivity|]. split; [reflexivity|].
  split; [apply Vk, Hks|]. split; [exact Lk|]. split; [apply Vk, Hks|]. intros i p Hi Hp. apply (proj2 (Vk i Hi)), Hp.
Qed.

(** A scale sees a signal. *)
Definition sees (m : mesh) (s : mesh_slepian) (B j_min : Z) (f : list R) (j : nat) : Prop :=
  exists p, p < ns s /\ kappa_at m B j_min j p <> 0%R /\ val f p <> 0%R.

Lemma RtoC_zero x : RtoC x <> RtoC 0 <-> x <> 0%R.
Proof.
  clear solver normals normal axisym_wav_l jmax fmt_e.
  split; intros H E; apply H; [subst; reflexivity|injection E as E; exact E]. Qed.

Lemma nth_map_RtoC l p : nth p (map RtoC l) (RtoC 0) = RtoC (val l p).
Proof.
  clear solver normals normal axisym_wav_l jmax fmt_e.
  unfold val. apply (map_nth RtoC l 0%R p). Qed.

Lemma nth_map_rows rows j : nth j (map (map RtoC) rows) [] = map RtoC (nth j rows []).
Proof.
  clear solver normals normal axisym_wav_l jmax fmt_e.
  apply (map_nth (map RtoC) rows [] j). Qed.

Lemma N_nb s : slepian_functions_ok s -> ns s <= nb (ms_mesh s).
Proof.
  clear solver normals normal axisym_wav_l jmax fmt_e.
  intros (_ & _ & _ & H & H' & _). lia. Qed.

(** The wavelet transform of real coefficients. *)
Definition sees_row (N : nat) (rows : list (list R)) (f : list R) (j : nat) : Prop :=
  exists p, p < N /\ val (nth j rows []) p <> 0%R /\ val f p <> 0%R.

Lemma mesh_forward_rows s f_p cols rows : slepian_functions_ok s -> (forall r, In r rows -> List.length r = cols) -> ns s <= cols ->
  List.length f_p = ns s ->
  exists W scales, mesh_wavelet_forward f_p cols rows (ms_N s) = Ok W /\ StronglySorted lt scales /\
    (forall j, In j scales <-> j < List.length rows /\ sees_row (ns s) rows f_p j) /\
    List.length W = List.length scales /\
    forall i, i < List.length scales -> List.length (nth i W []) = ns s /\
      forall p, p < ns s -> val (nth i W []) p = (val (nth (nth i scales 0%nat) rows []) p * val f_p p)%R.
Proof.
  clear solver normals normal axisym_wav_l jmax fmt_e.
  intros okk Hr HN Hl.
  assert (Hm : matrix cols (map (map RtoC) rows)).
  { intros r Hin. apply in_map_iff in Hin. destruct Hin as (r0 & <- & Hin). rewrite map_length. apply Hr, Hin. }
  destruct (C26_forward (ns s) cols (map (map RtoC) rows) (map RtoC f_p) Hm HN) as (W & sc & E & So & Al & LW & V); [rewrite map_length; lia|].
  unfold mesh_wavelet_forward. rewrite <- (N_nat s okk), E. cbn [rbind].
  exists (map (map Re) W), sc. split; [reflexivity|]. split; [exact So|]. split; [|split; [rewrite map_length; exact LW|]].
  - intros j. rewrite Al, map_length. split; intros [H1 (p & Hp & A & A')]; (split; [exact H1|]); exists p; (split; [exact Hp|]).
    + rewrite nth_map_rows, nth_map_RtoC, RtoC_zero in A. unfold nthC in A'. rewrite nth_map_RtoC, RtoC_zero in A'. split; assumption.
    + rewrite nth_map_rows, nth_map_RtoC. unfold nthC. rewrite nth_map_RtoC, !RtoC_zero. split; assumption.
  - intros i Hi. rewrite (nth_indep _ [] (map Re [])) by (rewrite map_length; lia). rewrite (map_nth (map Re) W [] i).
    destruct (V i Hi) as [Lr Vr]. split; [rewrite map_length; exact Lr|]. intros p Hp. unfold val at 1.
    rewrite (nth_indep _ 0%R (Re (RtoC 0))) by (rewrite map_length; lia). rewrite (map_nth Re), (Vr p Hp), nth_map_rows, nth_map_RtoC.
    unfold nthC. rewrite nth_map_RtoC, Cconj_R. rewrite <- RtoC_mult. reflexivity.
Qed.

Lemma mesh_wavelet_forward_ok s f_p B j_min : slepian_functions_ok s -> generators_fit (ms_mesh s) B j_min -> List.length f_p = ns s ->
  exists W scales, mesh_wavelet_forward f_p (nb (ms_mesh s)) (create_kappas axisym_wav_l (nb (ms_mesh s)) B j_min) (ms_N s) = Ok W /\
    StronglySorted lt scales /\
    (forall j, In j scales <-> j < S (scales_of (ms_mesh s) B j_min) /\ sees (ms_mesh s) s B j_min f_p j) /\
    List.length W = List.length scales /\
    forall i, i < List.length scales -> List.length (nth i W []) = ns s /\
      forall p, p < ns s -> val (nth i W []) p = (kappa_at (ms_mesh s) B j_min (nth i scales 0%nat) p * val f_p p)%R.
Proof.
  intros okk HG Hl. set (m := ms_mesh s). destruct (kappas_shape m B j_min HG) as [Lk Vk].
  set (ks := create_kappas axisym_wav_l (nb m) B j_min) in *. pose proof (N_nb s okk) as HN. fold m in HN.
  destruct (mesh_forward_rows s f_p (nb m) ks okk) as (W & sc & E & So & Al & LW & V); [|exact HN|exact Hl|].
  { intros r Hr. apply (In_nth _ _ []) in Hr. destruct Hr as (j & Hj & <-). apply Vk. lia. }
  assert (Sc : forall j, In j sc <-> j < S (scales_of m B j_min) /\ sees m s B j_min f_p j).
  { intros j. rewrite Al, Lk. split; intros [H1 (p & Hp & A)]; (split; [exact H1|]); exists p; (split; [exact Hp|]).
    - rewrite <- (proj2 (Vk j H1)) by lia. exact A.
    - rewrite (proj2 (Vk j H1)) by lia. exact A. }
  exists W, sc. split; [exact E|]. split; [exact So|]. split; [exact Sc|]. split; [exact LW|].
  intros i Hi. destruct (V i Hi) as [Lr Vr]. split; [exact Lr|]. intros p Hp. rewrite (Vr p Hp).
  assert (Hj : nth i sc 0 < S (scales_of m B j_min)) by (apply Sc, nth_In, Hi).
  rewrite (proj2 (Vk _ Hj)) by lia. reflexivity.
Qed.

(** The wavelet coefficients of the normals: only the scales that see the
    signal remain, and [j] counts among those. *)
Theorem C72_wavelet_coefficients : forall mesh_name zoom m s B j_min j region, solved m s -> generators_fit m B j_min ->
  List.length (normals m) = nv m -> mesh_in_range jmax m (Scale B j_min j) -> (0 <= row_of j)%Z ->
  exists f scales, create MeshSlepianField mesh_name zoom m No_params None None region = Ok f /\
    StronglySorted lt scales /\
    (forall i, In i scales <-> i < S (scales_of m B j_min) /\ sees m s B j_min (mo_coefficients f) i) /\
    (Z.to_nat (row_of j) < List.length scales ->
     exists o, create MeshSlepianWaveletCoefficients mesh_name zoom m (Scale B j_min j) None None region = Ok o /\ noise_free o /\
       mo_slepian o = Some s /\ List.length (mo_coefficients o) = ns s /\ List.length (mo_wavelet_coefficients o) = List.length scales /\
       forall p, p < ns s -> val (mo_coefficients o) p
         = (kappa_at m B j_min (nth (Z.to_nat (row_of j)) scales 0%nat) p * val (mo_coefficients f) p)%R) /\
    (List.length scales <= Z.to_nat (row_of j) ->
     create MeshSlepianWaveletCoefficients mesh_name zoom m (Scale B j_min j) None None region = Err IndexError).
Proof.
  intros name zoom m s B j_min j region S HG Hn HR Hj. pose proof S as (Es & <- & okk). pose proof (sl_wf s okk) as (_ & He & _).
  destruct (C58_slepian_field normals s okk Hn) as (f_p & E & Hl & _).
  destruct (mesh_wavelet_forward_ok s f_p B j_min okk HG Hl) as (W & sc & EW & So & Sc & LW & VW).
  destruct (C72_slepian_field name zoom (ms_mesh s) s region S Hn) as (f & Ef & _). exists f, sc. split; [exact Ef|].
  assert (Ff : mo_coefficients f = f_p).
  { unfold create_mesh_function, mesh_construct in Ef. cbn [mesh_default_params same_fields rbind mesh_is_slepian] in Ef. rewrite Es in Ef.
    cbn [mesh_lam rbind mesh_create_coefficients the_slepian] in Ef. rewrite E in Ef. cbn [rbind mesh_add_noise option_map] in Ef.
    injection Ef as <-. reflexivity. }
  rewrite Ff. split; [exact So|]. split; [exact Sc|].
  assert (Run : forall r, (let* row := select_scale W j in
      Ok (row, create_kappas axisym_wav_l (nb (ms_mesh s)) B j_min, W)) = r ->
      create MeshSlepianWaveletCoefficients name zoom (ms_mesh s) (Scale B j_min j) None None region
      = let* (c, w, wc) := r in
        Ok {| mo_name := mesh_add_details (mesh_create_name MeshSlepianWaveletCoefficients name "" (Scale B j_min j)) name region None zoom;
              mo_params := Scale B j_min j; mo_slepian := Some s; mo_coefficients := c; mo_wavelets := w;
              mo_wavelet_coefficients := wc; mo_unnoised := None; mo_snr := None |}).
  { intros r <-. unfold create_mesh_function.
    destruct (C41_mesh_keywords jmax MeshSlepianWaveletCoefficients (ms_mesh s) (Scale B j_min j) eq_refl) as [[_ ->]|[N _]]; [|contradiction].
    cbn [rbind mesh_is_slepian]. rewrite Es. cbn [rbind mesh_lam mesh_create_coefficients the_slepian].
    unfold create_mesh_wavelet_coefficients, create_mesh_wavelets. rewrite E. cbn [rbind]. rewrite He, EW. cbn [rbind].
    destruct (select_scale W j); reflexivity. }
  assert (Ek : row_of j = Z.of_nat (Z.to_nat (row_of j))) by lia. set (k := Z.to_nat (row_of j)) in *.
  split.
  - intros Hlt. rewrite (Run _ eq_refl). unfold select_scale. fold (row_of j). rewrite Ek.
    rewrite (py_index_nat W _ []) by lia. cbn [rbind]. eexists. split; [reflexivity|].
    cbn [mo_slepian mo_coefficients mo_wavelet_coefficients]. split; [split; reflexivity|]. split; [reflexivity|].
    destruct (VW _ Hlt) as [L1 V1]. split; [exact L1|]. split; [exact LW|exact V1].
  - intros Hge. rewrite (Run _ eq_refl). unfold select_scale. fold (row_of j). rewrite py_index_out by lia. reflexivity.
Qed.

(** ** Noise *)

(** With noise the coefficients are those without noise plus noise of the
    requested level: one draw per coefficient, or in Slepian space the image of
    one draw per basis function.  The rest is the same. *)
Theorem C72_noise : forall c mesh_name zoom m keywords extra_args x region o,
  create c mesh_name zoom m keywords extra_args None region = Ok o ->
  (forall s, mo_slepian o = Some s -> slepian_functions_ok s /\ List.length (mo_coefficients o) = ns s) ->
  exists o' n base, create c mesh_name zoom m keywords extra_args (Some x) region = Ok o' /\
    mo_name o = mesh_add_details base mesh_name region None zoom /\
    mo_name o' = mesh_add_details base mesh_name region (Some x) zoom /\
    mo_params o' = mo_params o /\ mo_slepian o' = mo_slepian o /\ mo_wavelets o' = mo_wavelets o /\
    mo_wavelet_coefficients o' = mo_wavelet_coefficients o /\ mo_unnoised o' = Some (mo_coefficients o) /\
    List.length n = List.length (mo_coefficients o) /\ List.length (mo_coefficients o') = List.length (mo_coefficients o) /\
    (forall i, i < List.length n -> val (mo_coefficients o') i = (val (mo_coefficients o) i + val n i)%R) /\
    (forall i, i < List.length n -> val n i =
       (sqrt (Rpower 10 (- Q2R x / 10) * rsum (List.length n) (fun q => val (mo_coefficients o) q ^ 2)
              / INR (match mo_slepian o with None => List.length n | Some s => nb (ms_mesh s) end))
        * match mo_slepian o with
          | None => normal 30%Z i
          | Some s => rsum (nb (ms_mesh s)) (fun b => normal 30%Z b * val (sfun s i) b)
          end)%R) /\
    mo_snr o' = Some (10 * (ln (rsum (List.length n) (fun i => val (mo_coefficients o) i ^ 2)
                                / rsum (List.length n) (fun i => val n i ^ 2)) / ln 10))%R.
Proof.
  intros c name zoom m kw extra x region o H HS. unfold create_mesh_function in H |- *.
  ok H as q E1. cbn [rbind]. ok H as s E2. cbn [rbind]. ok H as p E3. cbn [rbind]. ok H as lam E4. cbn [rbind].
  ok H as [[cf w] wc] E5. cbn [rbind option_map]. cbn [rbind mesh_add_noise option_map] in H. injection H as <-.
  cbn [mo_slepian mo_coefficients mo_name mo_params mo_wavelets mo_wavelet_coefficients mo_unnoised mo_snr] in *.
  assert (Nz : exists n, mesh_noise_for normal s cf (Q2R x) = Ok n /\ List.length n = List.length cf /\
      forall i, i < List.length n -> val n i =
       (sqrt (Rpower 10 (- Q2R x / 10) * rsum (List.length n) (fun q => val cf q ^ 2)
              / INR (match s with None => List.length n | Some s => nb (ms_mesh s) end))
        * match s with
          | None => normal 30%Z i
          | Some s => rsum (nb (ms_mesh s)) (fun b => normal 30%Z b * val (sfun s i) b)
          end)%R).
  { destruct s as [s|].
    - destruct (HS s eq_refl) as [okk Hl]. destruct (C57_noise normal s cf (Q2R x) okk Hl) as (n & En & Ln & Vn).
      exists n. split; [exact En|]. split; [lia|]. intros i Hi. rewrite Ln. apply Vn. lia.
    - cbn [mesh_noise_for]. rewrite mesh_noise_spec. eexists. split; [reflexivity|]. rewrite !map_length, seq_length. split; [reflexivity|].
      intros i Hi. rewrite val_map_seq by exact Hi. unfold compute_sigma_noise, signal_power. cbv zeta. rewrite power_real, map_length. reflexivity. }
  destruct Nz as (n & En & Ln & Vn). destruct (C57_add_noise (mesh_noise_for normal s) cf (Some (Q2R x)) n En Ln) as (noisy & Ea & La & Va).
  rewrite Ea. cbn [rbind]. eexists; exists n, (mesh_create_name c name lam p). split; [reflexivity|].
  cbn [mo_slepian mo_coefficients mo_name mo_params mo_wavelets mo_wavelet_coefficients mo_unnoised mo_snr].
  repeat (split; [reflexivity|]). split; [exact Ln|]. split; [exact La|]. split; [intros i Hi; apply Va; lia|]. split; [exact Vn|reflexivity].
Qed.

(** The wavelets have one coefficient per basis function, their noise one per
    Slepian function: noise cannot be added unless these numbers agree. *)
Theorem C72_noised_wavelets_refuted : forall mesh_name zoom m s B j_min j x region k, solved m s -> generators_fit m B j_min ->
  mesh_in_range jmax m (Scale B j_min j) -> row_of j = Z.of_nat k -> k < S (scales_of m B j_min) ->
  ns s <> nb m -> ns s <> 1 -> nb m <> 1 ->
  create MeshSlepianWavelets mesh_name zoom m (Scale B j_min j) None (Some x) region = Err ValueError.
Proof.
  intros name zoom m s B j_min j x region k (Es & <- & okk) HG HR Hk Hks Hne H1 H1b. pose proof (sl_wf s okk) as (_ & He & _).
  destruct (kappas_shape _ _ _ HG) as [Lk Vk]. pose proof (N_nb s okk) as HN.
  unfold create_mesh_function. destruct (C41_mesh_keywords jmax MeshSlepianWavelets (ms_mesh s) (Scale B j_min j) eq_refl) as [[_ ->]|[N _]]; [|contradiction].
  cbn [rbind mesh_is_slepian]. rewrite Es. cbn [rbind mesh_lam mesh_create_coefficients]. unfold create_mesh_wavelets. rewrite He.
  unfold select_scale. fold (row_of j). rewrite Hk, (py_index_nat _ k []) by (rewrite Lk; exact Hks). cbn [rbind mesh_add_noise option_map].
  destruct (Vk k Hks) as [Lr _]. set (r := nth k _ []) in *. cbn [mesh_noise_for].
  destruct (C57_noise normal s (firstn (ns s) r) (Q2R x) okk) as (n & En & Ln & _); [rewrite firstn_length; lia|].
  assert (En' : create_slepian_mesh_noise normal s r (Q2R x) = Ok n).
  { rewrite <- En. unfold create_slepian_mesh_noise, slepian_mesh_inverse. pose proof (N_nat s okk).
    rewrite !py_prefix_nat by lia. fold (ns s). rewrite firstn_firstn, Nat.min_id. reflexivity. }
  rewrite En'. cbn [rbind]. rewrite broadcast_fail; [reflexivity|lia|lia|lia].
Qed.

(** ** The figure *)

(** The mesh is drawn with its second and third coordinates exchanged. *)
Theorem C72_positions : forall m f amplitude normalise region fig, plot_mesh m f amplitude normalise region = Ok fig ->
  mf_triangles fig = m_faces m /\ List.length (mf_points fig) = nv m /\
  forall v x y z, nth_error (m_vertices m) v = Some (x, y, z) -> nth_error (mf_points fig) v = Some (x, z, y).
Proof.
  clear solver normals normal axisym_wav_l jmax fmt_e.
  intros m f a nrm reg fig H. unfold plot_mesh in H. ok H as vmin E1. ok H as vmax E2. ok H as g E3. ok H as h E4. ok H as h' E5.
  injection H as <-. cbn [mf_triangles mf_points]. split; [reflexivity|]. split; [apply map_length|].
  intros v x y z Hv. rewrite nth_error_map, Hv. reflexivity.
Qed.

(** Six times the signed volume of the tetrahedron of four points. *)
Definition volume6 (p a b c : R * R * R) : R :=
  let '(px, py, pz) := p in let '(ax, ay, az) := a in let '(bx, b_y, bz) := b in let '(cx, cy, cz) := c in
  ((ax - px) * ((b_y - py) * (cz - pz) - (bz - pz) * (cy - py))
   - (ay - py) * ((bx - px) * (cz - pz) - (bz - pz) * (cx - px))
   + (az - pz) * ((bx - px) * (cy - py) - (b_y - py) * (cx - px)))%R.

(** So the figure is a mirror image: every signed volume changes its sign, and
    no rotation takes the mesh to its figure. *)
Theorem C72_mirror_refuted : forall m f amplitude normalise region fig p a b c P A B D,
  plot_mesh m f amplitude normalise region = Ok fig ->
  nth_error (m_vertices m) p = Some P -> nth_error (m_vertices m) a = Some A ->
  nth_error (m_vertices m) b = Some B -> nth_error (m_vertices m) c = Some D ->
  exists P' A' B' D', nth_error (mf_points fig) p = Some P' /\ nth_error (mf_points fig) a = Some A' /\
    nth_error (mf_points fig) b = Some B' /\ nth_error (mf_points fig) c = Some D' /\
    volume6 P' A' B' D' = (- volume6 P A B D)%R.
Proof.
  clear solver normals normal axisym_wav_l jmax fmt_e.
  intros m f am nrm reg fig p a b c [[px py] pz] [[ax ay] az] [[bx b_y] bz] [[cx cy] cz] H Hp Ha Hb Hc.
  destruct (C72_positions _ _ _ _ _ _ H) as (_ & _ & Q). apply Q in Hp, Ha, Hb, Hc.
  exists (px, pz, py), (ax, az, ay), (bx, bz, b_y), (cx, cz, cy). repeat (split; [assumption|]). unfold volume6. ring.
Qed.

(** The colours of a figure that is not normalised: the mean values over the
    faces, whatever the limits of the colours are. *)
Theorem C72_colours : forall m f amplitude region fig, plot_mesh m f amplitude false region = Ok fig ->
  (forall face v, In face (m_faces m) -> In v face -> v < List.length f) -> (forall face, In face (m_faces m) -> face <> []) ->
  List.length (mf_intensity fig) = List.length (m_faces m) /\
  forall k face, nth_error (m_faces m) k = Some face ->
    (region = false \/ face_inside m face -> nth_error (mf_intensity fig) k = Some (face_mean f face)) /\
    (region = true -> ~ face_inside m face -> nth_error (mf_intensity fig) k = Some MESH_UNSEEN).
Proof.
  clear solver normals normal axisym_wav_l jmax fmt_e.
  intros m f a region fig H Hv Hf. assert (Ne : f <> []). { intros ->. discriminate H. }
  destruct (C60_mesh m f region Ne Hv Hf) as (fig' & mx & E & _ & _ & _ & _ & _ & Ln & Hk).
  assert (I : mf_intensity fig = mf_intensity fig').
  { unfold plot_mesh in E, H. ok E as vmin E1. ok E as vmax E2. ok E as g E3. ok E as h E4. ok E as h' E5. injection E as <-.
    cbn [rbind] in H. rewrite E4 in H. cbn [rbind] in H. rewrite E5 in H. cbn [rbind] in H. injection H as <-. reflexivity. }
  rewrite I. split; [exact Ln|]. intros k face Hkf. apply (Hk k face Hkf).
Qed.

(** What the command shows: the field of the coefficients; for the Slepian
    classes nothing outside the region.  The limits of the colours are those of
    the field without noise. *)
Theorem C72_command : forall mesh_name zoom m method extra_args noise region unnormalise fig name,
  mesh_command solver normals normal axisym_wav_l jmax fmt_e mesh_name zoom m method extra_args noise region unnormalise = Ok (fig, name) ->
  exists c o f, ("mesh_" ++ method)%string = convert_camel_case_to_snake_case (mesh_class_name c) /\
    create c mesh_name zoom m (mesh_default_params c) extra_args noise region = Ok o /\
    name = (mo_name o ++ (if unnormalise then "" else "_norm"))%string /\
    match mo_slepian o with
    | Some s => slepian_mesh_inverse s (mo_coefficients o) = Ok f
    | None => mesh_inverse m (mo_coefficients o) = Ok f
    end /\
    mf_triangles fig = m_faces m /\
    (unnormalise = false -> mf_cmin fig = 0%R /\ mf_cmid fig = (1 / 2)%R /\ mf_cmax fig = 1%R) /\
    (unnormalise = true -> exists u g a, match noise with None => u = mo_coefficients o | Some _ => mo_unnoised o = Some u end /\
       match mo_slepian o with
       | Some s => slepian_mesh_inverse s u = Ok g
       | None => mesh_inverse m u = Ok g
       end /\ is_max (map Rabs g) a /\ mf_cmin fig = (- a)%R /\ mf_cmid fig = 0%R /\ mf_cmax fig = a) /\
    (unnormalise = true -> (forall face v, In face (m_faces m) -> In v face -> v < List.length f) ->
       (forall face, In face (m_faces m) -> face <> []) ->
       forall k face, nth_error (m_faces m) k = Some face ->
         (mesh_is_slepian c = false \/ face_inside m face -> nth_error (mf_intensity fig) k = Some (face_mean f face)) /\
         (mesh_is_slepian c = true -> ~ face_inside m face -> nth_error (mf_intensity fig) k = Some MESH_UNSEEN)).
Proof.
  intros mname zoom m method extra noise region un fig name H. unfold mesh_command in H.
  ok H as c E1. ok H as o E2. ok H as amp E3. unfold mesh_plot in H. ok H as f E4. ok H as fg E5. injection H as -> <-.
  assert (Hs : mesh_is_slepian c = match mo_slepian o with Some _ => true | None => false end /\
               (noise = None -> mo_unnoised o = None) /\ (noise <> None -> mo_unnoised o <> None)).
  { unfold create_mesh_function in E2. ok E2 as q F1. ok E2 as s F2. ok E2 as p F3. ok E2 as lam F4. ok E2 as [[cf w] wc] F5.
    ok E2 as [[cf' un'] snr] F6. injection E2 as <-. cbn [mo_slepian mo_unnoised]. split.
    - destruct (mesh_is_slepian c); [ok F2 as s0 G; injection F2 as <-; reflexivity|injection F2 as <-; reflexivity].
    - unfold mesh_add_noise in F6. destruct noise as [x|]; cbn [option_map] in F6.
      + split; [discriminate|]. intros _. ok F6 as n G1. ok F6 as ny G2. injection F6 as _ <- _. discriminate.
      + injection F6 as _ <- _. split; [reflexivity|congruence]. }
  destruct Hs as (Hs & Hn1 & Hn2).
  exists c, o, f. split; [apply C40_mesh_class; exact E1|]. split; [exact E2|]. split; [destruct un; reflexivity|].
  split; [destruct (mo_slepian o); exact E4|]. split; [apply (C72_positions _ _ _ _ _ _ E5)|].
  pose proof (C60_mesh_fixed _ _ _ _ _ _ E5) as [Fx Fa]. split; [|split].
  - intros ->. destruct (Fx eq_refl) as (A & B & D & _). auto.
  - intros ->. cbn [negb] in E5, Fa. destruct noise as [x|].
    + assert (Hu : mo_unnoised o <> None) by (apply Hn2; discriminate). destruct (mo_unnoised o) as [u|]; [|congruence].
      cbn [compute_amplitude_for_noisy_mesh_plots] in E3.
      ok E3 as g G1. ok E3 as a G2. injection E3 as <-. exists u, g, a. split; [reflexivity|]. split; [destruct (mo_slepian o); exact G1|].
      split; [apply np_max_spec; exact G2|]. destruct (Fa a eq_refl eq_refl) as (A & B & D & _). auto.
    + rewrite (Hn1 eq_refl) in E3. injection E3 as <-.
      assert (Ne : f <> []). { intros ->. discriminate E5. }
      exists (mo_coefficients o), f, (mf_cmax fig). split; [reflexivity|]. split; [destruct (mo_slepian o); exact E4|].
      unfold plot_mesh in E5. ok E5 as vmin G1. ok E5 as vmax G2. ok E5 as g G3. ok E5 as h G4. ok E5 as h' G5. injection E5 as <-.
      cbn [mf_cmin mf_cmid mf_cmax create_tick_mark].
      split; [apply (tick_mark_bound f vmin vmax); [apply np_min_spec; exact G1|apply np_max_spec; exact G2]|repeat split].
  - intros -> Hv Hf k face Hk. cbn [negb] in E5. rewrite <- Hs in E5. apply (C72_colours m f _ _ _ E5 Hv Hf), Hk.
Qed.

(** Without further arguments the command shows the first function of its
    class. *)
Theorem C72_command_first : forall mesh_name zoom m s region method fig name, solved m s -> generators_fit m 3 2 ->
  0 < nb m -> 0 < List.length (ms_functions s) -> List.length (normals m) = nv m ->
  (forall face v, In face (m_faces m) -> In v face -> v < nv m) -> (forall face, In face (m_faces m) -> face <> []) ->
  mesh_command solver normals normal axisym_wav_l jmax fmt_e mesh_name zoom m method None None region true = Ok (fig, name) ->
  let shows f := forall k face, nth_error (m_faces m) k = Some face -> face_inside m face ->
                   nth_error (mf_intensity fig) k = Some (face_mean f face) in
  (method = "basis_functions" -> shows (nth 0 (m_basis m) [])) /\
  (method = "slepian_functions" -> exists f, List.length f = nv m /\ shows f /\
     forall v, v < nv m -> val f v = if 0 <? ns s then slep s 0 v else 0%R) /\
  (method = "slepian_wavelets" -> exists f, List.length f = nv m /\ shows f /\
     forall v, v < nv m -> val f v = rsum (ns s) (fun p => kappa_at m 3 2 0 p * slep s p v)%R) /\
  (method = "slepian_noise_field" -> exists f o, List.length f = nv m /\ shows f /\
     create MeshSlepianField mesh_name zoom m No_params None None region = Ok o /\
     forall v, v < nv m -> val f v = (sqrt (Rpower 10 (1 / 2) * rsum (ns s) (fun q => val (mo_coefficients o) q ^ 2) / INR (nb m))
       * rsum (ns s) (fun p => rsum (nb m) (fun i => normal 30%Z i * val (sfun s p) i) * slep s p v))%R).
Proof.
  intros mname zoom m s region method fig name Hs HG Hb Hf Hn HF HF' H shows.
  destruct (C72_command _ _ _ _ _ _ _ _ _ _ H) as (c & o & f & Hc & Eo & _ & Ef & _ & _ & _ & Col). specialize (Col eq_refl).
  pose proof Hs as (_ & Hm & okk). pose proof okk as (wf & ob & _). rewrite Hm in wf, ob.
  assert (Sh : List.length f = nv m -> shows f).
  { intros Lf k face Hk Hi. apply (Col ltac:(rewrite Lf; exact HF) HF' k face Hk). right. exact Hi. }
  split; [|split; [|split]]; intros ->.
  - assert (c = MeshBasisFunctions) as -> by (destruct c; try discriminate Hc; reflexivity).
    destruct (C72_basis_functions mname zoom m 0 None region 0 wf ob (Z.le_refl 0) (or_introl eq_refl) eq_refl Hb) as (o' & Eo' & _ & _ & So & _ & _ & Ef').
    cbn [mesh_default_params] in Eo. rewrite Eo in Eo'. injection Eo' as <-. rewrite So in Ef.
    cbn [coefficients_to_field_mesh] in Ef'. rewrite Ef in Ef'. injection Ef' as Ef'. rewrite <- Ef'. apply Sh. rewrite Ef'.
    destruct wf as (_ & _ & _ & R). apply R, nth_In. exact Hb.
  - assert (c = MeshSlepianFunctions) as -> by (destruct c; try discriminate Hc; reflexivity).
    destruct (C72_slepian_functions mname zoom m s 0 None region 0 Hs (Z.le_refl 0) (or_introl eq_refl) eq_refl Hf) as (o' & f' & Eo' & _ & _ & So & _ & _ & Ef' & Lf & Vf).
    cbn [mesh_default_params] in Eo. rewrite Eo in Eo'. injection Eo' as <-. rewrite So in Ef, Ef'.
    cbn [coefficients_to_field_mesh] in Ef'. rewrite Ef in Ef'. injection Ef' as Ef'. subst f'. exists f. split; [exact Lf|]. split; [exact (Sh Lf)|exact Vf].
  - assert (c = MeshSlepianWavelets) as -> by (destruct c; try discriminate Hc; reflexivity).
    destruct (C72_wavelets mname zoom m s 3 2 None region 0 Hs HG I eq_refl ltac:(lia)) as (o' & Eo' & _ & So & Lo & _ & Vo & _).
    cbn [mesh_default_params] in Eo. rewrite Eo in Eo'. injection Eo' as <-. rewrite So in Ef.
    pose proof (N_nb s okk) as HN. rewrite Hm in HN.
    rewrite (slepian_inverse_mesh_ok s okk) in Ef by lia. injection Ef as <-. rewrite Hm in *.
    assert (Lf : List.length (map (sfield s (mo_coefficients o)) (seq 0 (nv m))) = nv m) by (rewrite map_length, seq_length; reflexivity).
    eexists. split; [exact Lf|]. split; [exact (Sh Lf)|]. intros v Hv. rewrite val_map_seq by exact Hv. unfold sfield. apply rsum_ext.
    intros p Hp. rewrite Vo by lia. reflexivity.
  - assert (c = MeshSlepianNoiseField) as -> by (destruct c; try discriminate Hc; reflexivity).
    destruct (C72_slepian_noise_field mname zoom m s (-5)%Q region Hs Hn) as (o' & g & Eg & Eo' & _ & So & Lo & Vo).
    cbn [mesh_default_params] in Eo. rewrite Eo in Eo'. injection Eo' as <-. rewrite So in Ef.
    rewrite (slepian_inverse_mesh_ok s okk) in Ef by lia. injection Ef as <-. rewrite Hm in *.
    assert (Lf : List.length (map (sfield s (mo_coefficients o)) (seq 0 (nv m))) = nv m) by (rewrite map_length, seq_length; reflexivity).
    eexists; exists g. split; [exact Lf|]. split; [exact (Sh Lf)|]. split; [exact Eg|]. intros v Hv. rewrite val_map_seq by exact Hv. unfold sfield.
    replace (1 / 2)%R with (- Q2R (-5) / 10)%R by (unfold Q2R; cbn; field). rewrite <- rsum_scal_l. apply rsum_ext.
    intros p Hp. rewrite Vo by exact Hp. ring.
Qed.

(** ** The demonstrations *)

(** The region of a mesh of triangles: its faces have the colour one, the others
    are hidden. *)
Theorem C72_region : forall mesh_name m, well_formed m ->
  (forall face, In face (m_faces m) -> List.length face = 3 /\ forall v, In v face -> v < nv m) ->
  (exists face, In face (m_faces m) /\ face_inside m face) -> (exists face, In face (m_faces m) /\ ~ face_inside m face) ->
  exists fig, mesh_region_demo mesh_name m = Ok (fig, (mesh_name ++ "_region_norm")%string) /\
    List.length (mf_intensity fig) = List.length (m_faces m) /\ mf_cmin fig = 0%R /\ mf_cmax fig = 1%R /\
    forall k face, nth_error (m_faces m) k = Some face ->
      (face_inside m face -> nth_error (mf_intensity fig) k = Some 1%R) /\
      (~ face_inside m face -> nth_error (mf_intensity fig) k = Some MESH_UNSEEN).
Proof.
  clear solver normals normal axisym_wav_l jmax fmt_e.
  intros name m wf HF (f1 & In1 & I1) (f0 & In0 & O0). destruct wf as (Hr & _ & _). unfold mesh_region_demo. fold (nv m). rewrite Hr, Nat.eqb_refl. cbn [rbind].
  set (fl := map (fun b : bool => if b then 1%R else 0%R) (m_region m)).
  assert (Lf : List.length fl = nv m) by (unfold fl; rewrite map_length; exact Hr).
  assert (Vf : forall v, nth v fl 0%R = if nth v (m_region m) false then 1%R else 0%R).
  { intros v. unfold fl. exact (map_nth (fun b : bool => if b then 1%R else 0%R) (m_region m) false v). }
  assert (Mean : forall face, In face (m_faces m) -> (face_inside m face -> face_mean fl face = 1%R) /\
            (~ face_inside m face -> (face_mean fl face <= 2 / 3)%R) /\ (face_mean fl face <= 1)%R).
  { intros face Hf. destruct (HF face Hf) as [L3 _]. destruct face as [|a [|b [|c [|d face]]]]; try discriminate L3.
    unfold face_mean. cbn [map List.length]. unfold rlsum. cbn [fold_right]. rewrite !Vf. change (INR 3) with (1 + 1 + 1)%R.
    assert (FI : face_inside m [a; b; c] <-> nth a (m_region m) false = true /\ nth b (m_region m) false = true /\ nth c (m_region m) false = true).
    { split; [intros K; repeat split; apply K; cbn; tauto|]. intros (A & B & D) v [<-|[<-|[<-|[]]]]; assumption. }
    rewrite FI. destruct (nth a (m_region m) false), (nth b (m_region m) false), (nth c (m_region m) false).
    all: split; [intros (? & ? & ?); try discriminate; lra|split; [intros N; try lra; exfalso; apply N; repeat split; reflexivity|lra]]. }
  set (ms := map (face_mean fl) (m_faces m)).
  assert (Hmx : is_max ms 1).
  { split; [apply in_map_iff; exists f1; split; [apply (Mean f1 In1); exact I1|exact In1]|].
    intros y Hy. apply in_map_iff in Hy. destruct Hy as (face & <- & Hf). apply (Mean face Hf). }
  assert (Sp : spread ms).
  { exists 1%R, (face_mean fl f0). split; [exact Hmx|]. split; [apply in_map; exact In0|].
    pose proof (proj1 (proj2 (Mean f0 In0)) O0). rewrite Rabs_R1, Rabs_minus_sym, Rabs_pos_eq by lra. lra. }
  destruct (C38_range ms Sp) as (out & En & Lo & _ & Mx & Ord).
  assert (Av : average_onto_faces (m_faces m) fl = Ok ms).
  { apply average_ok. intros face v Hf Hv. rewrite Lf. apply (HF face Hf), Hv. }
  assert (Ne : fl <> []).
  { intros E. rewrite E in Lf. destruct (HF f1 In1) as [L3 Hv]. destruct f1 as [|v f1]; [discriminate|].
    specialize (Hv v (or_introl eq_refl)). cbn in Lf. lia. }
  destruct (np_min_ok fl Ne) as (mn & Emn & _). destruct (np_max_ok fl Ne) as (mx & Emx & _).
  unfold plot_mesh. rewrite Emn. cbn [rbind]. rewrite Emx. cbn [rbind]. rewrite Av. cbn [rbind]. rewrite En. cbn [rbind].
  assert (Lm : List.length ms = List.length (m_faces m)) by apply map_length.
  destruct (C30_faces m) as [Lr Hc]. unfold mesh_outside_region. rewrite broadcast_same by lia. cbn [rbind].
  eexists. split; [reflexivity|]. cbn [mf_intensity mf_cmin mf_cmax].
  split; [rewrite map_length, combine_length; lia|]. split; [reflexivity|]. split; [reflexivity|].
  intros k face Hk. assert (Kl : k < List.length (m_faces m)) by (apply nth_error_Some; congruence).
  rewrite nth_error_map, nth_error_combine.
  destruct (nth_error out k) as [x|] eqn:Ex; [|apply nth_error_None in Ex; lia].
  destruct (Hc k face Hk) as [[R1 I]|[R0 (w & Hw & Wf)]].
  - rewrite R1. cbn [option_map fst snd]. destruct (Reqb 1 0) eqn:E10; [apply Reqb_spec in E10; lra|].
    split; [|intros N; exfalso; apply N; exact I]. intros _. f_equal.
    assert (Mk : nth k ms 0%R = 1%R).
    { rewrite (nth_error_nth ms k 0%R (map_nth_error (face_mean fl) k (m_faces m) Hk)). apply (Mean face (nth_error_In _ _ Hk)). exact I. }
    destruct Mx as [Min Mle]. apply (In_nth _ _ 0%R) in Min. destruct Min as (i & Hi & Ei).
    assert (Xk : nth k out 0%R = x) by (apply nth_error_nth; exact Ex).
    assert (Xle : (x <= 1)%R) by (apply Mle; apply (nth_error_In _ _ Ex)).
    destruct (Rlt_dec x 1) as [Lt|]; [|lra]. exfalso.
    assert (K : (nth k ms 0 < nth i ms 0)%R) by (apply Ord; [lia|lia|rewrite Xk, Ei; exact Lt]).
    rewrite Mk in K. assert (nth i ms 0 <= 1)%R by (apply Hmx, nth_In; lia). lra.
  - rewrite R0. cbn [option_map fst snd]. destruct (Reqb 0 0) eqn:E0; [|exfalso; assert (Reqb 0 0 = true) by (apply Reqb_spec; reflexivity); congruence].
    split; [|reflexivity]. intros K. exfalso. specialize (K w Hw). congruence.
Qed.

Lemma slepian_forward_mesh_ok s g : slepian_functions_ok s -> List.length g = nv (ms_mesh s) ->
  slepian_mesh_forward s (of_u g) None = Ok (map (fun p => rip (nv (ms_mesh s)) (val g) (slep s p)) (seq 0 (ns s))).
Proof.
  clear solver normals normal axisym_wav_l jmax fmt_e.
  intros okk Hg. unfold slepian_mesh_forward. cbn [of_u mesh_detect_method mg_u_i mg_u mg_mask rbind].
  rewrite <- (N_nat s okk). apply decompose_all_ok; [apply (N_fun s okk)|]. intros p Hp.
  pose proof (N_fun s okk). apply (sphere_ok s okk (of_u g) g p eq_refl Hg). lia.
Qed.

(** The wavelet synthesis of real coefficients: row [i] meets wavelet [i]. *)
Lemma mesh_inverse_rows s cols rows W : slepian_functions_ok s -> (forall r, In r rows -> List.length r = cols) -> ns s <= cols ->
  (forall r, In r W -> List.length r = ns s) -> List.length W <= List.length rows ->
  exists f_p, slepian_wavelet_inverse (A2 (Z.to_nat (ms_N s)) (map (map RtoC) W)) (A2 cols (map (map RtoC) rows)) (ms_N s) = Ok (map RtoC f_p) /\
    List.length f_p = ns s /\
    forall p, p < ns s -> val f_p p = rsum (List.length W) (fun i => val (nth i rows []) p * val (nth i W []) p)%R.
Proof.
  clear solver normals normal axisym_wav_l jmax fmt_e.
  intros okk Hr HN HW Hl. fold (ns s). set (N := ns s) in *. set (n := List.length W) in *.
  exists (map (fun p => rsum n (fun i => val (nth i rows []) p * val (nth i W []) p)%R) (seq 0 N)).
  split; [|split; [rewrite map_length, seq_length; reflexivity|intros p Hp; rewrite val_map_seq by exact Hp; reflexivity]].
  unfold slepian_wavelet_inverse. cbn [arr_len]. rewrite map_length. fold n. cbn [arr_prefix py_prefix_opt].
  rewrite py_prefix_nat by lia. rewrite Nat2Z.id. rewrite <- (N_nat s okk). fold N. rewrite firstn_map.
  assert (P : forall r, In r (firstn n rows) -> List.length r = cols).
  { intros r Hin. apply Hr. rewrite <- (firstn_skipn n rows). apply in_or_app. left. exact Hin. }
  rewrite (sifting_rows N cols N).
  2:{ intros r Hin. apply in_map_iff in Hin. destruct Hin as (r0 & <- & Hin). rewrite map_length. apply P, Hin. }
  2:{ intros r Hin. apply in_map_iff in Hin. destruct Hin as (r0 & <- & Hin). rewrite map_length. apply HW, Hin. }
  2: exact HN. 2: lia. 2:{ rewrite !map_length, firstn_length. fold n. lia. }
  cbn [rbind arr_sum0]. f_equal. unfold sum_axis0. rewrite map_map. apply map_ext_in. intros p Hp. apply in_seq in Hp.
  rewrite map_map, clsum_nth, map_length, combine_length, !map_length, firstn_length. fold n. rewrite Nat.min_l by lia. rewrite Nat.min_l by lia.
  rewrite <- csum_RtoC. apply csum_ext. intros i Hi.
  set (F := fun x : list C * list C => nth p (cmul (firstn N (fst x)) (firstn N (snd x))) (RtoC 0)).
  rewrite (nth_indep _ (RtoC 0) (F ([], []))) by (rewrite map_length, combine_length, !map_length, firstn_length; fold n; lia).
  rewrite (map_nth F). rewrite combine_nth by (rewrite !map_length, firstn_length; fold n; lia). unfold F. cbn [fst snd].
  assert (Hi' : In (nth i rows []) rows) by (apply nth_In; lia). assert (Hw : In (nth i W []) W) by (apply nth_In; exact Hi).
  rewrite !nth_map_rows, nth_firstn_lt by exact Hi.
  rewrite nth_cmul; [|rewrite map_length, (Hr _ Hi'); exact HN|rewrite map_length, (HW _ Hw); lia|lia].
  rewrite !nth_map_RtoC, Cconj_R, <- RtoC_mult. reflexivity.
Qed.

(** The denoising of a mesh signal: the wavelet coefficients of the scales that
    see the noisy signal are thresholded one by one and put together.  The
    remaining rows are counted from the beginning, so that row [i] is
    thresholded and synthesised with wavelet [i] even if it belongs to another
    scale. *)
Theorem C72_denoising : forall s signal noised cols wavelets snr_in n_sigma, slepian_functions_ok s ->
  List.length signal = ns s -> List.length noised = ns s ->
  (forall r, In r wavelets -> List.length r = cols) -> ns s <= cols ->
  exists scales W W' f_p f, denoising_mesh_slepian s signal noised cols wavelets snr_in n_sigma = Ok (f_p, f) /\
    StronglySorted lt scales /\
    (forall j, In j scales <-> j < List.length wavelets /\ sees_row (ns s) wavelets noised j) /\
    (forall i, i < List.length scales -> List.length (W i) = ns s /\
       (forall p, p < ns s -> val (W i) p = (val (nth (nth i scales 0%nat) wavelets []) p * val noised p)%R) /\
       exists u g, slepian_mesh_inverse s (W i) = Ok u /\
         r_thresholded (fun v => IZR n_sigma *
           (sqrt (Rpower 10 (- snr_in / 10) * rsum (ns s) (fun q => val signal q ^ 2) / INR (nb (ms_mesh s)))
            * sqrt (rsum (ns s) (fun p => (val (nth i wavelets []) p * slep s p v) ^ 2))))%R u g /\
         slepian_mesh_forward s (of_u g) None = Ok (W' i)) /\
    List.length f_p = ns s /\
    (forall p, p < ns s -> val f_p p = rsum (List.length scales) (fun i => val (nth i wavelets []) p * val (W' i) p)%R) /\
    slepian_mesh_inverse s f_p = Ok f.
Proof.
  clear solver normals normal axisym_wav_l jmax fmt_e.
  intros s signal noised cols ws snr n okk Hsig Hnoi Hws HN.
  destruct (mesh_forward_rows s noised cols ws okk Hws HN Hnoi) as (W & sc & E & So & Al & LW & V).
  destruct (mesh_sigma_ok s signal snr ws okk Hsig) as (sj & Es & Ls & Lsv & Vs); [intros r Hr; rewrite (Hws r Hr); exact HN|].
  assert (Hsc : List.length sc <= List.length ws).
  { rewrite <- (seq_length (List.length ws) 0). apply NoDup_incl_length.
    - clear -So. induction So as [|a l So IH F]; constructor; [|exact IH]. intros Hin. rewrite Forall_forall in F. specialize (F a Hin). lia.
    - intros j Hj. apply in_seq. apply Al in Hj. lia. }
  assert (HW : forall r, In r W -> List.length r = ns s).
  { intros r Hr. apply (In_nth _ _ []) in Hr. destruct Hr as (i & Hi & <-). apply V. lia. }
  destruct (C57_thresholding s W sj n okk HW) as (W' & Et & LW' & Ht); [lia|exact Lsv|].
  assert (Hrow : forall i, i < List.length W -> exists u g, slepian_mesh_inverse s (nth i W []) = Ok u /\
      r_thresholded (fun v => IZR n * val (nth i sj []) v)%R u g /\ slepian_mesh_forward s (of_u g) None = Ok (nth i W' [])).
  { intros i Hi. destruct (Ht i (nth i W [])) as (u & g & x & A & B & D & Ex); [apply nth_error_nth'; exact Hi|].
    exists u, g. apply (nth_error_nth W' i []) in Ex. subst x. auto. }
  assert (HW' : forall r, In r W' -> List.length r = ns s).
  { intros r Hr. apply (In_nth _ _ []) in Hr. destruct Hr as (i & Hi & <-). destruct (Hrow i) as (u & g & Eu & [Lg _] & Ef); [lia|].
    rewrite (slepian_inverse_mesh_ok s okk) in Eu by (destruct (V i) as [-> _]; lia). injection Eu as <-. rewrite map_length, seq_length in Lg.
    rewrite (slepian_forward_mesh_ok s g okk Lg) in Ef. injection Ef as <-. rewrite map_length, seq_length. reflexivity. }
  destruct (mesh_inverse_rows s cols ws W' okk Hws HN HW') as (f_p & Ef & Lf & Vf); [lia|].
  assert (Ei : exists f, slepian_mesh_inverse s f_p = Ok f) by (rewrite (slepian_inverse_mesh_ok s okk) by lia; eauto). destruct Ei as (f & Ei).
  exists sc, (fun i => nth i W []), (fun i => nth i W' []), f_p, f. split.
  { unfold denoising_mesh_slepian. rewrite E. cbn [rbind]. rewrite Es. cbn [rbind]. rewrite Et. cbn [rbind]. rewrite Ef. cbn [rbind].
    rewrite map_map. rewrite (map_ext (fun x => Re (RtoC x)) (fun x => x)) by reflexivity. rewrite map_id.
    rewrite broadcast_same by lia. cbn [rbind]. rewrite Ei. reflexivity. }
  split; [exact So|]. split; [exact Al|]. split; [|split; [exact Lf|split; [|exact Ei]]].
  - intros i Hi. destruct (V i Hi) as [Lr Vr]. split; [exact Lr|]. split; [exact Vr|]. destruct (Hrow i) as (u & g & Eu & Tu & Eg); [lia|].
    exists u, g. split; [exact Eu|]. split; [|exact Eg]. destruct Tu as [Lg Tu]. split; [exact Lg|]. intros v Hv.
    assert (Hv' : v < nv (ms_mesh s)).
    { rewrite (slepian_inverse_mesh_ok s okk) in Eu by lia. injection Eu as <-. rewrite map_length, seq_length in Hv. exact Hv. }
    specialize (Tu v Hv). rewrite Vs in Tu by lia. exact Tu.
  - intros p Hp. rewrite (Vf p Hp), LW', LW. reflexivity.
Qed.
Lemma sorted_seq k : forall l a, StronglySorted lt l -> (forall j, In j l <-> a <= j < a + k) -> l = seq a k.
Proof.
  clear solver normals normal axisym_wav_l jmax fmt_e.
  induction k as [|k IH]; intros l a So H.
  - destruct l as [|x l]; [reflexivity|]. assert (a <= x < a + 0) by (apply H; left; reflexivity). lia.
  - destruct l as [|x l]; [assert (In a []) as [] by (apply H; lia)|]. inversion So as [|? ? So' F]; subst. rewrite Forall_forall in F.
    assert (x = a) as ->.
    { assert (Ha : In a (x :: l)) by (apply H; lia). assert (a <= x < a + S k) by (apply H; left; reflexivity).
      destruct Ha as [->|Ha]; [reflexivity|]. specialize (F a Ha). lia. }
    cbn [seq]. f_equal. apply IH; [exact So'|]. intros j. split.
    + intros Hj. assert (a <= j < a + S k) by (apply H; right; exact Hj). specialize (F j Hj). lia.
    + intros Hj. assert (Hin : In j (a :: l)) by (apply H; lia). destruct Hin as [->|Hin]; [lia|exact Hin].
Qed.

(** Without a threshold the noisy signal comes back unchanged, provided that
    the scales that do not see it are the last ones. *)
Theorem C72_denoising_zero : forall s signal noised cols wavelets snr_in n_sigma k, slepian_functions_ok s ->
  List.length signal = ns s -> List.length noised = ns s ->
  (forall r, In r wavelets -> List.length r = cols) -> ns s <= cols -> (n_sigma <= 0)%Z ->
  (forall p, p < ns s -> rsum (List.length wavelets) (fun j => val (nth j wavelets []) p ^ 2)%R = 1%R) ->
  (forall j, j < List.length wavelets /\ sees_row (ns s) wavelets noised j <-> j < k) ->
  exists f, denoising_mesh_slepian s signal noised cols wavelets snr_in n_sigma = Ok (noised, f) /\ slepian_mesh_inverse s noised = Ok f.
Proof.
  clear solver normals normal axisym_wav_l jmax fmt_e.
  intros s signal noised cols ws snr n k okk Hsig Hnoi Hws HN Hn Had Hk.
  destruct (C72_denoising s signal noised cols ws snr n okk Hsig Hnoi Hws HN) as (sc & W & W' & f_p & f & E & So & Al & Row & Lf & Vf & Ei).
  assert (sc = seq 0 k) as ->. { apply sorted_seq; [exact So|]. intros j. rewrite Al, Hk. lia. } rewrite seq_length in *.
  assert (Kw : k <= List.length ws). { destruct k as [|k]; [lia|]. assert (k < List.length ws) by (apply (proj2 (Hk k)); lia). lia. }
  assert (Same : forall i, i < k -> W' i = W i).
  { intros i Hi. destruct (Row i Hi) as (Lr & _ & u & g & Eu & [Lg Tg] & Eg).
    destruct (C28_slepian_round_trip s (W i) okk ltac:(lia)) as (u' & Eu' & _ & Ru & _). rewrite Eu in Eu'. injection Eu' as <-.
    assert (g = u) as ->.
    { apply (val_ext g u (List.length u) Lg eq_refl). intros v Hv. apply Tg; [exact Hv|].
      apply Rle_trans with 0%R; [|apply Rabs_pos]. apply IZR_le in Hn.
      match goal with |- (IZR n * (?a * ?b) <= 0)%R => assert (0 <= a * b)%R by (apply Rmult_le_pos; apply sqrt_pos) end. nra. }
    rewrite Ru in Eg. injection Eg as <-. apply firstn_all2. lia. }
  assert (f_p = noised) as ->.
  { apply (val_ext f_p noised (ns s) Lf Hnoi). intros p Hp. rewrite (Vf p Hp).
    transitivity (rsum (List.length ws) (fun i => val (nth i ws []) p ^ 2 * val noised p)%R).
    - replace (List.length ws) with (k + (List.length ws - k)) by lia. rewrite rsum_app.
      rewrite (rsum_zero (List.length ws - k)).
      + rewrite Rplus_0_r. apply rsum_ext. intros i Hi. rewrite (Same i Hi). destruct (Row i Hi) as (_ & Vr & _).
        rewrite (Vr p Hp), seq_nth by exact Hi. cbn [Nat.add]. ring.
      + intros i Hi. destruct (Req_dec (val (nth (k + i) ws []) p) 0) as [E0|E1]; [rewrite E0; ring|].
        destruct (Req_dec (val noised p) 0) as [E0|E2]; [rewrite E0; ring|].
        exfalso. assert (k + i < k); [|lia]. apply Hk. split; [lia|]. exists p. auto.
    - rewrite rsum_scal_r, (Had p Hp). ring. }
  exists f. split; [exact E|exact Ei].
Qed.

(** The demonstration: the denoised field, with the colours of the clean one. *)
Theorem C72_denoising_demo : forall mesh_name m s snr sigma, solved m s -> List.length (normals m) = nv m -> generators_fit m 3 2 ->
  (forall face v, In face (m_faces m) -> In v face -> v < nv m) -> (forall face, In face (m_faces m) -> face <> []) -> 0 < nv m ->
  exists fig clean noisy waves p f g a,
    denoising_mesh_demo solver normals normal axisym_wav_l jmax fmt_e mesh_name m snr sigma = Ok fig /\
    create MeshSlepianField mesh_name true m No_params None None false = Ok clean /\
    create MeshSlepianField mesh_name true m No_params None (Some snr) false = Ok noisy /\
    create MeshSlepianWavelets mesh_name true m (Scale 3 2 None) None None false = Ok waves /\
    denoising_mesh_slepian s (mo_coefficients clean) (mo_coefficients noisy) (nb m) (mo_wavelets waves) (Q2R snr) sigma = Ok (p, f) /\
    slepian_mesh_inverse s (mo_coefficients clean) = Ok g /\ is_max (map Rabs g) a /\
    mf_cmin fig = (- a)%R /\ mf_cmid fig = 0%R /\ mf_cmax fig = a /\ mf_triangles fig = m_faces m /\
    forall k face, nth_error (m_faces m) k = Some face ->
      (face_inside m face -> nth_error (mf_intensity fig) k = Some (face_mean f face)) /\
      (~ face_inside m face -> nth_error (mf_intensity fig) k = Some MESH_UNSEEN).
Proof.
  intros name m s snr sigma Hs Hn HG HF HF' Hv. pose proof Hs as (_ & Hm & okk).
  destruct (C72_slepian_field name true m s false Hs Hn) as (clean & Ec & _ & Sc & Lc & _ & _).
  destruct (C72_noise _ _ _ _ _ _ snr _ _ Ec) as (noisy & n & base & En & _ & _ & _ & Sn & _ & _ & _ & _ & Ln & _).
  { intros s' Hs'. rewrite Sc in Hs'. injection Hs' as <-. split; [exact okk|exact Lc]. }
  destruct (C72_wavelets name true m s 3 2 None false 0 Hs HG I eq_refl ltac:(lia)) as (waves & Ew & _ & Sw & _ & Lw & _ & Vw).
  pose proof (N_nb s okk) as HN. rewrite Hm in HN. pose proof (sl_wf s okk) as (_ & He & _). rewrite Hm in He.
  assert (Rw : mo_wavelets waves = create_kappas axisym_wav_l (nb m) 3 2).
  { unfold create_mesh_function in Ew. ok Ew as q F1. ok Ew as sl F2. ok Ew as lam F4. ok Ew as [[cf w] wc] F5.
    ok Ew as [[cf' un'] snr'] F6. injection Ew as <-. cbn [mo_wavelets].
    destruct (C41_mesh_keywords jmax MeshSlepianWavelets m (Scale 3 2 None) eq_refl) as [[_ K]|[K _]]; [|exfalso; apply K; exact I].
    rewrite K in F1. injection F1 as <-.
    cbn [mesh_create_coefficients] in F5. unfold create_mesh_wavelets in F5. rewrite He in F5. ok F5 as x G. injection F5 as _ <- _. reflexivity. }
  destruct (kappas_shape _ _ _ HG) as [Lk Vk].
  destruct (C72_denoising s (mo_coefficients clean) (mo_coefficients noisy) (nb m) (mo_wavelets waves) (Q2R snr) sigma okk Lc ltac:(lia))
    as (_ & _ & _ & p & f & Ed & _ & _ & _ & Lp & _ & Ef).
  { rewrite Rw. intros r Hr. apply (In_nth _ _ []) in Hr. destruct Hr as (j & Hj & <-). apply Vk. lia. }
  { exact HN. }
  destruct (C28_slepian_round_trip s (mo_coefficients clean) okk ltac:(lia)) as (g & Eg & Lg & _ & _). rewrite Hm in Lg.
  destruct (C28_slepian_round_trip s p okk ltac:(lia)) as (f' & Ef' & Lf & _ & _). rewrite Hm in Lf. rewrite Ef in Ef'. injection Ef' as <-.
  destruct (np_max_ok (map Rabs g)) as (a & Ea & Ha). { destruct g; [cbn in Lg; lia|discriminate]. }
  assert (Nf : f <> []) by (destruct f; [cbn in Lf; lia|discriminate]).
  assert (HFf : forall face v, In face (m_faces m) -> In v face -> v < List.length f) by (rewrite Lf; exact HF).
  assert (Pl : exists fig, plot_mesh m f (Some a) false true = Ok fig).
  { destruct (C60_mesh m f true Nf HFf HF') as (fig & mx & E & _). unfold plot_mesh in E |- *.
    ok E as vmin E1. ok E as vmax E2. ok E as gg E3. ok E as h E4. ok E as h' E5. cbn [rbind]. rewrite E4. cbn [rbind]. rewrite E5. cbn [rbind]. eexists. reflexivity. }
  destruct Pl as (fig & Pl). exists fig, clean, noisy, waves, p, f, g, a. split.
  { unfold denoising_mesh_demo. rewrite Ec. cbn [rbind]. rewrite En. cbn [rbind]. rewrite Ew. cbn [rbind]. rewrite Sn, Sc. cbn [the_slepian rbind].
    rewrite Eg. cbn [rbind]. rewrite Ea. cbn [rbind]. rewrite Sw. cbn [the_slepian rbind]. rewrite He, Ed. cbn [rbind snd]. exact Pl. }
  repeat (split; [assumption|]). destruct (proj2 (C60_mesh_fixed _ _ _ _ _ _ Pl) a eq_refl eq_refl) as (A & B & D & _).
  split; [exact A|]. split; [exact B|]. split; [exact D|]. split; [apply (C72_positions _ _ _ _ _ _ Pl)|].
  intros k face Hk. destruct (proj2 (C72_colours _ _ _ _ _ Pl HFf HF') k face Hk) as [C1 C2]. split; [intros I; apply C1; right; exact I|intros N; apply C2; [reflexivity|exact N]].
Qed.
End Creation.
Print Assumptions C72_basis_functions.
Print Assumptions C72_field.
Print Assumptions C72_slepian_functions.
Print Assumptions C72_slepian_field.
Print Assumptions C72_slepian_noise_field.
Print Assumptions C72_noise_field_refuted.
Print Assumptions C72_wavelets.
Print Assumptions C72_wavelet_coefficients.
Print Assumptions C72_noise.
Print Assumptions C72_noised_wavelets_refuted.
Print Assumptions C72_positions.
Print Assumptions C72_mirror_refuted.
Print Assumptions C72_colours.
Print Assumptions C72_command.
Print Assumptions C72_command_first.
Print Assumptions C72_region.
Print Assumptions C72_denoising.
Print Assumptions C72_denoising_zero.
Print Assumptions C72_denoising_demo.

(** ** Instances: a mesh of three vertices, two of them in the region *)

Definition mesh3 : mesh := {|
  m_vertices := [(0, 0, 0); (1, 0, 0); (0, 1, 0)]%R;
  m_faces := [[0; 1; 1]; [0; 1; 2]];
  m_region := [true; true; false];
  m_evals := [0; 1; 2]%R;
  m_basis := [[1; 0; 0]; [0; 1; 0]; [0; 0; 1]]%R;
  m_number := 3
|}.
Definition slepian3 : mesh_slepian := {|
  ms_mesh := mesh3; ms_N := 2; ms_evals := [1; 1; 0]%R; ms_functions := [[0; 1; 0]; [1; 0; 0]; [0; 0; 1]]%R
|}.

Example slepian3_ok : slepian_functions_ok slepian3.
Proof.
  split; [|split; [|split; [cbn; lia|split; [cbn; lia|split; [cbn; lia|split; [reflexivity|split]]]]]].
  - split; [reflexivity|]. split; [reflexivity|]. split; [reflexivity|]. intros row [<-|[<-|[<-|[]]]]; reflexivity.
  - intros i j Hi Hj. unfold nb in *. cbn in Hi, Hj.
    destruct i as [|[|[|i]]]; destruct j as [|[|[|j]]]; try lia; unfold rip, nv, phi, val; cbn; field.
  - intros row [<-|[<-|[<-|[]]]]; reflexivity.
  - intros i j Hi Hj. cbn in Hi, Hj.
    destruct i as [|[|[|i]]]; destruct j as [|[|[|j]]]; try lia; unfold rip, val, sfun; cbn; field.
Qed.

(** A scaling function that sees the first rank, one wavelet that sees the rest. *)
Definition wav3 (B : Z) (L : nat) (j_min : Z) : list R * nat * list (list R) :=
  (1%R :: repeat 0%R (L - 1), 1, [0%R] :: repeat [1%R] (L - 1)).
Definition normals3 (m : mesh) : list R := [3; 4; 5]%R.
Definition jmax3 (B : Z) (L : nat) (j_min : Z) : Z := 2%Z.

Section Case.
Variable normal : Z -> nat -> R.
Variable fmt_e : R -> string.
Notation make := (create_mesh_function (fun _ => Ok slepian3) normals3 normal wav3 jmax3 fmt_e).

Example solved3 : solved (fun _ => Ok slepian3) mesh3 slepian3.
Proof. split; [reflexivity|]. split; [reflexivity|exact slepian3_ok]. Qed.
Example generators3 : generators_fit wav3 mesh3 3 2.
Proof. split; reflexivity. Qed.

Example C72_functions_case : exists o f o',
  make MeshSlepianFunctions "bird" true mesh3 (Rank 0) (Some [1%Z]) None false = Ok o /\
  coefficients_to_field_mesh mesh3 (mo_slepian o) (mo_coefficients o) = Ok f /\ val f 0 = 1%R /\ val f 1 = 0%R /\
  make MeshBasisFunctions "bird" true mesh3 (Rank 0) (Some [2%Z]) None false = Ok o' /\
  coefficients_to_field_mesh mesh3 None (mo_coefficients o') = Ok [0; 0; 1]%R.
Proof.
  destruct (C72_slepian_functions (fun _ => Ok slepian3) normals3 normal wav3 jmax3 fmt_e "bird" true mesh3 slepian3 0 (Some [1%Z]) false 1 solved3)
    as (o & f & Eo & _ & _ & _ & _ & _ & Ef & _ & Vf); [lia|right; exists 1%Z; reflexivity|reflexivity|cbn; lia|].
  destruct slepian3_ok as (wf & ob & _).
  destruct (C72_basis_functions (fun _ => Ok slepian3) normals3 normal wav3 jmax3 fmt_e "bird" true mesh3 0 (Some [2%Z]) false 2 wf ob)
    as (o' & Eo' & _ & _ & _ & _ & _ & Ef'); [lia|right; exists 2%Z; reflexivity|reflexivity|unfold nb; cbn; lia|].
  exists o, f, o'. split; [exact Eo|]. split; [exact Ef|].
  split; [rewrite (Vf 0) by (unfold nv; cbn; lia)|split; [rewrite (Vf 1) by (unfold nv; cbn; lia)|]].
  - change (1 <? ns slepian3) with true. cbv iota. unfold slep, field, sfun, phi, val, nb. cbn. ring.
  - change (1 <? ns slepian3) with true. cbv iota. unfold slep, field, sfun, phi, val, nb. cbn. ring.
  - split; [exact Eo'|exact Ef'].
Qed.

(** The field and its wavelet coefficients: both scales see the normals. *)
Example C72_wavelet_coefficients_case : exists f o,
  make MeshSlepianField "bird" true mesh3 No_params None None false = Ok f /\ val (mo_coefficients f) 0 = 4%R /\ val (mo_coefficients f) 1 = 3%R /\
  make MeshSlepianWaveletCoefficients "bird" true mesh3 (Scale 3 2 (Some 0%Z)) None None false = Ok o /\
  val (mo_coefficients o) 0 = 0%R /\ val (mo_coefficients o) 1 = 3%R.
Proof.
  destruct (C72_slepian_field (fun _ => Ok slepian3) normals3 normal wav3 jmax3 fmt_e "bird" true mesh3 slepian3 false solved3 eq_refl)
    as (f & Ef & _ & _ & _ & _ & Vf).
  destruct (C72_wavelet_coefficients (fun _ => Ok slepian3) normals3 normal wav3 jmax3 fmt_e "bird" true mesh3 slepian3 3 2 (Some 0%Z) false
    solved3 generators3 eq_refl) as (f' & sc & Ef' & So & Al & Hok & _); [cbn; unfold jmax3; lia|cbn; lia|].
  rewrite Ef in Ef'. injection Ef' as <-.
  assert (V0 : val (mo_coefficients f) 0 = 4%R) by (rewrite Vf by (cbn; lia); unfold slep, field, sfun, phi, val, nv, nb; cbn; ring).
  assert (V1 : val (mo_coefficients f) 1 = 3%R) by (rewrite Vf by (cbn; lia); unfold slep, field, sfun, phi, val, nv, nb; cbn; ring).
  assert (sc = seq 0 2) as ->.
  { apply sorted_seq; [exact So|]. intros j. rewrite Al. split; [intros [H _]; cbn in H; lia|]. intros Hj. split; [cbn; lia|].
    destruct j as [|[|j]]; [| |lia].
    - exists 0. split; [cbn; lia|]. rewrite V0. cbn. split; lra.
    - exists 1. split; [cbn; lia|]. rewrite V1. cbn. split; lra. }
  destruct (Hok ltac:(cbn; lia)) as (o & Eo & _ & _ & _ & _ & Vo).
  exists f, o. split; [exact Ef|]. split; [exact V0|]. split; [exact V1|]. split; [exact Eo|].
  split; [rewrite (Vo 0) by (cbn; lia); rewrite V0|rewrite (Vo 1) by (cbn; lia); rewrite V1];
    change (Z.to_nat (row_of (Some 0%Z))) with 1; change (nth 1 (seq 0 2) 0) with 1; unfold kappa_at, wav3, nb; cbn; ring.
Qed.

(** Noise can be added to the field but not to the wavelets. *)
Example C72_noise_case :
  (exists o, make MeshSlepianField "bird" true mesh3 No_params None (Some 10%Q) false = Ok o /\ List.length (mo_coefficients o) = 2) /\
  make MeshSlepianWavelets "bird" true mesh3 (Scale 3 2 None) None (Some 10%Q) false = Err ValueError.
Proof.
  split.
  - destruct (C72_slepian_field (fun _ => Ok slepian3) normals3 normal wav3 jmax3 fmt_e "bird" true mesh3 slepian3 false solved3 eq_refl)
      as (f & Ef & _ & Sf & Lf & _ & Vf).
    destruct (C72_noise (fun _ => Ok slepian3) normals3 normal wav3 jmax3 fmt_e MeshSlepianField "bird" true mesh3 No_params None 10%Q false f Ef)
      as (o & n & b & Eo & _ & _ & _ & _ & _ & _ & _ & _ & Lo & _).
    + intros s Hs. rewrite Sf in Hs. injection Hs as <-. split; [exact slepian3_ok|exact Lf].
    + exists o. split; [exact Eo|]. rewrite Lo. exact Lf.
  - apply (C72_noised_wavelets_refuted (fun _ => Ok slepian3) normals3 normal wav3 jmax3 fmt_e "bird" true mesh3 slepian3 3 2 None 10%Q false 0 solved3 generators3 I eq_refl);
      cbn; lia.
Qed.

(** The command draws the first basis function. *)
Example C72_command_case : exists fig name,
  mesh_command (fun _ => Ok slepian3) normals3 normal wav3 jmax3 fmt_e "bird" true mesh3 "basis_functions" None None false true = Ok (fig, name) /\
  mf_cmin fig = (-1)%R /\ mf_cmax fig = 1%R /\ mf_triangles fig = [[0; 1; 1]; [0; 1; 2]] /\ nth_error (mf_points fig) 2 = Some (0, 0, 1)%R.
Proof.
  destruct slepian3_ok as (wf & ob & _).
  destruct (C72_basis_functions (fun _ => Ok slepian3) normals3 normal wav3 jmax3 fmt_e "bird" true mesh3 0 None false 0 wf ob)
    as (o & Eo & [Un _] & _ & So & _ & _ & Ef); [lia|left; reflexivity|reflexivity|unfold nb; cbn; lia|].
  assert (HF : forall face v, In face (m_faces mesh3) -> In v face -> v < List.length (nth 0 (m_basis mesh3) [])).
  { intros face v [<-|[<-|[]]] Hv; cbn in Hv; cbn; lia. }
  assert (HF' : forall face, In face (m_faces mesh3) -> face <> []) by (intros face [<-|[<-|[]]]; discriminate).
  destruct (C60_mesh mesh3 (nth 0 (m_basis mesh3) []) false ltac:(discriminate) HF HF') as (fig & mx & E & Mx & C1 & C2 & _).
  exists fig, (mo_name o ++ "")%string. split.
  { unfold mesh_command. change (choose_mesh_class "basis_functions") with (Ok MeshBasisFunctions). cbn [rbind mesh_default_params].
    rewrite Eo. cbn [rbind]. rewrite Un. cbn [compute_amplitude_for_noisy_mesh_plots rbind]. unfold mesh_plot. rewrite So, Ef. cbn [rbind negb].
    rewrite E. reflexivity. }
  assert (mx = 1%R) as ->.
  { destruct Mx as [Hin Hle]. apply Rle_antisym.
    - cbn in Hin. rewrite Rabs_R1, Rabs_R0 in Hin. destruct Hin as [<-|[<-|[<-|[]]]]; lra.
    - rewrite <- Rabs_R1. apply Hle. left. reflexivity. }
  destruct (C72_positions _ _ _ _ _ _ E) as (T & _ & P).
  split; [rewrite C2; ring|]. split; [exact C1|]. split; [exact T|exact (P 2 0%R 1%R 0%R eq_refl)].
Qed.

Example C72_region_case : exists fig, mesh_region_demo "bird" mesh3 = Ok (fig, "bird_region_norm"%string) /\
  nth_error (mf_intensity fig) 0 = Some 1%R /\ nth_error (mf_intensity fig) 1 = Some MESH_UNSEEN.
Proof.
  destruct slepian3_ok as (wf & _).
  assert (I0 : face_inside mesh3 [0; 1; 1]) by (intros v [<-|[<-|[<-|[]]]]; reflexivity).
  assert (I1 : ~ face_inside mesh3 [0; 1; 2]) by (intros K; specialize (K 2 (or_intror (or_intror (or_introl eq_refl)))); discriminate K).
  destruct (C72_region "bird" mesh3 wf) as (fig & E & _ & _ & _ & H).
  - intros face [<-|[<-|[]]]; (split; [reflexivity|]); intros v Hv; unfold nv; cbn in Hv |- *; lia.
  - exists [0; 1; 1]. split; [left; reflexivity|exact I0].
  - exists [0; 1; 2]. split; [right; left; reflexivity|exact I1].
  - exists fig. split; [exact E|]. split; [apply (H 0 [0; 1; 1] eq_refl); exact I0|apply (H 1 [0; 1; 2] eq_refl); exact I1].
Qed.

(** Without a threshold the noisy signal comes back. *)
Example C72_denoising_case : exists f,
  denoising_mesh_slepian slepian3 [4; 3]%R [5; 2]%R 3 [[1; 0; 0]; [0; 1; 1]]%R 10 0 = Ok ([5; 2]%R, f).
Proof.
  destruct (C72_denoising_zero slepian3 [4; 3]%R [5; 2]%R 3 [[1; 0; 0]; [0; 1; 1]]%R 10 0 2 slepian3_ok eq_refl eq_refl) as (f & E & _).
  - intros r [<-|[<-|[]]]; reflexivity.
  - cbn. lia.
  - lia.
  - intros p Hp. cbn in Hp. destruct p as [|[|p]]; [| |lia]; unfold val; cbn; ring.
  - intros j. split; [intros [H _]; cbn in H; lia|]. intros Hj. split; [cbn; lia|]. destruct j as [|[|j]]; [| |lia].
    + exists 0. unfold val. cbn. split; [lia|split; lra].
    + exists 1. unfold val. cbn. split; [lia|split; lra].
  - exists f. exact E.
Qed.

Example C72_demo_case : exists fig,
  denoising_mesh_demo (fun _ => Ok slepian3) normals3 normal wav3 jmax3 fmt_e "bird" mesh3 (-5)%Q 2 = Ok fig /\
  nth_error (mf_intensity fig) 1 = Some MESH_UNSEEN.
Proof.
  destruct (C72_denoising_demo (fun _ => Ok slepian3) normals3 normal wav3 jmax3 fmt_e "bird" mesh3 slepian3 (-5)%Q 2 solved3 eq_refl generators3)
    as (fig & cl & no & wa & p & f & g & a & E & _ & _ & _ & _ & _ & _ & _ & _ & _ & _ & H).
  - intros face v [<-|[<-|[]]] Hv; unfold nv; cbn in Hv |- *; lia.
  - intros face [<-|[<-|[]]]; discriminate.
  - unfold nv. cbn. lia.
  - exists fig. split; [exact E|]. apply (H 1 [0; 1; 2] eq_refl).
    intros K. specialize (K 2 (or_intror (or_intror (or_introl eq_refl)))). discriminate K.
Qed.
End Case.
