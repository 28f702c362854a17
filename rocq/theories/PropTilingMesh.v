(** * C87 on meshes. *)
From Coq Require Import List ZArith QArith Arith Bool Reals String Sorted Lra Lia.
From Coquelicot Require Import Complex.
From Verif Require Import Base ListLemmas RSum CSum PyNum Numpy SpecField Eigen Convolution Transform Wavelet Names FnNames Mesh SpecMesh MeshProofs
  Args Cli MeshObjects SpecTiling TilingProofs PropWavelet PropArgs PropMeshObjects PropTiling.
Import ListNotations.
Local Open Scope string_scope.
Local Open Scope list_scope.
Local Open Scope nat_scope.

(** With the generators of s2let, and when no Slepian coefficient of the field is zero, the
    wavelet coefficients of scale [j] on a mesh can be created exactly when the band of that
    scale begins below the Shannon number; they are the coefficients of the field times
    generator [j].  Otherwise the accepted scale ends with an IndexError. *)
Theorem C87_mesh : forall solver normals normal awl jmax fmt_e mesh_name zoom m s k B j_min J j region f,
  let create := create_mesh_function solver normals normal awl jmax fmt_e in
  let scale := Scale (Z.of_nat B) (Z.of_nat j_min) (Some (Z.of_nat j)) in
  solved solver m s -> List.length (normals m) = nv m -> 1 <= ns s ->
  tiling B k -> covers B (nb m) j_min J ->
  awl (Z.of_nat B) (nb m) (Z.of_nat j_min) = generators k B (nb m) j_min J ->
  jmax (Z.of_nat B) (nb m) (Z.of_nat j_min) = Z.of_nat J -> j <= J - j_min ->
  create MeshSlepianField mesh_name zoom m No_params None None region = Ok f ->
  (forall p, p < ns s -> val (mo_coefficients f) p <> 0%R) ->
  (B ^ (j_min + j) < B * (ns s - 1) ->
   exists o, create MeshSlepianWaveletCoefficients mesh_name zoom m scale None None region = Ok o /\
     List.length (mo_coefficients o) = ns s /\
     forall p, p < ns s -> val (mo_coefficients o) p
       = (nth p (nth (j + 1) (create_kappas awl (nb m) (Z.of_nat B) (Z.of_nat j_min)) []) 0 * val (mo_coefficients f) p)%R) /\
  (B * (ns s - 1) <= B ^ (j_min + j) ->
   create MeshSlepianWaveletCoefficients mesh_name zoom m scale None None region = Err IndexError).
Proof.
  intros solver normals normal awl jmax fmt_e name zoom m s k B jm J j region f create scale SV Hn H1 T CV E HJ Hj Ef HZ.
  pose proof SV as (_ & Em & okk). pose proof CV as [CV1 CV2]. pose proof (N_nb s okk) as HN. rewrite Em in HN.
  pose proof (sl_wf s okk) as (_ & He & _). rewrite Em in He.
  destruct (gen_lengths k B (nb m) jm J) as (L0 & L1 & _).
  assert (HG : generators_fit awl m (Z.of_nat B) (Z.of_nat jm)) by (unfold generators_fit; rewrite E; split; [exact L0|exact L1]).
  assert (HS : scales_of awl m (Z.of_nat B) (Z.of_nat jm) = J + 1 - jm) by (unfold scales_of; rewrite E; reflexivity).
  destruct (kappas_shape solver normals normal awl jmax fmt_e m (Z.of_nat B) (Z.of_nat jm) HG) as [_ Vk]. rewrite HS in Vk.
  destruct (C72_wavelet_coefficients solver normals normal awl jmax fmt_e name zoom m s (Z.of_nat B) (Z.of_nat jm) (Some (Z.of_nat j)) region SV HG Hn)
    as (f' & sc & Ef' & So & Al & Hok & Herr); [cbn; rewrite He, HJ; lia|cbn; lia|].
  unfold create in *. rewrite Ef in Ef'. injection Ef' as <-.
  destruct (scales_prefix awl k B (nb m) jm J (ns s) T CV ltac:(lia) E) as (_ & Hl & _ & c & Hc & H & Hcount).
  set (kappas := create_kappas awl (nb m) (Z.of_nat B) (Z.of_nat jm)) in *.
  assert (SC : sc = seq 0 (c + 1)).
  { apply sorted_seq; [exact So|]. intros i. rewrite Al, HS. split.
    - intros [Hi (p & Hp & K & _)]. split; [lia|]. apply H; [lia|]. exists p. split; [exact Hp|]. rewrite rows_entry.
      intros X. apply RtoC_inj in X. apply K. rewrite <- (proj2 (Vk i Hi)) by lia. exact X.
    - intros [_ Hi]. assert (Hi' : i < S (J + 1 - jm)) by lia. split; [exact Hi'|].
      destruct (proj2 (H i ltac:(lia)) Hi) as (p & Hp & K). exists p. split; [exact Hp|]. split; [|exact (HZ p Hp)].
      rewrite <- (proj2 (Vk i Hi')) by lia. intros X. apply K. rewrite rows_entry. f_equal. exact X. }
  assert (ER : Z.to_nat (row_of (Some (Z.of_nat j))) = j + 1) by (cbn; lia). rewrite ER, SC, seq_length in Hok, Herr. split.
  - intros HB. apply Hcount in HB; [|lia]. destruct (Hok ltac:(lia)) as (o & Eo & _ & _ & Lo & _ & Vo). exists o. split; [exact Eo|]. split; [exact Lo|].
    intros p Hp. rewrite (Vo p Hp), seq_nth by lia. cbn [Nat.add]. f_equal. rewrite <- (proj2 (Vk (j + 1) ltac:(lia))) by lia. reflexivity.
  - intros HB. apply Herr. destruct (Nat.lt_ge_cases j c) as [X|X]; [|lia]. apply Hcount in X; lia.
Qed.
Print Assumptions C87_mesh.

(** The mesh of three vertices with two Slepian functions in the region: scale 0 exists,
    scales 1 and 2 are accepted but end with an IndexError. *)
Example C87_mesh_case : forall normal fmt_e,
  let make := create_mesh_function (fun _ => Ok slepian3) normals3 normal ramp_awl jmax3 fmt_e in
  (exists o, make MeshSlepianWaveletCoefficients "bird" true mesh3 (Scale 2 0 (Some 0%Z)) None None false = Ok o /\ val (mo_coefficients o) 1 = 3%R) /\
  make MeshSlepianWaveletCoefficients "bird" true mesh3 (Scale 2 0 (Some 1%Z)) None None false = Err IndexError.
Proof.
  intros normal fmt_e make.
  destruct (C72_slepian_field (fun _ => Ok slepian3) normals3 normal ramp_awl jmax3 fmt_e "bird" true mesh3 slepian3 false solved3 eq_refl)
    as (f & Ef & _ & _ & _ & _ & Vf).
  assert (V0 : val (mo_coefficients f) 0 = 4%R) by (rewrite Vf by (cbn; lia); unfold slep, field, sfun, phi, val, nv, nb; cbn; ring).
  assert (V1 : val (mo_coefficients f) 1 = 3%R) by (rewrite Vf by (cbn; lia); unfold slep, field, sfun, phi, val, nv, nb; cbn; ring).
  assert (HZ : forall p, p < ns slepian3 -> val (mo_coefficients f) p <> 0%R).
  { intros p Hp. cbn in Hp. destruct p as [|[|p]]; [rewrite V0|rewrite V1|lia]; lra. }
  assert (CV : covers 2 (nb mesh3) 0 2) by (unfold covers; cbn; lia).
  pose proof (fun j Hj => C87_mesh (fun _ => Ok slepian3) normals3 normal ramp_awl jmax3 fmt_e "bird" true mesh3 slepian3 ramp 2 0 2 j false f
    solved3 eq_refl ltac:(cbn; lia) ramp_tiling CV eq_refl eq_refl Hj Ef HZ) as H. split.
  - destruct (proj1 (H 0 ltac:(lia)) ltac:(cbn; lia)) as (o & Eo & _ & Vo). exists o. split; [exact Eo|]. rewrite (Vo 1) by (cbn; lia). rewrite V1.
    replace (nth 1 (nth (0 + 1) (create_kappas ramp_awl (nb mesh3) (Z.of_nat 2) (Z.of_nat 0)) []) 0%R) with 1%R; [ring|].
    change (1%R = sqrt (ramp (1 / (2 * 1)) - ramp (1 / 1))). unfold ramp.
    repeat destruct Rle_dec; try lra. replace (1 - (2 - 2 * (1 / 1)))%R with 1%R by field. symmetry. apply sqrt_1.
  - apply (proj2 (H 1 ltac:(lia))). cbn. lia.
Qed.
