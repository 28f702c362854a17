(** * Lemmas: mesh transforms and Slepian decomposition on meshes. *)
From Coq Require Import List ZArith Arith Bool Reals Lra Lia.
From Coquelicot Require Import Complex.
From Verif Require Import Base ListLemmas RSum CSum PyNum Numpy RealOrtho Eigen EigenProofs SpecField Noise NoiseProofs ConvolutionProofs
  FunctionsProofs SelectProofs EarthProofs TransformProofs Transform Mesh SpecMesh.
Import ListNotations.
Local Open Scope nat_scope.

Lemma val_map_seq f n j : j < n -> val (map f (seq 0 n)) j = f j.
Proof. intros H. unfold val. apply nth_map_seq. exact H. Qed.

Lemma list_val l n : length l = n -> l = map (val l) (seq 0 n).
Proof. intros <-. symmetry. apply (map_nth_seq 0%R l). Qed.

Lemma val_ext l l' n : length l = n -> length l' = n -> (forall j, j < n -> val l j = val l' j) -> l = l'.
Proof.
  intros H H' E. rewrite (list_val l n H), (list_val l' n H'). apply map_ext_in.
  intros j Hj. apply in_seq in Hj. apply E. lia.
Qed.

Lemma map_combine_seq {A B D} (f : A -> B -> D) da db l l' n : length l = n -> length l' = n ->
  map (fun p => f (fst p) (snd p)) (combine l l') = map (fun i => f (nth i l da) (nth i l' db)) (seq 0 n).
Proof.
  intros <-. revert l'. induction l as [|x l IH]; intros [|y l'] H; cbn in H; try discriminate; [reflexivity|].
  cbn [combine map length seq fst snd nth]. f_equal. rewrite <- seq_shift, map_map. apply IH. congruence.
Qed.

Lemma whole_ok f g n : length f = n -> length g = n -> integrate_mesh_whole f g = Ok (rip n (val f) (val g)).
Proof.
  intros Hf Hg. unfold integrate_mesh_whole. rewrite broadcast_same by lia. cbn [rbind].
  rewrite (map_combine_seq Rmult 0%R 0%R f g n Hf Hg), rlsum_map_seq. reflexivity.
Qed.

Lemma region_ok mask f g n : length mask = n -> length f = n -> length g = n ->
  integrate_mesh_region mask f g = Ok (rmask (fun v => nth v mask false) n (val f) (val g)).
Proof.
  intros Hm Hf Hg. unfold integrate_mesh_region. rewrite broadcast_same by lia. cbn [rbind].
  rewrite (map_combine_seq Rmult 0%R 0%R f g n Hf Hg).
  rewrite broadcast_same by (rewrite map_length, seq_length; lia). cbn [rbind].
  rewrite (map_combine_seq (fun x (b : bool) => (x * (if b then 1 else 0))%R) 0%R false _ mask n)
    by (rewrite ?map_length, ?seq_length; lia).
  rewrite rlsum_map_seq. f_equal. apply rsum_ext. intros v Hv. rewrite (nth_map_seq _ n v 0%R Hv). unfold val.
  destruct (nth v mask false); ring.
Qed.

Lemma map_combine_mask {A} (mask : list bool) (f : bool -> A -> R) l d n : length mask = n -> length l = n ->
  broadcast f mask l = Ok (map (fun v => f (nth v mask false) (nth v l d)) (seq 0 n)).
Proof. intros H H'. rewrite broadcast_same by lia. f_equal. apply map_combine_seq; assumption. Qed.

Lemma firstn_S_nth {A} (l : list A) k d : k < length l -> firstn (S k) l = firstn k l ++ [nth k l d].
Proof.
  revert k. induction l as [|x l IH]; intros k H; [cbn in H; lia|]. destruct k as [|k]; [reflexivity|].
  cbn [firstn nth app]. cbn in H. rewrite <- IH by lia. reflexivity.
Qed.

Lemma set_nth_app_at {A} (l t : list A) x y k : length l = k -> set_nth k y (l ++ x :: t) = l ++ y :: t.
Proof. intros <-. induction l as [|z l IH]; [reflexivity|]. cbn. rewrite IH. reflexivity. Qed.

Section Mesh.
  Variable m : mesh.
  Hypothesis wf : well_formed m.

  Lemma row_length i : i < nb m -> length (nth i (m_basis m) []) = nv m.
  Proof. intros H. apply wf, nth_In, H. Qed.

  Lemma forward_ok u : length u = nv m ->
    mesh_forward m u = Ok (map (fun i => rip (nv m) (val u) (phi m i)) (seq 0 (nb m))).
  Proof.
    intros Hu. destruct wf as (_ & He & _ & Hr). unfold mesh_forward. rewrite He.
    set (body := fun (u_i : list R) (p : nat * list R) => _).
    set (c := fun i => rip (nv m) (val u) (phi m i)).
    assert (H : forall k, k <= nb m ->
      rfold body (combine (seq 0 k) (firstn k (m_basis m))) (repeat 0%R (nb m))
      = Ok (map c (seq 0 k) ++ repeat 0%R (nb m - k))).
    { induction k as [|k IH]; intros Hk; [cbn; rewrite Nat.sub_0_r; reflexivity|].
      rewrite seq_S, (firstn_S_nth (m_basis m) k []) by (fold (nb m); lia).
      rewrite SelectProofs.combine_app_len by (rewrite seq_length, firstn_length; fold (nb m); lia).
      rewrite FunctionsProofs.rfold_app, IH by lia. cbn [rbind rfold combine app]. unfold body at 1.
      rewrite (whole_ok u _ (nv m) Hu (row_length k ltac:(lia))). cbn [rbind].
      rewrite np_set_ok by (rewrite app_length, map_length, seq_length, repeat_length; lia). cbn [rbind].
      f_equal. change (val (nth k (m_basis m) [])) with (phi m k). fold (c k).
      assert (exists t, nb m - k = S t /\ nb m - S k = t) as (t & -> & ->) by (exists (nb m - S k); lia).
      rewrite map_app, <- app_assoc. cbn [repeat map app].
      apply set_nth_app_at. rewrite map_length, seq_length. reflexivity. }
    specialize (H (nb m) (Nat.le_refl _)). unfold nb in H at 2. rewrite firstn_all in H.
    fold (nb m). rewrite H, Nat.sub_diag. cbn [repeat]. rewrite app_nil_r. reflexivity.
  Qed.

  Lemma inverse_ok c : length c = nb m ->
    mesh_inverse m c = Ok (map (field m c) (seq 0 (nv m))).
  Proof.
    intros Hc. unfold mesh_inverse. rewrite broadcast_same by (fold (nb m); lia). cbn [rbind].
    rewrite (map_combine_seq (fun c row => map (Rmult c) row) 0%R [] c (m_basis m) (nb m) Hc eq_refl).
    f_equal. apply map_ext_in. intros v Hv. apply in_seq in Hv. rewrite map_map, rlsum_map_seq.
    apply rsum_ext. intros i Hi. cbn beta.
    assert (Hl : v < length (nth i (m_basis m) [])) by (rewrite row_length by exact Hi; unfold nv in *; lia).
    rewrite (nth_indep _ 0%R (nth i c 0 * 0)%R) by (rewrite map_length; exact Hl).
    rewrite map_nth. reflexivity.
  Qed.

  Lemma field_coefficient c i : orthonormal_basis m -> i < nb m -> rip (nv m) (field m c) (phi m i) = val c i.
  Proof. intros H Hi. exact (rip_comb (nv m) (nb m) (phi m) H (val c) i Hi). Qed.

  Lemma field_product c c' : orthonormal_basis m ->
    rip (nv m) (field m c) (field m c') = rip (nb m) (val c) (val c').
  Proof. intros H. exact (rip_comb2 (nv m) (nb m) (phi m) H (val c) (val c')). Qed.

  Lemma forward_inverse c : orthonormal_basis m -> length c = nb m ->
    mesh_forward m (map (field m c) (seq 0 (nv m))) = Ok c.
  Proof.
    intros H Hc. rewrite forward_ok by (rewrite map_length, seq_length; reflexivity). f_equal.
    transitivity (map (val c) (seq 0 (nb m))); [|symmetry; apply list_val; exact Hc]. apply map_ext_in. intros i Hi. apply in_seq in Hi.
    rewrite (rip_ext (nv m) _ (field m c) _ (phi m i)) by (intros; try reflexivity; apply val_map_seq; assumption).
    apply field_coefficient; [exact H|lia].
  Qed.

  (** The sum over the region of two fields. *)
  Lemma masked_fields c c' :
    rmask (inside m) (nv m) (field m c) (field m c')
    = rsum (nb m) (fun a => val c a * rsum (nb m) (fun b => conc m a b * val c' b))%R.
  Proof.
    unfold rmask.
    transitivity (rsum (nv m) (fun v => rsum (nb m) (fun a => rsum (nb m) (fun b =>
       val c a * (val c' b * (if inside m v then phi m a v * phi m b v else 0))))))%R.
    - apply rsum_ext. intros v _. destruct (inside m v).
      + unfold field. rewrite rsum_mult. apply rsum_ext. intros a _. apply rsum_ext. intros b _. ring.
      + symmetry. apply rsum_zero. intros a _. apply rsum_zero. intros b _. ring.
    - rewrite rsum_swap. apply rsum_ext. intros a _. rewrite rsum_swap, <- rsum_scal_l.
      apply rsum_ext. intros b _. rewrite rsum_scal_l. rewrite rsum_scal_l. unfold conc, rmask. ring.
  Qed.

  Lemma masked_ok c : orthonormal_basis m -> length c = nb m ->
    ensure_masked_bandlimit_mesh_signal m c
    = Ok (map (fun a => rsum (nb m) (fun b => conc m a b * val c b)%R) (seq 0 (nb m))).
  Proof.
    intros H Hc. unfold ensure_masked_bandlimit_mesh_signal. rewrite inverse_ok by exact Hc. cbn [rbind].
    rewrite (map_combine_mask (m_region m) _ _ 0%R (nv m)); [|apply wf|rewrite map_length, seq_length; reflexivity].
    cbn [rbind]. rewrite forward_ok by (rewrite map_length, seq_length; reflexivity). f_equal.
    apply map_ext_in. intros a Ha. unfold rip.
    transitivity (rsum (nv m) (fun v => rsum (nb m) (fun b => (if inside m v then phi m a v * phi m b v else 0) * val c b)%R)).
    - apply rsum_ext. intros v Hv. rewrite val_map_seq by exact Hv. fold (inside m v).
      rewrite nth_map_seq by exact Hv. destruct (inside m v).
      + unfold field. rewrite <- rsum_scal_r. apply rsum_ext. intros. ring.
      + rewrite rsum_zero by (intros; ring). ring.
    - rewrite rsum_swap. apply rsum_ext. intros b _. rewrite rsum_scal_r. reflexivity.
  Qed.
End Mesh.

Section Slepian.
  Variable s : mesh_slepian.
  Let m := ms_mesh s.
  Hypothesis ok : slepian_functions_ok s.

  Lemma sl_wf : well_formed m. Proof. apply ok. Qed.
  Lemma sl_ob : orthonormal_basis m. Proof. apply ok. Qed.
  Lemma sl_number : m_number m = Z.of_nat (nb m). Proof. apply sl_wf. Qed.
  Lemma sfun_length p : p < length (ms_functions s) -> length (sfun s p) = nb m.
  Proof. intros H. apply ok. apply nth_In. exact H. Qed.

  Lemma py_index_nat {A} (l : list A) p d : p < length l -> py_index l (Z.of_nat p) = Ok (nth p l d).
  Proof.
    intros H. unfold py_index. destruct (Z.leb_spec 0 (Z.of_nat p)); [|lia].
    destruct (Z.ltb_spec (Z.of_nat p) 0); [lia|]. rewrite Nat2Z.id, (nth_error_nth' _ d) by exact H. reflexivity.
  Qed.

  Lemma py_index_out {A} (l : list A) p : (Z.of_nat (length l) <= p)%Z -> py_index l p = Err IndexError.
  Proof.
    intros H. unfold py_index. destruct (Z.leb_spec 0 p); [|lia].
    destruct (Z.ltb_spec p 0); [lia|]. rewrite (proj2 (nth_error_None l (Z.to_nat p))) by lia. reflexivity.
  Qed.

  Lemma rank_ok p : p < nb m -> mesh_validate_rank s (Z.of_nat p) = Ok tt.
  Proof.
    intros H. unfold mesh_validate_rank. fold m. rewrite sl_number.
    destruct (Z.ltb_spec (Z.of_nat p) 0); [lia|]. destruct (Z.leb_spec (Z.of_nat (nb m)) (Z.of_nat p)); [lia|reflexivity].
  Qed.

  Lemma fun_rank p : p < length (ms_functions s) -> p < nb m.
  Proof. intros H. destruct ok as (_ & _ & _ & _ & Hl & _). unfold m. lia. Qed.

  (** What each method computes. *)
  Lemma harmonic_ok g u_i p : mg_u_i g = Some u_i -> length u_i = nb m -> p < length (ms_functions s) ->
    mesh_decompose s g Harmonic_sum (Z.of_nat p) = Ok (rip (nb m) (val u_i) (val (sfun s p))).
  Proof.
    intros Hg Hl Hp. unfold mesh_decompose. rewrite rank_ok by (apply fun_rank; exact Hp). cbn [rbind].
    rewrite Hg. cbn [the_array rbind]. rewrite (py_index_nat _ p []) by exact Hp. cbn [rbind].
    apply whole_ok; [exact Hl|]. apply sfun_length, Hp.
  Qed.

  Lemma sphere_ok g u p : mg_u g = Some u -> length u = nv m -> p < length (ms_functions s) ->
    mesh_decompose s g Integrate_sphere (Z.of_nat p) = Ok (rip (nv m) (val u) (slep s p)).
  Proof.
    intros Hg Hl Hp. unfold mesh_decompose. rewrite rank_ok by (apply fun_rank; exact Hp). cbn [rbind].
    rewrite (py_index_nat _ p []) by exact Hp. cbn [rbind]. fold m.
    rewrite (inverse_ok m sl_wf) by (apply sfun_length; exact Hp). cbn [rbind]. rewrite Hg. cbn [the_array rbind].
    rewrite (whole_ok _ _ (nv m)) by (rewrite ?map_length, ?seq_length; auto). f_equal.
    apply rip_ext; intros v Hv; [reflexivity|]. rewrite val_map_seq by exact Hv. reflexivity.
  Qed.

  Lemma region_method_ok g u p : mg_u g = Some u -> length u = nv m -> p < length (ms_functions s) ->
    mesh_decompose s g Integrate_region (Z.of_nat p)
    = Ok (rmask (inside m) (nv m) (val u) (slep s p) / val (ms_evals s) p)%R.
  Proof.
    intros Hg Hl Hp. unfold mesh_decompose. rewrite rank_ok by (apply fun_rank; exact Hp). cbn [rbind].
    rewrite (py_index_nat _ p []) by exact Hp. cbn [rbind]. fold m.
    rewrite (inverse_ok m sl_wf) by (apply sfun_length; exact Hp). cbn [rbind]. rewrite Hg. cbn [the_array rbind].
    rewrite (region_ok _ _ _ (nv m)); [|apply sl_wf|exact Hl|rewrite map_length, seq_length; reflexivity]. cbn [rbind].
    rewrite (py_index_nat _ p 0%R).
    - cbn [rbind]. f_equal. unfold val at 3. f_equal. apply rsum_ext. intros v Hv.
      rewrite val_map_seq by exact Hv. reflexivity.
    - destruct ok as (_ & _ & _ & _ & _ & He & _). rewrite He. apply fun_rank, Hp.
  Qed.

  Lemma decompose_all_ok g mth n h : n <= length (ms_functions s) ->
    (forall p, p < n -> mesh_decompose s g mth (Z.of_nat p) = Ok (h p)) ->
    mesh_decompose_all s g mth (Z.of_nat n) = Ok (map h (seq 0 n)).
  Proof.
    intros Hn H. unfold mesh_decompose_all. destruct (Z.ltb_spec (Z.of_nat n) 0); [lia|]. rewrite Nat2Z.id.
    apply rmap_ok. intros p Hp. apply in_seq in Hp. apply H. lia.
  Qed.

  Lemma slep_product p q : p < length (ms_functions s) -> q < length (ms_functions s) ->
    rip (nv m) (slep s p) (slep s q) = if p =? q then 1%R else 0%R.
  Proof.
    intros Hp Hq. unfold slep. fold m. rewrite field_product by apply sl_ob. apply ok; assumption.
  Qed.

  Lemma field_slep c p : rip (nv m) (field m c) (slep s p) = rip (nb m) (val c) (val (sfun s p)).
  Proof. apply field_product, sl_ob. Qed.

  Lemma region_slep c p : slepian_eigen s -> p < length (ms_functions s) ->
    rmask (inside m) (nv m) (field m c) (slep s p) = (val (ms_evals s) p * rip (nb m) (val c) (val (sfun s p)))%R.
  Proof.
    intros HE Hp. unfold slep. fold m. rewrite masked_fields. unfold rip. rewrite <- rsum_scal_l.
    apply rsum_ext. intros a Ha. unfold m in *. rewrite (HE p a Hp Ha). ring.
  Qed.

  Lemma N_nat : Z.of_nat (ns s) = ms_N s.
  Proof. destruct ok as (_ & _ & H & _). unfold ns. lia. Qed.
  Lemma N_fun : ns s <= length (ms_functions s).
  Proof. apply ok. Qed.

  Lemma pixel_ok : compute_mesh_s_p_pixel s = Ok (map (fun p => map (slep s p) (seq 0 (nv m))) (seq 0 (ns s))).
  Proof.
    unfold compute_mesh_s_p_pixel. pose proof N_nat. pose proof N_fun. destruct (Z.ltb_spec (ms_N s) 0); [lia|].
    apply rmap_ok. intros p Hp. apply in_seq in Hp. unfold np_get.
    rewrite (nth_error_nth' _ []) by (unfold ns in *; lia). cbn [rbind]. fold m.
    rewrite (inverse_ok m sl_wf); [reflexivity|]. apply sfun_length. unfold ns in *. lia.
  Qed.

  (** The field of Slepian coefficients. *)
  Definition sfield (f_p : list R) (v : nat) : R := rsum (ns s) (fun p => val f_p p * slep s p v)%R.

  Lemma slepian_inverse_mesh_ok f_p : ns s <= length f_p ->
    slepian_mesh_inverse s f_p = Ok (map (sfield f_p) (seq 0 (nv m))).
  Proof.
    intros Hf. unfold slepian_mesh_inverse. rewrite py_prefix_nat by (rewrite <- N_nat; lia).
    fold (ns s). rewrite pixel_ok. cbn [rbind].
    rewrite broadcast_same by (rewrite firstn_length, map_length, seq_length; lia). cbn [rbind].
    rewrite (map_combine_seq (fun c row => map (Rmult c) row) 0%R [] _ _ (ns s))
      by (rewrite ?firstn_length, ?map_length, ?seq_length; lia).
    f_equal. apply map_ext_in. intros v Hv. apply in_seq in Hv. rewrite map_map, rlsum_map_seq.
    apply rsum_ext. intros p Hp. cbn beta. rewrite nth_map_seq by exact Hp.
    rewrite map_map, nth_map_seq by (unfold m, nv in *; lia). f_equal. unfold val.
    rewrite <- (firstn_skipn (ns s) f_p) at 2. rewrite app_nth1 by (rewrite firstn_length; lia). reflexivity.
  Qed.

  Lemma sfield_coefficient f_p p : p < ns s -> rip (nv m) (sfield f_p) (slep s p) = val f_p p.
  Proof.
    intros Hp. pose proof N_fun. apply (rip_comb (nv m) (ns s) (slep s)); [|exact Hp].
    intros. apply slep_product; lia.
  Qed.

  Lemma sfield_product f_p g_p : rip (nv m) (sfield f_p) (sfield g_p) = rip (ns s) (val f_p) (val g_p).
  Proof.
    pose proof N_fun. apply (rip_comb2 (nv m) (ns s) (slep s)). intros. apply slep_product; lia.
  Qed.
End Slepian.
