From Coq Require Import List ZArith Arith Bool Reals Lra Lia.
From Coquelicot Require Import Complex.
From Verif Require Import Base ListLemmas RSum CSum Numpy Eigen SpecEigen EigenProofs EarthProofs Integration
  Quadrature Noise NoiseProofs SpecField Convolution ConvolutionProofs Transform SpecTransform OrthoProofs.
Import ListNotations.
Local Open Scope nat_scope.

Lemma list_eq_map (l : list C) n (h : nat -> C) : length l = n ->
  (forall i, i < n -> nthC l i = h i) -> l = map h (seq 0 n).
Proof.
  intros Hl H. apply (nth_ext _ _ (RtoC 0) (RtoC 0)); [rewrite map_length, seq_length; exact Hl|].
  intros i Hi. rewrite nth_map_seq by lia. apply H. lia.
Qed.

Lemma evec_nth_error s p : p < length (s_evecs s) -> nth_error (s_evecs s) p = Some (evec s p).
Proof. intros. apply nth_error_nth'. assumption. Qed.

Lemma np_get_evec s p : p < length (s_evecs s) -> np_get (s_evecs s) p = Ok (evec s p).
Proof. intros H. unfold np_get. rewrite evec_nth_error by exact H. reflexivity. Qed.

Lemma evec_length L s p : slepian_basis L s -> p < length (s_evecs s) -> length (evec s p) = L * L.
Proof. intros (_ & _ & _ & Hl & _) Hp. apply Hl. apply nth_In. exact Hp. Qed.

Lemma basis_ortho L s : slepian_basis L s -> forall p q, p < length (s_evecs s) -> q < length (s_evecs s) ->
  ip (L * L) (fun j => nthC (evec s p) j) (fun j => nthC (evec s q) j) = if Nat.eqb p q then RtoC 1 else RtoC 0.
Proof.
  intros (_ & _ & _ & _ & Ho) p q Hp Hq.
  apply (Ho p q); apply evec_nth_error; assumption.
Qed.

Section Transforms.
  Variable inverse forward : nat -> list C -> list C.

  Lemma s_p_omega_ok L s : slepian_basis L s ->
    compute_s_p_omega inverse L s = Ok (map (fun p => inverse L (evec s p)) (seq 0 (Nn s))).
  Proof.
    intros (HN & Hn & _). unfold compute_s_p_omega. destruct (Z.ltb_spec (s_N s) 0); [lia|].
    apply rmap_ok. intros p Hp. apply in_seq in Hp. rewrite np_get_evec by (unfold Nn in *; lia). reflexivity.
  Qed.

  Lemma sum_axis0_map width n (h : nat -> nat -> C) :
    sum_axis0 width (map (fun p => map (h p) (seq 0 width)) (seq 0 n))
    = map (fun k => csum n (fun p => h p k)) (seq 0 width).
  Proof.
    unfold sum_axis0. apply map_ext_in. intros k Hk. apply in_seq in Hk.
    rewrite map_map. rewrite (clsum_map_ext _ (fun p => h p k)).
    - apply clsum_map_seq.
    - intros p _. apply nth_map_seq. lia.
  Qed.

  Lemma py_prefix_nat {A} (z : Z) (l : list A) : (0 <= z)%Z -> py_prefix z l = firstn (Z.to_nat z) l.
  Proof.
    intros H. unfold py_prefix. destruct (Z.leb_spec 0 z); [reflexivity|lia].
  Qed.

  (** The inverse transform is the harmonic synthesis of the combination of
      eigenvectors. *)
  Definition expand (L : nat) (s : slepian) (f_p : list C) : list C :=
    map (fun i => csum (Nn s) (fun p => Cmult (nthC f_p p) (nthC (evec s p) i))) (seq 0 (L * L)).

  Lemma expand_length L s f_p : length (expand L s f_p) = L * L.
  Proof. unfold expand. rewrite map_length, seq_length. reflexivity. Qed.

  Lemma slepian_inverse_ok L Y s f_p : synthesis L Y inverse -> slepian_basis L s ->
    Nn s <= length f_p ->
    slepian_inverse inverse f_p L s = Ok (inverse L (expand L s f_p)).
  Proof.
    intros HY HB Hf. unfold slepian_inverse. rewrite (s_p_omega_ok L s HB). cbn [rbind].
    pose proof HB as (HN & Hn & _).
    rewrite py_prefix_nat by exact HN. fold (Nn s).
    rewrite broadcast_same by (rewrite firstn_length, map_length, seq_length; lia).
    cbn [rbind]. f_equal. rewrite (HY _ (expand_length L s f_p)).
    transitivity (sum_axis0 (samples L) (map (fun p => map (fun k =>
       Cmult (nthC f_p p) (csum (L * L) (fun i => Cmult (nthC (evec s p) i) (Y i k)))) (seq 0 (samples L))) (seq 0 (Nn s)))).
    - f_equal. apply (nth_ext _ _ [] []).
      + rewrite !map_length, combine_length, firstn_length, map_length, !seq_length. lia.
      + intros p Hp. rewrite map_length, combine_length, firstn_length, map_length, seq_length in Hp.
        assert (Hp' : p < Nn s) by lia.
        rewrite (nth_map_seq (fun p => map _ (seq 0 (samples L)))) by exact Hp'.
        apply nth_error_nth. rewrite nth_error_map.
        rewrite (nth_error_nth' _ (RtoC 0, [])) by (rewrite combine_length, firstn_length, map_length, seq_length; lia).
        rewrite combine_nth by (rewrite firstn_length, map_length, seq_length; lia).
        rewrite nth_firstn_lt by exact Hp'. rewrite nth_map_seq by exact Hp'.
        cbn [option_map fst snd]. f_equal. rewrite HY by (apply evec_length; [exact HB|unfold Nn in *; lia]).
        rewrite map_map. reflexivity.
    - rewrite sum_axis0_map. apply map_ext. intros k.
      rewrite (csum_ext (L * L) _ (fun i => csum (Nn s) (fun p => Cmult (nthC f_p p) (Cmult (nthC (evec s p) i) (Y i k))))).
      + rewrite csum_swap. apply csum_ext. intros p _. rewrite csum_scal_l. reflexivity.
      + intros i Hi. unfold expand. rewrite nth_map_seq by exact Hi.
        rewrite <- csum_scal_r. apply csum_ext. intros. ring.
  Qed.

  (** The harmonic sum is the inner product with the eigenvector. *)
  Lemma harmonic_sum_ok L s flm p : slepian_basis L s -> length flm = L * L -> p < length (s_evecs s) ->
    harmonic_sum s flm p = Ok (cdot (L * L) flm (evec s p)).
  Proof.
    intros HB Hf Hp. unfold harmonic_sum. rewrite np_get_evec by exact Hp. cbn [rbind].
    pose proof (evec_length L s p HB Hp) as He.
    rewrite broadcast_same by (rewrite map_length; congruence). cbn [rbind]. f_equal.
    change (map (fun q => Cmult (fst q) (snd q)) (combine flm (map Cconj (evec s p)))) with (zip Cmult flm (map Cconj (evec s p))).
    rewrite clsum_nth, zip_length, map_length, Hf, He, Nat.min_id. unfold cdot. apply csum_ext. intros i Hi.
    rewrite nth_zip by (rewrite ?map_length; congruence || lia). rewrite nth_map_C by apply Cconj_R. reflexivity.
  Qed.

  Lemma validate_ok L p : p < L * L -> validate_rank L (Z.of_nat p) = Ok tt.
  Proof.
    intros H. unfold validate_rank. destruct (Z.ltb_spec (Z.of_nat p) 0); [lia|].
    destruct (Z.leb_spec (Z.of_nat (L * L)) (Z.of_nat p)); [lia|reflexivity].
  Qed.

  Definition count (s : slepian) (n_coeffs : option nat) : nat :=
    match n_coeffs with None => Nn s | Some n => n end.

  Lemma forward_flm_ok L s flm f mask n : slepian_basis L s -> length flm = L * L ->
    count s n <= length (s_evecs s) ->
    slepian_forward inverse L s {| sg_f := f; sg_flm := Some flm; sg_mask := mask |} (option_map Z.of_nat n)
    = Ok (map (fun p => cdot (L * L) flm (evec s p)) (seq 0 (count s n))).
  Proof.
    intros HB Hf Hn. unfold slepian_forward. cbn [detect_method sg_flm rbind]. unfold decompose_all.
    pose proof HB as (HN & _ & Hle & _).
    assert (Ec : Z.to_nat match option_map Z.of_nat n with None => s_N s | Some n0 => n0 end = count s n).
    { destruct n; cbn [option_map count]; [apply Nat2Z.id|reflexivity]. }
    destruct (Z.ltb_spec match option_map Z.of_nat n with None => s_N s | Some n0 => n0 end 0) as [H|H].
    { destruct n; cbn [option_map] in H; lia. }
    rewrite Ec. apply rmap_ok. intros p Hp. apply in_seq in Hp.
    unfold decompose. rewrite validate_ok by lia. cbn [rbind sg_flm]. rewrite Nat2Z.id.
    apply harmonic_sum_ok; [assumption..|lia].
  Qed.

  (** Forward after inverse. *)
  Lemma round_trip L Y s f_p : synthesis L Y inverse -> sampling_theorem L inverse forward ->
    slepian_basis L s -> Nn s <= length f_p ->
    exists f, slepian_inverse inverse f_p L s = Ok f /\
      slepian_forward inverse L s (of_flm (forward L f)) None = Ok (firstn (Nn s) f_p).
  Proof.
    intros HY HF HB Hf. exists (inverse L (expand L s f_p)).
    split; [exact (slepian_inverse_ok L Y s f_p HY HB Hf)|].
    rewrite HF by apply expand_length. unfold of_flm.
    pose proof HB as (HN & Hn & _).
    change (@None Z) with (option_map Z.of_nat None).
    rewrite forward_flm_ok; [|exact HB|apply expand_length|exact Hn].
    f_equal. symmetry. apply list_eq_map; [rewrite firstn_length; cbn [count]; lia|].
    intros p Hp. cbn [count] in Hp. rewrite nth_firstn_lt by exact Hp.
    change (cdot (L * L) (expand L s f_p) (evec s p))
      with (ip (L * L) (fun j => nthC (expand L s f_p) j) (fun j => nthC (evec s p) j)).
    rewrite (ip_ext _ _ (fun j => csum (Nn s) (fun q => Cmult (nthC f_p q) (nthC (evec s q) j))) _ (fun j => nthC (evec s p) j)).
    - symmetry. apply (ip_comb (L * L) (Nn s) (fun q j => nthC (evec s q) j)); [|exact Hp].
      intros a b Ha Hb. apply (basis_ortho L s HB); unfold Nn in *; lia.
    - intros j Hj. unfold expand. rewrite nth_map_seq by exact Hj. reflexivity.
    - reflexivity.
  Qed.

  Lemma power_nrm2 (l : list C) n : length l = n -> power l = nrm2 n (fun j => nthC l j).
  Proof. intros <-. reflexivity. Qed.

  Lemma forward_bessel L s flm n out : slepian_basis L s -> length flm = L * L ->
    count s n <= length (s_evecs s) ->
    slepian_forward inverse L s (of_flm flm) (option_map Z.of_nat n) = Ok out ->
    (power out <= power flm)%R /\ (count s n = L * L -> power out = power flm).
  Proof.
    intros HB Hf Hn E. unfold of_flm in E. rewrite forward_flm_ok in E by assumption. injection E as <-.
    rewrite (power_nrm2 flm (L * L) Hf).
    rewrite (power_nrm2 _ (count s n)) by (rewrite map_length, seq_length; reflexivity).
    assert (E : nrm2 (count s n) (fun j => nthC (map (fun p => cdot (L * L) flm (evec s p)) (seq 0 (count s n))) j)
      = nrm2 (count s n) (fun p => ip (L * L) (fun j => nthC flm j) (fun j => nthC (evec s p) j))).
    { unfold nrm2. apply rsum_ext. intros j Hj. rewrite nth_map_seq by exact Hj. reflexivity. }
    rewrite E. split.
    - apply (bessel (L * L) (count s n) (fun p j => nthC (evec s p) j)).
      intros; apply (basis_ortho L s HB); lia.
    - intros Hc. rewrite Hc in *. apply (parseval (L * L) (fun p j => nthC (evec s p) j)).
      intros; apply (basis_ortho L s HB); lia.
  Qed.

  (** Inverse after forward with all functions. *)
  Lemma full_reconstruction L Y s flm : synthesis L Y inverse -> slepian_basis L s ->
    s_N s = Z.of_nat (L * L) -> length flm = L * L ->
    exists f_p, slepian_forward inverse L s (of_flm flm) None = Ok f_p /\
      slepian_inverse inverse f_p L s = Ok (inverse L flm).
  Proof.
    intros HY HB HN Hf. pose proof HB as (_ & Hn & _).
    assert (EN : Nn s = L * L) by (unfold Nn; rewrite HN; apply Nat2Z.id).
    eexists. split.
    - change (@None Z) with (option_map Z.of_nat None). unfold of_flm. apply forward_flm_ok; assumption.
    - cbn [count]. rewrite (slepian_inverse_ok L Y s _ HY HB) by (rewrite map_length, seq_length; lia).
      do 2 f_equal. symmetry. apply list_eq_map; [exact Hf|]. intros i Hi.
      symmetry. rewrite EN.
      rewrite (csum_ext _ _ (fun p => Cmult (ip (L * L) (fun j => nthC flm j) (fun j => nthC (evec s p) j)) (nthC (evec s p) i))).
      + apply (reconstruct (L * L) (fun p j => nthC (evec s p) j)); [|exact Hi].
        intros; apply (basis_ortho L s HB); unfold Nn in *; lia.
      + intros p Hp. rewrite nth_map_seq by exact Hp. reflexivity.
  Qed.
End Transforms.

Lemma rmap_err {A B} (f : A -> res B) l1 x l2 e :
  (forall y, In y l1 -> exists b, f y = Ok b) -> f x = Err e -> rmap f (l1 ++ x :: l2) = Err e.
Proof.
  induction l1 as [|y l1 IH]; intros H Hx; cbn [app rmap].
  - rewrite Hx. reflexivity.
  - destruct (H y (or_introl eq_refl)) as [b ->]. cbn [rbind].
    rewrite IH by (assumption || (intros; apply H; right; assumption)). reflexivity.
Qed.

Lemma rmap_length {A B} (f : A -> res B) l out : rmap f l = Ok out -> length out = length l.
Proof.
  revert out. induction l as [|x l IH]; intros out E; cbn [rmap] in E; [injection E as <-; reflexivity|].
  destruct (f x); [|discriminate]. cbn [rbind] in E. destruct (rmap f l) as [ys|] eqn:El; [|discriminate].
  cbn [rbind] in E. injection E as <-. cbn [length]. rewrite (IH ys eq_refl). reflexivity.
Qed.

Lemma rmap_in {A B} (f : A -> res B) l out x : rmap f l = Ok out -> In x l -> exists y, f x = Ok y.
Proof.
  revert out. induction l as [|a l IH]; intros out E Hx; [contradiction|]. cbn [rmap] in E.
  destruct (f a) as [y|] eqn:Ea; [|discriminate]. cbn [rbind] in E.
  destruct (rmap f l) as [ys|] eqn:El; [|discriminate].
  destruct Hx as [->|Hx]; [exists y; exact Ea|]. exact (IH ys eq_refl Hx).
Qed.

Lemma seq_split n m : n < m -> seq 0 m = seq 0 n ++ n :: seq (S n) (m - S n).
Proof.
  intros H. replace m with (n + S (m - S n)) at 1 by lia. rewrite seq_app. reflexivity.
Qed.

Section Decompositions.
  Variable inverse forward : nat -> list C -> list C.

  Lemma np_get_evals (l : list R) p : p < length l -> np_get l p = Ok (nth p l 0%R).
  Proof. intros H. unfold np_get. rewrite (nth_error_nth' _ 0%R) by exact H. reflexivity. Qed.

  Lemma detect_decompose L s g m p : slepian_basis L s -> length (s_evals s) = length (s_evecs s) ->
    shaped L g -> detect_method g = Ok m -> p < length (s_evecs s) ->
    decompose inverse L s g m (Z.of_nat p) = Ok (entry inverse L s g p).
  Proof.
    intros HB He (S1 & S2 & S3) Hm Hp. pose proof HB as (_ & _ & Hle & _).
    unfold decompose. rewrite validate_ok by lia. cbn [rbind]. rewrite Nat2Z.id.
    unfold detect_method in Hm. unfold entry.
    destruct (sg_flm g) as [flm|] eqn:E1.
    { injection Hm as <-. rewrite (harmonic_sum_ok L) by (auto; lia). reflexivity. }
    destruct (sg_f g) as [f|] eqn:E2; [|discriminate].
    assert (Ec : forall k, nth k (map Cconj (inverse L (evec s p))) (RtoC 0) = Cconj (nthC (inverse L (evec s p)) k)).
    { intros k. apply nth_map_C, Cconj_R. }
    destruct (sg_mask g) as [mask|] eqn:E3; injection Hm as <-.
    - unfold integrate_region. rewrite np_get_evec by exact Hp. cbn [rbind]. unfold on_grid.
      rewrite (S2 f eq_refl), (S3 mask eq_refl), Nat.eqb_refl. cbn [rbind].
      rewrite np_get_evals by lia. cbn [rbind]. do 2 f_equal.
      unfold integrate_region_sphere, multiply_args. cbn [fold_left]. apply csum_ext. intros k _. rewrite Ec. reflexivity.
    - unfold integrate_sphere. rewrite np_get_evec by exact Hp. cbn [rbind]. unfold on_grid.
      rewrite (S2 f eq_refl), Nat.eqb_refl. cbn [rbind]. f_equal.
      unfold integrate_whole_sphere, multiply_args. cbn [fold_left]. apply csum_ext. intros k _. rewrite Ec. reflexivity.
  Qed.

  Lemma detect_given g : given g -> exists m, detect_method g = Ok m.
  Proof.
    unfold given, detect_method. intros [H|H]; destruct (sg_flm g), (sg_f g), (sg_mask g);
      try (eexists; reflexivity); congruence.
  Qed.

  Lemma decompose_range L s g m rank : (rank < 0 \/ Z.of_nat (L * L) <= rank)%Z ->
    decompose inverse L s g m rank = Err ValueError.
  Proof.
    intros H. unfold decompose, validate_rank. destruct (Z.ltb_spec rank 0); [reflexivity|].
    destruct (Z.leb_spec (Z.of_nat (L * L)) rank); [reflexivity|lia].
  Qed.

  Lemma decompose_missing L s g m rank : detect_method g = Ok m -> (0 <= rank < Z.of_nat (L * L))%Z ->
    length (s_evecs s) <= Z.to_nat rank -> decompose inverse L s g m rank = Err IndexError.
  Proof.
    intros Hm Hr Hl. unfold decompose, validate_rank. destruct (Z.ltb_spec rank 0); [lia|].
    destruct (Z.leb_spec (Z.of_nat (L * L)) rank); [lia|]. cbn [rbind].
    assert (G : np_get (s_evecs s) (Z.to_nat rank) = Err IndexError).
    { unfold np_get. rewrite (proj2 (nth_error_None _ _) Hl). reflexivity. }
    unfold detect_method in Hm.
    destruct (sg_flm g), (sg_f g), (sg_mask g); try discriminate; injection Hm as <-;
      unfold harmonic_sum, integrate_sphere, integrate_region; rewrite G; reflexivity.
  Qed.

  Lemma forward_ok L s g n : slepian_basis L s -> length (s_evals s) = length (s_evecs s) ->
    shaped L g -> given g -> count s n <= length (s_evecs s) ->
    slepian_forward inverse L s g (option_map Z.of_nat n) = Ok (map (entry inverse L s g) (seq 0 (count s n))).
  Proof.
    intros HB He Hs Hg Hn. destruct (detect_given g Hg) as [m Hm].
    unfold slepian_forward. rewrite Hm. cbn [rbind]. unfold decompose_all.
    pose proof HB as (HN & _ & Hle & _).
    assert (Ec : Z.to_nat match option_map Z.of_nat n with None => s_N s | Some n0 => n0 end = count s n).
    { destruct n; cbn [option_map count]; [apply Nat2Z.id|reflexivity]. }
    destruct (Z.ltb_spec match option_map Z.of_nat n with None => s_N s | Some n0 => n0 end 0) as [H|H].
    { destruct n; cbn [option_map] in H; lia. }
    rewrite Ec. apply rmap_ok. intros p Hp. apply in_seq in Hp.
    apply detect_decompose; try assumption. lia.
  Qed.

  Lemma forward_too_many L s g n : slepian_basis L s -> length (s_evals s) = length (s_evecs s) ->
    shaped L g -> given g -> length (s_evecs s) < n ->
    slepian_forward inverse L s g (Some (Z.of_nat n))
    = Err (if length (s_evecs s) <? L * L then IndexError else ValueError).
  Proof.
    intros HB He Hs Hg Hn. destruct (detect_given g Hg) as [m Hm].
    unfold slepian_forward. rewrite Hm. cbn [rbind]. unfold decompose_all.
    destruct (Z.ltb_spec (Z.of_nat n) 0); [lia|]. rewrite Nat2Z.id.
    rewrite (seq_split (length (s_evecs s)) n Hn). apply rmap_err.
    - intros p Hp. apply in_seq in Hp. eexists. apply detect_decompose; try assumption. lia.
    - pose proof HB as (_ & _ & Hle & _). destruct (Nat.ltb_spec (length (s_evecs s)) (L * L)).
      + apply decompose_missing; [exact Hm|lia|lia].
      + apply decompose_range. lia.
  Qed.

  Lemma overlap_conj L Y mask i j : Cconj (overlap L Y mask i j) = overlap L Y mask j i.
  Proof.
    unfold overlap. rewrite csum_conj. apply csum_ext. intros k _.
    rewrite !Cconj_mult, Cconj_conj, !Cconj_R. ring.
  Qed.

  (** A double expansion under a weighted sum. *)
  Lemma weighted_double n m (a b : nat -> C) (Y : nat -> nat -> C) (w : nat -> C) :
    csum m (fun k => Cmult (Cmult (csum n (fun i => Cmult (a i) (Y i k)))
                                  (Cconj (csum n (fun j => Cmult (b j) (Y j k))))) (w k))
    = csum n (fun i => Cmult (a i) (csum n (fun j => Cmult (Cconj (b j))
        (csum m (fun k => Cmult (Cmult (Y i k) (Cconj (Y j k))) (w k)))))).
  Proof.
    rewrite (csum_ext m _ (fun k => csum n (fun i => csum n (fun j =>
       Cmult (a i) (Cmult (Cconj (b j)) (Cmult (Cmult (Y i k) (Cconj (Y j k))) (w k))))))).
    - rewrite csum_swap. apply csum_ext. intros i _. rewrite csum_swap.
      rewrite <- csum_scal_l. apply csum_ext. intros j _. rewrite !csum_scal_l. reflexivity.
    - intros k _. rewrite csum_conj. rewrite <- !csum_scal_r. apply csum_ext. intros i _.
      rewrite <- csum_scal_l, <- csum_scal_r. apply csum_ext. intros j _. rewrite Cconj_mult. ring.
  Qed.

  Lemma region_entry L Y s flm mask p lam : synthesis L Y inverse -> slepian_basis L s ->
    length flm = L * L -> length mask = samples L -> p < length (s_evecs s) ->
    nth p (s_evals s) 0%R = lam -> lam <> 0%R ->
    (forall r, r < L * L -> csum (L * L) (fun j => Cmult (nthC (evec s p) j) (overlap L Y mask j r))
                            = Cmult (RtoC lam) (nthC (evec s p) r)) ->
    entry inverse L s {| sg_f := Some (inverse L flm); sg_flm := None; sg_mask := Some mask |} p
    = csum (L * L) (fun i => Cmult (nthC flm i) (Cconj (nthC (evec s p) i))).
  Proof.
    intros HY HB Hf Hm Hp Hlam Hl Heig. unfold entry. cbn [sg_flm sg_f sg_mask]. rewrite Hlam.
    rewrite (csum_ext (samples L) _ (fun k => Cmult (Cmult (csum (L * L) (fun i => Cmult (nthC flm i) (Y i k)))
        (Cconj (csum (L * L) (fun i => Cmult (nthC (evec s p) i) (Y i k)))))
        (Cmult (RtoC (flat_weight L k)) (RtoC (nth k mask 0%R))))).
    - rewrite weighted_double.
      rewrite (csum_ext (L * L) _ (fun i => Cmult (Cmult (nthC flm i) (Cconj (nthC (evec s p) i))) (RtoC lam))).
      + rewrite csum_scal_r. field. intros E. apply Hl. apply RtoC_inj. exact E.
      + intros i Hi.
        assert (X : csum (L * L) (fun j => Cmult (Cconj (nthC (evec s p) j)) (csum (samples L) (fun k =>
            Cmult (Cmult (Y i k) (Cconj (Y j k))) (Cmult (RtoC (flat_weight L k)) (RtoC (nth k mask 0%R))))))
          = Cconj (csum (L * L) (fun j => Cmult (nthC (evec s p) j) (overlap L Y mask j i)))).
        { rewrite csum_conj. apply csum_ext. intros j _. rewrite Cconj_mult, overlap_conj. unfold overlap.
          f_equal. apply csum_ext. intros. ring. }
        rewrite X, Heig by exact Hi. rewrite Cconj_mult, Cconj_R. ring.
    - intros k Hk. rewrite (HY flm Hf), (HY (evec s p)) by (apply (evec_length L s p HB Hp)).
      rewrite !nth_map_seq by exact Hk. ring.
  Qed.

  Lemma sphere_entry L Y s flm p : synthesis L Y inverse -> slepian_basis L s ->
    length flm = L * L -> p < length (s_evecs s) ->
    entry inverse L s {| sg_f := Some (inverse L flm); sg_flm := None; sg_mask := None |} p
    = csum (L * L) (fun i => Cmult (nthC flm i) (csum (L * L) (fun j => Cmult (Cconj (nthC (evec s p) j))
        (csum (samples L) (fun k => Cmult (Cmult (Y i k) (Cconj (Y j k))) (RtoC (flat_weight L k))))))).
  Proof.
    intros HY HB Hf Hp. unfold entry. cbn [sg_flm sg_f sg_mask].
    rewrite <- weighted_double. apply csum_ext. intros k Hk.
    rewrite (HY flm Hf), (HY (evec s p)) by (apply (evec_length L s p HB Hp)).
    rewrite !nth_map_seq by exact Hk. reflexivity.
  Qed.
End Decompositions.
