From Coq Require Import List ZArith Arith Bool Reals Lia Lra.
From Verif Require Import Base ListLemmas RSum Parallel Machine MachineProofs Job JobProofs
  Index IndexProofs Wigner SpecWigner WignerProofs PolarMatrix SpecPolar.
Import ListNotations.

Lemma map_fst_filter_combine {A B} (f : A -> B) (g : A -> bool) l :
  map fst (filter snd (combine (map f l) (map g l))) = map f (filter g l).
Proof.
  induction l as [|x l IH]; [reflexivity|]. simpl. destruct (g x); simpl; rewrite IH; reflexivity.
Qed.

Section Table.
  Variable L : nat.
  Variable ylm_edge : nat -> R.

  (** Entry [n] of the table: the zonal harmonic of degree [n] without its
      normalisation. *)
  Definition leg (n : nat) : R := (sqrt (4 * PI / (2 * INR n + 1)) * ylm_edge (n * n + n))%R.

  Lemma legendre_table_ok emm :
    create_emm_vector L = Ok emm ->
    legendre_table L ylm_edge emm = Ok (map leg (seq 0 (2 * L))).
  Proof.
    rewrite emm_vector_map. intros H.
    assert (E : emm = map (fun i => snd (ind2elm i)) (seq 0 (2 * L * (2 * L)))).
    { injection H as <-. f_equal. f_equal. lia. }
    subst emm. clear H. unfold legendre_table, bool_index. rewrite !map_length, Nat.eqb_refl.
    cbn [rbind]. rewrite map_map, map_fst_filter_combine, filter_order. simpl Z.abs_nat.
    rewrite Nat.sub_0_r, !map_length, seq_length, Nat.eqb_refl. f_equal.
    rewrite map_map. apply nth_error_ext. intros n.
    destruct (le_lt_dec (2 * L) n) as [Hn|Hn].
    - rewrite !(proj2 (nth_error_None _ _)); auto;
        rewrite map_length; [|rewrite combine_length, map_length]; rewrite seq_length; lia.
    - rewrite nth_error_map_seq by exact Hn. rewrite nth_error_map.
      assert (E : nth_error (combine (seq 0 (2 * L))
                    (map (fun x => ylm_edge (elm2ind x 0)) (seq 0 (2 * L)))) n
                  = Some (n, ylm_edge (n * n + n))).
      { assert (G : forall {A B} (l : list A) (l' : list B) i x y,
          nth_error l i = Some x -> nth_error l' i = Some y -> nth_error (combine l l') i = Some (x, y)).
        { clear. induction l as [|a l IH]; intros l' i x y H1 H2; [destruct i; discriminate|].
          destruct l' as [|b l']; [destruct i; discriminate|]. destruct i; simpl in *.
          - congruence.
          - eapply IH; eassumption. }
        apply G.
        - rewrite nth_error_seq by exact Hn. reflexivity.
        - rewrite nth_error_map_seq by exact Hn. simpl plus. f_equal. f_equal.
          unfold elm2ind. lia. }
      rewrite E. reflexivity.
  Qed.
End Table.

Section PolarP.
  Variable L m : nat.
  Variable gap : bool.
  Variable Pl : list R.
  Hypothesis m_lt : m < L.
  Variable P : Z -> R.
  Hypothesis P_Pl : forall n, n < 2 * L -> nth_error Pl n = Some (P (Z.of_nat n)).

  Lemma pl_get_ok n : (0 <= n < 2 * Z.of_nat L)%Z -> pl_get Pl n = Ok (P n).
  Proof.
    intros H. unfold pl_get. destruct (Z.ltb_spec n 0); [lia|].
    rewrite P_Pl by lia. rewrite Z2Nat.id by lia. reflexivity.
  Qed.

  Lemma lvec_ok i : i < L - m -> lvec L m i = Ok (Z.of_nat (m + i)).
  Proof.
    intros H. unfold lvec, py_index. rewrite zrange_length.
    destruct (Z.leb_spec 0 (Z.of_nat i)); [|lia]. destruct (Z.ltb_spec (Z.of_nat i) 0); [lia|].
    rewrite Nat2Z.id. rewrite nth_error_zrange by lia. f_equal. lia.
  Qed.

  Lemma dm_sum_ok el p :
    (Z.of_nat m <= el < Z.of_nat L)%Z -> (Z.of_nat m <= p < Z.of_nat L)%Z ->
    dm_sum m Pl el p = Ok (polar_sum P (Z.of_nat m) el p).
  Proof.
    intros He Hp. unfold dm_sum.
    set (g := fun n => (racah el n p 0 0 0 * racah el n p (Z.of_nat m) 0 (- Z.of_nat m)
      * ((if (n =? 0)%Z then 1 else P (n - 1)%Z) - P (n + 1)%Z))%R).
    rewrite (sum_res_ok _ g).
    - f_equal. unfold polar_sum. unfold zrange. rewrite map_map, rlsum_map_seq.
      replace (Z.to_nat (el + p + 1 - Z.abs (el - p)))
        with (Z.to_nat (el + p - Z.abs (el - p) + 1)) by lia.
      reflexivity.
    - intros n Hn. apply in_zrange in Hn.
      rewrite !wigner3j_racah by (unfold selection; lia).
      rewrite (pl_get_ok (n + 1)) by lia. unfold g.
      destruct (Z.eqb_spec n 0); cbn [rbind]; [reflexivity|].
      rewrite pl_get_ok by lia. reflexivity.
  Qed.

  Definition dmv (i j : nat) : R :=
    (polar_gap_modification gap (Z.of_nat (m + i)) (Z.of_nat (m + j))
     * sqrt (IZR ((2 * Z.of_nat (m + i) + 1) * (2 * Z.of_nat (m + j) + 1)))
     * polar_sum P (Z.of_nat m) (Z.of_nat (m + i)) (Z.of_nat (m + j)))%R.

  Lemma dm_value_ok i j : i < L - m -> j < L - m -> dm_value L gap m Pl i j = Ok (dmv i j).
  Proof.
    intros Hi Hj. unfold dm_value. rewrite !lvec_ok by assumption. cbn [rbind].
    rewrite dm_sum_ok by lia. reflexivity.
  Qed.

  Definition pOwn (i b r c : nat) : Prop :=
    b = 0 /\ Nat.min r c = i /\ r < L - m /\ c < L - m.
  Definition pval (i b r c : nat) : R := dmv (Nat.min r c) (Nat.max r c).

  Lemma helper_eq i : i < L - m ->
    dm_matrix_helper L gap m Pl i =
    flat_map (fun j => [IWrite 0 i j (fun _ => dmv i j); ILoad 0 i j; IWrite 0 j i (fun l => reg l)])
      (seq i (L - m - i)).
  Proof.
    intros Hi. unfold dm_matrix_helper. rewrite !flat_map_concat_map. f_equal.
    apply map_ext_in. intros j Hj. apply in_seq in Hj. rewrite dm_value_ok by lia. reflexivity.
  Qed.

  Lemma row_ok i js p :
    (forall j, In j js -> i <= j < L - m) -> Pgood 1 p ->
    let c := flat_map (fun j => [IWrite 0 i j (fun _ : local unit => dmv i j); ILoad 0 i j;
                                 IWrite 0 j i (fun l => reg l)]) js in
    pall (L - m) 1 (pOwn i) c p /\ pend (L - m) 1 c p = p.
  Proof.
    intros Hj Hp. simpl. induction js as [|j js IH]; simpl; [auto|].
    destruct IH as [H1 H2]; [intros; apply Hj; right; assumption|].
    pose proof (Hj j (or_introl eq_refl)) as Hb. destruct Hp as [Ho Ht].
    assert (E : popen p 0 = true) by (rewrite Ho; reflexivity).
    unfold pOwn. repeat split; auto; try lia.
  Qed.

  Lemma row_ideal i js (st : local unit * (nat -> nat -> nat -> R)) b r c :
    snd (ideal (fun _ => tt) (flat_map (fun j => [IWrite 0 i j (fun _ : local unit => dmv i j); ILoad 0 i j;
                                 IWrite 0 j i (fun l => reg l)]) js) st) b r c
    = if (b =? 0) && (((r =? i) && existsb (Nat.eqb c) js) || ((c =? i) && existsb (Nat.eqb r) js))
      then if (r =? i) && existsb (Nat.eqb c) js then dmv i c else dmv i r
      else snd st b r c.
  Proof.
    revert st. induction js as [|j js IH]; intros [l m'].
    - simpl. rewrite !andb_false_r. simpl. rewrite ?andb_false_r. reflexivity.
    - change (flat_map ?f (j :: js)) with (f j ++ flat_map f js). rewrite ideal_app, IH. clear IH.
      cbn [ideal fold_left ideal1 snd reg existsb].
      assert (E : upd3 m' 0 i j (dmv i j) 0 i j = dmv i j).
      { unfold upd3. rewrite !Nat.eqb_refl. reflexivity. }
      rewrite E. unfold upd3.
      destruct (Nat.eqb_spec b 0), (Nat.eqb_spec r i), (Nat.eqb_spec c i),
        (Nat.eqb_spec c j), (Nat.eqb_spec r j); subst; simpl;
        try reflexivity; try lia;
        repeat match goal with
        | |- context [existsb ?f ?l] => destruct (existsb f l) eqn:?
        end; simpl; try reflexivity; try congruence.
  Qed.

  Lemma existsb_seq x i n : existsb (Nat.eqb x) (seq i n) = (i <=? x) && (x <? i + n).
  Proof.
    apply Bool.eq_true_iff_eq. rewrite existsb_exists, andb_true_iff, Nat.leb_le, Nat.ltb_lt.
    split.
    - intros (y & Hy & E). apply Nat.eqb_eq in E. subst. apply in_seq in Hy. lia.
    - intros H. exists x. split; [apply in_seq; lia|apply Nat.eqb_refl].
  Qed.

  Variable ncpu : nat.
  Hypothesis ncpu_pos : 0 < ncpu.
  Variable garbage : nat -> nat -> nat -> R.

  Lemma pOwn_disjoint i j b r c : pOwn i b r c -> pOwn j b r c -> i = j.
  Proof. unfold pOwn. lia. Qed.

  Lemma dm_seg_ok i p : i < L - m -> Pgood 1 p ->
    pall (L - m) 1 (pOwn i) (dm_matrix_helper L gap m Pl i) p /\
    Pgood 1 (pend (L - m) 1 (dm_matrix_helper L gap m Pl i) p).
  Proof.
    intros Hi Hp. rewrite helper_eq by exact Hi.
    destruct (row_ok i (seq i (L - m - i)) p) as [H1 H2]; [|exact Hp|].
    - intros j Hj. apply in_seq in Hj. lia.
    - split; [exact H1|]. cbv zeta in H2. rewrite H2. exact Hp.
  Qed.

  Lemma dm_seg_frame i st b r c : i < L - m -> ~ pOwn i b r c ->
    snd (ideal (fun _ => tt) (dm_matrix_helper L gap m Pl i) st) b r c = snd st b r c.
  Proof.
    intros Hi Ho. rewrite helper_eq by exact Hi. rewrite row_ideal, !existsb_seq.
    destruct ((b =? 0) && _) eqn:E; [|reflexivity]. exfalso. apply Ho. unfold pOwn.
    apply andb_prop in E. destruct E as [E1 E2]. apply Nat.eqb_eq in E1.
    apply orb_prop in E2. destruct E2 as [E2|E2]; apply andb_prop in E2; destruct E2 as [E2 E3];
      apply andb_prop in E3; destruct E3 as [E3 E4];
      apply Nat.eqb_eq in E2; apply Nat.leb_le in E3; apply Nat.ltb_lt in E4; lia.
  Qed.

  Lemma dm_seg_value i st b r c : i < L - m -> pOwn i b r c ->
    snd (ideal (fun _ => tt) (dm_matrix_helper L gap m Pl i) st) b r c = pval i b r c.
  Proof.
    intros Hi (Hb & Hmin & Hr & Hc). rewrite helper_eq by exact Hi. rewrite row_ideal, !existsb_seq.
    subst b. unfold pval. rewrite Hmin. simpl (0 =? 0).
    destruct (Nat.eqb_spec r i) as [->|Hri].
    - replace ((i <=? c) && (c <? i + (L - m - i))) with true.
      + simpl. f_equal. lia.
      + symmetry. apply andb_true_intro. rewrite Nat.leb_le, Nat.ltb_lt. lia.
    - assert (c = i) by lia. subst c. rewrite Nat.eqb_refl.
      replace ((i <=? r) && (r <? i + (L - m - i))) with true.
      + simpl. f_equal. lia.
      + symmetry. apply andb_true_intro. rewrite Nat.leb_le, Nat.ltb_lt. lia.
  Qed.

  Lemma dm_job_safe sched :
    let y := dm_job L gap m Pl ncpu garbage sched in
    pfail (par y) = None /\ Forall (fun t => failed t = None) (pool y).
  Proof.
    unfold dm_job.
    apply (job_safe (L - m) 1 _ _ pOwn pOwn pval pOwn_disjoint ltac:(auto) dm_seg_ok
      dm_seg_frame dm_seg_value ncpu ltac:(lia) ncpu_pos).
  Qed.

  Lemma dm_job_result sched :
    let y := dm_job L gap m Pl ncpu garbage sched in
    finished y ->
    (exists a, outcome y = Ok a /\
       forall r c, r < L - m -> c < L - m -> a 0 r c = dmv (Nat.min r c) (Nat.max r c)) /\
    Forall (fun t => code t = [] /\ failed t = None /\ forall b, mapped (tloc t) b = false) (pool y) /\
    (forall b, pmapped (par y) b = false) /\ (forall b, b < 1 -> linked (sh y) b = false).
  Proof.
    intros y Hf. unfold y, dm_job in *.
    destruct (job_result (L - m) 1 _ _ pOwn pOwn pval pOwn_disjoint ltac:(auto) dm_seg_ok
      dm_seg_frame dm_seg_value ncpu ltac:(lia) ncpu_pos garbage sched Hf)
      as ((a & Ho & Hv & _) & Hc & Hp & Hl).
    split; [|auto]. exists a. split; [exact Ho|]. intros r c Hr Hcc.
    rewrite (Hv (Nat.min r c) 0 r c); [reflexivity|lia|]. unfold pOwn. lia.
  Qed.

  Lemma dmv_entry i j :
    (dmv i j * sgn (Z.of_nat m) / 2 =
     polar_entry gap P (Z.of_nat m) (Z.of_nat (m + i)) (Z.of_nat (m + j)))%R.
  Proof.
    unfold dmv, polar_entry, polar_gap_modification. change sgn with pm1.
    destruct gap; field.
  Qed.
End PolarP.

(** ** The whole construction *)
Lemma dm_state_ok L m gap ylm_edge ncpu garbage sched :
  dm_state L gap ylm_edge m ncpu garbage sched =
  Ok (dm_job L gap m (map (leg ylm_edge) (seq 0 (2 * L))) ncpu garbage sched).
Proof.
  unfold dm_state. destruct (emm_vector_spec L) as (emm & Ee & _).
  rewrite Ee. cbn [rbind]. rewrite (legendre_table_ok L ylm_edge emm Ee). reflexivity.
Qed.

(** Values of the Legendre polynomials behind the zonal harmonics. *)
Definition edge_values (L : nat) (ylm_edge : nat -> R) (P : Z -> R) : Prop :=
  forall n, n < 2 * L ->
    ylm_edge (n * n + n) = (sqrt ((2 * INR n + 1) / (4 * PI)) * P (Z.of_nat n))%R.

Lemma leg_edge L ylm_edge P n : edge_values L ylm_edge P -> n < 2 * L ->
  leg ylm_edge n = P (Z.of_nat n).
Proof.
  intros H Hn. unfold leg. rewrite H by exact Hn. rewrite <- Rmult_assoc, <- sqrt_mult.
  - replace (4 * PI / (2 * INR n + 1) * ((2 * INR n + 1) / (4 * PI)))%R with 1%R.
    + rewrite sqrt_1. ring.
    + pose proof PI_RGT_0. pose proof (pos_INR n). field. split; lra.
  - pose proof PI_RGT_0. pose proof (pos_INR n).
    apply Rmult_le_pos; [lra|]. left. apply Rinv_0_lt_compat. lra.
  - pose proof PI_RGT_0. pose proof (pos_INR n).
    apply Rmult_le_pos; [lra|]. left. apply Rinv_0_lt_compat. lra.
Qed.

Lemma edge_table L ylm_edge P : edge_values L ylm_edge P ->
  forall n, n < 2 * L -> nth_error (map (leg ylm_edge) (seq 0 (2 * L))) n = Some (P (Z.of_nat n)).
Proof.
  intros H n Hn. rewrite nth_error_map_seq by exact Hn. f_equal. eapply leg_edge; eassumption.
Qed.

Lemma create_Dm_matrix_spec L m gap ylm_edge P ncpu garbage sched y :
  m < L -> 0 < ncpu -> edge_values L ylm_edge P ->
  dm_state L gap ylm_edge m ncpu garbage sched = Ok y -> finished y ->
  exists D, create_Dm_matrix L gap ylm_edge m ncpu garbage sched = Ok D /\
    forall r c, r < L - m -> c < L - m ->
      D r c = polar_entry gap P (Z.of_nat m)
                (Z.of_nat (m + Nat.min r c)) (Z.of_nat (m + Nat.max r c)).
Proof.
  intros Hm Hn HP E Hf. rewrite dm_state_ok in E. injection E as <-.
  unfold create_Dm_matrix. rewrite dm_state_ok. cbn [rbind].
  destruct (dm_job_result L m gap _ Hm P (edge_table L ylm_edge P HP)
              ncpu Hn garbage sched Hf) as ((a & Ho & Hv) & _).
  cbv zeta in Ho. rewrite Ho. cbn [rbind]. eexists. split; [reflexivity|].
  intros r c Hr Hc. unfold dm_scaled. rewrite Hv by assumption. apply dmv_entry.
Qed.

(** Such values always exist. *)
Lemma edge_values_exist L ylm_edge : exists P, edge_values L ylm_edge P.
Proof.
  exists (fun n => leg ylm_edge (Z.to_nat n)). intros n Hn. rewrite Nat2Z.id. unfold leg.
  rewrite <- Rmult_assoc, <- sqrt_mult.
  - replace ((2 * INR n + 1) / (4 * PI) * (4 * PI / (2 * INR n + 1)))%R with 1%R.
    + rewrite sqrt_1. ring.
    + pose proof PI_RGT_0. pose proof (pos_INR n). field. split; lra.
  - pose proof PI_RGT_0. pose proof (pos_INR n).
    apply Rmult_le_pos; [lra|]. left. apply Rinv_0_lt_compat. lra.
  - pose proof PI_RGT_0. pose proof (pos_INR n).
    apply Rmult_le_pos; [lra|]. left. apply Rinv_0_lt_compat. lra.
Qed.

Lemma dm_state_safe L m gap ylm_edge ncpu garbage sched :
  m < L -> 0 < ncpu ->
  exists y, dm_state L gap ylm_edge m ncpu garbage sched = Ok y /\
    pfail (par y) = None /\ Forall (fun t => failed t = None) (pool y).
Proof.
  intros Hm Hn. destruct (edge_values_exist L ylm_edge) as [P HP].
  rewrite dm_state_ok. eexists. split; [reflexivity|].
  exact (dm_job_safe L m gap _ Hm P (edge_table L ylm_edge P HP) ncpu Hn garbage sched).
Qed.

Lemma dm_state_completable L m gap ylm_edge ncpu garbage sched :
  exists sched' y, dm_state L gap ylm_edge m ncpu garbage (sched ++ sched') = Ok y /\ finished y.
Proof.
  destruct (completable (L - m) (fun _ => tt) 1
    (job_codes 1 (dm_matrix_helper L gap m (map (leg ylm_edge) (seq 0 (2 * L)))) (L - m) ncpu)
    sched garbage) as [sched' H].
  exists sched'. eexists. rewrite dm_state_ok. split; [reflexivity|exact H].
Qed.

Lemma dm_state_clean L m gap ylm_edge ncpu garbage sched y :
  m < L -> 0 < ncpu ->
  dm_state L gap ylm_edge m ncpu garbage sched = Ok y -> finished y ->
  Forall (fun t => code t = [] /\ failed t = None /\ forall b, mapped (tloc t) b = false) (pool y) /\
  (forall b, pmapped (par y) b = false) /\ (forall b, b < 1 -> linked (sh y) b = false).
Proof.
  intros Hm Hn E Hf. destruct (edge_values_exist L ylm_edge) as [P HP].
  rewrite dm_state_ok in E. injection E as <-.
  exact (proj2 (dm_job_result L m gap _ Hm P (edge_table L ylm_edge P HP) ncpu Hn garbage sched Hf)).
Qed.
