(** * The eigenproblem of a mesh: real vectors seen as complex ones. *)
From Coq Require Import List ZArith Arith Bool Reals Lra Lia.
From Coquelicot Require Import Complex Rcomplements.
From Verif Require Import Base ListLemmas RSum CSum RealOrtho SpecEigen Eigen EigenProofs OrthoProofs ConcentrationProofs SpectralProofs WeylProofs
  CompactProofs SpecRounding RoundingProofs Mesh SpecMesh MeshProofs.
Import ListNotations.
Local Open Scope nat_scope.

Definition crows (rows : list (list R)) : list (list C) := map (map RtoC) rows.
Lemma crows_nth rows p i : nth i (nth p (crows rows) []) (RtoC 0) = RtoC (val (nth p rows []) i).
Proof.
  unfold crows, val. change (@nil C) with (map RtoC []). rewrite (map_nth (map RtoC)). apply map_nth.
Qed.

Lemma rip_real n f g : ip n (fun j => RtoC (f j)) (fun j => RtoC (g j)) = RtoC (rip n f g).
Proof. apply ip_real. Qed.

Lemma csum_RtoC n f : csum n (fun i => RtoC (f i)) = RtoC (rsum n f).
Proof. induction n as [|n IH]; [reflexivity|]. cbn [csum rsum]. rewrite IH, RtoC_plus. reflexivity. Qed.

(** Real rows solving a real symmetric problem. *)
Definition real_rows (n : nat) (K : nat -> nat -> R) (evals : list R) (rows : list (list R)) : Prop :=
  length evals = n /\ length rows = n /\ descending evals /\
  (forall p q, p < n -> q < n -> rip n (val (nth p rows [])) (val (nth q rows [])) = if p =? q then 1%R else 0%R) /\
  (forall p a, p < n -> a < n -> rsum n (fun b => K a b * val (nth p rows []) b)%R = (nth p evals 0 * val (nth p rows []) a)%R).

Lemma real_decomposed n K evals rows : (forall a b, a < n -> b < n -> K a b = K b a) -> real_rows n K evals rows ->
  decomposed n (fun a b => RtoC (K a b)) evals (crows rows).
Proof.
  intros SY (H1 & H2 & H3 & H4 & H5). split; [exact H1|]. split; [unfold crows; rewrite map_length; exact H2|]. split; [exact H3|]. split.
  - intros p q Hp Hq. rewrite (ip_ext n _ (fun i => RtoC (val (nth p rows []) i)) _ (fun i => RtoC (val (nth q rows []) i))) by (intros; apply crows_nth).
    rewrite rip_real, H4 by assumption. destruct (p =? q); reflexivity.
  - intros p j Hp Hj. rewrite crows_nth, <- RtoC_mult, <- H5 by assumption. rewrite <- csum_RtoC. apply csum_ext. intros i Hi.
    rewrite crows_nth, <- RtoC_mult. f_equal. rewrite (SY j i) by assumption. ring.
Qed.

Lemma real_kernel n K evals rows rows' N : (forall a b, a < n -> b < n -> K a b = K b a) ->
  real_rows n K evals rows -> real_rows n K evals rows' -> N <= n ->
  (forall p q, p < N -> N <= q -> q < length evals -> (nth q evals 0 < nth p evals 0)%R) -> forall i j, i < n -> j < n ->
  rsum N (fun p => val (nth p rows' []) i * val (nth p rows' []) j)%R = rsum N (fun p => val (nth p rows []) i * val (nth p rows []) j)%R.
Proof.
  intros SY H H' HN G i j Hi Hj. pose proof (proj1 H) as LE.
  pose proof (decomposed_kernel n _ evals (crows rows) evals (crows rows') N (real_decomposed _ _ _ _ SY H) (real_decomposed _ _ _ _ SY H') HN) as D.
  rewrite LE in G. specialize (D G i j Hi Hj). apply RtoC_inj. rewrite <- !csum_RtoC. symmetry.
  transitivity (csum N (fun p => Cmult (nth i (nth p (crows rows) []) (RtoC 0)) (Cconj (nth j (nth p (crows rows) []) (RtoC 0))))).
  - apply csum_ext. intros p _. rewrite !crows_nth, Cconj_R, RtoC_mult. reflexivity.
  - rewrite D. apply csum_ext. intros p _. rewrite !crows_nth, Cconj_R, RtoC_mult. reflexivity.
Qed.

(** Two unit vectors with the same products of entries are the same up to a sign. *)
Lemma same_sign n (u v : nat -> R) : rip n u u = 1%R -> (forall i j, i < n -> j < n -> (v i * v j = u i * u j)%R) ->
  exists c, (c = 1 \/ c = -1)%R /\ forall i, i < n -> (v i = c * u i)%R.
Proof.
  intros U H. set (c := rip n u v).
  assert (A : forall j, j < n -> (c * v j = u j)%R).
  { intros j Hj. unfold c, rip. rewrite <- rsum_scal_r. rewrite <- (Rmult_1_l (u j)), <- U. unfold rip. rewrite <- rsum_scal_r.
    apply rsum_ext. intros i Hi. rewrite Rmult_assoc, H by assumption. ring. }
  assert (S1 : (c * c = 1)%R).
  { rewrite <- U. unfold c at 2. unfold rip. rewrite <- rsum_scal_l. apply rsum_ext. intros i Hi. rewrite <- (A i Hi) at 3. ring. }
  exists c. split.
  - assert (Z : ((c - 1) * (c + 1) = 0)%R) by lra. apply Rmult_integral in Z. destruct Z; [left|right]; lra.
  - intros i Hi. rewrite <- (A i Hi). rewrite <- Rmult_assoc, S1. ring.
Qed.

(** ** The concentration matrix *)
Lemma conc_sym m a b : conc m a b = conc m b a.
Proof. unfold conc, rmask. apply rsum_ext. intros v _. destruct (inside m v); ring. Qed.

Lemma slepian_rows s : slepian_functions_ok s -> slepian_eigen s -> descending (ms_evals s) -> length (ms_functions s) = nb (ms_mesh s) ->
  real_rows (nb (ms_mesh s)) (conc (ms_mesh s)) (ms_evals s) (ms_functions s).
Proof.
  intros (_ & _ & _ & _ & _ & HL & _ & HO) HE HD HF. rewrite HF in HO. split; [exact HL|]. split; [exact HF|]. split; [exact HD|]. split; [exact HO|].
  intros p a Hp Ha. apply HE; [rewrite HF; exact Hp|exact Ha].
Qed.

(** The form of the concentration matrix is the energy in the region. *)
Lemma conc_form m (w : nat -> C) : Re (gram (nb m) (fun a b => RtoC (conc m a b)) w w) =
  rsum (nv m) (fun v => if inside m v then (rsum (nb m) (fun i => Re (w i) * phi m i v) ^ 2 + rsum (nb m) (fun i => Im (w i) * phi m i v) ^ 2)%R else 0%R).
Proof.
  assert (S2 : forall f g : nat -> R, (rsum (nb m) f * rsum (nb m) g = rsum (nb m) (fun i => rsum (nb m) (fun j => f i * g j)))%R).
  { intros f g. rewrite <- rsum_scal_r. apply rsum_ext. intros i _. rewrite <- rsum_scal_l. reflexivity. }
  unfold gram. rewrite csum_re.
  rewrite (rsum_ext (nb m) _ (fun i => rsum (nb m) (fun j => ((Re (w i) * Re (w j) + Im (w i) * Im (w j)) * conc m i j)%R))).
  2:{ intros i _. rewrite csum_re. apply rsum_ext. intros j _. unfold Re, Im, Cmult, Cconj, RtoC. cbn [fst snd]. ring. }
  symmetry. rewrite (rsum_ext (nv m) _ (fun v => rsum (nb m) (fun i => rsum (nb m) (fun j => (Re (w i) * Re (w j) + Im (w i) * Im (w j)) * (if inside m v then phi m i v * phi m j v else 0))%R))).
  - rewrite rsum_swap. apply rsum_ext. intros i _. rewrite rsum_swap. apply rsum_ext. intros j _. rewrite rsum_scal_l. reflexivity.
  - intros v _. destruct (inside m v).
    + cbn [pow]. rewrite !Rmult_1_r, !S2, <- rsum_plus. apply rsum_ext. intros i _. rewrite <- rsum_plus. apply rsum_ext. intros j _. ring.
    + symmetry. apply rsum_zero. intros i _. apply rsum_zero. intros j _. ring.
Qed.

(** ** Fewer vertices than functions *)
Lemma real_common_zero n k (a : nat -> nat -> R) : k < n ->
  exists x : nat -> R, (exists j, j < n /\ x j <> 0%R) /\ forall q, q < k -> rsum n (fun s => x s * a q s)%R = 0%R.
Proof.
  intros H. destruct (common_zero n k (fun q s => RtoC (a q s)) H) as (x & (j & Hj & Nj) & Hx).
  assert (PR : forall q, q < k -> rsum n (fun s => Re (x s) * a q s)%R = 0%R).
  { intros q Hq. specialize (Hx q Hq). apply (f_equal Re) in Hx. rewrite csum_re in Hx. cbn [Re RtoC fst] in Hx. rewrite <- Hx. apply rsum_ext. intros s _. unfold Re, Cmult, RtoC. cbn [fst snd]. ring. }
  assert (PI : forall q, q < k -> rsum n (fun s => Im (x s) * a q s)%R = 0%R).
  { intros q Hq. specialize (Hx q Hq). apply (f_equal Im) in Hx. rewrite csum_im in Hx. cbn [Im RtoC snd] in Hx. rewrite <- Hx. apply rsum_ext. intros s _. unfold Im, Cmult, RtoC. cbn [fst snd]. ring. }
  destruct (Req_dec (Re (x j)) 0) as [Z|Z].
  - exists (fun s => Im (x s)). split; [|exact PI]. exists j. split; [exact Hj|]. intros Z'. apply Nj. apply C_ext; [exact Z|exact Z'].
  - exists (fun s => Re (x s)). split; [|exact PR]. exists j. split; [exact Hj|exact Z].
Qed.

Lemma region_count m (f : bool -> bool) : length (m_region m) = nv m ->
  length (filter f (m_region m)) = length (filter (fun v => f (inside m v)) (seq 0 (nv m))).
Proof.
  intros H. rewrite <- H. unfold inside. generalize (m_region m) as l. clear. intros l.
  assert (E : l = map (fun v => nth v l false) (seq 0 (length l))).
  { apply (nth_ext _ _ false false); [rewrite map_length, seq_length; reflexivity|]. intros v Hv. rewrite (nth_map_seq (length l) (fun v => nth v l false)) by exact Hv. reflexivity. }
  rewrite E at 1. generalize (seq 0 (length l)) as q. induction q as [|v q IH]; [reflexivity|]. cbn [map filter]. destruct (f (nth v l false)); cbn [length]; rewrite IH; reflexivity.
Qed.

Section Rank.
  Variable s : mesh_slepian.
  Let m := ms_mesh s.
  Hypothesis ok : slepian_functions_ok s.
  Hypothesis eig : slepian_eigen s.
  Hypothesis full : length (ms_functions s) = nb m.

  (** A combination of the functions [from], ..., [from + l - 1]: its energy in the region and its energy. *)
  Lemma combination_energy from l x : from + l <= nb m ->
    rsum (nv m) (fun v => if inside m v then rsum l (fun t => x t * slep s (from + t) v) ^ 2 else 0)%R = rsum l (fun t => val (ms_evals s) (from + t) * x t ^ 2)%R /\
    rsum (nv m) (fun v => rsum l (fun t => x t * slep s (from + t) v) ^ 2)%R = rsum l (fun t => x t ^ 2)%R.
  Proof.
    intros H.
    assert (S2 : forall f g : nat -> R, (rsum l f * rsum l g = rsum l (fun i => rsum l (fun j => f i * g j)))%R).
    { intros f g. rewrite <- rsum_scal_r. apply rsum_ext. intros i _. rewrite <- rsum_scal_l. reflexivity. }
    assert (PICK : forall i (f : nat -> R), i < l -> rsum l (fun j => if i =? j then f j else 0%R) = f i).
    { intros i f Hi. rewrite (rsum_single l i) by (try exact Hi; intros j _ Nj; rewrite (proj2 (Nat.eqb_neq i j)) by (intros E; apply Nj; symmetry; exact E); reflexivity). rewrite Nat.eqb_refl. reflexivity. }
    split.
    - rewrite (rsum_ext (nv m) _ (fun v => rsum l (fun i => rsum l (fun j => (x i * x j) * (if inside m v then slep s (from + i) v * slep s (from + j) v else 0)))%R)).
      + rewrite rsum_swap. apply rsum_ext. intros i Hi. rewrite rsum_swap.
        rewrite (rsum_ext l _ (fun j => if i =? j then (x i * x j * val (ms_evals s) (from + i))%R else 0%R)).
        * rewrite (PICK i (fun j => (x i * x j * val (ms_evals s) (from + i))%R) Hi). ring.
        * intros j Hj. rewrite rsum_scal_l. change (rsum (nv m) (fun v => if inside m v then slep s (from + i) v * slep s (from + j) v else 0)%R) with (rmask (inside m) (nv m) (field m (sfun s (from + i))) (slep s (from + j))).
          unfold m. rewrite (region_slep s (sfun s (from + i)) (from + j) eig) by (rewrite full; unfold m in *; lia).
          destruct ok as (_ & _ & _ & _ & _ & _ & _ & Ho). rewrite Ho by (rewrite full; unfold m in *; lia).
          destruct (Nat.eqb_spec i j) as [->|N]; [rewrite Nat.eqb_refl; ring|]. rewrite (proj2 (Nat.eqb_neq (from + i) (from + j))) by lia. ring.
      + intros v _. destruct (inside m v).
        * cbn [pow]. rewrite Rmult_1_r, S2. apply rsum_ext. intros i _. apply rsum_ext. intros j _. ring.
        * symmetry. apply rsum_zero. intros i _. apply rsum_zero. intros j _. ring.
    - rewrite (rsum_ext (nv m) _ (fun v => rsum l (fun i => rsum l (fun j => (x i * x j) * (slep s (from + i) v * slep s (from + j) v)))%R)).
      + rewrite rsum_swap. apply rsum_ext. intros i Hi. rewrite rsum_swap.
        rewrite (rsum_ext l _ (fun j => if i =? j then (x i * x j)%R else 0%R)).
        * rewrite (PICK i (fun j => (x i * x j)%R) Hi). ring.
        * intros j Hj. rewrite rsum_scal_l. change (rsum (nv m) (fun v => slep s (from + i) v * slep s (from + j) v)%R) with (rip (nv m) (slep s (from + i)) (slep s (from + j))).
          unfold m. rewrite (slep_product s ok) by (rewrite full; unfold m in *; lia).
          destruct (Nat.eqb_spec i j) as [->|N]; [rewrite Nat.eqb_refl; ring|]. rewrite (proj2 (Nat.eqb_neq (from + i) (from + j))) by lia. ring.
      + intros v _. cbn [pow]. rewrite Rmult_1_r, S2. apply rsum_ext. intros i _. apply rsum_ext. intros j _. ring.
  Qed.

  (** More functions than vertices with [f]: some combination is zero at all of them. *)
  Lemma vanishing from l (f : bool -> bool) : from + l <= nb m -> length (filter f (m_region m)) < l ->
    exists x, (0 < rsum l (fun t => x t ^ 2))%R /\ forall v, v < nv m -> f (inside m v) = true -> rsum l (fun t => x t * slep s (from + t) v)%R = 0%R.
  Proof.
    intros H HL. pose proof (sl_wf s ok) as (HR & _). fold m in HR. rewrite (region_count m f HR) in HL.
    set (vs := filter (fun v => f (inside m v)) (seq 0 (nv m))) in *.
    destruct (real_common_zero l (length vs) (fun q t => slep s (from + t) (nth q vs 0)) HL) as (x & (j & Hj & Nj) & Hx).
    exists x. split.
    - apply Rlt_le_trans with (x j ^ 2)%R; [apply pow2_gt_0; exact Nj|]. apply (rsum_term l (fun t => (x t ^ 2)%R) j Hj). intros. apply pow2_ge_0.
    - intros v Hv F. assert (IN : In v vs) by (apply filter_In; split; [apply in_seq; lia|exact F]).
      destruct (In_nth vs v 0 IN) as (q & Hq & Eq). specialize (Hx q Hq). cbn beta in Hx. rewrite Eq in Hx. exact Hx.
  Qed.
End Rank.

(** ** Rounding *)
Lemma clean_mesh_near argsort : argsort_ok argsort -> forall eta n M evals cols, eigen_near_r eta n M evals cols ->
  exists evals' rows, clean_mesh argsort evals cols = Ok (evals', rows) /\ length evals' = n /\ length rows = n /\ descending evals' /\
    (forall p, p < n -> length (nth p rows []) = n) /\
    (forall p q, p < n -> q < n -> (Rabs (rip n (val (nth p rows [])) (val (nth q rows [])) - (if p =? q then 1 else 0)) <= eta)%R) /\
    (forall p a, p < n -> a < n -> (Rabs (rsum n (fun b => M a b * val (nth p rows []) b) - nth p evals' 0 * val (nth p rows []) a) <= eta)%R).
Proof.
  intros sorted eta n M evals cols (H1 & H2 & H3 & H4 & H5).
  unfold clean_mesh. rewrite (idx_evals argsort sorted). cbn [rbind].
  destruct (fancy_cols argsort sorted evals cols) as (cols' & C1 & C2 & C3); [congruence|]. rewrite C1. cbn [rbind].
  assert (L1 : length (map (fun i => nth i evals 0%R) (rev (argsort evals))) = n).
  { rewrite (Permutation.Permutation_length (idx_evals_perm argsort sorted evals)). exact H1. }
  eexists. eexists. split; [reflexivity|]. split; [exact L1|]. split; [congruence|]. split; [apply (idx_descending argsort sorted)|].
  assert (G : forall p, p < n -> exists k, nth_error (rev (argsort evals)) p = Some k /\ nth_error cols k = Some (nth p cols' [])).
  { intros p Hp. destruct (C3 p (nth p cols' [])) as (k & K1 & K2); [apply nth_error_nth'; lia|]. exists k. split; assumption. }
  split; [|split].
  - intros p Hp. destruct (G p Hp) as (k & _ & K2). exact (H3 _ _ K2).
  - intros p q Hp Hq. destruct (G p Hp) as (k & K1 & K2). destruct (G q Hq) as (l & L2 & L3).
    replace (p =? q) with (k =? l); [exact (H5 k l _ _ K2 L3)|].
    destruct (Nat.eqb_spec p q) as [->|N].
    + assert (k = l) by congruence. subst. apply Nat.eqb_refl.
    + apply Nat.eqb_neq. intros ->. apply N. apply (proj1 (NoDup_nth_error _) (idx_nodup argsort sorted evals)); [apply nth_error_Some; rewrite K1; discriminate|congruence].
  - intros p a Hp Ha. destruct (G p Hp) as (k & K1 & K2).
    assert (V : nth p (map (fun i => nth i evals 0%R) (rev (argsort evals))) 0%R = nth k evals 0%R).
    { apply nth_error_nth. rewrite nth_error_map, K1. reflexivity. }
    rewrite V. exact (H4 k _ a K2 Ha).
Qed.

Lemma near_real eta n (M : nat -> nat -> R) evals rows : (forall a b, a < n -> b < n -> M a b = M b a) ->
  length evals = n -> length rows = n -> descending evals ->
  (forall p q, p < n -> q < n -> (Rabs (rip n (val (nth p rows [])) (val (nth q rows [])) - (if p =? q then 1 else 0)) <= eta)%R) ->
  (forall p a, p < n -> a < n -> (Rabs (rsum n (fun b => M a b * val (nth p rows []) b) - nth p evals 0 * val (nth p rows []) a) <= eta)%R) ->
  near_decomposed eta n (fun a b => RtoC (M a b)) evals (crows rows).
Proof.
  intros SY H1 H2 H3 H4 H5. split; [exact H1|]. split; [unfold crows; rewrite map_length; exact H2|]. split; [exact H3|]. split.
  - intros p q Hp Hq. rewrite (ip_ext n _ (fun i => RtoC (val (nth p rows []) i)) _ (fun i => RtoC (val (nth q rows []) i))) by (intros; apply crows_nth).
    rewrite rip_real. replace (if p =? q then RtoC 1 else RtoC 0) with (RtoC (if p =? q then 1 else 0)) by (destruct (p =? q); reflexivity).
    rewrite <- RtoC_minus, Cmod_R. apply H4; assumption.
  - intros p j Hp Hj. rewrite crows_nth, <- RtoC_mult.
    rewrite (csum_ext n _ (fun i => RtoC (M j i * val (nth p rows []) i))).
    + rewrite csum_RtoC, <- RtoC_minus, Cmod_R. apply H5; assumption.
    + intros i Hi. rewrite crows_nth, <- RtoC_mult. f_equal. rewrite (SY i j) by assumption. ring.
Qed.
