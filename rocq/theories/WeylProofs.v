(** * Proofs: larger forms have larger eigenvalues. *)
From Coq Require Import List Arith Bool Reals Lia Lra Classical Sorting.Permutation.
From Coquelicot Require Import Complex.
From Verif Require Import Base ListLemmas RSum CSum OrthoProofs SpecEigen SpecLatLon LatLonIntegrals LatLonProofs SpecConcentration ConcentrationProofs SpectralProofs.
Import ListNotations.
Local Open Scope nat_scope.

(** Fewer equations than unknowns. *)
Lemma common_zero : forall n k (a : nat -> nat -> C), k < n ->
  exists x, (exists j, j < n /\ x j <> RtoC 0) /\ forall q, q < k -> csum n (fun j => Cmult (x j) (a q j)) = RtoC 0.
Proof.
  induction n as [|n IH]; intros k a Hk; [lia|].
  destruct (classic (forall q, q < k -> a q n = RtoC 0)) as [Z|NZ].
  - exists (basis_vec n). split.
    + exists n. split; [lia|]. unfold basis_vec. rewrite Nat.eqb_refl. intros E. injection E as E. lra.
    + intros q Hq. apply csum_zero. intros j Hj. unfold basis_vec. destruct (Nat.eqb_spec j n) as [->|]; [rewrite Z by exact Hq|]; ring.
  - apply not_all_ex_not in NZ. destruct NZ as [q0 NZ]. apply imply_to_and in NZ. destruct NZ as [H0 N0].
    set (idx := fun q => if q <? q0 then q else S q).
    set (c := fun q => Cdiv (a q n) (a q0 n)).
    destruct (IH (k - 1) (fun q j => Cminus (a (idx q) j) (Cmult (c (idx q)) (a q0 j)))) as (y & (j0 & Hj0 & Nj0) & Hy); [lia|].
    set (s := csum n (fun j => Cmult (y j) (a q0 j))).
    exists (fun j => if j =? n then Copp (Cdiv s (a q0 n)) else y j). split.
    + exists j0. split; [lia|]. rewrite (proj2 (Nat.eqb_neq j0 n)) by lia. exact Nj0.
    + intros q Hq. cbn [csum]. rewrite Nat.eqb_refl.
      rewrite (csum_ext n _ (fun j => Cmult (y j) (a q j))) by (intros j Hj; rewrite (proj2 (Nat.eqb_neq j n)) by lia; reflexivity).
      assert (E : csum n (fun j => Cmult (y j) (a q j)) = Cmult (c q) s).
      { destruct (Nat.eq_dec q q0) as [->|N].
        - fold s. unfold c, Cdiv. rewrite Cinv_r by exact N0. ring.
        - assert (X : exists q', q' < k - 1 /\ idx q' = q).
          { destruct (Nat.lt_ge_cases q q0) as [L|G].
            - exists q. split; [lia|]. unfold idx. rewrite (proj2 (Nat.ltb_lt q q0)) by exact L. reflexivity.
            - exists (q - 1). split; [lia|]. unfold idx. rewrite (proj2 (Nat.ltb_ge (q - 1) q0)) by lia. lia. }
          destruct X as (q' & Hq' & <-). specialize (Hy q' Hq'). unfold s. rewrite <- csum_scal_l.
          transitivity (Cplus (csum n (fun j => Cmult (y j) (Cminus (a (idx q') j) (Cmult (c (idx q')) (a q0 j))))) (csum n (fun j => Cmult (c (idx q')) (Cmult (y j) (a q0 j))))).
          + rewrite <- csum_plus. apply csum_ext. intros. ring.
          + rewrite Hy. ring. }
      rewrite E. unfold c, Cdiv. ring.
Qed.

(** Rows and values as a complete decomposition of a form, largest value first. *)
Definition decomposed (n : nat) (K : nat -> nat -> C) (evals : list R) (rows : list (list C)) : Prop :=
  length evals = n /\ length rows = n /\ descending evals /\
  (forall p q, p < n -> q < n -> ip n (fun i => nth i (nth p rows []) (RtoC 0)) (fun i => nth i (nth q rows []) (RtoC 0)) = if Nat.eqb p q then RtoC 1 else RtoC 0) /\
  (forall p j, p < n -> j < n -> csum n (fun i => Cmult (nth i (nth p rows []) (RtoC 0)) (K i j)) = Cmult (RtoC (nth p evals 0%R)) (nth j (nth p rows []) (RtoC 0))).

Lemma decomposed_hermitian n K evals rows : decomposed n K evals rows -> hermitian n K.
Proof.
  intros (_ & _ & _ & Ho & He). set (u := fun p i => nth i (nth p rows []) (RtoC 0)).
  assert (E : forall i j, i < n -> j < n -> K i j = csum n (fun p => Cmult (Cmult (Cconj (u p i)) (RtoC (nth p evals 0%R))) (u p j))).
  { intros i j Hi Hj. rewrite (csum_ext n _ (fun p => csum n (fun k => Cmult (Cmult (Cconj (u p i)) (u p k)) (K k j)))).
    - rewrite csum_swap. rewrite (csum_single n i); [|exact Hi|].
      + rewrite csum_scal_r, (completeness n u Ho i i Hi Hi), Nat.eqb_refl. ring.
      + intros k Hk N. rewrite csum_scal_r, (completeness n u Ho i k Hi Hk), (proj2 (Nat.eqb_neq i k)) by lia. ring.
    - intros p Hp. rewrite <- Cmult_assoc. unfold u at 2. rewrite <- (He p j Hp Hj), <- csum_scal_l. apply csum_ext. intros k Hk. unfold u. ring. }
  intros i j Hi Hj. rewrite (E i j Hi Hj), (E j i Hj Hi), csum_conj. apply csum_ext. intros p Hp. rewrite !Cconj_mult, Cconj_conj, Cconj_R. ring.
Qed.

Lemma decomposed_ext n K K' evals rows : (forall i j, i < n -> j < n -> K i j = K' i j) -> decomposed n K evals rows -> decomposed n K' evals rows.
Proof.
  intros E (H1 & H2 & H3 & H4 & H5). repeat (split; [assumption|]). intros p j Hp Hj. rewrite <- H5 by assumption. apply csum_ext. intros i Hi. rewrite E by assumption. reflexivity.
Qed.

Lemma decomposed_sorted n K evals rows : decomposed n K evals rows -> forall p q, p <= q -> q < n -> (nth q evals 0 <= nth p evals 0)%R.
Proof. intros (Hl & _ & Hd & _) p q Hpq Hq. apply descending_nth; [exact Hd|exact Hpq|lia]. Qed.

Lemma decomposed_same n K evals rows evals' rows' : decomposed n K evals rows -> decomposed n K evals' rows' -> evals = evals'.
Proof.
  intros H H'. pose proof (decomposed_hermitian _ _ _ _ H) as HH. pose proof (decomposed_sorted _ _ _ _ H) as S. pose proof (decomposed_sorted _ _ _ _ H') as S'.
  destruct H as (L1 & _ & _ & O1 & E1). destruct H' as (L2 & _ & _ & O2 & E2).
  apply (nth_ext _ _ 0%R 0%R); [lia|]. intros p Hp.
  exact (same_sorted n K _ _ (fun p => nth p evals 0%R) (fun p => nth p evals' 0%R) HH O1 O2 E1 E2 S S' p ltac:(lia)).
Qed.

(** The first [N] rows span the same space when the value [N] is smaller. *)
Lemma decomposed_kernel n K evals rows evals' rows' N : decomposed n K evals rows -> decomposed n K evals' rows' ->
  N <= n -> (forall p q, p < N -> N <= q -> q < n -> (nth q evals 0 < nth p evals 0)%R) -> forall i j, i < n -> j < n ->
  csum N (fun p => Cmult (nth i (nth p rows []) (RtoC 0)) (Cconj (nth j (nth p rows []) (RtoC 0)))) =
  csum N (fun p => Cmult (nth i (nth p rows' []) (RtoC 0)) (Cconj (nth j (nth p rows' []) (RtoC 0)))).
Proof.
  intros H H' HN GAP i j Hi Hj. pose proof (decomposed_same _ _ _ _ _ _ H H') as EV. subst evals'.
  pose proof (decomposed_hermitian _ _ _ _ H) as HH. pose proof (decomposed_sorted _ _ _ _ H) as S.
  destruct H as (L1 & _ & _ & O1 & E1). destruct H' as (L2 & _ & _ & O2 & E2).
  destruct (Nat.eq_dec N 0) as [->|NN]; [reflexivity|].
  set (f := fun x => if Rle_dec (nth (N - 1) evals 0%R) x then 1%R else 0%R).
  pose proof (same_function n K _ _ (fun p => nth p evals 0%R) (fun p => nth p evals 0%R) HH O1 O2 E1 E2 f i j Hi Hj) as F. cbn beta in F.
  assert (T : forall w : nat -> C, csum n (fun p => Cmult (RtoC (f (nth p evals 0%R))) (w p)) = csum N w).
  { intros w. replace n with (N + (n - N)) by lia. rewrite csum_app. rewrite (csum_zero (n - N)).
    - rewrite (csum_ext N _ w); [ring|]. intros p Hp. unfold f. destruct (Rle_dec _ _) as [_|X]; [ring|]. exfalso. apply X. apply S; lia.
    - intros q Hq. unfold f. destruct (Rle_dec _ _) as [X|_]; [|ring]. specialize (GAP (N - 1) (N + q) ltac:(lia) ltac:(lia) ltac:(lia)). lra. }
  rewrite (T (fun p => Cmult (nth i (nth p rows []) (RtoC 0)) (Cconj (nth j (nth p rows []) (RtoC 0))))) in F.
  rewrite (T (fun p => Cmult (nth i (nth p rows' []) (RtoC 0)) (Cconj (nth j (nth p rows' []) (RtoC 0))))) in F. exact F.
Qed.

Definition padded (n : nat) (w : nat -> C) (i : nat) : C := if i <? n then w i else RtoC 0.

(** Courant and Fischer: a form that is nowhere smaller has no smaller values. *)
Lemma weyl n n' K K' evals rows evals' rows' : n <= n' -> decomposed n K evals rows -> decomposed n' K' evals' rows' ->
  (forall w, (Re (gram n K w w) <= Re (gram n' K' (padded n w) (padded n w)))%R) ->
  forall p, p < n -> (nth p evals 0 <= nth p evals' 0)%R.
Proof.
  intros Hn H H' LE p Hp. pose proof (decomposed_sorted _ _ _ _ H) as S. pose proof (decomposed_sorted _ _ _ _ H') as S'.
  destruct H as (L1 & _ & _ & O1 & E1). destruct H' as (L2 & _ & _ & O2 & E2).
  set (u := fun p i => nth i (nth p rows []) (RtoC 0)) in *. set (v := fun p i => nth i (nth p rows' []) (RtoC 0)) in *.
  destruct (common_zero (p + 1) p (fun q s => ip n (u s) (v q)) ltac:(lia)) as (x & (j0 & Hj0 & Nj0) & Hx).
  set (a := fun s => if s <? p + 1 then x s else RtoC 0).
  set (w := fun i => csum n (fun s => Cmult (a s) (u s i))).
  assert (W : forall q, q < n -> ip n w (u q) = a q) by (intros q Hq; apply (ip_comb n n u O1 a q Hq)).
  assert (NW : nrm2 n w = nrm2 n a) by (apply (nrm2_comb n n u O1 a)).
  assert (PD : forall g, ip n' (padded n w) g = ip n w g).
  { intros g. unfold ip. replace n' with (n + (n' - n)) by lia. rewrite csum_app. rewrite (csum_zero (n' - n)).
    - rewrite (csum_ext n _ (fun j => Cmult (w j) (Cconj (g j)))) by (intros j Hj; unfold padded; rewrite (proj2 (Nat.ltb_lt j n)) by exact Hj; reflexivity). ring.
    - intros j _. unfold padded. rewrite (proj2 (Nat.ltb_ge (n + j) n)) by lia. ring. }
  assert (NP : nrm2 n' (padded n w) = nrm2 n w).
  { apply RtoC_inj. rewrite <- ip_self, PD, <- ip_self. apply ip_ext; [reflexivity|]. intros j Hj. unfold padded. rewrite (proj2 (Nat.ltb_lt j n)) by exact Hj. reflexivity. }
  assert (UP : (Re (gram n' K' (padded n w) (padded n w)) <= nth p evals' 0 * nrm2 n' (padded n w))%R).
  { apply (gram_bound n' K' v (fun q => nth q evals' 0%R) O2 E2 (padded n w) p ltac:(lia)); [exact S'|].
    intros q Hq. rewrite PD. unfold w. rewrite ip_sum_l. replace n with (p + 1 + (n - (p + 1))) at 1 by lia. rewrite csum_app, (csum_zero (n - (p + 1))).
    - rewrite <- (Hx q Hq) at 2. rewrite (csum_ext (p + 1) _ (fun s => Cmult (x s) (ip n (u s) (v q)))); [ring|].
      intros s Hs. unfold a. rewrite (proj2 (Nat.ltb_lt s (p + 1))) by exact Hs. reflexivity.
    - intros s _. unfold a. rewrite (proj2 (Nat.ltb_ge (p + 1 + s) (p + 1))) by lia. ring. }
  assert (LO : (nth p evals 0 * nrm2 n w <= Re (gram n K w w))%R).
  { rewrite (gram_form n K u (fun q => nth q evals 0%R) O1 E1 w). cbn [Re RtoC fst]. rewrite NW. unfold nrm2. rewrite <- rsum_scal_l. apply rsum_le.
    intros q Hq. rewrite (W q Hq). change (Re (a q) ^ 2 + Im (a q) ^ 2)%R with (abs2 (a q)). destruct (Nat.lt_ge_cases q (p + 1)) as [Q|Q].
    - apply Rmult_le_compat_r; [apply abs2_nonneg|]. apply S; lia.
    - unfold a. rewrite (proj2 (Nat.ltb_ge q (p + 1))) by exact Q. unfold abs2. cbn. right. ring. }
  assert (POS : (0 < nrm2 n w)%R).
  { rewrite NW. pose proof (nrm2_nonneg n a) as G. destruct (Req_dec (nrm2 n a) 0) as [Z|]; [|lra]. exfalso. apply Nj0.
    pose proof (nrm2_zero n a Z j0 ltac:(lia)) as X. unfold a in X. rewrite (proj2 (Nat.ltb_lt j0 (p + 1))) in X by exact Hj0. exact X. }
  specialize (LE w). rewrite NP in UP. apply (Rmult_le_reg_r (nrm2 n w)); [exact POS|]. lra.
Qed.
