(** Selecting one order from the sorted result of all orders. *)
From Coq Require Import List ZArith Arith Bool Reals Permutation Lia Lra.
From Coquelicot Require Import Complex.
From Verif Require Import Base ListLemmas PyNum PyNumProofs Index IndexProofs RSum CSum Eigen SpecEigen EigenProofs
  PolarEigenProofs Cache.
Import ListNotations.
Local Open Scope nat_scope.

(** ** Descending lists, recursively *)
Fixpoint desc {A} (key : A -> R) (l : list A) : Prop :=
  match l with [] => True | x :: t => Forall (fun y => (key y <= key x)%R) t /\ desc key t end.

Lemma descending_desc l : descending l <-> desc (fun x => x) l.
Proof.
  induction l as [|x l IH]; cbn.
  - split; [auto|]. intros _ [|p] q a b; discriminate.
  - split.
    + intros H. split.
      * apply Forall_forall. intros y Hy. apply In_nth_error in Hy. destruct Hy as [q Hq].
        apply (H 0 (S q) x y); [lia|reflexivity|exact Hq].
      * apply IH. intros p q a b Hpq Ha Hb. apply (H (S p) (S q) a b); [lia|exact Ha|exact Hb].
    + intros [HF HD] p q a b Hpq Ha Hb. destruct q as [|q]; [lia|]. destruct p as [|p]; cbn in *.
      * injection Ha as <-. rewrite Forall_forall in HF. apply HF. eapply nth_error_In. exact Hb.
      * apply (proj2 IH HD p q a b); [lia|assumption|assumption].
Qed.

Lemma desc_filter {A} (key : A -> R) (P : A -> bool) l : desc key l -> desc key (filter P l).
Proof.
  induction l as [|x l IH]; cbn; [auto|]. intros [HF HD]. destruct (P x); cbn; [|auto].
  split; [|auto]. rewrite Forall_forall in *. intros y Hy. apply filter_In in Hy. apply HF. tauto.
Qed.

Lemma desc_map {A B} (f : A -> B) (key : B -> R) l : desc key (map f l) <-> desc (fun x => key (f x)) l.
Proof. induction l as [|x l IH]; cbn; [tauto|]. rewrite IH, Forall_map. reflexivity. Qed.

Lemma desc_unique {A} (key : A -> R) l : forall l',
  Permutation l l' -> desc key l -> desc key l' ->
  (forall a b, In a l -> In b l -> key a = key b -> a = b) -> l = l'.
Proof.
  induction l as [|a l IH]; intros l' HP HD HD' HU.
  - apply Permutation_nil in HP. congruence.
  - destruct l' as [|b l']; [apply Permutation_sym, Permutation_nil in HP; discriminate|].
    cbn in HD, HD'. destruct HD as [F D], HD' as [F' D'].
    assert (a = b).
    { assert (Hb : In b (a :: l)) by (eapply Permutation_in; [symmetry; exact HP|left; reflexivity]).
      assert (Ha : In a (b :: l')) by (eapply Permutation_in; [exact HP|left; reflexivity]).
      destruct Hb as [Hb|Hb]; [exact Hb|]. destruct Ha as [Ha|Ha]; [congruence|].
      rewrite Forall_forall in F, F'. specialize (F b Hb). specialize (F' a Ha).
      apply HU; [left; reflexivity|right; exact Hb|lra]. }
    subst b. f_equal. apply IH; auto.
    + eapply Permutation_cons_inv. exact HP.
    + intros x y Hx Hy. apply HU; right; assumption.
Qed.

(** ** Selection by a mask *)
Lemma np_where_cons b mask :
  np_where (b :: mask) = (if b then [0] else []) ++ map S (np_where mask).
Proof.
  unfold np_where. cbn [length seq filter]. rewrite <- seq_shift.
  assert (X : forall l, filter (fun i => nth i (b :: mask) false) (map S l)
     = map S (filter (fun i => nth i mask false) l)).
  { induction l as [|x l IH]; [reflexivity|]. cbn [map filter]. rewrite IH.
    change (nth (S x) (b :: mask) false) with (nth x mask false). destruct (nth x mask false); reflexivity. }
  rewrite X. change (nth 0 (b :: mask) false) with b. destruct b; reflexivity.
Qed.

Lemma fancy_shift {A} (a : A) l idx : fancy (a :: l) (map S idx) = fancy l idx.
Proof. unfold fancy. induction idx as [|i idx IH]; [reflexivity|]. cbn. rewrite IH. reflexivity. Qed.

Lemma where_select {A B} (P : B -> bool) (l : list A) : forall (o : list B), length l = length o ->
  fancy l (np_where (map P o)) = Ok (map fst (filter (fun p => P (snd p)) (combine l o))).
Proof.
  induction l as [|a l IH]; intros [|b o] H; try discriminate; [reflexivity|].
  cbn [map]. rewrite np_where_cons. cbn [combine filter snd]. destruct (P b); cbn [app].
  - unfold fancy. cbn [rmap nth_error rbind]. fold (fancy (a :: l) (map S (np_where (map P o)))).
    rewrite fancy_shift, IH by (cbn in H; lia). reflexivity.
  - rewrite fancy_shift, IH by (cbn in H; lia). reflexivity.
Qed.

(** When only the first [n] rows are there. *)
Lemma fancy_prefix {A} (l : list A) n idx :
  (Forall (fun i => i < n) idx -> fancy (firstn n l) idx = fancy l idx) /\
  (Exists (fun i => n <= i) idx -> fancy (firstn n l) idx = Err IndexError).
Proof.
  unfold fancy. induction idx as [|i idx [IH1 IH2]]; split; intros H; cbn [rmap].
  - reflexivity.
  - inversion H.
  - inversion H as [|? ? Hi HF]; subst. rewrite nth_error_firstn by lia. rewrite (IH1 HF). reflexivity.
  - inversion H as [? ? Hi|? ? HE]; subst.
    + assert (nth_error (firstn n l) i = None) as ->; [|reflexivity].
      apply nth_error_None. rewrite firstn_length. lia.
    + destruct (nth_error (firstn n l) i); cbn; [|reflexivity]. rewrite (IH2 HE). reflexivity.
Qed.

(** ** Zipping *)
Lemma map_fst_combine {A B} (a : list A) : forall (b : list B), length a <= length b -> map fst (combine a b) = a.
Proof. induction a as [|x a IH]; intros [|y b] H; cbn in *; try lia; auto. rewrite IH by lia. reflexivity. Qed.
Lemma map_snd_combine {A B} (a : list A) : forall (b : list B), length b <= length a -> map snd (combine a b) = b.
Proof. induction a as [|x a IH]; intros [|y b] H; cbn in *; try lia; auto. rewrite IH by lia. reflexivity. Qed.

Lemma combine_map2 {A B D} (f : D -> A) (g : D -> B) l : combine (map f l) (map g l) = map (fun x => (f x, g x)) l.
Proof. induction l as [|x l IH]; cbn; [reflexivity|]. rewrite IH. reflexivity. Qed.

Lemma combine_app_len {A B} (a a' : list A) (b b' : list B) : length a = length b ->
  combine (a ++ a') (b ++ b') = combine a b ++ combine a' b'.
Proof.
  revert b. induction a as [|x a IH]; intros [|y b] H; try discriminate; [reflexivity|].
  cbn. rewrite IH; [reflexivity|]. cbn in H. lia.
Qed.

Lemma filter_all {A} (P : A -> bool) l : (forall x, In x l -> P x = true) -> filter P l = l.
Proof.
  induction l as [|x l IH]; intros H; [reflexivity|]. cbn. rewrite (H x (or_introl eq_refl)).
  rewrite IH; [reflexivity|]. intros; apply H; right; assumption.
Qed.
Lemma filter_none {A} (P : A -> bool) l : (forall x, In x l -> P x = false) -> filter P l = [].
Proof.
  induction l as [|x l IH]; intros H; [reflexivity|]. cbn. rewrite (H x (or_introl eq_refl)).
  apply IH. intros; apply H; right; assumption.
Qed.

Lemma Permutation_filter_p {A} (P : A -> bool) l l' : Permutation l l' -> Permutation (filter P l) (filter P l').
Proof.
  induction 1; cbn.
  - constructor.
  - destruct (P x); [constructor|]; assumption.
  - destruct (P x), (P y); try apply perm_swap; reflexivity.
  - etransitivity; eassumption.
Qed.

Section Select.
  Variable argsort : list R -> list nat.
  Hypothesis sorted : argsort_ok argsort.
  Variable eigh : nat -> (nat -> nat -> R) -> list R * list (list R).
  Variable Dm : nat -> nat -> nat -> R.
  Variable L : nat.
  Hypothesis Lpos : 1 <= L.
  Hypothesis exact_eigh : forall a, a < L ->
    eigen_r (L - a) (Dm a) (fst (eigh (L - a) (Dm a))) (snd (eigh (L - a) (Dm a))).

  Let ms := zrange (- (Z.of_nat L - 1)) (Z.of_nat L).
  Let out (m : Z) : list R * list (list C) :=
    match solve_order argsort eigh Dm L m with Ok x => x | Err _ => ([], []) end.

  Lemma out_fact m : In m ms ->
    solve_order argsort eigh Dm L m = Ok (out m) /\ length (snd (out m)) = length (fst (out m)) /\
    descending (fst (out m)) /\ length (fst (out m)) = L - Z.abs_nat m.
  Proof.
    intros H. apply in_zrange in H.
    destruct (solve_order_spec argsort sorted eigh Dm L m) as (ev & rows & E & R).
    { cbv zeta. apply exact_eigh. lia. }
    unfold out. rewrite E. destruct R as (R1 & R2 & R3 & R4 & _). cbn. repeat split; try assumption; congruence.
  Qed.

  Definition tag (m : Z) (l : list (R * list C)) : list (R * list C * Z) := map (fun x => (x, m)) l.

  Lemma zip_all l : (forall m, In m l -> In m ms) ->
    combine (combine (concat (map (fun m => fst (out m)) l)) (concat (map (fun m => snd (out m)) l)))
            (concat (map (fun m => repeat m (length (fst (out m)))) l))
    = concat (map (fun m => tag m (combine (fst (out m)) (snd (out m)))) l).
  Proof.
    induction l as [|m l IH]; intros H; [reflexivity|]. cbn [map concat].
    destruct (out_fact m (H m (or_introl eq_refl))) as (_ & E & _ & _).
    rewrite combine_app_len by congruence. rewrite combine_app_len.
    - rewrite IH by (intros; apply H; right; assumption). f_equal.
      unfold tag. generalize (combine_length (fst (out m)) (snd (out m))). rewrite E, Nat.min_id.
      intros HL. rewrite <- HL. generalize (combine (fst (out m)) (snd (out m))). clear.
      induction l as [|x l IH]; cbn; [reflexivity|]. rewrite IH. reflexivity.
    - rewrite combine_length, repeat_length, E. apply Nat.min_id.
  Qed.

  Lemma filter_tagged m l : NoDup l -> In m l ->
    filter (fun p => Z.eqb (snd p) m) (concat (map (fun m => tag m (combine (fst (out m)) (snd (out m)))) l))
    = tag m (combine (fst (out m)) (snd (out m))).
  Proof.
    assert (Hd : forall m' (x : list (R * list C)), m' <> m -> filter (fun p => Z.eqb (snd p) m) (tag m' x) = []).
    { intros m' x N. apply filter_none. intros [a b] H. apply in_map_iff in H. destruct H as [y [H _]].
      injection H as _ <-. apply Z.eqb_neq. exact N. }
    assert (Hs : forall x : list (R * list C), filter (fun p => Z.eqb (snd p) m) (tag m x) = tag m x).
    { intros x. apply filter_all. intros [a b] H. apply in_map_iff in H. destruct H as [y [H _]].
      injection H as _ <-. apply Z.eqb_refl. }
    assert (Hn : forall l', ~ In m l' -> filter (fun p => Z.eqb (snd p) m)
        (concat (map (fun m => tag m (combine (fst (out m)) (snd (out m)))) l')) = []).
    { induction l' as [|m' l' IH]; intros H; [reflexivity|]. cbn [map concat].
      rewrite filter_app, Hd, IH; [reflexivity| |].
      - intros H'. apply H. right. exact H'.
      - intros ->. apply H. left. reflexivity. }
    intros ND Hm. induction l as [|m' l IH]; [contradiction|].
    inversion ND as [|? ? N1 N2]; subst. cbn [map concat]. rewrite filter_app.
    destruct (Z.eq_dec m' m) as [->|N].
    - rewrite Hs, Hn by exact N1. apply app_nil_r.
    - rewrite Hd by exact N. apply IH; [exact N2|]. destruct Hm; [contradiction|assumption].
  Qed.

  (** The all-orders result restricted to one order is the one-order result. *)
  Lemma select_order m evals rows orders ev_m rows_m :
    Z.abs_nat m < L ->
    solve_all_orders argsort eigh Dm L = Ok (evals, rows, orders) ->
    solve_order argsort eigh Dm L m = Ok (ev_m, rows_m) ->
    let idx := np_where (map (fun x => Z.eqb x m) orders) in
    fancy evals idx = Ok ev_m /\
    exists rows', fancy rows idx = Ok rows' /\
      Permutation (combine ev_m rows') (combine ev_m rows_m) /\ length rows' = length rows_m /\
      (NoDup ev_m -> rows' = rows_m).
  Proof.
    intros Hm HA HO. cbv zeta.
    assert (Im : In m ms) by (apply in_zrange; lia).
    destruct (out_fact m Im) as (Eo & Lo & Do & _). rewrite HO in Eo. injection Eo as Eo.
    unfold solve_all_orders in HA. fold ms in HA.
    rewrite (rmap_ok _ (fun m => (fst (out m), snd (out m), repeat m (length (fst (out m)))))) in HA.
    2:{ intros k H. destruct (out_fact k H) as [E1 _]. rewrite E1. cbn [rbind]. destruct (out k) as [a b]. reflexivity. }
    cbn [rbind] in HA. rewrite !map_map in HA. cbn [fst snd] in HA.
    pose proof (zip_all ms (fun k H => H)) as ZA.
    set (ev_all := concat (map (fun m => fst (out m)) ms)) in *.
    set (rows_all := concat (map (fun m => snd (out m)) ms)) in *.
    set (ord_all := concat (map (fun m => repeat m (length (fst (out m)))) ms)) in *.
    assert (LR : length rows_all = length ev_all).
    { unfold rows_all, ev_all. rewrite !length_concat_nsum, !map_map. f_equal. apply map_ext_in.
      intros k Hk. destruct (out_fact k Hk) as (_ & E1 & _). exact E1. }
    assert (LO : length ord_all = length ev_all).
    { unfold ord_all, ev_all. rewrite !length_concat_nsum, !map_map. f_equal. apply map_ext_in.
      intros k Hk. apply repeat_length. }
    set (idx := rev (argsort ev_all)) in *.
    assert (RNG : forall i, In i idx -> i < length ev_all) by (apply (idx_range argsort sorted)).
    rewrite (fancy_ok 0%R) in HA by exact RNG. cbn [rbind] in HA.
    rewrite (fancy_ok []) in HA by (rewrite LR; exact RNG). cbn [rbind] in HA.
    rewrite (fancy_ok 0%Z) in HA by (rewrite LO; exact RNG). cbn [rbind] in HA.
    assert (EV : evals = map (fun i => nth i ev_all 0%R) idx) by congruence.
    assert (RW : rows = map (fun i => nth i rows_all []) idx) by congruence.
    assert (OD : orders = map (fun i => nth i ord_all 0%Z) idx) by congruence.
    assert (DE : descending evals) by (rewrite EV; apply (idx_descending argsort sorted)).
    clear HA.
    (* the zipped result is a permutation of the zipped input *)
    assert (ZP : Permutation (combine (combine evals rows) orders) (combine (combine ev_all rows_all) ord_all)).
    { rewrite EV, RW, OD, !combine_map2.
      unfold idx; rewrite (idx_perm argsort sorted ev_all).
      assert (X : map (fun i => (nth i ev_all 0%R, nth i rows_all [], nth i ord_all 0%Z)) (seq 0 (length ev_all))
                  = combine (combine ev_all rows_all) ord_all); [|rewrite X; reflexivity].
      apply nth_error_ext. intros i. destruct (le_lt_dec (length ev_all) i) as [Hi|Hi].
      - rewrite (proj2 (nth_error_None _ _)) by (rewrite map_length, seq_length; exact Hi).
        symmetry. apply nth_error_None. rewrite !combine_length. lia.
      - rewrite nth_error_map, nth_error_seq by exact Hi. cbn [option_map Nat.add].
        rewrite (nth_error_nth' _ (0%R, [], 0%Z)) by (rewrite !combine_length; lia).
        rewrite combine_nth by (rewrite combine_length; lia). rewrite combine_nth by lia. reflexivity. }
    set (P := fun p : R * list C * Z => Z.eqb (snd p) m).
    assert (FP : Permutation (filter P (combine (combine evals rows) orders)) (tag m (combine ev_m rows_m))).
    { etransitivity; [apply Permutation_filter_p; exact ZP|]. rewrite ZA. unfold P.
      rewrite (filter_tagged m ms (zrange_nodup _ _) Im). rewrite <- Eo. reflexivity. }
    assert (Lr : length rows = length evals) by (rewrite RW, EV, !map_length; reflexivity).
    assert (Lord : length orders = length evals) by (rewrite OD, EV, !map_length; reflexivity).
    (* project *)
    assert (PJ : forall (e : list R) (r : list (list C)) (o : list Z), length r = length e -> length o = length e ->
       map (fun p : R * list C * Z => fst (fst p)) (filter P (combine (combine e r) o))
         = map fst (filter (fun p => Z.eqb (snd p) m) (combine e o)) /\
       map (fun p : R * list C * Z => snd (fst p)) (filter P (combine (combine e r) o))
         = map fst (filter (fun p => Z.eqb (snd p) m) (combine r o))).
    { unfold P. induction e as [|x e IH]; intros [|y r] [|z o] H1 H2; try discriminate; [split; reflexivity|].
      cbn in H1, H2. destruct (IH r o) as [A B]; [lia|lia|]. cbn [combine filter snd].
      destruct (Z.eqb z m); cbn [map fst snd]; [rewrite A, B|]; split; auto. }
    destruct (PJ evals rows orders Lr Lord) as [PJ1 PJ2].
    rewrite (where_select (fun x => Z.eqb x m) evals orders) by congruence.
    rewrite (where_select (fun x => Z.eqb x m) rows orders) by congruence.
    rewrite <- PJ1, <- PJ2. set (F := filter P (combine (combine evals rows) orders)) in *.
    assert (LM : length rows_m = length ev_m) by (rewrite <- Eo in Lo; exact Lo).
    assert (TF : map (fun p : R * list C * Z => fst (fst p)) (tag m (combine ev_m rows_m)) = ev_m).
    { unfold tag. rewrite map_map. cbn. apply map_fst_combine. lia. }
    assert (TS : map (fun p : R * list C * Z => snd (fst p)) (tag m (combine ev_m rows_m)) = rows_m).
    { unfold tag. rewrite map_map. cbn. apply map_snd_combine. lia. }
    assert (DF : desc (fun p : R * list C * Z => fst (fst p)) F).
    { apply desc_filter. apply (desc_map (fun p : R * list C * Z => fst (fst p)) (fun x => x)).
      assert (X : map (fun p : R * list C * Z => fst (fst p)) (combine (combine evals rows) orders) = evals).
      { rewrite <- (map_map fst fst), map_fst_combine, map_fst_combine; [reflexivity| |].
        - lia.
        - rewrite combine_length. lia. }
      rewrite X. apply descending_desc. exact DE. }
    assert (DM : desc (fun x => x) ev_m) by (apply descending_desc; rewrite <- Eo in Do; exact Do).
    assert (EE : map (fun p : R * list C * Z => fst (fst p)) F = ev_m).
    { apply (desc_unique (fun x => x)).
      - rewrite (Permutation_map _ FP), TF. reflexivity.
      - apply (desc_map (fun p : R * list C * Z => fst (fst p)) (fun x => x)). exact DF.
      - exact DM.
      - auto. }
    split; [rewrite EE; reflexivity|].
    exists (map (fun p : R * list C * Z => snd (fst p)) F). split; [reflexivity|].
    split; [|split].
    - rewrite <- EE at 1. rewrite combine_map2.
      rewrite (Permutation_map _ FP). unfold tag. rewrite map_map. cbn [fst snd].
      rewrite (map_ext _ (fun x => x)) by (intros [a b]; reflexivity). rewrite map_id. reflexivity.
    - rewrite (Permutation_length (Permutation_map _ FP)), TS. reflexivity.
    - intros ND. rewrite <- TS. f_equal. apply (desc_unique (fun p : R * list C * Z => fst (fst p))).
      + exact FP.
      + exact DF.
      + apply (desc_map (fun p : R * list C * Z => fst (fst p)) (fun x => x)). rewrite TF. exact DM.
      + (* distinct eigenvalues *)
        assert (NF : NoDup (map (fun p : R * list C * Z => fst (fst p)) F)) by (rewrite EE; exact ND).
        clear - NF. induction F as [|x F IH]; intros a b Ha Hb HK; [contradiction|].
        cbn in NF. inversion NF as [|? ? N1 N2]; subst.
        destruct Ha as [->|Ha], Hb as [->|Hb]; auto.
        * exfalso. apply N1. rewrite HK. apply (in_map (fun p : R * list C * Z => fst (fst p))). exact Hb.
        * exfalso. apply N1. rewrite <- HK. apply (in_map (fun p : R * list C * Z => fst (fst p))). exact Ha.
  Qed.
End Select.
