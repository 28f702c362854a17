(** * Proofs about the latitude-longitude Slepian matrix. *)
From Coq Require Import List ZArith Arith Bool Reals Lia Lra Sorting.Permutation.
From Coquelicot Require Import Coquelicot.
From Verif Require Import Base ListLemmas RSum CSum Numpy Index IndexProofs ArbitraryMatrix FunctionsProofs
  LatLon SpecLatLon LatLonIntegrals.
Import ListNotations.
Local Open Scope Z_scope.

(** ** Loops that fill cells *)
Lemma rfold_cover {A S Cell} (step : S -> A -> res S) (Inv : S -> Prop) (P : S -> Cell -> Prop) (R : A -> Cell -> Prop) xs :
  (forall x s, In x xs -> Inv s ->
     exists s', step s x = Ok s' /\ Inv s' /\ forall c, (P s c \/ R x c) -> P s' c) ->
  forall s, Inv s ->
    exists s', rfold step xs s = Ok s' /\ Inv s' /\ forall c, (P s c \/ exists x, In x xs /\ R x c) -> P s' c.
Proof.
  induction xs as [|x xs IH]; intros H s I.
  - exists s. split; [reflexivity|]. split; [exact I|]. intros c [Hc|(x & [] & _)]. exact Hc.
  - destruct (H x s (or_introl eq_refl) I) as (s1 & E & I1 & H1).
    destruct (IH (fun y t Hy => H y t (or_intror Hy)) s1 I1) as (s2 & E2 & I2 & H2).
    exists s2. cbn [rfold rbind]. rewrite E. cbn [rbind]. split; [exact E2|]. split; [exact I2|].
    intros c [Hc|(y & [->|Hy] & Hc)]; apply H2.
    + left. apply H1. left. exact Hc.
    + left. apply H1. right. exact Hc.
    + right. exists y. split; assumption.
Qed.

Lemma rfold_regions {A S Cell V} (step : S -> A -> res S) (Inv : S -> Prop) (at_ : S -> Cell -> V) (zero : V)
  (Good : Cell -> V -> Prop) (R : A -> Cell -> Prop) xs :
  NoDup xs ->
  (forall x y c, In x xs -> In y xs -> R x c -> R y c -> x = y) ->
  (forall x s, In x xs -> Inv s -> (forall c, R x c -> at_ s c = zero) ->
     exists s', step s x = Ok s' /\ Inv s' /\ (forall c, R x c -> Good c (at_ s' c)) /\
                (forall c, ~ R x c -> at_ s' c = at_ s c)) ->
  forall s, Inv s -> (forall c, (exists x, In x xs /\ R x c) -> at_ s c = zero) ->
    exists s', rfold step xs s = Ok s' /\ Inv s' /\
      (forall c, (exists x, In x xs /\ R x c) -> Good c (at_ s' c)) /\
      (forall c, ~ (exists x, In x xs /\ R x c) -> at_ s' c = at_ s c).
Proof.
  induction xs as [|x xs IH]; intros N D H s I Z0.
  - exists s. split; [reflexivity|]. split; [exact I|]. split; [|reflexivity]. intros c (x & [] & _).
  - inversion_clear N as [|? ? Hx N'].
    destruct (H x s (or_introl eq_refl) I) as (s1 & E & I1 & G1 & U1).
    { intros c Hc. apply Z0. exists x. split; [left; reflexivity|exact Hc]. }
    assert (Dx : forall y c, In y xs -> R y c -> ~ R x c).
    { intros y c Hy Ry Rx. apply Hx. rewrite (D x y c (or_introl eq_refl) (or_intror Hy) Rx Ry). exact Hy. }
    destruct (IH N') with (s := s1) as (s2 & E2 & I2 & G2 & U2).
    + intros y z c Hy Hz. apply D; right; assumption.
    + intros y t Hy. apply H. right. exact Hy.
    + exact I1.
    + intros c (y & Hy & Ry). rewrite U1 by exact (Dx y c Hy Ry). apply Z0. exists y. split; [right; exact Hy|exact Ry].
    + exists s2. cbn [rfold rbind]. rewrite E. cbn [rbind]. split; [exact E2|]. split; [exact I2|]. split.
      * intros c (y & [->|Hy] & Ry).
        -- rewrite U2; [apply G1; exact Ry|]. intros (z & Hz & Rz). exact (Dx z c Hz Rz Ry).
        -- apply G2. exists y. split; assumption.
      * intros c Hc. rewrite U2.
        -- apply U1. intros Rx. apply Hc. exists x. split; [left; reflexivity|exact Rx].
        -- intros (y & Hy & Ry). apply Hc. exists y. split; [right; exact Hy|exact Ry].
Qed.

(** ** Arrays *)
Lemma axis_index_ok n i : 0 <= i < n -> axis_index n i = Ok i.
Proof. intros H. unfold axis_index. rewrite (proj2 (Z.leb_le _ _)), (proj2 (Z.ltb_lt _ _)) by lia. reflexivity. Qed.

Lemma get2_ok a i j : 0 <= i < a2_rows a -> 0 <= j < a2_cols a -> get2 a i j = Ok (a2_at a i j).
Proof. intros H H'. unfold get2. rewrite !axis_index_ok by assumption. reflexivity. Qed.

Lemma get3_ok a i j k : 0 <= i < a3_0 a -> 0 <= j < a3_1 a -> 0 <= k < a3_2 a -> get3 a i j k = Ok (a3_at a i j k).
Proof. intros H H' H''. unfold get3. rewrite !axis_index_ok by assumption. reflexivity. Qed.

Definition shaped (h w : Z) (a : array2) : Prop := a2_rows a = h /\ a2_cols a = w.

Lemma set2_ok h w a i j x : shaped h w a -> 0 <= i < h -> 0 <= j < w ->
  exists a', set2 a i j x = Ok a' /\ shaped h w a' /\ a2_at a' i j = x /\
             (forall r c, (r, c) <> (i, j) -> a2_at a' r c = a2_at a r c).
Proof.
  intros [Hr Hc] Hi Hj. unfold set2. rewrite !axis_index_ok by lia. cbn [rbind].
  eexists. split; [reflexivity|]. split; [split; assumption|]. cbn [a2_at]. split.
  - rewrite !Z.eqb_refl. reflexivity.
  - intros r c N. destruct (Z.eqb_spec r i) as [->|]; [|reflexivity]. destruct (Z.eqb_spec c j) as [->|]; [|reflexivity].
    exfalso. apply N. reflexivity.
Qed.

(** ** The sub-integral table *)
Section Table.
  Variables theta_min theta_max phi_min phi_max : R.
  Let T := T_of theta_min theta_max phi_min phi_max.

  Lemma helper_ok L G row col :
    let n := 4 * L - 3 in let M := 2 * (L - 1) in
    shaped n n G -> Z.abs row <= M -> Z.abs col <= M ->
    exists G', integral_helper theta_min theta_max L G row col (S_of phi_min phi_max row) = Ok G' /\ shaped n n G' /\
      forall rc : Z * Z,
        (a2_at G (M + fst rc) (M + snd rc) = T (fst rc) (snd rc) \/ (rc = (row, col) \/ rc = (- row, - col))) ->
        a2_at G' (M + fst rc) (M + snd rc) = T (fst rc) (snd rc).
  Proof.
    intros n M HG Hr Hc. unfold integral_helper.
    change (match int_inverse (col ^ 2 - 1) with
            | Ok inv => _ | Err _ => _ end) with (Q_of theta_min theta_max col).
    change (Cmult (Q_of theta_min theta_max col) (S_of phi_min phi_max row)) with (T row col).
    fold M.
    destruct (set2_ok n n G (M + row) (M + col) (T row col) HG) as (G1 & E1 & H1 & V1 & U1); [subst n M; lia|subst n M; lia|].
    rewrite E1. cbn [rbind]. rewrite get2_ok by (destruct H1 as [Qr Qc]; rewrite ?Qr, ?Qc; subst n M; lia). cbn [rbind]. rewrite V1.
    destruct (set2_ok n n G1 (M - row) (M - col) (Cconj (T row col)) H1) as (G2 & E2 & H2 & V2 & U2); [subst n M; lia|subst n M; lia|].
    exists G2. split; [exact E2|]. split; [exact H2|]. intros [r c] H. cbn [fst snd] in *.
    destruct (Z.eq_dec r (- row)) as [->|Nr]; [destruct (Z.eq_dec c (- col)) as [->|Nc]|].
    - replace (M + - row) with (M - row) by lia. replace (M + - col) with (M - col) by lia. rewrite V2. symmetry. apply T_conj.
    - rewrite U2 by (intros Q; injection Q; lia).
      destruct (Z.eq_dec (- row) row) as [Er|Er]; [destruct (Z.eq_dec c col) as [->|Nc']|].
      + rewrite Er. exact V1.
      + rewrite U1 by (intros Q; injection Q; lia). destruct H as [H|[H|H]]; [exact H|injection H; congruence|injection H; congruence].
      + rewrite U1 by (intros Q; injection Q; lia). destruct H as [H|[H|H]]; [exact H|injection H; congruence|injection H; congruence].
    - rewrite U2 by (intros Q; injection Q; lia).
      destruct (Z.eq_dec r row) as [->|Er]; [destruct (Z.eq_dec c col) as [->|Nc']|].
      + exact V1.
      + rewrite U1 by (intros Q; injection Q; lia). destruct H as [H|[H|H]]; [exact H|injection H; congruence|injection H; congruence].
      + rewrite U1 by (intros Q; injection Q; lia). destruct H as [H|[H|H]]; [exact H|injection H; congruence|injection H; congruence].
  Qed.

  Lemma slepian_integral_ok L : 1 <= L ->
    exists G, slepian_integral theta_min theta_max phi_min phi_max L = Ok G /\ shaped (4 * L - 3) (4 * L - 3) G /\
      forall row col, Z.abs row <= 2 * (L - 1) -> Z.abs col <= 2 * (L - 1) ->
        a2_at G (2 * (L - 1) + row) (2 * (L - 1) + col) = T row col.
  Proof.
    intros HL. set (n := 4 * L - 3). set (M := 2 * (L - 1)).
    unfold slepian_integral, zeros2. fold n.
    replace ((n <? 0) || (n <? 0)) with false by (symmetry; apply orb_false_iff; split; apply Z.ltb_ge; subst n; lia).
    cbn [rbind].
    set (P := fun (G : array2) (rc : Z * Z) => a2_at G (M + fst rc) (M + snd rc) = T (fst rc) (snd rc)).
    set (G0 := {| a2_rows := n; a2_cols := n; a2_at := fun _ _ => RtoC 0 |}).
    destruct (rfold_cover (fun G col => integral_helper theta_min theta_max L G 0 col (RtoC (phi_max - phi_min)))
                (shaped n n) P (fun col rc => rc = (0, col) \/ rc = (- 0, - col)) (zrange (- 2 * (L - 1)) 1)) with (s := G0)
      as (G1 & E1 & H1 & V1).
    { intros col G Hc HG. apply in_zrange in Hc. exact (helper_ok L G 0 col HG ltac:(lia) ltac:(lia)). }
    { split; reflexivity. }
    rewrite E1. cbn [rbind].
    destruct (rfold_cover (fun G row =>
                let S := Cmult (Cdiv im (RtoC (IZR row))) (Cminus (cexp (IZR row * phi_min)) (cexp (IZR row * phi_max))) in
                rfold (fun G col => integral_helper theta_min theta_max L G row col S) (zrange (- 2 * (L - 1)) (2 * (L - 1) + 1)) G)
                (shaped n n) P
                (fun row rc => exists col, In col (zrange (- 2 * (L - 1)) (2 * (L - 1) + 1)) /\ (rc = (row, col) \/ rc = (- row, - col)))
                (zrange (- 2 * (L - 1)) 0)) with (s := G1) as (G2 & E2 & H2 & V2).
    { intros row G Hr HG. apply in_zrange in Hr.
      assert (ES : Cmult (Cdiv im (RtoC (IZR row))) (Cminus (cexp (IZR row * phi_min)) (cexp (IZR row * phi_max))) = S_of phi_min phi_max row)
        by (unfold S_of; rewrite (proj2 (Z.eqb_neq row 0)) by lia; reflexivity).
      cbv zeta. rewrite ES. apply rfold_cover; [|exact HG].
      intros col G' Hc HG'. apply in_zrange in Hc. exact (helper_ok L G' row col HG' ltac:(lia) ltac:(lia)). }
    { exact H1. }
    exists G2. split; [exact E2|]. split; [exact H2|]. intros row col Hr Hc.
    apply (V2 (row, col)). destruct (Z.lt_trichotomy row 0) as [S|[-> |S]].
    - right. exists row. split; [apply in_zrange; lia|]. exists col. split; [apply in_zrange; lia|]. left. reflexivity.
    - left. apply V1. right. destruct (Z.le_gt_cases col 0).
      + exists col. split; [apply in_zrange; lia|]. left. reflexivity.
      + exists (- col). split; [apply in_zrange; lia|]. right. f_equal. lia.
    - right. exists (- row). split; [apply in_zrange; lia|]. exists (- col). split; [apply in_zrange; lia|]. right. f_equal; lia.
  Qed.
End Table.

(** ** The matrix *)
Lemma cpow_nat_expi n : cpow_nat (Copp im) n = expi (- (INR n * PI / 2)).
Proof.
  induction n as [|n IH].
  - cbn. apply C_ext; cbn; replace (- (0 * PI / 2))%R with 0%R by field; [symmetry; apply cos_0|symmetry; apply sin_0].
  - cbn [cpow_nat]. rewrite IH. rewrite S_INR.
    replace (- ((INR n + 1) * PI / 2))%R with (- (INR n * PI / 2) - PI / 2)%R by field.
    apply C_ext; cbn; [rewrite cos_minus|rewrite sin_minus]; rewrite cos_PI2, sin_PI2; ring.
Qed.

Lemma expi_plus x y : expi (x + y) = Cmult (expi x) (expi y).
Proof. apply C_ext; cbn; [rewrite cos_plus|rewrite sin_plus]; ring. Qed.

Lemma expi_0 : expi 0 = RtoC 1.
Proof. apply C_ext; cbn; [apply cos_0|apply sin_0]. Qed.

Lemma expi_inv x : Cinv (expi x) = expi (- x).
Proof.
  assert (H : expi x <> RtoC 0).
  { intros Q. assert (E : Cmult (expi x) (expi (- x)) = RtoC 1) by (rewrite <- expi_plus; replace (x + - x)%R with 0%R by ring; apply expi_0).
    rewrite Q, Cmult_0_l in E. injection E. lra. }
  rewrite <- (Cmult_1_r (Cinv (expi x))), <- expi_0. replace 0%R with (x + - x)%R by ring.
  rewrite expi_plus, Cmult_assoc, Cinv_l, Cmult_1_l by exact H. reflexivity.
Qed.

Lemma cpow_expi n : cpow (Copp im) n = expi (- (IZR n * PI / 2)).
Proof.
  unfold cpow. destruct (Z.leb_spec 0 n) as [H|H].
  - rewrite cpow_nat_expi, INR_IZR_INZ, Z2Nat.id by lia. reflexivity.
  - rewrite cpow_nat_expi, INR_IZR_INZ, Z2Nat.id, expi_inv, opp_IZR by lia. f_equal. field.
Qed.

Lemma rfold_sum {A} (F : A -> C) (step : C -> A -> res C) xs :
  (forall s x, In x xs -> step s x = Ok (Cplus s (F x))) ->
  forall s, rfold step xs s = Ok (Cplus s (clsum (map F xs))).
Proof.
  induction xs as [|x xs IH]; intros H s; cbn [rfold map clsum].
  - rewrite Cplus_0_r. reflexivity.
  - rewrite (H s x (or_introl eq_refl)). cbn [rbind]. rewrite IH by (intros t y Hy; apply H; right; exact Hy).
    rewrite Cplus_assoc. reflexivity.
Qed.

Lemma rfold_accumulate {A} (F : A -> C) h w (i j : Z) (step : array2 -> A -> res array2) xs :
  0 <= i < h -> 0 <= j < w ->
  (forall K x, In x xs -> shaped h w K -> step K x = (let* old := get2 K i j in set2 K i j (Cplus old (F x)))) ->
  forall K, shaped h w K ->
    exists K', rfold step xs K = Ok K' /\ shaped h w K' /\ a2_at K' i j = Cplus (a2_at K i j) (clsum (map F xs)) /\
      (forall r c, (r, c) <> (i, j) -> a2_at K' r c = a2_at K r c).
Proof.
  intros Hi Hj. induction xs as [|x xs IH]; intros H K HK; cbn [rfold map clsum].
  - exists K. split; [reflexivity|]. split; [exact HK|]. split; [rewrite Cplus_0_r; reflexivity|reflexivity].
  - rewrite (H K x (or_introl eq_refl) HK). rewrite get2_ok by (destruct HK as [Qr Qc]; rewrite ?Qr, ?Qc; lia). cbn [rbind].
    destruct (set2_ok h w K i j (Cplus (a2_at K i j) (F x)) HK Hi Hj) as (K1 & E1 & H1 & V1 & U1). rewrite E1. cbn [rbind].
    destruct (IH (fun K' y Hy => H K' y (or_intror Hy)) K1 H1) as (K2 & E2 & H2 & V2 & U2).
    exists K2. split; [exact E2|]. split; [exact H2|]. split.
    + rewrite V2, V1. rewrite Cplus_assoc. reflexivity.
    + intros r c N. rewrite U2, U1 by exact N. reflexivity.
Qed.

Definition position (l m : Z) : Z := l * (l + 1) + m.

Lemma position_bounds l m : Z.abs m <= l -> l * l <= position l m < (l + 1) * (l + 1).
Proof. unfold position. lia. Qed.

Lemma position_inj l m l' m' : Z.abs m <= l -> Z.abs m' <= l' -> position l m = position l' m' -> l = l' /\ m = m'.
Proof.
  intros H H' E. pose proof (position_bounds l m H) as B. pose proof (position_bounds l' m' H') as B'. rewrite E in B.
  assert (l = l').
  { destruct (Z.lt_trichotomy l l') as [Q|[Q|Q]]; [exfalso|exact Q|exfalso].
    - assert ((l + 1) * (l + 1) <= l' * l') by (apply Z.mul_le_mono_nonneg; lia). lia.
    - assert ((l' + 1) * (l' + 1) <= l * l) by (apply Z.mul_le_mono_nonneg; lia). lia. }
  subst l'. split; [reflexivity|]. unfold position in E. lia.
Qed.

Lemma position_lt L l m : l < L -> Z.abs m <= l -> 0 <= position l m < L ^ 2.
Proof.
  intros HL H. pose proof (position_bounds l m H) as B. rewrite Z.pow_2_r.
  assert ((l + 1) * (l + 1) <= L * L) by (apply Z.mul_le_mono_nonneg; lia). assert (0 <= l * l) by (apply Z.mul_nonneg_nonneg; lia). lia.
Qed.

Section Matrix.
  Variables theta_min theta_max phi_min phi_max : R.
  Variable dl : array3.
  Variable L : Z.
  Hypothesis HL : 1 <= L.
  Hypothesis D0 : a3_0 dl = L.
  Hypothesis D1 : a3_1 dl = 2 * L - 1.
  Hypothesis D2 : a3_2 dl = 2 * L - 1.
  Variable G : array2.
  Hypothesis GS : shaped (4 * L - 3) (4 * L - 3) G.
  Let T := T_of theta_min theta_max phi_min phi_max.
  Hypothesis GT : forall row col, Z.abs row <= 2 * (L - 1) -> Z.abs col <= 2 * (L - 1) ->
    a2_at G (2 * (L - 1) + row) (2 * (L - 1) + col) = T row col.

  Let N := L - 1.
  Definition table (l k m : Z) : R := a3_at dl l (L - 1 + k) (L - 1 + m).

  Definition S1_of p q mp row : C :=
    clsum (map (fun qp => Cmult (RtoC (table p qp q * table p qp 0)) (T row (mp - qp))) (zrange (- p) (p + 1))).
  Definition entry_of l p m q : C :=
    Cmult (clsum (map (fun mp => Cmult (RtoC (table l mp m * table l mp 0)) (S1_of p q mp (m - q))) (zrange (- l) (l + 1))))
      (Cmult (RtoC (sqrt (IZR ((2 * l + 1) * (2 * p + 1))) / (4 * PI))) (expi (- (IZR (m - q) * PI / 2)))).

  Lemma get_dl l k m : 0 <= l < L -> Z.abs k <= N -> Z.abs m <= N -> get3 dl l (N + k) (N + m) = Ok (table l k m).
  Proof. intros. unfold table. rewrite get3_ok; [reflexivity|rewrite D0|rewrite D1|rewrite D2]; subst N; lia. Qed.
  Lemma get_dl0 l k : 0 <= l < L -> Z.abs k <= N -> get3 dl l (N + k) N = Ok (table l k 0).
  Proof. intros H H'. rewrite <- (get_dl l k 0 H H') by (subst N; lia). f_equal. lia. Qed.

  Lemma sum_qp_ok p q mp row : 0 <= p < L -> Z.abs q <= p -> Z.abs mp <= N -> Z.abs row <= 2 * N ->
    sum_qp dl N G p q mp row = Ok (S1_of p q mp row).
  Proof.
    intros Hp Hq Hmp Hrow. unfold sum_qp, S1_of.
    rewrite (rfold_sum (fun qp => Cmult (RtoC (table p qp q * table p qp 0)) (T row (mp - qp)))).
    - rewrite Cplus_0_l. reflexivity.
    - intros s qp Hqp. apply in_zrange in Hqp. cbv zeta.
      rewrite get_dl by (subst N; lia). cbn [rbind]. rewrite get_dl0 by (subst N; lia). cbn [rbind].
      rewrite get2_ok by (destruct GS as [Qr Qc]; rewrite ?Qr, ?Qc; subst N; lia). cbn [rbind]. subst N. rewrite GT by lia. reflexivity.
  Qed.

  Lemma matrix_entry_ok l p m q K :
    0 <= l < L -> 0 <= p <= l -> Z.abs m <= l -> Z.abs q <= p -> shaped (L ^ 2) (L ^ 2) K ->
    a2_at K (position l m) (position p q) = RtoC 0 ->
    exists K', matrix_entry dl N G l p m q K = Ok K' /\ shaped (L ^ 2) (L ^ 2) K' /\
      a2_at K' (position l m) (position p q) = entry_of l p m q /\
      (forall r c, (r, c) <> (position l m, position p q) -> a2_at K' r c = a2_at K r c).
  Proof.
    intros Hl Hp Hm Hq HK Z0. unfold matrix_entry. fold (position l m). fold (position p q).
    pose proof (position_lt L l m ltac:(lia) Hm) as B1. pose proof (position_lt L p q ltac:(lia) Hq) as B2.
    destruct (rfold_accumulate (fun mp => Cmult (RtoC (table l mp m * table l mp 0)) (S1_of p q mp (m - q)))
      (L ^ 2) (L ^ 2) (position l m) (position p q)
      (fun K mp =>
        let* x := get3 dl l (N + mp) (N + m) in let* y := get3 dl l (N + mp) N in
        let* S1 := sum_qp dl N G p q mp (m - q) in
        let* old := get2 K (position l m) (position p q) in
        set2 K (position l m) (position p q) (Cplus old (Cmult (RtoC (x * y)) S1)))
      (zrange (- l) (l + 1)) B1 B2) with (K := K) as (K1 & E1 & H1 & V1 & U1).
    - intros K' mp Hmp HK'. apply in_zrange in Hmp.
      rewrite get_dl by (subst N; lia). cbn [rbind]. rewrite get_dl0 by (subst N; lia). cbn [rbind].
      rewrite sum_qp_ok by (subst N; lia). reflexivity.
    - exact HK.
    - cbv zeta in E1 |- *. rewrite E1. cbn [rbind]. rewrite get2_ok by (destruct H1 as [Qr Qc]; rewrite ?Qr, ?Qc; lia). cbn [rbind].
      destruct (set2_ok (L ^ 2) (L ^ 2) K1 (position l m) (position p q)
                 (Cmult (a2_at K1 (position l m) (position p q))
                    (Cmult (RtoC (sqrt (IZR ((2 * l + 1) * (2 * p + 1))) / (4 * PI))) (cpow (Copp im) (m - q)))) H1 B1 B2)
        as (K2 & E2 & H2 & V2 & U2).
      exists K2. split; [exact E2|]. split; [exact H2|]. split.
      + rewrite V2, V1, Z0, Cplus_0_l, cpow_expi. reflexivity.
      + intros r c Nrc. rewrite U2, U1 by exact Nrc. reflexivity.
  Qed.

  Let cell (l m p q : Z) : Z * Z := (position l m, position p q).
  Let val (K : array2) (rc : Z * Z) : C := a2_at K (fst rc) (snd rc).
  Let Good (rc : Z * Z) (v : C) : Prop :=
    forall l m p q, Z.abs m <= l -> Z.abs q <= p -> rc = cell l m p q -> v = entry_of l p m q.

  Let Rq (l p m q : Z) (rc : Z * Z) : Prop := rc = cell l m p q.
  Let Rm (l p m : Z) rc : Prop := exists q, In q (zrange (- p) (p + 1)) /\ Rq l p m q rc.
  Let Rp (l p : Z) rc : Prop := exists m, In m (zrange (- l) (l + 1)) /\ Rm l p m rc.
  Let Rl (l : Z) rc : Prop := exists p, In p (zrange 0 (l + 1)) /\ Rp l p rc.

  Lemma matrix_ell_ok l K : 0 <= l < L -> shaped (L ^ 2) (L ^ 2) K -> (forall rc, Rl l rc -> val K rc = RtoC 0) ->
    exists K', matrix_ell dl N G K l = Ok K' /\ shaped (L ^ 2) (L ^ 2) K' /\
      (forall rc, Rl l rc -> Good rc (val K' rc)) /\ (forall rc, ~ Rl l rc -> val K' rc = val K rc).
  Proof.
    intros Hl HK Z0. unfold matrix_ell.
    apply (rfold_regions _ (shaped (L ^ 2) (L ^ 2)) val (RtoC 0) Good (Rp l)); [apply zrange_nodup| | |exact HK|exact Z0].
    - intros p p' rc Hp Hp' (m & Hm & q & Hq & E) (m' & Hm' & q' & Hq' & E').
      apply in_zrange in Hp, Hp', Hm, Hm', Hq, Hq'. unfold Rq, cell in E, E'. rewrite E in E'. injection E' as E1 E2.
      apply (position_inj p q p' q') in E2; [tauto|lia|lia].
    - intros p K1 Hp HK1 Z1. apply in_zrange in Hp.
      apply (rfold_regions _ (shaped (L ^ 2) (L ^ 2)) val (RtoC 0) Good (Rm l p)); [apply zrange_nodup| | |exact HK1|exact Z1].
      + intros m m' rc Hm Hm' (q & Hq & E) (q' & Hq' & E'). apply in_zrange in Hm, Hm', Hq, Hq'.
        unfold Rq, cell in E, E'. rewrite E in E'. injection E' as E1 E2. apply (position_inj l m l m') in E1; [tauto|lia|lia].
      + intros m K2 Hm HK2 Z2. apply in_zrange in Hm.
        apply (rfold_regions _ (shaped (L ^ 2) (L ^ 2)) val (RtoC 0) Good (Rq l p m)); [apply zrange_nodup| | |exact HK2|exact Z2].
        * intros q q' rc Hq Hq' E E'. apply in_zrange in Hq, Hq'. unfold Rq, cell in E, E'. rewrite E in E'. injection E' as E2.
          apply (position_inj p q p q') in E2; [tauto|lia|lia].
        * intros q K3 Hq HK3 Z3. apply in_zrange in Hq.
          destruct (matrix_entry_ok l p m q K3 Hl ltac:(lia) ltac:(lia) ltac:(lia) HK3 (Z3 (cell l m p q) eq_refl)) as (K4 & E4 & H4 & V4 & U4).
          exists K4. split; [exact E4|]. split; [exact H4|]. split.
          -- intros rc Hrc l' m' p' q' Hm' Hq' E. unfold Rq in Hrc. rewrite Hrc in E. injection E as A B.
             apply position_inj in A; [|lia|lia]. apply position_inj in B; [|lia|lia].
             destruct A as [<- <-], B as [<- <-]. rewrite Hrc. exact V4.
          -- intros [r c] Nrc. apply U4. exact Nrc.
  Qed.

  Lemma slepian_matrix_ok order : Permutation order (zrange 0 L) ->
    exists K, slepian_matrix dl N G order L = Ok K /\ shaped (L ^ 2) (L ^ 2) K /\
      (forall l m p q, 0 <= p <= l -> l < L -> Z.abs m <= l -> Z.abs q <= p ->
         a2_at K (position l m) (position p q) = entry_of l p m q).
  Proof.
    intros HO. unfold slepian_matrix, zeros2.
    assert (0 <= L ^ 2) by (apply Z.pow_nonneg; lia).
    replace ((L ^ 2 <? 0) || (L ^ 2 <? 0)) with false by (symmetry; apply orb_false_iff; split; apply Z.ltb_ge; lia).
    cbn [rbind]. set (K0 := {| a2_rows := L ^ 2; a2_cols := L ^ 2; a2_at := fun _ _ => RtoC 0 |}).
    assert (HO' : forall l, In l order -> 0 <= l < L) by (intros l Hl; apply in_zrange; eapply Permutation_in; [exact HO|exact Hl]).
    destruct (rfold_regions (matrix_ell dl N G) (shaped (L ^ 2) (L ^ 2)) val (RtoC 0) Good Rl order) with (s := K0)
      as (K & E & HK & HG & _).
    - eapply Permutation_NoDup; [apply Permutation_sym; exact HO|apply zrange_nodup].
    - intros l l' rc Hl Hl' (p & Hp & m & Hm & q & Hq & E) (p' & Hp' & m' & Hm' & q' & Hq' & E').
      apply in_zrange in Hp, Hp', Hm, Hm', Hq, Hq'. unfold Rq, cell in E, E'. rewrite E in E'. injection E' as E1 E2.
      apply (position_inj l m l' m') in E1; [tauto|lia|lia].
    - intros l K1 Hl HK1 Z1. apply matrix_ell_ok; auto.
    - split; reflexivity.
    - reflexivity.
    - exists K. split; [exact E|]. split; [exact HK|]. intros l m p q Hp Hl Hm Hq.
      apply (HG (cell l m p q)) with (l := l) (m := m) (p := p) (q := q); [|exact Hm|exact Hq|reflexivity].
      exists l. split; [eapply Permutation_in; [apply Permutation_sym; exact HO|apply in_zrange; lia]|].
      exists p. split; [apply in_zrange; lia|]. exists m. split; [apply in_zrange; lia|].
      exists q. split; [apply in_zrange; lia|reflexivity].
  Qed.
End Matrix.

(** ** The entries are integrals *)
Section Integral.
  Variables theta_min theta_max phi_min phi_max : R.
  Variable dl : array3.
  Variable L : Z.
  Let d := table dl L.
  Let entry := entry_of theta_min theta_max phi_min phi_max dl L.

  Lemma clsum_conj {A} (f : A -> C) xs : Cconj (clsum (map f xs)) = clsum (map (fun x => Cconj (f x)) xs).
  Proof. induction xs as [|x xs IH]; cbn [map clsum]; [apply Cconj_R|]. rewrite Cconj_plus, IH. reflexivity. Qed.

  Lemma clsum_map_scal_r {A} a (f : A -> C) l : clsum (map (fun x => Cmult (f x) a) l) = Cmult (clsum (map f l)) a.
  Proof. rewrite (Cmult_comm _ a), <- clsum_map_scal_l. apply clsum_map_ext. intros x _. apply Cmult_comm. Qed.

  Let X (l m : Z) (k : Z) : R := d l k m * d l k 0.

  Lemma integrand l m p q theta phi : 0 <= l -> 0 <= p ->
    Cmult (Cmult (harmonic d l m theta phi) (Cconj (harmonic d p q theta phi))) (RtoC (sin theta)) =
    Cmult (Cmult (Cmult (RtoC (sqrt (IZR ((2 * l + 1) * (2 * p + 1))) / (4 * PI))) (expi (- (IZR (m - q) * PI / 2))))
                 (expi (IZR (m - q) * phi)))
      (clsum (map (fun mp => clsum (map (fun qp =>
         Cmult (Cmult (RtoC (X l m mp)) (RtoC (X p q qp)))
           (Cmult (RtoC (sin theta)) (expi (IZR (mp - qp) * theta)))) (zrange (- p) (p + 1)))) (zrange (- l) (l + 1)))).
  Proof.
    intros Hl Hp. unfold harmonic.
    set (A := clsum (map (fun k => Cmult (RtoC (d l k m * d l k 0)) (expi (IZR k * theta))) (zrange (- l) (l + 1)))).
    set (B := clsum (map (fun k => Cmult (RtoC (d p k q * d p k 0)) (expi (IZR k * theta))) (zrange (- p) (p + 1)))).
    assert (EB : Cconj B = clsum (map (fun k => Cmult (RtoC (X p q k)) (expi (- (IZR k * theta)))) (zrange (- p) (p + 1)))).
    { unfold B. rewrite clsum_conj. apply clsum_map_ext. intros k _. rewrite Cconj_mult, Cconj_R, expi_neg. reflexivity. }
    replace (clsum (map _ (zrange (- l) (l + 1)))) with (Cmult (Cmult A (Cconj B)) (RtoC (sin theta))).
    2:{ rewrite EB. unfold A. rewrite <- Cmult_assoc. rewrite <- clsum_map_scal_r. apply clsum_map_ext. intros mp _.
        rewrite <- clsum_map_scal_r, <- clsum_map_scal_l. apply clsum_map_ext. intros qp _.
        rewrite minus_IZR. replace ((IZR mp - IZR qp) * theta)%R with (IZR mp * theta + - (IZR qp * theta))%R by ring.
        rewrite expi_plus. unfold X. ring. }
    assert (ES : RtoC (sqrt (IZR ((2 * l + 1) * (2 * p + 1))) / (4 * PI)) =
                 Cmult (RtoC (sqrt (IZR (2 * l + 1) / (4 * PI)))) (RtoC (sqrt (IZR (2 * p + 1) / (4 * PI))))).
    { rewrite <- RtoC_mult. f_equal. assert (0 < PI)%R by apply PI_RGT_0.
      assert (0 <= IZR (2 * l + 1))%R by (apply IZR_le; lia). assert (0 <= IZR (2 * p + 1))%R by (apply IZR_le; lia).
      rewrite <- sqrt_mult by (apply Rdiv_le_0_compat; lra).
      rewrite mult_IZR. replace (IZR (2 * l + 1) / (4 * PI) * (IZR (2 * p + 1) / (4 * PI)))%R
        with (IZR (2 * l + 1) * IZR (2 * p + 1) / ((4 * PI) * (4 * PI)))%R by (field; lra).
      rewrite sqrt_div_alt by (apply Rmult_lt_0_compat; lra). rewrite sqrt_square by lra. reflexivity. }
    rewrite ES. rewrite !Cconj_mult, Cconj_R, <- !expi_neg.
    replace (expi (- (IZR (m - q) * PI / 2))) with (Cmult (expi (- (IZR m * PI / 2))) (expi (- - (IZR q * PI / 2))))
      by (rewrite <- expi_plus; f_equal; rewrite minus_IZR; field).
    replace (expi (IZR (m - q) * phi)) with (Cmult (expi (IZR m * phi)) (expi (- (IZR q * phi))))
      by (rewrite <- expi_plus; f_equal; rewrite minus_IZR; ring).
    ring.
  Qed.

  Lemma entry_integral l m p q : 0 <= l -> 0 <= p ->
    box_integral (fun theta phi => Cmult (Cmult (harmonic d l m theta phi) (Cconj (harmonic d p q theta phi))) (RtoC (sin theta)))
      theta_min theta_max phi_min phi_max (entry l p m q).
  Proof.
    intros Hl Hp.
    set (c := Cmult (RtoC (sqrt (IZR ((2 * l + 1) * (2 * p + 1))) / (4 * PI))) (expi (- (IZR (m - q) * PI / 2)))).
    set (W := clsum (map (fun mp => clsum (map (fun qp =>
         Cmult (Cmult (RtoC (X l m mp)) (RtoC (X p q qp))) (Q_of theta_min theta_max (mp - qp)))
         (zrange (- p) (p + 1)))) (zrange (- l) (l + 1)))).
    exists (fun phi => Cmult (Cmult c (expi (IZR (m - q) * phi))) W). split.
    - intros phi. eapply cint_ext; [intros theta; symmetry; apply integrand; assumption|]. fold c.
      apply cint_scal. apply cint_clsum. intros mp _. apply cint_clsum. intros qp _. apply cint_scal. apply colatitude_integral.
    - eapply cint_val; [|eapply (cint_ext (fun phi => Cmult (Cmult c W) (expi (IZR (m - q) * phi))));
                          [intros phi; ring|apply cint_scal, longitude_integral]].
      unfold entry, entry_of, S1_of, W. fold d. fold c.
      rewrite (Cmult_comm _ c), <- !Cmult_assoc. f_equal. rewrite <- clsum_map_scal_r. apply clsum_map_ext. intros mp _.
      rewrite <- clsum_map_scal_r, <- clsum_map_scal_l. apply clsum_map_ext. intros qp _. unfold T_of, X. ring.
  Qed.

  Lemma entry_conj l m p q : 0 <= l -> 0 <= p ->
    box_integral (fun theta phi => Cmult (Cmult (harmonic d l m theta phi) (Cconj (harmonic d p q theta phi))) (RtoC (sin theta)))
      theta_min theta_max phi_min phi_max (Cconj (entry p l q m)).
  Proof.
    intros Hl Hp. destruct (entry_integral p q l m Hp Hl) as (inner & Hi & Ho).
    exists (fun phi => Cconj (inner phi)). split.
    - intros phi. eapply cint_ext; [|apply cint_conj, Hi]. intros theta. cbn beta.
      rewrite !Cconj_mult, Cconj_conj, Cconj_R. ring.
    - apply cint_conj. exact Ho.
  Qed.
End Integral.

Lemma box_integral_unique f a b a' b' v v' : box_integral f a b a' b' v -> box_integral f a b a' b' v' -> v = v'.
Proof.
  intros (i & Hi & H) (i' & Hi' & H'). eapply cint_unique; [exact H|].
  eapply cint_ext; [|exact H']. intros phi. eapply cint_unique; [apply Hi'|apply Hi].
Qed.

(** ** The matrix, entry by entry *)
Section Entries.
  Variables theta_min theta_max phi_min phi_max : R.
  Variable dl : array3.
  Variable L : nat.
  Hypothesis HL : (1 <= L)%nat.
  Hypothesis D0 : a3_0 dl = Z.of_nat L.
  Hypothesis D1 : a3_1 dl = 2 * Z.of_nat L - 1.
  Hypothesis D2 : a3_2 dl = 2 * Z.of_nat L - 1.
  Let d := table dl (Z.of_nat L).

  Lemma number_position i : (i < L * L)%nat ->
    exists l m, 0 <= l < Z.of_nat L /\ Z.abs m <= l /\ Z.of_nat i = position l m /\
      (forall theta phi, harmonic_number d i theta phi = harmonic d l m theta phi).
  Proof.
    intros Hi. exists (Z.of_nat (Nat.sqrt i)), (Z.of_nat i - Z.of_nat (Nat.sqrt i) * Z.of_nat (Nat.sqrt i) - Z.of_nat (Nat.sqrt i)).
    pose proof (ind2elm_range i) as B. pose proof (ind2elm_lt L i Hi) as B'. unfold ind2elm in B, B'. cbn [fst snd] in B, B'.
    split; [lia|]. split; [lia|]. split; [unfold position; lia|reflexivity].
  Qed.

  (** The lower half filled in from the upper half, given the lower half. *)
  Lemma filled_overlap K :
    (forall l m p q, 0 <= p <= l -> l < Z.of_nat L -> Z.abs m <= l -> Z.abs q <= p ->
       a2_at K (position l m) (position p q) = entry_of theta_min theta_max phi_min phi_max dl (Z.of_nat L) l p m q) ->
    forall i j, (i < L * L)%nat -> (j < L * L)%nat ->
      overlap d i j theta_min theta_max phi_min phi_max (fill_upper (L * L) (fun r c => a2_at K (Z.of_nat r) (Z.of_nat c)) i j).
  Proof.
    intros HK i j Hi Hj.
    destruct (number_position i Hi) as (l & m & Hl & Hm & Ei & Yi). destruct (number_position j Hj) as (p & q & Hp & Hq & Ej & Yj).
    assert (EX : forall v, box_integral (fun theta phi => Cmult (Cmult (harmonic d l m theta phi) (Cconj (harmonic d p q theta phi))) (RtoC (sin theta)))
      theta_min theta_max phi_min phi_max v -> overlap d i j theta_min theta_max phi_min phi_max v).
    { intros v (inner & Hin & Hout). exists inner. split; [|exact Hout]. intros phi.
      eapply cint_ext; [|apply Hin]. intros theta. cbn beta. rewrite Yi, Yj. reflexivity. }
    apply EX. unfold fill_upper.
    assert (Hlp : (i < j)%nat -> l <= p).
    { intros Q. destruct (Z.le_gt_cases l p) as [|C]; [assumption|exfalso].
      pose proof (position_bounds l m Hm). pose proof (position_bounds p q Hq).
      assert ((p + 1) * (p + 1) <= l * l) by (apply Z.mul_le_mono_nonneg; lia). lia. }
    assert (Hpl : (j <= i)%nat -> p <= l).
    { intros Q. destruct (Z.le_gt_cases p l) as [|C]; [assumption|exfalso].
      pose proof (position_bounds l m Hm). pose proof (position_bounds p q Hq).
      assert ((l + 1) * (l + 1) <= p * p) by (apply Z.mul_le_mono_nonneg; lia). lia. }
    destruct (Nat.ltb_spec i j) as [Q|Q].
    - rewrite (proj2 (Nat.ltb_lt j (L * L)) Hj). cbn [andb]. rewrite Ei, Ej, HK by lia. apply entry_conj; lia.
    - cbn [andb]. rewrite Ei, Ej, HK by lia. apply entry_integral; lia.
  Qed.

  Lemma create_K_ok order : Permutation order (zrange 0 (Z.of_nat L)) ->
    exists K, create_K_matrix theta_min theta_max phi_min phi_max dl order (Z.of_nat L) = Ok K /\
      forall i j, (i < L * L)%nat -> (j < L * L)%nat -> overlap d i j theta_min theta_max phi_min phi_max (K i j).
  Proof.
    intros HO. unfold create_K_matrix.
    destruct (slepian_integral_ok theta_min theta_max phi_min phi_max (Z.of_nat L) ltac:(lia)) as (G & EG & SG & HG).
    rewrite EG. cbn [rbind].
    destruct (slepian_matrix_ok theta_min theta_max phi_min phi_max dl (Z.of_nat L) ltac:(lia) D0 D1 D2 G SG HG order HO) as (K & EK & SK & HK).
    rewrite EK. cbn [rbind]. eexists. split; [reflexivity|]. intros i j Hi Hj.
    assert (E2 : Z.to_nat (Z.of_nat L ^ 2) = (L * L)%nat) by (rewrite Z.pow_2_r; lia). rewrite E2.
    apply filled_overlap; assumption.
  Qed.
End Entries.

Lemma overlap_conj d i j a b c e v : overlap d i j a b c e v -> overlap d j i a b c e (Cconj v).
Proof.
  intros (inner & Hi & Ho). exists (fun phi => Cconj (inner phi)). split; [|apply cint_conj; exact Ho].
  intros phi. eapply cint_ext; [|apply cint_conj, Hi]. intros theta. cbn beta. rewrite !Cconj_mult, Cconj_conj, Cconj_R. ring.
Qed.

(** ** Energies *)
Lemma box_ext f g a b c e v : (forall t p, f t p = g t p) -> box_integral f a b c e v -> box_integral g a b c e v.
Proof. intros H (i & Hi & Ho). exists i. split; [|exact Ho]. intros p. eapply cint_ext; [|apply Hi]. intros t. apply H. Qed.
Lemma box_plus f g a b c e v w : box_integral f a b c e v -> box_integral g a b c e w ->
  box_integral (fun t p => Cplus (f t p) (g t p)) a b c e (Cplus v w).
Proof.
  intros (i & Hi & Ho) (i' & Hi' & Ho'). exists (fun p => Cplus (i p) (i' p)). split; [|apply cint_plus; assumption].
  intros p. apply cint_plus; auto.
Qed.
Lemma box_scal k f a b c e v : box_integral f a b c e v -> box_integral (fun t p => Cmult k (f t p)) a b c e (Cmult k v).
Proof. intros (i & Hi & Ho). exists (fun p => Cmult k (i p)). split; [|apply cint_scal; assumption]. intros p. apply cint_scal; auto. Qed.
Lemma box_zero a b c e : box_integral (fun _ _ => RtoC 0) a b c e (RtoC 0).
Proof. exists (fun _ => RtoC 0). split; [intros p|]; apply cint_zero. Qed.
Lemma box_csum n (F : nat -> R -> R -> C) (v : nat -> C) a b c e :
  (forall i, (i < n)%nat -> box_integral (F i) a b c e (v i)) ->
  box_integral (fun t p => csum n (fun i => F i t p)) a b c e (csum n v).
Proof.
  induction n as [|n IH]; intros H; cbn [csum]; [apply box_zero|]. apply box_plus; [apply IH; intros; apply H; lia|apply H; lia].
Qed.
Lemma box_val f a b c e v w : v = w -> box_integral f a b c e v -> box_integral f a b c e w.
Proof. intros ->. auto. Qed.

Lemma Cmod2 z : RtoC (Cmod z ^ 2) = Cmult z (Cconj z).
Proof.
  destruct z as [x y]. unfold Cmod. rewrite pow2_sqrt; [|cbn; pose proof (Rle_0_sqr x); pose proof (Rle_0_sqr y); unfold Rsqr in *; lra].
  apply C_ext; cbn; ring.
Qed.

Lemma energy_form d n w K a b c e :
  (forall i j, (i < n)%nat -> (j < n)%nat -> overlap d i j a b c e (K i j)) ->
  box_integral (fun t p => RtoC (Cmod (band_limited d n w t p) ^ 2 * sin t)) a b c e
    (csum n (fun i => csum n (fun j => Cmult (Cmult (w i) (Cconj (w j))) (K i j)))).
Proof.
  intros H.
  eapply box_ext; [|apply (box_csum n (fun i t p => csum n (fun j => Cmult (Cmult (w i) (Cconj (w j)))
     (Cmult (Cmult (harmonic_number d i t p) (Cconj (harmonic_number d j t p))) (RtoC (sin t)))))
     (fun i => csum n (fun j => Cmult (Cmult (w i) (Cconj (w j))) (K i j))))].
  - intros t p. cbn beta. rewrite RtoC_mult, Cmod2. unfold band_limited. rewrite csum_conj, csum_mult.
    rewrite <- csum_scal_r. apply csum_ext. intros i _. rewrite <- csum_scal_r. apply csum_ext. intros j _. rewrite Cconj_mult. ring.
  - intros i Hi.
    apply (box_csum n (fun j t p => Cmult (Cmult (w i) (Cconj (w j)))
       (Cmult (Cmult (harmonic_number d i t p) (Cconj (harmonic_number d j t p))) (RtoC (sin t))))
       (fun j => Cmult (Cmult (w i) (Cconj (w j))) (K i j))).
    intros j Hj. apply box_scal. exact (H i j Hi Hj).
Qed.

(** The value of an energy is real. *)
Lemma energy_real f a b c e v :
  box_integral (fun t p => RtoC (f t p)) a b c e v -> v = RtoC (Re v).
Proof.
  intros H. apply C_ext; [reflexivity|]. cbn.
  assert (Q : v = Cconj v).
  { eapply box_integral_unique; [exact H|]. destruct H as (i & Hi & Ho). exists (fun p => Cconj (i p)). split; [|apply cint_conj; exact Ho].
    intros p. eapply cint_ext; [|apply cint_conj, Hi]. intros t. apply Cconj_R. }
  apply (f_equal Im) in Q. cbn in Q. unfold Im in *. lra.
Qed.

Lemma box_nonneg (f : R -> R -> R) a b c e v :
  (a <= b)%R -> (c <= e)%R -> (forall t p, (a <= t <= b)%R -> (0 <= f t p)%R) ->
  box_integral (fun t p => RtoC (f t p)) a b c e (RtoC v) -> (0 <= v)%R.
Proof.
  intros Hab Hce Hf (i & Hi & [Ho _]). cbn in Ho.
  apply (is_RInt_le (fun _ => 0%R) (fun x => Re (i x)) c e 0%R v Hce).
  - eapply is_RInt_val; [|exact (is_RInt_const c e 0%R)]. unfold scal; cbn; unfold mult; cbn; ring.
  - exact Ho.
  - intros p _. destruct (Hi p) as [Hp _]. cbn in Hp.
    apply (is_RInt_le (fun _ => 0%R) (fun t => f t p) a b 0%R (Re (i p)) Hab).
    + eapply is_RInt_val; [|exact (is_RInt_const a b 0%R)]. unfold scal; cbn; unfold mult; cbn; ring.
    + exact Hp.
    + intros t Ht. apply Hf. lra.
Qed.

Lemma cint_chasles f a b c v w : cint f a b v -> cint f b c w -> cint f a c (Cplus v w).
Proof. intros [A B] [A' B']. split; [exact (is_RInt_Chasles _ _ _ _ _ _ A A')|exact (is_RInt_Chasles _ _ _ _ _ _ B B')]. Qed.

Lemma box_split_theta f a b b' c e v w : box_integral f a b c e v -> box_integral f b b' c e w -> box_integral f a b' c e (Cplus v w).
Proof.
  intros (i & Hi & Ho) (i' & Hi' & Ho'). exists (fun p => Cplus (i p) (i' p)). split; [|apply cint_plus; assumption].
  intros p. eapply cint_chasles; eauto.
Qed.
Lemma box_split_phi f a b c e e' v w : box_integral f a b c e v -> box_integral f a b e e' w -> box_integral f a b c e' (Cplus v w).
Proof.
  intros (i & Hi & Ho) (i' & Hi' & Ho'). exists i. split; [exact Hi|]. eapply cint_chasles; [exact Ho|].
  eapply cint_ext; [|exact Ho']. intros p. eapply cint_unique; eauto.
Qed.

(** The energy in a box exists, and grows with the box. *)
Lemma overlap_exists (dl : array3) (L : nat) i j a b c e : (1 <= L)%nat ->
  a3_0 dl = Z.of_nat L -> a3_1 dl = 2 * Z.of_nat L - 1 -> a3_2 dl = 2 * Z.of_nat L - 1 ->
  (i < L * L)%nat -> (j < L * L)%nat -> exists v, overlap (table dl (Z.of_nat L)) i j a b c e v.
Proof.
  intros HL D0 D1 D2 Hi Hj.
  destruct (create_K_ok a b c e dl L HL D0 D1 D2 (zrange 0 (Z.of_nat L)) (Permutation_refl _)) as (K & _ & H).
  exists (K i j). apply H; assumption.
Qed.

Lemma energy_exists (dl : array3) (L : nat) w a b c e : (1 <= L)%nat ->
  a3_0 dl = Z.of_nat L -> a3_1 dl = 2 * Z.of_nat L - 1 -> a3_2 dl = 2 * Z.of_nat L - 1 ->
  exists v, energy (band_limited (table dl (Z.of_nat L)) (L * L) w) a b c e v.
Proof.
  intros HL D0 D1 D2.
  destruct (create_K_ok a b c e dl L HL D0 D1 D2 (zrange 0 (Z.of_nat L)) (Permutation_refl _)) as (K & _ & H).
  pose proof (energy_form _ (L * L) w K a b c e H) as E.
  eexists. unfold energy. rewrite <- (energy_real _ _ _ _ _ _ E). exact E.
Qed.

Lemma energy_monotone (dl : array3) (L : nat) w a b c e v v' : (1 <= L)%nat ->
  a3_0 dl = Z.of_nat L -> a3_1 dl = 2 * Z.of_nat L - 1 -> a3_2 dl = 2 * Z.of_nat L - 1 ->
  (0 <= a <= b)%R -> (b <= PI)%R -> (0 <= c <= e)%R -> (e <= 2 * PI)%R ->
  energy (band_limited (table dl (Z.of_nat L)) (L * L) w) a b c e v ->
  energy (band_limited (table dl (Z.of_nat L)) (L * L) w) 0 PI 0 (2 * PI) v' -> (0 <= v <= v')%R.
Proof.
  intros HL D0 D1 D2 Ha Hb Hc He E E'.
  set (f := band_limited (table dl (Z.of_nat L)) (L * L) w) in *.
  assert (P : forall t p, (0 <= t <= PI)%R -> (0 <= Cmod (f t p) ^ 2 * sin t)%R).
  { intros t p Ht. apply Rmult_le_pos; [apply pow2_ge_0|apply sin_ge_0; lra]. }
  destruct (energy_exists dl L w 0 a c e HL D0 D1 D2) as (v1 & E1).
  destruct (energy_exists dl L w b PI c e HL D0 D1 D2) as (v2 & E2).
  destruct (energy_exists dl L w 0 PI 0 c HL D0 D1 D2) as (v3 & E3).
  destruct (energy_exists dl L w 0 PI e (2 * PI) HL D0 D1 D2) as (v4 & E4).
  fold f in E1, E2, E3, E4.
  pose proof (box_split_theta _ _ _ _ _ _ _ _ (box_split_theta _ _ _ _ _ _ _ _ E1 E) E2) as EA.
  pose proof (box_split_phi _ _ _ _ _ _ _ _ (box_split_phi _ _ _ _ _ _ _ _ E3 EA) E4) as EB.
  pose proof (box_integral_unique _ _ _ _ _ _ _ EB E') as Q. apply (f_equal Re) in Q. cbn in Q.
  apply box_nonneg in E; [|lra|lra|intros; apply P; lra].
  apply box_nonneg in E1; [|lra|lra|intros; apply P; lra].
  apply box_nonneg in E2; [|lra|lra|intros; apply P; lra].
  apply box_nonneg in E3; [|lra|lra|intros; apply P; lra].
  apply box_nonneg in E4; [|lra|lra|intros; apply P; lra].
  lra.
Qed.
