From Coq Require Import List ZArith Arith Bool Reals Lra Lia.
From Coquelicot Require Import Complex.
From Verif Require Import Base ListLemmas RSum CSum PyNum Index IndexProofs Numpy Noise SpecField.
Import ListNotations.
Local Open Scope nat_scope.

Lemma rfold_app {S A} (f : S -> A -> res S) l l' s :
  rfold f (l ++ l') s = (let* s' := rfold f l s in rfold f l' s').
Proof.
  revert s. induction l as [|x l IH]; intros s; [reflexivity|]. cbn [app rfold].
  destruct (f s x) as [s'|e]; cbn [rbind]; [apply IH|reflexivity].
Qed.

Lemma np_set_ok {A} i (x : A) a : i < length a -> np_set i x a = Ok (set_nth i x a).
Proof. intros H. unfold np_set. destruct (Nat.ltb_spec i (length a)); [reflexivity|lia]. Qed.

Lemma np_get_ok {A} (a : list A) i x : nth_error a i = Some x -> np_get a i = Ok x.
Proof. unfold np_get. intros ->. reflexivity. Qed.

Lemma coeff_elm flm el m : coeff flm el m = nth (elm2ind el m) flm (RtoC 0).
Proof. reflexivity. Qed.

(** Assigning one coefficient. *)
Lemma coeff_set flm L l k x el m :
  L * L <= length flm -> valid L l k -> valid L el m ->
  coeff (set_nth (elm2ind l k) x flm) el m
  = if (Nat.eqb el l && Z.eqb m k)%bool then x else coeff flm el m.
Proof.
  intros Hl [Hk1 Hk2] [Hm1 Hm2]. rewrite !coeff_elm.
  pose proof (elm2ind_lt L l k Hk1 Hk2) as B.
  destruct (Nat.eqb el l && Z.eqb m k)%bool eqn:E.
  - apply andb_prop in E. destruct E as [E1 E2].
    apply Nat.eqb_eq in E1. apply Z.eqb_eq in E2. subst el m.
    apply nth_error_nth. apply nth_error_set_nth_eq. lia.
  - assert (D : elm2ind l k <> elm2ind el m).
    { intros D. apply elm2ind_inj in D; try assumption. destruct D as [-> ->].
      rewrite Nat.eqb_refl, Z.eqb_refl in E. discriminate. }
    rewrite <- !nth_default_eq. unfold nth_default.
    rewrite nth_error_set_nth_neq by auto. reflexivity.
Qed.

Lemma coeff_get flm L l k : L * L <= length flm -> valid L l k ->
  nth_error flm (elm2ind l k) = Some (coeff flm l k).
Proof.
  intros Hl [H1 H2]. rewrite coeff_elm. apply nth_error_nth'.
  pose proof (elm2ind_lt L l k H1 H2). lia.
Qed.

Lemma valid_opp L l k : valid L l k -> valid L l (- k).
Proof. intros [H1 H2]. split; lia. Qed.

(** Setting a coefficient and then its mirror image. *)
Definition mirror (z : C) (k : nat) : C := Cmult (RtoC ((-1) ^ k)) (Cconj z).

(** The value given to coefficient [(el, m)] when degree [el] draws its numbers
    from position [base] on. *)
Definition field_entry (sigma : R) (X : nat -> R) (base : nat) (m : Z) : C :=
  if (m =? 0)%Z then RtoC (sigma * X base)
  else
    let k := Z.abs_nat m in
    let z := Cmult (RtoC (sigma / sqrt 2)) (X (base + 2 * k - 1), X (base + 2 * k)) in
    if (0 <? m)%Z then z else mirror z k.

Lemma pair_C a b : Cplus (RtoC a) (Cmult Ci (RtoC b)) = (a, b).
Proof. apply C_ext; cbn; ring. Qed.

Lemma abs_eq_cases m k : (Z.abs m =? Z.of_nat k)%Z = ((m =? Z.of_nat k)%Z || (m =? - Z.of_nat k)%Z)%bool.
Proof.
  destruct (Z.eqb_spec (Z.abs m) (Z.of_nat k)), (Z.eqb_spec m (Z.of_nat k)),
    (Z.eqb_spec m (- Z.of_nat k)); try reflexivity; lia.
Qed.

Section Fill.
  Variable normal : Z -> nat -> R.
  Variable seed : Z.

  Definition at_pos (p : nat) : gen := {| g_seed := seed; g_pos := p |}.

  Lemma order_step sigma L ell flm base k :
    L * L <= length flm -> ell < L -> 1 <= k <= ell ->
    exists flm', noise_order normal sigma ell (flm, at_pos (base + 2 * k - 1)) k
                 = Ok (flm', at_pos (base + 2 * S k - 1)) /\
      length flm' = length flm /\
      forall el m, valid L el m ->
        coeff flm' el m
        = if (Nat.eqb el ell && Z.eqb (Z.abs m) (Z.of_nat k))%bool
          then field_entry sigma (normal seed) base m else coeff flm el m.
  Proof.
    intros Hl He Hk.
    assert (Vp : valid L ell (Z.of_nat k)) by (split; lia).
    assert (Vn : valid L ell (- Z.of_nat k)) by (split; lia).
    unfold noise_order. cbn [standard_normal at_pos g_seed g_pos].
    set (z := Cmult (RtoC (sigma / sqrt 2)) _).
    rewrite np_set_ok.
    2:{ pose proof (elm2ind_lt L ell (Z.of_nat k) (proj1 Vp) (proj2 Vp)). lia. }
    cbn [rbind].
    set (f1 := set_nth _ z flm).
    assert (L1 : length f1 = length flm) by apply set_nth_length.
    rewrite (np_get_ok f1 _ z).
    2:{ apply nth_error_set_nth_eq.
        pose proof (elm2ind_lt L ell (Z.of_nat k) (proj1 Vp) (proj2 Vp)). lia. }
    cbn [rbind]. rewrite np_set_ok.
    2:{ pose proof (elm2ind_lt L ell _ (proj1 Vn) (proj2 Vn)). lia. }
    cbn [rbind]. eexists. split; [|split].
    - f_equal. f_equal. unfold at_pos. f_equal. lia.
    - rewrite set_nth_length. exact L1.
    - intros el m V. rewrite (coeff_set f1 L ell (- Z.of_nat k)) by (auto; lia).
      unfold f1. rewrite (coeff_set flm L ell (Z.of_nat k)) by (auto; lia).
      rewrite abs_eq_cases.
      destruct (Nat.eqb_spec el ell) as [->|]; [|reflexivity]. cbn [andb].
      assert (Z : z = Cmult (RtoC (sigma / sqrt 2))
                       (normal seed (base + 2 * k - 1), normal seed (base + 2 * k))).
      { unfold z. rewrite pair_C. do 3 f_equal. lia. }
      unfold field_entry.
      destruct (Z.eqb_spec m (- Z.of_nat k)) as [->|Hn].
      + rewrite orb_true_r. destruct (Z.eqb_spec (- Z.of_nat k) 0); [lia|].
        destruct (Z.ltb_spec 0 (- Z.of_nat k)); [lia|].
        replace (Z.abs_nat (- Z.of_nat k)) with k by lia. cbv zeta. rewrite <- Z. reflexivity.
      + rewrite orb_false_r. destruct (Z.eqb_spec m (Z.of_nat k)) as [->|]; [|reflexivity].
        destruct (Z.eqb_spec (Z.of_nat k) 0); [lia|].
        destruct (Z.ltb_spec 0 (Z.of_nat k)); [|lia].
        replace (Z.abs_nat (Z.of_nat k)) with k by lia. cbv zeta. exact Z.
  Qed.

  Lemma orders_step sigma L ell flm base n :
    L * L <= length flm -> ell < L -> n <= ell ->
    exists flm', rfold (noise_order normal sigma ell) (seq 1 n) (flm, at_pos (base + 1))
                 = Ok (flm', at_pos (base + 2 * n + 1)) /\
      length flm' = length flm /\
      forall el m, valid L el m ->
        coeff flm' el m
        = if (Nat.eqb el ell && Z.leb 1 (Z.abs m) && Z.leb (Z.abs m) (Z.of_nat n))%bool
          then field_entry sigma (normal seed) base m else coeff flm el m.
  Proof.
    intros Hl He. induction n as [|n IH]; intros Hn.
    - exists flm. split; [|split; [reflexivity|]].
      + cbn [seq rfold]. do 2 f_equal. unfold at_pos. f_equal. lia.
      + intros el m _. destruct (Nat.eqb el ell); cbn [andb]; [|reflexivity].
        destruct (Z.leb_spec 1 (Z.abs m)), (Z.leb_spec (Z.abs m) (Z.of_nat 0)); try reflexivity; lia.
    - destruct IH as (f1 & E1 & L1 & C1); [lia|].
      destruct (order_step sigma L ell f1 base (S n)) as (f2 & E2 & L2 & C2); [lia|lia|lia|].
      exists f2. rewrite seq_S, rfold_app, E1. cbn [rbind rfold].
      replace (1 + n) with (S n) by lia.
      replace (base + 2 * n + 1) with (base + 2 * S n - 1) by lia. rewrite E2. cbn [rbind].
      split; [|split; [lia|]].
      + do 2 f_equal. unfold at_pos. f_equal. lia.
      + intros el m V. rewrite C2, C1 by exact V.
        destruct (Nat.eqb el ell); cbn [andb]; [|reflexivity].
        destruct (Z.eqb_spec (Z.abs m) (Z.of_nat (S n))), (Z.leb_spec 1 (Z.abs m)),
          (Z.leb_spec (Z.abs m) (Z.of_nat n)), (Z.leb_spec (Z.abs m) (Z.of_nat (S n)));
          cbn [andb]; try reflexivity; lia.
  Qed.

  Lemma degree_step sigma L ell flm base :
    L * L <= length flm -> ell < L ->
    exists flm', noise_degree normal sigma (flm, at_pos base) ell
                 = Ok (flm', at_pos (base + 2 * ell + 1)) /\
      length flm' = length flm /\
      forall el m, valid L el m ->
        coeff flm' el m
        = if Nat.eqb el ell then field_entry sigma (normal seed) base m else coeff flm el m.
  Proof.
    intros Hl He. unfold noise_degree. cbn [standard_normal at_pos g_seed g_pos].
    assert (V0 : valid L ell 0) by (split; lia).
    rewrite np_set_ok.
    2:{ pose proof (elm2ind_lt L ell _ (proj1 V0) (proj2 V0)). lia. }
    cbn [rbind]. set (f0 := set_nth _ _ flm).
    assert (L0 : length f0 = length flm) by apply set_nth_length.
    replace {| g_seed := seed; g_pos := S base |} with (at_pos (base + 1))
      by (unfold at_pos; f_equal; lia).
    destruct (orders_step sigma L ell f0 base ell) as (f1 & E1 & L1 & C1); [lia|lia|lia|].
    exists f1. split; [exact E1|]. split; [lia|].
    intros el m V. rewrite C1 by exact V. unfold f0.
    rewrite (coeff_set flm L ell 0) by (auto; lia).
    destruct (Nat.eqb_spec el ell) as [->|]; cbn [andb]; [|reflexivity].
    destruct V as [V1 V2].
    destruct (Z.leb_spec 1 (Z.abs m)).
    - destruct (Z.leb_spec (Z.abs m) (Z.of_nat ell)); [reflexivity|lia].
    - assert (m = 0%Z) by lia. subst m. reflexivity.
  Qed.
End Fill.

(** Closed form of the noise: degree [el] uses the draws from [el^2] on. *)
Lemma create_noise_spec normal L signal snr_in :
  exists nlm, create_noise normal L signal snr_in = Ok nlm /\ length nlm = L * L /\
    forall el m, valid L el m ->
      coeff nlm el m = field_entry (compute_sigma_noise signal snr_in None)
                         (normal RANDOM_SEED) (el * el) m.
Proof.
  unfold create_noise. set (sigma := compute_sigma_noise signal snr_in None).
  assert (H : forall n, n <= L -> exists nlm,
    rfold (noise_degree normal sigma) (seq 0 n) (repeat (RtoC 0) (L * L), default_rng RANDOM_SEED)
    = Ok (nlm, at_pos RANDOM_SEED (n * n)) /\ length nlm = L * L /\
    forall el m, valid L el m -> el < n ->
      coeff nlm el m = field_entry sigma (normal RANDOM_SEED) (el * el) m).
  { induction n as [|n IH]; intros Hn.
    - exists (repeat (RtoC 0) (L * L)). split; [reflexivity|].
      split; [apply repeat_length|]. intros; lia.
    - destruct IH as (f1 & E1 & L1 & C1); [lia|].
      destruct (degree_step normal RANDOM_SEED sigma L n f1 (n * n)) as (f2 & E2 & L2 & C2); [lia|lia|].
      exists f2. rewrite seq_S, rfold_app, E1. cbn [rbind rfold]. rewrite Nat.add_0_l, E2. cbn [rbind].
      split; [|split; [lia|]].
      + do 2 f_equal. unfold at_pos. f_equal. lia.
      + intros el m V Hel. rewrite C2 by exact V.
        destruct (Nat.eqb_spec el n) as [->|]; [reflexivity|]. apply C1; [exact V|lia]. }
  destruct (H L (le_n L)) as (nlm & E & Hl & Hc). exists nlm. rewrite E. cbn [rbind fst].
  split; [reflexivity|]. split; [exact Hl|].
  intros el m V. apply Hc; [exact V|apply V].
Qed.

Lemma wmap_degree_eq normal cl ell c st : nth_error cl (ell - 2) = Some c ->
  wmap_degree normal cl st ell
  = noise_degree normal (sqrt (2 * PI / (INR ell * (INR ell + 1)) * c)) st ell.
Proof.
  intros H. unfold wmap_degree, noise_degree. destruct st as [flm g].
  rewrite (np_get_ok _ _ _ H). reflexivity.
Qed.

(** Standard deviation of the simulated field at degree [el]. *)
Definition wmap_sigma (cl : list R) (el : nat) : R :=
  sqrt (2 * PI / (INR el * (INR el + 1)) * nth (el - 2) cl 0%R).

Lemma create_wmap_spec normal cl L : L <= length cl + 2 ->
  exists flm, create_wmap_flm normal cl L = Ok flm /\ length flm = L * L /\
    forall el m, valid L el m ->
      coeff flm el m = if el <? 2 then RtoC 0
        else field_entry (wmap_sigma cl el) (normal RANDOM_SEED) (el * el - 4) m.
Proof.
  intros Hcl. unfold create_wmap_flm.
  assert (H : forall n, n <= L - 2 -> exists flm,
    rfold (wmap_degree normal cl) (seq 2 n) (repeat (RtoC 0) (L * L), default_rng RANDOM_SEED)
    = Ok (flm, at_pos RANDOM_SEED ((n + 2) * (n + 2) - 4)) /\ length flm = L * L /\
    forall el m, valid L el m ->
      coeff flm el m = if (el <? 2) || (n + 2 <=? el) then RtoC 0
        else field_entry (wmap_sigma cl el) (normal RANDOM_SEED) (el * el - 4) m).
  { induction n as [|n IH]; intros Hn.
    - exists (repeat (RtoC 0) (L * L)). split; [reflexivity|].
      split; [apply repeat_length|]. intros el m V.
      replace ((el <? 2) || (0 + 2 <=? el)) with true
        by (destruct (Nat.ltb_spec el 2), (Nat.leb_spec (0 + 2) el); try reflexivity; lia).
      rewrite coeff_elm. rewrite nth_repeat. reflexivity.
    - destruct IH as (f1 & E1 & L1 & C1); [lia|].
      destruct (degree_step normal RANDOM_SEED (wmap_sigma cl (n + 2)) L (n + 2) f1
                  ((n + 2) * (n + 2) - 4)) as (f2 & E2 & L2 & C2); [lia|lia|].
      exists f2. rewrite seq_S, rfold_app, E1. cbn [rbind rfold].
      replace (2 + n) with (n + 2) by lia.
      rewrite (wmap_degree_eq _ _ _ (nth (n + 2 - 2) cl 0%R))
        by (apply nth_error_nth'; lia).
      fold (wmap_sigma cl (n + 2)). rewrite E2. cbn [rbind].
      split; [|split; [lia|]].
      + do 2 f_equal. unfold at_pos. f_equal. lia.
      + intros el m V. rewrite C2, C1 by exact V.
        destruct (Nat.eqb_spec el (n + 2)) as [->|Hne].
        * destruct (Nat.ltb_spec (n + 2) 2); [lia|].
          destruct (Nat.leb_spec (S n + 2) (n + 2)); [lia|]. reflexivity.
        * destruct (Nat.ltb_spec el 2); [reflexivity|]. cbn [orb].
          destruct (Nat.leb_spec (n + 2) el), (Nat.leb_spec (S n + 2) el); try reflexivity; lia. }
  destruct (H (L - 2) (le_n _)) as (flm & E & Hl & Hc). exists flm. rewrite E. cbn [rbind fst].
  split; [reflexivity|]. split; [exact Hl|].
  intros el m V. rewrite Hc by exact V. pose proof (proj1 V).
  destruct (Nat.ltb_spec el 2); [reflexivity|]. cbn [orb].
  destruct (Nat.leb_spec (L - 2 + 2) el); [lia|reflexivity].
Qed.

(** A spectrum that is too short. *)
Lemma create_wmap_short normal cl L : length cl + 2 < L ->
  create_wmap_flm normal cl L = Err IndexError.
Proof.
  intros H. unfold create_wmap_flm.
  replace (L - 2) with (length cl + S (L - 3 - length cl)) by lia.
  rewrite seq_app, rfold_app.
  assert (E : exists st, rfold (wmap_degree normal cl) (seq 2 (length cl))
            (repeat (RtoC 0) (L * L), default_rng RANDOM_SEED) = Ok st).
  { assert (G : forall n, n <= length cl -> exists f p,
      rfold (wmap_degree normal cl) (seq 2 n) (repeat (RtoC 0) (L * L), default_rng RANDOM_SEED)
      = Ok (f, at_pos RANDOM_SEED p) /\ length f = L * L).
    { induction n as [|n IH]; intros Hn.
      - exists (repeat (RtoC 0) (L * L)), 0. split; [reflexivity|apply repeat_length].
      - destruct IH as (f & p & E & Hl); [lia|]. rewrite seq_S, rfold_app, E. cbn [rbind rfold].
        replace (2 + n) with (n + 2) by lia.
        rewrite (wmap_degree_eq _ _ _ (nth (n + 2 - 2) cl 0%R))
          by (apply nth_error_nth'; lia).
        destruct (degree_step normal RANDOM_SEED
          (sqrt (2 * PI / (INR (n + 2) * (INR (n + 2) + 1)) * nth (n + 2 - 2) cl 0%R))
          L (n + 2) f p) as (f2 & E2 & L2 & _); [lia|lia|].
        rewrite E2. cbn [rbind]. eexists _, _. split; [reflexivity|]. lia. }
    destruct (G (length cl) (le_n _)) as (f & p & E & _). eauto. }
  destruct E as [[f g] ->]. cbn [rbind seq rfold]. unfold wmap_degree at 1.
  unfold np_get. rewrite (proj2 (nth_error_None cl (2 + length cl - 2))) by lia. reflexivity.
Qed.

(** ** Reality *)

Lemma neg1_pow_sq k : ((-1) ^ k * (-1) ^ k = 1)%R.
Proof. rewrite <- Rpow_mult_distr. replace (-1 * -1)%R with 1%R by lra. apply pow1. Qed.

Lemma mirror_mirror z k : mirror (mirror z k) k = z.
Proof.
  unfold mirror. rewrite Cconj_mult, Cconj_conj, Cconj_R, Cmult_assoc, <- RtoC_mult, neg1_pow_sq.
  apply Cmult_1_l.
Qed.

Lemma field_entry_reality sigma X base m :
  field_entry sigma X base (- m) = mirror (field_entry sigma X base m) (Z.abs_nat m).
Proof.
  unfold field_entry.
  destruct (Z.eqb_spec m 0) as [->|H].
  - change (Z.eqb (- 0) 0) with true. change (Z.abs_nat 0) with 0. unfold mirror.
    rewrite Cconj_R. cbn [pow]. symmetry. apply Cmult_1_l.
  - destruct (Z.eqb_spec (- m) 0); [lia|]. replace (Z.abs_nat (- m)) with (Z.abs_nat m) by lia. cbv zeta.
    destruct (Z.ltb_spec 0 m), (Z.ltb_spec 0 (- m)); try lia; [reflexivity|].
    symmetry. apply mirror_mirror.
Qed.

Lemma create_noise_reality normal L signal snr_in nlm :
  create_noise normal L signal snr_in = Ok nlm -> reality L nlm.
Proof.
  intros E el m V. destruct (create_noise_spec normal L signal snr_in) as (n' & E' & _ & Hc).
  rewrite E in E'. injection E' as <-.
  rewrite !Hc by (auto using valid_opp). apply field_entry_reality.
Qed.

Lemma create_wmap_reality normal cl L flm :
  create_wmap_flm normal cl L = Ok flm -> reality L flm.
Proof.
  intros E el m V. destruct (le_lt_dec L (length cl + 2)) as [H|H].
  - destruct (create_wmap_spec normal cl L H) as (n' & E' & _ & Hc).
    rewrite E in E'. injection E' as <-. rewrite !Hc by (auto using valid_opp).
    destruct (el <? 2); [|apply field_entry_reality].
    rewrite Cconj_R. apply C_ext; cbn; ring.
  - rewrite create_wmap_short in E by exact H. discriminate.
Qed.

(** A field with the reality property is real at every point. *)
Lemma Im_mirror (w : C) : Im (Cplus w (Cconj w)) = 0%R.
Proof. cbn. lra. Qed.

Lemma mirror_mult a b k : mirror (Cmult a b) k = Cmult (Cconj a) (mirror b k).
Proof. unfold mirror. rewrite Cconj_mult. ring. Qed.

Lemma real_field L Y flm : reality L flm -> harmonic_symmetry Y -> Im (field_at L Y flm) = 0%R.
Proof.
  intros Hf HY. unfold field_at. rewrite csum_im. apply rsum_zero. intros el Hel.
  set (g := fun k : nat => let m := (Z.of_nat k - Z.of_nat el)%Z in
              Cmult (coeff flm el m) (Y el m)).
  assert (E : csum (2 * el + 1) g = Cconj (csum (2 * el + 1) g)).
  { rewrite csum_conj, csum_rev. apply csum_ext. intros k Hk. unfold g. cbv zeta.
    replace (Z.of_nat (2 * el + 1 - 1 - k) - Z.of_nat el)%Z
      with (- (Z.of_nat k - Z.of_nat el))%Z by lia.
    set (m := (Z.of_nat k - Z.of_nat el)%Z).
    assert (V : valid L el m) by (unfold m; split; lia).
    rewrite (Hf el m V), (HY el m), Cconj_mult.
    transitivity (Cmult (Cmult (RtoC ((-1) ^ Z.abs_nat m)) (RtoC ((-1) ^ Z.abs_nat m)))
                    (Cmult (Cconj (coeff flm el m)) (Cconj (Y el m)))); [ring|].
    rewrite <- RtoC_mult, neg1_pow_sq. apply Cmult_1_l. }
  fold g. destruct (csum (2 * el + 1) g) as [a b]. injection E as E. cbn. lra.
Qed.

(** ** Power *)

Lemma Cmod_sq (z : C) : (Cmod z ^ 2 = Re z ^ 2 + Im z ^ 2)%R.
Proof.
  unfold Cmod. rewrite <- Rsqr_pow2, Rsqr_sqrt; [reflexivity|].
  pose proof (pow2_ge_0 (fst z)). pose proof (pow2_ge_0 (snd z)). lra.
Qed.

Lemma sum_abs2_power l : sum_abs2 l = power l.
Proof.
  unfold sum_abs2, power. rewrite rlsum_nth, map_length. apply rsum_ext. intros i Hi.
  rewrite (nth_indep _ 0%R (Cmod (RtoC 0) ^ 2)%R) by (rewrite map_length; exact Hi).
  rewrite (map_nth (fun z => (Cmod z ^ 2)%R)). apply Cmod_sq.
Qed.

(** Sums over all positions are sums over degrees and orders. *)
Lemma rsum_degrees L f :
  rsum (L * L) f = rsum L (fun el => rsum (2 * el + 1) (fun k => f (el * el + k))).
Proof.
  induction L as [|L IH]; [reflexivity|].
  replace (S L * S L) with (L * L + (2 * L + 1)) by lia. rewrite rsum_app, IH. reflexivity.
Qed.

Lemma rsum_centre el g :
  (rsum (2 * el + 1) g = g el + rsum el (fun j => g (el + S j)%nat + g (el - S j)%nat))%R.
Proof.
  replace (2 * el + 1) with (el + S el) by lia. rewrite rsum_app, (rsum_S_l el), rsum_plus.
  rewrite (rsum_rev el g). rewrite Nat.add_0_r.
  rewrite (rsum_ext el (fun i => g (el - 1 - i)) (fun j => g (el - S j)))
    by (intros; f_equal; lia).
  ring.
Qed.

Lemma rsum_pairs n (h : nat -> R) :
  (rsum (2 * n + 1) h = h 0%nat + rsum n (fun j => h (2 * j + 1)%nat + h (2 * j + 2)%nat))%R.
Proof.
  induction n as [|n IH]; [cbn; ring|].
  replace (2 * S n + 1) with (S (S (2 * n + 1))) by lia.
  cbn [rsum]. rewrite IH. replace (S (2 * n + 1)) with (2 * n + 2) by lia. ring.
Qed.

Lemma norm2_scal a z : (Re (Cmult (RtoC a) z) ^ 2 + Im (Cmult (RtoC a) z) ^ 2
  = a ^ 2 * (Re z ^ 2 + Im z ^ 2))%R.
Proof. destruct z. cbn. ring. Qed.

Lemma sq_div_sqrt2 s : ((s / sqrt 2) ^ 2 = s ^ 2 / 2)%R.
Proof.
  unfold Rdiv. rewrite Rpow_mult_distr. f_equal.
  rewrite <- Rinv_pow by (apply Rgt_not_eq, sqrt_lt_R0; lra).
  rewrite <- (Rsqr_pow2 (sqrt 2)), Rsqr_sqrt by lra. reflexivity.
Qed.

Lemma field_entry_norm sigma X base m :
  (let e := field_entry sigma X base m in Re e ^ 2 + Im e ^ 2 =
   if (m =? 0)%Z then sigma ^ 2 * X base ^ 2
   else sigma ^ 2 / 2 * (X (base + 2 * Z.abs_nat m - 1)%nat ^ 2 + X (base + 2 * Z.abs_nat m)%nat ^ 2))%R.
Proof.
  cbv zeta. unfold field_entry. destruct (Z.eqb_spec m 0) as [->|H].
  - cbn. ring.
  - cbv zeta. assert (N : forall z, (Re (Cconj z) ^ 2 + Im (Cconj z) ^ 2 = Re z ^ 2 + Im z ^ 2)%R).
    { intros [z1 z2]. cbn. ring. }
    destruct (0 <? m)%Z.
    + rewrite norm2_scal, sq_div_sqrt2. reflexivity.
    + unfold mirror. rewrite norm2_scal, N, norm2_scal, sq_div_sqrt2.
      rewrite <- (Rsqr_pow2 ((-1) ^ _)). unfold Rsqr. rewrite neg1_pow_sq. cbn [Re Im fst snd]. ring.
Qed.

Lemma degree_power sigma X base el :
  rsum (2 * el + 1) (fun k => let e := field_entry sigma X base (Z.of_nat k - Z.of_nat el) in
                              (Re e ^ 2 + Im e ^ 2)%R)
  = (sigma ^ 2 * rsum (2 * el + 1) (fun k => X (base + k)%nat ^ 2))%R.
Proof.
  rewrite (rsum_ext _ _ _ (fun k _ => field_entry_norm sigma X base (Z.of_nat k - Z.of_nat el))).
  rewrite rsum_centre, rsum_pairs.
  replace (Z.of_nat el - Z.of_nat el =? 0)%Z with true by (symmetry; apply Z.eqb_eq; lia).
  rewrite Rmult_plus_distr_l, Nat.add_0_r. f_equal. rewrite <- rsum_scal_l.
  apply rsum_ext. intros j Hj.
  destruct (Z.eqb_spec (Z.of_nat (el + S j) - Z.of_nat el) 0); [lia|].
  destruct (Z.eqb_spec (Z.of_nat (el - S j) - Z.of_nat el) 0); [lia|].
  replace (Z.abs_nat (Z.of_nat (el + S j) - Z.of_nat el)) with (S j) by lia.
  replace (Z.abs_nat (Z.of_nat (el - S j) - Z.of_nat el)) with (S j) by lia.
  replace (base + 2 * S j - 1) with (base + (2 * j + 1)) by lia.
  replace (base + 2 * S j) with (base + (2 * j + 2)) by lia. field.
Qed.

Lemma power_degrees L flm : length flm = L * L ->
  power flm = rsum L (fun el => rsum (2 * el + 1) (fun k =>
    let z := coeff flm el (Z.of_nat k - Z.of_nat el) in (Re z ^ 2 + Im z ^ 2)%R)).
Proof.
  intros Hl. unfold power. rewrite Hl, rsum_degrees. apply rsum_ext. intros el _.
  apply rsum_ext. intros k Hk. cbv zeta. rewrite coeff_elm. unfold elm2ind.
  replace (Z.to_nat (Z.of_nat (el * el + el) + (Z.of_nat k - Z.of_nat el))) with (el * el + k) by lia.
  reflexivity.
Qed.

Lemma noise_power normal L signal snr_in nlm :
  create_noise normal L signal snr_in = Ok nlm ->
  power nlm = (compute_sigma_noise signal snr_in None ^ 2
               * rsum (L * L) (fun i => normal RANDOM_SEED i ^ 2))%R.
Proof.
  intros E. destruct (create_noise_spec normal L signal snr_in) as (n' & E' & Hl & Hc).
  rewrite E in E'. injection E' as <-.
  rewrite (power_degrees L) by exact Hl. rewrite rsum_degrees, <- rsum_scal_l.
  apply rsum_ext. intros el Hel. rewrite <- degree_power. apply rsum_ext. intros k Hk.
  cbv zeta. rewrite Hc; [reflexivity|]. split; lia.
Qed.

Lemma power_nonneg l : (0 <= power l)%R.
Proof.
  apply rsum_nonneg. intros i _. pose proof (pow2_ge_0 (Re (nth i l (RtoC 0)))).
  pose proof (pow2_ge_0 (Im (nth i l (RtoC 0)))). lra.
Qed.

Lemma sigma_sq signal snr_in d : 0 < d -> (0 <= power signal)%R ->
  (compute_sigma_noise signal snr_in (Some d) ^ 2
   = Rpower 10 (- snr_in / 10) * power signal / INR d)%R.
Proof.
  intros Hd Hp. unfold compute_sigma_noise, signal_power. cbv zeta. rewrite sum_abs2_power.
  rewrite <- Rsqr_pow2, Rsqr_sqrt; [reflexivity|].
  apply Rmult_le_pos.
  - apply Rmult_le_pos; [left; apply exp_pos|exact Hp].
  - left. apply Rinv_0_lt_compat, lt_0_INR. exact Hd.
Qed.

Lemma sigma_default signal snr_in :
  compute_sigma_noise signal snr_in None = compute_sigma_noise signal snr_in (Some (length signal)).
Proof. reflexivity. Qed.

Lemma ln10_pos : (0 < ln 10)%R.
Proof. rewrite <- ln_1. apply ln_increasing; lra. Qed.

Lemma log10_Rpower x : log10 (Rpower 10 x) = x.
Proof.
  unfold log10, Rpower. rewrite ln_exp. pose proof ln10_pos. field. lra.
Qed.

Lemma log10_mult x y : (0 < x -> 0 < y -> log10 (x * y) = log10 x + log10 y)%R.
Proof.
  intros. unfold log10. rewrite ln_mult by assumption. pose proof ln10_pos. field. lra.
Qed.

(** The signal-to-noise ratio of noise with a known power. *)
Lemma snr_of_power signal noise snr_in q :
  (0 < power signal)%R -> 0 < length signal -> (0 < q)%R ->
  power noise = (compute_sigma_noise signal snr_in None ^ 2 * q)%R ->
  compute_snr signal noise = (snr_in + 10 * log10 (INR (length signal) / q))%R.
Proof.
  intros Hp Hn Hq E. unfold compute_snr, signal_power. rewrite !sum_abs2_power, E.
  rewrite sigma_default, sigma_sq by (auto; lra).
  pose proof (lt_0_INR _ Hn) as Hn'. pose proof (exp_pos (- snr_in / 10 * ln 10)) as He.
  replace (power signal / (Rpower 10 (- snr_in / 10) * power signal / INR (length signal) * q))%R
    with (Rpower 10 (snr_in / 10) * (INR (length signal) / q))%R.
  - rewrite log10_mult, log10_Rpower; [field| |].
    + apply exp_pos.
    + apply Rdiv_lt_0_compat; assumption.
  - replace (- snr_in / 10)%R with (- (snr_in / 10))%R by (unfold Rdiv; ring).
    rewrite Rpower_Ropp. assert (0 < Rpower 10 (snr_in / 10))%R by apply exp_pos.
    field. repeat split; lra.
Qed.

Lemma noise_snr normal L signal snr_in nlm :
  create_noise normal L signal snr_in = Ok nlm ->
  (0 < power signal)%R -> 0 < length signal ->
  (0 < rsum (L * L) (fun i => normal RANDOM_SEED i ^ 2))%R ->
  compute_snr signal nlm
  = (snr_in + 10 * log10 (INR (length signal)
                          / rsum (L * L) (fun i => normal RANDOM_SEED i ^ 2)))%R.
Proof.
  intros E Hp Hn Hq. apply snr_of_power; try assumption. eapply noise_power, E.
Qed.

(** Mean power over an ensemble of streams. *)
Lemma mean_scal E a q : mean E (fun X => (a * q X)%R) = (a * mean E q)%R.
Proof.
  unfold mean. rewrite <- rlsum_map_scal_l. apply rlsum_map_ext. intros; ring.
Qed.

Lemma mean_rsum E n (q : nat -> (nat -> R) -> R) :
  mean E (fun X => rsum n (fun i => q i X)) = rsum n (fun i => mean E (q i)).
Proof.
  unfold mean. induction n as [|n IH]; cbn [rsum].
  - rewrite (rlsum_map_ext _ (fun _ => (0 * 0)%R)) by (intros; ring).
    rewrite rlsum_map_scal_l. ring.
  - rewrite <- IH, <- rlsum_map_plus. apply rlsum_map_ext. intros; ring.
Qed.

(** ** Scaling *)

Lemma power_scal c l : power (map (Cmult c) l) = (Cmod c ^ 2 * power l)%R.
Proof.
  rewrite <- !sum_abs2_power. unfold sum_abs2. rewrite map_map, <- rlsum_map_scal_l.
  apply rlsum_map_ext. intros z _. rewrite Cmod_mult. ring.
Qed.

Lemma sigma_scal c signal snr_in d :
  compute_sigma_noise (map (Cmult c) signal) snr_in d
  = (Cmod c * compute_sigma_noise signal snr_in d)%R.
Proof.
  unfold compute_sigma_noise, signal_power. rewrite map_length, !sum_abs2_power, power_scal.
  set (n := match d with None => _ | Some _ => _ end). cbv zeta.
  replace (Rpower 10 (- snr_in / 10) * (Cmod c ^ 2 * power signal) / INR n)%R
    with (Rsqr (Cmod c) * (Rpower 10 (- snr_in / 10) * power signal / INR n))%R
    by (unfold Rsqr, Rdiv; ring).
  rewrite sqrt_mult_alt by apply Rle_0_sqr.
  rewrite sqrt_Rsqr by apply Cmod_ge_0. reflexivity.
Qed.

Lemma field_entry_scal a sigma X base m :
  field_entry (a * sigma) X base m = Cmult (RtoC a) (field_entry sigma X base m).
Proof.
  unfold field_entry, mirror. destruct (m =? 0)%Z.
  - apply C_ext; cbn; ring.
  - cbv zeta. replace (a * sigma / sqrt 2)%R with (a * (sigma / sqrt 2))%R by (unfold Rdiv; ring).
    rewrite RtoC_mult. destruct (0 <? m)%Z.
    + ring.
    + rewrite !Cconj_mult, !Cconj_R. ring.
Qed.

(** Two arrays of [L^2] coefficients that agree at every degree and order are
    equal. *)
Lemma coeff_ext L f g : length f = L * L -> length g = L * L ->
  (forall el m, valid L el m -> coeff f el m = coeff g el m) -> f = g.
Proof.
  intros Hf Hg H. apply (nth_ext f g (RtoC 0) (RtoC 0)); [congruence|].
  intros i Hi. rewrite <- (elm2ind_ind2elm i), <- !coeff_elm. apply H. split.
  - apply ind2elm_lt. lia.
  - apply ind2elm_range.
Qed.

Lemma coeff_map (g : C -> C) flm L el m : L * L <= length flm -> valid L el m ->
  coeff (map g flm) el m = g (coeff flm el m).
Proof.
  intros Hl [V1 V2]. rewrite !coeff_elm.
  rewrite (nth_indep _ (RtoC 0) (g (RtoC 0))).
  - apply map_nth.
  - rewrite map_length. pose proof (elm2ind_lt L el m V1 V2). lia.
Qed.

Lemma coeff_firstn flm n L el m : L * L <= n -> valid L el m ->
  coeff (firstn n flm) el m = coeff flm el m.
Proof.
  intros Hn [V1 V2]. rewrite !coeff_elm. pose proof (elm2ind_lt L el m V1 V2).
  rewrite <- !nth_default_eq. unfold nth_default. rewrite nth_error_firstn by lia. reflexivity.
Qed.

Lemma noise_scal normal L c signal snr_in nlm :
  create_noise normal L signal snr_in = Ok nlm ->
  create_noise normal L (map (Cmult c) signal) snr_in
  = Ok (map (Cmult (RtoC (Cmod c))) nlm).
Proof.
  intros E. destruct (create_noise_spec normal L signal snr_in) as (n1 & E1 & L1 & C1).
  rewrite E in E1. injection E1 as <-.
  destruct (create_noise_spec normal L (map (Cmult c) signal) snr_in) as (n2 & E2 & L2 & C2).
  rewrite E2. f_equal. apply (coeff_ext L); [exact L2|rewrite map_length; exact L1|].
  intros el m V. rewrite (coeff_map _ _ L) by (auto; lia). rewrite C2, C1 by exact V.
  rewrite sigma_scal. apply field_entry_scal.
Qed.

(** ** Prefixes *)

Lemma valid_mono L L' el m : L <= L' -> valid L el m -> valid L' el m.
Proof. intros H [V1 V2]. split; lia. Qed.

Lemma wmap_prefix normal cl L L' flm flm' : L <= L' ->
  create_wmap_flm normal cl L' = Ok flm' -> create_wmap_flm normal cl L = Ok flm ->
  flm = firstn (L * L) flm'.
Proof.
  intros HL E' E.
  destruct (le_lt_dec L' (length cl + 2)) as [H|H].
  2:{ rewrite create_wmap_short in E' by exact H. discriminate. }
  destruct (create_wmap_spec normal cl L' H) as (x & Ex & Lx & Cx).
  rewrite E' in Ex. injection Ex as <-.
  destruct (create_wmap_spec normal cl L ltac:(lia)) as (y & Ey & Ly & Cy).
  rewrite E in Ey. injection Ey as <-.
  apply (coeff_ext L); [exact Ly|rewrite firstn_length; nia|].
  intros el m V. rewrite (coeff_firstn _ _ L) by auto.
  rewrite Cy, Cx by (eauto using valid_mono). reflexivity.
Qed.

Lemma noise_prefix normal L L' signal signal' snr_in nlm nlm' : L <= L' ->
  create_noise normal L signal snr_in = Ok nlm ->
  create_noise normal L' signal' snr_in = Ok nlm' ->
  map (Cmult (RtoC (compute_sigma_noise signal' snr_in None))) nlm
  = map (Cmult (RtoC (compute_sigma_noise signal snr_in None))) (firstn (L * L) nlm').
Proof.
  intros HL E E'.
  destruct (create_noise_spec normal L' signal' snr_in) as (x & Ex & Lx & Cx).
  rewrite E' in Ex. injection Ex as <-.
  destruct (create_noise_spec normal L signal snr_in) as (y & Ey & Ly & Cy).
  rewrite E in Ey. injection Ey as <-.
  apply (coeff_ext L); [rewrite map_length; exact Ly|rewrite map_length, firstn_length; nia|].
  intros el m V. rewrite !(coeff_map _ _ L) by (auto; rewrite ?firstn_length; nia).
  rewrite (coeff_firstn _ _ L) by auto.
  rewrite Cy, Cx by (eauto using valid_mono).
  rewrite <- !field_entry_scal. f_equal. ring.
Qed.
