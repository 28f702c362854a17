From Coq Require Import List ZArith Arith Bool Reals Lra Lia.
From Coquelicot Require Import Complex.
From Verif Require Import Base ListLemmas RSum CSum PyNum Index IndexProofs Numpy NoiseProofs SpecField
  Quadrature Transform Functions.
Import ListNotations.
Local Open Scope nat_scope.

(** ** Loops of item assignments *)

Lemma rfold_ext {S A} (f g : S -> A -> res S) l s :
  (forall s x, In x l -> f s x = g s x) -> rfold f l s = rfold g l s.
Proof.
  revert s. induction l as [|x l IH]; intros s H; [reflexivity|]. cbn [rfold].
  rewrite H by (left; reflexivity). destruct (g s x); [|reflexivity]. cbn [rbind].
  apply IH. intros; apply H; right; assumption.
Qed.

Lemma rfold_app {S A} (f : S -> A -> res S) l l' s :
  rfold f (l ++ l') s = let* s' := rfold f l s in rfold f l' s'.
Proof.
  revert s. induction l as [|x l IH]; intros s; [reflexivity|]. cbn [app rfold].
  destruct (f s x); [apply IH|reflexivity].
Qed.

Lemma rfold_map {S A B} (f : S -> B -> res S) (g : A -> B) l s :
  rfold f (map g l) s = rfold (fun s x => f s (g x)) l s.
Proof.
  revert s. induction l as [|x l IH]; intros s; [reflexivity|]. cbn [map rfold].
  destruct (f s (g x)); [apply IH|reflexivity].
Qed.

(** A nested loop is a loop over pairs. *)
Lemma rfold_nested {S A B} (f : S -> A -> B -> res S) (g : A -> list B) l s :
  rfold (fun s x => rfold (fun s y => f s x y) (g x) s) l s
  = rfold (fun s p => f s (fst p) (snd p)) (flat_map (fun x => map (pair x) (g x)) l) s.
Proof.
  revert s. induction l as [|x l IH]; intros s; [reflexivity|]. cbn [rfold flat_map].
  rewrite rfold_app, rfold_map. cbn [fst snd].
  destruct (rfold (fun s0 y => f s0 x y) (g x) s); [apply IH|reflexivity].
Qed.

Lemma set_all {P A} (idx : P -> nat) (val : P -> A) l a :
  (forall p, In p l -> idx p < length a) -> NoDup (map idx l) ->
  exists a', rfold (fun a p => np_set (idx p) (val p) a) l a = Ok a' /\ length a' = length a /\
    (forall p, In p l -> nth_error a' (idx p) = Some (val p)) /\
    (forall i, ~ In i (map idx l) -> nth_error a' i = nth_error a i).
Proof.
  revert a. induction l as [|p l IH]; intros a Hb Hd.
  - exists a. cbn. repeat split; try reflexivity; intros; contradiction.
  - cbn [map] in Hd. inversion Hd as [|? ? Hn Hd']; subst.
    cbn [rfold]. rewrite np_set_ok by (apply Hb; left; reflexivity). cbn [rbind].
    destruct (IH (set_nth (idx p) (val p) a)) as (a' & E & Hl & Hin & Hout).
    { intros q Hq. rewrite set_nth_length. apply Hb. right. exact Hq. }
    { exact Hd'. }
    exists a'. split; [exact E|]. split; [rewrite Hl; apply set_nth_length|]. split.
    + intros q [<-|Hq]; [|apply Hin, Hq]. rewrite Hout by exact Hn.
      apply nth_error_set_nth_eq. apply Hb. left. reflexivity.
    + intros i Hi. cbn [map] in Hi. rewrite Hout by (intros X; apply Hi; right; exact X).
      apply nth_error_set_nth_neq. intros ->. apply Hi. left. reflexivity.
Qed.

(** ** Filling the orders zero *)

Lemma m0_nodup s n : NoDup (map (fun ell => elm2ind ell 0) (seq s n)).
Proof.
  apply FinFun.Injective_map_NoDup; [|apply seq_NoDup].
  intros a b E. apply (elm2ind_inj a 0 b 0); [lia|lia|exact E].
Qed.

Lemma fill_m0 L s n (v : nat -> C) : s + n <= L -> exists flm,
  rfold (fun flm ell => np_set (elm2ind ell 0) (v ell) flm) (seq s n) (zeros (L * L)) = Ok flm /\
  length flm = L * L /\
  forall el m, valid L el m ->
    coeff flm el m = if ((m =? 0)%Z && (s <=? el) && (el <? s + n))%bool then v el else RtoC 0.
Proof.
  intros Hs. destruct (set_all (fun ell => elm2ind ell 0) v (seq s n) (zeros (L * L))) as (a & E & Hl & Hin & Hout).
  - intros p Hp. apply in_seq in Hp. unfold zeros. rewrite repeat_length. apply elm2ind_lt; lia.
  - apply m0_nodup.
  - exists a. split; [exact E|]. split; [rewrite Hl; apply repeat_length|].
    intros el m [Hel Hm]. unfold coeff. fold (elm2ind el m).
    destruct (Z.eqb_spec m 0) as [->|Hm0]; cbn [andb].
    + destruct (Nat.leb_spec s el); cbn [andb]; [destruct (Nat.ltb_spec el (s + n))|].
      * apply nth_error_nth. apply Hin. apply in_seq. lia.
      * apply nth_error_nth. rewrite Hout.
        -- unfold zeros. apply nth_error_repeat. apply elm2ind_lt; lia.
        -- intros X. apply in_map_iff in X. destruct X as (e & Ee & Hin').
           apply elm2ind_inj in Ee; [|lia|lia]. apply in_seq in Hin'. lia.
      * apply nth_error_nth. rewrite Hout.
        -- unfold zeros. apply nth_error_repeat. apply elm2ind_lt; lia.
        -- intros X. apply in_map_iff in X. destruct X as (e & Ee & Hin').
           apply elm2ind_inj in Ee; [|lia|lia]. apply in_seq in Hin'. lia.
    + apply nth_error_nth. rewrite Hout.
      * unfold zeros. apply nth_error_repeat. apply elm2ind_lt; lia.
      * intros X. apply in_map_iff in X. destruct X as (e & Ee & _).
        apply elm2ind_inj in Ee; [|lia|lia]. lia.
Qed.

(** ** Filling every degree and order *)

Definition lm_pairs (L : nat) : list (nat * Z) :=
  flat_map (fun el => map (pair el) (zrange (- Z.of_nat el) (Z.of_nat el + 1))) (seq 0 L).

Lemma in_zrange a b z : In z (zrange a b) <-> (a <= z < b)%Z.
Proof.
  unfold zrange. rewrite in_map_iff. split.
  - intros (k & <- & Hk). apply in_seq in Hk. lia.
  - intros H. exists (Z.to_nat (z - a)). rewrite in_seq. lia.
Qed.

Lemma in_lm_pairs L el m : In (el, m) (lm_pairs L) <-> valid L el m.
Proof.
  unfold lm_pairs. rewrite in_flat_map. unfold valid. split.
  - intros (x & Hx & H). apply in_map_iff in H. destruct H as (z & [= <- <-] & Hz).
    apply in_zrange in Hz. apply in_seq in Hx. lia.
  - intros [H1 H2]. exists el. rewrite in_seq. split; [lia|]. apply in_map. apply in_zrange. lia.
Qed.

Lemma zrange_nodup a b : NoDup (zrange a b).
Proof. unfold zrange. apply FinFun.Injective_map_NoDup; [intros x y; lia|apply seq_NoDup]. Qed.

Lemma NoDup_app' {A} (l l' : list A) : NoDup l -> NoDup l' -> (forall x, In x l -> In x l' -> False) ->
  NoDup (l ++ l').
Proof.
  induction l as [|x l IH]; intros H H' D; [exact H'|]. inversion H; subst. cbn [app]. constructor.
  - intros X. apply in_app_or in X. destruct X; [contradiction|]. apply (D x); [left; reflexivity|assumption].
  - apply IH; [assumption..|]. intros y Hy. apply D. right. exact Hy.
Qed.

Lemma NoDup_flat_map {A B} (f : A -> list B) l : NoDup l -> (forall x, In x l -> NoDup (f x)) ->
  (forall x y b, In x l -> In y l -> In b (f x) -> In b (f y) -> x = y) -> NoDup (flat_map f l).
Proof.
  induction l as [|x l IH]; intros Hd Hf Hx; [constructor|]. inversion Hd; subst. cbn [flat_map].
  apply NoDup_app'; [apply Hf; left; reflexivity| |].
  - apply IH; [assumption|intros; apply Hf; right; assumption|]. intros a b c Ha Hb. apply Hx; right; assumption.
  - intros b Hb1 Hb2. apply in_flat_map in Hb2. destruct Hb2 as (y & Hy & Hb2).
    assert (x = y) by (apply (Hx x y b); [left; reflexivity|right; exact Hy|exact Hb1|exact Hb2]).
    subst. contradiction.
Qed.

Lemma lm_pairs_nodup L : NoDup (map (fun p => elm2ind (fst p) (snd p)) (lm_pairs L)).
Proof.
  assert (H : NoDup (lm_pairs L)).
  { unfold lm_pairs. apply NoDup_flat_map; [apply seq_NoDup| |].
    - intros x _. apply FinFun.Injective_map_NoDup; [intros a b; congruence|apply zrange_nodup].
    - intros x y [e z] _ _ H1 H2. apply in_map_iff in H1, H2.
      destruct H1 as (? & [= <- <-] & _), H2 as (? & [= <- <-] & _). reflexivity. }
  assert (V : forall p, In p (lm_pairs L) -> valid L (fst p) (snd p)) by (intros [e z]; apply in_lm_pairs).
  revert H V. generalize (lm_pairs L) as l. induction l as [|p l IH]; intros H V; [constructor|].
  inversion H; subst. cbn [map]. constructor.
  - intros X. apply in_map_iff in X. destruct X as (q & E & Hq).
    pose proof (V p (or_introl eq_refl)) as [_ Vp]. pose proof (V q (or_intror Hq)) as [_ Vq].
    apply elm2ind_inj in E; [|assumption|assumption]. destruct p, q; cbn in *. destruct E; subst. contradiction.
  - apply IH; [assumption|]. intros q Hq. apply V. right. exact Hq.
Qed.

Lemma fill_lm L (v : nat -> Z -> C) : exists flm,
  rfold (fun flm ell => rfold (fun flm m => np_set (elm2ind ell m) (v ell m) flm)
           (zrange (- Z.of_nat ell) (Z.of_nat ell + 1)) flm) (seq 0 L) (zeros (L * L)) = Ok flm /\
  length flm = L * L /\ forall el m, valid L el m -> coeff flm el m = v el m.
Proof.
  rewrite (rfold_nested (fun flm ell m => np_set (elm2ind ell m) (v ell m) flm)).
  fold (lm_pairs L).
  destruct (set_all (fun p => elm2ind (fst p) (snd p)) (fun p => v (fst p) (snd p)) (lm_pairs L) (zeros (L * L)))
    as (a & E & Hl & Hin & _).
  - intros [e z] Hp. apply in_lm_pairs in Hp. destruct Hp. unfold zeros. rewrite repeat_length. apply elm2ind_lt; assumption.
  - apply lm_pairs_nodup.
  - exists a. split; [exact E|]. split; [rewrite Hl; apply repeat_length|].
    intros el m V. apply nth_error_nth. apply (Hin (el, m)). apply in_lm_pairs, V.
Qed.

(** Two arrays of [L^2] coefficients with the same coefficients are equal. *)
Lemma coeff_ext L a b : length a = L * L -> length b = L * L ->
  (forall el m, valid L el m -> coeff a el m = coeff b el m) -> a = b.
Proof.
  intros Ha Hb H. apply (nth_ext _ _ (RtoC 0) (RtoC 0)); [congruence|]. intros i Hi. rewrite Ha in Hi.
  pose proof (ind2elm_lt L i Hi). pose proof (ind2elm_range i).
  specialize (H (fst (ind2elm i)) (snd (ind2elm i))). unfold coeff in H. fold (elm2ind (fst (ind2elm i)) (snd (ind2elm i))) in H.
  rewrite elm2ind_ind2elm in H. apply H. split; assumption.
Qed.

Lemma Reqb_false x y : x <> y -> Reqb x y = false.
Proof. intros H. unfold Reqb. destruct (Req_EM_T x y); [contradiction|reflexivity]. Qed.
Lemma Reqb_true x : Reqb x x = true.
Proof. unfold Reqb. destruct (Req_EM_T x x); [reflexivity|contradiction]. Qed.
Lemma py_div_ok x y : y <> 0%R -> py_div x y = Ok (x / y)%R.
Proof. intros H. unfold py_div. rewrite Reqb_false by exact H. reflexivity. Qed.

(** Real coefficients of order zero describe a real field. *)
Lemma m0_reality L flm (v : nat -> R) :
  (forall el m, valid L el m -> coeff flm el m = if (m =? 0)%Z then RtoC (v el) else RtoC 0) -> reality L flm.
Proof.
  intros H el m V. assert (V' : valid L el (- m)) by (destruct V; split; lia).
  rewrite (H el (- m)%Z V'), (H el m V). destruct (Z.eqb_spec m 0) as [->|Hm].
  - cbn [Z.opp Z.eqb Z.abs_nat pow]. rewrite Cconj_R. ring.
  - destruct (Z.eqb_spec (- m) 0); [lia|]. rewrite Cconj_R. ring.
Qed.

(** ** Ring *)
Section Ring.
  Variable gammaln : R -> R.
  Hypothesis gammaln_fact : forall n, gammaln (INR n + 1) = ln (INR (fact n)).

  Lemma fact_pos n : (0 < INR (fact n))%R.
  Proof. apply lt_0_INR. apply lt_O_fact. Qed.

  Lemma exp_gammaln n : exp (gammaln (INR n + 1)) = INR (fact n).
  Proof. rewrite gammaln_fact. apply exp_ln, fact_pos. Qed.

  Lemma cos_PI_mult n : cos (PI * INR n) = ((-1) ^ n)%R.
  Proof.
    induction n as [|n IH]; [cbn [INR pow]; rewrite Rmult_0_r; apply cos_0|].
    rewrite S_INR. replace (PI * (INR n + 1))%R with (PI * INR n + PI)%R by ring.
    rewrite neg_cos, IH. cbn [pow]. ring.
  Qed.

  Lemma cos_PI_half n : cos (PI * (INR n + 1 / 2)) = 0%R.
  Proof.
    induction n as [|n IH].
    - cbn [INR]. replace (PI * (0 + 1 / 2))%R with (PI / 2)%R by field. apply cos_PI2.
    - rewrite S_INR. replace (PI * (INR n + 1 + 1 / 2))%R with (PI * (INR n + 1 / 2) + PI)%R by field.
      rewrite neg_cos, IH. ring.
  Qed.

  Lemma ring_odd spin ell k : (Z.of_nat ell + spin = 2 * Z.of_nat k + 1)%Z -> ring_entry gammaln spin ell = 0%R.
  Proof.
    intros H. unfold ring_entry, real_neg1_pow.
    replace ((INR ell + IZR spin) / 2)%R with (INR k + 1 / 2)%R.
    - rewrite cos_PI_half. ring.
    - rewrite !INR_IZR_INZ, <- plus_IZR, H, plus_IZR, mult_IZR. field.
  Qed.

  (** [l + s = 2a], [l - s = 2b] *)
  Lemma ring_even spin ell a b : (Z.of_nat ell + spin = 2 * Z.of_nat a)%Z -> (Z.of_nat ell - spin = 2 * Z.of_nat b)%Z ->
    ring_entry gammaln spin ell
    = (2 * PI * sqrt ((2 * INR ell + 1) / (4 * PI)) * powerRZ (-1) spin * (-1) ^ a
       * sqrt (INR (fact (2 * a)) * INR (fact (2 * b)))
       / (2 ^ ell * INR (fact a) * INR (fact b)))%R.
  Proof.
    intros Ha Hb. unfold ring_entry, real_neg1_pow.
    assert (Ea : (INR ell + IZR spin = INR (2 * a))%R).
    { rewrite !INR_IZR_INZ, <- plus_IZR, Ha. f_equal. lia. }
    assert (Eb : (INR ell - IZR spin = INR (2 * b))%R).
    { rewrite !INR_IZR_INZ, <- minus_IZR, Hb. f_equal. lia. }
    rewrite Ea, Eb.
    replace (INR (2 * a) / 2)%R with (INR a) by (rewrite mult_INR; cbn [INR]; field).
    replace (INR (2 * b) / 2)%R with (INR b) by (rewrite mult_INR; cbn [INR]; field).
    rewrite cos_PI_mult. unfold Rminus. rewrite !exp_plus, !exp_Ropp, !exp_gammaln.
    assert (E2 : exp (INR ell * ln 2) = (2 ^ ell)%R).
    { rewrite <- Rpower_pow by lra. unfold Rpower. reflexivity. }
    rewrite E2.
    pose proof (fact_pos (2 * a)) as Pa. pose proof (fact_pos (2 * b)) as Pb.
    pose proof (fact_pos a). pose proof (fact_pos b).
    assert (S : (INR (fact (2 * a)) * sqrt (INR (fact (2 * b)) * / INR (fact (2 * a)))
                 = sqrt (INR (fact (2 * a)) * INR (fact (2 * b))))%R).
    { rewrite <- (sqrt_Rsqr (INR (fact (2 * a)))) at 1 by lra. rewrite <- sqrt_mult.
      - f_equal. unfold Rsqr. field. lra.
      - apply Rle_0_sqr.
      - apply Rlt_le, Rmult_lt_0_compat; [lra|]. apply Rinv_0_lt_compat. lra. }
    rewrite <- S. assert ((2 ^ ell)%R <> 0%R) by (apply pow_nonzero; lra).
    field. repeat split; lra || assumption.
  Qed.
End Ring.
