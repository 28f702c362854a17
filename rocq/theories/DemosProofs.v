(** * Lemmas for the demonstrations. *)
From Coq Require Import List ZArith Arith Bool Reals Lra Lia.
From Coquelicot Require Import Complex.
From Verif Require Import Base ListLemmas RSum CSum PyNum Index Numpy SpecField Noise NoiseProofs OrthoProofs ArbitrarySolveProofs
  SigmaProofs PropSampling Demos.
Import ListNotations.
Local Open Scope nat_scope.

Lemma mean_ext_in E q q' : (forall w X, In (w, X) E -> q X = q' X) -> mean E q = mean E q'.
Proof. intros H. unfold mean. apply rlsum_map_ext. intros [w X] Hin. cbn [fst snd]. rewrite (H w X Hin). reflexivity. Qed.

(** ** Variances *)

Lemma clsum_length_sum (a : list C) : clsum a = Cmult (RtoC (INR (length a))) (np_mean a) \/ a = [].
Proof.
  destruct a as [|x a]; [right; reflexivity|left]. unfold np_mean.
  assert (P : RtoC (INR (length (x :: a))) <> RtoC 0).
  { intros E. apply RtoC_inj in E. pose proof (lt_0_INR (length (x :: a)) ltac:(cbn; lia)). lra. }
  field. exact P.
Qed.

Lemma re_clsum a : Re (clsum a) = rlsum (map Re a).
Proof. induction a as [|x a IH]; [reflexivity|]. cbn [clsum rlsum map]. change (Re (Cplus x (clsum a))) with (Re x + Re (clsum a))%R. rewrite IH. reflexivity. Qed.
Lemma im_clsum a : Im (clsum a) = rlsum (map Im a).
Proof. induction a as [|x a IH]; [reflexivity|]. cbn [clsum rlsum map]. change (Im (Cplus x (clsum a))) with (Im x + Im (clsum a))%R. rewrite IH. reflexivity. Qed.

(** The variance is the mean square minus the square of the mean. *)
Lemma np_var_mean a : a <> [] ->
  np_var a = (rlsum (map (fun z => Cmod z ^ 2) a) / INR (length a) - Cmod (np_mean a) ^ 2)%R.
Proof.
  intros Ha. assert (P : (0 < INR (length a))%R) by (apply lt_0_INR; destruct a; [congruence|cbn; lia]).
  set (m := np_mean a). unfold np_var. fold m.
  assert (E : clsum a = Cmult (RtoC (INR (length a))) m) by (destruct (clsum_length_sum a); [assumption|congruence]).
  assert (E1 : rlsum (map Re a) = (INR (length a) * Re m)%R).
  { rewrite <- re_clsum, E. destruct m. cbn. ring. }
  assert (E2 : rlsum (map Im a) = (INR (length a) * Im m)%R).
  { rewrite <- im_clsum, E. destruct m. cbn. ring. }
  assert (S : rlsum (map (fun z => Cmod (Cminus z m) ^ 2)%R a)
              = (rlsum (map (fun z => Cmod z ^ 2) a) - 2 * (Re m * rlsum (map Re a) + Im m * rlsum (map Im a))
                 + INR (length a) * Cmod m ^ 2)%R).
  { clear E E1 E2 P Ha. clearbody m. induction a as [|x a IH]; [cbn; ring|]. cbn [map rlsum length]. rewrite IH, S_INR, !Cmod_sq. destruct x, m. cbn. ring. }
  rewrite S, E1, E2, (Cmod_sq m). field. lra.
Qed.

Lemma np_var_nonneg a : (0 <= np_var a)%R.
Proof.
  unfold np_var. destruct a as [|x a].
  - cbn. unfold Rdiv. rewrite Rmult_0_l. lra.
  - apply Rmult_le_pos.
    + apply rlsum_nonneg, Forall_forall. intros y Hy. apply in_map_iff in Hy as (z & <- & _). apply pow2_ge_0.
    + apply Rlt_le, Rinv_0_lt_compat, lt_0_INR. cbn. lia.
Qed.

Lemma np_mean_csum n (f : nat -> C) : np_mean (map f (seq 0 n)) = Cmult (csum n f) (RtoC (/ INR n)).
Proof.
  unfold np_mean. rewrite clsum_map_seq, map_length, seq_length. destruct n as [|n].
  - cbn [csum]. unfold Cdiv. ring.
  - unfold Cdiv. f_equal. rewrite RtoC_inv; [reflexivity|]. apply not_0_INR. lia.
Qed.

Lemma np_var_csum n (f : nat -> C) : 1 <= n ->
  np_var (map f (seq 0 n)) = (rsum n (fun k => Cmod (f k) ^ 2) / INR n - Cmod (csum n f) ^ 2 / INR n ^ 2)%R.
Proof.
  intros Hn. assert (P : (0 < INR n)%R) by (apply lt_0_INR; lia).
  rewrite np_var_mean by (destruct n; [lia|discriminate]). rewrite np_mean_csum, map_map, rlsum_map_seq, map_length, seq_length.
  f_equal. rewrite Cmod_mult, Cmod_R, Rpow_mult_distr, pow2_abs. field. lra.
Qed.

(** ** Random signals of successive runs *)

(** Coefficient [q] of the signal of run [r]; [e] is 1, or -1 for its
    conjugate. *)
Definition draw (M : nat) (v e : R) (X : nat -> R) (r q : nat) : C :=
  (sqrt (v / 2) * X (r * (2 * M) + q)%nat, e * (sqrt (v / 2) * X (r * (2 * M) + (M + q))%nat))%R.

Lemma mean_runs E R M v e (a : nat -> nat -> C) : (0 <= v)%R -> (e ^ 2 = 1)%R -> decorrelated E (R * (2 * M)) ->
  mean E (fun X => (Cmod (csum R (fun r => csum M (fun q => Cmult (a r q) (draw M v e X r q)))) ^ 2)%R)
  = (v * rsum R (fun r => rsum M (fun q => Cmod (a r q) ^ 2)))%R.
Proof.
  intros Hv He HE.
  set (s := sqrt (v / 2)). assert (Hs : (s * s = v / 2)%R) by (apply sqrt_sqrt; lra).
  set (c := fun k => let r := k / (2 * M) in let t := k mod (2 * M) in
              if t <? M then Cmult (RtoC s) (a r t) else Cmult (Cmult (RtoC (e * s)) Ci) (a r (t - M))).
  assert (D : forall r t, t < 2 * M -> (r * (2 * M) + t) / (2 * M) = r /\ (r * (2 * M) + t) mod (2 * M) = t).
  { intros r t Ht. split.
    - symmetry. apply (Nat.div_unique _ _ _ t); lia.
    - symmetry. apply (Nat.mod_unique _ _ r); lia. }
  assert (C1 : forall r q, q < M -> c (r * (2 * M) + q) = Cmult (RtoC s) (a r q)).
  { intros r q Hq. unfold c. destruct (D r q ltac:(lia)) as [-> ->]. cbv zeta. destruct (Nat.ltb_spec q M); [reflexivity|lia]. }
  assert (C2 : forall r q, q < M -> c (r * (2 * M) + (M + q)) = Cmult (Cmult (RtoC (e * s)) Ci) (a r q)).
  { intros r q Hq. unfold c. destruct (D r (M + q) ltac:(lia)) as [-> ->]. cbv zeta. destruct (Nat.ltb_spec (M + q) M); [lia|].
    replace (M + q - M) with q by lia. reflexivity. }
  transitivity (mean E (fun X => (Cmod (csum (R * (2 * M)) (fun k => Cmult (c k) (RtoC (X k)))) ^ 2)%R)).
  - apply mean_ext. intros X. do 2 f_equal. rewrite csum_rect. apply csum_ext. intros r _.
    replace (2 * M) with (M + M) at 1 by lia. rewrite csum_app, <- csum_plus. apply csum_ext. intros q Hq.
    rewrite C1, C2 by exact Hq. unfold draw. fold s. apply C_ext; destruct (a r q); cbn; ring.
  - rewrite mean_linear by exact HE. unfold nrm2. rewrite rsum_rect, <- rsum_scal_l. apply rsum_ext. intros r _.
    replace (2 * M) with (M + M) at 1 by lia. rewrite rsum_app, <- rsum_plus, <- rsum_scal_l. apply rsum_ext. intros q Hq.
    rewrite C1, C2 by exact Hq. rewrite Cmod_sq. destruct (a r q) as [x y]. cbn.
    transitivity ((s * s) * (1 + e ^ 2) * (x ^ 2 + y ^ 2))%R; [ring|]. rewrite Hs, He. field.
Qed.

(** One run. *)
Lemma mean_run E R M v e r (a : nat -> C) : (0 <= v)%R -> (e ^ 2 = 1)%R -> decorrelated E (R * (2 * M)) -> r < R ->
  mean E (fun X => (Cmod (csum M (fun q => Cmult (a q) (draw M v e X r q))) ^ 2)%R)
  = (v * rsum M (fun q => Cmod (a q) ^ 2))%R.
Proof.
  intros Hv He HE Hr.
  pose proof (mean_runs E R M v e (fun r' q => if r' =? r then a q else RtoC 0) Hv He HE) as H.
  rewrite (rsum_single R r) in H; [|exact Hr|].
  - rewrite Nat.eqb_refl in H. rewrite <- H. apply mean_ext. intros X. do 2 f_equal.
    rewrite (csum_single R r); [rewrite Nat.eqb_refl; reflexivity|exact Hr|].
    intros r' _ Hne. apply csum_zero. intros q _. destruct (Nat.eqb_spec r' r); [congruence|]. ring.
  - intros r' _ Hne. apply rsum_zero. intros q _. destruct (Nat.eqb_spec r' r); [congruence|]. rewrite Cmod_0. ring.
Qed.

Lemma decorrelated_le E n m : m <= n -> decorrelated E n -> decorrelated E m.
Proof. intros H D i j Hi Hj. apply D; lia. Qed.

(** The signal of run [r] from the start of the generator. *)
Definition signal_of_run (X : nat -> R) (L : nat) (v : R) (r : nat) : list C :=
  fst (compute_random_signal (fun _ => X) L {| g_seed := 30%Z; g_pos := r * (2 * (L * L)) |} v).

Lemma signal_of_run_spec X L v r : length (signal_of_run X L v r) = L * L /\
  forall q, q < L * L -> nth q (signal_of_run X L v r) (RtoC 0) = draw (L * L) v 1 X r q.
Proof.
  unfold signal_of_run. destruct (C50_draws (fun _ => X) L {| g_seed := 30%Z; g_pos := r * (2 * (L * L)) |} v)
    as (sig & g' & -> & Hl & _ & _ & Hn). cbn [fst]. split; [exact Hl|]. intros q Hq. rewrite (Hn q Hq). unfold draw. cbn [g_seed g_pos].
  f_equal. ring.
Qed.

Lemma compute_random_signal_run X L v r :
  compute_random_signal (fun _ => X) L {| g_seed := 30%Z; g_pos := r * (2 * (L * L)) |} v
  = (signal_of_run X L v r, {| g_seed := 30%Z; g_pos := S r * (2 * (L * L)) |}).
Proof. unfold signal_of_run, compute_random_signal. cbn [fst g_seed g_pos]. do 2 f_equal. lia. Qed.

(** A loop over runs that collects one result per run. *)
Lemma collect_runs {A} (L : nat) (body : gen -> res (A * gen)) (out : nat -> A) :
  (forall r, exists x, body {| g_seed := 30%Z; g_pos := r * (2 * (L * L)) |} = Ok (x, {| g_seed := 30%Z; g_pos := S r * (2 * (L * L)) |}) /\ x = out r) ->
  forall n,
  rfold (fun (st : list A * gen) (_ : nat) => let* r := body (snd st) in Ok (fst st ++ [fst r], snd r)) (seq 0 n) ([], default_rng 30)
  = Ok (map out (seq 0 n), {| g_seed := 30%Z; g_pos := n * (2 * (L * L)) |}).
Proof.
  intros H n.
  assert (G : forall n s acc,
    rfold (fun (st : list A * gen) (_ : nat) => let* r := body (snd st) in Ok (fst st ++ [fst r], snd r)) (seq s n)
      (acc, {| g_seed := 30%Z; g_pos := s * (2 * (L * L)) |})
    = Ok (acc ++ map out (seq s n), {| g_seed := 30%Z; g_pos := (s + n) * (2 * (L * L)) |})).
  { clear n. induction n as [|n IH]; intros s acc; cbn [seq rfold map].
    - rewrite app_nil_r, Nat.add_0_r. reflexivity.
    - cbn [snd fst]. destruct (H s) as (x & -> & ->). cbn [rbind fst snd]. rewrite IH, <- app_assoc. cbn [app]. do 4 f_equal. lia. }
  exact (G n 0 []).
Qed.
