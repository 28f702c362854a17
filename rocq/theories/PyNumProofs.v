(** * Facts about [py_round], Boolean comparisons and decimal printing. *)
From Coq Require Import ZArith Reals String Ascii DecimalString DecimalZ Decimal DecimalFacts Bool Lia Lra.
From Verif Require Import PyNum.
Open Scope R_scope.

Lemma Reqb_spec x y : Reqb x y = true <-> x = y.
Proof. unfold Reqb; destruct (Req_EM_T x y); split; congruence. Qed.
Lemma Reqb_false x y : Reqb x y = false <-> x <> y.
Proof. unfold Reqb; destruct (Req_EM_T x y); split; congruence. Qed.
Lemma Rleb_spec x y : Rleb x y = true <-> x <= y.
Proof. unfold Rleb; destruct (Rle_dec x y); split; try congruence; lra. Qed.
Lemma Rleb_false x y : Rleb x y = false <-> y < x.
Proof. unfold Rleb; destruct (Rle_dec x y); split; try congruence; lra. Qed.
Lemma Rltb_spec x y : Rltb x y = true <-> x < y.
Proof. unfold Rltb; destruct (Rlt_dec x y); split; try congruence; lra. Qed.
Lemma Rltb_false x y : Rltb x y = false <-> y <= x.
Proof. unfold Rltb; destruct (Rlt_dec x y); split; try congruence; lra. Qed.

Lemma rfloor_bounds x : IZR (rfloor x) <= x < IZR (rfloor x) + 1.
Proof.
  unfold rfloor. destruct (archimed x) as [A B]. rewrite minus_IZR. lra.
Qed.

Lemma rfloor_unique x z : IZR z <= x < IZR z + 1 -> rfloor x = z.
Proof.
  intros [A B]. destruct (rfloor_bounds x) as [C D].
  assert ((z < rfloor x + 1)%Z).
  { apply lt_IZR. rewrite plus_IZR. lra. }
  assert ((rfloor x < z + 1)%Z).
  { apply lt_IZR. rewrite plus_IZR. lra. }
  lia.
Qed.

Lemma py_round_half x : Rabs (IZR (py_round x) - x) <= 1 / 2.
Proof.
  unfold py_round. destruct (rfloor_bounds x) as [A B].
  destruct (Rltb (x - IZR (rfloor x)) (1/2)) eqn:E1.
  - apply Rltb_spec in E1. rewrite Rabs_left1; lra.
  - apply Rltb_false in E1. destruct (Rltb (1/2) (x - IZR (rfloor x))) eqn:E2.
    + apply Rltb_spec in E2. rewrite plus_IZR. rewrite Rabs_right; lra.
    + apply Rltb_false in E2. destruct (Z.even _).
      * rewrite Rabs_left1; lra.
      * rewrite plus_IZR. rewrite Rabs_right; lra.
Qed.

Lemma py_round_IZR z : py_round (IZR z) = z.
Proof.
  unfold py_round. rewrite (rfloor_unique (IZR z) z) by lra.
  assert (Rltb (IZR z - IZR z) (1/2) = true) as -> by (apply Rltb_spec; lra). reflexivity.
Qed.

Lemma rfloor_mono x y : x <= y -> (rfloor x <= rfloor y)%Z.
Proof.
  intros H. destruct (rfloor_bounds x) as [A _]. destruct (rfloor_bounds y) as [_ B].
  assert (rfloor x < rfloor y + 1)%Z; [|lia]. apply lt_IZR. rewrite plus_IZR. lra.
Qed.

Lemma py_round_mono x y : x <= y -> (py_round x <= py_round y)%Z.
Proof.
  intros H. pose proof (rfloor_mono x y H) as M.
  destruct (Z.eq_dec (rfloor x) (rfloor y)) as [E|E].
  - unfold py_round. rewrite E.
    destruct (Rltb (x - IZR (rfloor y)) (1/2)) eqn:X1;
    destruct (Rltb (y - IZR (rfloor y)) (1/2)) eqn:Y1;
    destruct (Rltb (1/2) (x - IZR (rfloor y))) eqn:X2;
    destruct (Rltb (1/2) (y - IZR (rfloor y))) eqn:Y2;
    rewrite ?Rltb_spec, ?Rltb_false in *;
    destruct (Z.even (rfloor y)); try lia; lra.
  - assert (py_round x <= rfloor x + 1)%Z.
    { unfold py_round. repeat destruct (Rltb _ _); try destruct (Z.even _); lia. }
    assert (rfloor y <= py_round y)%Z.
    { unfold py_round. repeat destruct (Rltb _ _); try destruct (Z.even _); lia. }
    lia.
Qed.

Lemma py_round_between a b x : IZR a <= x <= IZR b -> (a <= py_round x <= b)%Z.
Proof.
  intros [A B]. apply py_round_mono in A. apply py_round_mono in B.
  rewrite py_round_IZR in *. lia.
Qed.

(** ** Decimal printing *)
Definition is_digit (a : ascii) : bool :=
  (48 <=? nat_of_ascii a)%nat && (nat_of_ascii a <=? 57)%nat.

Fixpoint all_digits (s : string) : Prop :=
  match s with EmptyString => True | String a t => is_digit a = true /\ all_digits t end.

Definition starts_nondigit (s : string) : Prop :=
  match s with EmptyString => True | String a _ => is_digit a = false end.

Lemma string_of_uint_digits d : all_digits (NilEmpty.string_of_uint d).
Proof. induction d; cbn; auto. Qed.

Lemma zstr_digits z : (0 <= z)%Z -> all_digits (zstr z).
Proof.
  intros H. unfold zstr. destruct z as [|p|p].
  - cbn. auto.
  - cbn [Z.to_int NilZero.string_of_int]. unfold NilZero.string_of_uint.
    destruct (Pos.to_uint p); cbn; auto using string_of_uint_digits.
  - lia.
Qed.

Lemma zstr_nonneg_nil z : (0 <= z)%Z -> zstr z <> EmptyString.
Proof.
  intros H. unfold zstr. destruct z as [|p|p]; [cbn; discriminate| |lia].
  cbn [Z.to_int NilZero.string_of_int]. unfold NilZero.string_of_uint.
  destruct (Pos.to_uint p); cbn; discriminate.
Qed.

Lemma zto_int_nonnil z : Z.to_int z <> Decimal.Pos Decimal.Nil /\ Z.to_int z <> Decimal.Neg Decimal.Nil.
Proof.
  destruct z as [|p|p]; cbn; split; try discriminate.
  - intros H. injection H as H. pose proof (DecimalPos.Unsigned.to_uint_nonnil p). congruence.
  - intros H. injection H as H. pose proof (DecimalPos.Unsigned.to_uint_nonnil p). congruence.
Qed.

Lemma zstr_inj a b : zstr a = zstr b -> a = b.
Proof.
  unfold zstr. intros H. apply DecimalZ.to_int_inj.
  pose proof (NilZero.isi (Z.to_int a)) as A. pose proof (NilZero.isi (Z.to_int b)) as B.
  destruct (zto_int_nonnil a) as [A1 A2]. destruct (zto_int_nonnil b) as [B1 B2].
  specialize (A A1 A2). specialize (B B1 B2). rewrite H in A. congruence.
Qed.

Open Scope string_scope.
Lemma digits_split s1 s2 t1 t2 :
  all_digits s1 -> all_digits s2 -> starts_nondigit t1 -> starts_nondigit t2 ->
  s1 ++ t1 = s2 ++ t2 -> s1 = s2 /\ t1 = t2.
Proof.
  revert s2. induction s1 as [|a s1 IH]; intros s2 H1 H2 N1 N2 E.
  - destruct s2 as [|b s2]; [auto|]. cbn in E. subst t1. cbn in N1, H2. destruct H2; congruence.
  - destruct s2 as [|b s2].
    + cbn in E. subst t2. cbn in N2, H1. destruct H1; congruence.
    + cbn in E. injection E as -> E. cbn in H1, H2.
      destruct (IH s2 (proj2 H1) (proj2 H2) N1 N2 E) as [-> ->]. auto.
Qed.

Lemma zstr_split a b t1 t2 :
  (0 <= a)%Z -> (0 <= b)%Z -> starts_nondigit t1 -> starts_nondigit t2 ->
  zstr a ++ t1 = zstr b ++ t2 -> a = b /\ t1 = t2.
Proof.
  intros A B N1 N2 E.
  destruct (digits_split _ _ _ _ (zstr_digits a A) (zstr_digits b B) N1 N2 E) as [E1 E2].
  split; [apply zstr_inj|]; assumption.
Qed.

Lemma append_nil_r s : s ++ "" = s.
Proof. induction s; cbn; congruence. Qed.

Lemma append_assoc_s (a b c : string) : (a ++ b) ++ c = a ++ (b ++ c).
Proof. induction a; cbn; congruence. Qed.

Lemma append_inj_l (p a b : string) : p ++ a = p ++ b -> a = b.
Proof. induction p as [|c p IH]; cbn; intros H; [assumption|]. injection H as H. auto. Qed.
