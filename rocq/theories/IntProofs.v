(** * [py_int] accepts exactly the integer texts. *)
From Coq Require Import List ZArith Arith Bool Lia String Ascii.
From Verif Require Import Base PyNum Argparse SpecInt ArgparseProofs.
Import ListNotations.
Local Open Scope string_scope.

Lemma app_assoc_s (a b c : string) : (a ++ b) ++ c = a ++ b ++ c.
Proof. induction a as [|x a IH]; [reflexivity|]. cbn. rewrite IH. reflexivity. Qed.
Lemma app_nil_s (a : string) : a ++ "" = a.
Proof. induction a as [|x a IH]; [reflexivity|]. cbn. rewrite IH. reflexivity. Qed.
Lemma list_app_s a b : list_ascii_of_string (a ++ b) = (list_ascii_of_string a ++ list_ascii_of_string b)%list.
Proof. induction a as [|x a IH]; [reflexivity|]. cbn. rewrite IH. reflexivity. Qed.

Lemma all_ascii (P : ascii -> bool) : forallb P (map ascii_of_nat (seq 0 256)) = true -> forall c, P c = true.
Proof.
  intros H c. rewrite forallb_forall in H. apply H. rewrite <- (ascii_nat_embedding c). apply in_map, in_seq. pose proof (nat_ascii_bounded c). lia.
Qed.

Lemma is_space_blank c : is_space c = true <-> In c blanks.
Proof.
  assert (H : Bool.eqb (is_space c) (existsb (Ascii.eqb c) blanks) = true).
  { revert c. apply all_ascii. vm_compute. reflexivity. }
  apply Bool.eqb_prop in H. rewrite H, existsb_exists. split.
  - intros (x & Hx & E). apply Ascii.eqb_eq in E. subst. exact Hx.
  - intros Hc. exists c. split; [exact Hc|apply Ascii.eqb_refl].
Qed.

Lemma digit_known n c : nth_error ten_digits n = Some c -> is_digit c = true /\ digit c = Z.of_nat n.
Proof. do 10 (destruct n as [|n]; [cbn; intros E; injection E as <-; split; reflexivity|]). destruct n; discriminate. Qed.
Lemma digit_named c : is_digit c = true -> exists n, nth_error ten_digits n = Some c /\ digit c = Z.of_nat n.
Proof.
  intros H. exists (nat_of_ascii c - 48). split; [|reflexivity].
  assert (Q : implb (is_digit c) (match nth_error ten_digits (nat_of_ascii c - 48) with Some d => Ascii.eqb d c | None => false end) = true).
  { clear H. revert c. apply all_ascii. vm_compute. reflexivity. }
  rewrite H in Q. cbn [implb] in Q. destruct (nth_error _ _) as [d|]; [|discriminate]. apply Ascii.eqb_eq in Q. subst. reflexivity.
Qed.

Lemma read_decimal s z : decimal s z -> forall rest, read_digits (s ++ rest) 0 false = read_digits rest z true.
Proof.
  induction 1 as [n c E|s z n c D IH E|s z n c D IH E]; intros rest; destruct (digit_known _ _ E) as [E1 E2].
  - cbn [append read_digits]. rewrite E1, E2. f_equal.
  - rewrite app_assoc_s, IH. cbn [append read_digits]. rewrite E1, E2. reflexivity.
  - rewrite app_assoc_s, IH. cbn [append read_digits]. change (is_digit "_") with false. cbn [Ascii.eqb Bool.eqb andb]. rewrite E1, E2. reflexivity.
Qed.

Lemma decimal_read t : forall sum z,
  (read_digits t sum true = Some z -> forall s, decimal s sum -> decimal (s ++ t) z) /\
  (read_digits t sum false = Some z -> forall s, decimal s sum -> decimal (s ++ String "_" t) z).
Proof.
  induction t as [|c t IH]; intros sum z; split; cbn [read_digits]; intros H s D.
  - injection H as <-. rewrite app_nil_s. exact D.
  - discriminate.
  - destruct (is_digit c) eqn:E.
    + destruct (digit_named c E) as (n & N1 & N2). rewrite N2 in H. replace (s ++ String c t) with ((s ++ String c "") ++ t) by (rewrite app_assoc_s; reflexivity).
      apply (proj1 (IH _ _) H). apply next_digit; assumption.
    + rewrite andb_true_r in H. destruct (Ascii.eqb_spec c "_") as [->|]; [|discriminate]. apply (proj2 (IH _ _) H s D).
  - destruct (is_digit c) eqn:E; [|rewrite andb_false_r in H; discriminate].
    destruct (digit_named c E) as (n & N1 & N2). rewrite N2 in H. replace (s ++ String "_" (String c t)) with ((s ++ String "_" (String c "")) ++ t) by (rewrite app_assoc_s; reflexivity).
    apply (proj1 (IH _ _) H). apply underscore; assumption.
Qed.

Lemma read_iff t z : read_digits t 0 false = Some z <-> decimal t z.
Proof.
  split.
  - destruct t as [|c t]; [discriminate|]. cbn [read_digits]. destruct (is_digit c) eqn:E; [|rewrite andb_false_r; discriminate].
    destruct (digit_named c E) as (n & N1 & N2). rewrite N2. change (10 * 0 + Z.of_nat n)%Z with (Z.of_nat n). intros H.
    apply (proj1 (decimal_read t _ _) H (String c "")). constructor. exact N1.
  - intros D. rewrite <- (app_nil_s t). rewrite (read_decimal _ _ D). reflexivity.
Qed.

Lemma decimal_unspaced s z : decimal s z -> forall c, In c (list_ascii_of_string s) -> is_space c = false.
Proof.
  assert (K : forall n c, nth_error ten_digits n = Some c -> is_space c = false).
  { intros n c E. apply nth_error_In in E. cbn in E. repeat (destruct E as [<-|E]; [reflexivity|]). contradiction. }
  induction 1 as [n c E|s z n c D IH E|s z n c D IH E]; intros x Hx; try (rewrite list_app_s, in_app_iff in Hx; destruct Hx as [Hx|Hx]; [exact (IH x Hx)|]); cbn in Hx.
  - destruct Hx as [<-|[]]. exact (K _ _ E).
  - destruct Hx as [<-|[]]. exact (K _ _ E).
  - destruct Hx as [<-|[<-|[]]]; [reflexivity|exact (K _ _ E)].
Qed.

Lemma lstrip_split s : exists before, s = before ++ lstrip s /\ blank_text before.
Proof.
  induction s as [|c t (b & E & B)]; [exists ""; split; [reflexivity|intros ? []]|]. cbn [lstrip]. destruct (is_space c) eqn:S.
  - exists (String c b). split; [cbn; rewrite <- E; reflexivity|]. intros x [<-|Hx]; [apply is_space_blank, S|exact (B x Hx)].
  - exists "". split; [reflexivity|intros ? []].
Qed.
Lemma rstrip_split s : exists after, s = rstrip s ++ after /\ blank_text after.
Proof.
  induction s as [|c t (b & E & B)]; [exists ""; split; [reflexivity|intros ? []]|]. cbn [rstrip]. destruct (rstrip t) as [|d u] eqn:R.
  - cbn in E. subst b. destruct (is_space c) eqn:S.
    + exists (String c t). split; [reflexivity|]. intros x [<-|Hx]; [apply is_space_blank, S|exact (B x Hx)].
    + exists t. split; [reflexivity|exact B].
  - exists b. split; [cbn; rewrite E at 1; reflexivity|exact B].
Qed.
Lemma lstrip_blank b s : blank_text b -> lstrip (b ++ s) = lstrip s.
Proof.
  induction b as [|c b IH]; intros H; [reflexivity|]. cbn. rewrite (proj2 (is_space_blank c) (H c (or_introl eq_refl))). apply IH. intros x Hx. apply H. right. exact Hx.
Qed.
Lemma rstrip_all b : blank_text b -> rstrip b = "".
Proof.
  induction b as [|c b IH]; intros H; [reflexivity|]. cbn. rewrite IH by (intros x Hx; apply H; right; exact Hx). rewrite (proj2 (is_space_blank c) (H c (or_introl eq_refl))). reflexivity.
Qed.
Lemma rstrip_blank s b : blank_text b -> rstrip (s ++ b) = rstrip s.
Proof. intros H. induction s as [|c s IH]; [exact (rstrip_all b H)|]. cbn. rewrite IH. reflexivity. Qed.

(** The text between the blanks *)
Definition stripped_int (s : string) : option Z :=
  match s with
  | String "-" t => option_map Z.opp (read_digits t 0 false)
  | String "+" t => read_digits t 0 false
  | t => read_digits t 0 false
  end.

Lemma stripped_iff s z : stripped_int s = Some z <->
  exists sign digits n, s = sign ++ digits /\ decimal digits n /\ ((sign = "" \/ sign = "+") /\ z = n \/ sign = "-" /\ z = Z.opp n).
Proof.
  split.
  - intros H. assert (D : (exists t, s = String "-" t /\ option_map Z.opp (read_digits t 0 false) = Some z) \/ (exists t, s = String "+" t /\ read_digits t 0 false = Some z) \/ read_digits s 0 false = Some z).
    { destruct s as [|c t]; [right; right; exact H|]. destruct (Ascii.eqb_spec c "-") as [->|N1]; [left; exists t; split; [reflexivity|exact H]|].
      destruct (Ascii.eqb_spec c "+") as [->|N2]; [right; left; exists t; split; [reflexivity|exact H]|]. right. right.
      revert H. cbn [stripped_int]. destruct c as [[] [] [] [] [] [] [] []]; try (intros H; exact H); congruence. }
    destruct D as [(t & -> & E)|[(t & -> & E)|E]].
    + destruct (read_digits t 0 false) as [n|] eqn:R; [|discriminate]. injection E as <-. exists "-", t, n. split; [reflexivity|]. split; [apply read_iff, R|]. right. split; reflexivity.
    + exists "+", t, z. split; [reflexivity|]. split; [apply read_iff, E|]. left. split; [right; reflexivity|reflexivity].
    + exists "", s, z. split; [reflexivity|]. split; [apply read_iff, E|]. left. split; [left; reflexivity|reflexivity].
  - intros (sign & digits & n & -> & D & [[[-> | ->] ->]|[-> ->]]).
    + apply read_iff in D. destruct digits as [|c t]; [discriminate|]. cbn [append].
      assert (DC : is_digit c = true). { cbn [read_digits] in D. destruct (is_digit c); [reflexivity|rewrite andb_false_r in D; discriminate]. }
      revert D DC. cbn [stripped_int]. destruct c as [[] [] [] [] [] [] [] []]; try (intros H _; exact H); discriminate.
    + cbn [append stripped_int]. apply read_iff, D.
    + cbn [append stripped_int]. apply read_iff in D. rewrite D. reflexivity.
Qed.

Lemma py_int_iff s z : py_int s = Some z <-> int_text s z.
Proof.
  replace (py_int s) with (stripped_int (rstrip (lstrip s)))
    by (unfold py_int, stripped_int; destruct (rstrip (lstrip s)) as [|c t]; [reflexivity|]; destruct c as [[] [] [] [] [] [] [] []]; reflexivity).
  rewrite stripped_iff. split.
  - intros (sign & digits & n & E & D & V). destruct (lstrip_split s) as (b & Eb & Bb). destruct (rstrip_split (lstrip s)) as (a & Ea & Ba).
    exists b, sign, digits, a, n. split; [|split; [exact Bb|split; [exact Ba|split; [exact D|exact V]]]].
    rewrite Eb, Ea, E, !app_assoc_s. reflexivity.
  - intros (b & sign & digits & a & n & -> & Bb & Ba & D & V). exists sign, digits, n. split; [|split; assumption].
    rewrite lstrip_blank by exact Bb.
    assert (U : forall c, In c (list_ascii_of_string (sign ++ digits)) -> is_space c = false).
    { intros c. rewrite list_app_s, in_app_iff. intros [H|H]; [|exact (decimal_unspaced _ _ D c H)].
      destruct V as [[[-> | ->] _]|[-> _]]; cbn in H; [contradiction|destruct H as [<-|[]]; reflexivity|destruct H as [<-|[]]; reflexivity]. }
    assert (NE : exists c t, sign ++ digits = String c t).
    { destruct (sign ++ digits) as [|c t] eqn:Q; [|exists c, t; reflexivity]. destruct sign; [|discriminate]. cbn in Q. subst digits. apply read_iff in D. discriminate. }
    rewrite <- app_assoc_s. destruct NE as (c & t & Q). rewrite Q in U |- *. cbn [append]. cbn [lstrip]. rewrite (U c) by (left; reflexivity).
    change (String c (t ++ a)) with (String c t ++ a). rewrite rstrip_blank by exact Ba. apply rstrip_unspaced. exact U.
Qed.
