(** * Lemmas on names. *)
From Coq Require Import List ZArith QArith Qabs Qreduction Arith Bool String Ascii Lia Lqa.
From Coq Require QArith.Qcanon.
From Verif Require Import Base PyNum PyNumProofs Names.
Import ListNotations.
Local Open Scope Z_scope.

(** ** [limit_denominator] *)

Notation D := MAX_DENOMINATOR.

Record converging (N Dn s p0 q0 p1 q1 n d : Z) : Prop := {
  cv_num : p0 * d + p1 * n = N;
  cv_den : q0 * d + q1 * n = Dn;
  cv_det : p1 * q0 - p0 * q1 = s;
  cv_s : s = 1 \/ s = -1;
  cv_q0 : 0 <= q0 <= D;
  cv_q1 : 1 <= q1 <= D;
  cv_d : 0 <= d < n
}.

Lemma converging_pos N Dn s p0 q0 p1 q1 n d : Z.gcd N Dn = 1 -> D < Dn ->
  converging N Dn s p0 q0 p1 q1 n d -> 0 < d.
Proof.
  intros G HD [cn cd cs _ _ cq [cd0 cdn]]. destruct (Z.eq_dec d 0) as [->|]; [|lia]. exfalso.
  assert (Hn : (n | Z.gcd N Dn)).
  { apply Z.gcd_greatest; [exists p1|exists q1]; lia. }
  rewrite G in Hn. apply Z.divide_1_r_nonneg in Hn; [|lia]. subst n. lia.
Qed.

Lemma convergents_ok N Dn : Z.gcd N Dn = 1 -> D < Dn -> forall fuel s p0 q0 p1 q1 n d,
  converging N Dn s p0 q0 p1 q1 n d -> n * d < 2 ^ Z.of_nat fuel ->
  exists s' P0 Q0 P1 Q1 n' d', convergents fuel p0 q0 p1 q1 n d = (P0, Q0, P1, Q1) /\
    converging N Dn s' P0 Q0 P1 Q1 n' d' /\ 0 < d' /\ D < Q0 + n' / d' * Q1.
Proof.
  intros G HD. induction fuel as [|fuel IH]; intros s p0 q0 p1 q1 n d I Hf;
    pose proof (converging_pos _ _ _ _ _ _ _ _ _ G HD I) as Hd.
  - exfalso. destruct I as [_ _ _ _ _ _ [H1 H2]]. change (2 ^ Z.of_nat 0) with 1 in Hf. nia.
  - cbn [convergents]. destruct (Z.ltb_spec D (q0 + n / d * q1)) as [E|E].
    + exists s, p0, q0, p1, q1, n, d. auto.
    + destruct I as [cn cd cs cpm c0 c1 [H1 H2]].
      pose proof (Z.div_mod n d ltac:(lia)) as Hdm. pose proof (Z.mod_pos_bound n d Hd) as Hm.
      set (a := n / d) in *. set (r := n mod d) in *.
      assert (Er : n - a * d = r) by lia. rewrite Er.
      assert (Ha : 1 <= a) by (unfold a; apply Z.div_le_lower_bound; lia).
      apply (IH (- s)).
      * constructor.
        -- rewrite <- cn. replace n with (d * a + r) by lia. ring.
        -- rewrite <- cd. replace n with (d * a + r) by lia. ring.
        -- rewrite <- cs. ring.
        -- destruct cpm; [right|left]; lia.
        -- lia.
        -- split; [nia|exact E].
        -- lia.
      * rewrite Nat2Z.inj_succ, Z.pow_succ_r in Hf by lia.
        assert (2 * (d * r) <= n * d); [|lia]. assert (d + r <= n) by nia. nia.
Qed.

(** Numerators and denominators of the comparisons. *)
Lemma Qabs_diff_le a b c d e f : (0 < b)%Z -> (0 < d)%Z -> (0 < f)%Z ->
  (a * d <= c * b /\ c * f <= e * d)%Z \/ (c * b <= a * d /\ e * d <= c * f)%Z ->
  (Qabs (Qmake c (Z.to_pos d) - Qmake e (Z.to_pos f)) <= Qabs (Qmake a (Z.to_pos b) - Qmake e (Z.to_pos f)))%Q.
Proof.
  intros Hb Hd Hf H.
  assert (Le : forall x y z w, (0 < y)%Z -> (0 < w)%Z -> (x * w <= z * y)%Z -> (Qmake x (Z.to_pos y) <= Qmake z (Z.to_pos w))%Q).
  { intros x y z w Hy Hw E. unfold Qle. cbn. rewrite !Z2Pos.id by assumption. lia. }
  destruct H as [[H1 H2]|[H1 H2]].
  - pose proof (Le _ _ _ _ Hb Hd H1) as A. pose proof (Le _ _ _ _ Hd Hf H2) as B.
    rewrite (Qabs_neg (Qmake c _ - _)) by lra. rewrite (Qabs_neg (Qmake a _ - _)) by lra. lra.
  - pose proof (Le _ _ _ _ Hd Hb H1) as A. pose proof (Le _ _ _ _ Hf Hd H2) as B.
    rewrite (Qabs_pos (Qmake c _ - _)) by lra. rewrite (Qabs_pos (Qmake a _ - _)) by lra. lra.
Qed.

Lemma Qred_involutive x : Qred (Qred x) = Qred x.
Proof. apply Qred_complete, Qred_correct. Qed.

(** The result is the closest fraction whose denominator does not exceed the
    bound. *)
Lemma limit_best x r t : (Zpos t <= D)%Z ->
  (Qabs (limit_denominator x - x) <= Qabs (Qmake r t - x))%Q /\ (Zpos (Qden (limit_denominator x)) <= D)%Z /\
  Qred (limit_denominator x) = limit_denominator x.
Proof.
  intros Ht. unfold limit_denominator. set (y := Qred x). assert (Exy : (y == x)%Q) by apply Qred_correct.
  destruct (Z.leb_spec (Zpos (Qden y)) D) as [E|E].
  - split; [|split; [exact E|apply Qred_involutive]].
    rewrite Exy. setoid_replace (x - x)%Q with 0%Q by ring. apply Qabs_nonneg.
  - set (N := Qnum y) in *. set (Dn := Zpos (Qden y)) in *.
    assert (G : Z.gcd N Dn = 1).
    { apply Qcanon.Qred_iff. apply Qred_involutive. }
    assert (HDn : 0 < Dn) by reflexivity.
    assert (Hfuel : exists s P0 Q0 P1 Q1 n' d',
      convergents (2 * Z.to_nat (Z.log2 Dn) + 3) 0 1 1 0 N Dn = (P0, Q0, P1, Q1) /\
      converging N Dn s P0 Q0 P1 Q1 n' d' /\ 0 < d' /\ D < Q0 + n' / d' * Q1).
    { replace (2 * Z.to_nat (Z.log2 Dn) + 3)%nat with (S (2 * Z.to_nat (Z.log2 Dn) + 2)) by lia.
      cbn [convergents]. replace (1 + N / Dn * 0) with 1 by ring.
      destruct (Z.ltb_spec D 1) as [K|K]; [unfold MAX_DENOMINATOR in K; lia|].
      pose proof (Z.div_mod N Dn ltac:(lia)) as Hdm. pose proof (Z.mod_pos_bound N Dn HDn) as Hm.
      apply (convergents_ok N Dn G E _ (-1)).
      - assert (0 <= D) by (unfold MAX_DENOMINATOR; lia). clearbody N Dn.
        constructor; lia.
      - replace (Z.of_nat (2 * Z.to_nat (Z.log2 Dn) + 2)) with (2 * (Z.log2 Dn + 1))
          by (pose proof (Z.log2_nonneg Dn); lia).
        rewrite (Z.mul_comm 2), Z.pow_mul_r by (pose proof (Z.log2_nonneg Dn); lia).
        pose proof (Z.log2_spec Dn HDn) as [_ L2]. rewrite <- Z.add_1_r in L2.
        set (B := 2 ^ (Z.log2 Dn + 1)) in *. rewrite Z.pow_2_r.
        replace (N - N / Dn * Dn) with (N mod Dn) by lia. clear - L2 Hm HDn.
        apply Z.mul_lt_mono_nonneg; lia. }
    destruct Hfuel as (s & p0 & q0 & p1 & q1 & n & d & -> & [cn cd cs cpm c0 c1 [_ Hdn]] & Hd & Hex).
    set (k := (D - q0) / q1).
    pose proof (Z.div_mod (D - q0) q1 ltac:(lia)) as Hk. pose proof (Z.mod_pos_bound (D - q0) q1 ltac:(lia)) as Hkm.
    fold k in Hk. set (P := p0 + k * p1). set (Qq := q0 + k * q1).
    assert (Hk0 : 0 <= k) by (unfold k; apply Z.div_pos; lia).
    assert (HQ1 : Qq <= D) by (unfold Qq; lia).
    assert (HQ2 : D < Qq + q1) by (unfold Qq; lia).
    assert (HQ0 : 1 <= Qq).
    { assert (A := Z.mul_nonneg_nonneg k q1 Hk0 ltac:(lia)). unfold Qq.
      destruct (Z.eq_dec q0 0) as [->|]; [|lia].
      assert (D1 : 1 <= D) by (unfold MAX_DENOMINATOR; lia).
      destruct (Z.eq_dec k 0) as [->|]; [lia|]. assert (1 * 1 <= k * q1) by (apply Z.mul_le_mono_nonneg; lia). lia. }
    assert (Hka : k < n / d).
    { destruct (Z_lt_le_dec k (n / d)) as [|K]; [assumption|]. exfalso.
      assert (n / d * q1 <= k * q1) by (apply Z.mul_le_mono_nonneg_r; lia). unfold Qq in *. lia. }
    pose proof (Z.div_mod n d ltac:(lia)) as Hnd. pose proof (Z.mod_pos_bound n d Hd) as Hnm.
    set (e := n - k * d). assert (He : 0 < e).
    { unfold e. assert ((k + 1) * d <= n / d * d) by (apply Z.mul_le_mono_nonneg_r; lia). lia. }
    assert (EN : N = P * d + p1 * e) by (rewrite <- cn; unfold P, e; ring).
    assert (ED : Dn = Qq * d + q1 * e) by (rewrite <- cd; unfold Qq, e; ring).
    assert (Edet : p1 * Qq - P * q1 = s) by (rewrite <- cs; unfold P, Qq; ring).
    assert (Ey : y = Qmake N (Z.to_pos Dn)) by (unfold N, Dn; cbn; destruct y; reflexivity).
    set (T := Zpos t) in *. assert (HT : 0 < T) by reflexivity.
    assert (Et : t = Z.to_pos T) by reflexivity.
    assert (Best : (Qabs (Qmake P (Z.to_pos Qq) - y) <= Qabs (Qmake r t - y))%Q \/
                   (Qabs (Qmake p1 (Z.to_pos q1) - y) <= Qabs (Qmake r t - y))%Q).
    { rewrite Ey, Et. set (u := r * Qq - P * T). set (v := p1 * T - r * q1).
      assert (Euv : u * q1 + v * Qq = T * s) by (rewrite <- Edet; unfold u, v; ring).
      assert (E1 : N * Qq - P * Dn = s * e) by (rewrite EN, ED, <- Edet; ring).
      assert (E2 : p1 * Dn - N * q1 = s * d) by (rewrite EN, ED, <- Edet; ring).
      assert (Big : forall a b, 1 <= a -> 1 <= b -> T < a * q1 + b * Qq).
      { intros a b Ha Hb. assert (1 * q1 <= a * q1) by (apply Z.mul_le_mono_nonneg_r; lia).
        assert (1 * Qq <= b * Qq) by (apply Z.mul_le_mono_nonneg_r; lia). lia. }
      destruct cpm as [->| ->].
      - destruct (Z_le_gt_dec u 0) as [Hu|Hu].
        + left. apply Qabs_diff_le; [exact HT|lia|exact HDn|]. left. split; [unfold u in Hu; lia|]. lia.
        + right. assert (v <= 0) by (destruct (Z_le_gt_dec v 0); [assumption|]; pose proof (Big u v); lia). apply Qabs_diff_le; [exact HT|lia|exact HDn|]. right. split; [unfold v in *; lia|]. lia.
      - destruct (Z_le_gt_dec 0 u) as [Hu|Hu].
        + left. apply Qabs_diff_le; [exact HT|lia|exact HDn|]. right. split; [unfold u in Hu; lia|]. lia.
        + right. assert (0 <= v) by (destruct (Z_le_gt_dec 0 v); [assumption|]; pose proof (Big (- u) (- v)); lia). apply Qabs_diff_le; [exact HT|lia|exact HDn|]. left. split; [unfold v in *; lia|]. lia. }
    set (b1 := Qmake P (Z.to_pos Qq)) in *. set (b2 := Qmake p1 (Z.to_pos q1)) in *.
    assert (Hden : forall b, (Zpos (Qden b) <= D)%Z -> (Zpos (Qden (Qred b)) <= D)%Z).
    { intros b Hb. assert (A := Z.ggcd_correct_divisors (Qnum b) (Zpos (Qden b))).
      assert (K := Z.ggcd_gcd (Qnum b) (Zpos (Qden b))). destruct b as [bn bd]. cbn [Qnum Qden] in *. unfold Qred.
      destruct (Z.ggcd bn (Zpos bd)) as [g [aa bb]]. cbn [fst snd Qden] in *. destruct A as [_ A].
      pose proof (Z.gcd_nonneg bn (Zpos bd)). rewrite <- K in H. set (z := Zpos bd) in *. assert (0 < z) by reflexivity. clearbody z. 
      assert (0 < g) by (destruct (Z.eq_dec g 0) as [->|]; lia).
      assert (0 < bb) by (apply (Z.mul_pos_cancel_l g); lia). rewrite Z2Pos.id by assumption.
      assert (1 * bb <= g * bb) by (apply Z.mul_le_mono_nonneg_r; lia). lia. }
    assert (Exx : forall z, (Qabs (z - x) == Qabs (z - y))%Q) by (intros z; rewrite Exy; reflexivity).
    split; [|split; [|apply Qred_involutive]].
    + rewrite !Exx, Qred_correct. destruct (Qle_bool (Qabs (b2 - y)) (Qabs (b1 - y))) eqn:Eb.
      * apply Qle_bool_iff in Eb. destruct Best as [B|B]; [eapply Qle_trans; eassumption|exact B].
      * assert (Eb' : (Qabs (b1 - y) < Qabs (b2 - y))%Q).
        { apply Qnot_le_lt. intros K. apply Qle_bool_iff in K. congruence. }
        destruct Best as [B|B]; [exact B|]. apply Qlt_le_weak in Eb'. eapply Qle_trans; eassumption.
    + apply Hden. destruct (Qle_bool _ _); unfold b1, b2; cbn [Qden]; rewrite Z2Pos.id by lia; lia.
Qed.

(** A fraction close enough to one with a small denominator is replaced by it. *)
Lemma limit_near x p q : Z.gcd p (Zpos q) = 1 -> Zpos q <= D ->
  (Qabs (x - Qmake p q) * inject_Z (2 * Zpos q * D) < 1)%Q -> limit_denominator x = Qmake p q.
Proof.
  intros G Hq Hx. destruct (limit_best x p q Hq) as (B & Hd & Hr). set (l := limit_denominator x) in *.
  assert (Rp : Qred (Qmake p q) = Qmake p q) by (apply Qcanon.Qred_iff; exact G).
  rewrite <- Hr, <- Rp. apply Qred_complete.
  destruct (Qeq_dec l (Qmake p q)) as [|Ne]; [assumption|exfalso].
  assert (T : (Qabs (l - Qmake p q) <= Qabs (l - x) + Qabs (x - Qmake p q))%Q).
  { setoid_replace (l - Qmake p q)%Q with ((l - x) + (x - Qmake p q))%Q by ring. apply Qabs_triangle. }
  rewrite (Qabs_Qminus (Qmake p q) x) in B.
  assert (Lo : (1 <= Qabs (l - Qmake p q) * inject_Z (Zpos q * D))%Q).
  { destruct l as [r t]. cbn [Qden] in Hd. unfold Qeq in Ne. cbn [Qnum Qden] in Ne.
    unfold Qminus, Qplus, Qopp, Qabs, Qle, Qmult, inject_Z. cbn [Qnum Qden]. rewrite !Pos2Z.inj_mul.
    assert (A : 1 <= Z.abs (r * Zpos q + - p * Zpos t)) by lia.
    set (u := Z.abs _) in *. set (tt := Zpos t) in *. set (qq := Zpos q) in *.
    assert (0 < tt) by reflexivity. assert (0 < qq) by reflexivity. clearbody u tt qq.
    assert (1 * (qq * D) <= u * (qq * D)) by (apply Z.mul_le_mono_nonneg_r; nia).
    assert (tt * qq <= D * qq) by (apply Z.mul_le_mono_nonneg_r; lia). lia. }
  assert (P : (0 <= inject_Z (Zpos q * D))%Q).
  { change 0%Q with (inject_Z 0). rewrite <- Zle_Qle. unfold MAX_DENOMINATOR. lia. }
  replace (2 * Zpos q * D) with (2 * (Zpos q * D)) in Hx by ring. rewrite inject_Z_mult in Hx.
  set (w := inject_Z (Zpos q * D)) in *. set (y := Qabs (x - Qmake p q)) in *.
  assert (C : (Qabs (l - Qmake p q) * w <= (y + y) * w)%Q) by (apply Qmult_le_compat_r; [lra|exact P]).
  change (inject_Z 2) with 2%Q in Hx. lra.
Qed.

Lemma limit_small x : Zpos (Qden (Qred x)) <= D -> limit_denominator x = Qred x.
Proof. intros H. unfold limit_denominator. destruct (Z.leb_spec (Zpos (Qden (Qred x))) D); [reflexivity|lia]. Qed.

Lemma limit_wd x y : (x == y)%Q -> limit_denominator x = limit_denominator y.
Proof. intros E. unfold limit_denominator. rewrite (Qred_complete _ _ E). reflexivity. Qed.

Lemma limit_red x : Z.gcd (Qnum (limit_denominator x)) (Zpos (Qden (limit_denominator x))) = 1.
Proof. apply Qcanon.Qred_iff. apply (limit_best x 0 1). unfold MAX_DENOMINATOR. lia. Qed.

Lemma limit_int z : limit_denominator (inject_Z z) = inject_Z z.
Proof.
  assert (E : Qred (inject_Z z) = inject_Z z) by (apply Qcanon.Qred_iff; cbn; apply Z.gcd_1_r).
  rewrite limit_small; rewrite E; [reflexivity|]. cbn. unfold MAX_DENOMINATOR. lia.
Qed.

(** ** Reading names back *)
Local Open Scope string_scope.

Lemma zstr_neg z : (z < 0)%Z -> zstr z = String "-" (zstr (- z)).
Proof. destruct z; try lia. reflexivity. Qed.

Lemma zstr_no_minus z t : (0 <= z)%Z -> forall s, zstr z ++ t <> String "-" s.
Proof.
  intros Hz s E. pose proof (zstr_digits z Hz) as A. pose proof (zstr_nonneg_nil z Hz) as N.
  destruct (zstr z) as [|c u]; [congruence|]. cbn in E. injection E as -> _. cbn in A. destruct A as [A _]. discriminate.
Qed.

Lemma zstr_split_signed a b t1 t2 : starts_nondigit t1 -> starts_nondigit t2 ->
  zstr a ++ t1 = zstr b ++ t2 -> a = b /\ t1 = t2.
Proof.
  intros N1 N2 E. destruct (Z_lt_le_dec a 0) as [Ha|Ha], (Z_lt_le_dec b 0) as [Hb|Hb].
  - rewrite (zstr_neg a Ha), (zstr_neg b Hb) in E. cbn in E. injection E as E.
    apply zstr_split in E; try lia; try assumption. split; [lia|apply E].
  - rewrite (zstr_neg a Ha) in E. symmetry in E. cbn [append] in E. apply zstr_no_minus in E; [contradiction|assumption].
  - rewrite (zstr_neg b Hb) in E. cbn [append] in E. apply zstr_no_minus in E; [contradiction|assumption].
  - apply zstr_split; assumption.
Qed.

(** One angle of a file name. *)
Definition angle_piece (q : Q) : string :=
  if (Qnum q =? 0)%Z then "0" else pi_in_filename (Qnum q) (Zpos (Qden q)).

Definition ends_piece (s : string) : Prop := match s with EmptyString => True | String c _ => c = "_"%char end.

Lemma ends_nondigit s : ends_piece s -> starts_nondigit s.
Proof. destruct s as [|c s]; cbn; [trivial|]. intros ->. reflexivity. Qed.

Lemma piece_split q1 q2 t1 t2 : Qred q1 = q1 -> Qred q2 = q2 -> ends_piece t1 -> ends_piece t2 ->
  angle_piece q1 ++ t1 = angle_piece q2 ++ t2 -> q1 = q2 /\ t1 = t2.
Proof.
  intros R1 R2 N1 N2 E. unfold angle_piece, pi_in_filename in E.
  assert (Z0 : forall q, Qred q = q -> (Qnum q = 0)%Z -> q = 0%Q).
  { intros q R H. rewrite <- R. change 0%Q with (Qred 0). apply Qred_complete. unfold Qeq. cbn. lia. }
  assert (Hz : forall n t t', ends_piece t -> n <> 0%Z -> "0" ++ t = (zstr n ++ "pi" ++ t') -> False).
  { intros n t t' Nt Hn K. change "0" with (zstr 0) in K. apply zstr_split_signed in K.
    - destruct K as [K _]. congruence.
    - apply ends_nondigit, Nt.
    - reflexivity. }
  assert (Hd : forall p, ends_piece t1 -> "" ++ t1 = zstr (Zpos p) ++ t2 -> False).
  { intros p _ K. cbn [append] in K. pose proof (zstr_digits (Zpos p) ltac:(lia)) as A.
    pose proof (zstr_nonneg_nil (Zpos p) ltac:(lia)) as B. destruct (zstr (Zpos p)) as [|c u]; [congruence|].
    cbn [append] in K. subst t1. unfold ends_piece in N1. rewrite N1 in A. destruct A as [A _]. discriminate. }
  assert (Hd' : forall p, ends_piece t2 -> "" ++ t2 = zstr (Zpos p) ++ t1 -> False).
  { intros p _ K. cbn [append] in K. pose proof (zstr_digits (Zpos p) ltac:(lia)) as A.
    pose proof (zstr_nonneg_nil (Zpos p) ltac:(lia)) as B. destruct (zstr (Zpos p)) as [|c u]; [congruence|].
    cbn [append] in K. subst t2. unfold ends_piece in N2. rewrite N2 in A. destruct A as [A _]. discriminate. }
  destruct (Z.eqb_spec (Qnum q1) 0) as [H1|H1], (Z.eqb_spec (Qnum q2) 0) as [H2|H2].
  - split; [rewrite (Z0 q1 R1 H1), (Z0 q2 R2 H2); reflexivity|]. cbn in E. injection E as E. exact E.
  - exfalso. rewrite !append_assoc_s in E. exact (Hz _ _ _ N1 H2 E).
  - exfalso. rewrite !append_assoc_s in E. symmetry in E. exact (Hz _ _ _ N2 H1 E).
  - rewrite !append_assoc_s in E. apply zstr_split_signed in E; [|reflexivity|reflexivity].
    destruct E as [En E]. apply append_inj_l in E.
    destruct (Z.eqb_spec (Zpos (Qden q1)) 1) as [D1|D1], (Z.eqb_spec (Zpos (Qden q2)) 1) as [D2|D2].
    + split; [|exact E]. destruct q1, q2. cbn in *. congruence.
    + exfalso. exact (Hd _ N1 E).
    + exfalso. symmetry in E. exact (Hd' _ N2 E).
    + apply zstr_split in E; try lia; try (apply ends_nondigit; assumption). destruct E as [Ed Et].
      split; [|exact Et]. destruct q1, q2. cbn in *. congruence.
Qed.

Lemma filename_angle_pieces a b g : filename_angle a b g =
  "alpha" ++ angle_piece (limit_denominator a) ++ "_beta" ++ angle_piece (limit_denominator b)
  ++ (if (Qnum (limit_denominator g) =? 0)%Z then "" else "_gamma" ++ angle_piece (limit_denominator g)).
Proof.
  unfold filename_angle, get_angle_num_dem, angle_piece.
  destruct (Qnum (limit_denominator a) =? 0)%Z eqn:Ea, (Qnum (limit_denominator b) =? 0)%Z eqn:Eb,
    (Qnum (limit_denominator g) =? 0)%Z; rewrite ?append_nil_r; try reflexivity; rewrite ?append_assoc_s; reflexivity.
Qed.

(** ** Snake case *)

Lemma is_upper_spec c : is_upper c = true <-> (65 <= nat_of_ascii c <= 90)%nat.
Proof. unfold is_upper. rewrite andb_true_iff, !Nat.leb_le. tauto. Qed.

Lemma lower_not_upper c : is_upper (lower c) = false.
Proof.
  unfold lower. destruct (is_upper c) eqn:E; [|exact E]. apply is_upper_spec in E.
  destruct (is_upper _) eqn:K; [|reflexivity]. apply is_upper_spec in K. rewrite nat_ascii_embedding in K; lia.
Qed.

Lemma lower_inj a b : is_upper a = true -> is_upper b = true -> lower a = lower b -> a = b.
Proof.
  intros A B E. unfold lower in E. rewrite A, B in E. apply is_upper_spec in A, B.
  apply (f_equal nat_of_ascii) in E. rewrite !nat_ascii_embedding in E by lia.
  rewrite <- (ascii_nat_embedding a), <- (ascii_nat_embedding b). f_equal. lia.
Qed.

(** No underscore; no capital. *)
Fixpoint no_char (P : ascii -> bool) (s : string) : Prop :=
  match s with EmptyString => True | String c t => P c = false /\ no_char P t end.
Definition no_underscore := no_char (Ascii.eqb "_").
Definition no_capital := no_char is_upper.
(** An identifier in camel case: it starts with a capital and has no
    underscore. *)
Definition camel (s : string) : Prop :=
  no_underscore s /\ match s with EmptyString => False | String c _ => is_upper c = true end.

Lemma snake_false_inj : forall s t, no_underscore s -> no_underscore t -> snake false s = snake false t -> s = t.
Proof.
  induction s as [|a s IH]; intros [|b t] Us Ut E.
  - reflexivity.
  - cbn in E. destruct (is_upper b); discriminate.
  - cbn in E. destruct (is_upper a); discriminate.
  - destruct Us as [Ua Us], Ut as [Ub Ut]. cbn [snake negb] in E. rewrite !andb_true_r in E.
    destruct (is_upper a) eqn:A, (is_upper b) eqn:B.
    + injection E as Ec Et. f_equal; [apply lower_inj; assumption|apply IH; assumption].
    + exfalso. injection E as Ec _. unfold lower in Ec. rewrite B in Ec. subst b. discriminate.
    + exfalso. injection E as Ec _. unfold lower in Ec. rewrite A in Ec. subst a. discriminate.
    + unfold lower in E. rewrite A, B in E. injection E as Ec Et. f_equal; [assumption|apply IH; assumption].
Qed.

Lemma snake_camel_inj s t : camel s -> camel t -> snake true s = snake true t -> s = t.
Proof.
  destruct s as [|a s], t as [|b t]; intros [Us A] [Ut B]; try contradiction.
  cbn [snake negb]. rewrite !andb_false_r. intros E. injection E as Ec Et.
  f_equal; [apply lower_inj; assumption|apply snake_false_inj; [apply Us|apply Ut|exact Et]].
Qed.

Lemma snake_no_capital : forall s start, no_capital (snake start s).
Proof.
  unfold no_capital. induction s as [|c s IH]; intros start; cbn; [trivial|].
  destruct (is_upper c && negb start); cbn; repeat split; try apply lower_not_upper; apply IH.
Qed.

(** Capitals become underscores. *)
Fixpoint count (P : ascii -> bool) (s : string) : nat :=
  match s with EmptyString => 0 | String c t => (if P c then 1 else 0) + count P t end.

(** ** Lists *)
Lemma str_index_ok : forall l i x, NoDup l -> nth_error l i = Some x -> str_index x l = Ok i.
Proof.
  induction l as [|y l IH]; intros [|i] x Nd H; try discriminate.
  - injection H as ->. cbn. rewrite String.eqb_refl. reflexivity.
  - inversion Nd as [|? ? Hy Hl]; subst. cbn in *. destruct (String.eqb_spec x y) as [->|Ne].
    + exfalso. apply Hy. eapply nth_error_In. exact H.
    + rewrite (IH i x Hl H). reflexivity.
Qed.

Lemma str_index_none x : forall l, ~ In x l -> str_index x l = Err ValueError.
Proof.
  induction l as [|y l IH]; intros H; [reflexivity|]. cbn. destruct (String.eqb_spec x y) as [->|Ne].
  - exfalso. apply H. left. reflexivity.
  - rewrite IH; [reflexivity|]. intros K. apply H. right. exact K.
Qed.

Lemma str_in_spec x l : str_in x l = true <-> In x l.
Proof.
  unfold str_in. rewrite existsb_exists. split.
  - intros (y & Hy & E). apply String.eqb_eq in E. subst y. exact Hy.
  - intros H. exists x. split; [exact H|apply String.eqb_refl].
Qed.
