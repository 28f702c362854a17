(** * Lemmas on the names of functions. *)
From Coq Require Import List ZArith QArith Qabs Arith Bool String Ascii Lia Lqa.
From Verif Require Import Base PyNum PyNumProofs Names NamesProofs Args FnNames PropNames.
Import ListNotations.
Local Open Scope string_scope.
Local Open Scope list_scope.
Local Open Scope Z_scope.

(** A number that its name determines (C39). *)
Definition named_exactly (v : Q) : Prop := (exists z, v == inject_Z z)%Q \/ representable v /\ (Qabs v < 1)%Q.

Lemma int_named z : named_exactly (inject_Z z).
Proof. left. exists z. reflexivity. Qed.

(** The text after the sign and the number. *)
Lemma args_shape v n : exists num s, filename_args v n = ("_" ++ zstr num ++ n ++ s)%string /\ all_digits s.
Proof.
  unfold filename_args. destruct (get_angle_num_dem v) as [num dem] eqn:E. unfold get_angle_num_dem in E. injection E as <- <-.
  eexists _, _. split; [reflexivity|]. destruct (_ && _); [apply zstr_digits; lia|exact I].
Qed.

Lemma starts_letter_app n t : starts_letter n -> starts_nondigit (n ++ t)%string.
Proof. intros (c & s & -> & H). exact H. Qed.

Lemma args_split v w n t1 t2 : starts_letter n -> named_exactly v -> named_exactly w ->
  starts_nondigit t1 -> starts_nondigit t2 ->
  (filename_args v n ++ t1)%string = (filename_args w n ++ t2)%string -> (v == w)%Q /\ t1 = t2.
Proof.
  intros Hn Hv Hw N1 N2 E.
  destruct (args_shape v n) as (a & s & Ev & Ds), (args_shape w n) as (b & u & Ew & Du).
  assert (E0 := E). rewrite Ev, Ew in E. rewrite !append_assoc_s in E. apply append_inj_l in E.
  apply zstr_split_signed in E; try (apply starts_letter_app; exact Hn). destruct E as [Eab E]. apply append_inj_l in E.
  destruct (digits_split _ _ _ _ Ds Du N1 N2 E) as [Es Et]. split; [|exact Et].
  apply (C39_args v w n Hn Hv Hw). rewrite Ev, Ew, Eab, Es. reflexivity.
Qed.

(** Names that start with different letters are told apart. *)
Lemma args_clash v w c c' n n' t1 t2 : is_digit c = false -> is_digit c' = false -> c <> c' ->
  (filename_args v (String c n) ++ t1)%string <> (filename_args w (String c' n') ++ t2)%string.
Proof.
  intros Hc Hc' Ne E.
  destruct (args_shape v (String c n)) as (a & s & Ev & Ds), (args_shape w (String c' n')) as (b & u & Ew & Du).
  rewrite Ev, Ew in E. rewrite !append_assoc_s in E. apply append_inj_l in E.
  apply zstr_split_signed in E; [|exact Hc|exact Hc']. destruct E as [_ E]. injection E as E _. contradiction.
Qed.

(** A number does not start with a letter. *)
Lemma zstr_first z t c s : is_digit c = false -> c <> "-"%char -> (zstr z ++ t)%string <> String c s.
Proof.
  intros Hc Hm E. destruct (Z_lt_le_dec z 0) as [Hz|Hz].
  - rewrite (zstr_neg z Hz) in E. cbn [append] in E. congruence.
  - assert (A := zstr_digits z Hz). assert (B := zstr_nonneg_nil z Hz). destruct (zstr z) as [|d u]; [congruence|].
    cbn [append] in E. assert (d = c) by congruence. subst d. destruct A as [A _]. congruence.
Qed.

Lemma args_letter v n t c s : is_digit c = false -> c <> "-"%char ->
  (filename_args v n ++ t)%string <> String "_" (String c s).
Proof.
  intros Hc Hm E. destruct (args_shape v n) as (a & u & Ev & _). rewrite Ev, !append_assoc_s in E.
  assert (E' := append_inj_l "_" _ (String c s) E). exact (zstr_first _ _ _ _ Hc Hm E').
Qed.

Lemma ending_split jm j j' t1 t2 : starts_nondigit t1 -> starts_nondigit t2 ->
  (wavelet_ending jm j ++ t1)%string = (wavelet_ending jm j' ++ t2)%string -> j = j' /\ t1 = t2.
Proof.
  intros N1 N2 E. assert (Hj : starts_letter "j") by (exists "j"%char, ""%string; auto).
  destruct j as [j|], j' as [j'|]; cbn [wavelet_ending] in E.
  - apply args_split in E; try apply int_named; try assumption. destruct E as [E ->].
    apply (proj1 (inject_Z_injective _ _)) in E. split; [f_equal; lia|reflexivity].
  - exfalso. apply (args_letter _ _ _ "s" ("caling" ++ t2)%string) in E; [exact E|reflexivity|discriminate].
  - exfalso. symmetry in E. apply (args_letter _ _ _ "s" ("caling" ++ t1)%string) in E; [exact E|reflexivity|discriminate].
  - split; [reflexivity|]. apply (append_inj_l "_scaling" _ _ E).
Qed.

(** ** Equality of parameters *)
Definition params_eq (p q : params) : Prop :=
  match p, q with
  | No_params, No_params => True
  | Sigma x, Sigma y => (x == y)%Q
  | Two_sigmas x y, Two_sigmas x' y' => (x == x' /\ y == y')%Q
  | Snr x, Snr y => (x == y)%Q
  | Degree_order l m, Degree_order l' m' => l = l' /\ m = m'
  | Scale B jm j, Scale B' jm' j' => B = B' /\ jm = jm' /\ j = j'
  | Spin_scale B jm s j, Spin_scale B' jm' s' j' => B = B' /\ jm = jm' /\ s = s' /\ j = j'
  | Rank r, Rank r' => r = r'
  | _, _ => False
  end.
Definition params_exact (p : params) : Prop :=
  match p with
  | Sigma x | Snr x => named_exactly x
  | Two_sigmas x y => named_exactly x /\ named_exactly y
  | _ => True
  end.

(** The text that follows starts with an underscore or is empty. *)
Lemma ends_piece_nondigit t : ends_piece t -> starts_nondigit t.
Proof. apply ends_nondigit. Qed.

Lemma args_ends v n t : ends_piece (filename_args v n ++ t)%string.
Proof. destruct (args_shape v n) as (a & s & -> & _). reflexivity. Qed.
Lemma ending_ends jm j t : ends_piece (wavelet_ending jm j ++ t)%string.
Proof. destruct j; [apply args_ends|reflexivity]. Qed.

Ltac letter := (eexists _, _; split; reflexivity).
Ltac argsplit E H :=
  apply args_split in E;
  [destruct E as [H E]|letter|try apply int_named; try assumption|try apply int_named; try assumption
  |apply ends_nondigit; (assumption || apply args_ends || apply ending_ends)
  |apply ends_nondigit; (assumption || apply args_ends || apply ending_ends)].

Lemma params_split c p q t1 t2 : same_fields (default_params c) p = true -> same_fields (default_params c) q = true ->
  c <> Slepian -> params_exact p -> params_exact q -> ends_piece t1 -> ends_piece t2 ->
  (params_name c p ++ t1)%string = (params_name c q ++ t2)%string -> params_eq p q /\ t1 = t2.
Proof.
  intros Hp Hq Nc Xp Xq N1 N2 E.
  assert (Two : forall n m x y x' y', starts_letter n -> starts_letter m ->
    named_exactly x -> named_exactly y -> named_exactly x' -> named_exactly y' ->
    ((filename_args x n ++ filename_args y m) ++ t1)%string = ((filename_args x' n ++ filename_args y' m) ++ t2)%string ->
    (x == x' /\ y == y')%Q /\ t1 = t2).
  { intros n m x y x' y' Hn Hm X Y X' Y' K. rewrite !append_assoc_s in K.
    apply args_split in K; try assumption; try (apply ends_nondigit, args_ends). destruct K as [K1 K].
    apply args_split in K; try assumption; try (apply ends_nondigit; assumption). tauto. }
  destruct c; try congruence; destruct p; try discriminate Hp; destruct q; try discriminate Hq; cbn [params_name] in E;
    cbn [params_exact] in Xp, Xq; cbn [params_eq].
  all: try (split; [exact I|exact E]).
  all: try (argsplit E H; split; assumption).
  all: try (apply Two in E; try letter; tauto).
  all: rewrite !append_assoc_s in E.
  all: argsplit E H1; argsplit E H2.
  all: apply (proj1 (inject_Z_injective _ _)) in H1; apply (proj1 (inject_Z_injective _ _)) in H2; subst.
  all: try (split; [split; reflexivity|reflexivity]).
  all: try (apply ending_split in E; [destruct E as [-> ->]; split; [repeat split|reflexivity]|apply ends_nondigit; assumption|apply ends_nondigit; assumption]).
  argsplit E H3. apply (proj1 (inject_Z_injective _ _)) in H3. subst.
  apply ending_split in E; [destruct E as [-> ->]; split; [repeat split|reflexivity]|apply ends_nondigit; assumption|apply ends_nondigit; assumption].
Qed.

(** ** The end of the name *)
Definition name_tail (noise : option Q) (smoothing : option Z) (L : nat) : string :=
  ((match noise with Some x => filename_args x "noise" | None => "" end)
   ++ (match smoothing with Some x => filename_args (inject_Z x) "smoothed" | None => "" end)
   ++ "_L" ++ zstr (Z.of_nat L))%string.

Definition noise_eq (a b : option Q) : Prop :=
  match a, b with Some x, Some y => (x == y)%Q | None, None => True | _, _ => False end.
Definition noise_exact (a : option Q) : Prop := match a with Some x => named_exactly x | None => True end.

Lemma tail_ends noise sm L : ends_piece (name_tail noise sm L).
Proof.
  unfold name_tail. destruct noise; [apply args_ends|]. destruct sm; [apply args_ends|]. reflexivity.
Qed.

Lemma L_ends L : ends_piece ("_L" ++ zstr (Z.of_nat L))%string.
Proof. reflexivity. Qed.

Lemma tail_inj n n' s s' L L' : noise_exact n -> noise_exact n' -> name_tail n s L = name_tail n' s' L' ->
  noise_eq n n' /\ s = s' /\ L = L'.
Proof.
  intros Hn Hn' E. unfold name_tail in E.
  assert (EL : forall l l' : nat, ("_L" ++ zstr (Z.of_nat l))%string = ("_L" ++ zstr (Z.of_nat l'))%string -> l = l').
  { intros l l' K. apply append_inj_l in K. apply zstr_inj in K. lia. }
  assert (NL : forall v m t u, (filename_args v m ++ t)%string <> ("_L" ++ u)%string).
  { intros v m t u. apply (args_letter v m t "L" u); [reflexivity|discriminate]. }
  assert (ES : forall s s' l l', (match s with Some x => filename_args (inject_Z x) "smoothed" | None => "" end ++ "_L" ++ zstr (Z.of_nat l))%string =
     (match s' with Some x => filename_args (inject_Z x) "smoothed" | None => "" end ++ "_L" ++ zstr (Z.of_nat l'))%string -> s = s' /\ l = l').
  { intros [x|] [y|] l l' K.
    - apply args_split in K; [destruct K as [H K]|letter|apply int_named|apply int_named|reflexivity|reflexivity]. apply (proj1 (inject_Z_injective _ _)) in H. subst. split; [reflexivity|apply EL; exact K].
    - exfalso. exact (NL _ _ _ _ K).
    - exfalso. symmetry in K. exact (NL _ _ _ _ K).
    - split; [reflexivity|]. apply EL. exact K. }
  assert (SE : forall (s : option Z) l, ends_piece (match s with Some x => filename_args (inject_Z x) "smoothed" | None => "" end ++ "_L" ++ zstr (Z.of_nat l))%string).
  { intros [x|] l; [apply args_ends|reflexivity]. }
  destruct n as [x|], n' as [y|]; cbn [noise_exact] in Hn, Hn'.
  - apply args_split in E; [destruct E as [H E]|letter|assumption|assumption|apply ends_nondigit, SE|apply ends_nondigit, SE].
    apply ES in E. cbn. tauto.
  - exfalso. destruct s' as [z|]; [|exact (NL _ _ _ _ E)]. cbn [append] in E.
    apply (args_clash x (inject_Z z) "n" "s" "oise" "moothed") in E; [exact E|reflexivity|reflexivity|discriminate].
  - exfalso. symmetry in E. destruct s as [z|]; [|exact (NL _ _ _ _ E)]. cbn [append] in E.
    apply (args_clash y (inject_Z z) "n" "s" "oise" "moothed") in E; [exact E|reflexivity|reflexivity|discriminate].
  - cbn [append] in E. apply ES in E. cbn. tauto.
Qed.

(** ** Words of a name *)
Lemma split_nonnil s : split_underscore s <> [].
Proof. destruct s as [|c s]; cbn; [discriminate|]. destruct (Ascii.eqb c "_"); [discriminate|]. destruct (split_underscore s); discriminate. Qed.

Lemma split_app a b : split_underscore (a ++ String "_" b)%string = split_underscore a ++ split_underscore b.
Proof.
  induction a as [|c a IH]; [reflexivity|]. cbn [append split_underscore]. rewrite IH.
  destruct (Ascii.eqb c "_"); [reflexivity|]. assert (N := split_nonnil a). destruct (split_underscore a); [congruence|reflexivity].
Qed.

Lemma split_word w : no_underscore w -> split_underscore w = [w].
Proof.
  induction w as [|c w IH]; [reflexivity|]. intros [H1 H2]. cbn [split_underscore]. rewrite Ascii.eqb_sym, H1, (IH H2). reflexivity.
Qed.

Lemma no_char_app P a b : no_char P a -> no_char P b -> no_char P (a ++ b)%string.
Proof. induction a as [|c a IH]; cbn; [auto|]. intros [H1 H2] H3. split; auto. Qed.

Lemma no_char_digits P s : (forall c, is_digit c = true -> P c = false) -> all_digits s -> no_char P s.
Proof. intros HP. induction s as [|c s IH]; cbn; [auto|]. intros [H1 H2]. split; auto. Qed.

Lemma no_char_zstr P z : (forall c, is_digit c = true -> P c = false) -> P "-"%char = false -> no_char P (zstr z).
Proof.
  intros HP Hm. destruct (Z_lt_le_dec z 0) as [Hz|Hz].
  - rewrite (zstr_neg z Hz). split; [exact Hm|]. apply no_char_digits; [exact HP|apply zstr_digits; lia].
  - apply no_char_digits; [exact HP|apply zstr_digits; lia].
Qed.

Lemma digit_not c d : is_digit d = false -> is_digit c = true -> Ascii.eqb d c = false.
Proof. intros H1 H2. apply Ascii.eqb_neq. congruence. Qed.

(** A number and its name are one word, made of digits, a sign and the
    letters of the name. *)
Lemma args_word v n : exists w, filename_args v n = ("_" ++ w)%string /\
  (forall P, (forall c, is_digit c = true -> P c = false) -> P "-"%char = false -> no_char P n -> no_char P w) /\
  (exists c u, w = String c u /\ (is_digit c = true \/ c = "-"%char)).
Proof.
  destruct (args_shape v n) as (a & s & -> & Ds). exists (zstr a ++ n ++ s)%string. split; [reflexivity|]. split.
  - intros P H1 H2 H3. apply no_char_app; [apply no_char_zstr; assumption|]. apply no_char_app; [exact H3|]. apply no_char_digits; assumption.
  - destruct (Z_lt_le_dec a 0) as [Hz|Hz].
    + rewrite (zstr_neg a Hz). cbn [append]. eexists _, _. split; [reflexivity|]. right. reflexivity.
    + assert (A := zstr_digits a Hz). assert (B := zstr_nonneg_nil a Hz). destruct (zstr a) as [|d u]; [congruence|].
      cbn [append]. eexists _, _. split; [reflexivity|]. left. apply A.
Qed.

(** The text [s] is a sequence of words that satisfy [W], each after an
    underscore. *)
Inductive words (W : string -> Prop) : string -> Prop :=
| words_nil : words W ""
| words_cons w s : W w -> words W s -> words W (String "_" w ++ s)%string.

Lemma words_app (W : string -> Prop) a b : words W a -> words W b -> words W (a ++ b)%string.
Proof. induction 1; intros Hb; [exact Hb|]. rewrite append_assoc_s. constructor; auto. Qed.

Lemma words_one (W : string -> Prop) w : W w -> words W (String "_" w).
Proof. intros H. rewrite <- (append_nil_r (String "_" w)). constructor; [exact H|constructor]. Qed.

Lemma words_weaken (W V : string -> Prop) s : (forall w, W w -> V w) -> words W s -> words V s.
Proof. induction 2; constructor; auto. Qed.

Lemma split_words (W : string -> Prop) s a : (forall w, W w -> no_underscore w) -> words W s ->
  exists ws, split_underscore (a ++ s)%string = split_underscore a ++ ws /\ Forall W ws.
Proof.
  intros HW H. revert a. induction H as [|w s Hw Hs IH]; intros a.
  - exists []. rewrite append_nil_r, app_nil_r. split; [reflexivity|constructor].
  - cbn [append]. rewrite split_app. destruct (IH w) as (ws & E & F). rewrite E, (split_word w) by auto.
    exists (w :: ws). split; [reflexivity|]. constructor; assumption.
Qed.

(** The words that follow the name of the class: no underscore, no capital
    vowel pattern of "earth" and not a word of the masked maps. *)
Definition plain (w : string) : Prop :=
  no_underscore w /\ (no_char (Ascii.eqb "a") w \/ no_char (Ascii.eqb "e") w) /\
  str_in w COEFFICIENTS_TO_NOT_MASK = false /\ prefix "delta" w = false.

Lemma digit_first_plain c u : is_digit c = true \/ c = "-"%char ->
  str_in (String c u) COEFFICIENTS_TO_NOT_MASK = false /\ prefix "delta" (String c u) = false.
Proof.
  intros H.
  assert (N : forall d s t, is_digit d = false -> d <> "-"%char -> String.eqb (String c s) (String d t) = false).
  { intros d s t H1 H2. apply String.eqb_neq. intros E. injection E as E _. subst d. destruct H; congruence. }
  split.
  - unfold str_in, COEFFICIENTS_TO_NOT_MASK. cbn [existsb].
    rewrite !N; try reflexivity; try discriminate.
  - cbn [prefix]. destruct (ascii_dec "d" c) as [E|E]; [|reflexivity]. subst c. destruct H; discriminate.
Qed.

Lemma args_words v n : no_underscore n -> no_char (Ascii.eqb "a") n \/ no_char (Ascii.eqb "e") n ->
  words plain (filename_args v n).
Proof.
  intros H1 H2. destruct (args_word v n) as (w & -> & HP & c & u & Ew & Hc). apply words_one. repeat split.
  - apply HP; [intros d Hd; apply digit_not; auto|reflexivity|exact H1].
  - destruct H2 as [H2|H2]; [left|right]; (apply HP; [intros d Hd; apply digit_not; auto|reflexivity|exact H2]).
  - rewrite Ew. apply digit_first_plain. exact Hc.
  - rewrite Ew. apply digit_first_plain. exact Hc.
Qed.

Ltac nochar := repeat split; try (left; repeat split; reflexivity); try (right; repeat split; reflexivity).

Lemma ending_words jm j : words plain (wavelet_ending jm j).
Proof.
  destruct j as [j|]; cbn [wavelet_ending].
  - apply args_words; nochar.
  - apply words_one. nochar.
Qed.

Lemma params_words c p : words plain (params_name c p).
Proof.
  destruct p; cbn [params_name]; try apply words_nil; try (apply args_words; nochar; fail).
  - destruct c; apply words_app; apply args_words; nochar.
  - apply words_app; apply args_words; nochar.
  - apply words_app; [apply args_words; nochar|]. apply words_app; [apply args_words; nochar|]. apply ending_words.
  - apply words_app; [apply args_words; nochar|]. apply words_app; [apply args_words; nochar|].
    apply words_app; [apply args_words; nochar|]. apply ending_words.
Qed.

Lemma tail_words noise sm L : words plain (name_tail noise sm L).
Proof.
  unfold name_tail. apply words_app; [destruct noise; [apply args_words; nochar|apply words_nil]|].
  apply words_app; [destruct sm; [apply args_words; nochar|apply words_nil]|].
  apply (words_one plain ("L" ++ zstr (Z.of_nat L))%string). repeat split.
  - apply no_char_zstr; [intros d Hd; apply digit_not; auto|reflexivity].
  - left. split; [reflexivity|]. apply no_char_zstr; [intros d Hd; apply digit_not; auto|reflexivity].
Qed.

(** ** The name, once it is known whether the region is added *)
Definition unmasked (c : cls) : bool :=
  match c with
  | SouthAmerica | AxisymmetricWaveletCoefficientsSouthAmerica => true
  | Slepian | SlepianAfrica | SlepianDiracDelta | SlepianIdentity | SlepianNoiseAfrica
  | SlepianNoiseSouthAmerica | SlepianSouthAmerica | SlepianWaveletCoefficientsAfrica
  | SlepianWaveletCoefficientsSouthAmerica | SlepianWavelets => true
  | _ => false
  end.

Lemma plain_not_masked ws : Forall plain ws -> existsb (fun w => str_in w COEFFICIENTS_TO_NOT_MASK) ws = false.
Proof. induction 1 as [|w ws (_ & _ & H & _)]; [reflexivity|]. cbn [existsb]. rewrite H. exact IHForall. Qed.

Lemma create_name_unmasked c p e :
  existsb (fun w => str_in w COEFFICIENTS_TO_NOT_MASK) (split_underscore (create_name c p e)) = unmasked c.
Proof.
  unfold create_name.
  assert (S : forall s, existsb (fun w => str_in w COEFFICIENTS_TO_NOT_MASK) (split_underscore ("slepian" ++ String "_" s)%string) = true).
  { intros s. rewrite split_app. reflexivity. }
  assert (F : forall s, existsb (fun w => str_in w COEFFICIENTS_TO_NOT_MASK) (split_underscore (s ++ params_name c p)%string) =
    existsb (fun w => str_in w COEFFICIENTS_TO_NOT_MASK) (split_underscore s)).
  { intros s. destruct (split_words plain (params_name c p) s) as (ws & E & H); [intros w H; apply H|apply params_words|].
    rewrite E, existsb_app, (plain_not_masked ws H). apply orb_false_r. }
  destruct c; cbn [unmasked]; cbn [append]; try (rewrite F; vm_compute; reflexivity).
  all: match goal with |- context [convert_camel_case_to_snake_case ?x] =>
    let s := eval vm_compute in (convert_camel_case_to_snake_case x) in change (convert_camel_case_to_snake_case x) with s end.
  all: cbn [append]; match goal with |- context [split_underscore ?x] =>
    match x with String _ (String _ (String _ (String _ (String _ (String _ (String _ (String _ ?r))))))) => exact (S r) end end.
Qed.

Lemma add_details_eq name region noise sm L :
  add_details_to_name name region noise sm L =
  (name ++ (match region with
            | Some e => if existsb (fun w => str_in w COEFFICIENTS_TO_NOT_MASK) (split_underscore name) then "" else String "_" e
            | None => "" end) ++ name_tail noise sm L)%string.
Proof.
  unfold add_details_to_name, name_tail. destruct region as [e|]; [destruct (existsb _ _)|]; cbn [append]; rewrite ?append_assoc_s; reflexivity.
Qed.

(** ** Prefixes *)
Lemma app_prefix : forall x y r r', (x ++ r)%string = (y ++ r')%string -> prefix x y = true \/ prefix y x = true.
Proof.
  induction x as [|c x IH]; intros y r r' E; [left; destruct y; reflexivity|]. destruct y as [|d y]; [right; reflexivity|].
  cbn [append] in E. injection E as -> E. destruct (IH _ _ _ E) as [H|H]; [left|right]; cbn [prefix];
    (destruct (ascii_dec d d); [exact H|congruence]).
Qed.

Definition snake_name (c : cls) : string := convert_camel_case_to_snake_case (class_name c).

Definition cls_index (c : cls) : nat :=
  match c with
  | Africa => 0 | AxisymmetricWaveletCoefficientsAfrica => 1 | AxisymmetricWaveletCoefficientsEarth => 2
  | AxisymmetricWaveletCoefficientsSouthAmerica => 3 | AxisymmetricWavelets => 4 | DiracDelta => 5 | Earth => 6
  | ElongatedGaussian => 7 | Gaussian => 8 | HarmonicGaussian => 9 | Identity => 10 | NoiseEarth => 11
  | Ridgelets => 12 | SouthAmerica => 13 | SphericalHarmonic => 14 | SquashedGaussian => 15 | Wmap => 16
  | Slepian => 17 | SlepianAfrica => 18 | SlepianDiracDelta => 19 | SlepianIdentity => 20
  | SlepianNoiseAfrica => 21 | SlepianNoiseSouthAmerica => 22 | SlepianSouthAmerica => 23
  | SlepianWaveletCoefficientsAfrica => 24 | SlepianWaveletCoefficientsSouthAmerica => 25 | SlepianWavelets => 26
  end%nat.

Definition prefix_free_check : bool :=
  let l := FLM ++ tl FP in
  forallb (fun c => forallb (fun c' =>
    Nat.eqb (cls_index c) (cls_index c') || negb (prefix (snake_name c ++ "_")%string (snake_name c' ++ "_")%string)) l) l.

Lemma cls_index_inj c c' : cls_index c = cls_index c' -> c = c'.
Proof. destruct c, c'; intros H; try reflexivity; discriminate H. Qed.

Lemma snake_prefix_free c c' : c <> Slepian -> c' <> Slepian ->
  prefix (snake_name c ++ "_")%string (snake_name c' ++ "_")%string = true -> c = c'.
Proof.
  intros Nc Nc' H. assert (K : prefix_free_check = true) by (vm_compute; reflexivity).
  unfold prefix_free_check in K. rewrite forallb_forall in K.
  assert (I : forall x, x <> Slepian -> In x (FLM ++ tl FP)) by (intros []; cbn; intros; tauto).
  specialize (K c (I c Nc)). rewrite forallb_forall in K. specialize (K c' (I c' Nc')).
  rewrite H, orb_false_r in K. apply cls_index_inj, Nat.eqb_eq, K.
Qed.

Lemma class_split c c' r r' : c <> Slepian -> c' <> Slepian ->
  (exists s, r = String "_" s) -> (exists s, r' = String "_" s) ->
  (snake_name c ++ r)%string = (snake_name c' ++ r')%string -> c = c' /\ r = r'.
Proof.
  intros Nc Nc' [s ->] [s' ->] E.
  assert (E' : ((snake_name c ++ "_") ++ s)%string = ((snake_name c' ++ "_") ++ s')%string) by (rewrite !append_assoc_s; exact E).
  assert (Ec : c = c').
  { destruct (app_prefix _ _ _ _ E') as [H|H]; [|symmetry]; (apply snake_prefix_free; [assumption|assumption|exact H]). }
  subst c'. split; [reflexivity|]. apply append_inj_l in E. exact E.
Qed.

(** ** [in] on strings *)
Lemma prefix_spec : forall w s, prefix w s = true <-> exists y, s = (w ++ y)%string.
Proof.
  induction w as [|c w IH]; intros s.
  - split; [intros _; exists s; reflexivity|intros _; destruct s; reflexivity].
  - destruct s as [|d s]; cbn [prefix].
    + split; [discriminate|intros [y E]; discriminate E].
    + destruct (ascii_dec c d) as [->|N].
      * rewrite IH. split; intros [y E]; exists y; cbn [append] in *; congruence.
      * split; [discriminate|intros [y E]; cbn [append] in E; congruence].
Qed.

Lemma contains_spec : forall s w, contains w s = true <-> exists x y, s = (x ++ w ++ y)%string.
Proof.
  induction s as [|c s IH]; intros w; cbn [contains]; rewrite orb_true_iff, prefix_spec.
  - split.
    + intros [[y E]|H]; [exists ""%string, y; exact E|discriminate].
    + intros (x & y & E). left. exists y. destruct x; [exact E|discriminate E].
  - rewrite IH. split.
    + intros [[y E]|(x & y & E)]; [exists ""%string, y; exact E|exists (String c x), y; cbn [append]; congruence].
    + intros (x & y & E). destruct x as [|d x]; [left; exists y; exact E|right; exists x, y; cbn [append] in E; congruence].
Qed.

Lemma no_char_part P x w y : no_char P (x ++ w ++ y)%string -> no_char P w.
Proof.
  induction x as [|c x IH]; cbn [append]; [|intros [_ H]; auto].
  revert y. induction w as [|c w IHw]; intros y; [intros _; exact I|]. intros [H1 H2]. split; eauto.
Qed.

Lemma contains_no_char P w s : contains w s = true -> no_char P s -> no_char P w.
Proof. intros H. apply contains_spec in H. destruct H as (x & y & ->). apply no_char_part. Qed.

(** The first word. *)
Lemma split_head_prefix b y : no_underscore b -> exists w r, split_underscore (b ++ y)%string = w :: r /\ prefix b w = true.
Proof.
  induction b as [|c b IH]; intros H.
  - cbn [append]. assert (N := split_nonnil y). destruct (split_underscore y) as [|w r]; [congruence|].
    exists w, r. split; [reflexivity|destruct w; reflexivity].
  - destruct H as [H1 H2]. destruct (IH H2) as (w & r & E & Hw). cbn [append split_underscore].
    rewrite Ascii.eqb_sym, H1, E. exists (String c w), r. split; [reflexivity|]. cbn [prefix].
    destruct (ascii_dec c c); [exact Hw|congruence].
Qed.

(** A word with no underscore is found within one of the words. *)
Lemma contains_split w s : no_underscore w -> contains w s = true -> exists u, In u (split_underscore s) /\ contains w u = true.
Proof.
  intros Nw H. apply contains_spec in H. destruct H as (x & y & ->). induction x as [|c x IH].
  - cbn [append]. destruct (split_head_prefix w y Nw) as (u & r & E & Hu). exists u. rewrite E. split; [left; reflexivity|].
    destruct u; cbn [contains]; rewrite Hu; reflexivity.
  - destruct IH as (u & Hin & Hu). cbn [append split_underscore]. destruct (Ascii.eqb c "_").
    + exists u. split; [right; exact Hin|exact Hu].
    + destruct (split_underscore (x ++ w ++ y)%string) as [|v r]; [destruct Hin|]. destruct Hin as [->|Hin].
      * exists (String c u). split; [left; reflexivity|]. cbn [contains]. rewrite Hu. apply orb_true_r.
      * exists u. split; [right; exact Hin|exact Hu].
Qed.

(** What follows an underscore starts a word. *)
Lemma contains_second a b s : no_underscore b -> contains (a ++ String "_" b)%string s = true ->
  exists u, In u (split_underscore s) /\ prefix b u = true.
Proof.
  intros Nb H. apply contains_spec in H. destruct H as (x & y & ->).
  assert (E : (x ++ (a ++ String "_" b) ++ y)%string = ((x ++ a) ++ String "_" (b ++ y))%string).
  { rewrite !append_assoc_s. reflexivity. }
  rewrite E, split_app. destruct (split_head_prefix b y Nb) as (u & r & E' & Hu). exists u. rewrite E'. split; [|exact Hu].
  apply in_or_app. right. left. reflexivity.
Qed.

Lemma contains_app_l w a b : contains w a = true -> contains w (a ++ b)%string = true.
Proof.
  intros H. apply contains_spec in H. destruct H as (x & y & ->). apply contains_spec. exists x, (y ++ b)%string.
  rewrite !append_assoc_s. reflexivity.
Qed.

Lemma plain_no_earth w : plain w -> contains "earth" w = false.
Proof.
  intros (_ & [H|H] & _); destruct (contains "earth" w) eqn:E; try reflexivity;
    apply (contains_no_char _ _ _ E) in H; cbn in H; destruct H as (H1 & H2 & _); discriminate.
Qed.

(** ** All the words of a name *)
Lemma name_words c p e region noise sm L :
  exists ws vs, split_underscore (add_details_to_name (create_name c p e) region noise sm L) =
    split_underscore (snake_name c)
    ++ (match c with SlepianDiracDelta | SlepianIdentity | SlepianWavelets => split_underscore e | _ => [] end)
    ++ ws ++ (match region with Some r => if unmasked c then [] else split_underscore r | None => [] end) ++ vs
    /\ Forall plain ws /\ Forall plain vs.
Proof.
  rewrite add_details_eq. rewrite create_name_unmasked. unfold create_name. fold (snake_name c).
  assert (PU : forall w, plain w -> no_underscore w) by (intros w H; apply H).
  set (reg := match region with Some r => if unmasked c then ""%string else String "_" r | None => ""%string end).
  assert (R : forall a b, words plain b -> exists vs, split_underscore (a ++ reg ++ b)%string =
    split_underscore a ++ (match region with Some r => if unmasked c then [] else split_underscore r | None => [] end) ++ vs /\ Forall plain vs).
  { intros a b Hb. unfold reg. destruct region as [r|]; [destruct (unmasked c)|].
    - cbn [append]. destruct (split_words plain b a PU Hb) as (vs & E & F). exists vs. rewrite E. split; [reflexivity|exact F].
    - cbn [append]. rewrite split_app. destruct (split_words plain b r PU Hb) as (vs & E & F). exists vs. rewrite E. split; [reflexivity|exact F].
    - cbn [append]. destruct (split_words plain b a PU Hb) as (vs & E & F). exists vs. rewrite E. split; [reflexivity|exact F]. }
  destruct (R (snake_name c ++ (match c with SlepianDiracDelta | SlepianIdentity | SlepianWavelets => "_" ++ e | _ => "" end) ++ params_name c p)%string
              (name_tail noise sm L) (tail_words _ _ _)) as (vs & E & F).
  rewrite E. clear E R.
  assert (M : exists ws, split_underscore (snake_name c ++ (match c with SlepianDiracDelta | SlepianIdentity | SlepianWavelets => "_" ++ e | _ => "" end) ++ params_name c p)%string =
    split_underscore (snake_name c)
    ++ (match c with SlepianDiracDelta | SlepianIdentity | SlepianWavelets => split_underscore e | _ => [] end) ++ ws /\ Forall plain ws).
  { destruct (split_words plain (params_name c p) (snake_name c) PU (params_words c p)) as (ws & E & F').
    destruct (split_words plain (params_name c p) e PU (params_words c p)) as (ws' & E' & F'').
    destruct c; cbn [append] in *; try (exists ws; split; [exact E|exact F']); exists ws'; rewrite split_app, E'; split; try reflexivity; exact F''. }
  destruct M as (ws & E & F'). rewrite E. exists ws, vs. rewrite <- !app_assoc. auto.
Qed.
