(** * Lemmas about words that are no options and words that are left over. *)
From Coq Require Import List ZArith QArith Arith Bool Lia String Ascii.
From Verif Require Import Base PyNum Names Argparse Commands SpecCommands ArgparseProofs CommandsProofs.
Import ListNotations.
Local Open Scope string_scope.
Local Open Scope list_scope.
Local Open Scope nat_scope.

Definition stops {A} (x : out A) : Prop := match x with Got _ => False | Exit _ => True end.
Lemma stops_bind {A B} (x : out A) (f : A -> out B) : (forall a, x = Got a -> stops (f a)) -> stops (obind x f).
Proof. destruct x; cbn; auto. Qed.

(** An option that cannot be read to its end, whatever follows *)
Definition bad (p : parser) (t : string * token) : Prop :=
  match snd t with
  | Opt None _ _ _ => True
  | Opt (Some a) o eq (Some e) =>
      match cluster p a (two_dashes o) eq e with Exit _ => True | Got (_, Unknown) => True | _ => False end
  | _ => False
  end.

Section Bad.
  Variable p : parser.

  (** An option that, with the words after it, ends the run or leaves a word over *)
  Definition bad_at (toks : list (string * token)) : Prop :=
    match toks with
    | (_, Opt a o eq e) :: rest => forall ns extras,
        match consume_optional p a o eq e rest ns extras with Exit _ => True | Got (_, x, _) => x = true end
    | _ => False
    end.
  Lemma bad_bad_at t rest : bad p t -> bad_at (t :: rest).
  Proof.
    destruct t as [s [| |a o eq e]]; unfold bad, bad_at; cbn [snd]; try (intros []). destruct a as [a|]; [|reflexivity].
    destruct e as [e|]; [|intros []]. intros H ns extras. cbn [consume_optional].
    destruct (cluster p a (two_dashes o) eq e) as [[fl last]|n]; cbn [obind]; [|exact I]. destruct last as [d t|d|]; try (destruct H).
    destruct (take_actions _ ns); cbn [obind]; [reflexivity|exact I].
  Qed.

  Lemma optional_extras a o eq e rest ns ns' x rest' : consume_optional p a o eq e rest ns true = Got (ns', x, rest') -> x = true.
  Proof.
    unfold consume_optional. destruct a as [a|]; [|intros H; injection H as <- <- <-; reflexivity].
    destruct (match e with Some _ => _ | None => _ end) as [[fl last]|n]; cbn [obind]; [|discriminate]. destruct last as [d s|d|].
    - destruct (take_actions _ ns); cbn [obind]; [|discriminate]. intros H. injection H as <- <- <-. reflexivity.
    - destruct (match_argument d rest) as [[args r]|]; cbn [obind]; [|discriminate].
      destruct (take_actions _ ns); cbn [obind]; [|discriminate]. intros H. injection H as <- <- <-. reflexivity.
    - destruct (take_actions _ ns); cbn [obind]; [|discriminate]. intros H. injection H as <- <- <-. reflexivity.
  Qed.

  (** Words are dropped from the front only, and no options among them. *)
  Definition keeps_options (toks rest : list (string * token)) : Prop :=
    exists dropped, toks = dropped ++ rest /\ existsb is_option dropped = false.
  Lemma keeps_refl toks : keeps_options toks toks.
  Proof. exists []. split; reflexivity. Qed.
  Lemma keeps_cons t toks rest : is_option t = false -> keeps_options toks rest -> keeps_options (t :: toks) rest.
  Proof. intros O (d & -> & D). exists (t :: d). split; [reflexivity|]. cbn. rewrite O. exact D. Qed.
  Lemma keeps_trans a b c : keeps_options a b -> keeps_options b c -> keeps_options a c.
  Proof.
    intros (d & -> & D) (e & -> & E). exists (d ++ e). rewrite app_assoc. split; [reflexivity|]. rewrite existsb_app, D, E. reflexivity.
  Qed.
  Lemma keeps_tail toks rest u t v : keeps_options toks rest -> toks = u ++ t :: v -> is_option t = true ->
    exists u', rest = u' ++ t :: v.
  Proof.
    intros (d & -> & D) E O. revert u E. induction d as [|x d IH]; intros u E; [exists u; exact E|].
    cbn in D. apply orb_false_iff in D. destruct D as [Dx D]. destruct u as [|y u]; cbn in E; injection E as -> E; [congruence|].
    exact (IH D u E).
  Qed.

  Lemma leading_keeps toks : keeps_options toks (snd (leading_args toks)).
  Proof.
    induction toks as [|[s t] toks IH]; [apply keeps_refl|]. destruct t; cbn; try apply keeps_refl.
    destruct (leading_args toks) as [l r]. cbn in *. apply keeps_cons; [reflexivity|exact IH].
  Qed.
  Lemma argument_keeps a toks args rest : match_argument a toks = Got (args, rest) -> keeps_options toks rest.
  Proof.
    unfold match_argument. destruct (a_arity a).
    - intros H. injection H as <- <-. apply keeps_refl.
    - destruct toks as [|[s []] toks]; try discriminate. intros H. injection H as <- <-. apply keeps_cons; [reflexivity|apply keeps_refl].
    - destruct toks as [|[s []] toks]; intros H; injection H as <- <-; try apply keeps_refl. apply keeps_cons; [reflexivity|apply keeps_refl].
    - destruct toks as [|[s []] toks]; try discriminate. intros H. assert (K := leading_keeps ((s, Arg) :: toks)).
      destruct (leading_args ((s, Arg) :: toks)) as [l r]. injection H as <- <-. exact K.
  Qed.
  Lemma optional_keeps a o eq e rest ns extras ns' x rest' : consume_optional p a o eq e rest ns extras = Got (ns', x, rest') ->
    keeps_options rest rest'.
  Proof.
    unfold consume_optional. destruct a as [a|]; [|intros H; injection H as <- <- <-; apply keeps_refl].
    destruct (match e with Some _ => _ | None => _ end) as [[fl last]|n]; cbn [obind]; [|discriminate]. destruct last as [d s|d|].
    - destruct (take_actions _ ns); cbn [obind]; [|discriminate]. intros H. injection H as <- <- <-. apply keeps_refl.
    - destruct (match_argument d rest) as [[args r]|] eqn:M; cbn [obind]; [|discriminate].
      destruct (take_actions _ ns); cbn [obind]; [|discriminate]. intros H. injection H as <- <- <-. exact (argument_keeps _ _ _ _ M).
    - destruct (take_actions _ ns); cbn [obind]; [|discriminate]. intros H. injection H as <- <- <-. apply keeps_refl.
  Qed.
  Lemma skip_keeps toks : keeps_options toks (skip_dashes toks).
  Proof.
    induction toks as [|[s t] toks IH]; [apply keeps_refl|]. destruct t; cbn; try apply keeps_refl.
    apply keeps_cons; [reflexivity|exact IH].
  Qed.
  Lemma positional_keeps toks s rest : match_positional toks = Some (s, rest) -> keeps_options toks rest.
  Proof.
    unfold match_positional. assert (K := skip_keeps toks). destruct (skip_dashes toks) as [|[x []] r]; try discriminate.
    intros E. injection E as <- <-. apply (keeps_trans _ _ _ K). apply keeps_cons; [reflexivity|apply skip_keeps].
  Qed.

  Definition held (toks : list (string * token)) : Prop := exists u v, toks = u ++ v /\ bad_at v.
  Lemma held_keeps toks rest : keeps_options toks rest -> held toks -> held rest.
  Proof.
    intros K (u & v & E & B). destruct v as [|[s [| |a o eq e]] v]; try destruct B.
    destruct (keeps_tail _ _ _ _ _ K E eq_refl) as [u' E']. exists u', ((s, Opt a o eq e) :: v). split; [exact E'|exact B].
  Qed.

  Lemma consume_bad fuel : forall toks pending ns extras, (extras = true \/ held toks) ->
    stops (consume fuel p toks pending ns extras).
  Proof.
    induction fuel as [|fuel IH]; intros toks pending ns extras H; [exact I|]. cbn [consume].
    destruct (existsb is_option toks) eqn:Ex.
    - assert (Step : forall s a o eq e rest ns ex, (ex = true \/ held ((s, Opt a o eq e) :: rest)) ->
        stops (go (ns, extras, rest) := consume_optional p a o eq e rest ns ex in consume fuel p rest pending ns extras)).
      { intros s a o eq e rest n ex Hx. apply stops_bind. intros [[n' x] rest'] E. apply IH.
        destruct Hx as [->|(u & v & Eu & B)].
        - left. exact (optional_extras _ _ _ _ _ _ _ _ _ E).
        - destruct u as [|t u]; cbn in Eu.
          + left. subst v. specialize (B n ex). rewrite E in B. exact B.
          + right. injection Eu as _ ->. apply (held_keeps _ _ (optional_keeps _ _ _ _ _ _ _ _ _ _ E)). exists u, v. auto. }
      assert (Later : stops match from_option toks with
                | (_, Opt a o eq e) :: rest =>
                    go (ns, extras, rest) := consume_optional p a o eq e rest ns true in
                    consume fuel p rest pending ns extras
                | _ => Exit 99 end).
      { destruct (from_option toks) as [|[s [| |a o eq e]] rest]; try exact I. apply (Step s). left. reflexivity. }
      assert (Middle : stops match pending, match_positional toks with
            | true, Some (s, rest) => go ns := take_action (p_positional p) [s] ns in consume fuel p rest false ns extras
            | _, _ => match from_option toks with
                | (_, Opt a o eq e) :: rest =>
                    go (ns, extras, rest) := consume_optional p a o eq e rest ns true in
                    consume fuel p rest pending ns extras
                | _ => Exit 99 end end).
      { destruct pending; [|exact Later]. destruct (match_positional toks) as [[s rest]|] eqn:M; [|exact Later].
        apply stops_bind. intros n E. apply IH. destruct H as [H|H]; [left; exact H|right].
        exact (held_keeps _ _ (positional_keeps _ _ _ M) H). }
      destruct toks as [|[s [| |a o eq e]] rest]; try exact Middle. apply (Step s). exact H.
    - assert (E : extras = true).
      { destruct H as [H|(u & v & -> & B)]; [exact H|]. exfalso. destruct v as [|[s [| |a o eq e]] v]; try destruct B.
        rewrite existsb_app in Ex. cbn in Ex. rewrite orb_true_r in Ex. discriminate. }
      subst extras. unfold finish. apply stops_bind. intros [[n pe] tk] _. rewrite orb_true_r. exact I.
  Qed.

  Lemma parse_held before after : ~ In "--" before -> (forall toks, tokens p after = Got toks -> bad_at toks) ->
    stops (parse_args p (before ++ after)).
  Proof.
    intros Hb H. unfold parse_args. apply stops_bind. intros toks E. apply consume_bad. right.
    revert toks E. induction before as [|b before IH]; intros toks E; cbn [app tokens] in E.
    - exists [], toks. split; [reflexivity|exact (H toks E)].
    - destruct (String.eqb_spec b "--") as [->|N]; [exfalso; apply Hb; left; reflexivity|].
      destruct (parse_optional p b) as [tok|]; [|discriminate]. cbn [obind] in E.
      destruct (tokens p (before ++ after)) as [r|] eqn:Er; [|discriminate]. cbn [obind] in E. injection E as <-.
      destruct (IH (fun X => Hb (or_intror X)) r eq_refl) as (u & v & -> & B). exists ((b, tok) :: u), v. split; [reflexivity|exact B].
  Qed.
  Lemma parse_bad before w after : ~ In "--" before -> w <> "--" ->
    (forall tok, parse_optional p w = Got tok -> bad p (w, tok)) -> stops (parse_args p (before ++ w :: after)).
  Proof.
    intros Hb Hw H. apply parse_held; [exact Hb|]. intros toks E. cbn [tokens] in E.
    apply String.eqb_neq in Hw. rewrite Hw in E. destruct (parse_optional p w) as [tok|]; [|discriminate].
    destruct (tokens p after) as [r|]; [|discriminate]. cbn [obind] in E. injection E as <-. apply bad_bad_at. apply H. reflexivity.
  Qed.

  (** A part whose values are refused *)
  Lemma parse_misread before ws acts after : ~ In "--" before -> reads p ws acts false ->
    (forall ns, stops (take_actions acts ns)) -> stops (parse_args p (before ++ ws ++ after)).
  Proof.
    intros Hb R B. destruct (tokens_reads p ws acts false R) as (s & a & o & eq & e & args & T & X).
    apply parse_held; [exact Hb|]. intros toks E. rewrite T in E. destruct (tokens p after) as [r|]; [|discriminate].
    cbn [obind] in E. injection E as <-. intros ns extras. rewrite X by discriminate.
    specialize (B ns). destruct (take_actions acts ns); [destruct B|exact I].
  Qed.
  (** An option that takes every word after it, one of them refused *)
  Lemma parse_misread_many before w a o ts after : ~ In "--" before -> w <> "--" -> parse_optional p w = Got (Opt (Some a) o false None) ->
    a_arity a = One_or_more -> a_doing a = Store -> (forall t, In t ts -> parse_optional p t = Got Arg /\ t <> "--") ->
    (exists t, In t ts /\ stops (convert a t)) -> stops (parse_args p (before ++ w :: ts ++ after)).
  Proof.
    intros Hb Nw P A St Pt (t & It & Bt). apply parse_held; [exact Hb|]. intros toks E. cbn [tokens] in E.
    apply String.eqb_neq in Nw. rewrite Nw, P in E. cbn [obind] in E. rewrite tokens_args in E;
      [|intros X; apply (Pt _ X); reflexivity|intros u U; apply Pt; exact U].
    destruct (tokens p after) as [r|]; [|discriminate]. cbn [obind] in E. injection E as <-. intros ns extras. cbn [consume_optional obind].
    assert (L : leading_args (map (fun t => (t, Arg)) ts ++ r) = (ts ++ fst (leading_args r), snd (leading_args r))).
    { clear. induction ts as [|x ts IH]; cbn [map app leading_args]; [destruct (leading_args r); reflexivity|]. rewrite IH. reflexivity. }
    assert (M : match_argument a (map (fun t => (t, Arg)) ts ++ r) = Got (ts ++ fst (leading_args r), snd (leading_args r))).
    { unfold match_argument. rewrite A, <- L. destruct ts as [|x ts]; [destruct It|reflexivity]. }
    rewrite M. cbn [obind map app take_actions]. unfold take_action. rewrite St, A.
    assert (C : forall l, In t l -> exists n, convert_all a l = Exit n).
    { induction l as [|x l IH]; intros J; [destruct J|]. destruct J as [->|J]; cbn [convert_all].
      - destruct (convert a t) as [v|n]; [destruct Bt|exists n; reflexivity].
      - destruct (convert a x) as [v|n]; [|exists n; reflexivity]. cbn [obind]. destruct (IH J) as [n ->]. exists n. reflexivity. }
    destruct (C (ts ++ fst (leading_args r)) (in_or_app _ _ _ (or_introl It))) as [n ->]. exact I.
  Qed.
  (** An option whose value is missing *)
  Lemma parse_valueless before w a o after : ~ In "--" before -> w <> "--" -> parse_optional p w = Got (Opt (Some a) o false None) ->
    a_arity a = One \/ a_arity a = One_or_more -> (forall toks, tokens p after = Got toks -> closed_before toks) ->
    stops (parse_args p (before ++ w :: after)).
  Proof.
    intros Hb Nw P A Ca. apply parse_held; [exact Hb|]. intros toks E. cbn [tokens] in E.
    apply String.eqb_neq in Nw. rewrite Nw, P in E. cbn [obind] in E.
    destruct (tokens p after) as [r|]; [|discriminate]. specialize (Ca r eq_refl). cbn [obind] in E. injection E as <-.
    intros ns extras. cbn [consume_optional obind]. unfold match_argument.
    destruct A as [-> | ->]; destruct r as [|[? []] r]; try destruct Ca; exact I.
  Qed.

  (** A second argument that belongs to no option *)
  Lemma consume_left fuel x r ns : stops (consume fuel p ((x, Arg) :: r) false ns false).
  Proof.
    destruct fuel as [|fuel]; [exact I|]. cbn [consume]. destruct (existsb is_option ((x, Arg) :: r)).
    - cbn [from_option is_option snd]. destruct (from_option r) as [|[s [| |a o eq e]] rest]; try exact I.
      apply stops_bind. intros [[n' ex] rest'] E. apply consume_bad. left. exact (optional_extras _ _ _ _ _ _ _ _ _ E).
    - cbn [finish obind orb negb]. exact I.
  Qed.
  Lemma parse_left l1 l2 name x rest : reads_all p l1 -> reads_all p l2 ->
    name <> "--" -> parse_optional p name = Got Arg -> x <> "--" -> parse_optional p x = Got Arg ->
    last (map snd l1) false = false -> last (map snd l2) false = false ->
    stops (parse_args p (flat_map (fun x => fst (fst x)) l1 ++ name :: flat_map (fun x => fst (fst x)) l2 ++ x :: rest)).
  Proof.
    intros H1 H2 Nn Pn Nx Px O1 O2. destruct (reads_row p l1 H1) as (t1 & T1 & Len1 & _ & _ & R1).
    destruct (reads_row p l2 H2) as (t2 & T2 & Len2 & Head2 & Nil2 & R2).
    unfold parse_args. rewrite T1. cbn [tokens]. destruct (String.eqb_spec name "--") as [E|_]; [contradiction|].
    rewrite Pn. cbn [obind]. rewrite T2. cbn [tokens]. destruct (String.eqb_spec x "--") as [E|_]; [contradiction|].
    rewrite Px. cbn [obind]. destruct (tokens p rest) as [r|]; [|exact I]. cbn [obind].
    set (N := S (List.length (t1 ++ (name, Arg) :: t2 ++ (x, Arg) :: r))).
    assert (exists k, N = List.length l1 + S (List.length l2 + S k)) as [k ->].
    { unfold N. rewrite !app_length. cbn [List.length]. rewrite app_length. cbn [List.length].
      exists (List.length t1 + S (List.length t2 + S (List.length r)) - List.length l1 - List.length l2 - 1). lia. }
    rewrite R1; [|rewrite O1; discriminate]. apply stops_bind. intros ns _.
    assert (M : match_positional ((name, Arg) :: t2 ++ (x, Arg) :: r) = Some (name, t2 ++ (x, Arg) :: r)).
    { unfold match_positional. cbn [skip_dashes]. destruct l2 as [|y l2].
      - rewrite (Nil2 eq_refl). reflexivity.
      - assert (Hd := Head2 ltac:(discriminate)). destruct t2 as [|[s [| |]] t2]; try contradiction; try discriminate. reflexivity. }
    cbn [consume]. destruct (existsb is_option _).
    - rewrite M. apply stops_bind. intros ns1 _. rewrite R2 by (rewrite O2; discriminate). apply stops_bind. intros ns2 _. apply consume_left.
    - unfold finish. rewrite M. destruct (take_action (p_positional p) [name] ns) as [ns1|n]; [|exact I]. cbn [obind orb].
      destruct t2; exact I.
  Qed.
  (** An argument that the positional does not take *)
  Lemma parse_misnamed l name rest : reads_all p l -> name <> "--" -> parse_optional p name = Got Arg ->
    last (map snd l) false = false -> (forall ns, stops (take_action (p_positional p) [name] ns)) ->
    stops (parse_args p (flat_map (fun x => fst (fst x)) l ++ name :: rest)).
  Proof.
    intros H1 Nn Pn O1 B. destruct (reads_row p l H1) as (t1 & T1 & Len1 & _ & _ & R1).
    unfold parse_args. rewrite T1. cbn [tokens]. destruct (String.eqb_spec name "--") as [E|_]; [contradiction|].
    rewrite Pn. cbn [obind]. destruct (tokens p rest) as [r|]; [|exact I]. cbn [obind].
    set (N := S (List.length (t1 ++ (name, Arg) :: r))).
    assert (exists k, N = List.length l + S k) as [k ->].
    { unfold N. exists (List.length (t1 ++ (name, Arg) :: r) - List.length l). rewrite app_length. lia. }
    rewrite R1; [|rewrite O1; discriminate]. apply stops_bind. intros ns _. specialize (B ns).
    cbn [consume]. unfold finish, match_positional. cbn [skip_dashes].
    destruct (take_action (p_positional p) [name] ns) as [ns1|n]; [destruct B|]. cbn [obind].
    destruct (existsb is_option _); exact I.
  Qed.
End Bad.

(** ** Refused words *)

Lemma equal_free_partition o e : equal_free o -> partition_eq (o ++ e) = let (x, y) := partition_eq e in ((o ++ x)%string, y).
Proof.
  unfold equal_free. induction o as [|c o IH]; intros H; cbn [append partition_eq].
  - destruct (partition_eq e); reflexivity.
  - destruct (Ascii.eqb_spec c "=") as [->|N]; [exfalso; apply H; left; reflexivity|].
    rewrite IH by (intros X; apply H; right; exact X). destruct (partition_eq e); reflexivity.
Qed.
Lemma blank_free_false w : blank_free w -> has_blank w = false.
Proof.
  unfold blank_free. induction w as [|c w IH]; intros H; [reflexivity|]. cbn.
  destruct (Ascii.eqb_spec c " ") as [->|N]; [exfalso; apply H; left; reflexivity|]. cbn. apply IH. intros X. apply H. right. exact X.
Qed.
Lemma app_nil s : (s ++ "")%string = s.
Proof. induction s as [|c s IH]; [reflexivity|]. cbn. rewrite IH. reflexivity. Qed.

Lemma digits_of s : all_digits s = true -> digits s.
Proof.
  unfold digits. induction s as [|c s IH]; intros H; [constructor|]. cbn in *. apply andb_true_iff in H. destruct H as [Hc H].
  constructor; [|apply IH; exact H]. unfold is_digit in Hc. apply andb_true_iff in Hc. destruct Hc as [H1 H2].
  apply Nat.leb_le in H1, H2. rewrite <- (ascii_nat_embedding c).
  assert (exists k, nat_of_ascii c = 48 + k /\ k < 10) as (k & -> & Hk) by (exists (nat_of_ascii c - 48); lia).
  do 10 (destruct k as [|k]; [cbn; tauto|]). lia.
Qed.
Lemma decimals_of s : decimals s = true -> exists a b, s = (a ++ String "." b)%string /\ digits a /\ digits b /\ b <> "".
Proof.
  induction s as [|c s IH]; intros H; [discriminate|]. cbn in H. destruct (Ascii.eqb_spec c ".") as [->|N].
  - apply andb_true_iff in H. destruct H as [H1 H2]. exists "", s. split; [reflexivity|]. split; [constructor|].
    split; [apply digits_of; exact H2|]. intros ->. discriminate.
  - apply andb_true_iff in H. destruct H as [Hc H]. destruct (IH H) as (a & b & -> & Da & Db & Nb).
    exists (String c a), b. split; [reflexivity|]. split; [|split; assumption].
    assert (D := digits_of (String c "") ltac:(cbn; rewrite Hc; reflexivity)). unfold digits in *. cbn in *.
    inversion D; subst. constructor; assumption.
Qed.
Lemma not_minus w : ~ minus_number w -> negative_number w = false.
Proof.
  intros H. destruct (negative_number w) eqn:E; [|reflexivity]. exfalso. apply H.
  destruct w as [|c w]; [discriminate|]. unfold negative_number in E.
  destruct (Ascii.eqb_spec c "-") as [->|N].
  - apply orb_true_iff in E. destruct E as [E|E].
    + apply andb_true_iff in E. destruct E as [E1 E2]. exists "", w. split; [constructor|]. split; [apply digits_of; exact E2|].
      split; [intros ->; discriminate|]. left. reflexivity.
    + destruct (decimals_of w E) as (a & b & -> & Da & Db & Nb). exists a, b. split; [exact Da|]. split; [exact Db|]. split; [exact Nb|].
      right. reflexivity.
  - exfalso. destruct c as [[] [] [] [] [] [] [] []]; try discriminate E. congruence.
Qed.

Section Refused.
  Variables (p : parser) (longs : list string) (letters flags : list ascii) (flag_names : list (string * ascii)).
  Hypothesis W : well_named p longs.
  Hypothesis HL : forall c, ~ In c letters -> find_option p (String "-" (String c "")) = None.
  Hypothesis HF : forall c, In c flags -> exists a, flag_letter p (a, c).
  Hypothesis HN : forall long c, In (long, c) flag_names ->
    In long longs /\ exists a, flag_letter p (a, c) /\ find_option p long = Some a.

  Lemma unknown_long_start o : prefix "--" o = true -> In o (all_options p) -> In o longs.
  Proof.
    intros P I. destruct (wn_all _ _ W o I) as [L|(c & -> & N & _)]; [exact L|]. exfalso.
    destruct (prefix_app _ _ P) as [v Ev]. cbn [append] in Ev. injection Ev as -> _. apply N. reflexivity.
  Qed.

  Lemma eq_stops a o e : a_arity a = Nothing ->
    match cluster p a (two_dashes o) true e with Exit _ => True | Got (_, Unknown) => True | _ => False end.
  Proof.
    intros A. destruct e as [|c e]; cbn [cluster]; rewrite A; destruct (two_dashes o); try exact I. 
  Qed.

  Lemma joined_stops fs c u : Forall (fun c => In c flags) fs -> ~ In c letters -> c <> "="%char ->
    forall a, a_arity a = Nothing ->
    match cluster p a false false (string_of_list_ascii fs ++ String c u) with Exit _ => True | Got (_, Unknown) => True | _ => False end.
  Proof.
    intros H Hc Ne. induction H as [|f fs If Hf IH]; intros a A.
    - cbn [string_of_list_ascii append cluster]. rewrite A. cbn [orb]. destruct (Ascii.eqb c "-"); [exact I|]. rewrite (HL c Hc). exact I.
    - destruct (HF f If) as (b & Fb & Ab & N1 & N2). cbn [fst snd] in *. cbn [string_of_list_ascii append].
      assert (exists d v, (string_of_list_ascii fs ++ String c u)%string = String d v /\ d <> "="%char) as (d & v & E & Nd).
      { destruct fs as [|g fs]; [exists c, u; auto|]. cbn. do 2 eexists. split; [reflexivity|].
        inversion Hf as [|? ? Ig _]; subst. destruct (HF g Ig) as (? & _ & _ & _ & Ng). exact Ng. }
      specialize (IH b Ab). rewrite E in *. rewrite (cluster_step p a b f d v A Fb N1 Nd).
      destruct (cluster p b false false (String d v)) as [[l []]|]; cbn; auto.
  Qed.
  Lemma joined_value_stops fs t : Forall (fun c => In c flags) fs -> fs <> [] -> forall a, a_arity a = Nothing ->
    match cluster p a false false (string_of_list_ascii fs ++ String "=" t) with Exit _ => True | Got (_, Unknown) => True | _ => False end.
  Proof.
    intros H. induction H as [|f fs If Hf IH]; intros Nf a A; [congruence|].
    destruct (HF f If) as (b & Fb & Ab & N1 & N2). cbn [fst snd] in *. cbn [string_of_list_ascii append].
    destruct fs as [|g fs].
    - cbn [string_of_list_ascii append cluster]. rewrite A. cbn [orb]. apply Ascii.eqb_neq in N1. rewrite N1, Fb.
      cbn [Ascii.eqb Bool.eqb]. destruct t as [|x t]; cbn [cluster]; rewrite Ab; cbn [orb obind]; exact I.
    - specialize (IH ltac:(discriminate) b Ab). cbn [string_of_list_ascii append] in *.
      inversion Hf as [|? ? Ig _]; subst. destruct (HF g Ig) as (? & _ & _ & _ & Ng). cbn [snd] in Ng.
      rewrite (cluster_step p a b f g _ A Fb N1 Ng).
      destruct (cluster p b false false _) as [[l []]|]; cbn; auto.
  Qed.

  Lemma refused_bad w : refused longs letters flags flag_names w ->
    w <> "--" /\ forall tok, parse_optional p w = Got tok -> bad p (w, tok).
  Proof.
    intros H. destruct H as [c u Nc Hc Hm Hb|o e Eo Po Ho He Hb|o e l1 l2 Eo Po Ho I1 I2 N12 P1 P2 He|long c o t In_ No|fs c u [Nf Hf] Hc Ne|fs t [Nf Hf]].
    - split; [intros X; injection X as -> _; congruence|]. intros tok E.
      assert (U : forall v, ~ In (String "-" (String c v)) (all_options p)).
      { intros v I. destruct (wn_all _ _ W _ I) as [L|(d & D & _)].
        - destruct (wn_long _ _ W _ L) as (_ & _ & d & w & D). injection D as D _. congruence.
        - injection D as <- ->. apply (proj1 (find_option_None p _) (HL c Hc)). exact I. }
      unfold parse_optional in E. cbn [Ascii.eqb Bool.eqb negb String.eqb] in E. rewrite (proj2 (find_option_None _ _) (U u)) in E.
      destruct (partition_eq (String "-" (String c u))) as [o e] eqn:Pq.
      assert (Fo : e = None \/ find_option p o = None).
      { destruct e as [t|]; [|left; reflexivity]. right. apply find_option_None. destruct (partition_some _ _ _ Pq) as [Q _].
        destruct o as [|x [|y o]].
        - discriminate.
        - intros I. destruct (wn_all _ _ W _ I) as [L|(d & D & _)]; [|discriminate].
          destruct (wn_long _ _ W _ L) as (_ & _ & d & w & D). discriminate.
        - cbn [append] in Q. injection Q as <- <- _. apply U. }
      assert (Ot : option_tuples p (String "-" (String c u)) = []).
      { assert (O : option_tuples p (String "-" (String c u)) =
                  flat_map (fun known => if String.eqb known (String "-" (String c ""))
                             then [Opt (find_option p known) known false (Some u)]
                             else if prefix (String "-" (String c u)) known then [Opt (find_option p known) known false None]
                             else []) (all_options p)).
        { unfold option_tuples. destruct c as [[] [] [] [] [] [] [] []]; try reflexivity. congruence. }
        rewrite O. assert (Nil : forall m, (forall z, In z m -> In z (all_options p)) ->
          flat_map (fun known => if String.eqb known (String "-" (String c ""))
                             then [Opt (find_option p known) known false (Some u)]
                             else if prefix (String "-" (String c u)) known then [Opt (find_option p known) known false None]
                             else []) m = []).
        { induction m as [|z m IH]; intros Hz; [reflexivity|]. cbn [flat_map]. rewrite IH by (intros v Iv; apply Hz; right; exact Iv).
          assert (Iz := Hz z (or_introl eq_refl)).
          destruct (String.eqb_spec z (String "-" (String c ""))) as [->|Nz]; [exfalso; apply (U ""); exact Iz|].
          destruct (prefix (String "-" (String c u)) z) eqn:Pz; [|reflexivity]. exfalso.
          destruct (prefix_app _ _ Pz) as [v Ev]. cbn [append] in Ev. subst z. apply (U _ Iz). }
        apply Nil. auto. }
      rewrite Ot in E. rewrite (not_minus _ Hm) in E.
      assert (Hb' : has_blank (String "-" (String c u)) = false) by (cbn; apply (blank_free_false (String c u) Hb)).
      rewrite Hb' in E.
      assert (E' : Got (Opt None (String "-" (String c u)) false None) = Got tok).
      { destruct e as [t|]; [|exact E]. destruct Fo as [Fo|Fo]; [discriminate|]. rewrite Fo in E. exact E. }
      injection E' as <-. exact I.
    - assert (Par : exists x, partition_eq (o ++ e) = (o, x) /\ (x = None -> e = "") /\ (forall t, x = Some t -> e = String "=" t)).
      { rewrite (equal_free_partition o e Eo). destruct He as [->|[t ->]]; cbn [partition_eq Ascii.eqb Bool.eqb]; rewrite app_nil.
        - exists None. repeat split. discriminate.
        - exists (Some t). repeat split; [discriminate|]. intros t' X. injection X as <-. reflexivity. }
      destruct Par as (x & Pq & Xn & Xs).
      destruct (prefix_app _ _ Po) as [u Eu]. cbn [append] in Eu.
      assert (No : ~ In o (all_options p)).
      { intros I. apply (unknown_long_start o Po) in I. specialize (Ho o I). rewrite prefix_refl in Ho. discriminate. }
      assert (Fw : find_option p (o ++ e) = None).
      { apply find_option_None. intros I. assert (K := known_no_eq p longs W _ I). rewrite Pq in K. injection K as K ->.
        rewrite (Xn eq_refl), app_nil in I. contradiction. }
      assert (Two : exists l, In l longs) by (destruct (wn_two _ _ W "") as (l & I & _); exists l; exact I).
      assert (Nw : (o ++ e)%string <> "--").
      { intros X. rewrite Eu in X. cbn [append] in X. injection X as X. destruct u as [|? ?]; [|discriminate]. 
        destruct Two as [l Il]. specialize (Ho l Il). destruct (wn_long _ _ W l Il) as (_ & _ & c & v & ->). rewrite Eu in Ho.
        assert (T : prefix "--" (String "-" (String "-" (String c v))) = true) by reflexivity. congruence. }
      split; [exact Nw|]. intros tok E. unfold parse_optional in E. rewrite Eu in E. cbn [append] in E. cbn [Ascii.eqb Bool.eqb negb String.eqb] in E.
      change (String "-" (String "-" (u ++ e))) with (String "-" (String "-" u) ++ e)%string in E. rewrite <- Eu in E.
      rewrite Fw, Pq in E.
      assert (Ot : option_tuples p (o ++ e) = []).
      { rewrite Eu at 1. cbn [append option_tuples]. change (String "-" (String "-" (u ++ e))) with (String "-" (String "-" u) ++ e)%string.
        rewrite <- Eu. rewrite Pq.
        assert (Nil : forall (g : string -> token) m, (forall z, In z m -> In z (all_options p)) -> flat_map (fun known => if prefix o known then [g known] else []) m = []).
        { intros g. induction m as [|z m IH]; intros Hz; [reflexivity|]. cbn [flat_map]. rewrite IH by (intros v Iv; apply Hz; right; exact Iv).
          destruct (prefix o z) eqn:Pz; [|reflexivity]. exfalso. assert (Iz := Hz z (or_introl eq_refl)).
          destruct (wn_all _ _ W _ Iz) as [L|(d & D & N & _)].
          - specialize (Ho z L). congruence.
          - destruct (prefix_app _ _ Pz) as [v Ev]. rewrite D, Eu in Ev. cbn [append] in Ev. injection Ev as -> _. apply N. reflexivity. }
        apply Nil. auto. }
      rewrite Ot in E.
      assert (Nn : negative_number (o ++ e) = false) by (rewrite Eu; reflexivity).
      assert (Hbl := blank_free_false _ Hb). rewrite Nn, Hbl in E.
      assert (E' : Got (Opt None (o ++ e)%string false None) = Got tok).
      { destruct x as [t|]; [|exact E]. rewrite (proj2 (find_option_None p o) No) in E. exact E. }
      injection E' as <-. exact I.
    - assert (Par : exists x, partition_eq (o ++ e) = (o, x) /\ (x = None -> e = "" /\ o <> "--") /\ (forall t, x = Some t -> e = String "=" t)).
      { rewrite (equal_free_partition o e Eo). destruct He as [[-> No]|[t ->]]; cbn [partition_eq Ascii.eqb Bool.eqb]; rewrite app_nil.
        - exists None. repeat split; [exact No|discriminate].
        - exists (Some t). split; [reflexivity|]. split; [discriminate|]. intros t' X. injection X as <-. reflexivity. }
      destruct Par as (x & Pq & Xn & Xs).
      destruct (prefix_app _ _ Po) as [u Eu]. cbn [append] in Eu.
      assert (No : ~ In o (all_options p)) by (intros I; apply Ho, (unknown_long_start o Po I)).
      assert (Fw : find_option p (o ++ e) = None).
      { apply find_option_None. intros I. assert (K := known_no_eq p longs W _ I). rewrite Pq in K. injection K as K ->.
        rewrite (proj1 (Xn eq_refl)), app_nil in I. contradiction. }
      assert (Nw : (o ++ e)%string <> "--").
      { intros X. destruct He as [[-> Nd]|[t ->]]; [rewrite app_nil in X; contradiction|]. rewrite Eu in X. destruct u; discriminate. }
      split; [exact Nw|]. intros tok E. exfalso.
      unfold parse_optional in E. rewrite Eu in E. cbn [append] in E. cbn [Ascii.eqb Bool.eqb negb] in E.
      change (String "-" (String "-" (u ++ e))) with (String "-" (String "-" u) ++ e)%string in E. rewrite <- Eu in E.
      rewrite Fw, Pq in E. cbn [String.eqb] in E.
      assert (Ot : exists t1 t2 r, option_tuples p (o ++ e) = t1 :: t2 :: r).
      { assert (O : option_tuples p (o ++ e) = flat_map (fun known => if prefix o known then
            [Opt (find_option p known) known (match x with Some _ => true | None => false end) x] else []) (all_options p)).
        { rewrite Eu at 1. cbn [append option_tuples]. change (String "-" (String "-" (u ++ e))) with (String "-" (String "-" u) ++ e)%string.
          rewrite <- Eu. rewrite Pq. reflexivity. }
        rewrite O.
        assert (G : forall (g : string -> token) m, In l1 m -> In l2 m ->
          exists t1 t2 r, flat_map (fun known => if prefix o known then [g known] else []) m = t1 :: t2 :: r).
        { intros g m J1 J2. 
          assert (C1 : forall l m, In l m -> prefix o l = true -> exists t1 r, flat_map (fun known => if prefix o known then [g known] else []) m = t1 :: r).
          { intros l k. induction k as [|z k IH]; intros J Q; [destruct J|]. cbn [flat_map]. destruct J as [->|J]; [rewrite Q; cbn; eauto|].
            destruct (IH J Q) as (t1 & r & ->). destruct (prefix o z); cbn; eauto. }
          induction m as [|z m IH]; [destruct J1|]. cbn [flat_map].
          destruct J1 as [->|J1]; destruct J2 as [J2|J2].
          - congruence.
          - rewrite P1. destruct (C1 l2 m J2 P2) as (t1 & r & ->). cbn. eauto.
          - subst z. rewrite P2. destruct (C1 l1 m J1 P1) as (t1 & r & ->). cbn. eauto.
          - destruct (IH J1 J2) as (t1 & t2 & r & ->). destruct (prefix o z); cbn; eauto. }
        apply (G (fun known => Opt (find_option p known) known (match x with Some _ => true | None => false end) x)); apply (wn_long _ _ W); assumption. }
      destruct Ot as (t1 & t2 & r & Ot). rewrite Ot in E. destruct x as [t|]; [|discriminate].
      rewrite (proj2 (find_option_None p o) No) in E. discriminate.
    - destruct (HN long c In_) as (Il & a & (Fc & Aa & _) & Fl). cbn [fst snd] in *.
      destruct (name_word p longs W a long _ o Fl Fc Il No) as (_ & _ & H). destruct (H t) as [D [o' P]].
      split; [exact D|]. intros tok E. rewrite P in E. injection E as <-. unfold bad. cbn [snd]. apply eq_stops. exact Aa.
    - destruct fs as [|f fs]; [congruence|]. inversion Hf as [|? ? If Hfs]; subst. destruct (HF f If) as (a & Fa & Aa & N1 & N2). cbn [fst snd] in *.
      cbn [string_of_list_ascii append].
      destruct (letters_word p longs W a f (string_of_list_ascii fs ++ String c u) Fa N1) as [D P].
      + destruct fs; discriminate.
      + intros v X. destruct fs as [|g fs]; [cbn in X; injection X as X _; congruence|]. cbn in X. injection X as X _.
        inversion Hfs as [|? ? Ig _]; subst. destruct (HF _ Ig) as (? & _ & _ & _ & Ng). cbn in Ng. congruence.
      + split; [exact D|]. intros tok E. rewrite P in E. injection E as <-. unfold bad. cbn [snd].
        assert (T : two_dashes (String "-" (String f "")) = false).
        { destruct f as [[] [] [] [] [] [] [] []]; try reflexivity; congruence. }
        rewrite T. apply joined_stops; assumption.
    - destruct fs as [|f fs]; [congruence|]. inversion Hf as [|? ? If Hfs]; subst. destruct (HF f If) as (a & Fa & Aa & N1 & N2). cbn [fst snd] in *.
      cbn [string_of_list_ascii append].
      assert (T : two_dashes (String "-" (String f "")) = false).
      { destruct f as [[] [] [] [] [] [] [] []]; try reflexivity; congruence. }
      destruct fs as [|g fs].
      + cbn [string_of_list_ascii append].
        assert (Ix := proj2 (proj2 (find_option_In _ _ _ Fa))). assert (Kx := known_no_eq p longs W _ Ix).
        split; [discriminate|]. intros tok E.
        assert (P : parse_optional p (String "-" (String f (String "=" t))) = Got (Opt (Some a) (String "-" (String f "")) true (Some t))).
        { unfold parse_optional. cbn [Ascii.eqb Bool.eqb negb String.eqb].
          change (String "-" (String f (String "=" t))) with (String "-" (String f "") ++ String "=" t)%string.
          rewrite (joined_unknown p longs W), (partition_join _ t Kx), Fa. reflexivity. }
        rewrite P in E. injection E as <-. unfold bad. cbn [snd]. apply eq_stops. exact Aa.
      + destruct (letters_word p longs W a f (string_of_list_ascii (g :: fs) ++ String "=" t) Fa N1) as [D P].
        * discriminate.
        * intros v X. cbn in X. injection X as X _. inversion Hfs as [|? ? Ig _]; subst. destruct (HF _ Ig) as (? & _ & _ & _ & Ng). cbn in Ng. congruence.
        * split; [exact D|]. intros tok E. rewrite P in E. injection E as <-. unfold bad. cbn [snd]. rewrite T.
          exact (joined_value_stops (g :: fs) t Hfs ltac:(discriminate) a Aa).
  Qed.

  Lemma refused_stops before w after : ~ In "--" before -> refused longs letters flags flag_names w -> stops (parse_args p (before ++ w :: after)).
  Proof. intros Hb H. destruct (refused_bad w H) as [N B]. apply parse_bad; assumption. Qed.
End Refused.

(** ** The two commands *)

Section Sphere.
  Variable flt : string -> option Q.
  Notation p := (sphere_parser flt).

  Lemma sphere_stops argv : stops (parse_args p argv) -> parse_args p argv = Exit 0 \/ parse_args p argv = Exit 2.
  Proof.
    intros H. assert (F := sphere_outcome flt argv). destruct (parse_args p argv) as [ns|n]; [destruct H|]. cbn in F. destruct F as [-> | ->]; auto.
  Qed.

  Lemma sphere_refused_stops before w after : ~ In "--" before -> sphere_refused w -> stops (parse_args p (before ++ w :: after)).
  Proof.
    apply refused_stops.
    - exact (sphere_well_named flt).
    - intros c H. apply find_option_None. intros I. apply H. cbn in I.
      repeat (destruct I as [E|I]; [first [discriminate E | injection E as <-; cbn; tauto]|]). destruct I.
    - intros c H. cbn in H. repeat (destruct H as [<-|H]; [eexists; repeat split; known|]). destruct H.
    - intros long c H. cbn in H. repeat (destruct H as [H|H]; [injection H as <- <-; split; [known|]; eexists; split; [repeat split; known|known]|]).
      destruct H.
  Qed.

  Lemma sphere_valued_misfit o long short says : sphere_valued flt o long short says -> exists a c,
    short = String "-" (String c "") /\ option_is p sphere_longs long c a /\
    (a_arity a = One \/ exists d, a_arity a = At_most_one d) /\
    (forall t, (forall o' says', sphere_valued flt o' long short says' -> ~ says' t) -> forall ns, stops (take_action a [t] ns)) /\
    ((forall o', ~ sphere_bare o' long short) -> a_arity a = One).
  Proof.
    intros H; destruct H; do 2 eexists; (split; [reflexivity|]); (split; [repeat split; known|]);
      (split; [first [left; reflexivity|right; eexists; reflexivity]|]);
      (split; [|intros Nb; first [reflexivity | exact (False_ind _ (Nb _ b_method)) | exact (False_ind _ (Nb _ b_perspective)) | exact (False_ind _ (Nb _ b_type))]]); intros txt B ns;
      unfold take_action; cbn [one_action maybe_action a_doing a_arity]; apply stops_bind; intros val Ev; exfalso; revert Ev;
      enough (St : stops (convert _ txt)) by (intros Ev; rewrite Ev in St; exact St);
      unfold convert, one_action, maybe_action, as_int, as_float; cbn [a_type a_choices].
    - destruct (flt txt) eqn:E; [exfalso; exact (B _ _ (v_alpha flt _) E)|exact I].
    - destruct (py_int txt) eqn:E; [exfalso; exact (B _ _ (v_bandlimit flt _) E)|exact I].
    - destruct (flt txt) eqn:E; [exfalso; exact (B _ _ (v_beta flt _) E)|exact I].
    - unfold as_name, valid_maps, valid_name. destruct (str_in txt map_names) eqn:E; [|exact I]. exfalso. apply str_in_In in E.
      apply (B _ _ (v_convolve flt txt E) eq_refl).
    - destruct (flt txt) eqn:E; [exfalso; exact (B _ _ (v_gamma flt _) E)|exact I].
    - unfold as_str. match goal with |- context [str_in txt ?l] => destruct (str_in txt l) eqn:E end; [|exact I]. exfalso. apply str_in_In in E.
      apply (B _ _ (v_method flt txt E) eq_refl).
    - destruct (py_int txt) eqn:E; [exfalso; exact (B _ _ (v_noise flt _) E)|exact I].
    - unfold as_str. match goal with |- context [str_in txt ?l] => destruct (str_in txt l) eqn:E end; [|exact I]. exfalso. apply str_in_In in E.
      apply (B _ _ (v_perspective flt txt E) eq_refl).
    - destruct (py_int txt) eqn:E; [exfalso; exact (B _ _ (v_smoothing flt _) E)|exact I].
    - unfold as_str. match goal with |- context [str_in txt ?l] => destruct (str_in txt l) eqn:E end; [|exact I]. exfalso. apply str_in_In in E.
      apply (B _ _ (v_type flt txt E) eq_refl).
  Qed.

  Lemma sphere_misfit_stops before ws after : ~ In "--" before -> misfit sphere_longs (sphere_valued flt) ws ->
    stops (parse_args p (before ++ ws ++ after)).
  Proof.
    intros Hb H. destruct H as [o long short says ws Hv Hw|ws Hw|o ts t No Pt It Bt].
    - destruct (sphere_valued_misfit o long short says Hv) as (a & c & -> & (Fl & Fs & Il & Nc & _) & A & B & _).
      destruct (part_value p sphere_longs (sphere_well_named flt) a long c Fl Fs Il Nc _ ws A Hw) as (t & Nt & R).
      apply (parse_misread p before ws [(a, [t])] after Hb R). intros ns. cbn [take_actions]. apply stops_bind.
      intros n E. specialize (B t Nt ns). rewrite E in B. destruct B.
    - destruct (extra_is flt) as (Fl & Fs & Il & Nc & _).
      destruct (part_inside p sphere_longs (sphere_well_named flt) _ _ _ Fl Fs Il Nc _ ws ltac:(discriminate) Hw) as (t & Nt & R).
      apply (parse_misread p before ws _ after Hb R). intros ns. cbn [take_actions]. apply stops_bind. intros n E. exfalso. revert E.
      unfold take_action. cbn [extra_args_action a_doing a_arity convert_all]. unfold convert. cbn [extra_args_action a_type a_choices].
      unfold as_int. destruct (py_int t) eqn:E; [intros _; exact (Nt _ E)|intros X; discriminate X].
    - destruct (extra_is flt) as (Fl & Fs & Il & Nc & _).
      destruct (name_word p sphere_longs (sphere_well_named flt) _ _ _ o Fl Fs Il No) as (D & [o' P] & _). rewrite Forall_forall in Pt.
      cbn [app]. apply (parse_misread_many p before o _ o' ts after Hb D P); [reflexivity|reflexivity| |].
      + intros u U. apply (plain_word p sphere_longs (sphere_well_named flt)). apply Pt. exact U.
      + exists t. split; [exact It|]. unfold convert, as_int. cbn [extra_args_action a_type]. unfold as_int.
        destruct (py_int t) eqn:E; [exfalso; exact (Bt _ E)|exact I].
  Qed.

  Lemma sphere_closed after : (after = [] \/ (exists more, after = "--" :: more) \/
      exists pt more, sphere_part flt pt /\ after = part_words pt ++ more) ->
    forall toks, tokens p after = Got toks -> closed_before toks.
  Proof.
    intros [->|[[more ->]|(pt & more & Hp & ->)]] toks E.
    - injection E as <-. exact I.
    - cbn [tokens String.eqb Ascii.eqb Bool.eqb] in E. injection E as <-. exact I.
    - destruct (sphere_part_reads flt pt Hp) as (acts & R & _). destruct (tokens_reads _ _ _ _ R) as (s & a & o & eq & e & args & T & _).
      rewrite T in E. destruct (tokens p more); [|discriminate]. injection E as <-. exact I.
  Qed.
  Lemma sphere_valueless_stops before o long short after : ~ In "--" before -> needs_value (sphere_valued flt) sphere_bare long short ->
    names_option sphere_longs long short o ->
    (after = [] \/ (exists more, after = "--" :: more) \/ exists pt more, sphere_part flt pt /\ after = part_words pt ++ more) ->
    stops (parse_args p (before ++ o :: after)).
  Proof.
    intros Hb Hn No Ha. assert (C := sphere_closed after Ha). destruct Hn as [[-> ->]|(op & says & Hv & Nb)].
    - destruct (extra_is flt) as (Fl & Fs & Il & Nc & _). destruct (name_word p sphere_longs (sphere_well_named flt) _ _ _ o Fl Fs Il No) as (D & [o' P] & _).
      apply (parse_valueless p before o _ o' after Hb D P); [right; reflexivity|exact C].
    - destruct (sphere_valued_misfit op long short says Hv) as (a & c & -> & (Fl & Fs & Il & Nc & _) & _ & _ & A).
      destruct (name_word p sphere_longs (sphere_well_named flt) _ _ _ o Fl Fs Il No) as (D & [o' P] & _).
      apply (parse_valueless p before o _ o' after Hb D P); [left; exact (A Nb)|exact C].
  Qed.

  Lemma sphere_left_stops before after name x rest : Forall (sphere_part flt) before -> Forall (sphere_part flt) after -> In name sphere_names -> plain x ->
    parts_open before = false -> parts_open after = false ->
    stops (parse_args p (parts_words before ++ name :: parts_words after ++ x :: rest)).
  Proof.
    intros Hb Ha Hn Hx Ob Oa. destruct (sphere_parts_read flt before Hb) as (rb & Rb & Wb & Eb & _).
    destruct (sphere_parts_read flt after Ha) as (ra & Ra & Wa & Ea & _). rewrite <- Wb, <- Wa.
    destruct (sphere_name_plain flt name Hn) as [Pn Nn]. destruct (plain_word p sphere_longs (sphere_well_named flt) x Hx) as [Px Nx].
    apply parse_left; try assumption; congruence.
  Qed.
  Lemma sphere_misnamed_stops before x rest : Forall (sphere_part flt) before -> plain x -> ~ In x sphere_names -> parts_open before = false ->
    stops (parse_args p (parts_words before ++ x :: rest)).
  Proof.
    intros Hb Hx Nx Ob. destruct (sphere_parts_read flt before Hb) as (rb & Rb & Wb & Eb & _). rewrite <- Wb.
    destruct (plain_word p sphere_longs (sphere_well_named flt) x Hx) as [Px Dx].
    apply parse_misnamed; try assumption; [congruence|]. intros ns.
    unfold take_action. cbn [sphere_parser p_positional a_doing a_arity]. unfold convert, as_name. cbn [a_type a_choices].
    unfold valid_plotting, valid_name. destruct (str_in x sphere_names) eqn:E; [apply str_in_In in E; contradiction|exact I].
  Qed.
End Sphere.

Section Mesh.
  Notation p := (mesh_parser).

  Lemma mesh_stops argv : stops (parse_args p argv) -> parse_args p argv = Exit 0 \/ parse_args p argv = Exit 2.
  Proof.
    intros H. assert (F := mesh_outcome argv). destruct (parse_args p argv) as [ns|n]; [destruct H|]. cbn in F. destruct F as [-> | ->]; auto.
  Qed.

  Lemma mesh_refused_stops before w after : ~ In "--" before -> mesh_refused w -> stops (parse_args p (before ++ w :: after)).
  Proof.
    apply refused_stops.
    - exact mesh_well_named.
    - intros c H. apply find_option_None. intros I. apply H. cbn in I.
      repeat (destruct I as [E|I]; [first [discriminate E | injection E as <-; cbn; tauto]|]). destruct I.
    - intros c H. cbn in H. repeat (destruct H as [<-|H]; [eexists; repeat split; known|]). destruct H.
    - intros long c H. cbn in H. repeat (destruct H as [H|H]; [injection H as <- <-; split; [known|]; eexists; split; [repeat split; known|known]|]).
      destruct H.
  Qed.

  Lemma mesh_valued_misfit o long short says : mesh_valued o long short says -> exists a c,
    short = String "-" (String c "") /\ option_is p mesh_longs long c a /\
    (a_arity a = One \/ exists d, a_arity a = At_most_one d) /\
    (forall t, (forall o' says', mesh_valued o' long short says' -> ~ says' t) -> forall ns, stops (take_action a [t] ns)) /\
    ((forall o', ~ mesh_bare o' long short) -> a_arity a = One).
  Proof.
    intros H; destruct H; do 2 eexists; (split; [reflexivity|]); (split; [repeat split; known|]);
      (split; [first [left; reflexivity|right; eexists; reflexivity]|]);
      (split; [|intros Nb; first [reflexivity | exact (False_ind _ (Nb _ mb_method))]]); intros txt B ns;
      unfold take_action; cbn [one_action maybe_action a_doing a_arity]; apply stops_bind; intros val Ev; exfalso; revert Ev;
      enough (St : stops (convert _ txt)) by (intros Ev; rewrite Ev in St; exact St);
      unfold convert, one_action, maybe_action, as_int; cbn [a_type a_choices].
    - unfold as_name, valid_methods, valid_name. destruct (str_in txt mesh_method_names) eqn:E; [|exact I]. exfalso. apply str_in_In in E.
      apply (B _ _ (mv_method txt E) eq_refl).
    - destruct (py_int txt) eqn:E; [exfalso; exact (B _ _ (mv_noise _) E)|exact I].
  Qed.

  Lemma mesh_misfit_stops before ws after : ~ In "--" before -> misfit mesh_longs mesh_valued ws ->
    stops (parse_args p (before ++ ws ++ after)).
  Proof.
    intros Hb H. destruct H as [o long short says ws Hv Hw|ws Hw|o ts t No Pt It Bt].
    - destruct (mesh_valued_misfit o long short says Hv) as (a & c & -> & (Fl & Fs & Il & Nc & _) & A & B & _).
      destruct (part_value p mesh_longs mesh_well_named a long c Fl Fs Il Nc _ ws A Hw) as (t & Nt & R).
      apply (parse_misread p before ws [(a, [t])] after Hb R). intros ns. cbn [take_actions]. apply stops_bind.
      intros n E. specialize (B t Nt ns). rewrite E in B. destruct B.
    - destruct mesh_extra_is as (Fl & Fs & Il & Nc & _).
      destruct (part_inside p mesh_longs mesh_well_named _ _ _ Fl Fs Il Nc _ ws ltac:(discriminate) Hw) as (t & Nt & R).
      apply (parse_misread p before ws _ after Hb R). intros ns. cbn [take_actions]. apply stops_bind. intros n E. exfalso. revert E.
      unfold take_action. cbn [extra_args_action a_doing a_arity convert_all]. unfold convert. cbn [extra_args_action a_type a_choices].
      unfold as_int. destruct (py_int t) eqn:E; [intros _; exact (Nt _ E)|intros X; discriminate X].
    - destruct mesh_extra_is as (Fl & Fs & Il & Nc & _).
      destruct (name_word p mesh_longs mesh_well_named _ _ _ o Fl Fs Il No) as (D & [o' P] & _). rewrite Forall_forall in Pt.
      cbn [app]. apply (parse_misread_many p before o _ o' ts after Hb D P); [reflexivity|reflexivity| |].
      + intros u U. apply (plain_word p mesh_longs mesh_well_named). apply Pt. exact U.
      + exists t. split; [exact It|]. unfold convert, as_int. cbn [extra_args_action a_type]. unfold as_int.
        destruct (py_int t) eqn:E; [exfalso; exact (Bt _ E)|exact I].
  Qed.

  Lemma mesh_closed after : (after = [] \/ (exists more, after = "--" :: more) \/
      exists pt more, mesh_part pt /\ after = part_words pt ++ more) ->
    forall toks, tokens p after = Got toks -> closed_before toks.
  Proof.
    intros [->|[[more ->]|(pt & more & Hp & ->)]] toks E.
    - injection E as <-. exact I.
    - cbn [tokens String.eqb Ascii.eqb Bool.eqb] in E. injection E as <-. exact I.
    - destruct (mesh_part_reads pt Hp) as (acts & R & _). destruct (tokens_reads _ _ _ _ R) as (s & a & o & eq & e & args & T & _).
      rewrite T in E. destruct (tokens p more); [|discriminate]. injection E as <-. exact I.
  Qed.
  Lemma mesh_valueless_stops before o long short after : ~ In "--" before -> needs_value mesh_valued mesh_bare long short ->
    names_option mesh_longs long short o ->
    (after = [] \/ (exists more, after = "--" :: more) \/ exists pt more, mesh_part pt /\ after = part_words pt ++ more) ->
    stops (parse_args p (before ++ o :: after)).
  Proof.
    intros Hb Hn No Ha. assert (C := mesh_closed after Ha). destruct Hn as [[-> ->]|(op & says & Hv & Nb)].
    - destruct mesh_extra_is as (Fl & Fs & Il & Nc & _). destruct (name_word p mesh_longs mesh_well_named _ _ _ o Fl Fs Il No) as (D & [o' P] & _).
      apply (parse_valueless p before o _ o' after Hb D P); [right; reflexivity|exact C].
    - destruct (mesh_valued_misfit op long short says Hv) as (a & c & -> & (Fl & Fs & Il & Nc & _) & _ & _ & A).
      destruct (name_word p mesh_longs mesh_well_named _ _ _ o Fl Fs Il No) as (D & [o' P] & _).
      apply (parse_valueless p before o _ o' after Hb D P); [left; exact (A Nb)|exact C].
  Qed.

  Lemma mesh_left_stops before after name x rest : Forall mesh_part before -> Forall mesh_part after -> In name MESHES -> plain x ->
    parts_open before = false -> parts_open after = false ->
    stops (parse_args p (parts_words before ++ name :: parts_words after ++ x :: rest)).
  Proof.
    intros Hb Ha Hn Hx Ob Oa. destruct (mesh_parts_read before Hb) as (rb & Rb & Wb & Eb & _).
    destruct (mesh_parts_read after Ha) as (ra & Ra & Wa & Ea & _). rewrite <- Wb, <- Wa.
    destruct (mesh_name_plain name Hn) as [Pn Nn]. destruct (plain_word p mesh_longs mesh_well_named x Hx) as [Px Nx].
    apply parse_left; try assumption; congruence.
  Qed.
  Lemma mesh_misnamed_stops before x rest : Forall mesh_part before -> plain x -> ~ In x MESHES -> parts_open before = false ->
    stops (parse_args p (parts_words before ++ x :: rest)).
  Proof.
    intros Hb Hx Nx Ob. destruct (mesh_parts_read before Hb) as (rb & Rb & Wb & Eb & _). rewrite <- Wb.
    destruct (plain_word p mesh_longs mesh_well_named x Hx) as [Px Dx].
    apply parse_misnamed; try assumption; [congruence|]. intros ns.
    unfold take_action. cbn [mesh_parser p_positional a_doing a_arity]. unfold convert, as_name. cbn [a_type a_choices].
    unfold valid_meshes, valid_name. destruct (str_in x MESHES) eqn:E; [apply str_in_In in E; contradiction|exact I].
  Qed.
End Mesh.
