(** * Lemmas about the model of [argparse]. *)
From Coq Require Import List ZArith QArith Arith Bool Lia String Ascii.
From Verif Require Import Base PyNum PyNumProofs Names Argparse SpecCommands.
Import ListNotations.
Local Open Scope string_scope.
Local Open Scope list_scope.
Local Open Scope nat_scope.

(** ** [int] *)

(** The value of a string of digits *)
Fixpoint dval (d : Decimal.uint) (sum : Z) : Z :=
  match d with
  | Decimal.Nil => sum
  | Decimal.D0 d => dval d (10 * sum)
  | Decimal.D1 d => dval d (10 * sum + 1)
  | Decimal.D2 d => dval d (10 * sum + 2)
  | Decimal.D3 d => dval d (10 * sum + 3)
  | Decimal.D4 d => dval d (10 * sum + 4)
  | Decimal.D5 d => dval d (10 * sum + 5)
  | Decimal.D6 d => dval d (10 * sum + 6)
  | Decimal.D7 d => dval d (10 * sum + 7)
  | Decimal.D8 d => dval d (10 * sum + 8)
  | Decimal.D9 d => dval d (10 * sum + 9)
  end.
Lemma read_uint d : forall sum after, d <> Decimal.Nil \/ after = true ->
  read_digits (DecimalString.NilEmpty.string_of_uint d) sum after = Some (dval d sum).
Proof.
  induction d; intros sum after H;
    [destruct H as [H| ->]; [congruence|reflexivity]|..];
    cbn [DecimalString.NilEmpty.string_of_uint read_digits dval];
    (match goal with |- context [is_digit ?c] => change (is_digit c) with true end); cbn iota;
    (rewrite IHd; [|right; reflexivity]); f_equal; f_equal;
    (match goal with |- context [digit ?c] => let v := eval vm_compute in (digit c) in change (digit c) with v end); lia.
Qed.
Lemma dval_pos d : forall acc, dval d (Zpos acc) = Zpos (Pos.of_uint_acc d acc).
Proof.
  induction d; intros acc; [reflexivity|..]; cbn [dval Pos.of_uint_acc];
    (match goal with |- dval d ?x = Zpos (Pos.of_uint_acc d ?y) => replace x with (Zpos y) by lia end); apply IHd.
Qed.
Lemma dval_of_uint d : dval d 0 = Z.of_N (Pos.of_uint d).
Proof.
  induction d; [reflexivity|exact IHd|..]; cbn [dval Pos.of_uint Z.of_N];
    (match goal with |- dval d ?x = Zpos (Pos.of_uint_acc d ?y) => change x with (Zpos y) end); apply dval_pos.
Qed.

Lemma digits_unspaced d c : In c (list_ascii_of_string (DecimalString.NilEmpty.string_of_uint d)) -> is_space c = false.
Proof. induction d; cbn; [contradiction|..]; (intros [<-|H]; [reflexivity|exact (IHd H)]). Qed.
Lemma rstrip_unspaced s : (forall c, In c (list_ascii_of_string s) -> is_space c = false) -> rstrip s = s.
Proof.
  induction s as [|c t IH]; intros H; [reflexivity|]. cbn. rewrite IH by (intros; apply H; right; assumption).
  destruct t; [rewrite (H c) by (left; reflexivity); reflexivity|reflexivity].
Qed.
Lemma lstrip_unspaced s : (forall c, In c (list_ascii_of_string s) -> is_space c = false) -> lstrip s = s.
Proof. destruct s as [|c t]; intros H; [reflexivity|]. cbn. rewrite (H c) by (left; reflexivity). reflexivity. Qed.

Lemma py_int_pos p : py_int (zstr (Zpos p)) = Some (Zpos p).
Proof.
  unfold zstr. cbn [Z.to_int DecimalString.NilZero.string_of_int]. unfold DecimalString.NilZero.string_of_uint.
  assert (E : dval (Pos.to_uint p) 0 = Zpos p).
  { rewrite dval_of_uint. rewrite DecimalPos.Unsigned.of_to. reflexivity. }
  pose proof (DecimalPos.Unsigned.to_uint_nonnil p) as N.
  assert (F : py_int (DecimalString.NilEmpty.string_of_uint (Pos.to_uint p)) = Some (Zpos p)).
  { unfold py_int. rewrite lstrip_unspaced by apply digits_unspaced. rewrite rstrip_unspaced by apply digits_unspaced.
    rewrite <- E. rewrite <- (read_uint (Pos.to_uint p) 0 false) by (left; exact N).
    destruct (Pos.to_uint p); reflexivity. }
  destruct (Pos.to_uint p) eqn:D; [congruence|..]; exact F.
Qed.
Lemma py_int_zstr z : py_int (zstr z) = Some z.
Proof.
  destruct z as [|p|p]; [reflexivity|apply py_int_pos|].
  pose proof (py_int_pos p) as H. unfold zstr in *. cbn [Z.to_int DecimalString.NilZero.string_of_int] in *.
  unfold DecimalString.NilZero.string_of_uint in *. pose proof (DecimalPos.Unsigned.to_uint_nonnil p) as N.
  assert (U : forall d, d <> Decimal.Nil -> py_int (DecimalString.NilEmpty.string_of_uint d) = Some (Zpos p) ->
              py_int (String "-" (DecimalString.NilEmpty.string_of_uint d)) = Some (Zneg p)).
  { intros d Hd Hp. unfold py_int in *.
    rewrite lstrip_unspaced in * by (intros c Hc; apply (digits_unspaced d c Hc) || (destruct Hc as [<-|Hc]; [reflexivity|exact (digits_unspaced d c Hc)])).
    rewrite rstrip_unspaced in * by (intros c Hc; apply (digits_unspaced d c Hc) || (destruct Hc as [<-|Hc]; [reflexivity|exact (digits_unspaced d c Hc)])).
    cbn [option_map]. rewrite read_uint by (left; exact Hd). cbn.
    assert (Some (dval d 0) = Some (Zpos p)) as X.
    { rewrite <- Hp. rewrite <- (read_uint d 0 false) by (left; exact Hd). destruct d; reflexivity. }
    injection X as ->. reflexivity. }
  destruct (Pos.to_uint p) eqn:D; [congruence|..]; (apply U; [discriminate|exact H]).
Qed.

(** ** Reading a command line part by part *)

Definition closed_before (toks : list (string * token)) : Prop :=
  match toks with (_, Arg) :: _ => False | _ => True end.

(** The words [ws] are an option that takes the actions [acts]; if [open], words
    that are arguments would belong to it. *)
Definition reads (p : parser) (ws : list string) (acts : list (action * list string)) (open : bool) : Prop :=
  exists s a o eq e args, ws = s :: args /\ ~ In "--" ws /\
    parse_optional p s = Got (Opt (Some a) o eq e) /\
    (forall t, In t args -> parse_optional p t = Got Arg) /\
    (forall rest ns extras, (open = true -> closed_before rest) ->
       consume_optional p (Some a) o eq e (map (fun t => (t, Arg)) args ++ rest) ns extras
       = go ns' := take_actions acts ns in Got (ns', extras, rest)).

Lemma tokens_args p args rest : ~ In "--" args -> (forall t, In t args -> parse_optional p t = Got Arg) ->
  tokens p (args ++ rest) = go toks := tokens p rest in Got (map (fun t => (t, Arg)) args ++ toks).
Proof.
  induction args as [|t args IH]; intros D H; cbn [app map].
  - destruct (tokens p rest); reflexivity.
  - cbn [tokens]. destruct (String.eqb_spec t "--") as [->|N]; [exfalso; apply D; left; reflexivity|].
    rewrite (H t) by (left; reflexivity). cbn [obind]. rewrite IH.
    + destruct (tokens p rest); reflexivity.
    + intros X. apply D. right. exact X.
    + intros u U. apply H. right. exact U.
Qed.

Lemma tokens_reads p ws acts open : reads p ws acts open -> exists s a o eq e args,
  (forall rest, tokens p (ws ++ rest) =
     go toks := tokens p rest in Got ((s, Opt (Some a) o eq e) :: map (fun t => (t, Arg)) args ++ toks)) /\
  (forall rest ns extras, (open = true -> closed_before rest) ->
       consume_optional p (Some a) o eq e (map (fun t => (t, Arg)) args ++ rest) ns extras
       = go ns' := take_actions acts ns in Got (ns', extras, rest)).
Proof.
  intros (s & a & o & eq & e & args & -> & D & P & A & X). exists s, a, o, eq, e, args. split; [|exact X].
  intros rest. cbn [app tokens].
  destruct (String.eqb_spec s "--") as [->|N]; [exfalso; apply D; left; reflexivity|].
  rewrite P. cbn [obind]. rewrite tokens_args; [|intros Y; apply D; right; exact Y|exact A].
  destruct (tokens p rest); reflexivity.
Qed.

(** Parts in a row: their tokens, and reading them *)
Definition reads_all (p : parser) (l : list (list string * list (action * list string) * bool)) : Prop :=
  Forall (fun x => reads p (fst (fst x)) (snd (fst x)) (snd x)) l.

Lemma reads_row p l : reads_all p l -> exists toks,
  (forall rest, tokens p (flat_map (fun x => fst (fst x)) l ++ rest) = go r := tokens p rest in Got (toks ++ r)) /\
  List.length l <= List.length toks /\
  (l <> [] -> match toks with t :: _ => is_option t = true | [] => False end) /\
  (l = [] -> toks = []) /\
  (forall fuel rest pending ns extras, (last (map snd l) false = true -> closed_before rest) ->
     consume (List.length l + fuel) p (toks ++ rest) pending ns extras
     = go ns' := take_actions (flat_map (fun x => snd (fst x)) l) ns in consume fuel p rest pending ns' extras).
Proof.
  intros H. induction H as [|[[ws acts] open] l Hx Hl IH].
  - exists []. cbn. repeat split; auto; try lia; try congruence. intros rest. destruct (tokens p rest); reflexivity.
  - destruct IH as (toks & T & Len & Head & Nil & Run). cbn [fst snd] in Hx.
    destruct (tokens_reads p ws acts open Hx) as (s & a & o & eq & e & args & Tx & Rx).
    exists ((s, Opt (Some a) o eq e) :: map (fun t => (t, Arg)) args ++ toks). repeat split.
    + intros rest. cbn [flat_map fst snd]. rewrite <- app_assoc. rewrite Tx. rewrite T.
      destruct (tokens p rest); [|reflexivity]. cbn [obind app]. rewrite <- app_assoc. reflexivity.
    + cbn [List.length]. rewrite app_length. lia.
    + discriminate.
    + intros fuel rest pending ns extras C.
      cbn [List.length Nat.add app]. rewrite <- app_assoc. cbn [consume existsb is_option snd orb].
      rewrite Rx.
      * cbn [flat_map fst snd].
        assert (TA : forall l1 l2 ns, take_actions (l1 ++ l2) ns = go ns' := take_actions l1 ns in take_actions l2 ns').
        { induction l1 as [|[b x] l1 IH1]; intros l2 n0; [reflexivity|]. cbn [app take_actions].
          destruct (take_action b x n0); [|reflexivity]. cbn [obind]. apply IH1. }
        rewrite TA. destruct (take_actions acts ns) as [ns1|n]; [|reflexivity]. cbn [obind]. apply Run.
        intros Z. apply C. cbn [map snd]. destruct l; [discriminate Z|exact Z].
      * intros ->. destruct l as [|y l'].
        -- rewrite (Nil eq_refl). cbn [app]. apply C. reflexivity.
        -- assert (Hd := Head ltac:(discriminate)). destruct toks as [|[? []] ?]; try contradiction; cbn; auto; discriminate.
Qed.

Lemma take_actions_app l1 : forall l2 ns, take_actions (l1 ++ l2) ns = go ns' := take_actions l1 ns in take_actions l2 ns'.
Proof.
  induction l1 as [|[b x] l1 IH1]; intros l2 n0; [reflexivity|]. cbn [app take_actions].
  destruct (take_action b x n0); [|reflexivity]. cbn [obind]. apply IH1.
Qed.

Lemma consume_end fuel p ns pending extras : consume (S fuel) p [] pending ns extras = if pending || extras then Exit 2 else Got ns.
Proof.
  cbn [consume existsb]. unfold finish. cbn [match_positional skip_dashes].
  destruct pending; cbn [obind orb negb]; rewrite ?orb_false_r; reflexivity.
Qed.

Lemma existsb_head t (toks : list (string * token)) : is_option t = true -> existsb is_option (t :: toks) = true.
Proof. intros H. cbn. rewrite H. reflexivity. Qed.

(** Options, the positional argument, options *)
Lemma parse_line p l1 l2 name : reads_all p l1 -> reads_all p l2 ->
  name <> "--" -> parse_optional p name = Got Arg -> last (map snd l1) false = false ->
  parse_args p (flat_map (fun x => fst (fst x)) l1 ++ name :: flat_map (fun x => fst (fst x)) l2)
  = go ns := take_actions (flat_map (fun x => snd (fst x)) l1) (defaults p) in
    go ns := take_action (p_positional p) [name] ns in
    take_actions (flat_map (fun x => snd (fst x)) l2) ns.
Proof.
  intros H1 H2 Nn Pn O1. destruct (reads_row p l1 H1) as (t1 & T1 & Len1 & _ & _ & R1).
  destruct (reads_row p l2 H2) as (t2 & T2 & Len2 & Head2 & Nil2 & R2).
  unfold parse_args. rewrite T1. cbn [tokens]. destruct (String.eqb_spec name "--") as [E|_]; [contradiction|].
  rewrite Pn. cbn [obind]. specialize (T2 []). rewrite app_nil_r in T2. rewrite T2. cbn [tokens obind]. rewrite app_nil_r.
  set (N := S (List.length (t1 ++ (name, Arg) :: t2))).
  assert (exists k, N = List.length l1 + S (List.length l2 + S k)) as [k ->].
  { unfold N. rewrite app_length. cbn [List.length]. exists (List.length t1 + S (List.length t2) - List.length l1 - List.length l2 - 1). lia. }
  rewrite R1; [|rewrite O1; discriminate].
  destruct (take_actions (flat_map (fun x => snd (fst x)) l1) (defaults p)) as [ns|n]; [|reflexivity]. cbn [obind].
  specialize (R2 (S k) []). rewrite app_nil_r in R2.
  destruct l2 as [|x l2].
  - rewrite (Nil2 eq_refl). cbn [consume existsb is_option snd orb]. unfold finish. cbn [match_positional skip_dashes].
    destruct (take_action (p_positional p) [name] ns); cbn [obind flat_map take_actions]; reflexivity.
  - assert (Hd := Head2 ltac:(discriminate)). destruct t2 as [|[s tk] t2]; [contradiction|].
    change (consume (S (List.length (x :: l2) + S k)) p ((name, Arg) :: (s, tk) :: t2) true ns false) with
      (if existsb is_option ((s, tk) :: t2)
       then match match_positional ((name, Arg) :: (s, tk) :: t2) with
            | Some (s', rest) => go ns := take_action (p_positional p) [s'] ns in consume (List.length (x :: l2) + S k) p rest false ns false
            | None => match from_option ((s, tk) :: t2) with
                      | (_, Opt a o eq e) :: rest => go (ns, extras, rest) := consume_optional p a o eq e rest ns true in
                          consume (List.length (x :: l2) + S k) p rest true ns extras
                      | _ => Exit 99 end
            end
       else finish p ((name, Arg) :: (s, tk) :: t2) true ns false).
    rewrite existsb_head by exact Hd.
    assert (M : match_positional ((name, Arg) :: (s, tk) :: t2) = Some (name, (s, tk) :: t2)).
    { unfold match_positional. cbn [skip_dashes]. destruct tk; try discriminate. reflexivity. }
    rewrite M. destruct (take_action (p_positional p) [name] ns) as [ns1|n]; [|reflexivity]. cbn [obind].
    rewrite R2 by (intros _; exact I).
    destruct (take_actions (flat_map (fun x0 => snd (fst x0)) (x :: l2)) ns1) as [ns2|n]; [|reflexivity]. cbn [obind].
    rewrite consume_end. reflexivity.
Qed.

(** Options, two dashes, the positional argument *)
Lemma parse_line_dashes p l name : reads_all p l ->
  parse_args p (flat_map (fun x => fst (fst x)) l ++ ["--"; name])
  = go ns := take_actions (flat_map (fun x => snd (fst x)) l) (defaults p) in take_action (p_positional p) [name] ns.
Proof.
  intros H1. destruct (reads_row p l H1) as (t1 & T1 & Len1 & _ & _ & R1).
  unfold parse_args. rewrite T1. cbn [tokens map obind]. rewrite String.eqb_refl. cbn [obind].
  set (N := S (List.length (t1 ++ [("--", Dashes); (name, Arg)]))).
  assert (exists k, N = List.length l + S k) as [k ->].
  { unfold N. exists (List.length (t1 ++ [("--", Dashes); (name, Arg)]) - List.length l). rewrite app_length. lia. }
  rewrite R1 by (intros _; exact I).
  destruct (take_actions (flat_map (fun x => snd (fst x)) l) (defaults p)) as [ns|n]; [|reflexivity]. cbn [obind].
  cbn [consume existsb is_option snd orb]. unfold finish. cbn [match_positional skip_dashes].
  destruct (take_action (p_positional p) [name] ns); reflexivity.
Qed.

(** Options without the positional argument *)
Lemma parse_line_missing p l : reads_all p l ->
  parse_args p (flat_map (fun x => fst (fst x)) l)
  = go ns := take_actions (flat_map (fun x => snd (fst x)) l) (defaults p) in Exit 2.
Proof.
  intros H1. destruct (reads_row p l H1) as (t1 & T1 & Len1 & _ & _ & R1).
  unfold parse_args. specialize (T1 []). rewrite app_nil_r in T1. rewrite T1. cbn [tokens obind]. rewrite app_nil_r.
  specialize (R1 (S (List.length t1 - List.length l)) []). rewrite app_nil_r in R1.
  replace (S (List.length t1)) with (List.length l + S (List.length t1 - List.length l)) by lia.
  rewrite R1 by (intros _; exact I). destruct (take_actions _ _); [|reflexivity]. cbn [obind]. rewrite consume_end. reflexivity.
Qed.

(** ** The ways to write an option *)

Lemma reads_bare p s a o : s <> "--" -> parse_optional p s = Got (Opt (Some a) o false None) ->
  (exists c, a_arity a = At_most_one c) -> reads p [s] [(a, [])] true.
Proof.
  intros N P [c A]. exists s, a, o, false, None, []. split; [reflexivity|]. split; [intros [X|[]]; congruence|].
  split; [exact P|]. split; [intros t []|]. intros rest ns extras C. cbn [map app consume_optional obind].
  unfold match_argument. rewrite A. specialize (C eq_refl).
  destruct rest as [|[? []] ?]; cbn in C; try contradiction; reflexivity.
Qed.
Lemma reads_flag p s a o : s <> "--" -> parse_optional p s = Got (Opt (Some a) o false None) ->
  a_arity a = Nothing -> reads p [s] [(a, [])] false.
Proof.
  intros N P A. exists s, a, o, false, None, []. split; [reflexivity|]. split; [intros [X|[]]; congruence|].
  split; [exact P|]. split; [intros t []|]. intros rest ns extras C. cbn [map app consume_optional obind].
  unfold match_argument. rewrite A. reflexivity.
Qed.
Lemma reads_apart p s a o t : s <> "--" -> parse_optional p s = Got (Opt (Some a) o false None) ->
  (a_arity a = One \/ exists c, a_arity a = At_most_one c) -> t <> "--" -> parse_optional p t = Got Arg ->
  reads p [s; t] [(a, [t])] false.
Proof.
  intros N P A Nt T. exists s, a, o, false, None, [t]. split; [reflexivity|]. split; [intros [X|[X|[]]]; congruence|].
  split; [exact P|]. split; [intros u [<-|[]]; exact T|]. intros rest ns extras C. cbn [map app consume_optional obind].
  unfold match_argument. destruct A as [->|[c ->]]; reflexivity.
Qed.
Lemma reads_inside p s a o eq t : s <> "--" -> parse_optional p s = Got (Opt (Some a) o eq (Some t)) ->
  a_arity a <> Nothing -> reads p [s] [(a, [t])] false.
Proof.
  intros N P A. exists s, a, o, eq, (Some t), []. split; [reflexivity|]. split; [intros [X|[]]; congruence|].
  split; [exact P|]. split; [intros u []|]. intros rest ns extras C. cbn [map app consume_optional].
  assert (E : cluster p a (two_dashes o) eq t = Got ([], Value a t)).
  { destruct t; cbn [cluster]; destruct (a_arity a); try congruence; reflexivity. }
  rewrite E. reflexivity.
Qed.
Lemma reads_many p s a o ts : s <> "--" -> parse_optional p s = Got (Opt (Some a) o false None) ->
  a_arity a = One_or_more -> ts <> [] -> ~ In "--" ts -> (forall t, In t ts -> parse_optional p t = Got Arg) ->
  reads p (s :: ts) [(a, ts)] true.
Proof.
  intros N P A Ne Nt T. exists s, a, o, false, None, ts. split; [reflexivity|].
  split; [intros [X|X]; [congruence|contradiction]|].
  split; [exact P|]. split; [exact T|]. intros rest ns extras C. cbn [consume_optional obind].
  assert (LA : forall l r, closed_before r -> leading_args (map (fun t => (t, Arg)) l ++ r) = (l, r)).
  { induction l as [|x l IH]; intros r Cr.
    - cbn. destruct r as [|[? []] ?]; cbn in Cr; try contradiction; reflexivity.
    - cbn. rewrite IH by exact Cr. reflexivity. }
  assert (LB := LA ts rest (C eq_refl)). unfold match_argument. rewrite A. destruct ts as [|t ts]; [congruence|].
  cbn [map app] in *. rewrite LB. reflexivity.
Qed.

(** Several letters: flags, then nothing or an option with its value *)
Lemma reads_letters p w a o l last_acts e : w <> "--" -> parse_optional p w = Got (Opt (Some a) o false (Some e)) ->
  two_dashes o = false ->
  ((exists b, cluster p a false false e = Got (l, Follow b) /\ a_arity b = Nothing /\ last_acts = [(b, [])]) \/
   (exists b t, cluster p a false false e = Got (l, Value b t) /\ last_acts = [(b, [t])])) ->
  reads p [w] (map (fun f => (f, [])) l ++ last_acts) false.
Proof.
  intros N P D H. exists w, a, o, false, (Some e), []. split; [reflexivity|]. split; [intros [X|[]]; congruence|].
  split; [exact P|]. split; [intros u []|]. intros rest ns extras C. cbn [map app consume_optional]. rewrite D.
  destruct H as [(b & -> & A & ->)|(b & t & -> & ->)]; cbn [obind]; [|reflexivity].
  unfold match_argument. rewrite A. cbn [obind]. reflexivity.
Qed.

(** ** Names of options *)

(** The options of the parser are the long ones and single letters. *)
Record well_named (p : parser) (longs : list string) : Prop := {
  wn_all : forall o, In o (all_options p) ->
    In o longs \/ exists c, o = String "-" (String c "") /\ c <> "-"%char /\ c <> "="%char /\ c <> "."%char /\ is_digit c = false;
  wn_long : forall o, In o longs -> In o (all_options p) /\ partition_eq o = (o, None) /\
              exists c u, o = String "-" (String "-" (String c u));
  wn_once : NoDup (all_options p);
  wn_two : forall long, exists other, In other longs /\ other <> long }.

Lemma str_in_In s l : str_in s l = true <-> In s l.
Proof.
  unfold str_in. rewrite existsb_exists. split.
  - intros (x & I & E). apply String.eqb_eq in E. subst. exact I.
  - intros I. exists s. split; [exact I|apply String.eqb_refl].
Qed.

Lemma find_option_In p o a : find_option p o = Some a -> In a (p_options p) /\ In o (a_options a) /\ In o (all_options p).
Proof.
  intros H. apply find_some in H. destruct H as [I E]. apply str_in_In in E. repeat split; auto.
  unfold all_options. apply in_flat_map. exists a. auto.
Qed.
Lemma find_option_None p o : find_option p o = None <-> ~ In o (all_options p).
Proof.
  split.
  - intros H I. apply in_flat_map in I. destruct I as (a & Ia & Io). unfold find_option in H.
    assert (X := find_none _ _ H a Ia). cbn in X. rewrite (proj2 (str_in_In _ _) Io) in X. discriminate.
  - intros H. destruct (find_option p o) eqn:E; [|reflexivity]. apply find_option_In in E. tauto.
Qed.

Lemma flat_map_unique {A B} (f : A -> list B) x y l : NoDup l -> In x l -> f x = [y] ->
  (forall z, In z l -> z <> x -> f z = []) -> flat_map f l = [y].
Proof.
  intros N I E Z. induction l as [|z l IH]; [destruct I|]. inversion N; subst. cbn [flat_map].
  assert (Nil : forall m, (forall z, In z m -> f z = []) -> flat_map f m = []).
  { induction m as [|w m IHm]; intros Hm; [reflexivity|]. cbn. rewrite Hm by (left; reflexivity).
    apply IHm. intros v Iv. apply Hm. right. exact Iv. }
  destruct I as [->|I].
  - rewrite E. rewrite Nil; [reflexivity|]. intros w Iw. apply Z; [right; exact Iw|]. intros ->. contradiction.
  - rewrite (Z z) by (try (left; reflexivity); intros ->; contradiction). cbn. apply IH; auto.
    intros w Iw Nw. apply Z; [right; exact Iw|exact Nw].
Qed.

Lemma prefix_refl s : prefix s s = true.
Proof. induction s as [|c s IH]; cbn; [reflexivity|]. destruct (ascii_dec c c); [exact IH|congruence]. Qed.

Lemma prefix_app s : forall u, prefix s u = true -> exists v, u = (s ++ v)%string.
Proof.
  induction s as [|c s IH]; intros u H; [exists u; reflexivity|]. destruct u as [|d u]; [discriminate|].
  cbn in H. destruct (ascii_dec c d) as [->|]; [|discriminate]. destruct (IH u H) as [v ->]. exists v. reflexivity.
Qed.

Lemma partition_prefix s : forall v, partition_eq (s ++ v) = ((s ++ v)%string, None) -> partition_eq s = (s, None).
Proof.
  induction s as [|c s IH]; intros v H; [reflexivity|]. cbn [append partition_eq] in *.
  destruct (Ascii.eqb c "="); [discriminate|]. destruct (partition_eq (s ++ v)) as [x y] eqn:E.
  injection H as -> ->. rewrite (IH v E). reflexivity.
Qed.
Lemma partition_join s t : partition_eq s = (s, None) -> partition_eq (s ++ String "=" t) = (s, Some t).
Proof.
  induction s as [|c s IH]; intros H; [reflexivity|]. cbn [append partition_eq] in *.
  destruct (Ascii.eqb c "="); [discriminate|]. destruct (partition_eq s) as [x y] eqn:E.
  injection H as -> ->. rewrite (IH eq_refl). reflexivity.
Qed.
Lemma partition_none s x : partition_eq s = (x, None) -> x = s.
Proof.
  revert x. induction s as [|c s IH]; intros x H; [injection H as <-; reflexivity|]. cbn [partition_eq] in H.
  destruct (Ascii.eqb c "="); [discriminate|]. destruct (partition_eq s) as [y z]. injection H as <- ->.
  rewrite (IH y eq_refl). reflexivity.
Qed.
Lemma partition_some s x t : partition_eq s = (x, Some t) -> s = (x ++ String "=" t)%string /\ partition_eq x = (x, None).
Proof.
  revert x. induction s as [|c s IH]; intros x H; [discriminate|]. cbn [partition_eq] in H.
  destruct (Ascii.eqb_spec c "=") as [->|N].
  - injection H as <- ->. split; reflexivity.
  - destruct (partition_eq s) as [y z]. injection H as <- ->. destruct (IH y eq_refl) as [-> E].
    split; [reflexivity|]. cbn [partition_eq]. apply Ascii.eqb_neq in N. rewrite N. rewrite E. reflexivity.
Qed.

Section Named.
  Variables (p : parser) (longs : list string).
  Hypothesis W : well_named p longs.

  Lemma known_no_eq o : In o (all_options p) -> partition_eq o = (o, None).
  Proof.
    intros I. destruct (wn_all _ _ W o I) as [L|(c & -> & _ & N & _)].
    - apply (wn_long _ _ W o L).
    - cbn [partition_eq]. apply Ascii.eqb_neq in N. rewrite N. reflexivity.
  Qed.
  Lemma joined_unknown o t : find_option p (o ++ String "=" t) = None.
  Proof.
    apply find_option_None. intros I. apply known_no_eq in I.
    apply partition_prefix with (s := (o ++ "=")%string) (v := t) in I || idtac.
    revert I. induction o as [|c o IH]; [discriminate|]. cbn [append partition_eq]. destruct (Ascii.eqb c "="); [discriminate|].
    destruct (partition_eq (o ++ String "=" t)) as [x y] eqn:E. intros H. injection H as -> ->. apply IH. reflexivity.
  Qed.

  (** A long option or an abbreviation of it, a letter *)
  Lemma name_word a long short o : find_option p long = Some a -> find_option p short = Some a -> In long longs ->
    names_option longs long short o ->
    o <> "--" /\ (exists o', parse_optional p o = Got (Opt (Some a) o' false None)) /\
    (forall t, (o ++ String "=" t)%string <> "--" /\ exists o', parse_optional p (o ++ String "=" t) = Got (Opt (Some a) o' true (Some t))).
  Proof.
    intros Fl Fs Il H.
    assert (Exact : forall x, find_option p x = Some a -> x <> "--" /\
      (exists o', parse_optional p x = Got (Opt (Some a) o' false None)) /\
      (forall t, (x ++ String "=" t)%string <> "--" /\ exists o', parse_optional p (x ++ String "=" t) = Got (Opt (Some a) o' true (Some t)))).
    { intros x Fx. assert (Ix := proj2 (proj2 (find_option_In _ _ _ Fx))).
      assert (exists d y, x = String "-" (String d y) /\ x <> "--") as (d & y & Ex & Nx).
      { destruct (wn_all _ _ W x Ix) as [L|(c & -> & N & _)].
        - destruct (wn_long _ _ W x L) as (_ & _ & c & u & ->). exists "-"%char, (String c u). split; [reflexivity|discriminate].
        - exists c, "". split; [reflexivity|]. intros X. injection X as ->. apply N. reflexivity. }
      split; [exact Nx|]. split.
      - exists x. unfold parse_optional. rewrite Ex. cbn [Ascii.eqb Bool.eqb negb]. rewrite <- Ex. rewrite Fx. reflexivity.
      - intros t. split.
        + rewrite Ex. destruct y; discriminate.
        + exists x. unfold parse_optional. rewrite Ex. cbn [append]. cbn [Ascii.eqb Bool.eqb negb].
          change (String "-" (String d (y ++ String "=" t))) with (String "-" (String d y) ++ String "=" t)%string.
          rewrite <- Ex. rewrite joined_unknown. rewrite (partition_join x t (known_no_eq x Ix)).
          change (String.eqb (String d (y ++ String "=" t)) "") with false. cbv iota. rewrite Fx. reflexivity. }
    destruct H as [->|[->|(H2 & Hl & Hu)]]; [apply Exact; exact Fl|apply Exact; exact Fs|].
    destruct (find_option p o) as [b|] eqn:Fo.
    - assert (Io := proj2 (proj2 (find_option_In _ _ _ Fo))).
      assert (In o longs) as Lo.
      { destruct (wn_all _ _ W o Io) as [L|(c & -> & N & _)]; [exact L|]. exfalso.
        destruct (prefix_app _ _ H2) as [v Ev]. cbn [append] in Ev. injection Ev as -> _. apply N. reflexivity. }
      destruct (String.eqb_spec o long) as [->|N]; [apply Exact; exact Fl|].
      exfalso. specialize (Hu o Lo N). rewrite prefix_refl in Hu. discriminate.
    - destruct (wn_long _ _ W long Il) as (Ia & El & _).
      assert (Eo : partition_eq o = (o, None)).
      { destruct (prefix_app o long Hl) as [v Ev]. apply (partition_prefix o v). rewrite <- Ev. exact El. }
      destruct (prefix_app _ _ H2) as [u Eu].
      assert (No : o <> "--").
      { intros X. subst o. destruct (wn_two _ _ W long) as (other & I & N). specialize (Hu other I N).
        destruct (wn_long _ _ W other I) as (_ & _ & c & v & ->).
        assert (T : prefix "--" (String "-" (String "-" (String c v))) = true) by reflexivity. congruence. }
      cbn [append] in Eu. assert (Nu : u <> "") by (intros ->; apply No; exact Eu).
      assert (Tup : forall b e, flat_map (fun known => if prefix o known then [Opt (find_option p known) known b e] else [])
                                  (all_options p) = [Opt (Some a) long b e]).
      { intros b e. apply (flat_map_unique _ long); [apply (wn_once _ _ W)|exact Ia| |].
        - rewrite Hl, Fl. reflexivity.
        - intros z Iz Nz. destruct (wn_all _ _ W z Iz) as [L|(c & -> & N & _)].
          + rewrite (Hu z L Nz). reflexivity.
          + destruct (prefix o (String "-" (String c ""))) eqn:Pz; [|reflexivity]. exfalso.
            destruct (prefix_app _ _ Pz) as [v Ev]. rewrite Eu in Ev. cbn [append] in Ev. injection Ev as -> _.
            apply N. reflexivity. }
      split; [exact No|]. split.
      + exists long. unfold parse_optional. rewrite Eu. cbn [Ascii.eqb Bool.eqb negb String.eqb]. rewrite <- Eu. rewrite Fo, Eo.
        rewrite Eu at 1. cbn [option_tuples]. rewrite <- Eu. rewrite Eo. cbv iota. rewrite Tup. reflexivity.
      + intros t. split; [rewrite Eu; destruct u; [congruence|discriminate]|].
        exists long. unfold parse_optional. rewrite Eu. cbn [append]. cbn [Ascii.eqb Bool.eqb negb String.eqb].
        change (String "-" (String "-" (u ++ String "=" t))) with (String "-" (String "-" u) ++ String "=" t)%string.
        rewrite <- Eu. rewrite joined_unknown. rewrite (partition_join o t Eo). rewrite Fo.
        rewrite Eu at 1. cbn [append option_tuples].
        change (String "-" (String "-" (u ++ String "=" t))) with (String "-" (String "-" u) ++ String "=" t)%string.
        rewrite <- Eu. rewrite (partition_join o t Eo). cbv iota. rewrite Tup. reflexivity.
  Qed.

  (** A word of letters that is not an option itself *)
  Lemma letters_word a c s : find_option p (String "-" (String c "")) = Some a -> c <> "-"%char ->
    s <> "" -> (forall u, s <> String "=" u) ->
    String "-" (String c s) <> "--" /\
    parse_optional p (String "-" (String c s)) = Got (Opt (Some a) (String "-" (String c "")) false (Some s)).
  Proof.
    intros F N Ns Es. split; [intros X; injection X as ->; congruence|].
    assert (U : forall v, v <> "" -> find_option p (String "-" (String c v)) = None).
    { intros v Nv. apply find_option_None. intros I. destruct (wn_all _ _ W _ I) as [L|(d & E & _)].
      - destruct (wn_long _ _ W _ L) as (_ & _ & d & w & E). injection E as E _. congruence.
      - injection E as _ E. congruence. }
    unfold parse_optional. cbn [Ascii.eqb Bool.eqb negb]. rewrite U by exact Ns. cbn [String.eqb].
    destruct (partition_eq (String "-" (String c s))) as [o e] eqn:P.
    assert (Fo : e = None \/ find_option p o = None).
    { destruct e as [t|]; [|left; reflexivity]. right. destruct (partition_some _ _ _ P) as [E _].
      destruct o as [|x [|y o]]; [discriminate| |].
      - apply find_option_None. intros I. destruct (wn_all _ _ W _ I) as [L|(d & D & _)]; [|discriminate].
        destruct (wn_long _ _ W _ L) as (_ & _ & d & w & D). discriminate.
      - cbn [append] in E. injection E as <- <- Er. apply U. intros ->. cbn in Er. apply (Es t). exact Er. }
    assert (Ot : option_tuples p (String "-" (String c s)) = [Opt (Some a) (String "-" (String c "")) false (Some s)]).
    { assert (O : option_tuples p (String "-" (String c s)) =
                  flat_map (fun known => if String.eqb known (String "-" (String c ""))
                             then [Opt (find_option p known) known false (Some s)]
                             else if prefix (String "-" (String c s)) known then [Opt (find_option p known) known false None]
                             else []) (all_options p)).
      { unfold option_tuples. destruct c as [[] [] [] [] [] [] [] []]; try reflexivity. congruence. }
      rewrite O. apply (flat_map_unique _ (String "-" (String c ""))); [apply (wn_once _ _ W)|apply (find_option_In _ _ _ F)| |].
      - rewrite String.eqb_refl, F. reflexivity.
      - intros z Iz Nz. apply String.eqb_neq in Nz. rewrite Nz. apply String.eqb_neq in Nz.
        destruct (prefix (String "-" (String c s)) z) eqn:Pz; [|reflexivity]. exfalso.
        destruct (prefix_app _ _ Pz) as [v Ev]. cbn [append] in Ev. subst z.
        apply (proj1 (find_option_None p (String "-" (String c (s ++ v))))); [|exact Iz]. apply U. destruct s; [congruence|discriminate]. }
    rewrite Ot. destruct e as [t|]; [|reflexivity]. destruct Fo as [Fo|Fo]; [discriminate|]. rewrite Fo. reflexivity.
  Qed.

  (** Words that are arguments *)
  Lemma digits_all s : digits s -> all_digits s = true.
  Proof.
    unfold digits. induction s as [|c s IH]; intros H; [reflexivity|]. cbn in H. inversion H; subst. cbn.
    rewrite IH by assumption. rewrite andb_true_r. cbn in H2. repeat (destruct H2 as [<-|H2]; [reflexivity|]). destruct H2.
  Qed.
  Lemma all_digits_no_eq s : all_digits s = true -> partition_eq s = (s, None).
  Proof.
    induction s as [|c s IH]; intros H; [reflexivity|]. cbn in H. apply andb_true_iff in H. destruct H as [Hc H].
    cbn [partition_eq]. rewrite IH by exact H. destruct (Ascii.eqb_spec c "=") as [->|]; [discriminate|reflexivity].
  Qed.
  Lemma decimals_no_eq s : decimals s = true -> partition_eq s = (s, None).
  Proof.
    induction s as [|c s IH]; intros H; [discriminate|]. cbn in H. cbn [partition_eq].
    destruct (Ascii.eqb_spec c ".") as [->|Nc].
    - cbn. apply andb_true_iff in H. rewrite all_digits_no_eq by apply H. reflexivity.
    - apply andb_true_iff in H. destruct H as [Hc H]. rewrite IH by exact H.
      destruct (Ascii.eqb_spec c "=") as [->|]; [discriminate|reflexivity].
  Qed.

  Lemma plain_word t : plain t -> parse_optional p t = Got Arg /\ t <> "--".
  Proof.
    intros [H|(a & b & Da & Db & Nb & H)].
    - split; [|apply H]. destruct t as [|c t]; [reflexivity|]. unfold parse_optional.
      destruct (Ascii.eqb_spec c "-") as [->|]; [exfalso; apply (H t); reflexivity|reflexivity].
    - assert (exists c u, t = String "-" (String c u) /\ (is_digit c = true \/ c = "."%char) /\
                negative_number t = true /\ partition_eq t = (t, None)) as (c & u & -> & Hc & Neg & Eq).
      { apply digits_all in Da, Db.
        assert (Sb : some_digits b = true).
        { unfold some_digits. rewrite Db. apply String.eqb_neq in Nb. rewrite Nb. reflexivity. }
        assert (Eb := all_digits_no_eq b Db).
        assert (De : forall a, all_digits a = true -> decimals (a ++ String "." b) = true).
        { clear a Da H. induction a as [|c a IH]; intros Da; [cbn; exact Sb|]. cbn in Da. apply andb_true_iff in Da.
          cbn [append decimals]. destruct (Ascii.eqb_spec c ".") as [->|]; [destruct Da; discriminate|].
          rewrite (IH (proj2 Da)), (proj1 Da). reflexivity. }
        destruct H as [-> | ->].
        - destruct b as [|c b]; [congruence|]. exists c, b. cbn in Db. apply andb_true_iff in Db.
          split; [reflexivity|]. split; [left; apply Db|]. cbn [append]. split.
          + unfold negative_number. rewrite Sb. reflexivity.
          + change (partition_eq (String "-" (String c b))) with (let (x, y) := partition_eq (String c b) in (String "-" x, y)).
            rewrite Eb. reflexivity.
        - assert (D := De a Da). cbn [append] in *.
          assert (Q : partition_eq (String "-" (a ++ String "." b)) = (String "-" (a ++ String "." b), None)).
          { change (partition_eq (String "-" (a ++ String "." b))) with (let (x, y) := partition_eq (a ++ String "." b) in (String "-" x, y)).
            rewrite decimals_no_eq by exact D. reflexivity. }
          assert (Ng : negative_number (String "-" (a ++ String "." b)) = true).
          { unfold negative_number. rewrite D. apply orb_true_r. }
          destruct a as [|c a].
          + exists "."%char, b. repeat split; auto.
          + exists c, (a ++ String "." b)%string. cbn in Da. apply andb_true_iff in Da. repeat split; auto. left. apply Da. }
      assert (Nc : c <> "-"%char) by (intros ->; destruct Hc as [Hc|Hc]; discriminate).
      split; [|intros X; injection X as -> _; congruence].
      assert (U : forall v, ~ In (String "-" (String c v)) (all_options p)).
      { intros v I. destruct (wn_all _ _ W _ I) as [L|(d & E & _ & _ & Nd & Dd)].
        - destruct (wn_long _ _ W _ L) as (_ & _ & d & w & E). injection E as E _. congruence.
        - injection E as -> _. destruct Hc as [Hc|Hc]; congruence. }
      unfold parse_optional. cbn [Ascii.eqb Bool.eqb negb String.eqb]. rewrite (proj2 (find_option_None _ _) (U u)).
      rewrite Eq.
      assert (Ot : option_tuples p (String "-" (String c u)) = []).
      { assert (O : option_tuples p (String "-" (String c u)) =
                  flat_map (fun known => if String.eqb known (String "-" (String c ""))
                             then [Opt (find_option p known) known false (Some u)]
                             else if prefix (String "-" (String c u)) known then [Opt (find_option p known) known false None]
                             else []) (all_options p)).
        { unfold option_tuples. destruct c as [[] [] [] [] [] [] [] []]; try reflexivity. congruence. }
        rewrite O. assert (Nil : forall m, (forall z, In z m -> In z (all_options p)) ->
          flat_map (fun known => if String.eqb known (String "-" (String c ""))
                             then [Opt (find_option p known) known false (Some u)]
                             else if prefix (String "-" (String c u)) known then [Opt (find_option p known) known false None]
                             else []) m = []).
        { induction m as [|z m IH]; intros Hm; [reflexivity|]. cbn [flat_map]. rewrite IH by (intros v Iv; apply Hm; right; exact Iv).
          assert (Iz := Hm z (or_introl eq_refl)).
          destruct (String.eqb_spec z (String "-" (String c ""))) as [->|Nz]; [exfalso; apply (U ""); exact Iz|].
          destruct (prefix (String "-" (String c u)) z) eqn:Pz; [|reflexivity]. exfalso.
          destruct (prefix_app _ _ Pz) as [v Ev]. cbn [append] in Ev. subst z. apply (U _ Iz). }
        apply Nil. auto. }
      rewrite Ot, Neg. reflexivity.
  Qed.

  (** ** Parts *)
  Variables (a : action) (long : string) (c : ascii).
  Let short := String "-" (String c "").
  Hypotheses (Fl : find_option p long = Some a) (Fs : find_option p short = Some a) (Il : In long longs)
    (Nc : c <> "-"%char).

  Lemma part_inside says ws : a_arity a <> Nothing -> inside longs long short says ws ->
    exists t, says t /\ reads p ws [(a, [t])] false.
  Proof.
    intros A [(w & -> & t & -> & Nt & Et & Sy)|(o & t & -> & No & Sy)]; exists t; (split; [exact Sy|]).
    - unfold short. cbn [append]. destruct (letters_word a c t Fs Nc Nt Et) as [D P].
      apply (reads_inside p _ a _ false t D P A).
    - destruct (name_word a long short o Fl Fs Il No) as (_ & _ & H). destruct (H t) as [D [o' P]].
      cbn [append]. apply (reads_inside p _ a o' true t D P A).
  Qed.
  Lemma part_value says ws : (a_arity a = One \/ exists d, a_arity a = At_most_one d) ->
    with_value longs long short says ws -> exists t, says t /\ reads p ws [(a, [t])] false.
  Proof.
    intros A [H|(o & t & -> & No & Pt & Sy)].
    - apply (part_inside says ws); [|exact H]. destruct A as [->|[d ->]]; discriminate.
    - exists t. split; [exact Sy|]. destruct (name_word a long short o Fl Fs Il No) as (D & [o' P] & _).
      destruct (plain_word t Pt) as [T Nt]. apply (reads_apart p o a o' t); assumption.
  Qed.
  Lemma part_bare ws : (exists d, a_arity a = At_most_one d) -> alone longs long short ws -> reads p ws [(a, [])] true.
  Proof.
    intros A (o & -> & No). destruct (name_word a long short o Fl Fs Il No) as (D & [o' P] & _).
    apply (reads_bare p o a o'); assumption.
  Qed.
  Lemma part_flag ws : a_arity a = Nothing -> alone longs long short ws -> reads p ws [(a, [])] false.
  Proof.
    intros A (o & -> & No). destruct (name_word a long short o Fl Fs Il No) as (D & [o' P] & _).
    apply (reads_flag p o a o'); assumption.
  Qed.
  Lemma part_values {A} (says : A -> string -> Prop) xs ws : a_arity a = One_or_more ->
    with_values longs long short says xs ws -> exists ts, Forall2 says xs ts /\ ts <> [] /\ reads p ws [(a, ts)] true.
  Proof.
    intros Ar (Nx & o & ts & -> & No & Pt & Sy). exists ts. split; [exact Sy|].
    assert (Nt : ts <> []) by (intros ->; inversion Sy; subst; apply Nx; reflexivity). split; [exact Nt|].
    destruct (name_word a long short o Fl Fs Il No) as (D & [o' P] & _). rewrite Forall_forall in Pt.
    apply (reads_many p o a o' ts); try assumption.
    - intros I. apply (plain_word _ (Pt _ I)). reflexivity.
    - intros t I. apply plain_word. apply Pt. exact I.
  Qed.
End Named.

(** Words of letters *)
Definition flag_letter (p : parser) (x : action * ascii) : Prop :=
  find_option p (String "-" (String (snd x) "")) = Some (fst x) /\ a_arity (fst x) = Nothing /\
  snd x <> "-"%char /\ snd x <> "="%char.
Definition letters_of (l : list (action * ascii)) : string := string_of_list_ascii (map snd l).

Lemma cluster_step p a b c d rest : a_arity a = Nothing -> find_option p (String "-" (String c "")) = Some b ->
  c <> "-"%char -> d <> "="%char ->
  cluster p a false false (String c (String d rest))
  = go (l, last) := cluster p b false false (String d rest) in Got (a :: l, last).
Proof.
  intros A F N E. remember (cluster p b false false (String d rest)) as x eqn:Ex.
  apply Ascii.eqb_neq in N, E. cbn [cluster]. rewrite A. cbn [orb]. rewrite N, F, E. rewrite Ex. reflexivity.
Qed.

Lemma cluster_flags p l : Forall (flag_letter p) l -> l <> [] -> forall a, a_arity a = Nothing ->
  exists fl b, cluster p a false false (letters_of l) = Got (fl, Follow b) /\ a_arity b = Nothing /\
    map (fun f => (f, @nil string)) fl ++ [(b, [])] = (a, []) :: map (fun x => (fst x, [])) l.
Proof.
  induction 1 as [|[b c] l (F & A & N1 & N2) Hl IH]; intros Ne a Aa; [congruence|]. cbn [fst snd] in *.
  unfold letters_of. cbn [map string_of_list_ascii snd].
  destruct l as [|[b' c'] l].
  - exists [a], b. cbn [cluster map string_of_list_ascii]. rewrite Aa. cbn [orb]. apply Ascii.eqb_neq in N1. rewrite N1, F.
    repeat split; auto.
  - destruct (IH ltac:(discriminate) b A) as (fl & d & E & Ad & M). exists (a :: fl), d.
    inversion Hl as [|? ? (F' & A' & N1' & N2') Hl']; subst. cbn [fst snd] in *.
    unfold letters_of in E. cbn [map string_of_list_ascii snd] in E. cbn [map string_of_list_ascii snd].
    rewrite (cluster_step p a b) by assumption. rewrite E. cbn [obind].
    split; [reflexivity|]. split; [exact Ad|]. cbn [map app fst]. rewrite M. reflexivity.
Qed.

Lemma cluster_value p b c t : find_option p (String "-" (String c "")) = Some b -> a_arity b <> Nothing ->
  c <> "-"%char -> c <> "="%char -> t <> "" -> (forall u, t <> String "=" u) ->
  forall l, Forall (flag_letter p) l -> forall a, a_arity a = Nothing ->
  cluster p a false false (letters_of l ++ String c t) = Got (a :: map fst l, Value b t).
Proof.
  intros F A N1 N2 Nt Et. induction 1 as [|[d e] l (Fd & Ad & D1 & D2) Hl IH]; intros a Aa; cbn [fst snd] in *.
  - cbn [letters_of map string_of_list_ascii append cluster fst]. rewrite Aa. cbn [orb]. apply Ascii.eqb_neq in N1. rewrite N1, F.
    destruct t as [|x t]; [congruence|]. destruct (Ascii.eqb_spec x "=") as [->|Nx]; [exfalso; apply (Et t); reflexivity|].
    cbn [cluster]. destruct (a_arity b); try congruence; reflexivity.
  - specialize (IH d Ad). unfold letters_of in *. cbn [map string_of_list_ascii append snd fst].
    destruct (string_of_list_ascii (map snd l) ++ String c t)%string as [|x rest] eqn:E.
    + destruct l; discriminate.
    + assert (Nx : x <> "="%char).
      { destruct l as [|[d' e'] l].
        - cbn in E. injection E as <- _. exact N2.
        - cbn in E. injection E as <- _. inversion Hl as [|? ? H0 ?]; subst. apply H0. }
      rewrite (cluster_step p a d) by assumption. rewrite IH. reflexivity.
Qed.

Section Letters.
  Variables (p : parser) (longs : list string).
  Hypothesis W : well_named p longs.

  Lemma part_letters l : l <> [] -> Forall (flag_letter p) l ->
    reads p [String "-" (letters_of l)] (map (fun x => (fst x, [])) l) false.
  Proof.
    intros Ne H. destruct l as [|[a c] l]; [congruence|]. inversion H as [|? ? (F & A & N1 & N2) Hl]; subst. cbn [fst snd] in *.
    destruct l as [|y l'].
    - cbn [letters_of map string_of_list_ascii snd fst]. apply (reads_flag p _ a (String "-" (String c ""))); [|  |exact A].
      + intros X. injection X as ->. congruence.
      + unfold parse_optional. cbn [Ascii.eqb Bool.eqb negb]. rewrite F. reflexivity.
    - set (l := y :: l') in *. assert (Nl : l <> []) by discriminate.
      destruct (letters_word p longs W a c (letters_of l) F N1) as [D P].
      + unfold l. discriminate.
      + intros u E. inversion Hl as [|? ? (Fy & Ay & Y1 & Y2) ?]; subst. unfold l in E. cbn in E. injection E as E _. congruence.
      + destruct (cluster_flags p l Hl Nl a A) as (fl & b & E & Ab & M).
        cbn [map fst]. rewrite <- M.
        apply (reads_letters p _ a (String "-" (String c "")) fl [(b, [])] (letters_of l) D P).
        * destruct c as [[] [] [] [] [] [] [] []]; try reflexivity; congruence.
        * left. exists b. auto.
  Qed.

  Lemma part_letters_value l b c t : Forall (flag_letter p) l ->
    find_option p (String "-" (String c "")) = Some b -> a_arity b <> Nothing ->
    c <> "-"%char -> c <> "="%char -> t <> "" -> (forall u, t <> String "=" u) ->
    reads p [String "-" (letters_of l ++ String c t)] (map (fun x => (fst x, [])) l ++ [(b, [t])]) false.
  Proof.
    intros H F A N1 N2 Nt Et. destruct l as [|[a e] l].
    - cbn [letters_of map string_of_list_ascii append app]. destruct (letters_word p longs W b c t F N1 Nt Et) as [D P].
      apply (reads_inside p _ b _ false t D P A).
    - inversion H as [|? ? (Fa & Aa & E1 & E2) Hl]; subst. cbn [fst snd] in *.
      assert (Cl := cluster_value p b c t F A N1 N2 Nt Et l Hl a Aa).
      change (letters_of ((a, e) :: l) ++ String c t)%string with (String e (letters_of l ++ String c t)).
      destruct (letters_word p longs W a e (letters_of l ++ String c t) Fa E1) as [D P].
      + destruct (letters_of l); discriminate.
      + intros u E. destruct l as [|[d f] l].
        * cbn in E. injection E as E _. congruence.
        * cbn in E. injection E as E _. inversion Hl as [|? ? (_ & _ & _ & X) ?]; subst. apply X. reflexivity.
      + assert (M : map (fun x => (fst x, @nil string)) ((a, e) :: l) = map (fun f => (f, [])) (a :: map fst l)).
        { cbn [map fst]. rewrite map_map. reflexivity. }
        rewrite M.
        apply (reads_letters p _ a (String "-" (String e "")) (a :: map fst l) [(b, [t])] (letters_of l ++ String c t) D P).
        * destruct e as [[] [] [] [] [] [] [] []]; try reflexivity; congruence.
        * right. exists b, t. auto.
  Qed.
End Letters.

(** ** Every outcome *)

(** What the parser can come to: a status of 0 or 2, or a namespace with [P] *)
Definition fine {A} (P : A -> Prop) (x : out A) : Prop := match x with Got a => P a | Exit n => n = 0%Z \/ n = 2%Z end.

Lemma fine_bind {A B} (P : A -> Prop) (Q : B -> Prop) (x : out A) (f : A -> out B) :
  fine P x -> (forall a, P a -> fine Q (f a)) -> fine Q (obind x f).
Proof. destruct x; cbn; auto. Qed.

Lemma convert_fine a s : fine (fun v => a_type a s = Some v /\ forall l, a_choices a = Some l -> exists t, v = VStr t /\ In t l) (convert a s).
Proof.
  unfold convert. destruct (a_type a s) as [v|]; [|right; reflexivity]. destruct (a_choices a) as [l|]; cbn.
  - destruct v; cbn; auto. destruct (str_in s0 l) eqn:E; cbn; auto. apply str_in_In in E. split; [reflexivity|].
    intros l' H. injection H as <-. exists s0. auto.
  - split; [reflexivity|discriminate].
Qed.
Lemma convert_all_fine a l : fine (fun vs => Forall2 (fun s v => a_type a s = Some v) l vs) (convert_all a l).
Proof.
  induction l as [|s l IH]; cbn; [constructor|].
  apply (fine_bind _ _ _ _ (convert_fine a s)). intros v [Hv _]. apply (fine_bind _ _ _ _ IH). intros vs Hvs.
  cbn. constructor; assumption.
Qed.

(** The arguments have been counted. *)
Definition counted (a : action) (args : list string) : Prop :=
  match a_arity a with
  | Nothing => args = [] | One => exists s, args = [s] | At_most_one _ => args = [] \/ exists s, args = [s]
  | One_or_more => args <> []
  end.

Section Outcomes.
  Variables (p : parser) (P : bool -> namespace -> Prop).      (* by whether the argument is still missing *)
  Hypothesis HP : forall a args ns b, In a (p_options p) -> counted a args -> P b ns -> fine (P b) (take_action a args ns).
  Hypothesis HQ : forall s ns, P true ns -> fine (P false) (take_action (p_positional p) [s] ns).
  Hypothesis H0 : P true (defaults p).

  Definition own (t : string * token) : Prop := match snd t with Opt (Some a) _ _ _ => In a (p_options p) | _ => True end.

  Lemma tuples_own s t : In t (option_tuples p s) -> match t with Opt (Some a) _ _ _ => In a (p_options p) | _ => True end.
  Proof.
    unfold option_tuples. intros H.
    assert (Known : forall k a, find_option p k = Some a -> In a (p_options p)) by (intros k a E; apply (find_option_In _ _ _ E)).
    assert (G : forall f : string -> list token, (forall k x, In x (f k) -> match x with Opt (Some a) _ _ _ => In a (p_options p) | _ => True end) ->
       forall l x, In x (flat_map f l) -> match x with Opt (Some a) _ _ _ => In a (p_options p) | _ => True end).
    { intros f Hf l x Ix. apply in_flat_map in Ix. destruct Ix as (k & _ & Ik). apply (Hf k). exact Ik. }
    assert (G1 : forall o e b x, In x (flat_map (fun known => if prefix o known then [Opt (find_option p known) known b e] else [])
              (all_options p)) -> match x with Opt (Some a) _ _ _ => In a (p_options p) | _ => True end).
    { intros o e b. apply G. intros k x Ix. destruct (prefix o k); [|destruct Ix]. destruct Ix as [<-|[]].
      destruct (find_option p k) eqn:E; [|exact I]. apply (Known _ _ E). }
    assert (G2 : forall u r x, In x (flat_map (fun known => if String.eqb known u then [Opt (find_option p known) known false (Some r)]
                             else if prefix s known then [Opt (find_option p known) known false None] else [])
              (all_options p)) -> match x with Opt (Some a) _ _ _ => In a (p_options p) | _ => True end).
    { intros u r. apply G. intros k x Ix. destruct (String.eqb k u); [|destruct (prefix s k); [|destruct Ix]];
        destruct Ix as [<-|[]]; (destruct (find_option p k) eqn:E; [apply (Known _ _ E)|exact I]). }
    destruct s as [|c [|d r]]; try destruct H.
    destruct (Ascii.eqb_spec d "-") as [->|Nd].
    - destruct (partition_eq (String c (String "-" r))) as [o e]. apply (G1 _ _ _ _ H).
    - apply (G2 (String c (String d "")) r).
      destruct d as [[] [] [] [] [] [] [] []]; try exact H; congruence.
  Qed.

  Lemma parse_optional_own s : fine (fun tok => own (s, tok)) (parse_optional p s).
  Proof.
    unfold parse_optional. destruct s as [|c t]; [exact I|]. destruct (negb (Ascii.eqb c "-")); [exact I|].
    destruct (find_option p (String c t)) as [a|] eqn:E; [cbn; apply (find_option_In _ _ _ E)|].
    destruct (String.eqb t ""); [exact I|]. destruct (partition_eq (String c t)) as [o e].
    assert (T : fine (fun tok => own (String c t, tok)) match option_tuples p (String c t) with
              | [tok] => Got tok | _ :: _ => Exit 2
              | [] => if negative_number (String c t) then Got Arg else if has_blank (String c t) then Got Arg
                      else Got (Opt None (String c t) false None) end).
    { assert (X := tuples_own (String c t)). destruct (option_tuples p (String c t)) as [|tok [|? ?]].
      - destruct (negative_number _); [exact I|]. destruct (has_blank _); exact I.
      - unfold own. cbn. apply X. left. reflexivity.
      - right. reflexivity. }
    destruct e as [e|]; [|exact T]. destruct (find_option p o) as [a|] eqn:F; [|exact T].
    cbn. apply (find_option_In _ _ _ F).
  Qed.

  Lemma tokens_own argv : fine (Forall own) (tokens p argv).
  Proof.
    induction argv as [|s argv IH]; [constructor|]. cbn [tokens]. destruct (String.eqb s "--").
    - cbn. constructor; [exact I|]. clear. induction argv; constructor; auto. exact I.
    - apply (fine_bind _ _ _ _ (parse_optional_own s)). intros tok Ht. apply (fine_bind _ _ _ _ IH). intros toks Hs.
      constructor; assumption.
  Qed.

  Lemma take_actions_fine l b : forall ns, Forall (fun x => In (fst x) (p_options p) /\ counted (fst x) (snd x)) l -> P b ns ->
    fine (P b) (take_actions l ns).
  Proof.
    induction l as [|[a args] l IH]; intros ns H Hn; [exact Hn|]. inversion H as [|? ? [Ia Ca] Hl]; subst. cbn [take_actions].
    apply (fine_bind _ _ _ _ (HP a args ns b Ia Ca Hn)). intros ns' Hn'. apply IH; assumption.
  Qed.

  Lemma cluster_fine e : forall a double eq, In a (p_options p) ->
    fine (fun x => Forall (fun f => In f (p_options p) /\ a_arity f = Nothing) (fst x) /\
            match snd x with Value b _ => In b (p_options p) /\ a_arity b <> Nothing | Follow b => In b (p_options p) | Unknown => True end)
         (cluster p a double eq e).
  Proof.
    induction e as [e IH] using (well_founded_induction (Wf_nat.well_founded_ltof string String.length)). unfold Wf_nat.ltof in IH.
    intros a double eq Ia.
    assert (V : a_arity a <> Nothing -> cluster p a double eq e = Got ([], Value a e)).
    { intros N. destruct e; cbn [cluster]; destruct (a_arity a); try congruence; reflexivity. }
    destruct (a_arity a) eqn:A; try (rewrite V by discriminate; cbn; split; [constructor|split; [exact Ia|congruence]]).
    clear V. destruct e as [|c rest]; cbn [cluster]; rewrite A.
    - destruct double; right; reflexivity.
    - destruct double; [right; reflexivity|]. destruct (eq || Ascii.eqb c "-"); [right; reflexivity|].
      destruct (find_option p (String "-" (String c ""))) as [b|] eqn:F.
      + assert (Ib := proj1 (find_option_In _ _ _ F)). destruct rest as [|d rest'].
        * cbn. repeat constructor; assumption.
        * assert (Ha : forall x, fine (fun x => Forall (fun f => In f (p_options p) /\ a_arity f = Nothing) (fst x) /\
            match snd x with Value b _ => In b (p_options p) /\ a_arity b <> Nothing | Follow b => In b (p_options p) | Unknown => True end) x ->
            fine (fun x => Forall (fun f => In f (p_options p) /\ a_arity f = Nothing) (fst x) /\
            match snd x with Value b _ => In b (p_options p) /\ a_arity b <> Nothing | Follow b => In b (p_options p) | Unknown => True end)
              (go (l, last) := x in Got (a :: l, last))).
          { intros x Hx. apply (fine_bind _ _ _ _ Hx). intros [l last] [Hl Hlast]. cbn in *. split; [|exact Hlast].
            constructor; [split; assumption|exact Hl]. }
          apply Ha. destruct (Ascii.eqb d "="); apply IH; try exact Ib; cbn; lia.
      + cbn. repeat constructor; assumption.
  Qed.

  Lemma leading_length toks : List.length (snd (leading_args toks)) <= List.length toks /\ (Forall own toks -> Forall own (snd (leading_args toks))).
  Proof.
    induction toks as [|[s t] toks IH]; [split; auto|]. destruct t; cbn; try (split; auto; fail).
    destruct (leading_args toks) as [l r]. cbn in *. destruct IH as [L F]. split; [lia|].
    intros H. inversion H; subst. auto.
  Qed.

  Lemma match_argument_fine a toks : Forall own toks ->
    fine (fun x => counted a (fst x) /\ List.length (snd x) <= List.length toks /\ Forall own (snd x)) (match_argument a toks).
  Proof.
    intros H. unfold match_argument, counted. destruct (a_arity a) eqn:A.
    - cbn. auto.
    - destruct toks as [|[s []] toks]; cbn; auto. inversion H; subst. repeat split; eauto.
    - destruct toks as [|[s []] toks]; cbn; auto. inversion H; subst. repeat split; eauto.
    - destruct toks as [|[s []] toks]; cbn; auto. assert (X := leading_length toks).
      inversion H; subst. destruct (leading_args toks) as [l r]. cbn in *. destruct X as [X Y]. repeat split; auto. discriminate.
  Qed.

  Lemma consume_optional_fine a o eq e rest ns extras b : match a with Some a => In a (p_options p) | None => True end ->
    Forall own rest -> P b ns ->
    fine (fun x => P b (fst (fst x)) /\ List.length (snd x) <= List.length rest /\ Forall own (snd x))
      (consume_optional p a o eq e rest ns extras).
  Proof.
    intros Ia Hr Hn. destruct a as [a|]; [|cbn; auto]. cbn [consume_optional].
    assert (Fl : forall fl, Forall (fun f => In f (p_options p) /\ a_arity f = Nothing) fl ->
              Forall (fun x => In (fst x) (p_options p) /\ counted (fst x) (snd x)) (map (fun f => (f, @nil string)) fl)).
    { intros fl. induction 1 as [|f fl [If Af] _ IH]; cbn; constructor; auto. cbn. unfold counted. rewrite Af. auto. }
    assert (C : fine (fun x => Forall (fun f => In f (p_options p) /\ a_arity f = Nothing) (fst x) /\
            match snd x with Value b _ => In b (p_options p) /\ a_arity b <> Nothing | Follow b => In b (p_options p) | Unknown => True end)
         match e with None => Got ([], Follow a) | Some e => cluster p a (two_dashes o) eq e end).
    { destruct e as [e|]; [apply cluster_fine; exact Ia|]. cbn. auto. }
    apply (fine_bind _ _ _ _ C). intros [fl last] [Hfl Hlast]. cbn [fst snd] in *. destruct last as [d s|d|].
    - destruct Hlast as [Id Ad].
      assert (T : fine (P b) (take_actions (map (fun f => (f, [])) fl ++ [(d, [s])]) ns)).
      { apply take_actions_fine; [|exact Hn]. apply Forall_app. split; [apply Fl; exact Hfl|]. constructor; [|constructor]. cbn.
        split; [exact Id|]. unfold counted. destruct (a_arity d); try congruence; eauto. }
      apply (fine_bind _ _ _ _ T). intros ns' Hn'. cbn. auto.
    - apply (fine_bind _ _ _ _ (match_argument_fine d rest Hr)). intros [args rest'] (Ca & Ln & Ho). cbn [fst snd] in *.
      assert (T : fine (P b) (take_actions (map (fun f => (f, [])) fl ++ [(d, args)]) ns)).
      { apply take_actions_fine; [|exact Hn]. apply Forall_app. split; [apply Fl; exact Hfl|]. constructor; [|constructor]. cbn. auto. }
      apply (fine_bind _ _ _ _ T). intros ns' Hn'. cbn. auto.
    - apply (fine_bind _ _ _ _ (take_actions_fine _ b ns (Fl fl Hfl) Hn)). intros ns' Hn'. cbn. auto.
  Qed.

  Lemma skip_dashes_length toks : List.length (skip_dashes toks) <= List.length toks /\ (Forall own toks -> Forall own (skip_dashes toks)).
  Proof.
    induction toks as [|[s t] toks [L F]]; [split; auto|]. destruct t; cbn; try (split; auto; fail). split; [lia|].
    intros H. inversion H; subst. auto.
  Qed.
  Lemma match_positional_length toks s rest : match_positional toks = Some (s, rest) ->
    List.length rest < List.length toks /\ (Forall own toks -> Forall own rest).
  Proof.
    unfold match_positional. destruct (skip_dashes_length toks) as [L F]. destruct (skip_dashes toks) as [|[x []] r]; try discriminate.
    intros E. injection E as <- <-. destruct (skip_dashes_length r) as [L' F']. cbn in L. split; [lia|].
    intros H. specialize (F H). inversion F; subst. auto.
  Qed.
  Lemma from_option_some toks : existsb is_option toks = true -> exists s a o eq e rest,
    from_option toks = (s, Opt a o eq e) :: rest /\ List.length rest < List.length toks /\ (Forall own toks -> Forall own ((s, Opt a o eq e) :: rest)).
  Proof.
    induction toks as [|[s t] toks IH]; intros H; [discriminate|]. cbn [existsb] in H. destruct t.
    - destruct (IH H) as (s' & a & o & eq & e & rest & E & L & F). exists s', a, o, eq, e, rest. cbn. split; [exact E|]. split; [lia|].
      intros G. inversion G; subst. auto.
    - destruct (IH H) as (s' & a & o & eq & e & rest & E & L & F). exists s', a, o, eq, e, rest. cbn. split; [exact E|]. split; [lia|].
      intros G. inversion G; subst. auto.
    - exists s, a, o, eq, explicit, toks. cbn. auto.
  Qed.

  Lemma finish_fine toks pending ns extras : P pending ns -> fine (P false) (finish p toks pending ns extras).
  Proof.
    intros Hn. unfold finish.
    assert (M : fine (fun x => P (snd (fst x)) (fst (fst x))) match pending, match_positional toks with
      | true, Some (s, rest) => go ns := take_action (p_positional p) [s] ns in Got (ns, false, rest)
      | _, _ => Got (ns, pending, toks) end).
    { destruct pending; [|exact Hn]. destruct (match_positional toks) as [[s rest]|]; [|exact Hn].
      apply (fine_bind _ _ _ _ (HQ s ns Hn)). intros ns' Hn'. exact Hn'. }
    apply (fine_bind _ _ _ _ M). intros [[ns' pending'] toks'] Hn'. cbn [fst snd] in Hn'. destruct pending'; [right; reflexivity|].
    cbn [orb]. destruct (extras || _); [right; reflexivity|exact Hn'].
  Qed.

  Lemma consume_fine fuel : forall toks pending ns extras, List.length toks < fuel -> Forall own toks -> P pending ns ->
    fine (P false) (consume fuel p toks pending ns extras).
  Proof.
    induction fuel as [|fuel IH]; intros toks pending ns extras Lt Ho Hn; [lia|]. cbn [consume].
    destruct (existsb is_option toks) eqn:Ex; [|apply finish_fine; exact Hn].
    assert (Later : forall toks, List.length toks < S fuel -> Forall own toks -> existsb is_option toks = true ->
      fine (P false) match from_option toks with
                | (_, Opt a o eq e) :: rest =>
                    go (ns, extras, rest) := consume_optional p a o eq e rest ns true in
                    consume fuel p rest pending ns extras
                | _ => Exit 99 end).
    { intros tk Lk Hk Ek. destruct (from_option_some tk Ek) as (s & a & o & eq & e & rest & -> & L & F). specialize (F Hk).
      inversion F as [|? ? Ha Hr]; subst.
      apply (fine_bind _ _ _ _ (consume_optional_fine a o eq e rest ns true pending Ha Hr Hn)).
      intros [[ns' ex'] rest'] (Hn' & L' & Ho'). cbn [fst snd] in *. apply IH; [lia|assumption|assumption]. }
    assert (Middle : fine (P false) match pending, match_positional toks with
            | true, Some (s, rest) => go ns := take_action (p_positional p) [s] ns in consume fuel p rest false ns extras
            | _, _ => match from_option toks with
                | (_, Opt a o eq e) :: rest =>
                    go (ns, extras, rest) := consume_optional p a o eq e rest ns true in
                    consume fuel p rest pending ns extras
                | _ => Exit 99 end end).
    { destruct pending; [|apply Later; assumption]. destruct (match_positional toks) as [[s rest]|] eqn:M; [|apply Later; assumption].
      destruct (match_positional_length _ _ _ M) as [L F].
      apply (fine_bind _ _ _ _ (HQ s ns Hn)). intros ns' Hn'. apply IH; [lia|auto|assumption]. }
    destruct toks as [|[s t] toks]; [discriminate|]. destruct t as [| |a o eq e]; try exact Middle.
    inversion Ho as [|? ? Ha Hr]; subst. cbn in Lt.
    apply (fine_bind _ _ _ _ (consume_optional_fine a o eq e toks ns extras pending Ha Hr Hn)).
    intros [[ns' ex'] rest'] (Hn' & L' & Ho'). cbn [fst snd] in *. apply IH; [lia|assumption|assumption].
  Qed.

  Theorem parse_args_fine argv : fine (P false) (parse_args p argv).
  Proof.
    unfold parse_args. apply (fine_bind _ _ _ _ (tokens_own argv)). intros toks Ho. apply consume_fine; [lia|exact Ho|exact H0].
  Qed.
End Outcomes.
