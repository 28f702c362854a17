(** * Python's [argparse] and [int], as far as the two commands use them.

    This file models no sleplet function.  It fixes the meaning of
    [ArgumentParser.parse_args] (standard library of Python 3.11) for parsers with
    one positional argument, without groups, subparsers, argument files and
    options that look like negative numbers.  Strings are ASCII.  Not modelled:
    the texts of messages, the conversion of defaults that are strings (the
    commands' defaults convert to themselves), the trailing newline that Python's
    [$] lets through, and the limit of 4300 digits of [int]. *)
From Coq Require Import List ZArith QArith Arith Bool String Ascii.
From Verif Require Import Base PyNum Names.
Import ListNotations.
Local Open Scope string_scope.
Local Open Scope list_scope.
Local Open Scope nat_scope.

(** ** [int] *)

Definition is_digit (c : ascii) : bool := (48 <=? nat_of_ascii c) && (nat_of_ascii c <=? 57).
Definition digit (c : ascii) : Z := Z.of_nat (nat_of_ascii c - 48).
Definition is_space (c : ascii) : bool :=
  let n := nat_of_ascii c in ((9 <=? n) && (n <=? 13)) || ((28 <=? n) && (n <=? 32)).

(** [str.strip()] *)
Fixpoint lstrip (s : string) : string :=
  match s with
  | "" => ""
  | String c t => if is_space c then lstrip t else s
  end.
Fixpoint rstrip (s : string) : string :=
  match s with
  | "" => ""
  | String c t => match rstrip t with
                  | "" => if is_space c then "" else String c ""
                  | t => String c t
                  end
  end.

(** Digits with single underscores between them; [after] tells whether a digit
    was just read. *)
Fixpoint read_digits (s : string) (sum : Z) (after : bool) : option Z :=
  match s with
  | "" => if after then Some sum else None
  | String c t =>
      if is_digit c then read_digits t (10 * sum + digit c)%Z true
      else if Ascii.eqb c "_" && after then read_digits t sum false
      else None
  end.

(** [int(s)], [None] for ValueError *)
Definition py_int (s : string) : option Z :=
  match rstrip (lstrip s) with
  | String "-" t => option_map Z.opp (read_digits t 0 false)
  | String "+" t => read_digits t 0 false
  | t => read_digits t 0 false
  end.

(** ** The result of a run: the program goes on, or leaves with a status *)
Inductive out (A : Type) : Type := Got (a : A) | Exit (status : Z).
Arguments Got {A} _.
Arguments Exit {A} _.
Definition obind {A B} (x : out A) (f : A -> out B) : out B :=
  match x with Got a => f a | Exit n => Exit n end.
Notation "'go' x ':=' e 'in' f" := (obind e (fun x => f))
  (at level 200, x pattern, e at level 100, f at level 200, right associativity).

(** ** Parsers *)

Inductive value : Type :=
| VNone | VBool (b : bool) | VInt (z : Z) | VFloat (q : Q) | VStr (s : string) | VList (l : list value).

(** [nargs]: 0, [None], ["?"] with its [const], ["+"] *)
Inductive arity : Type := Nothing | One | At_most_one (const : string) | One_or_more.

(** [action]: ["store"]; ["store_true"] and ["store_false"]; ["help"] and
    ["version"], which print and leave *)
Inductive doing : Type := Store | Store_const (v : value) | Leave.

Record action : Type := {
  a_options : list string;
  a_dest : string;
  a_arity : arity;
  a_doing : doing;
  a_type : string -> option value;          (* None: ValueError or TypeError *)
  a_choices : option (list string);
  a_default : option value                  (* None: SUPPRESS *)
}.

Record parser : Type := { p_positional : action; p_options : list action }.

Definition namespace : Type := list (string * value).

(** [setattr(namespace, dest, v)] *)
Fixpoint setattr (dest : string) (v : value) (ns : namespace) : namespace :=
  match ns with
  | [] => [(dest, v)]
  | (d, w) :: ns => if String.eqb d dest then (d, v) :: ns else (d, w) :: setattr dest v ns
  end.

(** [namespace.dest] *)
Fixpoint getattr (dest : string) (ns : namespace) : res value :=
  match ns with
  | [] => Err AttributeError
  | (d, v) :: ns => if String.eqb d dest then Ok v else getattr dest ns
  end.

(** [self._option_string_actions] *)
Definition all_options (p : parser) : list string := flat_map a_options (p_options p).
Definition find_option (p : parser) (o : string) : option action :=
  find (fun a => str_in o (a_options a)) (p_options p).

(** ** Words that are options *)

(** [s.partition("=")]: the part before the first sign, and the rest if there is
    one *)
Fixpoint partition_eq (s : string) : string * option string :=
  match s with
  | "" => ("", None)
  | String c t => if Ascii.eqb c "=" then ("", Some t)
                  else let (a, b) := partition_eq t in (String c a, b)
  end.

(** [^-\d+$|^-\d*\.\d+$] *)
Fixpoint all_digits (s : string) : bool :=
  match s with "" => true | String c t => is_digit c && all_digits t end.
Definition some_digits (s : string) : bool := negb (String.eqb s "") && all_digits s.
Fixpoint decimals (s : string) : bool :=
  match s with
  | "" => false
  | String c t => if Ascii.eqb c "." then some_digits t else is_digit c && decimals t
  end.
Definition negative_number (s : string) : bool :=
  match s with String "-" t => some_digits t || decimals t | _ => false end.

Fixpoint has_blank (s : string) : bool :=
  match s with "" => false | String c t => Ascii.eqb c " " || has_blank t end.

(** What a word is: an argument, the two dashes, or an option: its action if there
    is one, the option as the parser knows it, whether an [=] separates the value,
    and the value in the same word. *)
Inductive token : Type :=
| Arg
| Dashes
| Opt (a : option action) (o : string) (eq : bool) (explicit : option string).

(** [_get_option_tuples] *)
Definition option_tuples (p : parser) (s : string) : list token :=
  match s with
  | String _ (String "-" _) =>
      let (o, e) := partition_eq s in
      flat_map (fun known => if prefix o known
                             then [Opt (find_option p known) known (match e with Some _ => true | None => false end) e]
                             else []) (all_options p)
  | String c (String d rest) =>
      flat_map (fun known => if String.eqb known (String c (String d ""))
                             then [Opt (find_option p known) known false (Some rest)]
                             else if prefix s known then [Opt (find_option p known) known false None]
                             else []) (all_options p)
  | _ => []
  end.

(** [_parse_optional] *)
Definition parse_optional (p : parser) (s : string) : out token :=
  match s with
  | "" => Got Arg
  | String c t =>
      if negb (Ascii.eqb c "-") then Got Arg else
      match find_option p s with
      | Some a => Got (Opt (Some a) s false None)
      | None =>
          if String.eqb t "" then Got Arg else
          let (o, e) := partition_eq s in
          match e, find_option p o with
          | Some e, Some a => Got (Opt (Some a) o true (Some e))
          | _, _ =>
              match option_tuples p s with
              | [tok] => Got tok
              | _ :: _ => Exit 2
              | [] => if negative_number s then Got Arg
                      else if has_blank s then Got Arg
                      else Got (Opt None s false None)
              end
          end
      end
  end.

(** The words and what they are; everything after two dashes is an argument. *)
Fixpoint tokens (p : parser) (argv : list string) : out (list (string * token)) :=
  match argv with
  | [] => Got []
  | s :: argv =>
      if String.eqb s "--" then Got ((s, Dashes) :: map (fun t => (t, Arg)) argv)
      else go tok := parse_optional p s in
           go toks := tokens p argv in
           Got ((s, tok) :: toks)
  end.

(** ** Taking an action *)

(** [_get_value] and [_check_value] *)
Definition convert (a : action) (s : string) : out value :=
  match a_type a s with
  | None => Exit 2
  | Some v => match a_choices a, v with
              | None, _ => Got v
              | Some l, VStr t => if str_in t l then Got v else Exit 2
              | Some _, _ => Exit 2
              end
  end.
Fixpoint convert_all (a : action) (l : list string) : out (list value) :=
  match l with
  | [] => Got []
  | s :: l => go v := convert a s in go vs := convert_all a l in Got (v :: vs)
  end.

(** [take_action] with [_get_values] *)
Definition take_action (a : action) (args : list string) (ns : namespace) : out namespace :=
  match a_doing a with
  | Leave => Exit 0
  | Store_const v => Got (setattr (a_dest a) v ns)
  | Store =>
      match a_arity a, args with
      | One, [s] => go v := convert a s in Got (setattr (a_dest a) v ns)
      | At_most_one const, [] => go v := convert a const in Got (setattr (a_dest a) v ns)
      | At_most_one _, [s] => go v := convert a s in Got (setattr (a_dest a) v ns)
      | One_or_more, _ => go vs := convert_all a args in Got (setattr (a_dest a) (VList vs) ns)
      | _, _ => Exit 2     (* does not happen: the arguments were counted *)
      end
  end.
Fixpoint take_actions (l : list (action * list string)) (ns : namespace) : out namespace :=
  match l with
  | [] => Got ns
  | (a, args) :: l => go ns := take_action a args ns in take_actions l ns
  end.

(** ** Options *)

Fixpoint leading_args (toks : list (string * token)) : list string * list (string * token) :=
  match toks with
  | (s, Arg) :: rest => let (args, rest) := leading_args rest in (s :: args, rest)
  | _ => ([], toks)
  end.

(** [_match_argument] on the words after the option: the arguments and the words
    left *)
Definition match_argument (a : action) (toks : list (string * token)) : out (list string * list (string * token)) :=
  match a_arity a, toks with
  | Nothing, _ => Got ([], toks)
  | One, (s, Arg) :: rest => Got ([s], rest)
  | One, _ => Exit 2
  | At_most_one _, (s, Arg) :: rest => Got ([s], rest)
  | At_most_one _, _ => Got ([], toks)
  | One_or_more, (_, Arg) :: _ => Got (leading_args toks)
  | One_or_more, _ => Exit 2
  end.

(** How a word of several short options ends: with a value of its own, with an
    option whose arguments follow, or with letters that are no option. *)
Inductive ending : Type := Value (a : action) (s : string) | Follow (a : action) | Unknown.

(** The loop of [consume_optional] over the letters of a word: [double] if the
    option begins with two dashes, [e] the rest of the word. *)
Fixpoint cluster (p : parser) (a : action) (double eq : bool) (e : string) : out (list action * ending) :=
  match a_arity a with
  | Nothing =>
      if double then Exit 2 else
      match e with
      | "" => Exit 2
      | String c rest =>
          if eq || Ascii.eqb c "-" then Exit 2 else
          match find_option p (String "-" (String c "")) with
          | None => Got ([a], Unknown)
          | Some b =>
              match rest with
              | "" => Got ([a], Follow b)
              | String d rest' =>
                  go (l, last) := (if Ascii.eqb d "=" then cluster p b false true rest'
                                   else cluster p b false false rest) in
                  Got (a :: l, last)
              end
          end
      end
  | _ => Got ([], Value a e)
  end.

Definition two_dashes (o : string) : bool := match o with String _ (String "-" _) => true | _ => false end.

(** [consume_optional]: the namespace, whether words were left over, and the words
    still to be read *)
Definition consume_optional (p : parser) (a : option action) (o : string) (eq : bool) (explicit : option string)
    (rest : list (string * token)) (ns : namespace) (extras : bool) : out (namespace * bool * list (string * token)) :=
  match a with
  | None => Got (ns, true, rest)
  | Some a =>
      go (flags, last) := match explicit with
                          | None => Got ([], Follow a)
                          | Some e => cluster p a (two_dashes o) eq e
                          end in
      let flags := map (fun f => (f, [])) flags in
      match last with
      | Value b s => go ns := take_actions (flags ++ [(b, [s])]) ns in Got (ns, extras, rest)
      | Follow b =>
          go (args, rest) := match_argument b rest in
          go ns := take_actions (flags ++ [(b, args)]) ns in
          Got (ns, extras, rest)
      | Unknown => go ns := take_actions flags ns in Got (ns, true, rest)
      end
  end.

(** ** Positional arguments *)

Fixpoint skip_dashes (toks : list (string * token)) : list (string * token) :=
  match toks with (_, Dashes) :: rest => skip_dashes rest | _ => toks end.

(** [_match_arguments_partial] of the single positional argument; two dashes
    before and after it are dropped. *)
Definition match_positional (toks : list (string * token)) : option (string * list (string * token)) :=
  match skip_dashes toks with
  | (s, Arg) :: rest => Some (s, skip_dashes rest)
  | _ => None
  end.

Definition is_option (t : string * token) : bool := match snd t with Opt _ _ _ _ => true | _ => false end.

(** After the last option: the positional argument if it is still missing, then
    nothing may be left. *)
Definition finish (p : parser) (toks : list (string * token)) (pending : bool) (ns : namespace) (extras : bool)
    : out namespace :=
  go (ns, pending, toks) :=
    match pending, match_positional toks with
    | true, Some (s, rest) => go ns := take_action (p_positional p) [s] ns in Got (ns, false, rest)
    | _, _ => Got (ns, pending, toks)
    end in
  if pending || extras || negb (match toks with [] => true | _ => false end) then Exit 2 else Got ns.

(** From the first option on *)
Fixpoint from_option (toks : list (string * token)) : list (string * token) :=
  match toks with
  | [] => []
  | t :: rest => if is_option t then toks else from_option rest
  end.

(** The loop of [_parse_known_args]; the first argument bounds the number of
    iterations. *)
Fixpoint consume (fuel : nat) (p : parser) (toks : list (string * token)) (pending : bool) (ns : namespace)
    (extras : bool) : out namespace :=
  match fuel with
  | O => Exit 99
  | S fuel =>
      if existsb is_option toks then
        match toks with
        | (s, Opt a o eq e) :: rest =>
            go (ns, extras, rest) := consume_optional p a o eq e rest ns extras in
            consume fuel p rest pending ns extras
        | _ =>
            match pending, match_positional toks with
            | true, Some (s, rest) =>
                go ns := take_action (p_positional p) [s] ns in consume fuel p rest false ns extras
            | _, _ =>
                match from_option toks with
                | (_, Opt a o eq e) :: rest =>
                    go (ns, extras, rest) := consume_optional p a o eq e rest ns true in
                    consume fuel p rest pending ns extras
                | _ => Exit 99     (* does not happen: there is an option *)
                end
            end
        end
      else finish p toks pending ns extras
  end.

(** The defaults, set before anything is read *)
Definition defaults (p : parser) : namespace :=
  flat_map (fun a => match a_default a with Some v => [(a_dest a, v)] | None => [] end) (p_positional p :: p_options p).

(** [parse_args] *)
Definition parse_args (p : parser) (argv : list string) : out namespace :=
  go toks := tokens p argv in
  consume (S (List.length toks)) p toks true (defaults p) false.
