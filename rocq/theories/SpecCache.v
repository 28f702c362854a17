(** * What the cache is meant to guarantee. *)
From Coq Require Import List ZArith Arith Bool String.
From Verif Require Import Base Cache.
Import ListNotations.

Section Spec.
  Context {E V : Type}.
  Implicit Types j : job E V.

  (** Two requests for the same mathematical problem (the requested order of a
      polar cap may differ). *)
  Definition same_problem j j' : Prop :=
    j_N j = j_N j' /\
    match j_kind j, j_kind j' with
    | Plain s, Plain s' => s = s'
    | Polar L _ s o, Polar L' _ s' o' => L = L' /\ s = s' /\ o = o'
    | _, _ => False
    end.

  (** Different problems have different file name stems. *)
  Definition no_sharing (jobs : list (job E V)) : Prop :=
    forall j j', In j jobs -> In j' jobs -> j_loc j = j_loc j' -> same_problem j j'.

  (** The complete cache of a problem. *)
  Definition cache_files j : list (string * npy E V) :=
    match j_kind j with
    | Plain (Ok (ev, vec)) =>
        [(eval_loc j, Evals ev); (evec_loc j, Evecs (py_prefix (j_N j) vec))]
    | Polar L _ (Ok (ev, vec, ords)) _ =>
        [(eval_loc j, Evals ev);
         (evec_loc j, Evecs (if Nat.ltb 16 L then py_prefix (j_N j) vec else vec));
         (order_loc j, Orders ords)]
    | _ => []
    end.

  (** What the registry publishes for these problems is what they would save. *)
  Definition registry_sound (pooch : string -> option (res (npy E V))) (jobs : list (job E V)) : Prop :=
    forall j f r, In j jobs -> In f [eval_loc j; evec_loc j; order_loc j] -> pooch f = Some r ->
      exists a, r = Ok a /\ In (f, a) (cache_files j).

  (** The jobs that a history starts. *)
  Definition spawned (acts : list (action E V)) : list (job E V) :=
    flat_map (fun a => match a with Spawn j => [j] | Step _ => [] end) acts.

  (** The answer of a computation without any cache. *)
  Definition scratch_evals j : res (list E) :=
    match j_kind j with
    | Plain s => let* (ev, _) := s in Ok ev
    | Polar _ (OneOrder m) _ one => let* (ev, _) := one m in Ok ev
    | Polar _ _ all _ => let* (ev, _, _) := all in Ok ev
    end.
  Definition scratch_evecs j : res (list V) :=
    match j_kind j with
    | Plain s => let* (_, vec) := s in Ok vec
    | Polar _ (OneOrder m) _ one => let* (_, vec) := one m in Ok vec
    | Polar _ _ all _ => let* (_, vec, _) := all in Ok vec
    end.

  (** All orders requested (or a solver without orders). *)
  Definition whole_problem j : Prop :=
    match j_kind j with
    | Plain _ => True
    | Polar _ AllOrders _ _ => True
    | _ => False
    end.
End Spec.
