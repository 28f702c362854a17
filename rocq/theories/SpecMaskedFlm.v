(** * Linear maps on lists of complex numbers. *)
From Coq Require Import List Reals.
From Coquelicot Require Import Coquelicot.
Import ListNotations.

Definition addv (f g : list C) : list C := map (fun p => Cplus (fst p) (snd p)) (combine f g).
Definition scalv (c : C) (f : list C) : list C := map (Cmult c) f.

(** [F] takes the lists in [D] to lists in [E] and is linear, with the numbers in
    [S] as factors. *)
Definition linear (D E : list C -> Prop) (S : C -> Prop) (F : list C -> list C) : Prop :=
  (forall f, D f -> E (F f)) /\
  forall c f g, S c -> D f -> D g -> F (addv f (scalv c g)) = addv (F f) (scalv c (F g)).
