(** * What the harmonic transform and a Slepian basis are. *)
From Coq Require Import List ZArith Arith Reals.
From Coquelicot Require Import Complex.
From Verif Require Import Base RSum CSum SpecEigen Quadrature Transform.
Import ListNotations.
Local Open Scope nat_scope.

(** [inverse] evaluates the expansion in the basis [Y i k] (harmonic [i] at
    sample [k]). *)
Definition synthesised (L : nat) (Y : nat -> nat -> C) (inverse : nat -> list C -> list C) (v : list C) : Prop :=
  inverse L v = map (fun k => csum (L * L) (fun i => Cmult (nth i v (RtoC 0)) (Y i k))) (seq 0 (samples L)).
Definition synthesis (L : nat) (Y : nat -> nat -> C) (inverse : nat -> list C -> list C) : Prop :=
  forall v, length v = L * L ->
    inverse L v = map (fun k => csum (L * L) (fun i => Cmult (nth i v (RtoC 0)) (Y i k)))
                      (seq 0 (samples L)).

(** [forward] recovers bandlimited coefficients (the sampling theorem). *)
Definition sampling_theorem (L : nat) (inverse forward : nat -> list C -> list C) : Prop :=
  forall v, length v = L * L -> forward L (inverse L v) = v.

(** A Slepian basis: at least [N] eigenvectors, of the right length, and
    orthonormal. *)
Definition slepian_basis (L : nat) (s : slepian) : Prop :=
  (0 <= s_N s)%Z /\ Z.to_nat (s_N s) <= length (s_evecs s) /\ length (s_evecs s) <= L * L /\
  (forall v, In v (s_evecs s) -> length v = L * L) /\
  orthonormal_rows (L * L) (s_evecs s).

(** Eigenvector [p]. *)
Definition evec (s : slepian) (p : nat) : list C := nth p (s_evecs s) [].
Definition Nn (s : slepian) : nat := Z.to_nat (s_N s).

Notation nthC l i := (nth i l (RtoC 0)).

(** The specified value of coefficient [p]. *)
Definition entry (inverse : nat -> list C -> list C) (L : nat) (s : slepian) (g : signal) (p : nat) : C :=
  let S k := nthC (inverse L (evec s p)) k in
  match sg_flm g, sg_f g, sg_mask g with
  | Some flm, _, _ => csum (L * L) (fun i => Cmult (nthC flm i) (Cconj (nthC (evec s p) i)))
  | None, Some f, None =>
      csum (samples L) (fun k => Cmult (Cmult (nthC f k) (Cconj (S k))) (RtoC (flat_weight L k)))
  | None, Some f, Some mask =>
      Cdiv (csum (samples L) (fun k => Cmult (Cmult (Cmult (nthC f k) (Cconj (S k))) (RtoC (flat_weight L k)))
                                            (RtoC (nth k mask 0%R))))
           (RtoC (nth p (s_evals s) 0%R))
  | None, None, _ => RtoC 0
  end.

(** The given arrays have the shapes of the bandlimit. *)
Definition shaped (L : nat) (g : signal) : Prop :=
  (forall flm, sg_flm g = Some flm -> length flm = L * L) /\
  (forall f, sg_f g = Some f -> length f = samples L) /\
  (forall mask, sg_mask g = Some mask -> length mask = samples L).

Definition given (g : signal) : Prop := sg_flm g <> None \/ sg_f g <> None.

(** The overlap matrix of the region on the grid of bandlimit [L]. *)
Definition overlap (L : nat) (Y : nat -> nat -> C) (mask : list R) (i j : nat) : C :=
  csum (samples L) (fun k => Cmult (Cmult (Cmult (Y i k) (Cconj (Y j k))) (RtoC (flat_weight L k)))
                                  (RtoC (nth k mask 0%R))).
