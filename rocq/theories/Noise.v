(** * Noise, simulated fields and the Earth coefficients.

    Random numbers come from [np.random.default_rng(seed)] (external); the
    sequence of standard normal draws of a generator is an arbitrary function
    of its seed.  Floats are real numbers: divisions by zero and logarithms of
    zero (numpy: nan and inf with a warning) are outside the model. *)
From Coq Require Import List ZArith Arith Bool Reals.
From Coquelicot Require Import Complex.
From Verif Require Import Base RSum CSum PyNum Index Numpy.
Import ListNotations.
Local Open Scope nat_scope.

(** A generator: its seed and the number of values already drawn. *)
Record gen := { g_seed : Z; g_pos : nat }.

(** src/sleplet/_vars.py:6 *)
Definition RANDOM_SEED : Z := 30.

(** src/sleplet/noise.py:19-21 [_signal_power] *)
Definition signal_power (signal : list C) : R := sum_abs2 signal.

(** [np.log10] *)
Definition log10 (x : R) : R := (ln x / ln 10)%R.

(** src/sleplet/noise.py:24-43 [compute_snr] (without the log message) *)
Definition compute_snr (signal noise : list C) : R :=
  (10 * log10 (signal_power signal / signal_power noise))%R.

(** src/sleplet/noise.py:46-66 [compute_sigma_noise] *)
Definition compute_sigma_noise (signal : list C) (snr_in : R) (denominator : option nat) : R :=
  let d := match denominator with None => length signal | Some d => d end in
  sqrt (Rpower 10 (- snr_in / 10) * signal_power signal / INR d)%R.

Section Random.
  Variable normal : Z -> nat -> R.   (* draws of the generator with this seed *)

  (** [np.random.default_rng(seed)] and [rng.standard_normal()] *)
  Definition default_rng (seed : Z) : gen := {| g_seed := seed; g_pos := 0 |}.
  Definition standard_normal (g : gen) : R * gen :=
    (normal (g_seed g) (g_pos g), {| g_seed := g_seed g; g_pos := S (g_pos g) |}).

  (** src/sleplet/noise.py:87-96, body of the loop over [m] *)
  Definition noise_order (sigma : R) (ell : nat) (st : list C * gen) (m : nat)
      : res (list C * gen) :=
    let (nlm, g) := st in
    let ind_pm := elm2ind ell (Z.of_nat m) in
    let ind_nm := elm2ind ell (- Z.of_nat m) in
    let (re, g1) := standard_normal g in
    let (im, g2) := standard_normal g1 in
    let* nlm := np_set ind_pm
      (Cmult (RtoC (sigma / sqrt 2)) (Cplus (RtoC re) (Cmult Ci (RtoC im)))) nlm in
    let* x := np_get nlm ind_pm in
    let* nlm := np_set ind_nm (Cmult (RtoC (neg1_pow m)) (Cconj x)) nlm in
    Ok (nlm, g2).

  (** src/sleplet/noise.py:84-96, body of the loop over [ell] *)
  Definition noise_degree (sigma : R) (st : list C * gen) (ell : nat) : res (list C * gen) :=
    let (nlm, g) := st in
    let (x, g1) := standard_normal g in
    let* nlm := np_set (elm2ind ell 0) (RtoC (sigma * x)) nlm in
    rfold (noise_order sigma ell) (seq 1 ell) (nlm, g1).

  (** src/sleplet/noise.py:68-96 [_create_noise] *)
  Definition create_noise (L : nat) (signal : list C) (snr_in : R) : res (list C) :=
    let rng := default_rng RANDOM_SEED in
    let nlm := repeat (RtoC 0) (L * L) in
    let sigma_noise := compute_sigma_noise signal snr_in None in
    let* st := rfold (noise_degree sigma_noise) (seq 0 L) (nlm, rng) in
    Ok (fst st).

  (** src/sleplet/functions/flm.py:40-53 [Flm._add_noise_to_signal]: returns
      (coefficients, unnoised coefficients, snr). *)
  Definition flm_add_noise (L : nat) (coefficients : list C) (noise : option R)
      : res (list C * option (list C) * option R) :=
    match noise with
    | None => Ok (coefficients, None, None)
    | Some snr_in =>
        let unnoised := coefficients in
        let* nlm := create_noise L coefficients snr_in in
        let snr := compute_snr coefficients nlm in
        let* coefficients := broadcast Cplus coefficients nlm in
        Ok (coefficients, Some unnoised, Some snr)
    end.

  (** src/sleplet/_data/create_wmap_flm.py:25-33, body of the loop over [m] *)
  Definition wmap_order (sigma : R) (ell : nat) (st : list C * gen) (m : nat)
      : res (list C * gen) :=
    let (flm, g) := st in
    let ind_pm := elm2ind ell (Z.of_nat m) in
    let ind_nm := elm2ind ell (- Z.of_nat m) in
    let (re, g1) := standard_normal g in
    let (im, g2) := standard_normal g1 in
    let* flm := np_set ind_pm
      (Cmult (RtoC (sigma / sqrt 2)) (Cplus (RtoC re) (Cmult Ci (RtoC im)))) flm in
    let* x := np_get flm ind_pm in
    let* flm := np_set ind_nm (Cmult (RtoC (neg1_pow m)) (Cconj x)) flm in
    Ok (flm, g2).

  (** src/sleplet/_data/create_wmap_flm.py:21-33, body of the loop over [ell];
      [cl] is the loaded power spectrum. *)
  Definition wmap_degree (cl : list R) (st : list C * gen) (ell : nat) : res (list C * gen) :=
    let (flm, g) := st in
    let* c := np_get cl (ell - 2) in
    let sigma := sqrt (2 * PI / (INR ell * (INR ell + 1)) * c) in
    let (x, g1) := standard_normal g in
    let* flm := np_set (elm2ind ell 0) (RtoC (sigma * x)) flm in
    rfold (wmap_order sigma ell) (seq 1 ell) (flm, g1).

  (** src/sleplet/_data/create_wmap_flm.py:11-34 [create_flm] *)
  Definition create_wmap_flm (cl : list R) (L : nat) : res (list C) :=
    let rng := default_rng RANDOM_SEED in
    let flm := repeat (RtoC 0) (L * L) in
    let* st := rfold (wmap_degree cl) (seq 2 (L - 2)) (flm, rng) in
    Ok (fst st).

  (** src/sleplet/noise.py:243-260 [_create_mesh_noise] (real array) *)
  Definition create_mesh_noise (u_i : list C) (snr_in : R) : res (list R) :=
    let rng := default_rng RANDOM_SEED in
    let n_i := repeat 0%R (length u_i) in
    let sigma_noise := compute_sigma_noise u_i snr_in None in
    let* st := rfold (fun (st : list R * gen) i =>
        let (n_i, g) := st in
        let (x, g1) := standard_normal g in
        let* n_i := np_set i (sigma_noise * x)%R n_i in
        Ok (n_i, g1))
      (seq 0 (length u_i)) (n_i, rng) in
    Ok (fst st).
End Random.

(** src/sleplet/_data/create_earth_flm.py:18-22, body of the loop over [m] *)
Definition earth_order (ell : nat) (flm : list C) (m : nat) : res (list C) :=
  let ind_pm := elm2ind ell (Z.of_nat m) in
  let ind_nm := elm2ind ell (- Z.of_nat m) in
  let* flm_pm := np_get flm ind_pm in
  np_set ind_nm (Cmult (RtoC (neg1_pow m)) (Cconj flm_pm)) flm.

(** [ssht.gaussian_smoothing(flm, L, sigma)] (external): every coefficient of
    degree [ell] is multiplied by [exp(-ell^2 sigma^2)]. *)
Definition gaussian_smoothing (flm : list C) (sigma : R) : list C :=
  map (fun p => Cmult (RtoC (exp (- (INR (fst (ind2elm (fst p))))^2 * sigma^2))) (snd p))
      (combine (seq 0 (length flm)) flm).

(** src/sleplet/_smoothing.py:11-27 [apply_gaussian_smoothing] (without the log
    message); [np.pi] and the product are Python numbers, so a zero product
    raises. *)
Definition apply_gaussian_smoothing (flm : list C) (L : nat) (smoothing_factor : Z) : res (list C) :=
  if (smoothing_factor * Z.of_nat L =? 0)%Z then Err ZeroDivisionError
  else
    let sigma := (PI / IZR (smoothing_factor * Z.of_nat L))%R in
    Ok (gaussian_smoothing flm sigma).

(** src/sleplet/_data/create_earth_flm.py:11-29 [create_flm]; [table] is the
    loaded file. *)
Definition create_earth_flm (table : list C) (L : nat) (smoothing : option Z) : res (list C) :=
  let* flm := rfold (fun flm ell => rfold (earth_order ell) (seq 1 ell) flm)
                (seq 1 (L - 1)) table in
  let flm := map Cconj (firstn (L * L) flm) in
  match smoothing with
  | None => Ok flm
  | Some s => apply_gaussian_smoothing flm L s
  end.

(** src/sleplet/harmonic_methods.py:111-131 [compute_random_signal]; two
    vectors of draws from the caller's generator. *)
Definition compute_random_signal (normal : Z -> nat -> R) (L : nat) (g : gen) (var_signal : R)
    : list C * gen :=
  let draws (k : nat) := map (fun i => normal (g_seed g) (k + i)) (seq 0 (L * L)) in
  let res := draws (g_pos g) in
  let ims := draws (g_pos g + L * L) in
  (map (fun p => Cmult (RtoC (sqrt (var_signal / 2)))
                   (Cplus (RtoC (fst p)) (Cmult Ci (RtoC (snd p)))))
       (combine res ims),
   {| g_seed := g_seed g; g_pos := g_pos g + 2 * (L * L) |}).
