(** * Model of the matrix construction for arbitrary regions and for meshes. *)
From Coq Require Import List ZArith Arith Bool Reals.
From Coquelicot Require Import Complex.
From Verif Require Import Base Parallel Machine Job Index Wigner Integration.
Import ListNotations.

(** [fill_upper_triangle_of_hermitian_matrix],
    /repo/src/sleplet/_array_methods.py lines 7-10, on a matrix of size [n]
    ([triu_indices(n, k=1)]; the right-hand side is a copy). *)
Definition fill_upper (n : nat) (M : nat -> nat -> C) : nat -> nat -> C :=
  fun r c => if (r <? c) && (c <? n) then Cconj (M c r) else M r c.

Section Arbitrary.
  Variable L : nat.
  Variable ns : nat.                   (* samples of the sphere at [_resolution] *)
  Variable mask weight : nat -> R.
  (** [invert_flm_boosted(_create_spherical_harmonic(L, k), L, resolution)]:
      the samples of harmonic [k] (external ssht transform). *)
  Variable harmonic : nat -> nat -> C.

  (** [_integral(i, j)] as instructions,
      /repo/src/sleplet/slepian/slepian_arbitrary.py lines 195-214; the value is
      then [integral_of] of the two operands. *)
  Definition integral_load (i j : nat) : list (instr (nat -> C)) :=
    [ICheck i; ISet i; ICheck j; ISet j; IGetA i; IGetB j].
  Definition integral_of (l : local (nat -> C)) : C :=
    match fa l, fb l with
    | Some f, Some g =>
        integrate_region_sphere ns mask weight f [fun s => Cconj (g s)]
    | _, _ => RtoC 0
    end.

  (** [D_r[r][c] = integral.real; D_i[r][c] = integral.imag]. *)
  Definition store_integral (r c : nat) : list (instr (nat -> C)) :=
    [IWrite 0 r c (fun l => Re (integral_of l)); IWrite 1 r c (fun l => Im (integral_of l))].

  (** Body of the loop over [j], lines 178-193. *)
  Definition matrix_helper_step (m_i : Z) (i j : nat) : list (instr (nat -> C)) :=
    let (ell_j, m_j) := ind2elm j in
    if (m_i =? 0)%Z && negb (m_j =? 0)%Z && (ell_j <? L) then
      if (0 <? m_j)%Z then
        let k := elm2ind ell_j (- m_j) in
        integral_load j i ++ store_integral j i ++
        [ILoad 0 j i; IWrite 0 k i (fun l => (sgn m_j * reg l)%R);
         ILoad 1 j i; IWrite 1 k i (fun l => (sgn (m_j + 1) * reg l)%R)]
      else []
    else integral_load j i ++ store_integral j i.

  (** [_matrix_helper(D_r, D_i, i)], lines 160-193. *)
  Definition matrix_helper (i : nat) : list (instr (nat -> C)) :=
    integral_load i i ++ store_integral i i ++
    flat_map (matrix_helper_step (snd (ind2elm i)) i) (seq (i + 1) (L * L - (i + 1))).

  (** [_create_D_matrix], lines 105-158. *)
  Definition arbitrary_job (ncpu : nat) (garbage : nat -> nat -> nat -> R) (sched : list who)
    : system (nat -> C) :=
    job_run 2 matrix_helper harmonic (L * L) ncpu garbage sched.

  Definition create_D_matrix (ncpu : nat) (garbage : nat -> nat -> nat -> R)
      (sched : list who) : res (nat -> nat -> C) :=
    let* a := outcome (arbitrary_job ncpu garbage sched) in
    Ok (fun r c => (a 0%nat r c, a 1%nat r c)).     (* D_r + 1j * D_i *)

  (** The matrix handed to [LA.eigh], lines 89-98. *)
  Definition solved_D_matrix (ncpu : nat) (garbage : nat -> nat -> nat -> R)
      (sched : list who) : res (nat -> nat -> C) :=
    let* D := create_D_matrix ncpu garbage sched in
    Ok (fill_upper (L * L) D).
End Arbitrary.

Section MeshMatrix.
  Variable nbasis : nat.               (* mesh.mesh_eigenvalues.shape[0] *)
  Variable nv : nat.                   (* vertices *)
  Variable region : nat -> bool.
  Variable basis : nat -> nat -> R.    (* basis_functions[i][v] *)

  (** [_integral], /repo/src/sleplet/meshes/mesh_slepian.py lines 153-161. *)
  Definition mesh_integral (i j : nat) : R :=
    integrate_region_mesh nv region (basis i) (basis j).

  (** [_fill_D_elements], lines 143-151. *)
  Definition fill_D_elements (i : nat) : list (instr unit) :=
    IWrite 0 i i (fun _ => mesh_integral i i) ::
    map (fun j => IWrite 0 j i (fun _ => mesh_integral j i)) (seq (i + 1) (nbasis - (i + 1))).

  (** [_create_D_matrix], lines 96-141. *)
  Definition mesh_job (ncpu : nat) (garbage : nat -> nat -> nat -> R) (sched : list who)
    : system unit :=
    job_run 1 fill_D_elements (fun _ => tt) nbasis ncpu garbage sched.

  (** The matrix handed to [LA.eigh], lines 75-87 (real entries, so [conj]
      does nothing). *)
  Definition mesh_D_matrix (ncpu : nat) (garbage : nat -> nat -> nat -> R)
      (sched : list who) : res (nat -> nat -> R) :=
    let* a := outcome (mesh_job ncpu garbage sched) in
    Ok (fun r c => if (r <? c) && (c <? nbasis) then a 0%nat c r else a 0%nat r c).
End MeshMatrix.
