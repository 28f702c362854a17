(** * The cache of eigensolutions on disk.

    A construction is a program that reads and writes whole files in the data
    directory; several Python processes may run such programs at the same time
    and any of them may die at any point (it is then never scheduled again).
    The arrays are kept abstract: [E] is the type of an eigenvalue, [V] that of
    an eigenvector. *)
From Coq Require Import List ZArith Arith Bool String.
From Verif Require Import Base Eigen.
Import ListNotations.

Section Cache.
  Variables E V : Type.

  (** A numpy array as the solvers save it. *)
  Inductive npy : Type :=
  | Evals (l : list E)
  | Evecs (l : list V)
  | Orders (l : list Z).

  (** What a path in the data directory holds: nothing ([None]), a file that is
      being written or whose writer died ([Torn]), or a whole array. *)
  Inductive cell : Type := Torn | Full (a : npy).
  Definition disk : Type := string -> option cell.
  Definition set (d : disk) (f : string) (c : cell) : disk :=
    fun g => if String.eqb g f then Some c else d g.

  (** The [order] attribute: None, an integer, or an array. *)
  Inductive order_arg : Type :=
  | AllOrders
  | OneOrder (m : Z)
  | OrderArray (a : npy).

  (** Eigenvalues, eigenvectors and [self.order] of a constructed object. *)
  Record solution : Type := Solution {
    s_evals : npy;
    s_evecs : npy;
    s_order : order_arg }.

  (** Programs over the data directory. *)
  Inductive prog : Type :=
  | Ret (r : res solution)
  | Read (f : string) (k : option cell -> prog)
  | Write (f : string) (a : npy) (k : prog)
  | Filling (f : string) (a : npy) (k : prog).   (* inside a write *)

  (** The Zenodo registry: [None] when the file is not listed, else the outcome
      of fetching it. *)
  Variable pooch : string -> option (res npy).

  (** src/sleplet/_data/setup_pooch.py:57-80 [find_on_pooch_then_local] followed
      by [np.load]: a file that is nowhere gives [np.load(None)], a TypeError; a
      torn file makes [np.load] raise ValueError (or EOFError when empty), which
      is not a TypeError. *)
  Definition load (f : string) (k : res npy -> prog) : prog :=
    match pooch f with
    | Some r => k r
    | None => Read f (fun c => k (match c with
                                  | None => Err TypeError
                                  | Some Torn => Err ValueError
                                  | Some (Full a) => Ok a
                                  end))
    end.

  (** A construction request: file name stem, Shannon number, and the
      computation that the solver would run. *)
  Inductive kind : Type :=
  | Plain (scratch : res (list E * list V))
  | Polar (L : nat) (order : order_arg)
      (scratch_all : res (list E * list V * list Z))
      (scratch_one : Z -> res (list E * list V)).
  Record job : Type := Job { j_loc : string; j_N : Z; j_kind : kind }.

  Local Open Scope string_scope.
  Definition eval_loc (j : job) : string := j_loc j ++ "_eigenvalues.npy".
  Definition evec_loc (j : job) : string := j_loc j ++ "_eigenvectors.npy".
  Definition order_loc (j : job) : string := j_loc j ++ "_orders.npy".
  Local Close Scope string_scope.

  (** src/sleplet/slepian/slepian_limit_lat_lon.py:65-90,
      src/sleplet/slepian/slepian_arbitrary.py:67-102,
      src/sleplet/meshes/mesh_slepian.py:48-93: three copies of the same code. *)
  Definition solve_plain (j : job) (scratch : res (list E * list V)) : prog :=
    let from_scratch :=
      match scratch with
      | Err e => Ret (Err e)
      | Ok (ev, vec) =>
          Write (eval_loc j) (Evals ev)
            (Write (evec_loc j) (Evecs (py_prefix (j_N j) vec))
               (Ret (Ok (Solution (Evals ev) (Evecs vec) AllOrders))))
      end in
    let handle (e : exn) := match e with TypeError => from_scratch | _ => Ret (Err e) end in
    load (eval_loc j) (fun r =>
      match r with
      | Err e => handle e
      | Ok ev => load (evec_loc j) (fun r =>
          match r with
          | Err e => handle e
          | Ok vec => Ret (Ok (Solution ev vec AllOrders))
          end)
      end).

  (** src/sleplet/slepian/slepian_polar_cap.py:27 *)
  Definition L_SAVE_ALL : nat := 16.

  (** [a[idx]] *)
  Definition npy_take (a : npy) (idx : list nat) : res npy :=
    match a with
    | Evals l => let* l' := fancy l idx in Ok (Evals l')
    | Evecs l => let* l' := fancy l idx in Ok (Evecs l')
    | Orders l => let* l' := fancy l idx in Ok (Orders l')
    end.

  (** [np.where(mask)] *)
  Definition np_where (mask : list bool) : list nat :=
    filter (fun i => nth i mask false) (seq 0 (List.length mask)).

  (** [orders == self.order]: an integer or an array of length one is compared
      with every entry, an array of the same length entry by entry, any other
      length raises ValueError. (A file of orders that does not hold integers
      is outside the model: nothing is equal.) *)
  Definition order_mask (orders : npy) (o : order_arg) : res (list bool) :=
    match orders, o with
    | Orders l, OneOrder m => Ok (map (fun x => Z.eqb x m) l)
    | Orders l, OrderArray (Orders [m]) => Ok (map (fun x => Z.eqb x m) l)
    | Orders l, OrderArray (Orders a) =>
        if Nat.eqb (List.length a) (List.length l)
        then Ok (map (fun p => Z.eqb (fst p) (snd p)) (combine l a))
        else Err ValueError
    | _, _ => Ok []
    end.

  (** src/sleplet/slepian/slepian_polar_cap.py:68-90 [_solve_eigenproblem],
      92-114 [_solve_eigenproblem_from_files],
      116-147 [_solve_eigenproblem_from_scratch]. *)
  Definition solve_polar (j : job) (L : nat) (order : order_arg)
      (scratch_all : res (list E * list V * list Z))
      (scratch_one : Z -> res (list E * list V)) : prog :=
    let all_orders :=
      match scratch_all with
      | Err e => Ret (Err e)
      | Ok (ev, vec, ords) =>
          let limit := if Nat.ltb L_SAVE_ALL L then Some (j_N j) else None in
          Write (eval_loc j) (Evals ev)
            (Write (evec_loc j) (Evecs (py_prefix_opt limit vec))
              (Write (order_loc j) (Orders ords)
                (Ret (Ok (Solution (Evals ev) (Evecs vec) (OrderArray (Orders ords)))))))
      end in
    let from_scratch :=
      match order with
      | OneOrder m =>                              (* isinstance(self.order, int) *)
          match scratch_one m with
          | Err e => Ret (Err e)
          | Ok (ev, vec) => Ret (Ok (Solution (Evals ev) (Evecs vec) order))
          end
      | _ => all_orders
      end in
    let handle (e : exn) := match e with TypeError => from_scratch | _ => Ret (Err e) end in
    let select (ev vec ords : npy) : res solution :=
      match order with
      | AllOrders => Ok (Solution ev vec (OrderArray ords))
      | _ => let* mask := order_mask ords order in
             let* ev' := npy_take ev (np_where mask) in
             let* vec' := npy_take vec (np_where mask) in
             Ok (Solution ev' vec' order)
      end in
    load (eval_loc j) (fun r =>
      match r with
      | Err e => handle e
      | Ok ev => load (evec_loc j) (fun r =>
          match r with
          | Err e => handle e
          | Ok vec => load (order_loc j) (fun r =>
              match r with
              | Err e => handle e
              | Ok ords => match select ev vec ords with
                           | Err e => handle e
                           | Ok s => Ret (Ok s)
                           end
              end)
          end)
      end).

  Definition construct (j : job) : prog :=
    match j_kind j with
    | Plain scratch => solve_plain j scratch
    | Polar L order all one => solve_polar j L order all one
    end.

  (** ** Processes *)

  (** One step of a process. [atomic] tells whether a file appears at once with
      its contents, or is first created torn. *)
  Definition step (atomic : bool) (p : prog) (d : disk) : prog * disk :=
    match p with
    | Ret _ => (p, d)
    | Read f k => (k (d f), d)
    | Write f a k => if atomic then (k, set d f (Full a)) else (Filling f a k, set d f Torn)
    | Filling f a k => (k, set d f (Full a))
    end.

  Inductive action : Type := Spawn (j : job) | Step (i : nat).

  Record state : Type := State { st_disk : disk; st_procs : list (job * prog) }.

  Definition upd {A} (l : list A) (i : nat) (x : A) : list A :=
    firstn i l ++ match skipn i l with [] => [] | _ :: t => x :: t end.

  Definition act (atomic : bool) (s : state) (a : action) : state :=
    match a with
    | Spawn j => State (st_disk s) (st_procs s ++ [(j, construct j)])
    | Step i =>
        match nth_error (st_procs s) i with
        | None => s
        | Some (j, p) => let (p', d') := step atomic p (st_disk s) in
                         State d' (upd (st_procs s) i (j, p'))
        end
    end.

  Definition exec (atomic : bool) (acts : list action) (s : state) : state :=
    fold_left (act atomic) acts s.

  Definition empty_disk : disk := fun _ => None.
  Definition init : state := State empty_disk [].

  (** A process running alone from some disk until it ends. *)
  Fixpoint solo (p : prog) (d : disk) : res solution * disk :=
    match p with
    | Ret r => (r, d)
    | Read f k => solo (k (d f)) d
    | Write f a k => solo k (set d f (Full a))
    | Filling f a k => solo k (set d f (Full a))
    end.
End Cache.

Arguments Evals {E V} _.
Arguments Evecs {E V} _.
Arguments Orders {E V} _.
Arguments Torn {E V}.
Arguments Full {E V} _.
Arguments set {E V} _ _ _ _.
Arguments AllOrders {E V}.
Arguments OneOrder {E V} _.
Arguments OrderArray {E V} _.
Arguments Solution {E V} _ _ _.
Arguments s_evals {E V} _.
Arguments s_evecs {E V} _.
Arguments s_order {E V} _.
Arguments Ret {E V} _.
Arguments Read {E V} _ _.
Arguments Write {E V} _ _ _.
Arguments Filling {E V} _ _ _.
Arguments Plain {E V} _.
Arguments Polar {E V} _ _ _ _.
Arguments Job {E V} _ _ _.
Arguments j_loc {E V} _.
Arguments j_N {E V} _.
Arguments j_kind {E V} _.
Arguments Spawn {E V} _.
Arguments Step {E V} _.
Arguments State {E V} _ _.
Arguments st_disk {E V} _ _.
Arguments st_procs {E V} _.
Arguments eval_loc {E V} _.
Arguments evec_loc {E V} _.
Arguments order_loc {E V} _.
Arguments construct {E V} _ _.
Arguments exec {E V} _ _ _ _.
Arguments solo {E V} _ _.
Arguments init {E V}.
Arguments empty_disk {E V} _.
Arguments npy_take {E V} _ _.
Arguments order_mask {E V} _ _.
