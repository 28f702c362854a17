(** * Published files: the list is read once, the registry goes before the disk, a
    failed start is never repaired; the files of a mesh belong together (C81). *)
From Coq Require Import List ZArith Arith Bool Reals String Lia Lra.
From Coquelicot Require Import Complex.
From Verif Require Import Base PyNum Eigen Mesh Registry.
Import ListNotations.
Local Open Scope string_scope.
Local Open Scope list_scope.

(** The calls of a process, each with the network and the disk it finds *)
Fixpoint run (p : process) (calls : list (net * disk * string)) : process * list (res (option file)) :=
  match calls with
  | [] => (p, [])
  | (n, d, f) :: calls =>
      let (p, r) := find n d f p in
      let (p, rs) := run p calls in (p, r :: rs)
  end.

Lemma existsb_in f l : existsb (String.eqb f) l = true <-> In f l.
Proof.
  rewrite existsb_exists. split.
  - intros (x & I & E). apply String.eqb_eq in E. subst. exact I.
  - intros I. exists f. split; [exact I|apply String.eqb_refl].
Qed.

Lemma find_known n d f l k : find n d f {| p_registry := Some l; p_requests := k |}
  = ({| p_registry := Some l; p_requests := k |},
     if existsb (String.eqb f) l then let* x := n_fetch n f in Ok (Some x) else Ok (d f)).
Proof. reflexivity. Qed.
Lemma run_known calls : forall l k, fst (run {| p_registry := Some l; p_requests := k |} calls) = {| p_registry := Some l; p_requests := k |} /\
  snd (run {| p_registry := Some l; p_requests := k |} calls)
  = map (fun c => match c with (n, d, f) => if existsb (String.eqb f) l then let* x := n_fetch n f in Ok (Some x) else Ok (d f) end) calls.
Proof.
  induction calls as [|[[n d] f] calls IH]; intros l k; [split; reflexivity|]. cbn [run map]. rewrite find_known.
  destruct (IH l k) as [A B]. destruct (run _ calls) as [p rs]. cbn [fst snd] in *. subst. split; reflexivity.
Qed.
Lemma run_first n d f calls : run fresh ((n, d, f) :: calls) =
  match n_list n with
  | Ok l => let (p, rs) := run {| p_registry := Some l; p_requests := 1 |} calls in
            (p, (if existsb (String.eqb f) l then let* x := n_fetch n f in Ok (Some x) else Ok (d f)) :: rs)
  | Err e => let (p, rs) := run {| p_registry := Some []; p_requests := 1 |} calls in (p, Err e :: rs)
  end.
Proof. cbn [run]. unfold find, lazily, fresh. cbn [p_registry]. destruct (n_list n); reflexivity. Qed.

(** The list of published files is asked for once in a process. *)
Theorem C81_once : forall calls, p_requests (fst (run fresh calls)) = match calls with [] => 0 | _ => 1 end.
Proof.
  intros [|[[n d] f] calls]; [reflexivity|]. rewrite run_first. destruct (n_list n) as [l|e].
  - destruct (run_known calls l 1) as [A _]. destruct (run _ calls). cbn [fst] in *. subst. reflexivity.
  - destruct (run_known calls [] 1) as [A _]. destruct (run _ calls). cbn [fst] in *. subst. reflexivity.
Qed.
Print Assumptions C81_once.

(** If the list could be read, every call, the first included, fetches a listed
    file (or raises what fetching raises, whatever is on the disk), and otherwise
    gives the local file or nothing. *)
Theorem C81_found : forall n d f calls listed, n_list n = Ok listed ->
  List.length (snd (run fresh ((n, d, f) :: calls))) = S (List.length calls) /\
  forall i n' d' f' r, nth_error ((n, d, f) :: calls) i = Some (n', d', f') ->
    nth_error (snd (run fresh ((n, d, f) :: calls))) i = Some r ->
    (In f' listed -> r = match n_fetch n' f' with Ok x => Ok (Some x) | Err e => Err e end) /\
    (~ In f' listed -> r = Ok (d' f')).
Proof.
  intros n d f calls listed E. rewrite run_first, E. destruct (run_known calls listed 1) as [_ B].
  destruct (run _ calls) as [p rs]. cbn [snd] in *. subst rs. split; [cbn; rewrite map_length; reflexivity|].
  intros i n' d' f' r Hi Hr.
  change (_ :: map ?g calls) with (map g ((n, d, f) :: calls)) in Hr.
  rewrite (map_nth_error _ _ _ Hi) in Hr. injection Hr as <-. split; intros I.
  - apply existsb_in in I. rewrite I. destruct (n_fetch n' f'); reflexivity.
  - destruct (existsb (String.eqb f') listed) eqn:X; [apply existsb_in in X; contradiction|reflexivity].
Qed.
Print Assumptions C81_found.

(** If the list could not be read, the call raises; later calls neither raise nor
    ask again, and published files count as missing, although the network works
    and the file is listed. *)
Theorem C81_retry_refuted : forall n d f calls e, n_list n = Err e ->
  nth_error (snd (run fresh ((n, d, f) :: calls))) 0 = Some (Err e) /\
  forall i n' d' f', nth_error calls i = Some (n', d', f') ->
    nth_error (snd (run fresh ((n, d, f) :: calls))) (S i) = Some (Ok (d' f')).
Proof.
  intros n d f calls e E. rewrite run_first, E. destruct (run_known calls [] 1) as [_ B].
  destruct (run _ calls) as [p rs]. cbn [snd] in *. subst rs. split; [reflexivity|].
  intros i n' d' f' Hi. cbn [nth_error]. rewrite (map_nth_error _ _ _ Hi). reflexivity.
Qed.
Print Assumptions C81_retry_refuted.

Definition down : net := {| n_list := Err RuntimeError; n_fetch := fun _ => Err RuntimeError |}.
Definition up (l : list (string * file)) : net :=
  {| n_list := Ok (map fst l);
     n_fetch := fun f => match List.find (fun x => String.eqb (fst x) f) l with Some x => Ok (snd x) | None => Err ValueError end |}.
Definition nothing : disk := fun _ => None.

Example C81_retry_case : forall x,
  snd (run fresh [(down, nothing, "a"); (up [("a", x)], nothing, "a")]) = [Err RuntimeError; Ok None] /\
  snd (run fresh [(up [("a", x)], nothing, "a"); (down, nothing, "b")]) = [Ok (Some x); Ok None].
Proof. intros x. split; reflexivity. Qed.

(** ** The Earth and the WMAP spectrum *)

(** The first column of the published table, if the list could be read; the local
    table if it is not listed. After a failed start the Earth raises TypeError
    unless the table is on the disk. *)
Theorem C81_tables : forall n d p rows,
  (p = fresh \/ exists l, n_list n = Ok l /\ p_registry p = Some l) ->
  Forall (fun row => row <> []) rows ->
  (forall listed, n_list n = Ok listed ->
    (In "EGM2008_Topography_flms_L2190.mat" listed ->
       n_fetch n "EGM2008_Topography_flms_L2190.mat" = Ok (Mat [("flm", rows)]) ->
       snd (load_flm n d p) = Ok (map (hd (RtoC 0)) rows)) /\
    (In "wmap_lcdm_pl_model_wmap7baoh0.mat" listed ->
       n_fetch n "wmap_lcdm_pl_model_wmap7baoh0.mat" = Ok (Mat [("cl", rows)]) ->
       snd (load_cl n d "_lcdm_pl_model_wmap7baoh0" p) = Ok (map (hd (RtoC 0)) rows))) /\
  (forall e n', n_list n = Err e -> p = fresh -> d "EGM2008_Topography_flms_L2190.mat" = None ->
     snd (load_flm n d p) = Err e /\ snd (load_flm n' d (fst (load_flm n d p))) = Err TypeError).
Proof.
  intros n d p rows Hp Hr.
  assert (Col : forall s, first_column s (Some (Mat [(s, rows)])) = Ok (map (hd (RtoC 0)) rows)).
  { intros s. unfold first_column. cbn [List.find fst]. rewrite String.eqb_refl. cbn [snd].
    induction Hr as [|row rows N _ IH]; [reflexivity|]. destruct row as [|z row]; [congruence|]. cbn [rmap rbind].
    rewrite IH. reflexivity. }
  split.
  - intros listed El. 
    assert (F : forall s x, In s listed -> n_fetch n s = Ok x -> snd (find n d s p) = Ok (Some x)).
    { intros s x I X. apply existsb_in in I. unfold find, lazily. destruct Hp as [->|(l & E & P)].
      - cbn [fresh p_registry]. rewrite El. cbn [snd rbind p_registry]. rewrite I, X. reflexivity.
      - rewrite P. cbn [snd rbind]. rewrite P. rewrite El in E. injection E as <-. rewrite I, X. reflexivity. }
    split; intros I X; unfold load_flm, load_cl, then_; cbn [snd append]; rewrite (F _ _ I X); cbn [rbind]; apply Col.
  - intros e n' E -> D. unfold load_flm, then_, find, lazily. cbn [fresh p_registry]. rewrite E. cbn [fst snd rbind p_registry existsb].
    rewrite D. split; reflexivity.
Qed.
Print Assumptions C81_tables.

Example C81_tables_case : forall d,
  snd (load_flm (up [("EGM2008_Topography_flms_L2190.mat", Mat [("flm", [[RtoC 1]; [Ci]])])]) d fresh) = Ok [RtoC 1; Ci].
Proof. reflexivity. Qed.

(** ** The files of a mesh *)

(** A run of the decomposition of one mesh: its outcome of [eigsh], its networks,
    and where it is cut: after so many writes, and whether inside the next one *)
Record attempt := { t_eigsh : Z -> list R * list (list R); t_net1 : net; t_net2 : net; t_cut : option nat; t_torn : bool }.

Section Files.
  Variables (name : string) (vertices : list (R * R * R)) (number : option Z).
  Notation K := (number_of vertices number).
  Notation EVAL := (eval_loc name (number_of vertices number)).
  Notation EVEC := (evec_loc name (number_of vertices number)).

  Definition outcome (t : attempt) (p : process) (d : disk) : res (list R * list (list R) * Z) :=
    snd (mesh_eigendecomposition_files (t_eigsh t) name vertices number (t_net1 t) (t_net2 t) d p).
  (** What a run leaves on the disk *)
  Definition leaves (t : attempt) (p : process) (d : disk) : disk :=
    let l := snd (fst (mesh_eigendecomposition_files (t_eigsh t) name vertices number (t_net1 t) (t_net2 t) d p)) in
    match t_cut t with
    | None => write_all d l
    | Some k => write_all d (firstn k l ++ match nth_error l k with Some (f, _) => if t_torn t then [(f, Torn)] else [] | None => [] end)
    end.
  (** The disk after runs of separate processes *)
  Fixpoint after (l : list attempt) (d : disk) : disk :=
    match l with [] => d | t :: l => after l (leaves t fresh d) end.

  (** The list can be read and names neither file. *)
  Definition unpublished (t : attempt) : Prop :=
    exists l, n_list (t_net1 t) = Ok l /\ ~ In EVAL l /\ ~ In EVEC l.

  Lemma append_inj s : forall u v, (s ++ u)%string = (s ++ v)%string -> u = v.
  Proof. induction s as [|c s IH]; intros u v E; [exact E|]. cbn in E. injection E as E. auto. Qed.
  Lemma files_differ : EVAL <> EVEC.
  Proof. unfold eval_loc, evec_loc. intros E. apply append_inj in E. discriminate. Qed.

  Lemma write_same d f x : write d f x f = Some x.
  Proof. unfold write. rewrite String.eqb_refl. reflexivity. Qed.
  Lemma write_other d f x g : g <> f -> write d f x g = d g.
  Proof. unfold write. intros N. apply String.eqb_neq in N. rewrite N. reflexivity. Qed.

  Lemma step t d : unpublished t ->
    mesh_eigendecomposition_files (t_eigsh t) name vertices number (t_net1 t) (t_net2 t) d fresh
    = let scratch := match mesh_eigendecomposition (t_eigsh t) vertices number with
        | Err e => ([], Err e)
        | Ok (evals, rows, k) => ([(EVAL, Evals evals); (EVEC, Rows rows)], Ok (evals, rows, k)) end in
      let p := {| p_registry := Some (match n_list (t_net1 t) with Ok l => l | Err _ => [] end); p_requests := 1 |} in
      match load_evals (d EVAL) with
      | Err TypeError => (p, fst scratch, snd scratch)
      | Err e => (p, [], Err e)
      | Ok evals => match load_rows (d EVEC) with
          | Err TypeError => (p, fst scratch, snd scratch)
          | Err e => (p, [], Err e)
          | Ok rows => (p, [], Ok (evals, rows, K)) end
      end.
  Proof.
    intros (l & El & N1 & N2).
    assert (X1 : existsb (String.eqb EVAL) l = false).
    { destruct (existsb (String.eqb EVAL) l) eqn:X; [apply existsb_in in X; contradiction|reflexivity]. }
    assert (X2 : existsb (String.eqb EVEC) l = false).
    { destruct (existsb (String.eqb EVEC) l) eqn:X; [apply existsb_in in X; contradiction|reflexivity]. }
    unfold mesh_eigendecomposition_files, then_, find, lazily. cbn [fresh p_registry p_requests]. rewrite El.
    cbn [fst snd rbind p_registry]. rewrite X1. cbn [rbind].
    destruct (load_evals (d EVAL)) as [evals|[]]; try reflexivity.
    cbn [fst snd p_registry p_requests rbind]. rewrite X2. cbn [rbind]. destruct (load_rows (d EVEC)) as [rows|[]]; reflexivity.
  Qed.

  (** One of the runs computed this. *)
  Definition computed (l : list attempt) (evals : list R) (rows : list (list R)) : Prop :=
    exists t k, In t l /\ mesh_eigendecomposition (t_eigsh t) vertices number = Ok (evals, rows, k).
  Definition sound (l : list attempt) (d : disk) : Prop :=
    (d EVAL = None /\ d EVEC = None) \/
    (exists evals, d EVAL = Some (Evals evals) /\ d EVEC = None) \/
    (exists evals rows, d EVAL = Some (Evals evals) /\ d EVEC = Some (Rows rows) /\ computed l evals rows).

  Lemma sound_step l t d : unpublished t -> t_torn t = false -> sound l d -> sound (l ++ [t]) (leaves t fresh d).
  Proof.
    intros U T S. unfold leaves. rewrite (step t d U), T.
    assert (W : forall l l' d, sound l d -> (forall x, In x l -> In x l') -> sound l' d).
    { intros a b e [H|[H|(ev & ro & A & B & (x & k & I & M))]] HI; [left; exact H|right; left; exact H|right; right].
      exists ev, ro. split; [exact A|]. split; [exact B|]. exists x, k. auto. }
    assert (Same : sound (l ++ [t]) d) by (apply (W l); [exact S|intros x I; apply in_or_app; left; exact I]).
    assert (Empty : match t_cut t with None => write_all d [] | Some k => write_all d (firstn k [] ++ match nth_error (@nil (string * file)) k with Some (f, _) => if false then [(f, Torn)] else [] | None => [] end) end = d).
    { destruct (t_cut t) as [[|k]|]; reflexivity. }
    set (SC := match mesh_eigendecomposition (t_eigsh t) vertices number with Err e => ([], Err e)
               | Ok (evals, rows, k) => ([(EVAL, Evals evals); (EVEC, Rows rows)], Ok (evals, rows, k)) end).
    assert (Scratch : d EVEC = None -> sound (l ++ [t]) match t_cut t with None => write_all d (fst SC)
       | Some k => write_all d (firstn k (fst SC) ++ match nth_error (fst SC) k with Some (f, _) => if false then [(f, Torn)] else [] | None => [] end) end).
    { intros N. unfold SC. destruct (mesh_eigendecomposition (t_eigsh t) vertices number) as [[[evals rows] k]|e] eqn:M; cbn [fst]; [|rewrite Empty; exact Same].
      assert (Fin : sound (l ++ [t]) (write_all d [(EVAL, Evals evals); (EVEC, Rows rows)])).
      { right. right. exists evals, rows. cbn [write_all].
        rewrite write_other by apply files_differ. rewrite !write_same. repeat split.
        exists t, k. split; [apply in_or_app; right; left; reflexivity|exact M]. }
      destruct (t_cut t) as [[|[|j]]|]; cbn [firstn nth_error app]; [exact Same| |destruct j; exact Fin|exact Fin].
      right. left. exists evals. cbn [write_all]. rewrite write_same. split; [reflexivity|].
      rewrite write_other by (intros X; symmetry in X; exact (files_differ X)). exact N. }
    destruct S as [[A B]|[(ev & A & B)|(ev & ro & A & B & C)]]; rewrite A; cbn [load_evals].
    - cbn [fst snd]. exact (Scratch B).
    - rewrite B. cbn [load_rows fst snd]. exact (Scratch B).
    - rewrite B. cbn [load_rows fst snd]. rewrite Empty. exact Same.
  Qed.

  Lemma sound_after l : forall before d, Forall unpublished l -> (forall t, In t l -> t_torn t = false) -> sound before d ->
    sound (before ++ l) (after l d).
  Proof.
    induction l as [|t l IH]; intros before d U T S; cbn [after]; [rewrite app_nil_r; exact S|].
    inversion U; subst. replace (before ++ t :: l) with ((before ++ [t]) ++ l) by (rewrite <- app_assoc; reflexivity).
    apply IH; [assumption|intros x I; apply T; right; exact I|]. apply sound_step; [assumption|apply T; left; reflexivity|exact S].
  Qed.
End Files.

(** Runs that died between two writes do no harm, although [eigsh] may give other
    eigenvectors each time: what a run returns, eigenvalues and eigenvectors
    together, is what one of the runs computed. *)
Theorem C81_mesh_files : forall name vertices number before t d,
  Forall (unpublished name vertices number) (before ++ [t]) -> (forall x, In x before -> t_torn x = false) ->
  d (eval_loc name (number_of vertices number)) = None -> d (evec_loc name (number_of vertices number)) = None ->
  match outcome name vertices number t fresh (after name vertices number before d) with
  | Ok (evals, rows, k) => k = number_of vertices number /\
      exists x, In x (before ++ [t]) /\ mesh_eigendecomposition (t_eigsh x) vertices number = Ok (evals, rows, k)
  | Err e => mesh_eigendecomposition (t_eigsh t) vertices number = Err e
  end.
Proof.
  intros name vertices number before t d U T D1 D2. apply Forall_app in U. destruct U as [Ub Ut]. inversion Ut; subst.
  assert (S := sound_after name vertices number before [] d Ub T (or_introl (conj D1 D2))). cbn [app] in S.
  assert (Num : forall f evals rows k, mesh_eigendecomposition f vertices number = Ok (evals, rows, k) -> k = number_of vertices number).
  { intros f evals rows k. unfold mesh_eigendecomposition, number_of. destruct (f _) as [ev ve].
    destruct (orthonormalise_basis_functions ve); cbn [rbind]; [|discriminate]. intros E. injection E as _ _ E. symmetry. exact E. }
  unfold outcome. rewrite step by assumption.
  assert (Own : match snd (match mesh_eigendecomposition (t_eigsh t) vertices number with Err e => ([], Err e)
               | Ok (evals, rows, k) => ([(eval_loc name (number_of vertices number), Evals evals); (evec_loc name (number_of vertices number), Rows rows)], Ok (evals, rows, k)) end) with
     | Ok (evals, rows, k) => k = number_of vertices number /\
      exists x, In x (before ++ [t]) /\ mesh_eigendecomposition (t_eigsh x) vertices number = Ok (evals, rows, k)
     | Err e => mesh_eigendecomposition (t_eigsh t) vertices number = Err e end).
  { destruct (mesh_eigendecomposition (t_eigsh t) vertices number) as [[[evals rows] k]|e] eqn:M; cbn [snd]; [|reflexivity].
    split; [exact (Num _ _ _ _ M)|]. exists t. split; [apply in_or_app; right; left; reflexivity|exact M]. }
  destruct S as [[A B]|[(ev & A & B)|(ev & ro & A & B & (x & k & I & M))]]; rewrite A; cbn [load_evals].
  - exact Own.
  - rewrite B. exact Own.
  - rewrite B. cbn [load_rows snd]. split; [reflexivity|]. exists x. split; [apply in_or_app; left; exact I|].
    rewrite M. rewrite (Num _ _ _ _ M). reflexivity.
Qed.
Print Assumptions C81_mesh_files.

(** A run that dies inside a write is not recovered from: every later run raises
    ValueError. *)
Theorem C81_torn_refuted : forall name vertices number later t x d evals rows k,
  unpublished name vertices number t -> t_cut t = Some 0 -> t_torn t = true ->
  d (eval_loc name (number_of vertices number)) = None ->
  mesh_eigendecomposition (t_eigsh t) vertices number = Ok (evals, rows, k) ->
  Forall (unpublished name vertices number) (later ++ [x]) ->
  outcome name vertices number x fresh (after name vertices number (t :: later) d) = Err ValueError.
Proof.
  intros name vertices number later t x d evals rows k U Cut To D M Ul. apply Forall_app in Ul. destruct Ul as [Ul Ux]. inversion Ux; subst.
  assert (Stuck : forall l d, Forall (unpublished name vertices number) l ->
    d (eval_loc name (number_of vertices number)) = Some Torn ->
    after name vertices number l d (eval_loc name (number_of vertices number)) = Some Torn).
  { induction l as [|y l IH]; intros e Hu He; cbn [after]; [exact He|]. inversion Hu; subst. apply IH; [assumption|].
    unfold leaves. rewrite step by assumption. rewrite He. cbn [load_evals fst snd]. destruct (t_cut y) as [[|j]|]; exact He. }
  assert (First : leaves name vertices number t fresh d (eval_loc name (number_of vertices number)) = Some Torn).
  { unfold leaves. rewrite step by exact U. rewrite D, M. cbn [load_evals fst snd]. rewrite Cut, To. cbn [firstn nth_error app write_all].
    apply write_same. }
  cbn [after]. unfold outcome. rewrite step by assumption. rewrite Stuck; [reflexivity|exact Ul|exact First].
Qed.
Print Assumptions C81_torn_refuted.

(** Published: both files are fetched and nothing is computed or written. *)
Theorem C81_mesh_published : forall name vertices number eigsh n1 n2 d listed evals rows,
  n_list n1 = Ok listed ->
  In (eval_loc name (number_of vertices number)) listed -> In (evec_loc name (number_of vertices number)) listed ->
  n_fetch n1 (eval_loc name (number_of vertices number)) = Ok (Evals evals) ->
  n_fetch n2 (evec_loc name (number_of vertices number)) = Ok (Rows rows) ->
  let out := mesh_eigendecomposition_files eigsh name vertices number n1 n2 d fresh in
  snd out = Ok (evals, rows, number_of vertices number) /\ snd (fst out) = [].
Proof.
  intros name vertices number eigsh n1 n2 d listed evals rows El I1 I2 F1 F2 out. unfold out.
  apply existsb_in in I1, I2. unfold mesh_eigendecomposition_files, then_, find, lazily. cbn [fresh p_registry p_requests]. rewrite El.
  cbn [fst snd rbind p_registry]. rewrite I1, F1. cbn [rbind load_evals fst snd p_registry]. rewrite I2, F2. split; reflexivity.
Qed.
Print Assumptions C81_mesh_published.

Example C81_mesh_case : exists vertices,
  let t c := {| t_eigsh := fun _ => ([0%R], [[2%R; 0%R]]); t_net1 := up []; t_net2 := up []; t_cut := c; t_torn := false |} in
  Forall (unpublished "bird" vertices (Some 1%Z)) [t (Some 1); t None] /\
  after "bird" vertices (Some 1%Z) [t (Some 1)] nothing "meshes_laplacians_basis_functions_bird_b1_eigenvalues.npy" = Some (Evals [0%R]) /\
  after "bird" vertices (Some 1%Z) [t (Some 1)] nothing "meshes_laplacians_basis_functions_bird_b1_eigenvectors.npy" = None.
Proof.
  exists []. cbn zeta. split; [|split].
  - repeat constructor; exists []; repeat split; intros [].
  - vm_compute. reflexivity.
  - reflexivity.
Qed.

Example C81_torn_case :
  let t := {| t_eigsh := fun _ => ([0%R], [[2%R; 0%R]]); t_net1 := up []; t_net2 := up []; t_cut := Some 0; t_torn := true |} in
  let x := {| t_eigsh := fun _ => ([0%R], [[2%R; 0%R]]); t_net1 := up []; t_net2 := up []; t_cut := None; t_torn := false |} in
  outcome "bird" [] (Some 1%Z) x fresh (after "bird" [] (Some 1%Z) [t; x] nothing) = Err ValueError.
Proof. vm_compute. reflexivity. Qed.

Example C81_published_case : forall d,
  let n := up [("meshes_laplacians_basis_functions_bird_b1_eigenvalues.npy", Evals [0%R]);
               ("meshes_laplacians_basis_functions_bird_b1_eigenvectors.npy", Rows [[1%R]])] in
  snd (mesh_eigendecomposition_files (fun _ => ([], [])) "bird" [] (Some 1%Z) n n d fresh) = Ok ([0%R], [[1%R]], 1%Z).
Proof. reflexivity. Qed.
