(** C11, C12, C13, C15: the eigensolution cache under every history. *)
From Coq Require Import List ZArith Arith Bool String Reals Permutation Sorted Lia Lra.
From Coquelicot Require Import Complex.
From Verif Require Import Base ListLemmas PyNum Index IndexProofs Eigen SpecEigen EigenProofs PolarEigenProofs
  Cache SpecCache CacheProofs SelectProofs Region SpecRegion RegionProofs RegionJob PropEigen.
Import ListNotations.
Local Open Scope nat_scope.
Local Open Scope list_scope.

Lemma answer_evals {E V} (j : job E V) r : whole_problem j -> answer j r ->
  (let* s := r in Ok (s_evals s)) = (let* ev := scratch_evals j in Ok (Evals ev)).
Proof.
  unfold whole_problem, answer, scratch_evals.
  destruct (j_kind j) as [[[ev vec]|e]|L [|m|a] [[[ev vec] ords]|e] one]; intros HW HA; try contradiction;
    try (subst r; reflexivity); destruct HA as [->| ->]; reflexivity.
Qed.

Lemma py_prefix_nth {A} (N : Z) (l : list A) p : p < Z.to_nat N ->
  nth_error (py_prefix N l) p = nth_error l p.
Proof.
  intros H. unfold py_prefix. destruct (Z.leb_spec 0 N); [|lia]. apply nth_error_firstn. exact H.
Qed.

Lemma answer_evecs {E V} (j : job E V) s : whole_problem j -> answer j (Ok s) ->
  exists rows vec, s_evecs s = Evecs rows /\ scratch_evecs j = Ok vec /\
    (rows = vec \/ rows = py_prefix (j_N j) vec /\
       match j_kind j with Cache.Polar L _ _ _ => 16 < L | _ => True end).
Proof.
  unfold whole_problem, answer, scratch_evecs.
  destruct (j_kind j) as [[[ev vec]|e]|L [|m|a] [[[ev vec] ords]|e] one]; intros HW HA; try contradiction;
    try discriminate; destruct HA as [HA|HA]; injection HA as ->; cbn [s_evecs rbind].
  - exists vec, vec. auto.
  - exists (py_prefix (j_N j) vec), vec. auto.
  - exists vec, vec. auto.
  - destruct (Nat.ltb_spec 16 L).
    + exists (py_prefix (j_N j) vec), vec. auto.
    + exists vec, vec. auto.
Qed.

(** ** C11 *)

(** Any number of processes, in any interleaving, each possibly dying at any
    point between whole-file writes: whoever finishes has the eigenvalues (or
    the error) of a computation without cache. *)
Theorem C11_evals_history_independent :
  forall E V (pooch : string -> option (res (npy E V))) acts,
  no_sharing (spawned acts) -> registry_sound pooch (spawned acts) ->
  forall i j r, nth_error (st_procs (exec pooch true acts init)) i = Some (j, Ret r) ->
  whole_problem j ->
  (let* s := r in Ok (s_evals s)) = (let* ev := scratch_evals j in Ok (Evals ev)).
Proof.
  intros E V pooch acts NS RS i j r Hi HW.
  destruct (exec_ok pooch (spawned acts) NS RS acts init (fun j H => H) (init_ok _)) as [_ HP].
  destruct (HP i j _ Hi) as [_ HA]. apply answer_evals; assumption.
Qed.
Print Assumptions C11_evals_history_independent.

(** For regions on whole degrees (and masks not imitating generated names) the
    hypothesis on file names holds. *)
Theorem C11_whole_degree_regions :
  forall mask_area plain polar_all polar_one pooch acts,
  (forall j, In j (spawned acts) -> exists r L order,
     accepted r /\ whole_degrees r /\
     (r_region_type r = Arbitrary -> plain_mask (r_mask_name r)) /\
     solver_job mask_area plain polar_all polar_one (choose_slepian_method r) L order = Ok j) ->
  registry_sound pooch (spawned acts) ->
  forall i j r, nth_error (st_procs (exec pooch true acts init)) i = Some (j, Ret r) ->
  whole_problem j ->
  (let* s := r in Ok (s_evals s)) = (let* ev := scratch_evals j in Ok (Evals ev)).
Proof.
  intros ma pl pa po pooch acts HJ RS. apply C11_evals_history_independent; [|exact RS].
  intros j1 j2 H1 H2 HL.
  destruct (HJ j1 H1) as (r1 & L1 & o1 & A1 & W1 & M1 & J1).
  destruct (HJ j2 H2) as (r2 & L2 & o2 & A2 & W2 & M2 & J2).
  unfold solver_job in J1, J2.
  destruct (solver_location _ (choose_slepian_method r1) L1) as [s1|] eqn:S1; [|discriminate].
  destruct (solver_location _ (choose_slepian_method r2) L2) as [s2|] eqn:S2; [|discriminate].
  cbn [rbind] in J1, J2. injection J1 as <-. injection J2 as <-. cbn in HL. subst s2.
  destruct (location_injective r1 r2 _ _ L1 L2 s1 A1 A2 W1 W2 M1 M2 S1 S2) as [SR <-].
  assert (SS : choose_slepian_method r2 = choose_slepian_method r1).
  { destruct SR as (T & P1 & P2 & T1 & T2 & G & M). unfold choose_slepian_method. rewrite <- T.
    destruct (r_region_type r1).
    - rewrite (G eq_refl), T1. reflexivity.
    - rewrite P1, P2, T1, T2. reflexivity.
    - rewrite (M eq_refl). reflexivity. }
  rewrite SS in *. unfold same_problem. cbn.
  destruct (choose_slepian_method r1); cbn; auto.
Qed.
Print Assumptions C11_whole_degree_regions.

(** ** C12 *)

(** The ranks below the Shannon number are right in every history. *)
Theorem C12_ranks_below_N :
  forall E V (pooch : string -> option (res (npy E V))) acts,
  no_sharing (spawned acts) -> registry_sound pooch (spawned acts) ->
  forall i j s, nth_error (st_procs (exec pooch true acts init)) i = Some (j, Ret (Ok s)) ->
  whole_problem j ->
  exists rows vec, s_evecs s = Evecs rows /\ scratch_evecs j = Ok vec /\
    forall p, p < Z.to_nat (j_N j) -> nth_error rows p = nth_error vec p.
Proof.
  intros E V pooch acts NS RS i j s Hi HW.
  destruct (exec_ok pooch (spawned acts) NS RS acts init (fun j H => H) (init_ok _)) as [_ HP].
  destruct (HP i j _ Hi) as [_ HA]. destruct (answer_evecs j s HW HA) as (rows & vec & A & B & C).
  exists rows, vec. split; [exact A|]. split; [exact B|]. intros p Hp.
  destruct C as [->|[-> _]]; [reflexivity|]. apply py_prefix_nth. exact Hp.
Qed.
Print Assumptions C12_ranks_below_N.

(** Polar caps up to bandlimit 16 are cached completely. *)
Theorem C12_small_polar_complete :
  forall E V (pooch : string -> option (res (npy E V))) acts,
  no_sharing (spawned acts) -> registry_sound pooch (spawned acts) ->
  forall i j s L all one,
  nth_error (st_procs (exec pooch true acts init)) i = Some (j, Ret (Ok s)) ->
  j_kind j = Cache.Polar L AllOrders all one -> L <= 16 ->
  exists vec, s_evecs s = Evecs vec /\ scratch_evecs j = Ok vec.
Proof.
  intros E V pooch acts NS RS i j s L all one Hi HK HL.
  destruct (exec_ok pooch (spawned acts) NS RS acts init (fun j H => H) (init_ok _)) as [_ HP].
  destruct (HP i j _ Hi) as [_ HA].
  assert (HW : whole_problem j) by (unfold whole_problem; rewrite HK; exact I).
  destruct (answer_evecs j s HW HA) as (rows & vec & A & B & C). exists vec. split; [|exact B].
  destruct C as [->|[_ C]]; [exact A|]. rewrite HK in C. lia.
Qed.
Print Assumptions C12_small_polar_complete.

(** Two requests one after the other. *)
Lemma two_runs {E V} pooch (j : job E V) : exists acts,
  map snd (st_procs (exec pooch true acts init))
  = [Ret (fst (solo (construct pooch j) empty_disk));
     Ret (fst (solo (construct pooch j) (snd (solo (construct pooch j) empty_disk))))].
Proof.
  destruct (solo_exec pooch (construct pooch j) empty_disk [] j) as [n1 H1].
  destruct (solo_exec pooch (construct pooch j) (snd (solo (construct pooch j) empty_disk))
              [(j, Ret (fst (solo (construct pooch j) empty_disk)))] j) as [n2 H2].
  exists ((Spawn j :: repeat (Step 0) n1) ++ (Spawn j :: repeat (Step 1) n2)).
  unfold exec in *. rewrite fold_left_app.
  change (fold_left (act E V pooch true) (Spawn j :: repeat (Step 0) n1) init)
    with (fold_left (act E V pooch true) (repeat (Step 0) n1) (State empty_disk ([] ++ [(j, construct pooch j)]))).
  cbn [List.length] in H1. rewrite H1.
  match goal with |- context [fold_left _ (Spawn j :: repeat (Step 1) n2) (State ?d ?l)] =>
    change (fold_left (act E V pooch true) (Spawn j :: repeat (Step 1) n2) (State d l))
      with (fold_left (act E V pooch true) (repeat (Step 1) n2) (State d (l ++ [(j, construct pooch j)]))) end.
  cbn [List.length app] in H2 |- *. rewrite H2. reflexivity.
Qed.

(** Refutation of the full claim: for every solver without orders and every
    problem with fewer than all vectors below N, the second construction in an
    empty data directory returns fewer eigenvectors than the first. *)
Theorem C12_full_refuted :
  forall E V loc N (ev : list E) (vec : list V), (0 <= N)%Z -> Z.to_nat N < List.length vec ->
  let j := Job loc N (Plain (Ok (ev, vec))) in
  exists acts (s1 s2 : solution E V),
    map (fun x => snd x) (st_procs (exec (fun _ => None) true acts init)) = [Ret (Ok s1); Ret (Ok s2)] /\
    s_evecs s1 = Evecs vec /\ s_evecs s2 = Evecs (firstn (Z.to_nat N) vec) /\ s_evecs s1 <> s_evecs s2.
Proof.
  intros E V loc N ev vec HN HL j.
  destruct (two_runs (fun _ => None) j) as [acts Ha].
  assert (X : String.eqb (eval_loc j) (evec_loc j) = false) by (apply String.eqb_neq; apply eval_evec).
  assert (R1 : solo (construct (fun _ => None) j) empty_disk
    = (Ok (Solution (Evals ev) (Evecs vec) AllOrders),
       set (set empty_disk (eval_loc j) (Full (Evals ev))) (evec_loc j) (Full (Evecs (py_prefix N vec))))) by reflexivity.
  rewrite R1 in Ha. cbn [fst snd] in Ha.
  match type of Ha with context [solo _ ?d] => set (d1 := d) in Ha end.
  assert (D1 : d1 (eval_loc j) = Some (Full (Evals ev))) by (unfold d1, set; rewrite X, String.eqb_refl; reflexivity).
  assert (D2 : d1 (evec_loc j) = Some (Full (Evecs (py_prefix N vec)))) by (unfold d1, set; rewrite String.eqb_refl; reflexivity).
  clearbody d1.
  assert (R2 : solo (construct (fun _ => None) j) d1
    = (Ok (Solution (Evals ev) (Evecs (py_prefix N vec)) AllOrders), d1)).
  { unfold construct. cbn [j j_kind]. unfold solve_plain, load. cbn [solo]. rewrite D1. cbn [solo]. rewrite D2. reflexivity. }
  rewrite R2 in Ha. cbn [fst] in Ha.
  assert (PP : py_prefix N vec = firstn (Z.to_nat N) vec).
  { unfold py_prefix. destruct (Z.leb_spec 0 N); [reflexivity|lia]. }
  exists acts. eexists. eexists. split; [exact Ha|]. cbn. rewrite PP.
  split; [reflexivity|]. split; [reflexivity|]. intros Y. injection Y as Y.
  apply (f_equal (@List.length V)) in Y. rewrite firstn_length in Y. lia.
Qed.
Print Assumptions C12_full_refuted.

(** ** C13 *)

(** After any history of processes and deaths between whole-file writes, a new
    request running alone gives the right eigenvalues and leaves every cache
    file of its problem available. It ends after finitely many steps. *)
Theorem C13_recovers :
  forall E V (pooch : string -> option (res (npy E V))) acts j,
  no_sharing (j :: spawned acts) -> registry_sound pooch (j :: spawned acts) -> whole_problem j ->
  let s0 := exec pooch true acts init in
  exists n r d,
    exec pooch true (Spawn j :: repeat (Step (List.length (st_procs s0))) n) s0
      = State d (st_procs s0 ++ [(j, Ret r)]) /\
    (let* s := r in Ok (s_evals s)) = (let* ev := scratch_evals j in Ok (Evals ev)) /\
    forall f a, In (f, a) (cache_files j) -> pooch f = Some (Ok a) \/ d f = Some (Full a).
Proof.
  intros E V pooch acts j NS RS HW s0.
  destruct (exec_ok pooch (j :: spawned acts) NS RS acts init (fun j H => or_intror H) (init_ok _)) as [HD HP].
  fold s0 in HD, HP.
  destruct (solo_exec pooch (construct pooch j) (st_disk s0) (st_procs s0) j) as [n Hn].
  exists n, (fst (solo (construct pooch j) (st_disk s0))), (snd (solo (construct pooch j) (st_disk s0))).
  split; [exact Hn|].
  pose proof (construct_good pooch (j :: spawned acts) RS j (or_introl eq_refl)) as HG.
  destruct (solo_good (j :: spawned acts) NS j _ (st_disk s0) (or_introl eq_refl) HG HD) as [HA HD'].
  split; [apply answer_evals; assumption|].
  intros f a Hf.
  assert (HF := cache_file_name _ _ _ Hf).
  destruct (complete_after pooch (j :: spawned acts) RS j (st_disk s0) (or_introl eq_refl) HW HD f a Hf) as [HP1|HP1].
  - left. destruct (pooch f) as [x|] eqn:P; [|contradiction].
    destruct (RS j f x (or_introl eq_refl)) as (b & -> & Hb); [cbn; intuition congruence|exact P|].
    rewrite (cache_file_fun j f a b Hf Hb). reflexivity.
  - right. destruct (snd (solo (construct pooch j) (st_disk s0)) f) as [c|] eqn:P; [|contradiction].
    destruct (disk_cell (j :: spawned acts) NS j f _ (or_introl eq_refl) HD' HF c P) as (b & -> & Hb).
    rewrite (cache_file_fun j f a b Hf Hb). reflexivity.
Qed.
Print Assumptions C13_recovers.

(** A death inside a file write is not recovered from: every later request for
    the same problem raises ValueError, for ever. *)
Theorem C13_torn_write_refuted :
  forall E V loc N (ev : list E) (vec : list V),
  let j := Job loc N (Plain (Ok (ev, vec))) in
  exists acts,
    let s0 := exec (fun _ => None) false acts init in
    solo (construct (fun _ => None) j) (st_disk s0) = (Err ValueError, st_disk s0).
Proof.
  intros E V loc N ev vec j. exists [Spawn j; Step 0; Step 0].
  cbn -[String.eqb]. unfold set. rewrite !String.eqb_refl. reflexivity.
Qed.
Print Assumptions C13_torn_write_refuted.

(** Nor are two processes that start together safe when a write is not atomic:
    one can see the other's half-written file. *)
Theorem C13_concurrent_torn_read_refuted :
  forall E V loc N (ev : list E) (vec : list V),
  let j := Job loc N (Plain (Ok (ev, vec))) in
  exists acts (s : solution E V),
    map snd (st_procs (exec (fun _ => None) false acts init)) = [Ret (Ok s); Ret (Err ValueError)].
Proof.
  intros E V loc N ev vec j. exists [Spawn j; Spawn j; Step 0; Step 0; Step 1; Step 0; Step 0; Step 0].
  eexists. cbn -[String.eqb]. unfold set. rewrite !String.eqb_refl. cbn. reflexivity.
Qed.
Print Assumptions C13_concurrent_torn_read_refuted.

(** ** C15 *)

(** A request for one order served from complete caches equals the direct
    computation: same eigenvalues always; same eigenvectors when the
    eigenvalues of that order are distinct. *)
Definition polar_job argsort eigh Dm (loc : string) (N : Z) (L : nat) (order : order_arg R (list C)) : job R (list C) :=
  Job loc N (Cache.Polar L order (solve_all_orders argsort eigh Dm L) (solve_order argsort eigh Dm L)).

Theorem C15_one_order_any_history :
  forall argsort eigh Dm loc N L, argsort_ok argsort -> 1 <= L -> L <= 16 ->
  (forall a, a < L ->
    eigen_r (L - a) (Dm a) (fst (eigh (L - a) (Dm a))) (snd (eigh (L - a) (Dm a)))) ->
  forall pooch acts,
  no_sharing (spawned acts) -> registry_sound pooch (spawned acts) ->
  forall i m r, Z.abs_nat m < L ->
  nth_error (st_procs (exec pooch true acts init)) i
    = Some (polar_job argsort eigh Dm loc N L (OneOrder m), Ret r) ->
  exists ev_m rows_m rows',
    solve_order argsort eigh Dm L m = Ok (ev_m, rows_m) /\
    r = Ok (Solution (Evals ev_m) (Evecs rows') (OneOrder m)) /\
    Permutation (combine ev_m rows') (combine ev_m rows_m) /\ List.length rows' = List.length rows_m /\
    (NoDup ev_m -> rows' = rows_m).
Proof.
  intros argsort eigh Dm loc N L HS HL HL16 HE pooch acts NS RS i m r Hm Hi.
  destruct (exec_ok pooch (spawned acts) NS RS acts init (fun j H => H) (init_ok _)) as [_ HP].
  destruct (HP i _ _ Hi) as [_ HA]. cbn -[Nat.ltb] in HA.
  destruct (solve_order_spec argsort HS eigh Dm L m) as (ev_m & rows_m & Eo & _); [cbv zeta; apply HE; exact Hm|].
  exists ev_m, rows_m. destruct HA as [->|(ev & vec & ords & EA & ->)].
  - exists rows_m. rewrite Eo. auto.
  - destruct (select_order argsort HS eigh Dm L ltac:(lia) HE m ev vec ords ev_m rows_m Hm EA Eo) as (F1 & rows' & F2 & F3 & F4 & F5).
    exists rows'. split; [exact Eo|]. rewrite F1. cbn [rbind].
    assert (Nat.ltb 16 L = false) as -> by (apply Nat.ltb_ge; exact HL16).
    rewrite F2. auto.
Qed.
Print Assumptions C15_one_order_any_history.

(** Above bandlimit 16 the eigenvectors in the cache are cut at N: a request
    for one order raises IndexError exactly when one of its functions has rank
    N or more among all orders; otherwise it is answered correctly. *)
Theorem C15_truncated_cache :
  forall argsort eigh Dm loc N L, argsort_ok argsort -> 16 < L -> (0 <= N)%Z ->
  (forall a, a < L ->
    eigen_r (L - a) (Dm a) (fst (eigh (L - a) (Dm a))) (snd (eigh (L - a) (Dm a)))) ->
  forall m evals rows orders d, Z.abs_nat m < L ->
  solve_all_orders argsort eigh Dm L = Ok (evals, rows, orders) ->
  let j := polar_job argsort eigh Dm loc N L (OneOrder m) in
  (forall f a, In (f, a) (cache_files j) -> d f = Some (Full a)) ->
  exists ev_m rows_m, solve_order argsort eigh Dm L m = Ok (ev_m, rows_m) /\
  ((exists p, nth_error orders p = Some m /\ Z.to_nat N <= p) ->
     solo (construct (fun _ => None) j) d = (Err IndexError, d)) /\
  ((forall p, nth_error orders p = Some m -> p < Z.to_nat N) ->
     exists rows', solo (construct (fun _ => None) j) d
       = (Ok (Solution (Evals ev_m) (Evecs rows') (OneOrder m)), d) /\
       (NoDup ev_m -> rows' = rows_m)).
Proof.
  intros argsort eigh Dm loc N L HS HL HN HE m evals rows orders d Hm HA j HD.
  destruct (solve_order_spec argsort HS eigh Dm L m) as (ev_m & rows_m & Eo & _); [cbv zeta; apply HE; exact Hm|].
  exists ev_m, rows_m. split; [exact Eo|].
  destruct (select_order argsort HS eigh Dm L ltac:(lia) HE m evals rows orders ev_m rows_m Hm HA Eo) as (F1 & rows' & F2 & F3 & F4 & F5).
  assert (LT : Nat.ltb 16 L = true) by (apply Nat.ltb_lt; exact HL).
  unfold cache_files in HD. cbn [j polar_job j_kind j_N] in HD. rewrite HA in HD. rewrite LT in HD.
  assert (D1 : d (eval_loc j) = Some (Full (Evals evals))) by (apply HD; left; reflexivity).
  assert (D2 : d (evec_loc j) = Some (Full (Evecs (py_prefix N rows)))) by (apply HD; right; left; reflexivity).
  assert (D3 : d (order_loc j) = Some (Full (Orders orders))) by (apply HD; right; right; left; reflexivity).
  assert (RUN : forall x, (let* ev' := fancy evals (np_where (map (fun x => Z.eqb x m) orders)) in
             let* vec' := fancy (py_prefix N rows) (np_where (map (fun x => Z.eqb x m) orders)) in
             Ok (Solution (Evals ev') (Evecs vec') (OneOrder m))) = x ->
             x <> Err TypeError -> solo (construct (fun _ => None) j) d = (x, d)).
  { intros x Hx NT. unfold construct. cbn [j polar_job j_kind]. unfold solve_polar, load. cbn [solo].
    rewrite D1. cbn [solo]. rewrite D2. cbn [solo]. rewrite D3.
    cbn [order_mask rbind npy_take].
    rewrite F1 in *. cbn [rbind] in *. destruct (fancy (py_prefix N rows) _) as [v|e]; cbn [rbind] in *; subst x.
    - reflexivity.
    - destruct e; reflexivity || (exfalso; apply NT; reflexivity). }
  assert (PP : py_prefix N rows = firstn (Z.to_nat N) rows).
  { unfold py_prefix. destruct (Z.leb_spec 0 N); [reflexivity|lia]. }
  assert (WH : forall p, In p (np_where (map (fun x => Z.eqb x m) orders)) <-> nth_error orders p = Some m).
  { intros p. unfold np_where. rewrite filter_In, in_seq, map_length. split.
    - intros [Hp Hb]. destruct (nth_error orders p) as [y|] eqn:E.
      + rewrite (nth_error_nth _ _ false (map_nth_error (fun x => Z.eqb x m) _ _ E)) in Hb.
        apply Z.eqb_eq in Hb. congruence.
      + apply nth_error_None in E. lia.
    - intros E. split; [split; [lia|]; cbn; apply nth_error_Some; rewrite E; discriminate|].
      rewrite (nth_error_nth _ _ false (map_nth_error (fun x => Z.eqb x m) _ _ E)). apply Z.eqb_refl. }
  split.
  - intros [p [Hp HNp]]. apply RUN; [|discriminate]. rewrite F1. cbn [rbind]. rewrite PP.
    rewrite (proj2 (fancy_prefix rows (Z.to_nat N) _)); [reflexivity|].
    apply Exists_exists. exists p. split; [apply WH; exact Hp|exact HNp].
  - intros HAll. exists rows'. split; [|exact F5]. apply RUN; [|discriminate]. rewrite F1. cbn [rbind]. rewrite PP.
    rewrite (proj1 (fancy_prefix rows (Z.to_nat N) _)).
    + rewrite F2. reflexivity.
    + apply Forall_forall. intros p Hp. apply HAll. apply WH. exact Hp.
Qed.
Print Assumptions C15_truncated_cache.

(** An array of orders is ignored by a fresh computation but selects (or
    fails) when the cache is there: the same request gives different answers. *)
Theorem C15_order_array_refuted :
  forall E V loc N L (ev : list E) (vec : list V) (ords : list Z) one, L <= 16 ->
  2 <= List.length ords ->
  let j := Job loc N (Cache.Polar L (OrderArray (Orders [0; 0; 0]%Z)) (Ok (ev, vec, ords)) one) in
  List.length ords <> 3 ->
  exists acts (s : solution E V),
    map snd (st_procs (exec (fun _ => None) true acts init)) = [Ret (Ok s); Ret (Err ValueError)] /\
    s = Solution (Evals ev) (Evecs vec) (OrderArray (Orders ords)).
Proof.
  intros E V loc N L ev vec ords one HL H2 j H3.
  destruct (two_runs (fun _ => None) j) as [acts Ha].
  exists acts. eexists. split; [|reflexivity].
  assert (LT : Nat.ltb L_SAVE_ALL L = false) by (apply Nat.ltb_ge; exact HL).
  assert (X1 : String.eqb (eval_loc j) (evec_loc j) = false) by (apply String.eqb_neq; apply eval_evec).
  assert (X2 : String.eqb (eval_loc j) (order_loc j) = false) by (apply String.eqb_neq; apply eval_order).
  assert (X3 : String.eqb (evec_loc j) (order_loc j) = false) by (apply String.eqb_neq; apply evec_order).
  assert (R1 : solo (construct (fun _ => None) j) empty_disk
    = (Ok (Solution (Evals ev) (Evecs vec) (OrderArray (Orders ords))),
       set (set (set empty_disk (eval_loc j) (Full (Evals ev))) (evec_loc j) (Full (Evecs vec)))
         (order_loc j) (Full (Orders ords)))).
  { unfold construct. cbn [j j_kind]. unfold solve_polar, load. cbn [solo]. unfold empty_disk at 1.
    rewrite LT. cbn [solo py_prefix_opt]. reflexivity. }
  rewrite R1 in Ha. cbn [fst snd] in Ha.
  match type of Ha with context [solo _ ?d] => set (d1 := d) in Ha end.
  assert (D1 : d1 (eval_loc j) = Some (Full (Evals ev))) by (unfold d1, set; rewrite X2, X1, String.eqb_refl; reflexivity).
  assert (D2 : d1 (evec_loc j) = Some (Full (Evecs vec))) by (unfold d1, set; rewrite X3, String.eqb_refl; reflexivity).
  assert (D3 : d1 (order_loc j) = Some (Full (Orders ords))) by (unfold d1, set; rewrite String.eqb_refl; reflexivity).
  clearbody d1.
  assert (R2 : fst (solo (construct (fun _ => None) j) d1) = Err ValueError).
  { unfold construct. cbn [j j_kind]. unfold solve_polar, load. cbn [solo]. rewrite D1. cbn [solo]. rewrite D2.
    cbn [solo]. rewrite D3. unfold order_mask.
    assert (Nat.eqb (List.length [0; 0; 0]%Z) (List.length ords) = false) as ->
      by (apply Nat.eqb_neq; cbn [List.length]; lia).
    reflexivity. }
  rewrite R2 in Ha. exact Ha.
Qed.
Print Assumptions C15_order_array_refuted.

Lemma nth_error_combine {A B} (l : list A) (l' : list B) k : nth_error (combine l l') k
  = match nth_error l k, nth_error l' k with Some a, Some b => Some (a, b) | _, _ => None end.
Proof.
  revert l' k. induction l as [|a l IH]; intros [|b l'] [|k]; cbn; try reflexivity.
  - destruct (nth_error l k); reflexivity.
  - apply IH.
Qed.

(** An array of orders of the length of the stored ones selects the positions at
    which the two agree; an array of one order means that order. *)
Theorem C15_order_array : forall E V loc N L (ev : list E) (vec : list V) (ords a : list Z) all one (d : disk E V),
  let j := Job loc N (Cache.Polar L (OrderArray (Orders a)) all one) in
  d (eval_loc j) = Some (Full (Evals ev)) -> d (evec_loc j) = Some (Full (Evecs vec)) ->
  d (order_loc j) = Some (Full (Orders ords)) ->
  List.length ev = List.length ords -> List.length vec = List.length ords -> List.length a = List.length ords ->
  List.length ords <> 1 ->
  exists ev' vec' places, solo (construct (fun _ => None) j) d
      = (Ok (Solution (Evals ev') (Evecs vec') (OrderArray (Orders a))), d) /\
    StronglySorted lt places /\
    (forall k, In k places <-> exists m, nth_error ords k = Some m /\ nth_error a k = Some m) /\
    List.length ev' = List.length places /\ List.length vec' = List.length places /\
    forall i k, nth_error places i = Some k ->
      nth_error ev' i = nth_error ev k /\ nth_error vec' i = nth_error vec k.
Proof.
  intros E V loc N L ev vec ords a all one d j D1 D2 D3 H1 H2 Ha Hn.
  set (mask := map (fun p => Z.eqb (fst p) (snd p)) (combine ords a)).
  assert (Lm : List.length mask = List.length ords) by (unfold mask; rewrite map_length, combine_length, Ha, Nat.min_id; reflexivity).
  assert (OM : order_mask (E := E) (V := V) (Orders ords) (OrderArray (Orders a)) = Ok mask).
  { unfold order_mask. destruct a as [|m [|m' a]]; [|cbn in Ha; congruence|]; rewrite Ha, Nat.eqb_refl; reflexivity. }
  assert (WH : forall k, In k (np_where mask) <-> exists m, nth_error ords k = Some m /\ nth_error a k = Some m).
  { intros k. unfold np_where. rewrite filter_In, in_seq, Lm. split.
    - intros [Hk Hb]. destruct (nth_error ords k) as [x|] eqn:Ex; [|apply nth_error_None in Ex; lia].
      destruct (nth_error a k) as [y|] eqn:Ey; [|apply nth_error_None in Ey; lia].
      assert (K : nth_error mask k = Some (Z.eqb x y)).
      { unfold mask. rewrite nth_error_map, nth_error_combine, Ex, Ey. reflexivity. }
      rewrite (nth_error_nth _ _ false K) in Hb. apply Z.eqb_eq in Hb. subst y. exists x. split; reflexivity.
    - intros (m & Ex & Ey). split; [split; [lia|]; cbn; apply nth_error_Some; rewrite Ex; discriminate|].
      assert (K : nth_error mask k = Some (Z.eqb m m)).
      { unfold mask. rewrite nth_error_map, nth_error_combine, Ex, Ey. reflexivity. }
      rewrite (nth_error_nth _ _ false K). apply Z.eqb_refl. }
  assert (Hin : forall k, In k (np_where mask) -> k < List.length ords).
  { intros k Hk. apply WH in Hk. destruct Hk as (m & Ex & _). apply nth_error_Some. rewrite Ex. discriminate. }
  assert (FA : forall {A} (l : list A) idx, (forall k, In k idx -> k < List.length l) ->
            exists l', fancy l idx = Ok l' /\ List.length l' = List.length idx /\
              forall i k, nth_error idx i = Some k -> nth_error l' i = nth_error l k).
  { intros A l idx. induction idx as [|k idx IH]; intros Hk.
    - exists []. split; [reflexivity|]. split; [reflexivity|]. intros [|i] k E0; discriminate.
    - destruct IH as (l' & E1 & E2 & E3); [intros; apply Hk; right; assumption|].
      destruct (nth_error l k) as [x|] eqn:Ex.
      + exists (x :: l'). unfold fancy in *. cbn [rmap]. rewrite Ex. cbn [rbind]. rewrite E1. cbn [rbind].
        split; [reflexivity|]. split; [cbn; congruence|]. intros [|i] k' Ei; cbn in Ei |- *.
        * injection Ei as <-. symmetry. exact Ex.
        * apply E3, Ei.
      + apply nth_error_None in Ex. specialize (Hk k (or_introl eq_refl)). lia. }
  destruct (FA E ev (np_where mask)) as (ev' & A1 & A2 & A3); [intros; rewrite H1; auto|].
  destruct (FA V vec (np_where mask)) as (vec' & B1 & B2 & B3); [intros; rewrite H2; auto|].
  exists ev', vec', (np_where mask). split; [|split; [|split; [exact WH|split; [exact A2|split; [exact B2|]]]]].
  - unfold construct. cbn [j j_kind]. unfold solve_polar, load. cbn [solo]. rewrite D1. cbn [solo]. rewrite D2.
    cbn [solo]. rewrite D3. rewrite OM. cbn [rbind npy_take]. rewrite A1. cbn [rbind]. rewrite B1. reflexivity.
  - unfold np_where. generalize 0 (List.length mask). intros s n. revert s. induction n as [|n IH]; intros s; [constructor|].
    cbn [seq filter]. destruct (nth s mask false); [|apply IH]. constructor; [apply IH|].
    apply Forall_forall. intros x Hx. apply filter_In in Hx. destruct Hx as [Hx _]. apply in_seq in Hx. lia.
  - intros i k Hi. split; [apply A3|apply B3]; exact Hi.
Qed.
Print Assumptions C15_order_array.

Example C15_order_array_case : forall E V loc N L (x y z : E) (u v w : V) all one,
  let j := Job loc N (Cache.Polar L (OrderArray (Orders [0; 1; -1]%Z)) all one) in
  let d := set (set (set empty_disk (eval_loc j) (Full (Evals [x; y; z]))) (evec_loc j) (Full (Evecs [u; v; w])))
             (order_loc j) (Full (Orders [0; -1; -1]%Z)) in
  fst (solo (construct (fun _ => None) j) d)
  = Ok (Solution (Evals [x; z]) (Evecs [u; w]) (OrderArray (Orders [0; 1; -1]%Z))).
Proof.
  intros E V loc N L x y z u v w all one j d.
  assert (X1 : String.eqb (eval_loc j) (evec_loc j) = false) by (apply String.eqb_neq; apply eval_evec).
  assert (X2 : String.eqb (eval_loc j) (order_loc j) = false) by (apply String.eqb_neq; apply eval_order).
  assert (X3 : String.eqb (evec_loc j) (order_loc j) = false) by (apply String.eqb_neq; apply evec_order).
  assert (D1 : d (eval_loc j) = Some (Full (Evals [x; y; z]))) by (unfold d, set; rewrite X2, X1, String.eqb_refl; reflexivity).
  assert (D2 : d (evec_loc j) = Some (Full (Evecs [u; v; w]))) by (unfold d, set; rewrite X3, String.eqb_refl; reflexivity).
  assert (D3 : d (order_loc j) = Some (Full (Orders [0; -1; -1]%Z))) by (unfold d, set; rewrite String.eqb_refl; reflexivity).
  clearbody d. unfold construct. cbn [j j_kind]. unfold solve_polar, load. cbn [solo]. rewrite D1. cbn [solo]. rewrite D2.
  cbn [solo]. rewrite D3. reflexivity.
Qed.

(** ** Concrete histories meeting the hypotheses *)
Local Open Scope string_scope.
Definition jobA : job Z Z := Job "A" 1 (Plain (Ok ([5; 4; 3]%Z, [50; 40; 30]%Z))).
Definition jobB : job Z Z :=
  Job "B" 2 (Cache.Polar 17 AllOrders (Ok ([9; 8; 7]%Z, [90; 80; 70]%Z, [0; 1; -1]%Z)) (fun _ => Err ValueError)).
(** A starts and dies after its first write, B runs, A again. *)
Definition history : list (action Z Z) :=
  [Spawn jobA; Step 0; Step 0; Spawn jobB; Step 1; Step 1; Step 1; Step 1; Spawn jobA; Step 2; Step 2; Step 2; Step 2].
Example C11_example : no_sharing (spawned history) /\ registry_sound (fun _ => None) (spawned history)
  /\ map snd (st_procs (exec (fun _ => None) true history init))
     = [Write (evec_loc jobA) (Evecs [50%Z]) (Ret (Ok (Solution (Evals [5; 4; 3]%Z) (Evecs [50; 40; 30]%Z) AllOrders)));
        Ret (Ok (Solution (Evals [9; 8; 7]%Z) (Evecs [90; 80; 70]%Z) (OrderArray (Orders [0; 1; -1]%Z))));
        Ret (Ok (Solution (Evals [5; 4; 3]%Z) (Evecs [50; 40; 30]%Z) AllOrders))].
Proof.
  split; [|split].
  - intros j j' H H' HL. cbn in H, H'. intuition (subst; try discriminate; unfold same_problem; cbn; auto).
  - intros j f r _ _ H. cbv beta in H. discriminate.
  - vm_compute. reflexivity.
Qed.
