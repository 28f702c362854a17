From Coq Require Import List Arith Bool Reals Lia Sorting.Permutation.
From Verif Require Import Base ListLemmas Parallel ParallelProofs Machine MachineProofs Job JobProofs Fault.
Import ListNotations.

Lemma inject_nth {F} faults (codes : list (list (instr F))) k0 k :
  nth_error (inject faults k0 codes) k = option_map (cut_code (faults (k0 + k))) (nth_error codes k).
Proof.
  revert k0 k. induction codes as [|c cs IH]; intros k0 [|k]; simpl; auto.
  - rewrite Nat.add_0_r. reflexivity.
  - rewrite IH. f_equal. f_equal. f_equal. lia.
Qed.

Lemma inject_length {F} faults (codes : list (list (instr F))) k0 :
  length (inject faults k0 codes) = length codes.
Proof. revert k0. induction codes; intros; simpl; auto. Qed.

(** The instructions a worker gets to execute. *)
Definition kept {F} (f : option (nat * exn)) (c : list (instr F)) : list (instr F) :=
  match f with Some (n, _) => firstn n c | None => c end.

Section Sim.
  Context {F : Type}.
  Variable dim : nat.
  Variable compute : nat -> F.
  Variable nb : nat.
  Variable faults : nat -> option (nat * exn).

  Fixpoint keep_from (k : nat) (codes : list (list (instr F))) : list (list (instr F)) :=
    match codes with [] => [] | c :: cs => kept (faults k) c :: keep_from (S k) cs end.

  Lemma keep_nth codes k0 k :
    nth_error (keep_from k0 codes) k = option_map (kept (faults (k0 + k))) (nth_error codes k).
  Proof.
    revert k0 k. induction codes as [|c cs IH]; intros k0 [|k]; simpl; auto.
    - rewrite Nat.add_0_r. reflexivity.
    - rewrite IH. f_equal. f_equal. f_equal. lia.
  Qed.
  Lemma keep_length codes k0 : length (keep_from k0 codes) = length codes.
  Proof. revert k0. induction codes; intros; simpl; auto. Qed.

  (** A worker that will raise, next to one that just stops. *)
  Definition tsim (f : option (nat * exn)) (t t' : thread F) : Prop :=
    tloc t = tloc t' /\
    match f with
    | None => t = t'
    | Some (_, e) =>
        failed t' = None ->
        (code t = code t' ++ [IRaise e] /\ failed t = None) \/
        (code t = [] /\ code t' = [] /\ failed t = Some e)
    end.

  Inductive psim : nat -> list (thread F) -> list (thread F) -> Prop :=
  | psim_nil k : psim k [] []
  | psim_cons k t t' ts ts' : tsim (faults k) t t' -> psim (S k) ts ts' -> psim k (t :: ts) (t' :: ts').

  Definition ysim (y y' : system F) : Prop :=
    par y = par y' /\ sh y = sh y' /\ psim 0 (pool y) (pool y').

  Lemma psim_nth k0 ts ts' k t : psim k0 ts ts' -> nth_error ts k = Some t ->
    exists t', nth_error ts' k = Some t' /\ tsim (faults (k0 + k)) t t'.
  Proof.
    intros H. revert k. induction H as [kz|k0 t0 t0' ts ts' Ht Hs IH]; intros k E.
    - destruct k; discriminate.
    - destruct k as [|k]; simpl in *.
      + injection E as <-. exists t0'. rewrite Nat.add_0_r. auto.
      + destruct (IH k E) as (t' & E' & Hx). exists t'. split; [exact E'|].
        replace (k0 + S k) with (S k0 + k) by lia. exact Hx.
  Qed.

  Lemma psim_none k0 ts ts' k : psim k0 ts ts' -> nth_error ts k = None -> nth_error ts' k = None.
  Proof.
    intros H. revert k. induction H; intros [|j] E; simpl in *; auto; try discriminate.
  Qed.

  Lemma psim_set k0 ts ts' k t t' : psim k0 ts ts' -> tsim (faults (k0 + k)) t t' ->
    psim k0 (set_nth k t ts) (set_nth k t' ts').
  Proof.
    intros H. revert k. induction H as [kz|k0 t0 t0' ts ts' Ht Hs IH]; intros k Hx.
    - destruct k; constructor.
    - destruct k as [|k]; simpl.
      + rewrite Nat.add_0_r in Hx. constructor; assumption.
      + constructor; [exact Ht|]. apply IH. replace (S k0 + k) with (k0 + S k) by lia. exact Hx.
  Qed.

  Lemma psim_start codes k0 : psim k0 (map start (inject faults k0 codes)) (map start (keep_from k0 codes)).
  Proof.
    revert k0. induction codes as [|c cs IH]; intros k0; simpl; constructor; [|apply IH].
    split; [reflexivity|]. unfold cut_code, kept. destruct (faults k0) as [[n e]|]; [|reflexivity].
    intros _. left. split; reflexivity.
  Qed.

  Lemma psim_done k0 ts ts' : psim k0 ts ts' -> Forall (fun t => failed t = None) ts' ->
    all_done ts -> all_done ts'.
  Proof.
    intros H Hf Hd. unfold all_done in *. induction H as [kz|k0 t t' ts ts' Ht Hs IH]; [constructor|].
    inversion Hf; subst. inversion Hd; subst. constructor; [|apply IH; assumption].
    destruct Ht as [_ Ht]. destruct (faults k0) as [[n e]|].
    - destruct (Ht H1) as [[E _]|(_ & E & _)]; [|exact E].
      rewrite H3 in E. destruct (code t'); discriminate.
    - subst. assumption.
  Qed.

  Variable codes : list (list (instr F)).
  Variable m0 garbage : nat -> nat -> nat -> R.
  Variable own : nat -> nat -> nat -> nat -> Prop.
  Hypothesis own_disjoint : forall j k b r c, own j b r c -> own k b r c -> j = k.
  Hypothesis codes_ok : forall k c, nth_error codes k = Some c -> pok dim true (own k) nb c pst0.
  Hypothesis dim_pos : dim <> 0.
  Hypothesis codes_pos : codes <> [].
  Hypothesis m0_def : forall b r c, m0 b r c = if b <? nb then 0%R else garbage b r c.

  Lemma pok_weaken (o : nat -> nat -> nat -> Prop) (c : list (instr F)) p n :
    pok dim true o nb c p -> pok dim false o nb (firstn n c) p.
  Proof.
    revert p n. induction c as [|i c IH]; intros p [|n] H; simpl; try discriminate.
    simpl in H. destruct H as [H1 H2]. auto.
  Qed.

  Lemma pok_weaken' (o : nat -> nat -> nat -> Prop) (c : list (instr F)) p :
    pok dim true o nb c p -> pok dim false o nb c p.
  Proof. intros H. rewrite <- (firstn_all c). apply pok_weaken. exact H. Qed.

  Lemma kept_ok k c : nth_error (keep_from 0 codes) k = Some c -> pok dim false (own k) nb c pst0.
  Proof.
    rewrite keep_nth. simpl. destruct (nth_error codes k) as [c0|] eqn:E; [|discriminate].
    simpl. intros H. injection H as <-. specialize (codes_ok k c0 E).
    unfold kept. destruct (faults k) as [[n e]|]; [apply pok_weaken|apply pok_weaken']; assumption.
  Qed.

  Lemma keep_pos : keep_from 0 codes <> [].
  Proof. intros H. apply codes_pos. apply length_zero_iff_nil. rewrite <- (keep_length codes 0), H. reflexivity. Qed.
  Lemma inject_pos : inject faults 0 codes <> [].
  Proof. intros H. apply codes_pos. apply length_zero_iff_nil. rewrite <- (inject_length faults codes 0), H. reflexivity. Qed.

  Notation clean sc := (run_system dim compute nb (keep_from 0 codes) sc (init_system nb garbage)).
  Notation faulty sc := (run_system dim compute nb (inject faults 0 codes) sc (init_system nb garbage)).

  Lemma clean_safe sc : pfail (par (clean sc)) = None /\ Forall (fun t => failed t = None) (pool (clean sc)).
  Proof.
    exact (system_safe dim compute false nb m0 own (keep_from 0 codes) own_disjoint kept_ok dim_pos
             keep_pos garbage m0_def sc).
  Qed.

  Lemma run_snoc cds sc w y : run_system dim compute nb cds (sc ++ [w]) y
    = step dim compute nb cds w (run_system dim compute nb cds sc y).
  Proof. unfold run_system. rewrite fold_left_app. reflexivity. Qed.

  Lemma simulate sc : exists sc', ysim (faulty sc) (clean sc').
  Proof.
    induction sc as [|w sc IH] using rev_ind.
    { exists []. split; [reflexivity|]. split; [reflexivity|]. constructor. }
    destruct IH as (sc' & Hp & Hs & Hpool).
    destruct (clean_safe sc') as [Hpf Hcf].
    rewrite run_snoc. set (y := faulty sc) in *. set (y' := clean sc') in *.
    destruct w as [|k]; cbn [step].
    - (* caller *)
      destruct (pcode (par y)) as [|i c] eqn:Ec.
      { exists sc'. unfold step_parent. rewrite Ec. fold y'. split; auto. }
      destruct i as [b| | | |b|b].
      + exists (sc' ++ [Caller]). rewrite run_snoc. fold y'. cbn [step].
        unfold step_parent. rewrite <- Hp, Ec, <- Hs. destruct (dim =? 0).
        * unfold fail_parent. split; [simpl; rewrite Hp; reflexivity|]. auto.
        * split; [reflexivity|]. split; [reflexivity|exact Hpool].
      + exists (sc' ++ [Caller]). rewrite run_snoc. fold y'. cbn [step].
        unfold step_parent. rewrite <- Hp, Ec, <- Hs.
        rewrite (nonnil_match (inject faults 0 codes)) by exact inject_pos.
        rewrite (nonnil_match (keep_from 0 codes)) by exact keep_pos.
        split; [reflexivity|]. split; [reflexivity|]. apply psim_start.
      + destruct (all_doneb (pool y)) eqn:Ed.
        * exists (sc' ++ [Caller]). rewrite run_snoc. fold y'. cbn [step].
          unfold step_parent. rewrite <- Hp, Ec, <- Hs, Ed.
          apply all_doneb_spec in Ed.
          pose proof (psim_done _ _ _ Hpool Hcf Ed) as Ed'. apply all_doneb_spec in Ed'. rewrite Ed'.
          split; [reflexivity|]. split; [reflexivity|exact Hpool].
        * exists sc'. unfold step_parent. rewrite Ec, Ed. split; auto.
      + exists (sc' ++ [Caller]). rewrite run_snoc. fold y'. cbn [step].
        unfold step_parent. rewrite <- Hp, Ec, <- Hs. destruct (forallb _ _).
        * split; [reflexivity|]. split; [reflexivity|exact Hpool].
        * unfold fail_parent. split; [simpl; rewrite Hp; reflexivity|]. auto.
      + exists (sc' ++ [Caller]). rewrite run_snoc. fold y'. cbn [step].
        unfold step_parent. rewrite <- Hp, Ec, <- Hs.
        split; [reflexivity|]. split; [reflexivity|exact Hpool].
      + exists (sc' ++ [Caller]). rewrite run_snoc. fold y'. cbn [step].
        unfold step_parent. rewrite <- Hp, Ec, <- Hs. destruct (linked _ _).
        * split; [reflexivity|]. split; [reflexivity|exact Hpool].
        * unfold fail_parent. split; [simpl; rewrite Hp; reflexivity|]. auto.
    - (* worker *)
      unfold step_worker. destruct (nth_error (pool y) k) as [t|] eqn:Ek.
      2:{ exists sc'. split; auto. }
      destruct (psim_nth _ _ _ _ _ Hpool Ek) as (t' & Ek' & Ht). simpl in Ht.
      destruct (code t') as [|i' c'] eqn:Ec'.
      + (* the clean worker has stopped *)
        exists sc'. fold y'.
        assert (Hft : failed t' = None).
        { rewrite Forall_forall in Hcf. apply Hcf. eapply nth_error_In; exact Ek'. }
        assert (Hx : exists t1, step1 dim compute t (sh y) = (t1, sh y) /\ tsim (faults k) t1 t').
        { destruct Ht as [Hl Ht]. destruct (faults k) as [[n e]|] eqn:Ef.
          - destruct (Ht Hft) as [[E1 E2]|(E1 & E2 & E3)].
            + exists (mkThread (tloc t) [] (Some e)). unfold step1. rewrite E1, Ec'. simpl.
              split; [reflexivity|]. split; [exact Hl|]. intros _. right. auto.
            + exists t. unfold step1. rewrite E1. split; [reflexivity|]. split; [exact Hl|].
              intros _. right. auto.
          - subst t'. exists t. unfold step1. rewrite Ec'. split; [reflexivity|]. split; auto. }
        destruct Hx as (t1 & E & Ht1). rewrite E.
        split; [exact Hp|]. split; [exact Hs|]. simpl.
        rewrite <- (set_nth_same k t' (pool y') Ek'). apply psim_set; assumption.
      + exists (sc' ++ [Worker k]). rewrite run_snoc. fold y'. cbn [step].
        unfold step_worker. rewrite Ek'.
        assert (Hft : failed t' = None).
        { rewrite Forall_forall in Hcf. apply Hcf. eapply nth_error_In; exact Ek'. }
        assert (Hft' : failed (fst (step1 dim compute t' (sh y'))) = None).
        { destruct (clean_safe (sc' ++ [Worker k])) as [_ H2]. rewrite run_snoc in H2. fold y' in H2.
          cbn [step] in H2. unfold step_worker in H2. rewrite Ek' in H2.
          destruct (step1 dim compute t' (sh y')) as [t2 s2]. simpl in *.
          rewrite Forall_forall in H2. apply H2.
          assert (Hk : k < length (pool y')) by (apply nth_error_Some; rewrite Ek'; discriminate).
          eapply nth_error_In. apply nth_error_set_nth_eq. exact Hk. }
        assert (Hx : exists t1, step1 dim compute t (sh y) = (t1, snd (step1 dim compute t' (sh y'))) /\
                       tsim (faults k) t1 (fst (step1 dim compute t' (sh y')))).
        { destruct Ht as [Hl Ht]. destruct (faults k) as [[n e]|] eqn:Ef.
          - destruct (Ht Hft) as [[E1 E2]|(E1 & E2 & E3)]; [|rewrite Ec' in E2; discriminate].
            revert Hft'. unfold step1. rewrite E1, Ec', Hl, <- Hs. cbn [app].
            destruct (exec dim compute i' (tloc t') (sh y)) as [[l s]|e'] eqn:Ex; simpl; intros Hft'.
            + eexists. split; [reflexivity|]. split; [reflexivity|]. intros _. left. split; auto.
            + discriminate.
          - subst t'. rewrite Hs. eexists. split; [apply surjective_pairing|]. split; reflexivity. }
        destruct Hx as (t1 & E & Ht1). rewrite E.
        destruct (step1 dim compute t' (sh y')) as [t2 s2]. cbn [fst snd] in *.
        split; [exact Hp|]. split; [reflexivity|]. simpl. apply psim_set; assumption.
  Qed.

  Lemma psim_failed k0 ts ts' : psim k0 ts ts' -> Forall (fun t => failed t = None) ts' ->
    forall k t e, nth_error ts k = Some t -> failed t = Some e -> exists n, faults (k0 + k) = Some (n, e).
  Proof.
    intros H Hf k t e Hk He. destruct (psim_nth _ _ _ _ _ H Hk) as (t' & Hk' & _ & Ht).
    assert (Hf' : failed t' = None).
    { rewrite Forall_forall in Hf. apply Hf. eapply nth_error_In; exact Hk'. }
    destruct (faults (k0 + k)) as [[n e']|].
    - destruct (Ht Hf') as [[_ E]|(_ & _ & E)]; rewrite He in E; [discriminate|].
      injection E as <-. eauto.
    - subst. congruence.
  Qed.

  (** Whatever the injected failures: the caller never fails, and a worker
      only ever ends with the exception injected into it. *)
  Lemma faulty_safe sc :
    pfail (par (faulty sc)) = None /\
    forall k t e, nth_error (pool (faulty sc)) k = Some t -> failed t = Some e ->
      exists n, faults k = Some (n, e).
  Proof.
    destruct (simulate sc) as (sc' & Hp & Hs & Hpool). destruct (clean_safe sc') as [H1 H2].
    split; [rewrite Hp; exact H1|]. intros k t e Hk He.
    exact (psim_failed _ _ _ Hpool H2 k t e Hk He).
  Qed.

  Lemma faulty_result sc : finished (faulty sc) ->
    (exists m, outcome (faulty sc) = Ok m /\
       forall k c b r cc, nth_error codes k = Some c -> own k b r cc ->
         m b r cc = snd (ideal compute (kept (faults k) c) (local0, m0)) b r cc) /\
    (forall b, pmapped (par (faulty sc)) b = false) /\
    (forall b, b < nb -> linked (sh (faulty sc)) b = false).
  Proof.
    intros Hf. destruct (simulate sc) as (sc' & Hp & Hs & Hpool).
    assert (Hf' : finished (clean sc')) by (unfold finished in *; rewrite <- Hp; exact Hf).
    destruct (system_result dim compute false nb m0 own (keep_from 0 codes) own_disjoint kept_ok dim_pos
             keep_pos garbage m0_def sc' Hf') as ((m & Ho & Hg & _) & _ & H1 & H2).
    split; [|rewrite Hp, Hs; auto]. exists m. split.
    - unfold outcome in *. rewrite Hp. exact Ho.
    - intros k c b r cc Hk Hown. apply (Hg k); [|exact Hown].
      rewrite keep_nth. simpl. rewrite Hk. reflexivity.
  Qed.
End Sim.

(** ** The jobs with failing workers *)
Lemma chunk_in n ncpu ch i :
  0 < ncpu -> In ch (split_arr_into_chunks n ncpu) -> In i ch -> i < n.
Proof.
  intros Hp Hc Hi. assert (H : In i (seq 0 n)).
  { eapply Permutation_in; [apply (chunks_perm n ncpu Hp)|]. apply in_concat. exists ch. auto. }
  apply in_seq in H. lia.
Qed.

Section JobFault.
  Context {F : Type}.
  Variable n nb : nat.
  Variable compute : nat -> F.
  Variable seg : nat -> list (instr F).
  Variable Own Det : nat -> nat -> nat -> nat -> Prop.
  Variable val : nat -> nat -> nat -> nat -> R.
  Hypothesis Own_disjoint : forall i j b r c, Own i b r c -> Own j b r c -> i = j.
  Hypothesis Det_Own : forall i b r c, Det i b r c -> Own i b r c.
  Hypothesis seg_ok : forall i p, i < n -> Pgood nb p ->
    pall n nb (Own i) (seg i) p /\ Pgood nb (pend n nb (seg i) p).
  Hypothesis seg_frame : forall i st b r c, i < n -> ~ Own i b r c ->
    snd (ideal compute (seg i) st) b r c = snd st b r c.
  Hypothesis seg_value : forall i st b r c, i < n -> Det i b r c ->
    snd (ideal compute (seg i) st) b r c = val i b r c.
  Variable ncpu : nat.
  Hypothesis n_pos : 0 < n.
  Hypothesis ncpu_pos : 0 < ncpu.
  Variable faults : nat -> option (nat * exn).
  Variable garbage : nat -> nat -> nat -> R.
  Notation chs := (split_arr_into_chunks n ncpu).
  Notation run sched := (faulty_run nb seg compute n ncpu faults garbage sched).
  Notation m0 := (fun b r c => if b <? nb then 0%R else garbage b r c).

  Lemma cdisj j k b r c : own Own chs j b r c -> own Own chs k b r c -> j = k.
  Proof. eapply own_disj; eassumption. Qed.
  Lemma cfine k c : nth_error (job_codes nb seg n ncpu) k = Some c ->
    pok n true (own Own chs k) nb c pst0.
  Proof. eapply codes_fine; eassumption. Qed.
  Lemma cne : job_codes nb seg n ncpu <> [].
  Proof. eapply codes_nonempty; eassumption. Qed.

  Lemma job_fault_safe sched :
    pfail (par (run sched)) = None /\
    forall k t e, nth_error (pool (run sched)) k = Some t -> failed t = Some e ->
      exists c, faults k = Some (c, e).
  Proof.
    exact (faulty_safe n compute nb faults (job_codes nb seg n ncpu) m0 garbage (own Own chs)
             cdisj cfine ltac:(lia) cne ltac:(reflexivity) sched).
  Qed.

  Lemma firstn_attach_noop k c st : k <= nb ->
    ideal compute (firstn k (worker_code nb seg c)) st = st.
  Proof.
    intros Hk. apply ideal_noop. intros i Hi. unfold worker_code in Hi.
    rewrite firstn_app, map_length, seq_length in Hi.
    replace (k - nb) with 0 in Hi by lia. simpl in Hi. rewrite app_nil_r in Hi.
    apply In_nth_error in Hi. destruct Hi as [j Hj].
    assert (Hin : In i (map IAttach (seq 0 nb))).
    { destruct (Nat.ltb_spec j k) as [Hlt|Hge].
      - rewrite nth_error_firstn in Hj by exact Hlt. eapply nth_error_In; exact Hj.
      - rewrite nth_error_firstn_none in Hj by exact Hge. discriminate. }
    apply in_map_iff in Hin. destruct Hin as (b & <- & _). eauto.
  Qed.

  Lemma job_fault_result sched : finished (run sched) ->
    (exists m, outcome (run sched) = Ok m /\
      (forall k ch i b r c, nth_error chs k = Some ch -> In i ch -> faults k = None ->
         Det i b r c -> m b r c = val i b r c) /\
      (forall k ch i b r c cut e, nth_error chs k = Some ch -> In i ch ->
         faults k = Some (cut, e) -> cut <= nb -> b < nb -> Own i b r c -> m b r c = 0%R)) /\
    (forall b, pmapped (par (run sched)) b = false) /\
    (forall b, b < nb -> linked (sh (run sched)) b = false).
  Proof.
    intros Hf.
    destruct (faulty_result n compute nb faults (job_codes nb seg n ncpu) m0 garbage (own Own chs)
             cdisj cfine ltac:(lia) cne ltac:(reflexivity) sched Hf) as ((m & Ho & Hm) & Hp & Hl).
    split; [|auto]. exists m. split; [exact Ho|].
    assert (Hcode : forall k ch, nth_error chs k = Some ch ->
              nth_error (job_codes nb seg n ncpu) k = Some (worker_code nb seg ch)).
    { intros k ch Hk. unfold job_codes. rewrite nth_error_map, Hk. reflexivity. }
    split.
    - intros k ch i b r c Hk Hi Hfk Hd.
      rewrite (Hm k _ b r c (Hcode k ch Hk)) by (exists ch, i; auto).
      unfold kept. rewrite Hfk, ideal_worker.
      apply (flat_value n compute seg Own Det val Own_disjoint Det_Own seg_frame seg_value ch _ i); auto.
      intros j Hj. apply (chunk_in n ncpu ch j ncpu_pos); [eapply nth_error_In; exact Hk|exact Hj].
    - intros k ch i b r c cut e Hk Hi Hfk Hcut Hb Hd.
      rewrite (Hm k _ b r c (Hcode k ch Hk)) by (exists ch, i; auto).
      unfold kept. rewrite Hfk, firstn_attach_noop by exact Hcut. simpl.
      destruct (Nat.ltb_spec b nb); [reflexivity|lia].
  Qed.
End JobFault.
