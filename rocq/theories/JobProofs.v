From Coq Require Import List Arith Bool Reals Lia Sorting.Permutation.
From Verif Require Import Base ListLemmas Parallel ParallelProofs Machine MachineProofs Job.
Import ListNotations.

Section JobP.
  Context {F : Type}.
  Variable n nb : nat.
  Variable compute : nat -> F.
  Variable seg : nat -> list (instr F).

  (** Preconditions only, and the protocol state reached. *)
  Fixpoint pall (own : nat -> nat -> nat -> Prop) (c : list (instr F)) (p : pst) : Prop :=
    match c with
    | [] => True
    | i :: c' => fst (pnext n own nb i p) /\ pall own c' (snd (pnext n own nb i p))
    end.
  Fixpoint pend (c : list (instr F)) (p : pst) : pst :=
    match c with
    | [] => p
    | i :: c' => pend c' (snd (pnext n (fun _ _ _ => True) nb i p))
    end.

  Lemma pnext_snd own own' (i : instr F) p : snd (pnext n own nb i p) = snd (pnext n own' nb i p).
  Proof. destruct i; reflexivity. Qed.

  Lemma pok_intro own c p :
    pall own c p -> (forall b, popen (pend c p) b = false) -> pok n true own nb c p.
  Proof.
    revert p. induction c as [|i c IH]; intros p Ha He; simpl in *; [intros _; exact He|].
    destruct Ha as [H1 H2]. split; [exact H1|]. apply IH; [exact H2|].
    rewrite (pnext_snd own (fun _ _ _ => True)). exact He.
  Qed.

  Lemma pend_app c1 c2 p : pend (c1 ++ c2) p = pend c2 (pend c1 p).
  Proof. revert p. induction c1 as [|i c IH]; intros p; simpl; [reflexivity|]. apply IH. Qed.

  Lemma pall_app own c1 c2 p : pall own (c1 ++ c2) p <-> pall own c1 p /\ pall own c2 (pend c1 p).
  Proof.
    revert p. induction c1 as [|i c IH]; intros p; simpl; [tauto|].
    rewrite IH, (pnext_snd own (fun _ _ _ => True)). tauto.
  Qed.

  Lemma pall_mono (own own' : nat -> nat -> nat -> Prop) c p :
    (forall b r cc, own b r cc -> own' b r cc) -> pall own c p -> pall own' c p.
  Proof.
    intros Ho. revert p. induction c as [|i c IH]; intros p; simpl; [auto|].
    intros [H1 H2]. rewrite (pnext_snd own' own). split; [|apply IH, H2].
    destruct i; simpl in *; intuition.
  Qed.

  (** Blocks [0..nb-1] are mapped, no membership test is pending. *)
  Definition Pgood (p : pst) : Prop :=
    (forall b, popen p b = (b <? nb)) /\ ptest p = None.

  Lemma attach_ok own k (p : pst) :
    k <= nb -> (forall b, popen p b = (b <? k)) -> ptest p = None ->
    pall own (map IAttach (seq k (nb - k))) p /\ Pgood (pend (map IAttach (seq k (nb - k))) p).
  Proof.
    remember (nb - k) as d eqn:Ed. revert k p Ed.
    induction d as [|d IH]; intros k p Ed Hk Ho Ht; simpl.
    - split; [exact I|]. split; [|exact Ht]. intros b. rewrite Ho. f_equal. lia.
    - destruct (IH (S k) (mkPst (upd1 (popen p) k true) None (pknown p))) as [H1 H2]; simpl; auto; try lia.
      + intros b. unfold upd1. rewrite Ho, ltb_S. reflexivity.
      + split; [|exact H2]. split; [split; [lia|exact Ht]|exact H1].
  Qed.

  Lemma close_ok own k (p : pst) :
    k <= nb -> (forall b, popen p b = (k <=? b) && (b <? nb)) -> ptest p = None ->
    pall own (map IClose (seq k (nb - k))) p /\
    (forall b, popen (pend (map IClose (seq k (nb - k))) p) b = false).
  Proof.
    remember (nb - k) as d eqn:Ed. revert k p Ed.
    induction d as [|d IH]; intros k p Ed Hk Ho Ht; simpl.
    - split; [exact I|]. intros b. rewrite Ho.
      destruct (Nat.leb_spec k b), (Nat.ltb_spec b nb); auto; lia.
    - destruct (IH (S k) (mkPst (upd1 (popen p) k false) None (pknown p))) as [H1 H2]; cbn [popen ptest]; auto; try lia.
      + intros b. unfold upd1. rewrite Ho. destruct (Nat.eqb_spec b k) as [->|].
        * destruct (Nat.leb_spec (S k) k); [lia|reflexivity].
        * destruct (Nat.leb_spec k b), (Nat.leb_spec (S k) b); auto; lia.
  Qed.

  Variable Own : nat -> nat -> nat -> nat -> Prop.   (* cells index [i] may touch *)
  Variable Det : nat -> nat -> nat -> nat -> Prop.   (* cells index [i] determines *)
  Variable val : nat -> nat -> nat -> nat -> R.
  Hypothesis Own_disjoint : forall i j b r c, Own i b r c -> Own j b r c -> i = j.
  Hypothesis Det_Own : forall i b r c, Det i b r c -> Own i b r c.
  Hypothesis seg_ok : forall i p, i < n -> Pgood p ->
    pall (Own i) (seg i) p /\ Pgood (pend (seg i) p).
  Hypothesis seg_frame : forall i st b r c, i < n -> ~ Own i b r c ->
    snd (ideal compute (seg i) st) b r c = snd st b r c.
  Hypothesis seg_value : forall i st b r c, i < n -> Det i b r c ->
    snd (ideal compute (seg i) st) b r c = val i b r c.

  Definition own (chs : list (list nat)) (k b r c : nat) : Prop :=
    exists ch i, nth_error chs k = Some ch /\ In i ch /\ Own i b r c.

  Lemma flat_ok (own' : nat -> nat -> nat -> Prop) ch p :
    (forall i b r c, In i ch -> Own i b r c -> own' b r c) ->
    (forall i, In i ch -> i < n) -> Pgood p ->
    pall own' (flat_map seg ch) p /\ Pgood (pend (flat_map seg ch) p).
  Proof.
    revert p. induction ch as [|i ch IH]; intros p Ho Hn Hp; simpl; [auto|].
    destruct (seg_ok i p) as [H1 H2]; [apply Hn; left; reflexivity|exact Hp|].
    destruct (IH (pend (seg i) p)) as [H3 H4]; [|intros; apply Hn; right; assumption|exact H2|].
    { intros j b r c Hj. apply Ho. right. exact Hj. }
    rewrite pall_app, pend_app. split; [split|]; auto.
    eapply pall_mono; [|exact H1]. intros b r c. apply Ho. left. reflexivity.
  Qed.

  Lemma worker_ok (own' : nat -> nat -> nat -> Prop) ch :
    (forall i b r c, In i ch -> Own i b r c -> own' b r c) ->
    (forall i, In i ch -> i < n) -> pok n true own' nb (worker_code nb seg ch) pst0.
  Proof.
    intros Ho Hn. unfold worker_code.
    destruct (attach_ok own' 0 pst0) as [A1 A2]; [lia|reflexivity|reflexivity|].
    rewrite Nat.sub_0_r in A1, A2.
    destruct (flat_ok own' ch _ Ho Hn A2) as [B1 [B2 B3]].
    destruct (close_ok own' 0 (pend (flat_map seg ch) (pend (map IAttach (seq 0 nb)) pst0)))
      as [C1 C2]; [lia| |exact B3|].
    { intros b. rewrite B2. reflexivity. }
    rewrite Nat.sub_0_r in C1, C2.
    apply pok_intro; [rewrite !pall_app; auto|]. intros b. rewrite !pend_app. apply C2.
  Qed.

  Lemma ideal_noop (c : list (instr F)) st :
    (forall i, In i c -> exists b, i = IAttach b \/ i = IClose b) -> ideal compute c st = st.
  Proof.
    revert st. induction c as [|i c IH]; intros st H; [reflexivity|].
    unfold ideal in *. simpl. rewrite IH by (intros; apply H; right; assumption).
    destruct (H i (or_introl eq_refl)) as [b [->| ->]]; destruct st; reflexivity.
  Qed.

  Lemma ideal_worker ch st :
    ideal compute (worker_code nb seg ch) st = ideal compute (flat_map seg ch) st.
  Proof.
    unfold worker_code. rewrite !ideal_app, (ideal_noop (map IAttach _)).
    - apply ideal_noop. intros i Hi. apply in_map_iff in Hi. destruct Hi as (b & <- & _). eauto.
    - intros i Hi. apply in_map_iff in Hi. destruct Hi as (b & <- & _). eauto.
  Qed.

  Lemma flat_frame ch st b r c :
    (forall i, In i ch -> i < n) -> (forall i, In i ch -> ~ Own i b r c) ->
    snd (ideal compute (flat_map seg ch) st) b r c = snd st b r c.
  Proof.
    revert st. induction ch as [|i ch IH]; intros st Hn Ho; [reflexivity|]. simpl.
    rewrite ideal_app, IH by (intros; (apply Hn || apply Ho); right; assumption).
    apply seg_frame; [apply Hn|apply Ho]; left; reflexivity.
  Qed.

  Lemma flat_value ch st i b r c :
    (forall j, In j ch -> j < n) -> In i ch -> Det i b r c ->
    snd (ideal compute (flat_map seg ch) st) b r c = val i b r c.
  Proof.
    revert st. induction ch as [|j ch IH]; intros st Hn Hi Hd; [contradiction|]. simpl.
    rewrite ideal_app.
    destruct (in_dec Nat.eq_dec i ch) as [Hin|Hnin].
    - apply IH; auto. intros; apply Hn; right; assumption.
    - destruct Hi as [->|Hi]; [|contradiction].
      rewrite flat_frame.
      + apply seg_value; [apply Hn; left; reflexivity|exact Hd].
      + intros; apply Hn; right; assumption.
      + intros k Hk Ho. apply Hnin.
        rewrite (Own_disjoint i k b r c) by auto. exact Hk.
  Qed.

  Variable ncpu : nat.
  Hypothesis n_pos : 0 < n.
  Hypothesis ncpu_pos : 0 < ncpu.
  Variable garbage : nat -> nat -> nat -> R.

  Let chs := split_arr_into_chunks n ncpu.
  Let m0 : nat -> nat -> nat -> R := fun b r c => if b <? nb then 0%R else garbage b r c.

  Lemma chunk_range ch i : In ch chs -> In i ch -> i < n.
  Proof.
    intros Hc Hi. assert (H : In i (seq 0 n)).
    { eapply Permutation_in; [apply (chunks_perm n ncpu ncpu_pos)|].
      apply in_concat. exists ch. auto. }
    apply in_seq in H. lia.
  Qed.

  Lemma concat_nodup_unique {A} (ll : list (list A)) j k cj ck x :
    NoDup (concat ll) -> nth_error ll j = Some cj -> nth_error ll k = Some ck ->
    In x cj -> In x ck -> j = k.
  Proof.
    revert j k. induction ll as [|l ll IH]; intros j k Hnd Hj Hk Hxj Hxk.
    - destruct j; discriminate.
    - simpl in Hnd.
      assert (Hx : forall i c, nth_error ll i = Some c -> In x c -> In x l -> False).
      { intros i c Hi Hxc Hxl. assert (Hin : In x (concat ll)).
        { apply in_concat. exists c. split; [eapply nth_error_In; eassumption|exact Hxc]. }
        apply in_split in Hin. destruct Hin as (l1 & l2 & E). rewrite E in Hnd.
        rewrite app_assoc in Hnd. apply NoDup_remove_2 in Hnd. apply Hnd.
        rewrite !in_app_iff. left; left; exact Hxl. }
      assert (Hnd' : NoDup (concat ll)).
      { clear -Hnd. induction l as [|y l IHl]; [exact Hnd|]. apply IHl. inversion Hnd; assumption. }
      destruct j as [|j], k as [|k]; simpl in *.
      + reflexivity.
      + injection Hj as <-. exfalso. eapply Hx; eassumption.
      + injection Hk as <-. exfalso. eapply Hx; eassumption.
      + f_equal. eapply IH; eassumption.
  Qed.

  Lemma chs_nodup : NoDup (concat chs).
  Proof.
    eapply Permutation_NoDup; [symmetry; apply (chunks_perm n ncpu ncpu_pos)|]. apply seq_NoDup.
  Qed.

  Lemma own_disj j k b r c : own chs j b r c -> own chs k b r c -> j = k.
  Proof.
    intros (cj & i & Hj & Hi & Ho) (ck & i' & Hk & Hi' & Ho').
    assert (i = i') by (eapply Own_disjoint; eassumption). subst i'.
    eapply concat_nodup_unique; [apply chs_nodup|exact Hj|exact Hk|exact Hi|exact Hi'].
  Qed.

  Lemma codes_fine k c :
    nth_error (job_codes nb seg n ncpu) k = Some c -> pok n true (own chs k) nb c pst0.
  Proof.
    unfold job_codes. rewrite nth_error_map. fold chs.
    destruct (nth_error chs k) as [ch|] eqn:E; [|discriminate]. simpl.
    intros H. injection H as <-. apply worker_ok.
    - intros i b r c Hi Ho. exists ch, i. auto.
    - intros i Hi. eapply chunk_range; [eapply nth_error_In; eassumption|exact Hi].
  Qed.

  Lemma codes_nonempty : job_codes nb seg n ncpu <> [].
  Proof.
    intros H. apply (f_equal (@length _)) in H. unfold job_codes in H.
    rewrite map_length, chunks_count in H. simpl in H. lia.
  Qed.

  Lemma find_chunk i : i < n -> exists k ch, nth_error chs k = Some ch /\ In i ch.
  Proof.
    intros Hi. assert (H : In i (concat chs)).
    { eapply Permutation_in; [symmetry; apply (chunks_perm n ncpu ncpu_pos)|]. apply in_seq. lia. }
    apply in_concat in H. destruct H as (ch & Hc & Hin).
    apply In_nth_error in Hc. destruct Hc as [k Hk]. eauto.
  Qed.

  (** No thread fails at any point of any schedule. *)
  Lemma job_safe sched :
    let y := job_run nb seg compute n ncpu garbage sched in
    pfail (par y) = None /\ Forall (fun t => failed t = None) (pool y).
  Proof.
    unfold job_run. eapply (system_safe n compute true nb m0 (own chs)).
    - exact own_disj.
    - exact codes_fine.
    - lia.
    - exact codes_nonempty.
    - reflexivity.
  Qed.

  Lemma job_result sched :
    let y := job_run nb seg compute n ncpu garbage sched in
    finished y ->
    (exists m, outcome y = Ok m /\
      (forall i b r c, i < n -> Det i b r c -> m b r c = val i b r c) /\
      (forall b r c, b < nb -> (forall i, i < n -> ~ Own i b r c) -> m b r c = 0%R)) /\
    Forall (fun t => code t = [] /\ failed t = None /\ forall b, mapped (tloc t) b = false) (pool y) /\
    (forall b, pmapped (par y) b = false) /\ (forall b, b < nb -> linked (sh y) b = false).
  Proof.
    intros y Hf. unfold y, job_run in *.
    destruct (system_result n compute true nb m0 (own chs) (job_codes nb seg n ncpu)
                own_disj codes_fine ltac:(lia) codes_nonempty garbage ltac:(reflexivity) sched Hf)
      as ((m & Ho & Hg1 & Hg2) & Hc & Hp & Hl).
    split; [|split; [|auto]].
    2:{ eapply Forall_impl; [|exact Hc]. intros t (T1 & T2 & T3). auto. }
    exists m. split; [exact Ho|]. split.
    - intros i b r c Hi Hd. destruct (find_chunk i Hi) as (k & ch & Hk & Hin).
      rewrite (Hg1 k (worker_code nb seg ch)).
      + rewrite ideal_worker. apply flat_value; auto.
        intros j Hj. eapply chunk_range; [eapply nth_error_In; eassumption|exact Hj].
      + unfold job_codes. rewrite nth_error_map. fold chs. rewrite Hk. reflexivity.
      + exists ch, i. auto.
    - intros b r c Hb Hno. rewrite Hg2.
      + unfold m0. destruct (Nat.ltb_spec b nb); [reflexivity|lia].
      + intros k _ (ch & i & Hk & Hi & Ho'). apply (Hno i); [|exact Ho'].
        eapply chunk_range; [eapply nth_error_In; eassumption|exact Hi].
  Qed.
End JobP.
