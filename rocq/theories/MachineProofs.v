(** Soundness of the ownership discipline for [Machine]: if each worker only
    touches cells it owns and follows the attach / close and dictionary
    protocol, then under every complete schedule no worker fails and every
    cell holds what its owner would have computed alone. *)
From Coq Require Import List Arith Bool Reals Lia.
From Verif Require Import Base ListLemmas Machine.
Import ListNotations.

Lemma nonnil_match {A B} (l : list A) (x y : B) :
  l <> [] -> match l with [] => x | _ :: _ => y end = y.
Proof. destruct l; [congruence|reflexivity]. Qed.

Lemma list_eq_nil_dec {A} (l : list A) : {l = []} + {l <> []}.
Proof. destruct l; [left; reflexivity|right; discriminate]. Qed.

Lemma ltb_S b k : (b <? S k) = if b =? k then true else (b <? k).
Proof.
  destruct (Nat.eqb_spec b k); destruct (Nat.ltb_spec b (S k)); try lia; auto;
  destruct (Nat.ltb_spec b k); auto; lia.
Qed.

Section Own.
  Context {F : Type}.
  Variable dim : nat.
  Variable compute : nat -> F.
  (** Whether every worker must end with all its mappings closed. *)
  Variable strict : bool.
  Notation shared := (shared F).
  Notation local := (local F).
  Notation instr := (instr F).
  Notation thread := (thread F).

  (** Static protocol state: mapped blocks, key under test, keys known to be
      in the dictionary. *)
  Record pst := mkPst { popen : nat -> bool; ptest : option nat; pknown : nat -> bool }.
  Definition pst0 : pst := mkPst (fun _ => false) None (fun _ => false).

  (** [pnext own nb i p]: instruction [i] is allowed in protocol state [p] for
      a worker owning the cells [own], with blocks [0..nb-1]. *)
  Definition pnext (own : nat -> nat -> nat -> Prop) (nb : nat) (i : instr) (p : pst)
    : Prop * pst :=
    match i with
    | IAttach b => (b < nb /\ ptest p = None,
                    mkPst (upd1 (popen p) b true) None (pknown p))
    | IClose b => (ptest p = None, mkPst (upd1 (popen p) b false) None (pknown p))
    | IWrite b r c v =>
        (popen p b = true /\ r < dim /\ c < dim /\ own b r c /\ ptest p = None /\
         (forall l l' : local, reg l = reg l' -> fa l = fa l' -> fb l = fb l' -> v l = v l'), p)
    | ILoad b r c => (popen p b = true /\ r < dim /\ c < dim /\ own b r c /\ ptest p = None, p)
    | ICheck k => (ptest p = None, mkPst (popen p) (Some k) (pknown p))
    | ISet k => (ptest p = Some k, mkPst (popen p) None (upd1 (pknown p) k true))
    | IGetA k => (pknown p k = true /\ ptest p = None, p)
    | IGetB k => (pknown p k = true /\ ptest p = None, p)
    | IRaise _ => (False, p)
    end.

  Fixpoint pok (own : nat -> nat -> nat -> Prop) (nb : nat) (c : list instr) (p : pst) : Prop :=
    match c with
    | [] => strict = true -> forall b, popen p b = false
    | i :: c' => fst (pnext own nb i p) /\ pok own nb c' (snd (pnext own nb i p))
    end.

  (** Ideal execution of one worker alone: dictionary look-ups return the
      computed value.  Result: register, operands and cells. *)
  Definition ideal1 (i : instr) (st : local * (nat -> nat -> nat -> R))
    : local * (nat -> nat -> nat -> R) :=
    let (l, m) := st in
    match i with
    | IWrite b r c v => (l, upd3 m b r c (v l))
    | ILoad b r c => (mkLocal (mapped l) (m b r c) (missing l) (fa l) (fb l), m)
    | IGetA k => (mkLocal (mapped l) (reg l) (missing l) (Some (compute k)) (fb l), m)
    | IGetB k => (mkLocal (mapped l) (reg l) (missing l) (fa l) (Some (compute k)), m)
    | _ => (l, m)
    end.
  Definition ideal (c : list instr) (st : local * (nat -> nat -> nat -> R)) :=
    fold_left (fun a i => ideal1 i a) c st.

  Variable nb : nat.
  Variable m0 : nat -> nat -> nat -> R.     (* initial contents *)

  (** Global invariant of the shared state. *)
  Definition Ginv (s : shared) : Prop :=
    (forall b, b < nb -> linked s b = true) /\
    (forall k x, memo s k = Some x -> x = compute k).

  (** Invariant of one worker. *)
  Definition Tinv (own : nat -> nat -> nat -> Prop) (code0 : list instr)
      (t : thread) (s : shared) : Prop :=
    failed t = None /\
    exists dn p,
      code0 = dn ++ code t /\
      pok own nb (code t) p /\
      (forall b, mapped (tloc t) b = popen p b) /\
      (forall k, pknown p k = true -> memo s k <> None) /\
      (forall k, ptest p = Some k -> missing (tloc t) = false -> memo s k <> None) /\
      (let st := ideal dn (local0, m0) in
       reg (tloc t) = reg (fst st) /\ fa (tloc t) = fa (fst st) /\
       fb (tloc t) = fb (fst st) /\
       (forall b r c, own b r c -> cells s b r c = snd st b r c)).

  Lemma ideal_app c1 c2 st : ideal (c1 ++ c2) st = ideal c2 (ideal c1 st).
  Proof. unfold ideal. apply fold_left_app. Qed.

  Lemma ideal_snoc dn i st : ideal (dn ++ [i]) st = ideal1 i (ideal dn st).
  Proof. rewrite ideal_app. reflexivity. Qed.

  Lemma upd1_same {A} (f : nat -> A) b x : upd1 f b x b = x.
  Proof. unfold upd1. rewrite Nat.eqb_refl. reflexivity. Qed.

  (** What a step of a protocol-abiding worker does to the shared state. *)
  Lemma step_effect own code0 t s :
    Ginv s -> Tinv own code0 t s ->
    let (t', s') := step1 dim compute t s in
    Ginv s' /\ Tinv own code0 t' s' /\
    (forall k, memo s k <> None -> memo s' k <> None) /\
    (forall b r c, ~ own b r c -> cells s' b r c = cells s b r c).
  Proof.
    intros [HG1 HG2] (Hf & dn & p & Hc & Hp & Hm & Hk & Ht & Hr & Ha & Hb & Hcell).
    unfold step1. destruct t as [l [|i cs] fl]; simpl in *.
    { split; [split; assumption|]. split; [|split; intros; auto].
      split; [exact Hf|]. exists dn, p. simpl. auto 10. }
    assert (Hc' : code0 = (dn ++ [i]) ++ cs) by (rewrite <- app_assoc; exact Hc).
    assert (Hs := ideal_snoc dn i (local0, m0)).
    destruct (ideal dn (local0, m0)) as [lst mst] eqn:Est. simpl in Hr, Ha, Hb, Hcell.
    destruct Hp as [Hi Hp].
    destruct i as [b|b|b r c v|b r c|k|k|k|k|e]; simpl in *.
    - (* attach *)
      destruct Hi as [Hb' Hn]. rewrite HG1 by exact Hb'.
      split; [split; assumption|]. split; [|split; intros; auto].
      split; [exact Hf|]. eexists _, _. split; [exact Hc'|]. split; [exact Hp|]. simpl.
      rewrite Hs. simpl. repeat split; auto; try discriminate.
      intros b'. unfold upd1. destruct (b' =? b); auto.
    - (* close *)
      split; [split; assumption|]. split; [|split; intros; auto].
      split; [exact Hf|]. eexists _, _. split; [exact Hc'|]. split; [exact Hp|]. simpl.
      rewrite Hs. simpl. repeat split; auto; try discriminate.
      intros b'. unfold upd1. destruct (b' =? b); auto.
    - (* write *)
      destruct Hi as (Ho & Hrd & Hcd & Hown & Hn & Hv).
      rewrite Hm, Ho.
      assert (E : (r <? dim) && (c <? dim) = true)
        by (apply andb_true_intro; split; apply Nat.ltb_lt; assumption).
      rewrite E. split; [split; assumption|]. split; [|split].
      + split; [exact Hf|]. eexists _, _. split; [exact Hc'|]. split; [exact Hp|]. simpl.
        rewrite Hs. simpl. repeat split; auto.
        intros b' r' c' Ho'. unfold upd3.
        destruct ((b' =? b) && (r' =? r) && (c' =? c)); [|auto]. apply Hv; assumption.
      + intros; auto.
      + simpl. intros b' r' c' Ho'. unfold upd3.
        destruct ((b' =? b) && (r' =? r) && (c' =? c)) eqn:E'; [|reflexivity].
        apply andb_prop in E'. destruct E' as [E' E3]. apply andb_prop in E'.
        destruct E' as [E1 E2]. apply Nat.eqb_eq in E1, E2, E3. subst. contradiction.
    - (* load *)
      destruct Hi as (Ho & Hrd & Hcd & Hown & Hn).
      rewrite Hm, Ho.
      assert (E : (r <? dim) && (c <? dim) = true)
        by (apply andb_true_intro; split; apply Nat.ltb_lt; assumption).
      rewrite E. split; [split; assumption|]. split; [|split; intros; auto].
      split; [exact Hf|]. eexists _, _. split; [exact Hc'|]. split; [exact Hp|]. simpl.
      rewrite Hs. simpl. repeat split; auto.
    - (* check *)
      split; [split; assumption|]. split; [|split; intros; auto].
      split; [exact Hf|]. eexists _, _. split; [exact Hc'|]. split; [exact Hp|]. simpl.
      rewrite Hs. simpl. repeat split; auto.
      intros k' Hk'. injection Hk' as <-. destruct (memo s k) eqn:E; [|discriminate].
      intros _ H. discriminate.
    - (* set *)
      destruct (missing l) eqn:Emiss.
      + split; [|split; [|split]].
        * split; [exact HG1|]. simpl. intros k' x. unfold upd1.
          destruct (k' =? k) eqn:E; [|apply HG2].
          apply Nat.eqb_eq in E. subst. intros H; injection H as <-; reflexivity.
        * split; [exact Hf|]. eexists _, _. split; [exact Hc'|]. split; [exact Hp|]. simpl.
          rewrite Hs. simpl. repeat split; auto; try discriminate.
          intros k'. unfold upd1. destruct (k' =? k); [discriminate|]. apply Hk.
        * simpl. intros k' Hk'. unfold upd1. destruct (k' =? k); [discriminate|exact Hk'].
        * intros; reflexivity.
      + split; [split; assumption|]. split; [|split; intros; auto].
        split; [exact Hf|]. eexists _, _. split; [exact Hc'|]. split; [exact Hp|]. simpl.
        rewrite Hs. simpl. repeat split; auto; try discriminate.
        intros k'. unfold upd1. destruct (k' =? k) eqn:E; [|apply Hk].
        intros _. apply Nat.eqb_eq in E. subst. apply Ht; auto.
    - (* get a *)
      destruct Hi as [Hi Hn]. destruct (memo s k) as [x|] eqn:E; [|exfalso; exact (Hk _ Hi E)].
      apply HG2 in E. subst x.
      split; [split; assumption|]. split; [|split; intros; auto].
      split; [exact Hf|]. eexists _, _. split; [exact Hc'|]. split; [exact Hp|]. simpl.
      rewrite Hs. simpl. repeat split; auto.
    - (* get b *)
      destruct Hi as [Hi Hn]. destruct (memo s k) as [x|] eqn:E; [|exfalso; exact (Hk _ Hi E)].
      apply HG2 in E. subst x.
      split; [split; assumption|]. split; [|split; intros; auto].
      split; [exact Hf|]. eexists _, _. split; [exact Hc'|]. split; [exact Hp|]. simpl.
      rewrite Hs. simpl. repeat split; auto.
    - contradiction.
  Qed.

  Lemma Tinv_stable own code0 t s s' :
    Tinv own code0 t s ->
    (forall k, memo s k <> None -> memo s' k <> None) ->
    (forall b r c, own b r c -> cells s' b r c = cells s b r c) ->
    Tinv own code0 t s'.
  Proof.
    intros (Hf & dn & p & Hc & Hp & Hm & Hk & Ht & Hr & Ha & Hb & Hcell) HM HC.
    split; [exact Hf|]. exists dn, p. repeat split; auto.
    intros b r c Ho. rewrite HC by exact Ho. apply Hcell, Ho.
  Qed.

  (** The pool: worker [k] owns [own k] and started with [codes[k]]. *)
  Variable own : nat -> nat -> nat -> nat -> Prop.
  Variable codes : list (list instr).
  Hypothesis own_disjoint : forall j k b r c, own j b r c -> own k b r c -> j = k.
  Hypothesis codes_ok : forall k c, nth_error codes k = Some c -> pok (own k) nb c pst0.

  Definition Pinv (ts : list thread) (s : shared) : Prop :=
    Ginv s /\ length ts = length codes /\
    (forall k t c, nth_error ts k = Some t -> nth_error codes k = Some c ->
                   Tinv (own k) c t s) /\
    (forall b r c, (forall k, k < length codes -> ~ own k b r c) -> cells s b r c = m0 b r c).

  Lemma worker_inv k t ts s :
    Pinv ts s -> nth_error ts k = Some t ->
    let (t', s') := step1 dim compute t s in Pinv (set_nth k t' ts) s'.
  Proof.
    intros (HG & Hlen & HT & HU) E.
    assert (Hk : k < length ts) by (apply nth_error_Some; rewrite E; discriminate).
    destruct (nth_error codes k) as [c|] eqn:Ec.
    2:{ apply nth_error_None in Ec. lia. }
    pose proof (step_effect (own k) c t s HG (HT k t c E Ec)) as Hst.
    destruct (step1 dim compute t s) as [t' s'].
    destruct Hst as (HG' & HT' & HM & HC).
    split; [exact HG'|]. split; [rewrite set_nth_length; exact Hlen|]. split.
    - intros j tj cj Hj Hcj. destruct (Nat.eq_dec j k) as [->|Hne].
      + rewrite nth_error_set_nth_eq in Hj by exact Hk. injection Hj as <-.
        rewrite Ec in Hcj. injection Hcj as <-. exact HT'.
      + rewrite nth_error_set_nth_neq in Hj by exact Hne.
        eapply Tinv_stable; [eapply HT; eassumption|exact HM|].
        intros b r cc Ho. apply HC. intros Ho'. apply Hne. eapply own_disjoint; eassumption.
    - intros b r cc Hno. rewrite HC; [apply HU; assumption|]. apply Hno. lia.
  Qed.

  Lemma init_inv s :
    (forall b r c, cells s b r c = m0 b r c) ->
    (forall b, b < nb -> linked s b = true) ->
    (forall k, memo s k = None) -> Pinv (map start codes) s.
  Proof.
    intros Hc0 Hl Hmm. split.
    { split; [exact Hl|]. intros k x H. rewrite Hmm in H. discriminate. }
    split; [apply map_length|]. split; [|intros; apply Hc0; assumption].
    intros k t c Ht Hc. rewrite nth_error_map, Hc in Ht. simpl in Ht. injection Ht as <-.
    split; [reflexivity|]. exists [], pst0. simpl. repeat split; eauto; try discriminate.
  Qed.

  (** What a finished pool satisfies. *)
  Definition Good (m : nat -> nat -> nat -> R) : Prop :=
    (forall k c b r cc, nth_error codes k = Some c -> own k b r cc ->
        m b r cc = snd (ideal c (local0, m0)) b r cc) /\
    (forall b r c, (forall k, k < length codes -> ~ own k b r c) ->
        m b r c = m0 b r c).
  Definition Clean (ts : list thread) : Prop :=
    Forall (fun t => code t = [] /\ failed t = None /\
                     (strict = true -> forall b, mapped (tloc t) b = false)) ts.

  Lemma Pinv_nofail ts s : Pinv ts s -> Forall (fun t => failed t = None) ts.
  Proof.
    intros (HG & Hlen & HT & HU). apply Forall_forall. intros t Hin.
    apply In_nth_error in Hin. destruct Hin as [k Hk].
    destruct (nth_error codes k) as [c|] eqn:Ec.
    - apply (HT k t c Hk Ec).
    - apply nth_error_None in Ec.
      assert (k < length ts) by (apply nth_error_Some; rewrite Hk; discriminate). lia.
  Qed.

  Lemma Pinv_done ts s : Pinv ts s -> all_done ts -> Good (cells s) /\ Clean ts.
  Proof.
    intros (HG & Hlen & HT & HU) Hd. unfold all_done in Hd. rewrite Forall_forall in Hd.
    split; [split|].
    - intros k c b r cc Hc Ho.
      destruct (nth_error ts k) as [t|] eqn:Et.
      2:{ apply nth_error_None in Et.
          assert (k < length codes) by (apply nth_error_Some; rewrite Hc; discriminate). lia. }
      destruct (HT k t c Et Hc) as (_ & dn & p & Hcode & _ & _ & _ & _ & _ & _ & _ & Hcell).
      assert (Ht0 : code t = []) by (apply Hd; eapply nth_error_In; eassumption).
      rewrite Ht0, app_nil_r in Hcode. subst dn. apply Hcell; assumption.
    - exact HU.
    - apply Forall_forall. intros t Hin. assert (Ht0 := Hd t Hin).
      apply In_nth_error in Hin. destruct Hin as [k Hk].
      destruct (nth_error codes k) as [c|] eqn:Ec.
      2:{ apply nth_error_None in Ec.
          assert (k < length ts) by (apply nth_error_Some; rewrite Hk; discriminate). lia. }
      destruct (HT k t c Hk Ec) as (Hf & dn & p & Hcode & Hp & Hm & _).
      split; [exact Ht0|]. split; [exact Hf|]. rewrite Ht0 in Hp. simpl in Hp.
      intros Hst b. rewrite Hm. apply (Hp Hst).
  Qed.

  (** ** The whole system *)
  Notation system := (system F).
  Hypothesis dim_pos : dim <> 0.
  Hypothesis codes_pos : codes <> [].
  Variable garbage : nat -> nat -> nat -> R.
  Hypothesis m0_def : forall b r c, m0 b r c = if b <? nb then 0%R else garbage b r c.

  Definition rest_close : list pinstr := map PClose (seq 0 nb) ++ map PUnlink (seq 0 nb).
  Definition rest_spawn : list pinstr := [PSpawn; PJoin; PCopy] ++ rest_close.

  Inductive Sinv : system -> Prop :=
  | SCreate k pm s :
      k <= nb ->
      (forall b, pm b = (b <? k)) -> (forall b, linked s b = (b <? k)) ->
      (forall b r c, b < k \/ nb <= b -> cells s b r c = m0 b r c) -> (forall x, memo s x = None) ->
      Sinv (mkSys (mkParent (map PCreate (seq k (nb - k)) ++ rest_spawn) pm None None) [] s)
  | SJoin pm ts s :
      (forall b, pm b = (b <? nb)) -> Pinv ts s ->
      Sinv (mkSys (mkParent (PJoin :: PCopy :: rest_close) pm None None) ts s)
  | SCopy pm ts s :
      (forall b, pm b = (b <? nb)) -> Pinv ts s -> all_done ts ->
      Sinv (mkSys (mkParent (PCopy :: rest_close) pm None None) ts s)
  | SClose k pm m ts s :
      k <= nb -> (forall b, pm b = (k <=? b) && (b <? nb)) ->
      (forall b, b < nb -> linked s b = true) -> Good m -> Clean ts ->
      Sinv (mkSys (mkParent (map PClose (seq k (nb - k)) ++ map PUnlink (seq 0 nb)) pm (Some m) None) ts s)
  | SUnlink k pm m ts s :
      k <= nb -> (forall b, pm b = false) ->
      (forall b, b < nb -> linked s b = (k <=? b)) -> Good m -> Clean ts ->
      Sinv (mkSys (mkParent (map PUnlink (seq k (nb - k))) pm (Some m) None) ts s).

  Lemma set_nth_same {A} k (x : A) l : nth_error l k = Some x -> set_nth k x l = l.
  Proof.
    revert k. induction l as [|y l IH]; intros [|k] H; simpl in *; try discriminate.
    - injection H as ->. reflexivity.
    - rewrite IH by exact H. reflexivity.
  Qed.

  Lemma done_step k (ts : list thread) t s :
    Forall (fun t => code t = []) ts -> nth_error ts k = Some t ->
    step1 dim compute t s = (t, s).
  Proof.
    intros H E. rewrite Forall_forall in H. apply nth_error_In in E. apply H in E.
    unfold step1. rewrite E. reflexivity.
  Qed.

  Lemma Clean_done ts : Clean ts -> all_done ts.
  Proof. unfold Clean, all_done. apply Forall_impl. intros t H. apply H. Qed.

  Lemma all_doneb_spec (ts : list thread) : all_doneb ts = true <-> all_done ts.
  Proof.
    unfold all_doneb, all_done. rewrite forallb_forall, Forall_forall.
    split; intros H t Ht; specialize (H t Ht); destruct (code t); auto; discriminate.
  Qed.

  Lemma seq_step k : k < nb -> seq k (nb - k) = k :: seq (S k) (nb - S k).
  Proof. intros H. replace (nb - k) with (S (nb - S k)) by lia. reflexivity. Qed.

  Lemma worker_step_inv k y : Sinv y -> Sinv (step_worker dim compute k y).
  Proof.
    intros H. unfold step_worker. destruct H; simpl.
    - destruct k; constructor; assumption.
    - destruct (nth_error ts k) as [t|] eqn:E; [|constructor; assumption].
      pose proof (worker_inv k t ts s H0 E) as Hi.
      destruct (step1 dim compute t s) as [t' s']. constructor; assumption.
    - destruct (nth_error ts k) as [t|] eqn:E; [|constructor; assumption].
      rewrite (done_step k ts t s H1 E). rewrite set_nth_same by exact E. constructor; assumption.
    - destruct (nth_error ts k) as [t|] eqn:E; [|constructor; assumption].
      rewrite (done_step k ts t s (Clean_done _ H3) E). rewrite set_nth_same by exact E.
      constructor; assumption.
    - destruct (nth_error ts k) as [t|] eqn:E; [|constructor; assumption].
      rewrite (done_step k ts t s (Clean_done _ H3) E). rewrite set_nth_same by exact E.
      constructor; assumption.
  Qed.

  Lemma parent_step_inv y : Sinv y -> Sinv (step_parent dim nb codes y).
  Proof.
    intros H. destruct H.
    - destruct (Nat.eq_dec k nb) as [->|Hne].
      + rewrite Nat.sub_diag. cbn [seq map app]. unfold rest_spawn, step_parent. simpl.
        rewrite nonnil_match by exact codes_pos.
        constructor; [exact H0|]. apply init_inv.
        * intros b r c. apply H2. lia.
        * intros b Hb. rewrite H1. apply Nat.ltb_lt. exact Hb.
        * exact H3.
      + rewrite seq_step by lia. cbn [map app]. unfold step_parent. simpl.
        destruct (Nat.eqb_spec dim 0); [contradiction|].
        apply (SCreate (S k)); simpl; [lia| | | |].
        * intros b. unfold upd1. rewrite H0, ltb_S. reflexivity.
        * intros b. unfold upd1. rewrite H1, ltb_S. reflexivity.
        * intros b r c Hb. unfold zero_block. destruct (Nat.eqb_spec b k) as [->|]; [|apply H2; lia].
          rewrite m0_def. destruct (Nat.ltb_spec k nb); [reflexivity|lia].
        * exact H3.
    - unfold step_parent. simpl. destruct (all_doneb ts) eqn:E.
      + apply all_doneb_spec in E. constructor; assumption.
      + constructor; assumption.
    - unfold step_parent. simpl.
      assert (E : forallb pm (seq 0 nb) = true).
      { apply forallb_forall. intros b Hb. apply in_seq in Hb. rewrite H. apply Nat.ltb_lt. lia. }
      rewrite E. destruct (Pinv_done _ _ H0 H1) as [Hg Hc]. unfold rest_close.
      replace (seq 0 nb) with (seq 0 (nb - 0)) at 1 by (f_equal; lia).
      apply (SClose 0); auto; [lia|]. apply H0.
    - destruct (Nat.eq_dec k nb) as [->|Hne].
      + rewrite Nat.sub_diag. cbn [seq map app].
        assert (Hpm : forall b, pm b = false).
        { intros b. rewrite H0. destruct (Nat.leb_spec nb b), (Nat.ltb_spec b nb); auto; lia. }
        assert (Hl : forall b, b < nb -> linked s b = (0 <=? b)) by (intros; rewrite H1; auto).
        destruct (Nat.eq_dec nb 0) as [En|En].
        { assert (E0 : seq 0 nb = []) by (rewrite En; reflexivity). rewrite E0.
          pose proof (SUnlink 0 pm m ts s (Nat.le_0_l _) Hpm Hl H2 H3) as K.
          rewrite Nat.sub_0_r, E0 in K. exact K. }
        assert (Es : seq 0 nb = 0 :: seq 1 (nb - 1)).
        { rewrite <- seq_step by lia. f_equal. lia. }
        rewrite Es. unfold step_parent. cbn [map pcode par sh]. rewrite (H1 0) by lia.
        apply (SUnlink 1); auto; [lia|]. cbn [linked]. intros b Hb. unfold upd1.
        destruct (Nat.eqb_spec b 0) as [->|]; [reflexivity|]. rewrite H1 by exact Hb.
        destruct b; [congruence|reflexivity].
      + rewrite seq_step by lia. cbn [map app]. unfold step_parent. simpl.
        apply (SClose (S k)); auto; [lia|]. intros b. unfold upd1. rewrite H0.
        destruct (Nat.eqb_spec b k) as [->|].
        * destruct (Nat.leb_spec (S k) k); auto; lia.
        * destruct (Nat.leb_spec (S k) b), (Nat.leb_spec k b); auto; lia.
    - destruct (Nat.eq_dec k nb) as [->|Hne].
      + rewrite Nat.sub_diag. cbn [seq map]. unfold step_parent. simpl.
        pose proof (SUnlink nb pm m ts s (le_n _) H0 H1 H2 H3) as K.
        rewrite Nat.sub_diag in K. exact K.
      + rewrite seq_step by lia. cbn [map]. unfold step_parent. simpl.
        rewrite H1 by lia. rewrite Nat.leb_refl.
        apply (SUnlink (S k)); auto; [lia|]. cbn [linked]. intros b Hb. unfold upd1.
        destruct (Nat.eqb_spec b k) as [->|].
        * symmetry. apply Nat.leb_gt. lia.
        * rewrite H1 by exact Hb.
          destruct (Nat.leb_spec (S k) b), (Nat.leb_spec k b); auto; lia.
  Qed.

  Lemma system_inv sched :
    Sinv (run_system dim compute nb codes sched (init_system nb garbage)).
  Proof.
    unfold run_system.
    assert (H : Sinv (init_system nb garbage)).
    { unfold init_system, parent_prog. replace (seq 0 nb) with (seq 0 (nb - 0)) at 1 by (f_equal; lia).
      apply (SCreate 0); auto; try lia. simpl. intros b r c Hb. rewrite m0_def.
      destruct (Nat.ltb_spec b nb); [lia|reflexivity]. }
    revert H. generalize (@init_system F nb garbage). intros y0 H0. revert y0 H0.
    induction sched as [|w sc IH]; intros y H; [exact H|]. simpl. apply IH.
    destruct w as [|k]; [apply parent_step_inv|apply worker_step_inv]; exact H.
  Qed.

  (** Nobody ever fails, at any point of any schedule. *)
  Lemma system_safe sched :
    let y := run_system dim compute nb codes sched (init_system nb garbage) in
    pfail (par y) = None /\ Forall (fun t => failed t = None) (pool y).
  Proof.
    pose proof (system_inv sched) as H. simpl.
    destruct H; simpl; (split; [reflexivity|]).
    - constructor.
    - eapply Pinv_nofail; eassumption.
    - eapply Pinv_nofail; eassumption.
    - eapply Forall_impl; [|exact H3]. intros t Ht. apply Ht.
    - eapply Forall_impl; [|exact H3]. intros t Ht. apply Ht.
  Qed.

  (** When the caller is done it holds the right copy and has cleaned up. *)
  Lemma system_result sched :
    let y := run_system dim compute nb codes sched (init_system nb garbage) in
    finished y ->
    (exists m, outcome y = Ok m /\ Good m) /\ Clean (pool y) /\
    (forall b, pmapped (par y) b = false) /\ (forall b, b < nb -> linked (sh y) b = false).
  Proof.
    pose proof (system_inv sched) as H. simpl. unfold finished.
    destruct H; simpl; intros Hd.
    - destruct (map PCreate (seq k (nb - k))); discriminate.
    - discriminate.
    - discriminate.
    - apply app_eq_nil in Hd. destruct Hd as [Hd1 Hd2].
      assert (En : nb = 0) by (destruct nb; [reflexivity|discriminate]).
      split; [exists m; auto|]. split; [assumption|]. split; [|intros; lia].
      intros b. rewrite H0. destruct (Nat.ltb_spec b nb); [lia|]. apply andb_false_r.
    - apply map_eq_nil in Hd.
      assert (k = nb) by (destruct (nb - k) eqn:E; [lia|discriminate]). subst k.
      split; [exists m; auto|]. split; [assumption|]. split; [exact H0|].
      intros b Hb. rewrite H1 by exact Hb. apply Nat.leb_gt. exact Hb.
  Qed.
End Own.

(** ** Every schedule can be completed (no deadlock), whatever the workers do *)
Section Progress.
  Context {F : Type}.
  Variable dim : nat.
  Variable compute : nat -> F.
  Variable nb : nat.
  Variable codes : list (list (instr F)).

  Definition work (ts : list (thread F)) : nat :=
    fold_right (fun t a => length (code t) + a) 0 ts.

  Lemma step1_shorter (t : thread F) s :
    code t <> [] -> length (code (fst (step1 dim compute t s))) < length (code t).
  Proof.
    intros H. unfold step1. destruct (code t) as [|i c]; [congruence|].
    destruct (exec dim compute i (tloc t) s) as [[l' s']|e]; simpl; lia.
  Qed.

  Lemma work_set_nth k (t t' : thread F) ts :
    nth_error ts k = Some t -> length (code t') < length (code t) ->
    work (set_nth k t' ts) < work ts.
  Proof.
    revert k. induction ts as [|x ts IH]; intros [|k] E H; simpl in *; try discriminate.
    - injection E as ->. lia.
    - specialize (IH k E H). lia.
  Qed.

  Lemma pool_can_finish n y :
    work (pool y) <= n ->
    exists sched, let y' := run_system dim compute nb codes sched y in
      all_done (pool y') /\ par y' = par y.
  Proof.
    revert y. induction n as [|n IH]; intros y H.
    - exists []. simpl. split; [|reflexivity]. apply Forall_forall. intros t Ht.
      assert (length (code t) = 0).
      { clear -H Ht. induction (pool y) as [|x l IHl]; [contradiction|]. simpl in *.
        destruct Ht as [->|Ht]; [lia|]. apply IHl; [lia|exact Ht]. }
      destruct (code t); [reflexivity|discriminate].
    - destruct (all_doneb (pool y)) eqn:E.
      { apply all_doneb_spec in E. exists []. auto. }
      assert (Hx : exists k t, nth_error (pool y) k = Some t /\ code t <> []).
      { clear -E. unfold all_doneb in E. induction (pool y) as [|x l IHl]; [discriminate|].
        simpl in E. destruct (code x) eqn:Ex.
        - destruct (IHl E) as (k & t & Hk & Ht). exists (S k), t. auto.
        - exists 0, x. split; [reflexivity|]. rewrite Ex. discriminate. }
      destruct Hx as (k & t & Hk & Ht).
      destruct (IH (step_worker dim compute k y)) as (sc & Hd & Hp).
      { unfold step_worker. rewrite Hk.
        pose proof (step1_shorter t (sh y) Ht) as Hs.
        destruct (step1 dim compute t (sh y)) as [t' s']. simpl in *.
        pose proof (work_set_nth k t t' (pool y) Hk Hs). lia. }
      exists (Worker k :: sc). simpl. split; [exact Hd|]. unfold run_system in *. simpl in *.
      rewrite Hp. unfold step_worker. rewrite Hk. destruct (step1 dim compute t (sh y)). reflexivity.
  Qed.

  Lemma can_finish n y :
    length (pcode (par y)) <= n ->
    exists sched, finished (run_system dim compute nb codes sched y).
  Proof.
    revert y. induction n as [|n IH]; intros y H.
    - exists []. unfold finished. simpl. destruct (pcode (par y)); [reflexivity|simpl in H; lia].
    - destruct (pcode (par y)) as [|i c] eqn:Ec.
      { exists []. exact Ec. }
      destruct (pool_can_finish (work (pool y)) y (le_n _)) as (sc & Hd & Hp).
      set (y1 := run_system dim compute nb codes sc y) in *.
      destruct (IH (step_parent dim nb codes y1)) as (sc2 & H2).
      { unfold step_parent. rewrite Hp, Ec. apply all_doneb_spec in Hd.
        simpl in H. destruct i; simpl.
        - destruct (dim =? 0); simpl; lia.
        - destruct codes; simpl; lia.
        - rewrite Hd. simpl. lia.
        - destruct (forallb _ _); simpl; lia.
        - lia.
        - destruct (linked _ _); simpl; lia. }
      exists (sc ++ Caller :: sc2). unfold run_system in *. rewrite fold_left_app. exact H2.
  Qed.

  Lemma completable sched garbage :
    exists sched', finished (run_system dim compute nb codes (sched ++ sched') (init_system nb garbage)).
  Proof.
    destruct (can_finish _ (run_system dim compute nb codes sched (init_system nb garbage)) (le_n _))
      as (sc & H).
    exists sc. unfold run_system in *. rewrite fold_left_app. exact H.
  Qed.
End Progress.

(** ** The caller waits for the workers, whatever they do *)
Section Waits.
  Context {F : Type}.
  Variable dim : nat.
  Variable compute : nat -> F.
  Variable nb : nat.
  Variable codes : list (list (instr F)).

  Lemma step1_linked (t : thread F) s : linked (snd (step1 dim compute t s)) = linked s.
  Proof.
    unfold step1. destruct (code t) as [|i c]; [reflexivity|].
    destruct i; simpl; repeat (match goal with |- context [if ?x then _ else _] => destruct x
      | |- context [match memo s ?k with _ => _ end] => destruct (memo s k) end; simpl); reflexivity.
  Qed.

  Definition tail_prog : list pinstr := map PClose (seq 0 nb) ++ map PUnlink (seq 0 nb).

  Definition late (i : pinstr) : Prop :=
    match i with PCreate _ | PSpawn => False | _ => True end.

  Inductive Winv : system F -> Prop :=
  | WCreate k pm s :
      k <= nb -> (forall b, b < k -> pm b = true) -> (forall b, b < k -> linked s b = true) ->
      Winv (mkSys (mkParent (map PCreate (seq k (nb - k)) ++ PSpawn :: PJoin :: PCopy :: tail_prog)
                     pm None None) [] s)
  | WJoin pm ts s :
      (forall b, b < nb -> pm b = true) -> (forall b, b < nb -> linked s b = true) ->
      Winv (mkSys (mkParent (PJoin :: PCopy :: tail_prog) pm None None) ts s)
  | WDone p ts s : all_done ts -> Forall late (pcode p) -> Winv (mkSys p ts s).

  Lemma all_done_set k (ts : list (thread F)) t s :
    all_done ts -> nth_error ts k = Some t ->
    set_nth k (fst (step1 dim compute t s)) ts = ts.
  Proof.
    intros Hd E. unfold all_done in Hd. rewrite Forall_forall in Hd.
    unfold step1. rewrite (Hd t) by (eapply nth_error_In; exact E). simpl.
    apply set_nth_same. exact E.
  Qed.

  Lemma Winv_worker k y : Winv y -> Winv (step_worker dim compute k y).
  Proof.
    intros H. unfold step_worker. destruct H as [j pm s H0 H1 H2|pm ts s H0 H1|p ts s H0 H1]; simpl.
    - destruct k; simpl; apply WCreate; assumption.
    - destruct (nth_error ts k) as [t|]; [|apply WJoin; assumption].
      pose proof (step1_linked t s) as E. destruct (step1 dim compute t s) as [t' s']. simpl in E.
      apply WJoin; [assumption|]. rewrite E. assumption.
    - destruct (nth_error ts k) as [t|] eqn:E; [|apply WDone; assumption].
      pose proof (all_done_set k ts t s H0 E) as E2.
      destruct (step1 dim compute t s) as [t' s']. simpl in E2. rewrite E2. apply WDone; assumption.
  Qed.

  Lemma tail_late : Forall late (PCopy :: tail_prog).
  Proof.
    constructor; [exact I|]. unfold tail_prog. apply Forall_forall. intros x Hx.
    apply in_app_iff in Hx. destruct Hx as [Hx|Hx]; apply in_map_iff in Hx;
      destruct Hx as (b & <- & _); exact I.
  Qed.

  Lemma Winv_parent y : Winv y -> Winv (step_parent dim nb codes y).
  Proof.
    intros H. destruct H as [k pm s H0 H1 H2|pm ts s H0 H1|p ts s H0 H1].
    - destruct (Nat.eq_dec k nb) as [->|Hne].
      + rewrite Nat.sub_diag. cbn [seq map app]. unfold step_parent. simpl.
        destruct (list_eq_nil_dec codes) as [E|E].
        * rewrite E. unfold fail_parent. simpl. apply WDone; constructor.
        * rewrite nonnil_match by exact E. apply WJoin; assumption.
      + replace (nb - k) with (S (nb - S k)) by lia. cbn [seq map app]. unfold step_parent. simpl.
        destruct (dim =? 0).
        * unfold fail_parent. simpl. apply WDone; constructor.
        * apply (WCreate (S k)); simpl; [lia| |]; intros b Hb; unfold upd1;
            destruct (Nat.eqb_spec b k); auto; [apply H1|apply H2]; lia.
    - unfold step_parent. simpl. destruct (all_doneb ts) eqn:E.
      + apply all_doneb_spec in E. apply WDone; [exact E|]. exact tail_late.
      + apply WJoin; assumption.
    - unfold step_parent. simpl. destruct (pcode p) as [|i c] eqn:Ec; [apply WDone; [|rewrite Ec]; assumption|].
      inversion H1 as [|? ? Hi Hc]; subst. destruct i; try contradiction.
      + destruct (all_doneb ts); apply WDone; try rewrite Ec; assumption.
      + destruct (forallb _ _); apply WDone; try assumption. constructor.
      + apply WDone; assumption.
      + destruct (linked s b); apply WDone; try assumption. constructor.
  Qed.

  Lemma Winv_run sched garbage : Winv (run_system dim compute nb codes sched (init_system nb garbage)).
  Proof.
    unfold run_system.
    assert (H : Winv (init_system nb garbage)).
    { unfold init_system, parent_prog. replace (seq 0 nb) with (seq 0 (nb - 0)) at 1 by (f_equal; lia).
      apply (WCreate 0); auto; lia. }
    revert H. generalize (@init_system F nb garbage). induction sched as [|w sc IH]; intros y H; [exact H|].
    simpl. apply IH. destruct w; [apply Winv_parent|apply Winv_worker]; exact H.
  Qed.

  (** While a worker is still running, nothing has been copied, every block
      exists and the caller keeps it mapped. *)
  Lemma caller_waits sched garbage :
    let y := run_system dim compute nb codes sched (init_system nb garbage) in
    (exists t, In t (pool y) /\ code t <> []) ->
    pcopy (par y) = None /\
    forall b, b < nb -> linked (sh y) b = true /\ pmapped (par y) b = true.
  Proof.
    intros y (t & Ht & Hc). pose proof (Winv_run sched garbage) as H. fold y in H.
    destruct H as [k pm s H0 H1 H2|pm ts s H0 H1|p ts s H0 H1]; simpl in *.
    - contradiction.
    - auto.
    - exfalso. unfold all_done in H0. rewrite Forall_forall in H0. apply Hc, H0, Ht.
  Qed.
End Waits.
