From Coq Require Import List ZArith Arith Bool Reals Lia Lra.
From Coquelicot Require Import Complex.
From Verif Require Import Base ListLemmas RSum CSum Parallel Machine MachineProofs Job JobProofs
  Index IndexProofs Wigner SpecWigner WignerProofs Integration ArbitraryMatrix.
Import ListNotations.

(** A code made of segments, each cell being written by one segment only. *)
Lemma flat_frame' {F} (compute : nat -> F) (seg : nat -> list (instr F))
    (Own : nat -> Prop) js st b r c :
  (forall j st', In j js -> ~ Own j -> snd (ideal compute (seg j) st') b r c = snd st' b r c) ->
  (forall j, In j js -> ~ Own j) ->
  snd (ideal compute (flat_map seg js) st) b r c = snd st b r c.
Proof.
  revert st. induction js as [|j js IH]; intros st Hf Ho; [reflexivity|].
  change (flat_map seg (j :: js)) with (seg j ++ flat_map seg js).
  rewrite ideal_app, IH.
  - apply Hf; [left; reflexivity|]. apply Ho. left. reflexivity.
  - intros; apply Hf; [right|]; assumption.
  - intros; apply Ho; right; assumption.
Qed.

Lemma flat_value' {F} (compute : nat -> F) (seg : nat -> list (instr F))
    (Own : nat -> Prop) js st b r c j0 v :
  (forall j st', In j js -> ~ Own j -> snd (ideal compute (seg j) st') b r c = snd st' b r c) ->
  (forall j, In j js -> Own j -> j = j0) ->
  In j0 js -> (forall st', snd (ideal compute (seg j0) st') b r c = v) ->
  snd (ideal compute (flat_map seg js) st) b r c = v.
Proof.
  revert st. induction js as [|j js IH]; intros st Hf Hu Hin Hv; [contradiction|].
  change (flat_map seg (j :: js)) with (seg j ++ flat_map seg js). rewrite ideal_app.
  destruct (in_dec Nat.eq_dec j0 js) as [Hi|Hi].
  - apply IH; auto; intros; [apply Hf|apply Hu]; auto; right; assumption.
  - destruct Hin as [->|Hin]; [|contradiction].
    rewrite (flat_frame' compute seg Own); [apply Hv| |].
    + intros; apply Hf; [right|]; assumption.
    + intros j Hj Ho. apply Hi. rewrite <- (Hu j); [exact Hj|right; exact Hj|exact Ho].
Qed.

Section ArbP.
  Variable L : nat.
  Variable ns : nat.
  Variable mask weight : nat -> R.
  Variable harmonic : nat -> nat -> C.
  Notation helper := (matrix_helper L ns mask weight).
  Notation hstep := (matrix_helper_step L ns mask weight).
  Notation I2 := (fun i j => integrate_region_sphere ns mask weight (harmonic i)
                               [fun s => Cconj (harmonic j s)]).

  Definition aOwn (i b r c : nat) : Prop := b < 2 /\ c = i /\ r < L * L.
  Definition aDet (i b r c : nat) : Prop := b < 2 /\ c = i /\ i <= r < L * L.

  (** Value left in row [r] of column [i]. *)
  Definition acell (r i : nat) : C :=
    let (el, mr) := ind2elm r in
    if (r =? i) then I2 i i
    else if (snd (ind2elm i) =? 0)%Z && (mr <? 0)%Z
    then let v := I2 (elm2ind el (- mr)) i in
         ((sgn (- mr) * Re v)%R, (sgn (- mr + 1) * Im v)%R)
    else I2 r i.
  Definition aval (i b r c : nat) : R := if b =? 0 then Re (acell r i) else Im (acell r i).

  Lemma load_store_ideal (i j r c : nat) (st : local (nat -> C) * (nat -> nat -> nat -> R)) :
    exists l', ideal harmonic (integral_load i j ++ store_integral ns mask weight r c) st
               = (l', upd3 (upd3 (snd st) 0 r c (Re (I2 i j))) 1 r c (Im (I2 i j))) .
  Proof. destruct st as [l m]. eexists. reflexivity. Qed.

  (** The cells touched by step [j] of column [i]. *)
  Definition touches (i j r : nat) : Prop :=
    r = j \/ (snd (ind2elm i) = 0 /\ (0 < snd (ind2elm j)) /\
              r = elm2ind (fst (ind2elm j)) (- snd (ind2elm j)))%Z.

  Lemma upd3_other (m : nat -> nat -> nat -> R) b r c x b' r' c' :
    (b', r', c') <> (b, r, c) -> upd3 m b r c x b' r' c' = m b' r' c'.
  Proof.
    intros H. unfold upd3.
    destruct (Nat.eqb_spec b' b), (Nat.eqb_spec r' r), (Nat.eqb_spec c' c); simpl; auto.
    subst. congruence.
  Qed.
  Lemma upd3_same (m : nat -> nat -> nat -> R) b r c x : upd3 m b r c x b r c = x.
  Proof. unfold upd3. rewrite !Nat.eqb_refl. reflexivity. Qed.

  Lemma hstep_cases i j :
    j < L * L ->
    hstep (snd (ind2elm i)) i j =
    (if (snd (ind2elm i) =? 0)%Z && negb (snd (ind2elm j) =? 0)%Z
     then if (0 <? snd (ind2elm j))%Z
      then integral_load j i ++ store_integral ns mask weight j i ++
           [ILoad 0 j i; IWrite 0 (elm2ind (fst (ind2elm j)) (- snd (ind2elm j))) i
                           (fun l => (sgn (snd (ind2elm j)) * reg l)%R);
            ILoad 1 j i; IWrite 1 (elm2ind (fst (ind2elm j)) (- snd (ind2elm j))) i
                           (fun l => (sgn (snd (ind2elm j) + 1) * reg l)%R)]
      else []
     else integral_load j i ++ store_integral ns mask weight j i).
  Proof.
    intros Hj. unfold matrix_helper_step.
    assert (Hl := ind2elm_lt L j Hj).
    destruct (ind2elm j) as [el mj]. simpl in *.
    apply Nat.ltb_lt in Hl. rewrite Hl, andb_true_r. reflexivity.
  Qed.

  (** Effect of the "positive order" step. *)
  Lemma pos_step_ideal (i j k : nat) (s1 s2 : R) (st : local (nat -> C) * (nat -> nat -> nat -> R)) :
    exists l', ideal harmonic (integral_load j i ++ store_integral ns mask weight j i ++
           [ILoad 0 j i; IWrite 0 k i (fun l => (s1 * reg l)%R);
            ILoad 1 j i; IWrite 1 k i (fun l => (s2 * reg l)%R)]) st
     = (l', upd3 (upd3 (upd3 (upd3 (snd st) 0 j i (Re (I2 j i))) 1 j i (Im (I2 j i)))
              0 k i (s1 * Re (I2 j i))%R) 1 k i (s2 * Im (I2 j i))%R).
  Proof.
    destruct (load_store_ideal j i j i st) as [l' E].
    rewrite app_assoc, ideal_app, E.
    set (m1 := upd3 _ 1 j i _).
    eexists. unfold ideal. cbn [fold_left ideal1 reg].
    assert (E0 : m1 0 j i = Re (I2 j i)).
    { unfold m1. rewrite upd3_other by congruence. apply upd3_same. }
    rewrite E0.
    assert (E1 : upd3 m1 0 k i (s1 * Re (I2 j i)) 1 j i = Im (I2 j i)).
    { rewrite upd3_other by congruence. unfold m1. apply upd3_same. }
    rewrite E1. reflexivity.
  Qed.

  Lemma step_frame i j st b r c :
    j < L * L -> ~ (c = i /\ b < 2 /\ touches i j r) ->
    snd (ideal harmonic (hstep (snd (ind2elm i)) i j) st) b r c = snd st b r c.
  Proof.
    intros Hj Hn. rewrite hstep_cases by exact Hj. unfold touches in Hn.
    assert (Hj0 : (b, r, c) <> (0, j, i)) by (intros E; injection E as -> -> ->; apply Hn; auto).
    assert (Hj1 : (b, r, c) <> (1, j, i)) by (intros E; injection E as -> -> ->; apply Hn; auto).
    destruct (Z.eqb_spec (snd (ind2elm i)) 0) as [Hi|Hi]; cbn [andb].
    - destruct (Z.eqb_spec (snd (ind2elm j)) 0) as [Hm|Hm]; cbn [negb].
      + destruct (load_store_ideal j i j i st) as [l' E]. rewrite E. cbn [snd].
        rewrite !upd3_other by assumption. reflexivity.
      + destruct (Z.ltb_spec 0 (snd (ind2elm j))) as [Hp|Hp]; [|reflexivity].
        destruct (pos_step_ideal i j (elm2ind (fst (ind2elm j)) (- snd (ind2elm j)))
          (sgn (snd (ind2elm j))) (sgn (snd (ind2elm j) + 1)) st) as [l' E]. rewrite E. cbn [snd].
        rewrite !upd3_other; auto.
        * intros E'. injection E' as -> -> ->. apply Hn. auto 6.
        * intros E'. injection E' as -> -> ->. apply Hn. auto 6.
    - destruct (load_store_ideal j i j i st) as [l' E]. rewrite E. cbn [snd].
      rewrite !upd3_other by assumption. reflexivity.
  Qed.

  Lemma mirror_snd el (m : Z) :
    (Z.abs m <= Z.of_nat el)%Z -> ind2elm (elm2ind el (- m)) = (el, - m)%Z.
  Proof. intros H. apply ind2elm_elm2ind. lia. Qed.

  Lemma step_value_direct i j st b :
    j < L * L -> i < j -> b < 2 ->
    ~ (snd (ind2elm i) = 0 /\ snd (ind2elm j) < 0)%Z ->
    snd (ideal harmonic (hstep (snd (ind2elm i)) i j) st) b j i =
    if b =? 0 then Re (I2 j i) else Im (I2 j i).
  Proof.
    intros Hj Hij Hb Hn. rewrite hstep_cases by exact Hj.
    assert (Hdir : forall l' m', (ideal harmonic (integral_load j i ++ store_integral ns mask weight j i) st) = (l', m') ->
                     m' b j i = if b =? 0 then Re (I2 j i) else Im (I2 j i)).
    { intros l' m' E. destruct (load_store_ideal j i j i st) as [l'' E']. rewrite E' in E.
      injection E as _ <-. destruct b as [|[|b]]; [| |lia]; cbn [Nat.eqb].
      - rewrite upd3_other by congruence. apply upd3_same.
      - apply upd3_same. }
    destruct (Z.eqb_spec (snd (ind2elm i)) 0) as [Hi|Hi]; cbn [andb].
    - destruct (Z.eqb_spec (snd (ind2elm j)) 0) as [Hm|Hm]; cbn [negb].
      + eapply Hdir. apply surjective_pairing.
      + destruct (Z.ltb_spec 0 (snd (ind2elm j))) as [Hp|Hp]; [|exfalso; apply Hn; lia].
        set (k := elm2ind (fst (ind2elm j)) (- snd (ind2elm j))).
        assert (Hk : j <> k).
        { intros E. pose proof (f_equal ind2elm E) as E2. unfold k in E2.
          rewrite mirror_snd in E2 by apply ind2elm_range.
          pose proof (f_equal snd E2). simpl in *. lia. }
        destruct (pos_step_ideal i j k (sgn (snd (ind2elm j))) (sgn (snd (ind2elm j) + 1)) st) as [l' E].
        rewrite E. cbn [snd]. destruct b as [|[|b]]; [| |lia]; cbn [Nat.eqb].
        * rewrite 3 upd3_other by congruence. apply upd3_same.
        * rewrite 2 upd3_other by congruence. apply upd3_same.
    - eapply Hdir. apply surjective_pairing.
  Qed.

  Lemma step_value_mirror i j st b :
    j < L * L -> b < 2 -> (snd (ind2elm i) = 0)%Z -> (0 < snd (ind2elm j))%Z ->
    snd (ideal harmonic (hstep (snd (ind2elm i)) i j) st) b
        (elm2ind (fst (ind2elm j)) (- snd (ind2elm j))) i =
    if b =? 0 then (sgn (snd (ind2elm j)) * Re (I2 j i))%R
    else (sgn (snd (ind2elm j) + 1) * Im (I2 j i))%R.
  Proof.
    intros Hj Hb Hi Hp. rewrite hstep_cases by exact Hj. rewrite Hi. cbn [Z.eqb andb].
    destruct (Z.eqb_spec (snd (ind2elm j)) 0) as [Hm|Hm]; [lia|]. cbn [negb].
    destruct (Z.ltb_spec 0 (snd (ind2elm j))) as [_|]; [|lia].
    set (k := elm2ind (fst (ind2elm j)) (- snd (ind2elm j))).
    destruct (pos_step_ideal i j k (sgn (snd (ind2elm j))) (sgn (snd (ind2elm j) + 1)) st) as [l' E].
    rewrite E. cbn [snd]. destruct b as [|[|b]]; [| |lia]; cbn [Nat.eqb].
    - rewrite upd3_other by congruence. apply upd3_same.
    - apply upd3_same.
  Qed.

  (** Two different steps of column [i] touch different rows. *)
  Lemma touches_unique i j j' r :
    i < j -> i < j' -> touches i j r -> touches i j' r ->
    ((snd (ind2elm i) =? 0)%Z && (snd (ind2elm j) <? 0)%Z = true \/
     (snd (ind2elm i) =? 0)%Z && (snd (ind2elm j') <? 0)%Z = true) \/ j = j'.
  Proof.
    intros Hj Hj' [->|(Hi & Hp & ->)] [E|(Hi' & Hp' & E)].
    - right. exact E.
    - left. left. subst j. rewrite mirror_snd by apply ind2elm_range. cbn [snd].
      apply andb_true_intro. rewrite Z.eqb_eq, Z.ltb_lt. lia.
    - left. right. subst j'. rewrite mirror_snd by apply ind2elm_range. cbn [snd].
      apply andb_true_intro. rewrite Z.eqb_eq, Z.ltb_lt. lia.
    - right. apply elm2ind_inj in E.
      + destruct E as [E1 E2].
        rewrite <- (elm2ind_ind2elm j), <- (elm2ind_ind2elm j'). f_equal; [exact E1|lia].
      + pose proof (ind2elm_range j). lia.
      + pose proof (ind2elm_range j'). lia.
  Qed.

  (** Which step of column [i] writes row [r]. *)
  Definition writer (i r : nat) : nat :=
    if (snd (ind2elm i) =? 0)%Z && (snd (ind2elm r) <? 0)%Z
    then elm2ind (fst (ind2elm r)) (- snd (ind2elm r)) else r.

  Definition writes (i j r : nat) : Prop :=
    touches i j r /\ ((snd (ind2elm i) =? 0)%Z && (snd (ind2elm j) <? 0)%Z = false).

  Lemma step_frame' i j st b r :
    j < L * L -> ~ writes i j r ->
    snd (ideal harmonic (hstep (snd (ind2elm i)) i j) st) b r i = snd st b r i.
  Proof.
    intros Hj Hn. unfold writes in Hn.
    destruct ((snd (ind2elm i) =? 0)%Z && (snd (ind2elm j) <? 0)%Z) eqn:E.
    - rewrite hstep_cases by exact Hj. apply andb_prop in E. destruct E as [E1 E2].
      rewrite E1. cbn [andb]. apply Z.ltb_lt in E2.
      destruct (Z.eqb_spec (snd (ind2elm j)) 0); [lia|]. cbn [negb].
      destruct (Z.ltb_spec 0 (snd (ind2elm j))); [lia|]. reflexivity.
    - apply step_frame; [exact Hj|]. intros (_ & _ & Ht). apply Hn. auto.
  Qed.

  Lemma writes_writer i j r : writes i j r -> j = writer i r.
  Proof.
    intros [[->|(Hi & Hp & ->)] Hn]; unfold writer.
    - rewrite Hn. reflexivity.
    - rewrite mirror_snd by apply ind2elm_range. cbn [fst snd]. rewrite Hi. cbn [Z.eqb andb].
      destruct (Z.ltb_spec (- snd (ind2elm j)) 0); [|lia].
      rewrite Z.opp_involutive. symmetry. apply elm2ind_ind2elm.
  Qed.

  Lemma writer_range i r : i < r < L * L -> i < writer i r < L * L.
  Proof.
    intros Hr. unfold writer. destruct (_ && _) eqn:E; [|exact Hr].
    apply andb_prop in E. destruct E as [_ E]. apply Z.ltb_lt in E.
    pose proof (ind2elm_range r). split.
    - apply Nat.lt_trans with r; [apply Hr|].
      rewrite <- (elm2ind_ind2elm r) at 1. unfold elm2ind. lia.
    - apply elm2ind_lt; [apply ind2elm_lt, Hr|lia].
  Qed.

  Lemma acell_lower i r : i < r -> acell r i =
    if (snd (ind2elm i) =? 0)%Z && (snd (ind2elm r) <? 0)%Z
    then let v := I2 (writer i r) i in
         ((sgn (- snd (ind2elm r)) * Re v)%R, (sgn (- snd (ind2elm r) + 1) * Im v)%R)
    else I2 r i.
  Proof.
    intros Hr. unfold acell, writer. destruct (ind2elm r) as [el mr] eqn:E. cbn [fst snd].
    destruct (Nat.eqb_spec r i); [lia|].
    destruct ((snd (ind2elm i) =? 0)%Z && (mr <? 0)%Z); reflexivity.
  Qed.

  Lemma helper_frame i st b r c : i < L * L -> ~ aOwn i b r c ->
    snd (ideal harmonic (helper i) st) b r c = snd st b r c.
  Proof.
    intros Hi Hn. unfold matrix_helper. rewrite app_assoc, ideal_app.
    destruct (load_store_ideal i i i i st) as [l' E]. rewrite E.
    rewrite (flat_frame' _ _ (fun j => c = i /\ b < 2 /\ touches i j r)).
    - cbn [snd]. rewrite !upd3_other; [reflexivity| |];
        intros E'; injection E' as -> -> ->; apply Hn; unfold aOwn; lia.
    - intros j st' Hj Ho. apply in_seq in Hj. apply step_frame; [lia|exact Ho].
    - intros j Hj (-> & Hb & Ht). apply in_seq in Hj. apply Hn. unfold aOwn.
      split; [exact Hb|]. split; [reflexivity|].
      destruct Ht as [->|(_ & Hp & ->)]; [lia|].
      apply elm2ind_lt; [apply ind2elm_lt; lia|]. pose proof (ind2elm_range j). lia.
  Qed.

  Lemma helper_value i st b r c : i < L * L -> aDet i b r c ->
    snd (ideal harmonic (helper i) st) b r c = aval i b r c.
  Proof.
    intros Hi (Hb & -> & Hr). unfold matrix_helper. rewrite app_assoc, ideal_app.
    destruct (load_store_ideal i i i i st) as [l' E]. rewrite E.
    destruct (Nat.eq_dec r i) as [->|Hne].
    - rewrite (flat_frame' _ _ (fun j => writes i j i)).
      + cbn [snd]. unfold aval, acell. destruct (ind2elm i) as [el mi]. rewrite Nat.eqb_refl.
        destruct b as [|[|b]]; [| |lia]; cbn [Nat.eqb].
        * rewrite upd3_other by congruence. apply upd3_same.
        * apply upd3_same.
      + intros j st' Hj Ho. apply in_seq in Hj. apply step_frame'; [lia|exact Ho].
      + intros j Hj Hw. apply in_seq in Hj.
        assert (Ht := proj1 Hw). destruct Ht as [Ht|(H0 & Hp & Ht)]; [lia|].
        pose proof (f_equal (fun x => snd (ind2elm x)) Ht) as E2. cbn beta in E2.
        rewrite mirror_snd in E2 by apply ind2elm_range. cbn [snd] in E2. lia.
    - assert (Hw := writer_range i r ltac:(lia)).
      apply (flat_value' _ _ (fun j => writes i j r) _ _ _ _ _ (writer i r)).
      + intros j st' Hj Ho. apply in_seq in Hj. apply step_frame'; [lia|exact Ho].
      + intros j _ Hwr. apply writes_writer. exact Hwr.
      + apply in_seq. lia.
      + intros st'. unfold aval. rewrite acell_lower by lia.
        destruct ((snd (ind2elm i) =? 0)%Z && (snd (ind2elm r) <? 0)%Z) eqn:Em.
        * apply andb_prop in Em. destruct Em as [E1 E2].
          apply Z.eqb_eq in E1. apply Z.ltb_lt in E2.
          assert (Ew : ind2elm (writer i r) = (fst (ind2elm r), - snd (ind2elm r))%Z).
          { unfold writer. rewrite E1. cbn [Z.eqb andb].
            destruct (Z.ltb_spec (snd (ind2elm r)) 0); [|lia].
            apply mirror_snd. apply ind2elm_range. }
          pose proof (step_value_mirror i (writer i r) st' b ltac:(lia) Hb E1) as Hv.
          rewrite Ew in Hv. cbn [fst snd] in Hv.
          rewrite Z.opp_involutive, elm2ind_ind2elm in Hv.
          rewrite Hv by lia. cbv zeta. destruct (b =? 0); reflexivity.
        * assert (Ew : writer i r = r) by (unfold writer; rewrite Em; reflexivity).
          rewrite Ew. rewrite step_value_direct; [reflexivity|lia|lia|exact Hb|].
          intros [H1 H2]. apply Z.eqb_eq in H1. apply Z.ltb_lt in H2.
          rewrite H1, H2 in Em. discriminate.
  Qed.

  (** *** Protocol *)
  Definition ok_seg (own : nat -> nat -> nat -> Prop) (c : list (instr (nat -> C))) : Prop :=
    forall p, Pgood 2 p -> pall (L * L) 2 own c p /\ Pgood 2 (pend (L * L) 2 c p).

  Lemma ok_seg_app own c1 c2 : ok_seg own c1 -> ok_seg own c2 -> ok_seg own (c1 ++ c2).
  Proof.
    intros H1 H2 p Hp. destruct (H1 p Hp) as [A1 A2]. destruct (H2 _ A2) as [B1 B2].
    split; [apply pall_app; auto|]. rewrite pend_app. exact B2.
  Qed.

  Lemma ok_seg_flat own (f : nat -> list (instr (nat -> C))) js :
    (forall j, In j js -> ok_seg own (f j)) -> ok_seg own (flat_map f js).
  Proof.
    induction js as [|j js IH]; intros H; simpl.
    - intros p Hp. split; [exact I|exact Hp].
    - apply ok_seg_app; [apply H; left; reflexivity|]. apply IH. intros; apply H; right; assumption.
  Qed.

  Lemma load_ok own i j : ok_seg own (integral_load i j).
  Proof.
    intros p [Ho Ht]. cbn [integral_load pall pend pnext fst snd ptest pknown popen].
    repeat split; auto.
    - unfold upd1. rewrite Nat.eqb_refl. destruct (i =? j); reflexivity.
    - unfold upd1. rewrite Nat.eqb_refl. reflexivity.
  Qed.

  Lemma integral_of_local (l l' : local (nat -> C)) :
    fa l = fa l' -> fb l = fb l' -> integral_of ns mask weight l = integral_of ns mask weight l'.
  Proof. intros H1 H2. unfold integral_of. rewrite H1, H2. reflexivity. Qed.

  Lemma store_ok i r : r < L * L -> i < L * L -> ok_seg (aOwn i) (store_integral ns mask weight r i).
  Proof.
    intros Hr Hi p Hp. assert (Hp' := Hp). destruct Hp as [Ho Ht].
    cbn [store_integral pall pend pnext fst snd].
    split; [|exact Hp'].
    assert (E0 : popen p 0 = true) by (rewrite Ho; reflexivity).
    assert (E1 : popen p 1 = true) by (rewrite Ho; reflexivity).
    unfold aOwn. repeat split; auto; try lia.
    - intros l l' _ H1 H2. rewrite (integral_of_local l l' H1 H2). reflexivity.
    - intros l l' _ H1 H2. rewrite (integral_of_local l l' H1 H2). reflexivity.
  Qed.

  Lemma mirror_ok i j k (s1 s2 : R) : j < L * L -> i < L * L -> k < L * L ->
    ok_seg (aOwn i) [ILoad 0 j i; IWrite 0 k i (fun l => (s1 * reg l)%R);
                     ILoad 1 j i; IWrite 1 k i (fun l => (s2 * reg l)%R)].
  Proof.
    intros Hj Hi Hk p Hp. assert (Hp' := Hp). destruct Hp as [Ho Ht].
    cbn [pall pend pnext fst snd]. split; [|exact Hp'].
    assert (E0 : popen p 0 = true) by (rewrite Ho; reflexivity).
    assert (E1 : popen p 1 = true) by (rewrite Ho; reflexivity).
    unfold aOwn. repeat split; auto; try lia; intros l l' H _ _; rewrite H; reflexivity.
  Qed.

  Lemma helper_ok i p : i < L * L -> Pgood 2 p ->
    pall (L * L) 2 (aOwn i) (helper i) p /\ Pgood 2 (pend (L * L) 2 (helper i) p).
  Proof.
    intros Hi. revert p. change (ok_seg (aOwn i) (helper i)). unfold matrix_helper.
    apply ok_seg_app; [apply load_ok|]. apply ok_seg_app; [apply store_ok; exact Hi|].
    apply ok_seg_flat. intros j Hj. apply in_seq in Hj. rewrite hstep_cases by lia.
    assert (Hk : elm2ind (fst (ind2elm j)) (- snd (ind2elm j)) < L * L).
    { apply elm2ind_lt; [apply ind2elm_lt; lia|]. pose proof (ind2elm_range j). lia. }
    destruct ((snd (ind2elm i) =? 0)%Z && negb (snd (ind2elm j) =? 0)%Z).
    - destruct (0 <? snd (ind2elm j))%Z.
      + apply ok_seg_app; [apply load_ok|]. apply ok_seg_app; [apply store_ok; lia|].
        apply mirror_ok; lia.
      + intros p Hp. split; [exact I|exact Hp].
    - apply ok_seg_app; [apply load_ok|apply store_ok; lia].
  Qed.

  Lemma aOwn_disjoint i j b r c : aOwn i b r c -> aOwn j b r c -> i = j.
  Proof. unfold aOwn. lia. Qed.
  Lemma aDet_Own i b r c : aDet i b r c -> aOwn i b r c.
  Proof. unfold aDet, aOwn. lia. Qed.

  Variable ncpu : nat.
  Hypothesis L_pos : 0 < L.
  Hypothesis ncpu_pos : 0 < ncpu.
  Variable garbage : nat -> nat -> nat -> R.

  Lemma LL_pos : 0 < L * L.
  Proof. nia. Qed.

  Lemma arb_safe sched :
    let y := arbitrary_job L ns mask weight harmonic ncpu garbage sched in
    pfail (par y) = None /\ Forall (fun t => failed t = None) (pool y).
  Proof.
    exact (job_safe (L * L) 2 harmonic _ aOwn aDet aval aOwn_disjoint aDet_Own helper_ok
      helper_frame helper_value ncpu LL_pos ncpu_pos garbage sched).
  Qed.

  Lemma arb_result sched :
    let y := arbitrary_job L ns mask weight harmonic ncpu garbage sched in
    finished y ->
    (exists a, outcome y = Ok a /\
       forall r c, c <= r < L * L -> (a 0 r c, a 1 r c) = acell r c) /\
    Forall (fun t => code t = [] /\ failed t = None /\ forall b, mapped (tloc t) b = false) (pool y) /\
    (forall b, pmapped (par y) b = false) /\ (forall b, b < 2 -> linked (sh y) b = false).
  Proof.
    intros y Hf.
    destruct (job_result (L * L) 2 harmonic _ aOwn aDet aval aOwn_disjoint aDet_Own helper_ok
      helper_frame helper_value ncpu LL_pos ncpu_pos garbage sched Hf)
      as ((a & Ho & Hv & _) & Hc & Hp & Hl).
    split; [|auto]. exists a. split; [exact Ho|]. intros r c Hr.
    rewrite (Hv c 0 r c), (Hv c 1 r c) by (unfold aDet; lia).
    unfold aval. cbn [Nat.eqb]. destruct (acell r c). reflexivity.
  Qed.

  (** *** Meaning of the shortcut *)
  Hypothesis harmonic_conj : forall el m s, el < L -> (Z.abs m <= Z.of_nat el)%Z ->
    harmonic (elm2ind el (- m)) s = (RtoC (pm1 m) * Cconj (harmonic (elm2ind el m) s))%C.

  Lemma sgn_succ (k : Z) : sgn (k + 1) = (- sgn k)%R.
  Proof. unfold sgn. rewrite Z.even_add. destruct (Z.even k); simpl; lra. Qed.

  Lemma acell_correct r c : c <= r < L * L -> acell r c = I2 r c.
  Proof.
    intros Hr. destruct (Nat.eq_dec r c) as [->|Hne].
    { unfold acell. destruct (ind2elm c). rewrite Nat.eqb_refl. reflexivity. }
    rewrite acell_lower by lia.
    destruct ((snd (ind2elm c) =? 0)%Z && (snd (ind2elm r) <? 0)%Z) eqn:E; [|reflexivity].
    assert (Ew : writer c r = elm2ind (fst (ind2elm r)) (- snd (ind2elm r))).
    { unfold writer. rewrite E. reflexivity. }
    apply andb_prop in E. destruct E as [E1 E2]. apply Z.eqb_eq in E1. apply Z.ltb_lt in E2.
    set (el := fst (ind2elm r)) in *. set (m := (- snd (ind2elm r))%Z) in *.
    assert (Hel : el < L) by (apply ind2elm_lt; lia).
    assert (Hm : (Z.abs m <= Z.of_nat el)%Z) by (pose proof (ind2elm_range r); unfold el, m; lia).
    assert (Hc : c = elm2ind (fst (ind2elm c)) 0).
    { rewrite <- E1. symmetry. apply elm2ind_ind2elm. }
    assert (Hcr : forall s, Cconj (harmonic c s) = harmonic c s).
    { intros s. pose proof (harmonic_conj (fst (ind2elm c)) 0 s) as H.
      change (- 0)%Z with 0%Z in H. rewrite <- Hc in H.
      rewrite H at 2; [|apply ind2elm_lt; lia|lia]. unfold pm1. simpl. ring. }
    assert (Hrm : forall s, harmonic r s = (RtoC (pm1 m) * Cconj (harmonic (writer c r) s))%C).
    { intros s. rewrite Ew. rewrite <- harmonic_conj by assumption. f_equal.
      unfold m. rewrite Z.opp_involutive. unfold el. symmetry. apply elm2ind_ind2elm. }
    cbv zeta. rewrite sgn_succ. change sgn with pm1.
    assert (Hv : I2 r c = (RtoC (pm1 m) * Cconj (I2 (writer c r) c))%C).
    { unfold integrate_region_sphere. rewrite csum_conj, <- csum_scal_l. apply csum_ext.
      intros s _. unfold multiply_args. cbn [fold_left].
      rewrite Hrm, !Cconj_mult, !Cconj_R, Cconj_conj, Hcr. ring. }
    cbv beta in Hv. rewrite Hv. unfold Cmult, Cconj, RtoC, Re, Im. cbn [fst snd].
    f_equal; ring.
  Qed.

  Lemma I2_hermitian r c : Cconj (I2 r c) = I2 c r.
  Proof.
    cbv beta. unfold integrate_region_sphere. rewrite csum_conj. apply csum_ext. intros s _.
    unfold multiply_args. cbn [fold_left]. rewrite !Cconj_mult, !Cconj_R, Cconj_conj. ring.
  Qed.

  Lemma solved_D_matrix_spec sched :
    finished (arbitrary_job L ns mask weight harmonic ncpu garbage sched) ->
    exists D, solved_D_matrix L ns mask weight harmonic ncpu garbage sched = Ok D /\
      forall a b, a < L * L -> b < L * L ->
        D a b = csum ns (fun s => (RtoC (mask s * weight s) * harmonic a s * Cconj (harmonic b s))%C).
  Proof.
    intros Hf. destruct (arb_result sched Hf) as ((x & Ho & Hv) & _).
    unfold solved_D_matrix, create_D_matrix. rewrite Ho. cbn [rbind].
    eexists. split; [reflexivity|]. intros a b Ha Hb.
    assert (Hspec : forall a b, I2 a b =
      csum ns (fun s => (RtoC (mask s * weight s) * harmonic a s * Cconj (harmonic b s))%C)).
    { intros a' b'. cbv beta. unfold integrate_region_sphere. apply csum_ext. intros s _.
      unfold multiply_args. cbn [fold_left]. rewrite RtoC_mult. ring. }
    rewrite <- Hspec. unfold fill_upper.
    destruct (Nat.ltb_spec a b) as [Hlt|Hge]; cbn [andb].
    - assert (E : b <? L * L = true) by (apply Nat.ltb_lt; exact Hb). rewrite E.
      rewrite Hv, acell_correct by lia. apply I2_hermitian.
    - rewrite Hv, acell_correct by lia. reflexivity.
  Qed.
End ArbP.

Section MeshP.
  Variable nbasis nv : nat.
  Variable region : nat -> bool.
  Variable basis : nat -> nat -> R.
  Notation mI := (mesh_integral nv region basis).
  Notation mseg := (fill_D_elements nbasis nv region basis).

  Definition mOwn (i b r c : nat) : Prop := b = 0 /\ c = i /\ i <= r < nbasis.
  Definition mval (i b r c : nat) : R := mI r i.

  Lemma col_ideal i js (st : local unit * (nat -> nat -> nat -> R)) b r c :
    snd (ideal (fun _ => tt) (map (fun j => IWrite 0 j i (fun _ : local unit => mI j i)) js) st) b r c
    = if (b =? 0) && (c =? i) && existsb (Nat.eqb r) js then mI r i else snd st b r c.
  Proof.
    revert st. induction js as [|j js IH]; intros [l m].
    - simpl. rewrite andb_false_r. reflexivity.
    - change (map ?f (j :: js)) with ([f j] ++ map f js). rewrite ideal_app, IH. clear IH.
      cbn [ideal fold_left ideal1 snd existsb]. unfold upd3.
      destruct (Nat.eqb_spec b 0), (Nat.eqb_spec c i), (Nat.eqb_spec r j); subst; simpl; auto;
        destruct (existsb _ js); reflexivity.
  Qed.

  Lemma mseg_eq i : i < nbasis ->
    mseg i = map (fun j => IWrite 0 j i (fun _ : local unit => mI j i)) (seq i (nbasis - i)).
  Proof.
    intros H. unfold fill_D_elements.
    replace (nbasis - i) with (S (nbasis - (i + 1))) by lia. cbn [seq map].
    rewrite Nat.add_1_r. reflexivity.
  Qed.

  Lemma existsb_seq' x i n : existsb (Nat.eqb x) (seq i n) = (i <=? x) && (x <? i + n).
  Proof.
    apply Bool.eq_true_iff_eq. rewrite existsb_exists, andb_true_iff, Nat.leb_le, Nat.ltb_lt.
    split.
    - intros (y & Hy & E). apply Nat.eqb_eq in E. subst. apply in_seq in Hy. lia.
    - intros H. exists x. split; [apply in_seq; lia|apply Nat.eqb_refl].
  Qed.

  Lemma mseg_frame i st b r c : i < nbasis -> ~ mOwn i b r c ->
    snd (ideal (fun _ => tt) (mseg i) st) b r c = snd st b r c.
  Proof.
    intros Hi Hn. rewrite mseg_eq, col_ideal, existsb_seq' by exact Hi.
    destruct (_ && _ && _) eqn:E; [|reflexivity]. exfalso. apply Hn. unfold mOwn.
    apply andb_prop in E. destruct E as [E1 E2]. apply andb_prop in E1. destruct E1 as [E1 E3].
    apply andb_prop in E2. destruct E2 as [E2 E4].
    apply Nat.eqb_eq in E1, E3. apply Nat.leb_le in E2. apply Nat.ltb_lt in E4. lia.
  Qed.

  Lemma mseg_value i st b r c : i < nbasis -> mOwn i b r c ->
    snd (ideal (fun _ => tt) (mseg i) st) b r c = mval i b r c.
  Proof.
    intros Hi (-> & -> & Hr). rewrite mseg_eq, col_ideal, existsb_seq' by exact Hi.
    rewrite !Nat.eqb_refl.
    replace ((i <=? r) && (r <? i + (nbasis - i))) with true; [reflexivity|].
    symmetry. apply andb_true_intro. rewrite Nat.leb_le, Nat.ltb_lt. lia.
  Qed.

  Lemma mseg_ok i p : i < nbasis -> Pgood 1 p ->
    pall nbasis 1 (mOwn i) (mseg i) p /\ Pgood 1 (pend nbasis 1 (mseg i) p).
  Proof.
    intros Hi Hp. rewrite mseg_eq by exact Hi.
    assert (H : forall js, (forall j, In j js -> i <= j < nbasis) ->
      pall nbasis 1 (mOwn i) (map (fun j => IWrite 0 j i (fun _ : local unit => mI j i)) js) p /\
      pend nbasis 1 (map (fun j => IWrite 0 j i (fun _ : local unit => mI j i)) js) p = p).
    { induction js as [|j js IH]; intros Hj; simpl; [auto|].
      destruct IH as [H1 H2]; [intros; apply Hj; right; assumption|].
      pose proof (Hj j (or_introl eq_refl)). destruct Hp as [Ho Ht].
      assert (E0 : popen p 0 = true) by (rewrite Ho; reflexivity).
      unfold mOwn. repeat split; auto; lia. }
    destruct (H (seq i (nbasis - i))) as [H1 H2].
    - intros j Hj. apply in_seq in Hj. lia.
    - rewrite H2. auto.
  Qed.

  Lemma mOwn_disjoint i j b r c : mOwn i b r c -> mOwn j b r c -> i = j.
  Proof. unfold mOwn. lia. Qed.

  Variable ncpu : nat.
  Hypothesis nbasis_pos : 0 < nbasis.
  Hypothesis ncpu_pos : 0 < ncpu.
  Variable garbage : nat -> nat -> nat -> R.

  Lemma mesh_safe sched :
    let y := mesh_job nbasis nv region basis ncpu garbage sched in
    pfail (par y) = None /\ Forall (fun t => failed t = None) (pool y).
  Proof.
    exact (job_safe nbasis 1 (fun _ => tt) _ mOwn mOwn mval mOwn_disjoint ltac:(auto) mseg_ok
      mseg_frame mseg_value ncpu nbasis_pos ncpu_pos garbage sched).
  Qed.

  Lemma mesh_result sched :
    let y := mesh_job nbasis nv region basis ncpu garbage sched in
    finished y ->
    (exists a, outcome y = Ok a /\
       forall r c, c <= r < nbasis -> a 0 r c = mI r c) /\
    Forall (fun t => code t = [] /\ failed t = None /\ forall b, mapped (tloc t) b = false) (pool y) /\
    (forall b, pmapped (par y) b = false) /\ (forall b, b < 1 -> linked (sh y) b = false).
  Proof.
    intros y Hf.
    destruct (job_result nbasis 1 (fun _ => tt) _ mOwn mOwn mval mOwn_disjoint ltac:(auto) mseg_ok
      mseg_frame mseg_value ncpu nbasis_pos ncpu_pos garbage sched Hf)
      as ((a & Ho & Hv & _) & Hc & Hp & Hl).
    split; [|auto]. exists a. split; [exact Ho|]. intros r c Hr.
    rewrite (Hv c 0 r c); [reflexivity|lia|]. unfold mOwn. lia.
  Qed.

  Lemma mesh_D_matrix_spec sched :
    finished (mesh_job nbasis nv region basis ncpu garbage sched) ->
    exists D, mesh_D_matrix nbasis nv region basis ncpu garbage sched = Ok D /\
      forall a b, a < nbasis -> b < nbasis ->
        D a b = rsum nv (fun v => if region v then basis a v * basis b v else 0)%R.
  Proof.
    intros Hf. destruct (mesh_result sched Hf) as ((x & Ho & Hv) & _).
    unfold mesh_D_matrix. rewrite Ho. cbn [rbind].
    eexists. split; [reflexivity|]. intros a b Ha Hb.
    assert (Hs : forall a b, mI a b = rsum nv (fun v => if region v then basis a v * basis b v else 0)%R).
    { intros a' b'. unfold mesh_integral, integrate_region_mesh. apply rsum_ext.
      intros v _. destruct (region v); ring. }
    cbv beta. destruct (Nat.ltb_spec a b) as [Hlt|Hge]; cbn [andb].
    - assert (E : b <? nbasis = true) by (apply Nat.ltb_lt; exact Hb). rewrite E.
      rewrite Hv, Hs by lia. apply rsum_ext. intros v _. destruct (region v); ring.
    - rewrite Hv, Hs by lia. reflexivity.
  Qed.
End MeshP.
