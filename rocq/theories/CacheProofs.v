From Coq Require Import List ZArith Arith Bool String Lia.
From Verif Require Import Base ListLemmas Eigen PyNumProofs Cache SpecCache.
Import ListNotations.
Local Open Scope list_scope.

(** ** File names *)
Lemma append_length_s a b : String.length (String.append a b) = String.length a + String.length b.
Proof. induction a as [|c a IH]; cbn; [reflexivity|]. rewrite IH. reflexivity. Qed.

Lemma append_cancel_tail a b x y :
  String.length x = String.length y -> String.append a x = String.append b y -> x = y /\ a = b.
Proof.
  intros Hl H.
  assert (La : String.length a = String.length b).
  { apply (f_equal String.length) in H. rewrite !append_length_s in H. lia. }
  clear Hl. revert b La H. induction a as [|c a IH]; intros [|d b] La H; cbn in *; try discriminate.
  - auto.
  - injection La as La. injection H as -> H. destruct (IH b La H) as [A ->]. auto.
Qed.

Section Proofs.
  Context {E V : Type}.
  Implicit Types (j : job E V) (d : disk E V) (p : prog E V).

  Lemma append_assoc_str a b c : String.append a (String.append b c) = String.append (String.append a b) c.
  Proof. induction a as [|x a IH]; cbn; [reflexivity|]. rewrite IH. reflexivity. Qed.

  Lemma eval_split j : eval_loc j = String.append (String.append (j_loc j) "_eigen") "values.npy".
  Proof. unfold eval_loc. rewrite <- append_assoc_str. reflexivity. Qed.
  Lemma evec_split j : evec_loc j = String.append (String.append (j_loc j) "_eigenv") "ectors.npy".
  Proof. unfold evec_loc. rewrite <- append_assoc_str. reflexivity. Qed.
  Lemma order_split j : order_loc j = String.append (String.append (j_loc j) "_") "orders.npy".
  Proof. unfold order_loc. rewrite <- append_assoc_str. reflexivity. Qed.

  Lemma eval_inj j j' : eval_loc j = eval_loc j' -> j_loc j = j_loc j'.
  Proof. intros H. apply append_cancel_tail in H; [tauto|reflexivity]. Qed.
  Lemma evec_inj j j' : evec_loc j = evec_loc j' -> j_loc j = j_loc j'.
  Proof. intros H. apply append_cancel_tail in H; [tauto|reflexivity]. Qed.
  Lemma order_inj j j' : order_loc j = order_loc j' -> j_loc j = j_loc j'.
  Proof. intros H. apply append_cancel_tail in H; [tauto|reflexivity]. Qed.
  Lemma eval_evec j j' : eval_loc j <> evec_loc j'.
  Proof. rewrite eval_split, evec_split. intros H. apply append_cancel_tail in H; [|reflexivity]. destruct H; discriminate. Qed.
  Lemma eval_order j j' : eval_loc j <> order_loc j'.
  Proof. rewrite eval_split, order_split. intros H. apply append_cancel_tail in H; [|reflexivity]. destruct H; discriminate. Qed.
  Lemma evec_order j j' : evec_loc j <> order_loc j'.
  Proof. rewrite evec_split, order_split. intros H. apply append_cancel_tail in H; [|reflexivity]. destruct H; discriminate. Qed.

  (** Equal stems of one problem: equal files. *)
  Lemma same_files j j' : j_loc j = j_loc j' -> same_problem j j' -> cache_files j = cache_files j'.
  Proof.
    intros HL [HN HK]. unfold cache_files, eval_loc, evec_loc, order_loc. rewrite HL, HN.
    destruct (j_kind j) as [s|L o s f], (j_kind j') as [s'|L' o' s' f']; try contradiction.
    - subst s'. reflexivity.
    - destruct HK as (-> & -> & ->). reflexivity.
  Qed.

  Lemma cache_file_name j f a : In (f, a) (cache_files j) ->
    f = eval_loc j \/ f = evec_loc j \/ f = order_loc j.
  Proof.
    unfold cache_files. destruct (j_kind j) as [[[ev vec]|e]|L o [[[ev vec] ords]|e] one]; cbn;
      intros H; repeat (destruct H as [H|H]); try contradiction; injection H as <- <-; auto.
  Qed.

  Lemma names_same_loc j j' f :
    (f = eval_loc j \/ f = evec_loc j \/ f = order_loc j) ->
    (f = eval_loc j' \/ f = evec_loc j' \/ f = order_loc j') -> j_loc j = j_loc j'.
  Proof.
    intros [->|[->| ->]] [H|[H|H]];
      first [exact (eval_inj _ _ H)|exact (evec_inj _ _ H)|exact (order_inj _ _ H)
            |contradiction (eval_evec _ _ H)|contradiction (eval_order _ _ H)|contradiction (evec_order _ _ H)
            |contradiction (eval_evec _ _ (eq_sym H))|contradiction (eval_order _ _ (eq_sym H))
            |contradiction (evec_order _ _ (eq_sym H))].
  Qed.

  Lemma cache_file_fun j f a b : In (f, a) (cache_files j) -> In (f, b) (cache_files j) -> a = b.
  Proof.
    pose proof (eval_evec j j) as N1. pose proof (eval_order j j) as N2. pose proof (evec_order j j) as N3.
    unfold cache_files. destruct (j_kind j) as [[[ev vec]|e]|L o [[[ev vec] ords]|e] one]; cbn;
      intros H H'; repeat (destruct H as [H|H]); try contradiction;
      repeat (destruct H' as [H'|H']); try contradiction; congruence.
  Qed.

  (** ** The invariant *)
  Variable pooch : string -> option (res (npy E V)).
  Variable jobs : list (job E V).
  Hypothesis sharing : no_sharing jobs.
  Hypothesis registry : registry_sound pooch jobs.

  Definition disk_ok (d : disk E V) : Prop :=
    forall f c, d f = Some c -> exists a j, c = Full a /\ In j jobs /\ In (f, a) (cache_files j).

  (** What a read of one of [j]'s files may return. *)
  Definition cell_ok j (f : string) (c : option (cell E V)) : Prop :=
    forall x, c = Some x -> exists a, x = Full a /\ In (f, a) (cache_files j).

  Lemma disk_cell j f d : In j jobs -> disk_ok d ->
    (f = eval_loc j \/ f = evec_loc j \/ f = order_loc j) -> cell_ok j f (d f).
  Proof.
    intros Hj HD Hf x Hx. destruct (HD f x Hx) as (a & j' & -> & Hj' & Ha).
    exists a. split; [reflexivity|].
    assert (HL : j_loc j = j_loc j') by (eapply names_same_loc; [exact Hf|eapply cache_file_name; exact Ha]).
    rewrite (same_files j j' HL (sharing j j' Hj Hj' HL)). exact Ha.
  Qed.

  (** The answers a request may give. *)
  Definition answer j (r : res (solution E V)) : Prop :=
    match j_kind j with
    | Plain (Err e) => r = Err e
    | Plain (Ok (ev, vec)) =>
        r = Ok (Solution (Evals ev) (Evecs vec) AllOrders) \/
        r = Ok (Solution (Evals ev) (Evecs (py_prefix (j_N j) vec)) AllOrders)
    | Polar L AllOrders (Err e) _ => r = Err e
    | Polar L AllOrders (Ok (ev, vec, ords)) _ =>
        r = Ok (Solution (Evals ev) (Evecs vec) (OrderArray (Orders ords))) \/
        r = Ok (Solution (Evals ev) (Evecs (if Nat.ltb 16 L then py_prefix (j_N j) vec else vec))
                  (OrderArray (Orders ords)))
    | Polar L (OneOrder m) all one =>
        r = (let* (ev, vec) := one m in Ok (Solution (Evals ev) (Evecs vec) (OneOrder m))) \/
        exists ev vec ords, all = Ok (ev, vec, ords) /\
          let idx := np_where (map (fun x => Z.eqb x m) ords) in
          let saved := if Nat.ltb 16 L then py_prefix (j_N j) vec else vec in
          r = (let* ev' := fancy ev idx in let* vec' := fancy saved idx in
               Ok (Solution (Evals ev') (Evecs vec') (OneOrder m)))
    | Polar L (OrderArray _) _ _ => True
    end.

  Fixpoint good j p : Prop :=
    match p with
    | Ret r => answer j r
    | Read f k => (f = eval_loc j \/ f = evec_loc j \/ f = order_loc j) /\
                  forall c, cell_ok j f c -> good j (k c)
    | Write f a k => In (f, a) (cache_files j) /\ good j k
    | Filling f a k => False
    end.

  Lemma good_load j f k :
    In j jobs -> (f = eval_loc j \/ f = evec_loc j \/ f = order_loc j) ->
    good j (k (Err TypeError)) -> (forall a, In (f, a) (cache_files j) -> good j (k (Ok a))) ->
    good j (load E V pooch f k).
  Proof.
    intros Hj Hf H1 H2. unfold load. destruct (pooch f) as [r|] eqn:P.
    - destruct (registry j f r Hj) as (a & -> & Ha); [cbn; intuition congruence|exact P|]. auto.
    - cbn. split; [exact Hf|]. intros [c|] Hc; [|exact H1].
      destruct (Hc c eq_refl) as (a & -> & Ha). auto.
  Qed.

  Lemma fancy_no_type_error {A} (l : list A) idx e : fancy l idx = Err e -> e = IndexError.
  Proof.
    unfold fancy. induction idx as [|i idx IH]; cbn; [discriminate|].
    destruct (nth_error l i); cbn; [|congruence]. destruct (rmap _ idx); cbn; [discriminate|].
    intros [= ->]. auto.
  Qed.

  Lemma construct_good j : In j jobs -> good j (construct pooch j).
  Proof.
    intros Hj. unfold construct.
    destruct (j_kind j) as [s|L o s one] eqn:K.
    - unfold solve_plain.
      assert (FS : good j (match s with
               | Err e => Ret (Err e)
               | Ok (ev, vec) => Write (eval_loc j) (Evals ev) (Write (evec_loc j) (Evecs (py_prefix (j_N j) vec))
                     (Ret (Ok (Solution (Evals ev) (Evecs vec) AllOrders))))
               end)).
      { destruct s as [[ev vec]|e]; cbn; unfold cache_files, answer; rewrite K; cbn; auto. }
      apply good_load; auto. intros a Ha. apply good_load; auto. intros b Hb.
      cbn. unfold answer. rewrite K.
      unfold cache_files in Ha, Hb. rewrite K in Ha, Hb.
      pose proof (eval_evec j j) as N1.
      destruct s as [[ev vec]|e]; cbn in Ha, Hb; [|contradiction].
      right. destruct Ha as [Ha|[Ha|[]]]; [|congruence]. destruct Hb as [Hb|[Hb|[]]]; [congruence|]. congruence.
    - unfold solve_polar.
      set (fs := match o with
               | OneOrder m => match one m with Err e => Ret (Err e)
                     | Ok (ev, vec) => Ret (Ok (Solution (Evals ev) (Evecs vec) o)) end
               | _ => _ end).
      assert (FS : good j fs).
      { unfold fs, L_SAVE_ALL. destruct o as [|m|a].
        - destruct s as [[[ev vec] ords]|e]; cbn -[Nat.ltb]; unfold cache_files, answer; rewrite K; cbn -[Nat.ltb]; auto.
          destruct (Nat.ltb 16 L); cbn; auto 10.
        - destruct (one m) as [[ev vec]|e] eqn:O; cbn; unfold answer; rewrite K; left; rewrite O; reflexivity.
        - destruct s as [[[ev vec] ords]|e]; cbn -[Nat.ltb]; unfold cache_files, answer; rewrite K; cbn -[Nat.ltb]; auto.
          destruct (Nat.ltb 16 L); cbn; auto 10. }
      clearbody fs.
      apply good_load; auto. intros a Ha. apply good_load; auto. intros b Hb. apply good_load; auto. intros c Hc.
      pose proof (eval_evec j j) as N1. pose proof (eval_order j j) as N2. pose proof (evec_order j j) as N3.
      unfold cache_files in Ha, Hb, Hc. rewrite K in Ha, Hb, Hc.
      destruct s as [[[ev vec] ords]|e]; cbn -[Nat.ltb] in Ha, Hb, Hc; [|contradiction].
      assert (a = Evals ev) by (destruct Ha as [Ha|[Ha|[Ha|[]]]]; congruence).
      assert (b = Evecs (if Nat.ltb 16 L then py_prefix (j_N j) vec else vec))
        by (destruct Hb as [Hb|[Hb|[Hb|[]]]]; congruence).
      assert (c = Orders ords) by (destruct Hc as [Hc|[Hc|[Hc|[]]]]; congruence).
      subst a b c. clear Ha Hb Hc.
      destruct o as [|m|a0].
      + cbn -[Nat.ltb]. unfold answer. rewrite K. right. reflexivity.
      + cbn [order_mask rbind npy_take].
        set (idx := np_where _). set (saved := if Nat.ltb 16 L then _ else _).
        assert (A : answer j (let* ev' := fancy ev idx in let* vec' := fancy saved idx in
               Ok (Solution (Evals ev') (Evecs vec') (OneOrder m)))).
        { unfold answer. rewrite K. right. exists ev, vec, ords. split; [reflexivity|]. reflexivity. }
        destruct (fancy ev idx) as [ev'|e] eqn:F; cbn [rbind] in *.
        * destruct (fancy saved idx) as [vec'|e] eqn:G; cbn [rbind] in *.
          -- exact A.
          -- rewrite (fancy_no_type_error _ _ _ G) in *. exact A.
        * rewrite (fancy_no_type_error _ _ _ F) in *. exact A.
      + match goal with |- good j (match ?sel with _ => _ end) => destruct sel as [x|[]] end;
          try exact FS; cbn; unfold answer; rewrite K; exact I.
  Qed.

  Lemma set_ok j f a d : In j jobs -> In (f, a) (cache_files j) -> disk_ok d -> disk_ok (set d f (Full a)).
  Proof.
    intros Hj Ha HD g c. unfold set. destruct (String.eqb_spec g f) as [->|N].
    - intros [= <-]. eauto.
    - apply HD.
  Qed.

  Definition state_ok (s : state E V) : Prop :=
    disk_ok (st_disk s) /\
    forall i j p, nth_error (st_procs s) i = Some (j, p) -> In j jobs /\ good j p.

  Lemma nth_error_upd {A} (l : list A) i x k y : nth_error (upd l i x) k = Some y ->
    (k = i /\ y = x) \/ nth_error l k = Some y.
  Proof.
    unfold upd. revert i k. induction l as [|z l IH]; intros [|i] [|k]; cbn; try discriminate; auto.
    - intros [= <-]. auto.
    - intros H. destruct (IH i k H) as [[-> ->]|H']; auto.
  Qed.

  Lemma act_ok s a : (forall j, a = Spawn j -> In j jobs) ->
    state_ok s -> state_ok (act E V pooch true s a).
  Proof.
    intros Ha [HD HP]. destruct a as [j|i]; cbn.
    - pose proof (Ha j eq_refl) as Hj. split; [exact HD|]. cbn. intros i j' p H.
      destruct (le_lt_dec (List.length (st_procs s)) i) as [Hi|Hi].
      + rewrite nth_error_app2 in H by lia. destruct (i - List.length (st_procs s)) as [|[|n]]; cbn in H; try discriminate.
        injection H as <- <-. split; [exact Hj|]. apply construct_good. exact Hj.
      + rewrite nth_error_app1 in H by lia. eauto.
    - destruct (nth_error (st_procs s) i) as [[j p]|] eqn:E1; [|split; assumption].
      destruct (HP i j p E1) as [Hj Hg].
      destruct p as [r|f k|f a k|f a k]; cbn in Hg |- *.
      + split; [exact HD|]. cbn. intros i' j' p' H. apply nth_error_upd in H.
        destruct H as [[-> H]|H]; [|eauto]. injection H as -> ->. split; assumption.
      + destruct Hg as [Hf Hk]. split; [exact HD|]. cbn. intros i' j' p' H. apply nth_error_upd in H.
        destruct H as [[-> H]|H]; [|eauto]. injection H as -> ->. split; [assumption|].
        apply Hk. apply disk_cell; assumption.
      + destruct Hg as [Hf Hk]. split; [apply (set_ok j); assumption|]. cbn. intros i' j' p' H.
        apply nth_error_upd in H. destruct H as [[-> H]|H]; [|eauto]. injection H as -> ->. split; assumption.
      + contradiction.
  Qed.

  Lemma exec_ok acts : forall s, (forall j, In j (spawned acts) -> In j jobs) ->
    state_ok s -> state_ok (exec pooch true acts s).
  Proof.
    induction acts as [|a acts IH]; intros s H HS; [exact HS|]. cbn. apply IH.
    - intros j Hj. apply H. cbn. apply in_or_app. right. exact Hj.
    - apply act_ok; [|exact HS]. intros j ->. apply H. cbn. left. reflexivity.
  Qed.

  Lemma init_ok : state_ok init.
  Proof. split; [intros f c; discriminate|]. intros [|i] j p; discriminate. Qed.

  (** ** Running alone *)
  Lemma solo_good j p : forall d, In j jobs -> good j p -> disk_ok d ->
    answer j (fst (solo p d)) /\ disk_ok (snd (solo p d)).
  Proof.
    induction p as [r|f k IH|f a k IH|f a k IH]; intros d Hj Hg HD; cbn in *.
    - auto.
    - destruct Hg as [Hf Hk]. apply IH; auto. apply Hk. apply disk_cell; assumption.
    - destruct Hg as [Ha Hk]. apply IH; auto. apply (set_ok j); assumption.
    - contradiction.
  Qed.

  (** [solo] never forgets a file. *)
  Lemma solo_keeps p : forall d f c, d f = Some c -> exists c', snd (solo p d) f = Some c'.
  Proof.
    induction p as [r|g k IH|g a k IH|g a k IH]; intros d f c H; cbn; eauto.
    - apply (IH _ f (if String.eqb f g then Full a else c)). unfold set. destruct (String.eqb f g); [reflexivity|exact H].
    - apply (IH _ f (if String.eqb f g then Full a else c)). unfold set. destruct (String.eqb f g); [reflexivity|exact H].
  Qed.

  (** A process run alone is an execution. *)
  Lemma upd_last {A} (l : list A) x y : upd (l ++ [x])%list (List.length l) y = (l ++ [y])%list.
  Proof.
    unfold upd. rewrite firstn_app, firstn_all, Nat.sub_diag, skipn_app, skipn_all, Nat.sub_diag. cbn.
    rewrite app_nil_r. reflexivity.
  Qed.
  Lemma nth_error_last {A} (l : list A) x : nth_error (l ++ [x])%list (List.length l) = Some x.
  Proof. rewrite nth_error_app2, Nat.sub_diag by lia. reflexivity. Qed.

  Lemma solo_exec p : forall d ps j, exists n,
    exec pooch true (repeat (Step (List.length ps)) n) (State d (ps ++ [(j, p)]))
    = State (snd (solo p d)) (ps ++ [(j, Ret (fst (solo p d)))]).
  Proof.
    assert (ST : forall n p d ps j,
      exec pooch true (repeat (Step (List.length ps)) (S n)) (State d (ps ++ [(j, p)]))
      = exec pooch true (repeat (Step (List.length ps)) n)
          (State (snd (step E V true p d)) (ps ++ [(j, fst (step E V true p d))]))).
    { intros n q d ps j. cbn [repeat exec fold_left act st_procs st_disk]. rewrite nth_error_last.
      destruct (step E V true q d) as [q' d'] eqn:S1. rewrite upd_last. reflexivity. }
    induction p as [r|f k IH|f a k IH|f a k IH]; intros d ps j.
    - exists 0. reflexivity.
    - destruct (IH (d f) d ps j) as [n Hn]. exists (S n). rewrite ST. exact Hn.
    - destruct (IH (set d f (Full a)) ps j) as [n Hn]. exists (S n). rewrite ST. exact Hn.
    - destruct (IH (set d f (Full a)) ps j) as [n Hn]. exists (S n). rewrite ST. exact Hn.
  Qed.

  (** A fresh request run alone leaves the complete cache behind, unless it was
      for one order only or its computation failed. *)
  Lemma load_solo f k d :
    (exists a, (pooch f = Some (Ok a)) /\ solo (load E V pooch f k) d = solo (k (Ok a)) d) \/
    (exists e, (pooch f = Some (Err e)) /\ solo (load E V pooch f k) d = solo (k (Err e)) d) \/
    (pooch f = None /\ d f = None /\ solo (load E V pooch f k) d = solo (k (Err TypeError)) d) \/
    (pooch f = None /\ d f = Some Torn /\ solo (load E V pooch f k) d = solo (k (Err ValueError)) d) \/
    (exists a, pooch f = None /\ d f = Some (Full a) /\ solo (load E V pooch f k) d = solo (k (Ok a)) d).
  Proof.
    unfold load. destruct (pooch f) as [[a|e]|]; [left; eauto|right; left; eauto|].
    right; right. cbn. destruct (d f) as [[|a]|]; eauto 10.
  Qed.

  (** Available from the registry or the disk. *)
  Definition available d f : Prop := pooch f <> None \/ d f <> None.

  Lemma complete_after j d : In j jobs -> whole_problem j -> disk_ok d ->
    forall f a, In (f, a) (cache_files j) ->
    available (snd (solo (construct pooch j) d)) f.
  Proof.
    intros Hj HW HD f a Hf.
    assert (REG : forall g b e, In (g, b) (cache_files j) -> pooch g <> Some (Err e)).
    { intros g b e Hg P. destruct (registry j g (Err e) Hj) as (x & X & _); [|exact P|discriminate].
      destruct (cache_file_name _ _ _ Hg) as [->|[->| ->]]; cbn; auto. }
    assert (TORN : forall g, d g <> Some Torn).
    { intros g P. destruct (HD g _ P) as (x & _ & X & _). discriminate. }
    unfold construct. unfold whole_problem in HW.
    destruct (j_kind j) as [s|L o s one] eqn:K.
    - unfold cache_files in Hf, REG. rewrite K in Hf, REG.
      destruct s as [[ev vec]|e]; [|contradiction]. cbn in Hf, REG.
      unfold solve_plain.
      assert (FIN : forall d', available (snd (solo (Write (eval_loc j) (Evals ev)
              (Write (evec_loc j) (Evecs (py_prefix (j_N j) vec))
                (Ret (Ok (Solution (Evals ev) (Evecs vec) AllOrders))))) d')) f).
      { intros d'. right. cbn. unfold set. pose proof (eval_evec j j).
        destruct Hf as [Hf|[Hf|[]]]; injection Hf as <- <-; rewrite !String.eqb_refl; [|discriminate].
        destruct (String.eqb_spec (eval_loc j) (evec_loc j)); discriminate. }
      match goal with |- context [load E V pooch (eval_loc j) ?k] => destruct (load_solo (eval_loc j) k d) as
        [(x & P1 & ->)|[(x & P1 & ->)|[(P1 & Q1 & ->)|[(P1 & Q1 & ->)|(x & P1 & Q1 & ->)]]]] end;
        try (exfalso; eapply (REG (eval_loc j)); [left; reflexivity|exact P1]); try (exfalso; eapply TORN; exact Q1);
        try apply FIN;
      match goal with |- context [load E V pooch (evec_loc j) ?k] => destruct (load_solo (evec_loc j) k d) as
        [(y & P2 & ->)|[(y & P2 & ->)|[(P2 & Q2 & ->)|[(P2 & Q2 & ->)|(y & P2 & Q2 & ->)]]]] end;
        try (exfalso; eapply (REG (evec_loc j)); [right; left; reflexivity|exact P2]); try (exfalso; eapply TORN; exact Q2);
        try apply FIN; unfold available; cbn;
        (destruct Hf as [Hf|[Hf|[]]]; injection Hf as <- <-; first [left; congruence|right; congruence]).
    - destruct o as [|m|b]; try contradiction.
      unfold cache_files in Hf, REG. rewrite K in Hf, REG.
      destruct s as [[[ev vec] ords]|e]; [|contradiction]. cbn [In] in Hf, REG.
      unfold solve_polar.
      assert (FIN : forall d' X, available (snd (solo (Write (eval_loc j) (Evals ev)
              (Write (evec_loc j) (Evecs X) (Write (order_loc j) (Orders ords)
                (Ret (Ok (Solution (Evals ev) (Evecs vec) (OrderArray (Orders ords)))))))) d')) f).
      { intros d' X. right. cbn. unfold set. pose proof (eval_evec j j). pose proof (eval_order j j). pose proof (evec_order j j).
        destruct Hf as [Hf|[Hf|[Hf|[]]]]; injection Hf as <- <-;
          repeat match goal with |- context [String.eqb ?u ?v] => destruct (String.eqb_spec u v) end; congruence. }
      match goal with |- context [load E V pooch (eval_loc j) ?k] => destruct (load_solo (eval_loc j) k d) as
        [(x & P1 & ->)|[(x & P1 & ->)|[(P1 & Q1 & ->)|[(P1 & Q1 & ->)|(x & P1 & Q1 & ->)]]]] end;
        try (exfalso; eapply (REG (eval_loc j)); [left; reflexivity|exact P1]); try (exfalso; eapply TORN; exact Q1);
        try apply FIN;
      match goal with |- context [load E V pooch (evec_loc j) ?k] => destruct (load_solo (evec_loc j) k d) as
        [(y & P2 & ->)|[(y & P2 & ->)|[(P2 & Q2 & ->)|[(P2 & Q2 & ->)|(y & P2 & Q2 & ->)]]]] end;
        try (exfalso; eapply (REG (evec_loc j)); [right; left; reflexivity|exact P2]); try (exfalso; eapply TORN; exact Q2);
        try apply FIN;
      match goal with |- context [load E V pooch (order_loc j) ?k] => destruct (load_solo (order_loc j) k d) as
        [(z & P3 & ->)|[(z & P3 & ->)|[(P3 & Q3 & ->)|[(P3 & Q3 & ->)|(z & P3 & Q3 & ->)]]]] end;
        try (exfalso; eapply (REG (order_loc j)); [right; right; left; reflexivity|exact P3]); try (exfalso; eapply TORN; exact Q3);
        try apply FIN; unfold available; cbn [solo snd];
        (destruct Hf as [Hf|[Hf|[Hf|[]]]]; injection Hf as <- <-; first [left; congruence|right; congruence]).
  Qed.
End Proofs.
