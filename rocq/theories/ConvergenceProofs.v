(** * Proofs: sums over the sampling grid against integrals over a box. *)
From Coq Require Import List ZArith Arith Bool Reals Lia Lra Psatz.
From Coquelicot Require Import Coquelicot.
From Verif Require Import Base RSum CSum SpecLatLon.
Import ListNotations.
Local Open Scope R_scope.

Section OneVariable.
  Variables (h : R -> R) (K B delta a b : R).
  Hypothesis HK : 0 <= K.
  Hypothesis HB : 0 <= B.
  Hypothesis Hd : 0 < delta.
  Hypothesis Hab : a <= b.
  Hypothesis Hl : forall x y, Rabs (h x - h y) <= K * Rabs (x - y).
  Hypothesis Hb : forall x, Rabs (h x) <= B.

  Lemma lipschitz_continuous x : continuous h x.
  Proof.
    apply continuity_pt_filterlim. intros eps He. exists (eps / (K + 1)). split; [apply Rdiv_lt_0_compat; lra|].
    intros y (_ & Hy). cbn in *. unfold R_dist in *. eapply Rle_lt_trans; [apply Hl|].
    apply Rle_lt_trans with ((K + 1) * Rabs (y - x)); [pose proof (Rabs_pos (y - x)); nra|].
    apply (Rmult_lt_compat_l (K + 1)) in Hy; [|lra]. replace ((K + 1) * (eps / (K + 1))) with eps in Hy by (field; lra). exact Hy.
  Qed.

  Lemma lipschitz_integrable c e : ex_RInt h c e.
  Proof. apply (ex_RInt_continuous (V := R_CompleteNormedModule)). intros; apply lipschitz_continuous. Qed.

  Lemma piece x c e : c <= e -> (forall t, c <= t <= e -> Rabs (x - t) <= delta) -> Rabs (h x * (e - c) - RInt h c e) <= K * delta * (e - c).
  Proof.
    intros Hc Hx. replace (h x * (e - c) - RInt h c e) with (RInt (fun t => h x - h t) c e).
    - rewrite (Rmult_comm (K * delta)). apply abs_RInt_le_const; [exact Hc| |].
      + apply (ex_RInt_minus (V := R_CompleteNormedModule) (fun _ => h x) h); [apply ex_RInt_const|apply lipschitz_integrable].
      + intros t Ht. eapply Rle_trans; [apply Hl|]. apply Rmult_le_compat_l; [exact HK|]. apply Hx, Ht.
    - rewrite (RInt_minus (V := R_CompleteNormedModule) (fun _ => h x) h); [|apply ex_RInt_const|apply lipschitz_integrable].
      rewrite RInt_const. unfold minus, plus, opp, scal. cbn. unfold mult. cbn. ring.
  Qed.

  Definition clamp (y : R) : R := Rmax a (Rmin b y).
  Definition over (z y : R) : R := Rmin delta (Rmax 0 (y - z)).

  Lemma over_mono z y : 0 <= over z (y + delta) - over z y.
  Proof. unfold over, Rmin, Rmax. repeat destruct Rle_dec; lra. Qed.

  Lemma over_bounds z y : 0 <= over z y <= delta.
  Proof. unfold over, Rmin, Rmax. repeat destruct Rle_dec; lra. Qed.

  Lemma one_cell (inside : bool) x : (inside = true <-> a <= x <= b) ->
    Rabs ((if inside then h x * delta else 0) - RInt h (clamp x) (clamp (x + delta)))
    <= K * delta * (clamp (x + delta) - clamp x) + B * (over b (x + delta) - over b x) + B * (over a (x + delta) - over a x).
  Proof.
    intros HI. pose proof (Rmult_le_pos _ _ HB (over_mono b x)) as P1. pose proof (Rmult_le_pos _ _ HB (over_mono a x)) as P2.
    assert (NI : ~ (a <= x <= b) -> inside = false) by (destruct inside; [intros N; exfalso; apply N, HI; reflexivity|reflexivity]).
    destruct (Rlt_le_dec x a) as [Xa|Xa]; [|destruct (Rle_lt_dec x b) as [Xb|Xb]].
    - rewrite NI by lra. destruct (Rle_lt_dec (x + delta) a) as [Y|Y].
      + assert (C0 : clamp x = a) by (unfold clamp, Rmin, Rmax; repeat destruct Rle_dec; lra).
        assert (C1 : clamp (x + delta) = a) by (unfold clamp, Rmin, Rmax; repeat destruct Rle_dec; lra).
        rewrite C0, C1, RInt_point. cbn. rewrite Rminus_0_r, Rabs_R0. lra.
      + assert (C0 : clamp x = a) by (unfold clamp, Rmin, Rmax; repeat destruct Rle_dec; lra).
        assert (C1 : a <= clamp (x + delta) <= x + delta) by (unfold clamp, Rmin, Rmax; repeat destruct Rle_dec; lra).
        assert (O : over a (x + delta) - over a x = x + delta - a) by (unfold over, Rmin, Rmax; repeat destruct Rle_dec; lra).
        rewrite C0, O. set (c1 := clamp (x + delta)) in *. rewrite Rminus_0_l, Rabs_Ropp.
        assert (Q : Rabs (RInt h a c1) <= (c1 - a) * B) by (apply abs_RInt_le_const; [lra|apply lipschitz_integrable|intros; apply Hb]).
        assert (K * delta * (c1 - a) >= 0) by (apply Rle_ge, Rmult_le_pos; [apply Rmult_le_pos; lra|lra]).
        assert ((c1 - a) * B <= B * (x + delta - a)) by nra. lra.
    - assert (E : inside = true) by (apply HI; lra). rewrite E.
      assert (C0 : clamp x = x) by (unfold clamp, Rmin, Rmax; repeat destruct Rle_dec; lra). rewrite C0.
      destruct (Rle_lt_dec (x + delta) b) as [Y|Y].
      + assert (C1 : clamp (x + delta) = x + delta) by (unfold clamp, Rmin, Rmax; repeat destruct Rle_dec; lra). rewrite C1.
        pose proof (piece x x (x + delta)) as Q. replace (x + delta - x) with delta in * by ring.
        assert (Rabs (h x * delta - RInt h x (x + delta)) <= K * delta * delta); [|lra].
        apply Q; [lra|]. intros t Ht. apply Rabs_le. lra.
      + assert (C1 : clamp (x + delta) = b) by (unfold clamp, Rmin, Rmax; repeat destruct Rle_dec; lra). rewrite C1.
        assert (O : over b (x + delta) - over b x = x + delta - b) by (unfold over, Rmin, Rmax; repeat destruct Rle_dec; lra). rewrite O.
        assert (Q : Rabs (h x * (b - x) - RInt h x b) <= K * delta * (b - x)) by (apply piece; [lra|intros t Ht; apply Rabs_le; lra]).
        replace (h x * delta - RInt h x b) with ((h x * (b - x) - RInt h x b) + h x * (x + delta - b)) by ring.
        eapply Rle_trans; [apply Rabs_triang|]. rewrite (Rabs_mult (h x)), (Rabs_right (x + delta - b)) by lra.
        pose proof (Rmult_le_compat_r (x + delta - b) _ _ ltac:(lra) (Hb x)). lra.
    - rewrite NI by lra.
      assert (C0 : clamp x = b) by (unfold clamp, Rmin, Rmax; repeat destruct Rle_dec; lra).
      assert (C1 : clamp (x + delta) = b) by (unfold clamp, Rmin, Rmax; repeat destruct Rle_dec; lra).
      rewrite C0, C1, RInt_point. cbn. rewrite Rminus_0_r, Rabs_R0. lra.
  Qed.

  Lemma riemann_prefix (inside : nat -> bool) : 0 <= a -> forall n, (forall i, (i < n)%nat -> inside i = true <-> a <= INR i * delta <= b) ->
    Rabs (rsum n (fun i => if inside i then h (INR i * delta) * delta else 0) - RInt h a (clamp (INR n * delta)))
    <= K * delta * (clamp (INR n * delta) - a) + B * over b (INR n * delta) + B * over a (INR n * delta).
  Proof.
    intros Ha. induction n as [|n IH]; intros HI.
    - cbn [rsum INR]. rewrite Rmult_0_l. assert (C : clamp 0 = a) by (unfold clamp, Rmin, Rmax; repeat destruct Rle_dec; lra).
      rewrite C, RInt_point. cbn. rewrite Rminus_0_r, Rabs_R0. pose proof (Rmult_le_pos _ _ HB (proj1 (over_bounds b 0))). pose proof (Rmult_le_pos _ _ HB (proj1 (over_bounds a 0))). lra.
    - cbn [rsum]. specialize (IH (fun i Hi => HI i (Nat.lt_lt_succ_r _ _ Hi))). pose proof (one_cell (inside n) (INR n * delta) (HI n (Nat.lt_succ_diag_r n))) as Q.
      replace (INR (S n) * delta) with (INR n * delta + delta) by (rewrite S_INR; ring).
      set (x := INR n * delta) in *. set (s := rsum n _) in *.
      assert (Ch : RInt h a (clamp (x + delta)) = RInt h a (clamp x) + RInt h (clamp x) (clamp (x + delta)))
        by (symmetry; apply (RInt_Chasles (V := R_CompleteNormedModule)); apply lipschitz_integrable).
      rewrite Ch.
      replace (s + (if inside n then h x * delta else 0) - (RInt h a (clamp x) + RInt h (clamp x) (clamp (x + delta))))
        with ((s - RInt h a (clamp x)) + ((if inside n then h x * delta else 0) - RInt h (clamp x) (clamp (x + delta)))) by ring.
      eapply Rle_trans; [apply Rabs_triang|]. eapply Rle_trans; [exact (Rplus_le_compat _ _ _ _ IH Q)|]. apply Req_le. ring.
  Qed.

  Lemma riemann (inside : nat -> bool) n : 0 <= a -> b <= INR n * delta -> (forall i, (i < n)%nat -> inside i = true <-> a <= INR i * delta <= b) ->
    Rabs (rsum n (fun i => if inside i then h (INR i * delta) * delta else 0) - RInt h a b) <= delta * (K * (b - a) + 2 * B).
  Proof.
    intros Ha Hn HI. pose proof (riemann_prefix inside Ha n HI) as Q.
    assert (C : clamp (INR n * delta) = b) by (unfold clamp, Rmin, Rmax; repeat destruct Rle_dec; lra). rewrite C in Q.
    pose proof (Rmult_le_compat_l B _ _ HB (proj2 (over_bounds b (INR n * delta)))). pose proof (Rmult_le_compat_l B _ _ HB (proj2 (over_bounds a (INR n * delta)))). lra.
  Qed.
End OneVariable.

Section TwoVariables.
  Variables (G : R -> R -> R) (K B delta ta tb pa pb : R).
  Hypothesis HK : 0 <= K.
  Hypothesis HB : 0 <= B.
  Hypothesis Hd : 0 < delta.
  Hypothesis Ht : 0 <= ta <= tb.
  Hypothesis Hp : 0 <= pa <= pb.
  Hypothesis Hl : forall x y x' y', Rabs (G x y - G x' y') <= K * (Rabs (x - x') + Rabs (y - y')).
  Hypothesis Hb : forall x y, Rabs (G x y) <= B.

  Lemma Hl_theta y x x' : Rabs (G x y - G x' y) <= K * Rabs (x - x').
  Proof. pose proof (Hl x y x' y) as Q. rewrite (Rminus_diag_eq y y eq_refl), Rabs_R0, Rplus_0_r in Q. exact Q. Qed.

  Lemma along_integrable y c e : ex_RInt (fun x => G x y) c e.
  Proof. apply (lipschitz_integrable _ K HK). intros; apply Hl_theta. Qed.

  Lemma along_lipschitz y y' : Rabs (RInt (fun x => G x y) ta tb - RInt (fun x => G x y') ta tb) <= K * (tb - ta) * Rabs (y - y').
  Proof.
    replace (RInt (fun x => G x y) ta tb - RInt (fun x => G x y') ta tb) with (RInt (fun x => G x y - G x y') ta tb)
      by (apply (RInt_minus (V := R_CompleteNormedModule) (fun x => G x y) (fun x => G x y')); apply along_integrable).
    replace (K * (tb - ta) * Rabs (y - y')) with ((tb - ta) * (K * Rabs (y - y'))) by ring. apply abs_RInt_le_const; [lra| |].
    - apply (ex_RInt_minus (V := R_CompleteNormedModule) (fun x => G x y) (fun x => G x y')); apply along_integrable.
    - intros x _. pose proof (Hl x y x y') as Q. rewrite (Rminus_diag_eq x x eq_refl), Rabs_R0, Rplus_0_l in Q. exact Q.
  Qed.

  Lemma along_bounded y : Rabs (RInt (fun x => G x y) ta tb) <= B * (tb - ta).
  Proof. rewrite Rmult_comm. apply abs_RInt_le_const; [lra|apply along_integrable|intros; apply Hb]. Qed.

  Lemma riemann_box (it ip : nat -> bool) nt np : tb <= INR nt * delta -> pb <= INR np * delta ->
    (forall i, (i < nt)%nat -> it i = true <-> ta <= INR i * delta <= tb) -> (forall i, (i < np)%nat -> ip i = true <-> pa <= INR i * delta <= pb) ->
    Rabs (rsum nt (fun t => rsum np (fun p => if it t && ip p then G (INR t * delta) (INR p * delta) * delta ^ 2 else 0))
          - RInt (fun y => RInt (fun x => G x y) ta tb) pa pb)
    <= delta * ((K * (tb - ta) + 2 * B) * (pb - pa + 2 * delta) + K * (tb - ta) * (pb - pa) + 2 * (B * (tb - ta))).
  Proof.
    intros Nt Np It Ip. rewrite rsum_swap. set (E := delta * (K * (tb - ta) + 2 * B)).
    assert (E0 : 0 <= E) by (apply Rmult_le_pos; [lra|apply Rplus_le_le_0_compat; [apply Rmult_le_pos; lra|lra]]).
    assert (Count : rsum np (fun p => if ip p then 1 * delta else 0) <= pb - pa + 2 * delta).
    { pose proof (riemann (fun _ => 1) 0 1 delta pa pb (Rle_refl 0) Rle_0_1 Hd (proj2 Hp)) as Q. specialize (Q ltac:(intros; cbv beta; rewrite Rminus_diag_eq, Rabs_R0 by reflexivity; lra)).
      specialize (Q ltac:(intros; cbv beta; rewrite Rabs_R1; lra) ip np (proj1 Hp) Np Ip). rewrite RInt_const in Q. unfold scal in Q. cbn in Q. unfold mult in Q. cbn in Q.
      apply Rabs_le_between in Q. lra. }
    assert (Rows : Rabs (rsum np (fun p => rsum nt (fun t => if it t && ip p then G (INR t * delta) (INR p * delta) * delta ^ 2 else 0))
              - rsum np (fun p => if ip p then RInt (fun x => G x (INR p * delta)) ta tb * delta else 0)) <= E * (pb - pa + 2 * delta)).
    { apply Rle_trans with (E * rsum np (fun p => if ip p then 1 * delta else 0)); [|apply Rmult_le_compat_l; [exact E0|exact Count]].
      rewrite <- rsum_scal_l, <- rsum_minus.
      assert (Tri : forall n f g, (forall i, (i < n)%nat -> Rabs (f i) <= g i) -> Rabs (rsum n f) <= rsum n g).
      { clear. induction n as [|n IH]; intros f g H; cbn [rsum]; [rewrite Rabs_R0; lra|]. eapply Rle_trans; [apply Rabs_triang|]. apply Rplus_le_compat; [apply IH; intros; apply H; lia|apply H; lia]. }
      apply Tri. intros p Hp'. destruct (ip p).
      - pose proof (riemann (fun x => G x (INR p * delta)) K B delta ta tb HK HB Hd (proj2 Ht) (fun x x' => Hl_theta _ x x') (fun x => Hb x _) it nt (proj1 Ht) Nt It) as Q.
        rewrite (rsum_ext nt _ (fun t => (if it t then G (INR t * delta) (INR p * delta) * delta else 0) * delta)).
        2: { intros t _. rewrite andb_true_r. destruct (it t); ring. }
        rewrite rsum_scal_r, <- Rmult_minus_distr_r, Rabs_mult, (Rabs_right delta) by lra. fold E in Q. nra.
      - rewrite rsum_zero by (intros t _; rewrite andb_false_r; reflexivity). rewrite Rminus_0_r, Rabs_R0. lra. }
    pose proof (riemann (fun y => RInt (fun x => G x y) ta tb) (K * (tb - ta)) (B * (tb - ta)) delta pa pb) as Q.
    specialize (Q ltac:(apply Rmult_le_pos; lra) ltac:(apply Rmult_le_pos; lra) Hd (proj2 Hp) along_lipschitz along_bounded ip np (proj1 Hp) Np Ip).
    cbv beta in Q, Rows.
    match type of Rows with Rabs (?s - ?m) <= _ => match type of Q with Rabs (m - ?i) <= _ => replace (s - i) with ((s - m) + (m - i)) by ring end end.
    eapply Rle_trans; [apply Rabs_triang|]. unfold E in *. lra.
  Qed.
End TwoVariables.

(** The two integrals of a box as iterated integrals. *)
Lemma box_integral_parts f ta tb pa pb v : box_integral f ta tb pa pb v ->
  Re v = RInt (fun y => RInt (fun x => Re (f x y)) ta tb) pa pb /\ Im v = RInt (fun y => RInt (fun x => Im (f x y)) ta tb) pa pb.
Proof.
  intros (inner & Hi & HR & HI). split; symmetry.
  - rewrite (RInt_ext (V := R_CompleteNormedModule) _ (fun y => Re (inner y))); [exact (is_RInt_unique _ _ _ _ HR)|].
    intros y _. exact (is_RInt_unique _ _ _ _ (proj1 (Hi y))).
  - rewrite (RInt_ext (V := R_CompleteNormedModule) _ (fun y => Im (inner y))); [exact (is_RInt_unique _ _ _ _ HI)|].
    intros y _. exact (is_RInt_unique _ _ _ _ (proj2 (Hi y))).
Qed.
