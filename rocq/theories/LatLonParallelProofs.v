(** * Proofs: interleaved iterations of the latitude-longitude matrix. *)
From Coq Require Import List ZArith Arith Bool Reals Lia Lra Sorting.Permutation.
From Coquelicot Require Import Coquelicot.
From Verif Require Import Base ListLemmas RSum CSum Numpy Index IndexProofs ArbitraryMatrix FunctionsProofs
  LatLon SpecLatLon LatLonIntegrals LatLonProofs LatLonParallel.
Import ListNotations.
Local Open Scope Z_scope.

Definition run (is : list instr) (s : array2 * C) : res (array2 * C) := rfold (fun s i => exec i s) is s.

Lemma rfold_app' {S A} (f : S -> A -> res S) l l' s : rfold f (l ++ l') s = (let* t := rfold f l s in rfold f l' t).
Proof. revert s. induction l as [|x l IH]; intros s; cbn [rfold app]; [reflexivity|]. destruct (f s x) as [t|e]; cbn [rbind]; [apply IH|reflexivity]. Qed.

Lemma run_app is is' s : run (is ++ is') s = (let* t := run is s in run is' t).
Proof. apply rfold_app'. Qed.

(** ** Running one program alone *)
Definition simulates (is : list instr) (K : array2) (r : res array2) : Prop :=
  forall K', r = Ok K' -> forall reg, exists reg', run is (K, reg) = Ok (K', reg').

Lemma simulates_fold {A} (step : array2 -> A -> res array2) (prog : A -> list instr) xs :
  (forall K x, simulates (prog x) K (step K x)) -> forall K, simulates (flat_map prog xs) K (rfold step xs K).
Proof.
  intros H. induction xs as [|x xs IH]; intros K K' E reg; cbn [rfold flat_map] in *.
  - injection E as <-. exists reg. reflexivity.
  - destruct (step K x) as [K1|e] eqn:E1; [|discriminate]. cbn [rbind] in E.
    destruct (H K x K1 E1 reg) as (reg1 & R1). destruct (IH K1 K' E reg1) as (reg2 & R2).
    exists reg2. rewrite run_app, R1. exact R2.
Qed.

Section Alone.
  Variable dl : array3.
  Variable N : Z.
  Variable G : array2.

  Lemma entry_simulated ell p m q K : simulates (entry_program dl N G ell p m q) K (matrix_entry dl N G ell p m q K).
  Proof.
    intros K' E reg. unfold matrix_entry in E. unfold entry_program. cbv zeta in *.
    set (lm := ell * (ell + 1) + m) in *. set (pq := p * (p + 1) + q) in *.
    destruct (rfold _ (zrange (- ell) (ell + 1)) K) as [K1|e] eqn:E1; [|discriminate]. cbn [rbind] in E.
    match type of E1 with rfold ?st ?xs _ = _ =>
      match goal with |- exists _, run (flat_map ?pr _ ++ _) _ = _ =>
        pose proof (simulates_fold st pr xs) as S end end.
    destruct S with (K := K) (K' := K1) (reg := reg) as (reg1 & R1); [|exact E1|].
    - intros K2 mp K3 E2 reg2. exists (match get2 K2 lm pq with Ok v => v | Err _ => reg2 end).
      destruct (get3 dl ell (N + mp) (N + m)) as [x|] eqn:Ex; [|discriminate]. cbn [rbind] in E2.
      destruct (get3 dl ell (N + mp) N) as [y|] eqn:Ey; [|discriminate]. cbn [rbind] in E2.
      destruct (sum_qp dl N G p q mp (m - q)) as [S1|] eqn:ES; [|discriminate]. cbn [rbind] in E2.
      destruct (get2 K2 lm pq) as [v|] eqn:Ev; [|discriminate]. cbn [rbind] in E2.
      unfold run. cbn [rfold exec fst snd rbind]. rewrite Ev. cbn [rbind rfold exec fst snd]. rewrite ?Ex. cbn [rbind].
      rewrite ?Ey. cbn [rbind]. rewrite ?ES. cbn [rbind]. rewrite E2. reflexivity.
    - destruct (get2 K1 lm pq) as [v|] eqn:Ev; [|discriminate]. cbn [rbind] in E.
      exists v. rewrite run_app, R1. cbn [rbind]. unfold run. cbn [rfold exec fst snd rbind]. rewrite Ev.
      cbn [rbind rfold exec fst snd]. rewrite E. reflexivity.
  Qed.

  Lemma program_simulated ell K : simulates (program dl N G ell) K (matrix_ell dl N G K ell).
  Proof.
    unfold program, matrix_ell. apply (simulates_fold (fun K p => rfold _ _ K)). intros K1 p.
    apply (simulates_fold (fun K m => rfold _ _ K)). intros K2 m.
    apply (simulates_fold (fun K q => matrix_entry dl N G ell p m q K)). intros K3 q. apply entry_simulated.
  Qed.

  (** The rows a program touches. *)
  Definition touches (lo hi : Z) (i : instr) : Prop :=
    match i with Load r _ | Store r _ _ => lo <= r < hi end.

  Lemma program_rows ell i : 0 <= ell -> In i (program dl N G ell) -> touches (ell * ell) ((ell + 1) * (ell + 1)) i.
  Proof.
    intros Hl Hi. unfold program in Hi. apply in_flat_map in Hi. destruct Hi as (p & Hp & Hi).
    apply in_flat_map in Hi. destruct Hi as (m & Hm & Hi). apply in_flat_map in Hi. destruct Hi as (q & Hq & Hi).
    apply in_zrange in Hm. pose proof (position_bounds ell m ltac:(lia)) as B. unfold position in B.
    unfold entry_program in Hi. cbv zeta in Hi. apply in_app_or in Hi. destruct Hi as [Hi|Hi].
    - apply in_flat_map in Hi. destruct Hi as (mp & _ & [<-|[<-|[]]]); exact B.
    - destruct Hi as [<-|[<-|[]]]; exact B.
  Qed.
End Alone.

(** ** Any interleaving *)
Definition same_shape (a b : array2) : Prop := a2_rows a = a2_rows b /\ a2_cols a = a2_cols b.
Definition agree (lo hi : Z) (a b : array2) : Prop := forall r c, lo <= r < hi -> a2_at a r c = a2_at b r c.

(** An instruction that keeps to its rows sees and changes nothing else. *)
Lemma exec_local lo hi i A B reg A' reg' :
  touches lo hi i -> 0 <= lo -> hi <= a2_rows A -> same_shape A B -> agree lo hi A B ->
  exec i (A, reg) = Ok (A', reg') ->
  exists B', exec i (B, reg) = Ok (B', reg') /\ same_shape A A' /\ same_shape B B' /\ agree lo hi A' B' /\
    (forall r c, ~ (lo <= r < hi) -> a2_at B' r c = a2_at B r c).
Proof.
  intros Ht Hlo Hhi [Sr Sc] Ag E. destruct i as [row col|row col f]; cbn [exec fst snd touches] in *.
  - unfold get2 in *. rewrite axis_index_ok in E by lia. rewrite axis_index_ok by lia. rewrite <- Sc. cbn [rbind] in *.
    destruct (axis_index (a2_cols A) col) as [c|e]; [|discriminate]. cbn [rbind] in *. injection E as <- <-.
    exists B. rewrite (Ag row c Ht). split; [reflexivity|]. split; [split; reflexivity|]. split; [split; reflexivity|]. split; [exact Ag|reflexivity].
  - destruct (f reg) as [v|e]; [|discriminate]. cbn [rbind] in *. unfold set2 in *.
    rewrite axis_index_ok in E by lia. rewrite axis_index_ok by lia. rewrite <- Sc. cbn [rbind] in *.
    destruct (axis_index (a2_cols A) col) as [c|e]; [|discriminate]. cbn [rbind] in *. injection E as <- <-.
    eexists. split; [reflexivity|]. split; [split; reflexivity|]. split; [split; [reflexivity|exact (eq_sym Sc)||exact Sc||reflexivity]|]. split.
    + intros r c' Hr. cbn [a2_at]. destruct ((r =? row) && (c' =? c)); [reflexivity|apply Ag; exact Hr].
    + intros r c' Hr. cbn [a2_at]. destruct (Z.eqb_spec r row) as [->|]; [contradiction|reflexivity].
Qed.

Section Interleaved.
  Variable progs : nat -> list instr.        (* program of each thread *)
  Variable lo hi : nat -> Z.                 (* its rows *)
  Variable K0 : array2.
  Variable reg0 : nat -> C.
  Hypothesis rows_ok : forall t, 0 <= lo t /\ (progs t <> [] -> hi t <= a2_rows K0).
  Hypothesis local : forall t i, In i (progs t) -> touches (lo t) (hi t) i.
  Hypothesis disjoint : forall t u r, t <> u -> lo t <= r < hi t -> ~ (lo u <= r < hi u).
  Hypothesis alone : forall t, exists A reg', run (progs t) (K0, reg0 t) = Ok (A, reg').

  Definition Inv (s : pstate) : Prop :=
    same_shape K0 (ps_K s) /\
    forall t, exists done A,
      progs t = done ++ ps_todo s t /\ run done (K0, reg0 t) = Ok (A, ps_reg s t) /\
      same_shape K0 A /\ agree (lo t) (hi t) A (ps_K s).

  Lemma par_step_inv s t : Inv s -> exists s', par_step s t = Ok s' /\ Inv s' /\
    (length (ps_todo s' t) = pred (length (ps_todo s t)))%nat /\ (forall u, u <> t -> ps_todo s' u = ps_todo s u).
  Proof.
    intros [Sh I]. unfold par_step. destruct (ps_todo s t) as [|i rest] eqn:T.
    { exists s. split; [reflexivity|]. split; [split; assumption|]. split; [rewrite T; reflexivity|reflexivity]. }
    destruct (I t) as (done & A & Ep & Er & SA & Ag). rewrite T in Ep.
    destruct (alone t) as (F & rF & EF). rewrite Ep, run_app, Er in EF. cbn [rbind] in EF.
    change (run (i :: rest) (A, ps_reg s t)) with (let* x := exec i (A, ps_reg s t) in run rest x) in EF.
    destruct (exec i (A, ps_reg s t)) as [[A1 reg1]|e] eqn:EA; [|discriminate].
    assert (Hin : In i (progs t)) by (rewrite Ep; apply in_or_app; right; left; reflexivity).
    destruct (rows_ok t) as [Hlo Hhi]. specialize (Hhi ltac:(rewrite Ep; destruct done; discriminate)).
    assert (SAK : same_shape A (ps_K s)) by (destruct SA as [a b], Sh as [c d]; split; congruence).
    destruct (exec_local (lo t) (hi t) i A (ps_K s) (ps_reg s t) A1 reg1 (local t i Hin) Hlo ltac:(destruct SA as [<- _]; exact Hhi) SAK Ag EA)
      as (K1 & EK & S1 & S2 & Ag1 & U).
    rewrite EK. cbn [rbind fst snd]. eexists. split; [reflexivity|]. split.
    - split; [cbn; destruct Sh as [a b], S2 as [c d]; split; congruence|]. intros u. cbn [ps_K ps_todo ps_reg].
      destruct (Nat.eqb_spec u t) as [->|Nu].
      + exists (done ++ [i]), A1. rewrite <- app_assoc. split; [exact Ep|]. split.
        * rewrite run_app, Er. cbn [rbind]. unfold run. cbn [rfold]. rewrite EA. reflexivity.
        * split; [destruct SA as [a b], S1 as [c d]; split; congruence|exact Ag1].
      + destruct (I u) as (done' & A' & Ep' & Er' & SA' & Ag'). exists done', A'. split; [exact Ep'|]. split; [exact Er'|]. split; [exact SA'|].
        intros r c Hr. rewrite (Ag' r c Hr). symmetry. apply U. apply (disjoint u t r); assumption.
    - cbn [ps_todo]. rewrite Nat.eqb_refl. split; [reflexivity|]. intros u Nu. rewrite (proj2 (Nat.eqb_neq u t) Nu). reflexivity.
  Qed.

  Lemma par_run_inv schedule s : Inv s -> exists s', rfold par_step schedule s = Ok s' /\ Inv s'.
  Proof.
    revert s. induction schedule as [|t ts IH]; intros s I; cbn [rfold]; [exists s; split; [reflexivity|exact I]|].
    destruct (par_step_inv s t I) as (s1 & E & I1 & _). rewrite E. cbn [rbind]. apply IH. exact I1.
  Qed.

  (** From every reachable state the threads can finish. *)
  Lemma drain s t n : Inv s -> length (ps_todo s t) = n ->
    exists s', rfold par_step (repeat t n) s = Ok s' /\ Inv s' /\ ps_todo s' t = [] /\ (forall u, u <> t -> ps_todo s' u = ps_todo s u).
  Proof.
    revert s. induction n as [|n IH]; intros s I E; cbn [repeat rfold].
    - exists s. split; [reflexivity|]. split; [exact I|]. split; [apply length_zero_iff_nil; exact E|reflexivity].
    - destruct (par_step_inv s t I) as (s1 & E1 & I1 & L1 & U1). rewrite E1. cbn [rbind].
      destruct (IH s1 I1 ltac:(rewrite L1, E; reflexivity)) as (s2 & E2 & I2 & T2 & U2).
      exists s2. split; [exact E2|]. split; [exact I2|]. split; [exact T2|]. intros u Nu. rewrite U2, U1 by exact Nu. reflexivity.
  Qed.

  Lemma can_finish s n : Inv s -> (forall t, (n <= t)%nat -> ps_todo s t = []) ->
    exists more s', rfold par_step more s = Ok s' /\ Inv s' /\ finished s'.
  Proof.
    revert s. induction n as [|n IH]; intros s I H.
    - exists [], s. split; [reflexivity|]. split; [exact I|]. intros t. apply H. lia.
    - destruct (drain s n _ I eq_refl) as (s1 & E1 & I1 & T1 & U1).
      destruct (IH s1 I1) as (more & s2 & E2 & I2 & F2).
      { intros t Ht. destruct (Nat.eq_dec t n) as [->|Nt]; [exact T1|]. rewrite U1 by exact Nt. apply H. lia. }
      eexists (_ ++ more), s2. rewrite rfold_app', E1. split; [exact E2|]. split; assumption.
  Qed.
End Interleaved.

(** ** The matrix *)
Section Box.
  Variables theta_min theta_max phi_min phi_max : R.
  Variable dl : array3.
  Variable L : nat.
  Hypothesis HL : (1 <= L)%nat.
  Hypothesis D0 : a3_0 dl = Z.of_nat L.
  Hypothesis D1 : a3_1 dl = 2 * Z.of_nat L - 1.
  Hypothesis D2 : a3_2 dl = 2 * Z.of_nat L - 1.
  Variable G : array2.
  Hypothesis GS : shaped (4 * Z.of_nat L - 3) (4 * Z.of_nat L - 3) G.
  Hypothesis GT : forall row col, Z.abs row <= 2 * (Z.of_nat L - 1) -> Z.abs col <= 2 * (Z.of_nat L - 1) ->
    a2_at G (2 * (Z.of_nat L - 1) + row) (2 * (Z.of_nat L - 1) + col) = T_of theta_min theta_max phi_min phi_max row col.
  Variable reg : nat -> C.

  Let K0 := {| a2_rows := Z.of_nat L ^ 2; a2_cols := Z.of_nat L ^ 2; a2_at := fun _ _ => RtoC 0 |}.
  Let N := Z.of_nat L - 1.
  Let progs (t : nat) := if (t <? L)%nat then program dl N G (Z.of_nat t) else [].
  Let lo (t : nat) := Z.of_nat t * Z.of_nat t.
  Let hi (t : nat) := (Z.of_nat t + 1) * (Z.of_nat t + 1).

  Lemma box_rows_ok t : 0 <= lo t /\ (progs t <> [] -> hi t <= a2_rows K0).
  Proof.
    split; [subst lo; cbv beta; lia|]. subst progs. cbv beta. destruct (Nat.ltb_spec t L) as [H|H]; [|intros Q; contradiction].
    intros _. subst hi K0. cbn [a2_rows]. rewrite Z.pow_2_r. apply Z.mul_le_mono_nonneg; lia.
  Qed.
  Lemma box_local t i : In i (progs t) -> touches (lo t) (hi t) i.
  Proof. subst progs. cbv beta. destruct (t <? L)%nat; [|intros []]. apply program_rows. lia. Qed.
  Lemma box_disjoint t u r : t <> u -> lo t <= r < hi t -> ~ (lo u <= r < hi u).
  Proof.
    subst lo hi. cbv beta. intros H B B'. destruct (Nat.lt_trichotomy t u) as [Q|[Q|Q]]; [|contradiction|].
    - assert ((Z.of_nat t + 1) * (Z.of_nat t + 1) <= Z.of_nat u * Z.of_nat u) by (apply Z.mul_le_mono_nonneg; lia). lia.
    - assert ((Z.of_nat u + 1) * (Z.of_nat u + 1) <= Z.of_nat t * Z.of_nat t) by (apply Z.mul_le_mono_nonneg; lia). lia.
  Qed.

  (** One program alone computes its rows. *)
  Lemma box_alone_value t : (t < L)%nat -> exists A, (exists reg', run (progs t) (K0, reg t) = Ok (A, reg')) /\
    forall m p q, Z.abs m <= Z.of_nat t -> 0 <= p <= Z.of_nat t -> Z.abs q <= p ->
      a2_at A (position (Z.of_nat t) m) (position p q) = entry_of theta_min theta_max phi_min phi_max dl (Z.of_nat L) (Z.of_nat t) p m q.
  Proof.
    intros Ht.
    destruct (matrix_ell_ok theta_min theta_max phi_min phi_max dl (Z.of_nat L) ltac:(lia) D0 D1 D2 G GS GT (Z.of_nat t) K0) as (A & E & _ & HG & _).
    - lia.
    - split; reflexivity.
    - reflexivity.
    - exists A. split.
      + destruct (program_simulated dl N G (Z.of_nat t) K0 A E (reg t)) as (reg' & R). exists reg'.
        subst progs. cbv beta. rewrite (proj2 (Nat.ltb_lt t L) Ht). exact R.
      + intros m p q Hm Hp Hq.
        apply (HG (position (Z.of_nat t) m, position p q)) with (l := Z.of_nat t) (m := m) (p := p) (q := q); [|exact Hm|exact Hq|reflexivity].
        exists p. split; [apply in_zrange; lia|]. exists m. split; [apply in_zrange; lia|]. exists q. split; [apply in_zrange; lia|reflexivity].
  Qed.
  Lemma box_alone t : exists A reg', run (progs t) (K0, reg t) = Ok (A, reg').
  Proof.
    destruct (Nat.lt_ge_cases t L) as [H|H].
    - destruct (box_alone_value t H) as (A & (reg' & R) & _). exists A, reg'. exact R.
    - subst progs. cbv beta. rewrite (proj2 (Nat.ltb_ge t L) H). exists K0, (reg t). reflexivity.
  Qed.

  Let BI := Inv progs lo hi K0 reg.
  Lemma box_init : BI (par_init dl N G L K0 reg).
  Proof.
    split; [split; reflexivity|]. intros t. exists [], K0. split; [reflexivity|]. split; [reflexivity|]. split; [split; reflexivity|]. intros r c _. reflexivity.
  Qed.

  Lemma box_par schedule : exists s, slepian_matrix_par dl N G schedule reg L = Ok s /\
    (exists more s', slepian_matrix_par dl N G (schedule ++ more) reg L = Ok s' /\ finished s') /\
    (finished s -> forall l m p q, 0 <= p <= l -> l < Z.of_nat L -> Z.abs m <= l -> Z.abs q <= p ->
       a2_at (ps_K s) (position l m) (position p q) = entry_of theta_min theta_max phi_min phi_max dl (Z.of_nat L) l p m q).
  Proof.
    unfold slepian_matrix_par, zeros2. assert (0 <= Z.of_nat L ^ 2) by (apply Z.pow_nonneg; lia).
    replace ((Z.of_nat L ^ 2 <? 0) || (Z.of_nat L ^ 2 <? 0)) with false by (symmetry; apply orb_false_iff; split; apply Z.ltb_ge; lia).
    cbn [rbind]. fold K0.
    destruct (par_run_inv progs lo hi K0 reg box_rows_ok box_local box_disjoint box_alone schedule _ box_init) as (s & E & I).
    exists s. split; [exact E|]. split.
    - destruct (can_finish progs lo hi K0 reg box_rows_ok box_local box_disjoint box_alone s L I) as (more & s' & E' & _ & F).
      + intros t Ht. destruct I as [_ I]. destruct (I t) as (done & A & Ep & _). subst progs. cbv beta in Ep.
        rewrite (proj2 (Nat.ltb_ge t L) Ht) in Ep. symmetry in Ep. apply app_eq_nil in Ep. tauto.
      + exists more, s'. rewrite rfold_app', E. split; [exact E'|exact F].
    - intros F l m p q Hp Hl Hm Hq. destruct I as [_ I]. destruct (I (Z.to_nat l)) as (done & A & Ep & Er & _ & Ag).
      rewrite F, app_nil_r in Ep. subst done.
      destruct (box_alone_value (Z.to_nat l) ltac:(lia)) as (A' & (reg' & R) & V). rewrite R in Er. injection Er as <- _.
      rewrite Z2Nat.id in V by lia. rewrite <- V by lia. symmetry. apply Ag. subst lo hi. cbv beta. rewrite Z2Nat.id by lia.
      apply position_bounds. lia.
  Qed.
End Box.

(** A thread is done after as many of its own steps as it has instructions. *)
Lemma par_run_todo schedule s s' t : rfold par_step schedule s = Ok s' ->
  (length (ps_todo s' t) = length (ps_todo s t) - count_occ Nat.eq_dec schedule t)%nat.
Proof.
  revert s. induction schedule as [|u ts IH]; intros s E; cbn [rfold] in E.
  - injection E as <-. cbn. lia.
  - destruct (par_step s u) as [s1|e] eqn:E1; [|discriminate]. cbn [rbind] in E. rewrite (IH s1 E).
    cbn [count_occ]. unfold par_step in E1. destruct (ps_todo s u) as [|i rest] eqn:T.
    + injection E1 as <-. destruct (Nat.eq_dec u t) as [->|Nu]; [rewrite T; cbn; lia|reflexivity].
    + destruct (exec i (ps_K s, ps_reg s u)) as [kr|e]; [|discriminate]. cbn [rbind] in E1. injection E1 as <-. cbn [ps_todo].
      destruct (Nat.eq_dec u t) as [->|Nu].
      * rewrite Nat.eqb_refl, T. cbn [length]. lia.
      * rewrite (proj2 (Nat.eqb_neq t u)) by congruence. reflexivity.
Qed.

Lemma par_finished dl N G L K reg schedule s :
  (forall t, (t < L)%nat -> (length (program dl N G (Z.of_nat t)) <= count_occ Nat.eq_dec schedule t)%nat) ->
  rfold par_step schedule (par_init dl N G L K reg) = Ok s -> finished s.
Proof.
  intros H E t. apply length_zero_iff_nil. rewrite (par_run_todo _ _ _ t E). unfold par_init. cbn [ps_todo].
  destruct (Nat.ltb_spec t L) as [Q|Q]; [|reflexivity]. specialize (H t Q). lia.
Qed.

Lemma flat_map_length_const {A B} (f : A -> list B) xs n :
  (forall x, length (f x) = n) -> length (flat_map f xs) = (length xs * n)%nat.
Proof. intros H. induction xs as [|x xs IH]; [reflexivity|]. cbn [flat_map length]. rewrite app_length, H, IH. lia. Qed.

Lemma entry_program_length dl N G l p m q :
  length (entry_program dl N G l p m q) = (length (zrange (- l) (l + 1)) * 2 + 2)%nat.
Proof.
  unfold entry_program. cbv zeta. rewrite app_length. rewrite (flat_map_length_const _ _ 2) by (intros x; reflexivity). reflexivity.
Qed.

Lemma create_par_finished tmin tmax pmin pmax dl schedule reg L s K :
  (forall G t, (t < L)%nat -> (length (program dl (Z.of_nat L - 1) G (Z.of_nat t)) <= count_occ Nat.eq_dec schedule t)%nat) ->
  create_K_matrix_par tmin tmax pmin pmax dl schedule reg L = Ok (s, K) -> finished s.
Proof.
  intros H E. unfold create_K_matrix_par in E. destruct (slepian_integral tmin tmax pmin pmax (Z.of_nat L)) as [G|]; [|discriminate]. cbn [rbind] in E.
  destruct (slepian_matrix_par dl (Z.of_nat L - 1) G schedule reg L) as [s'|] eqn:Es; [|discriminate]. cbn [rbind] in E.
  injection E as -> _. unfold slepian_matrix_par in Es. destruct (zeros2 _ _) as [K0|]; [|discriminate]. cbn [rbind] in Es.
  exact (par_finished _ _ _ _ _ _ _ _ (H G) Es).
Qed.
