(** * Products of associated Legendre functions from the sums of Racah. *)
From Coq Require Import List ZArith Arith Lia Bool Reals Lra.
From Coquelicot Require Import Coquelicot.
From Verif Require Import Base RSum CSum Numpy SpecWigner WignerProofs SpecLatLon SpecConcentration SpecHarmonics SpecLegendre LegendreProofs ThreeJProofs.
Import ListNotations.
Local Open Scope R_scope.

(** ** Polynomials as lists of coefficients about 1 *)

Fixpoint ev (c : list R) (x : R) : R := match c with [] => 0 | a :: t => a + (x - 1) * ev t x end.
Fixpoint padd (c d : list R) : list R :=
  match c, d with [], _ => d | _, [] => c | a :: c', b :: d' => (a + b) :: padd c' d' end.
Definition pscal (a : R) (c : list R) : list R := map (Rmult a) c.
Fixpoint pmul (c d : list R) : list R := match c with [] => [] | a :: t => padd (pscal a d) (0 :: pmul t d) end.
Fixpoint pder (c : list R) : list R := match c with [] => [] | [_] => [] | _ :: t => padd t (0 :: pder t) end.

Lemma derive_at (f : R -> R) x v : is_derive f x v -> Derive (fun y => f y) x = v.
Proof. apply is_derive_unique. Qed.

Lemma derive_eq (f : R -> R) x (v w : R) : is_derive f x v -> v = w -> is_derive f x w.
Proof. intros D <-. exact D. Qed.

Lemma ev_padd c : forall d x, ev (padd c d) x = ev c x + ev d x.
Proof. induction c as [|a c IH]; intros [|b d] x; cbn; try ring. rewrite IH. ring. Qed.
Lemma ev_pscal a c x : ev (pscal a c) x = a * ev c x.
Proof. induction c as [|b c IH]; cbn; [ring|]. unfold pscal in IH. rewrite IH. ring. Qed.
Lemma ev_pmul c d x : ev (pmul c d) x = ev c x * ev d x.
Proof. induction c as [|a c IH]; cbn [pmul ev]; [ring|]. rewrite ev_padd, ev_pscal. cbn [ev]. rewrite IH. ring. Qed.
Lemma padd_length c : forall d, length (padd c d) = Nat.max (length c) (length d).
Proof. induction c as [|a c IH]; intros [|b d]; cbn; try reflexivity. rewrite IH. reflexivity. Qed.
Lemma pder_length c : length (pder c) = pred (length c).
Proof.
  induction c as [|a c IH]; [reflexivity|]. destruct c as [|b c]; [reflexivity|].
  change (pder (a :: b :: c)) with (padd (b :: c) (0 :: pder (b :: c))). rewrite padd_length. cbn [length] in *. rewrite IH. cbn. lia.
Qed.
Lemma ev_derive c : forall x, is_derive (ev c) x (ev (pder c) x).
Proof.
  induction c as [|a c IH]; intros x; [apply (is_derive_ext (fun _ => 0)); [reflexivity|]; apply @is_derive_const|].
  apply (is_derive_ext (fun x => a + (x - 1) * ev c x)); [reflexivity|].
  auto_derive; [exists (ev (pder c) x); apply IH|].
  rewrite (derive_at _ _ _ (IH x)). destruct c as [|b c]; [cbn; ring|].
  change (pder (a :: b :: c)) with (padd (b :: c) (0 :: pder (b :: c))). rewrite ev_padd. cbn [ev]. ring.
Qed.

Definition pders (k : nat) (c : list R) : list R := Nat.iter k pder c.
Lemma pders_S k c : pders (S k) c = pder (pders k c).
Proof. reflexivity. Qed.
Lemma pders_succ_r k c : pders (S k) c = pders k (pder c).
Proof. induction k as [|k IH]; [reflexivity|]. rewrite pders_S, IH. reflexivity. Qed.
Lemma pders_length k c : length (pders k c) = (length c - k)%nat.
Proof. induction k as [|k IH]; [cbn; lia|]. rewrite pders_S, pder_length, IH. lia. Qed.

Lemma derive_zero (f : R -> R) x v : (forall y, f y = 0) -> is_derive f x v -> v = 0.
Proof.
  intros H D. assert (Z : is_derive f x 0) by (apply (is_derive_ext (fun _ => 0)); [intros; symmetry; apply H|apply @is_derive_const]).
  rewrite <- (is_derive_unique _ _ _ D), <- (is_derive_unique _ _ _ Z). reflexivity.
Qed.

Lemma constant_zero (f : R -> R) : (forall x, is_derive f x 0) -> f 1 = 0 -> forall x, f x = 0.
Proof.
  intros D H x. destruct (Rtotal_order x 1) as [L|[->|L]]; [|exact H|].
  - destruct (MVT_gen f x 1 (fun _ => 0)) as (c & _ & E).
    + intros y _. apply D.
    + intros y _. apply continuity_pt_filterlim, (ex_derive_continuous (V := R_NormedModule)). exists 0. apply D.
    + lra.
  - destruct (MVT_gen f 1 x (fun _ => 0)) as (c & _ & E).
    + intros y _. apply D.
    + intros y _. apply continuity_pt_filterlim, (ex_derive_continuous (V := R_NormedModule)). exists 0. apply D.
    + lra.
Qed.

Lemma ev_flat N : forall c, (length c <= N)%nat -> (forall k, ev (pders k c) 1 = 0) -> forall x, ev c x = 0.
Proof.
  induction N as [|N IH]; intros c Hc H x; [destruct c; [reflexivity|cbn in Hc; lia]|].
  apply constant_zero; [|apply (H 0%nat)]. intros y.
  rewrite <- (IH (pder c)) with (x := y); [apply ev_derive|rewrite pder_length; lia|].
  intros k. rewrite <- pders_succ_r. apply (H (S k)).
Qed.

(** Legendre's equation, differentiated k times. *)
Lemma ode_derivatives (D : nat -> R -> R) lam : (forall k x, is_derive (D k) x (D (S k) x)) ->
  (forall x, (1 - x * x) * D 2%nat x - 2 * x * D 1%nat x + lam * D 0%nat x = 0) ->
  forall k x, (1 - x * x) * D (S (S k)) x - 2 * (INR k + 1) * x * D (S k) x + (lam - INR k * (INR k + 1)) * D k x = 0.
Proof.
  intros HD H0 k. induction k as [|k IH]; intros x; [pose proof (H0 x); change (INR 0) with 0; lra|].
  pose proof (derive_zero (fun x => (1 - x * x) * D (S (S k)) x - 2 * (INR k + 1) * x * D (S k) x + (lam - INR k * (INR k + 1)) * D k x) x
    ((1 - x * x) * D (S (S (S k))) x - 2 * (INR k + 2) * x * D (S (S k)) x + (lam - (INR k + 1) * (INR k + 2)) * D (S k) x) IH) as E.
  rewrite S_INR. transitivity ((1 - x * x) * D (S (S (S k))) x - 2 * (INR k + 2) * x * D (S (S k)) x + (lam - (INR k + 1) * (INR k + 2)) * D (S k) x); [ring|].
  apply E. clear E. auto_derive.
  - repeat split; eexists; apply HD.
  - rewrite (derive_at _ _ _ (HD (S (S k)) x)), (derive_at _ _ _ (HD (S k) x)), (derive_at _ _ _ (HD k x)). ring.
Qed.

(** A polynomial solution that vanishes at 1 is zero. *)
Definition poly (f : R -> R) : Prop := exists c, forall x, f x = ev c x.

Lemma poly_const a : poly (fun _ => a).
Proof. exists [a]. intros x. cbn. ring. Qed.
Lemma poly_id : poly (fun x => x).
Proof. exists [1; 1]. intros x. cbn. ring. Qed.
Lemma poly_plus f g : poly f -> poly g -> poly (fun x => f x + g x).
Proof. intros [c C] [d D]. exists (padd c d). intros x. rewrite ev_padd, C, D. reflexivity. Qed.
Lemma poly_mult f g : poly f -> poly g -> poly (fun x => f x * g x).
Proof. intros [c C] [d D]. exists (pmul c d). intros x. rewrite ev_pmul, C, D. reflexivity. Qed.
Lemma poly_ext f g : (forall x, f x = g x) -> poly f -> poly g.
Proof. intros H [c C]. exists c. intros x. rewrite <- H. apply C. Qed.
Lemma poly_pow f k : poly f -> poly (fun x => f x ^ k).
Proof. intros H. induction k as [|k IH]; [apply (poly_ext (fun _ => 1)); [reflexivity|apply poly_const]|]. apply (poly_ext (fun x => f x * f x ^ k)); [reflexivity|]. apply poly_mult; assumption. Qed.
Lemma poly_rsum k (f : nat -> R -> R) : (forall i, poly (f i)) -> poly (fun x => rsum k (fun i => f i x)).
Proof.
  intros H. induction k as [|k IH]; [apply (poly_ext (fun _ => 0)); [reflexivity|apply poly_const]|].
  apply (poly_ext (fun x => rsum k (fun i => f i x) + f k x)); [reflexivity|]. apply poly_plus; auto.
Qed.

Lemma s2_derive (q : R -> R) x v : is_derive q x v -> is_derive (fun x => (1 - x * x) * q x) x ((1 - x * x) * v - 2 * x * q x).
Proof. intros H. auto_derive; [eexists; apply H|]. rewrite (derive_at _ _ _ H). ring. Qed.

Lemma poly_unique f f1 lam : poly f -> (forall x, is_derive f x (f1 x)) ->
  (forall x, is_derive (fun x => (1 - x * x) * f1 x) x (- lam * f x)) -> f 1 = 0 -> forall x, f x = 0.
Proof.
  intros [c C] D1 D2 H1 x. rewrite C. apply (ev_flat (length c)); [lia|]. clear x.
  assert (HD : forall k x, is_derive (ev (pders k c)) x (ev (pders (S k) c) x)) by (intros; apply ev_derive).
  assert (F1 : forall x, f1 x = ev (pders 1 c) x).
  { intros x. rewrite <- (is_derive_unique _ _ _ (D1 x)). apply is_derive_unique.
    apply (is_derive_ext (ev c)); [intros; symmetry; apply C|]. apply (HD 0%nat). }
  assert (O : forall x, (1 - x * x) * ev (pders 2 c) x - 2 * x * ev (pders 1 c) x + lam * ev (pders 0 c) x = 0).
  { intros x. pose proof (is_derive_unique _ _ _ (D2 x)) as E.
    assert (G : is_derive (fun x => (1 - x * x) * f1 x) x ((1 - x * x) * ev (pders 2 c) x - 2 * x * ev (pders 1 c) x)).
    { apply (is_derive_ext (fun x => (1 - x * x) * ev (pders 1 c) x)); [intros t; rewrite F1; reflexivity|].
      apply s2_derive, (HD 1%nat). }
    rewrite (is_derive_unique _ _ _ G), C in E. change (pders 0 c) with c. lra. }
  pose proof (ode_derivatives (fun k => ev (pders k c)) lam HD O) as T.
  induction k as [|k IH]; [change (pders 0 c) with c; rewrite <- C; exact H1|].
  specialize (T k 1). cbv beta in T. rewrite IH in T. pose proof (pos_INR k).
  assert (E : (INR k + 1) * ev (pders (S k) c) 1 = 0) by lra. apply Rmult_integral in E. lra.
Qed.

(** ** Legendre polynomials and their derivatives *)

Definition px (c : list R) : list R := padd (0 :: c) c.
Lemma ev_px c x : ev (px c) x = x * ev c x.
Proof. unfold px. rewrite ev_padd. cbn. ring. Qed.

Fixpoint lp_pair (n : nat) : list R * list R :=
  match n with
  | O => ([1], [1; 1])
  | S k => let (a, b) := lp_pair k in
           (b, padd (pscal ((2 * INR k + 3) / (INR k + 2)) (px b)) (pscal (- (INR k + 1) / (INR k + 2)) a))
  end.
Definition lp (n : nat) : list R := fst (lp_pair n).

Lemma lp_spec n : (forall x, ev (fst (lp_pair n)) x = legendre n x /\ ev (snd (lp_pair n)) x = legendre (S n) x) /\
  length (fst (lp_pair n)) = S n /\ length (snd (lp_pair n)) = S (S n).
Proof.
  induction n as [|n (IH & L1 & L2)]; [split; [intros x; rewrite legendre_0, legendre_1; cbn; split; ring|split; reflexivity]|].
  cbn [lp_pair]. destruct (lp_pair n) as [a b]. cbn [fst snd] in *. split; [|split; [exact L2|]].
  - intros x. destruct (IH x) as [A B]. split; [exact B|].
    rewrite ev_padd, !ev_pscal, ev_px, A, B, legendre_SS. pose proof (pos_INR n). field. lra.
  - unfold pscal. rewrite padd_length, !map_length. unfold px. rewrite padd_length. change (length (0 :: b)) with (S (length b)). rewrite L1, L2. lia.
Qed.
Lemma ev_lp n x : ev (lp n) x = legendre n x.
Proof. apply lp_spec. Qed.
Lemma lp_length n : length (lp n) = S n.
Proof. apply lp_spec. Qed.

(** The [m]-th derivative of the [l]-th polynomial. *)
Definition dl (m l : nat) (x : R) : R := ev (pders m (lp l)) x.
Lemma dl_0 l x : dl 0 l x = legendre l x.
Proof. apply ev_lp. Qed.
Lemma dl_derive m l x : is_derive (dl m l) x (dl (S m) l x).
Proof. apply ev_derive. Qed.
Lemma dl_high m l x : (l < m)%nat -> dl m l x = 0.
Proof. intros H. unfold dl. pose proof (pders_length m (lp l)) as E. rewrite lp_length in E. destruct (pders m (lp l)) as [|a c]; [reflexivity|]. change (length (a :: c)) with (S (length c)) in E. lia. Qed.
Lemma dl_poly m l : poly (dl m l).
Proof. exists (pders m (lp l)). reflexivity. Qed.

Lemma dl_Derive_n m l : forall x, Derive_n (legendre l) m x = dl m l x.
Proof.
  induction m as [|m IH]; intros x; [symmetry; apply dl_0|].
  cbn [Derive_n]. rewrite (Derive_ext _ (dl m l)) by exact IH. apply is_derive_unique, dl_derive.
Qed.

Lemma dl_1 l x : dl 1 l x = dlegendre l x.
Proof.
  rewrite <- (is_derive_unique _ _ _ (legendre_derive l x)). symmetry. apply is_derive_unique.
  apply (is_derive_ext (dl 0 l)); [intros; apply dl_0|apply dl_derive].
Qed.

Lemma legendre_ode l x : (1 - x * x) * dl 2 l x - 2 * x * dl 1 l x + INR l * (INR l + 1) * dl 0 l x = 0.
Proof.
  assert (E : forall y, (1 - y * y) * dl 1 l y = (INR l + 1) * (y * dl 0 l y - dl 0 (S l) y)).
  { intros y. rewrite dl_1, !dl_0. destruct (legendre_AB l y) as [A B].
    assert (Q : y * (dlegendre (S l) y - y * dlegendre l y) = y * ((INR l + 1) * legendre l y)) by (f_equal; exact B). lra. }
  assert (D : is_derive (fun y => (1 - y * y) * dl 1 l y - (INR l + 1) * (y * dl 0 l y - dl 0 (S l) y)) x
    ((1 - x * x) * dl 2 l x - 2 * x * dl 1 l x - (INR l + 1) * (dl 0 l x + x * dl 1 l x - dl 1 (S l) x))).
  { auto_derive; [repeat split; eexists; apply dl_derive|].
    rewrite (derive_at _ _ _ (dl_derive 1 l x)), (derive_at _ _ _ (dl_derive 0 l x)), (derive_at _ _ _ (dl_derive 0 (S l) x)). ring. }
  apply derive_zero in D; [|intros y; rewrite E; ring].
  destruct (legendre_AB l x) as [_ B]. rewrite <- !dl_1, <- dl_0 in B. rewrite dl_0 in *.
  assert (Q : (INR l + 1) * (dl 1 (S l) x - x * dl 1 l x) = (INR l + 1) * ((INR l + 1) * legendre l x)) by (f_equal; exact B). lra.
Qed.

Lemma dl_ode l k x : (1 - x * x) * dl (S (S k)) l x - 2 * (INR k + 1) * x * dl (S k) l x + (INR l * (INR l + 1) - INR k * (INR k + 1)) * dl k l x = 0.
Proof. apply (ode_derivatives (fun k => dl k l)); [intros; apply dl_derive|intros; apply legendre_ode]. Qed.

(** ** The product of two functions of one order *)

Section Product.
  Variables l p : nat.
  Hypothesis Hlp : (l <= p)%nat.

  (** (1 - x^2)^m P_l^(m) P_p^(m) *)
  Definition pr (m : nat) (x : R) : R := (1 - x * x) ^ m * dl m l x * dl m p x.
  Definition pr1 (m : nat) (x : R) : R :=
    INR m * (- 2 * x) * (1 - x * x) ^ (pred m) * dl m l x * dl m p x + (1 - x * x) ^ m * (dl (S m) l x * dl m p x + dl m l x * dl (S m) p x).
  Definition pr2 (m : nat) (x : R) : R :=
    - 2 * INR m * x * (1 - x * x) ^ m * dl m l x * dl m p x + (1 - x * x) ^ S m * (dl (S m) l x * dl m p x + dl m l x * dl (S m) p x).

  Lemma pr_derive m x : is_derive (pr m) x (pr1 m x).
  Proof.
    unfold pr. auto_derive; [repeat split; eexists; apply dl_derive|].
    rewrite (derive_at _ _ _ (dl_derive m l x)), (derive_at _ _ _ (dl_derive m p x)). unfold pr1.
    change (1 + - (x * x)) with (1 - x * x). set (u := (1 - x * x) ^ m). set (v := (1 - x * x) ^ pred m). ring.
  Qed.
  Lemma pr2_pr1 m x : (1 - x * x) * pr1 m x = pr2 m x.
  Proof. unfold pr1, pr2. destruct m as [|m]; [change (INR 0) with 0; cbn [pow]; ring|]. cbn [pred pow]. set (u := (1 - x * x) ^ m). ring. Qed.

  Definition lam (l m : nat) : R := INR l * (INR l + 1) - INR m * (INR m + 1).

  Lemma pr2_derive m x : is_derive (pr2 m) x
    (- 2 * INR m * (1 - x * x) ^ m * dl m l x * dl m p x + 4 * INR m * INR m * x * x * (1 - x * x) ^ (pred m) * dl m l x * dl m p x
     - 2 * INR m * x * (1 - x * x) ^ m * (dl (S m) l x * dl m p x + dl m l x * dl (S m) p x)
     - 2 * (INR m + 1) * x * (1 - x * x) ^ m * (dl (S m) l x * dl m p x + dl m l x * dl (S m) p x)
     + (1 - x * x) ^ S m * (dl (S (S m)) l x * dl m p x + 2 * dl (S m) l x * dl (S m) p x + dl m l x * dl (S (S m)) p x)).
  Proof.
    unfold pr2. auto_derive; [repeat split; eexists; apply dl_derive|].
    rewrite (derive_at _ _ _ (dl_derive m l x)), (derive_at _ _ _ (dl_derive m p x)), (derive_at _ _ _ (dl_derive (S m) l x)), (derive_at _ _ _ (dl_derive (S m) p x)).
    change (pred (S m)) with m. change (match m with 0%nat => 1 | S _ => INR m + 1 end) with (INR (S m)). rewrite S_INR.
    change (1 + - (x * x)) with (1 - x * x). cbn [pow]. set (u := (1 - x * x) ^ m). set (v := (1 - x * x) ^ pred m). ring.
  Qed.

  Lemma pr_top m x : is_derive (pr2 m) x
    (- 2 * INR m * (1 - x * x) ^ m * dl m l x * dl m p x + 4 * INR m * INR m * x * x * (1 - x * x) ^ (pred m) * dl m l x * dl m p x
     - 2 * INR m * x * (1 - x * x) ^ m * (dl (S m) l x * dl m p x + dl m l x * dl (S m) p x)
     - (lam l m + lam p m) * pr m x + 2 * pr (S m) x).
  Proof.
    pose proof (pr2_derive m x) as D. apply (derive_eq _ _ _ _ D).
    pose proof (dl_ode l m x) as A. pose proof (dl_ode p m x) as B. fold (lam l m) in A. fold (lam p m) in B. unfold pr. cbn [pow].
    set (s := 1 - x * x) in *. set (a := dl m l x) in *. set (b := dl m p x) in *. set (a1 := dl (S m) l x) in *. set (b1 := dl (S m) p x) in *.
    set (a2 := dl (S (S m)) l x) in *. set (b2 := dl (S (S m)) p x) in *.
    assert (A' : s * a2 = 2 * (INR m + 1) * x * a1 - lam l m * a) by lra. assert (B' : s * b2 = 2 * (INR m + 1) * x * b1 - lam p m * b) by lra.
    replace (s * s ^ m * (a2 * b + 2 * a1 * b1 + a * b2)) with (s ^ m * ((s * a2) * b + 2 * s * a1 * b1 + a * (s * b2))) by ring.
    rewrite A', B'. try set (w := s ^ m). try set (v := s ^ pred m). try set (w := s ^ k). ring.
  Qed.

  Lemma pr_zero x : is_derive (pr2 0) x (- ((INR l * (INR l + 1) + INR p * (INR p + 1)) * pr 0 x - 2 * pr 1 x)).
  Proof.
    pose proof (pr_top 0 x) as D. apply (derive_eq _ _ _ _ D). unfold lam. change (INR 0) with 0. ring.
  Qed.

  Lemma pr_succ k x : let m := S k in is_derive (pr2 m) x
    (- ((INR l * (INR l + 1) + INR p * (INR p + 1) - 2 * INR m * INR m) * pr m x - pr (S m) x - lam l k * lam p k * pr k x)).
  Proof.
    intros m. pose proof (pr_top m x) as D. apply (derive_eq _ _ _ _ D). unfold m. cbn [pred].
    pose proof (dl_ode l k x) as A. pose proof (dl_ode p k x) as B. fold (lam l k) in A. fold (lam p k) in B. unfold pr. cbn [pow].
    replace (lam l (S k)) with (INR l * (INR l + 1) - INR (S k) * (INR (S k) + 1)) by reflexivity.
    replace (lam p (S k)) with (INR p * (INR p + 1) - INR (S k) * (INR (S k) + 1)) by reflexivity.
    rewrite <- S_INR in A, B. set (M := INR (S k)) in *.
    set (s := 1 - x * x) in *. set (a := dl (S k) l x) in *. set (b := dl (S k) p x) in *. set (a1 := dl (S (S k)) l x) in *. set (b1 := dl (S (S k)) p x) in *.
    set (a0 := dl k l x) in *. set (b0 := dl k p x) in *.
    assert (A' : 2 * M * x * a = s * a1 + lam l k * a0) by lra. assert (B' : 2 * M * x * b = s * b1 + lam p k * b0) by lra.
    replace (4 * M * M * x * x * s ^ k * a * b) with (s ^ k * (2 * M * x * a) * (2 * M * x * b)) by ring.
    replace (2 * M * x * (s * s ^ k) * (a1 * b + a * b1)) with (s * s ^ k * (a1 * (2 * M * x * b) + (2 * M * x * a) * b1)) by ring.
    rewrite A', B'. try set (w := s ^ m). try set (v := s ^ pred m). try set (w := s ^ k). ring.
  Qed.

  (** The product of order [m], divided by (l + |m|)! (p + |m|)!. *)
  Definition ph (m : Z) (x : R) : R := pr (Z.abs_nat m) x / (INR (fact (l + Z.abs_nat m)) * INR (fact (p + Z.abs_nat m))).
  Definition ph1 (m : Z) (x : R) : R := pr1 (Z.abs_nat m) x / (INR (fact (l + Z.abs_nat m)) * INR (fact (p + Z.abs_nat m))).
  Definition ph2 (m : Z) (x : R) : R := pr2 (Z.abs_nat m) x / (INR (fact (l + Z.abs_nat m)) * INR (fact (p + Z.abs_nat m))).

  Lemma ph_derive m x : is_derive (ph m) x (ph1 m x).
  Proof.
    unfold ph. auto_derive; [eexists; apply pr_derive|]. rewrite (derive_at _ _ _ (pr_derive (Z.abs_nat m) x)). unfold ph1, Rdiv. ring.
  Qed.
  Lemma ph2_ph1 m x : (1 - x * x) * ph1 m x = ph2 m x.
  Proof. unfold ph1, ph2. rewrite <- pr2_pr1. unfold Rdiv. ring. Qed.

  Lemma ph_even m x : ph (- m) x = ph m x.
  Proof. unfold ph. replace (Z.abs_nat (- m)) with (Z.abs_nat m) by lia. reflexivity. Qed.
  Lemma ph2_even m x : ph2 (- m) x = ph2 m x.
  Proof. unfold ph2. replace (Z.abs_nat (- m)) with (Z.abs_nat m) by lia. reflexivity. Qed.

  Notation L := (Z.of_nat l).
  Notation P := (Z.of_nat p).

  Lemma jac_even (f : Z -> R) m : (forall m, f (- m)%Z = f m) -> jac L P f (- m) = jac L P f m.
  Proof.
    intros E. unfold jac. rewrite E. replace (- m + 1)%Z with (- (m - 1))%Z by lia. replace (- m - 1)%Z with (- (m + 1))%Z by lia. rewrite !E.
    replace (L * (L + 1) + P * (P + 1) - 2 * - m * - m)%Z with (L * (L + 1) + P * (P + 1) - 2 * m * m)%Z by ring.
    replace ((P + - m + 1) * (L + - m + 1))%Z with ((L - m + 1) * (P - m + 1))%Z by ring.
    replace ((L - - m + 1) * (P - - m + 1))%Z with ((P + m + 1) * (L + m + 1))%Z by ring. ring.
  Qed.

  Lemma ph2_derive_nat k x : is_derive (ph2 (Z.of_nat k)) x (- jac L P (fun m => ph m x) (Z.of_nat k)).
  Proof.
    assert (PR : forall v, is_derive (pr2 k) x v -> is_derive (ph2 (Z.of_nat k)) x (v / (INR (fact (l + k)) * INR (fact (p + k))))).
    { intros v D. unfold ph2. rewrite Zabs2Nat.id. auto_derive; [eexists; apply D|]. rewrite (derive_at _ _ _ D). unfold Rdiv. ring. }
    pose proof (INR_fact_neq_0 (l + k)) as F1. pose proof (INR_fact_neq_0 (p + k)) as F2.
    unfold jac, ph. destruct k as [|k].
    - apply (derive_eq _ _ _ _ (PR _ (pr_zero x))). cbn [Z.of_nat]. replace (Z.abs_nat (0 + 1)) with 1%nat by reflexivity. replace (Z.abs_nat (0 - 1)) with 1%nat by reflexivity.
      replace (Z.abs_nat 0) with 0%nat by reflexivity. rewrite !Nat.add_0_r in *. rewrite !Nat.add_1_r, !fact_simpl, !mult_INR, !S_INR.
      repeat rewrite ?mult_IZR, ?minus_IZR, ?plus_IZR. rewrite <- !INR_IZR_INZ.
      pose proof (pos_INR l). pose proof (pos_INR p). field. repeat split; auto; lra.
    - apply (derive_eq _ _ _ _ (PR _ (pr_succ k x))).
      replace (Z.abs_nat (Z.of_nat (S k) + 1)) with (S (S k)) by lia. replace (Z.abs_nat (Z.of_nat (S k) - 1)) with k by lia. rewrite Zabs2Nat.id.
      replace (l + S (S k))%nat with (S (l + S k)) by lia. replace (p + S (S k))%nat with (S (p + S k)) by lia.
      rewrite (fact_simpl (l + S k)), (fact_simpl (p + S k)).
      replace (l + S k)%nat with (S (l + k)) in * by lia. replace (p + S k)%nat with (S (p + k)) in * by lia.
      rewrite (fact_simpl (l + k)), (fact_simpl (p + k)) in *. rewrite !mult_INR in *. rewrite !S_INR in *. rewrite !plus_INR in *.
      unfold lam. replace (Z.of_nat (S k)) with (Z.of_nat k + 1)%Z by lia.
      repeat rewrite ?mult_IZR, ?minus_IZR, ?plus_IZR. rewrite <- !INR_IZR_INZ.
      pose proof (pos_INR l). pose proof (pos_INR p). pose proof (pos_INR k). pose proof (INR_fact_neq_0 (l + k)). pose proof (INR_fact_neq_0 (p + k)).
      field. repeat split; auto; lra.
  Qed.

  Lemma ph2_derive m x : is_derive (ph2 m) x (- jac L P (fun m => ph m x) m).
  Proof.
    destruct (Z_le_gt_dec 0 m) as [H|H].
    - replace m with (Z.of_nat (Z.to_nat m)) by lia. apply ph2_derive_nat.
    - pose proof (ph2_derive_nat (Z.to_nat (- m)) x) as D. replace (Z.of_nat (Z.to_nat (- m))) with (- m)%Z in D by lia.
      rewrite (jac_even (fun m => ph m x) m) in D by (intros; apply ph_even).
      apply (is_derive_ext (ph2 (- m))); [intros t; apply ph2_even|exact D].
  Qed.

  Lemma ph_poly m : poly (ph m).
  Proof.
    apply (poly_ext (fun x => (1 - x * x) ^ Z.abs_nat m * dl (Z.abs_nat m) l x * dl (Z.abs_nat m) p x * / (INR (fact (l + Z.abs_nat m)) * INR (fact (p + Z.abs_nat m))))); [reflexivity|].
    apply poly_mult; [|apply poly_const]. apply poly_mult; [|apply dl_poly]. apply poly_mult; [|apply dl_poly]. apply poly_pow.
    apply (poly_ext (fun x => 1 + (-1) * (x * x))); [intros; ring|]. apply poly_plus; [apply poly_const|]. apply poly_mult; [apply poly_const|]. apply poly_mult; apply poly_id.
  Qed.

  Lemma ph_edge x : ph (L + 1) x = 0 /\ ph (- L - 1) x = 0.
  Proof.
    assert (E : ph (L + 1) x = 0) by (unfold ph, pr; rewrite (dl_high (Z.abs_nat (L + 1)) l) by lia; unfold Rdiv; ring).
    split; [exact E|]. replace (- L - 1)%Z with (- (L + 1))%Z by lia. rewrite ph_even. exact E.
  Qed.

  Lemma ph_at_1 m : ph m 1 = if (m =? 0)%Z then / (INR (fact l) * INR (fact p)) else 0.
  Proof.
    unfold ph, pr. destruct (Z.eqb_spec m 0) as [->|N].
    - cbn [Z.abs_nat pow]. rewrite !dl_0, !legendre_at_1, !Nat.add_0_r. unfold Rdiv. ring.
    - replace (Z.abs_nat m) with (S (pred (Z.abs_nat m))) by lia. cbn [pow]. unfold Rdiv. ring.
  Qed.
End Product.

Lemma derive_rsum k (f : nat -> R -> R) (v : nat -> R) x : (forall i, is_derive (f i) x (v i)) -> is_derive (fun x => rsum k (fun i => f i x)) x (rsum k v).
Proof.
  intros H. induction k as [|k IH]; [apply (is_derive_ext (fun _ => 0)); [reflexivity|]; apply @is_derive_const|].
  apply (is_derive_ext (fun x => rsum k (fun i => f i x) + f k x)); [reflexivity|]. cbn [rsum]. apply @is_derive_plus; auto.
Qed.
Lemma derive_scal (a : R) (f : R -> R) x v : is_derive f x v -> is_derive (fun x => a * f x) x (a * v).
Proof. intros H. apply (is_derive_scal f x a v H). Qed.

Lemma derive_minus (f g : R -> R) x (u v : R) : is_derive f x u -> is_derive g x v -> is_derive (fun x => f x - g x) x (u - v).
Proof. intros H G. exact (is_derive_minus f g x u v H G). Qed.

Section Expansion.
  Variables l p : nat.
  Hypothesis Hlp : (l <= p)%nat.
  Notation L := (Z.of_nat l).
  Notation P := (Z.of_nat p).

  Definition pj (n : Z) (f : Z -> R -> R) (x : R) : R := osum L (fun m => weight L P m * osums L P n m * f m x).

  Lemma pj_derive n f v x : (forall m, is_derive (f m) x (v m)) -> is_derive (pj n f) x (osum L (fun m => weight L P m * osums L P n m * v m)).
  Proof. intros H. unfold pj, osum. apply (derive_rsum _ (fun i x => _)). intros i. apply derive_scal, H. Qed.

  Lemma pj_ode n x : is_derive (fun x => (1 - x * x) * pj n (ph1 l p) x) x (- IZR (n * (n + 1)) * pj n (ph l p) x).
  Proof.
    apply (is_derive_ext (pj n (ph2 l p))).
    - intros t. unfold pj. rewrite <- osum_scal. apply osum_ext. intros m _. rewrite <- ph2_ph1. ring.
    - apply (derive_eq _ _ _ _ (pj_derive n (ph2 l p) _ x (fun m => ph2_derive l p Hlp m x))).
      destruct (ph_edge l p Hlp x) as [E1 E2]. destruct (S_edge L P ltac:(lia) n) as [S1 S2].
      pose proof (jac_sym L P ltac:(lia) ltac:(lia) (fun m => ph l p m x) (osums L P n) E1 E2 S1 S2) as J.
      rewrite (osum_ext L _ (fun m => (-1) * (weight L P m * (osums L P n m * jac L P (fun m => ph l p m x) m)))) by (intros; ring).
      rewrite osum_scal, J. unfold pj.
      rewrite (osum_ext L (fun m => weight L P m * (ph l p m x * jac L P (osums L P n) m)) (fun m => IZR (n * (n + 1)) * (weight L P m * osums L P n m * ph l p m x)))
        by (intros; rewrite jac_S; ring).
      rewrite osum_scal. ring.
  Qed.

  Lemma pj_value k x : let n := Z.of_nat k in pj n (ph l p) x = pj n (ph l p) 1 * legendre k x.
  Proof.
    intros n. set (c := pj n (ph l p) 1).
    enough (E : pj n (ph l p) x - c * legendre k x = 0) by lra.
    apply (poly_unique (fun x => pj n (ph l p) x - c * legendre k x) (fun x => pj n (ph1 l p) x - c * dl 1 k x) (IZR (n * (n + 1)))).
    - apply (poly_ext (fun x => pj n (ph l p) x + (- c) * dl 0 k x)); [intros y; rewrite dl_0; ring|].
      apply poly_plus; [|apply poly_mult; [apply poly_const|apply dl_poly]].
      unfold pj, osum. apply (poly_rsum _ (fun i x => _)). intros i. apply poly_mult; [apply poly_const|apply ph_poly].
    - intros y. apply @is_derive_minus; [apply pj_derive; intros m; apply ph_derive|]. apply derive_scal.
      apply (is_derive_ext (dl 0 k)); [intros; apply dl_0|apply dl_derive].
    - intros y.
      assert (Q : forall x, (1 - x * x) * pj n (ph1 l p) x - c * ((1 - x * x) * dl 1 k x) = (1 - x * x) * (pj n (ph1 l p) x - c * dl 1 k x)) by (intros; ring).
      apply (is_derive_ext _ _ _ _ Q).
      apply (derive_eq _ _ _ _ (derive_minus _ _ _ _ _ (pj_ode n y) (derive_scal c _ _ _ (s2_derive _ _ _ (dl_derive 1 k y))))).
      pose proof (legendre_ode k y) as O. rewrite dl_0 in O.
      replace (IZR (n * (n + 1))) with (INR k * (INR k + 1)) by (unfold n; rewrite mult_IZR, plus_IZR, <- INR_IZR_INZ; reflexivity).
      replace ((1 - y * y) * dl 2 k y - 2 * y * dl 1 k y) with (- (INR k * (INR k + 1) * legendre k y)) by lra. ring.
    - cbv beta. rewrite legendre_at_1. unfold c. ring.
  Qed.

  Lemma pj_at_1 n : pj n (ph l p) 1 = INR (fact l) * INR (fact p) * osums L P n 0.
  Proof.
    unfold pj, osum.
    assert (Z0 : forall i, i <> l -> weight L P (Z.of_nat i - L) * osums L P n (Z.of_nat i - L) * ph l p (Z.of_nat i - L) 1 = 0).
    { intros i N. rewrite ph_at_1, (proj2 (Z.eqb_neq _ _)) by lia. ring. }
    rewrite (rsum_single (Z.to_nat (2 * L + 1)) l _ ltac:(lia) (fun i _ => Z0 i)).
    replace (Z.of_nat l - L)%Z with 0%Z by lia. rewrite (ph_at_1 l p Hlp). change (0 =? 0)%Z with true. cbv iota.
    unfold weight, rho, zfact. replace (Z.to_nat (L + 0)) with l by lia. replace (Z.to_nat (L - 0)) with l by lia.
    replace (Z.to_nat (P + 0 + 0)) with p by lia. replace (Z.to_nat (P - 0 - 0)) with p by lia.
    pose proof (INR_fact_neq_0 l). pose proof (INR_fact_neq_0 p). field. auto.
  Qed.

  (** The product in Legendre polynomials. *)
  Lemma ph_expansion m x : (Z.abs m <= L)%Z ->
    ph l p m x = dsum L P (fun n => INR (fact l) * INR (fact p) * (osums L P n 0 * osums L P n m / onorm L P n) * legendre (Z.to_nat n) x).
  Proof.
    intros Hm. transitivity (dsum L P (fun n => osums L P n m / onorm L P n * pj n (ph l p) x)).
    - unfold pj, dsum, osum.
      rewrite (rsum_ext _ _ (fun k => rsum (Z.to_nat (2 * L + 1)) (fun i => let m' := (Z.of_nat i - L)%Z in let n := (P - L + Z.of_nat k)%Z in
        weight L P m' * ph l p m' x * (osums L P n m * osums L P n m' / onorm L P n)))).
      2: { intros k _. rewrite <- rsum_scal_l. apply rsum_ext. intros i _. cbv zeta. unfold Rdiv. ring. }
      rewrite rsum_swap. cbv zeta. symmetry.
      rewrite (rsum_ext _ _ (fun i => let m' := (Z.of_nat i - L)%Z in weight L P m' * ph l p m' x * (if (m =? m')%Z then / weight L P m else 0))).
      + rewrite (rsum_single _ (Z.to_nat (m + L))) by (try lia; intros i Hi N; cbv zeta; rewrite (proj2 (Z.eqb_neq _ _)) by lia; ring). cbv zeta.
        replace (Z.of_nat (Z.to_nat (m + L)) - L)%Z with m by lia. rewrite Z.eqb_refl. pose proof (weight_pos L P m). field. lra.
      + intros i Hi. cbv zeta. rewrite rsum_scal_l. f_equal.
        apply (S_dual L P ltac:(lia) ltac:(lia) m (Z.of_nat i - L) Hm ltac:(lia)).
    - unfold dsum. apply rsum_ext. intros k Hk.
      pose proof (pj_value (Z.to_nat (P - L + Z.of_nat k)) x) as E. cbv zeta in E. rewrite Z2Nat.id in E by lia. rewrite E, pj_at_1. unfold Rdiv. ring.
  Qed.
End Expansion.
