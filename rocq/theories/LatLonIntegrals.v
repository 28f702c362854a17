(** * The integrals behind the sub-integral table. *)
From Coq Require Import List ZArith Arith Bool Reals Lia Lra.
From Coquelicot Require Import Coquelicot.
From Verif Require Import Base RSum CSum LatLon SpecLatLon.
Import ListNotations.
Local Open Scope R_scope.

(** ** Complex integrals *)
Lemma cint_ext f g a b l : (forall x, f x = g x) -> cint f a b l -> cint g a b l.
Proof. intros H [A B]. split; eapply is_RInt_ext; eauto; intros x _; cbn; rewrite H; reflexivity. Qed.

Lemma is_RInt_val (f : R -> R) a b (l l' : R) : l = l' -> is_RInt f a b l -> is_RInt f a b l'.
Proof. intros ->. auto. Qed.

Lemma cint_zero a b : cint (fun _ => RtoC 0) a b (RtoC 0).
Proof.
  split; (eapply is_RInt_val; [|exact (is_RInt_const a b (0 : R))]); unfold scal; cbn; unfold mult; cbn; ring.
Qed.

Lemma cint_plus f g a b l l' : cint f a b l -> cint g a b l' -> cint (fun x => Cplus (f x) (g x)) a b (Cplus l l').
Proof. intros [A B] [A' B']. split; [exact (is_RInt_plus _ _ _ _ _ _ A A')|exact (is_RInt_plus _ _ _ _ _ _ B B')]. Qed.

Lemma cint_scal c f a b l : cint f a b l -> cint (fun x => Cmult c (f x)) a b (Cmult c l).
Proof.
  intros [A B]. split.
  - exact (is_RInt_minus _ _ _ _ _ _ (is_RInt_scal _ _ _ (Re c) _ A) (is_RInt_scal _ _ _ (Im c) _ B)).
  - exact (is_RInt_plus _ _ _ _ _ _ (is_RInt_scal _ _ _ (Re c) _ B) (is_RInt_scal _ _ _ (Im c) _ A)).
Qed.

Lemma cint_conj f a b l : cint f a b l -> cint (fun x => Cconj (f x)) a b (Cconj l).
Proof. intros [A B]. split; [exact A|]. exact (is_RInt_opp _ _ _ _ B). Qed.

Lemma cint_clsum {A} (F : A -> R -> C) (v : A -> C) (xs : list A) a b :
  (forall x, In x xs -> cint (F x) a b (v x)) -> cint (fun t => clsum (map (fun x => F x t) xs)) a b (clsum (map v xs)).
Proof.
  induction xs as [|x xs IH]; intros H; cbn [map clsum]; [apply cint_zero|].
  apply cint_plus; [apply H; left; reflexivity|]. apply IH. intros y Hy. apply H. right. exact Hy.
Qed.

Lemma cint_derive (F f : R -> C) a b :
  (forall x, is_derive (fun t => Re (F t)) x (Re (f x))) -> (forall x, is_derive (fun t => Im (F t)) x (Im (f x))) ->
  (forall x, continuous (fun t => Re (f t)) x) -> (forall x, continuous (fun t => Im (f t)) x) ->
  cint f a b (Cminus (F b) (F a)).
Proof.
  intros H1 H2 H3 H4. split.
  - exact (is_RInt_derive (fun t => Re (F t)) (fun t => Re (f t)) a b (fun x _ => H1 x) (fun x _ => H3 x)).
  - exact (is_RInt_derive (fun t => Im (F t)) (fun t => Im (f t)) a b (fun x _ => H2 x) (fun x _ => H4 x)).
Qed.

Lemma cint_val f a b l l' : l = l' -> cint f a b l -> cint f a b l'.
Proof. intros ->. auto. Qed.

Lemma cint_unique f a b l l' : cint f a b l -> cint f a b l' -> l = l'.
Proof.
  intros [A B] [A' B'].
  apply C_ext; [rewrite <- (is_RInt_unique _ _ _ _ A); exact (is_RInt_unique _ _ _ _ A')
               |rewrite <- (is_RInt_unique _ _ _ _ B); exact (is_RInt_unique _ _ _ _ B')].
Qed.

Ltac cont := apply (ex_derive_continuous (V := R_NormedModule)); auto_derive; auto.

(** ** The longitudes *)
Definition S_of (phi_min phi_max : R) (row : Z) : C :=
  if (row =? 0)%Z then RtoC (phi_max - phi_min)
  else Cmult (Cdiv im (RtoC (IZR row))) (Cminus (cexp (IZR row * phi_min)) (cexp (IZR row * phi_max))).

Lemma longitude_integral phi_min phi_max row :
  cint (fun phi => expi (IZR row * phi)) phi_min phi_max (S_of phi_min phi_max row).
Proof.
  unfold S_of. destruct (Z.eqb_spec row 0) as [->|H].
  - eapply cint_val; [|apply (cint_derive (fun t => (t, 0)%R))].
    + apply C_ext; cbn; ring.
    + intros x. cbn. auto_derive; [trivial|]. rewrite Rmult_0_l, cos_0. reflexivity.
    + intros x. cbn. rewrite Rmult_0_l, sin_0. apply @is_derive_const.
    + intros x. cbn. cont.
    + intros x. cbn. cont.
  - assert (Hr : IZR row <> 0) by (intros Q; apply eq_IZR_R0 in Q; contradiction).
    eapply cint_val; [|apply (cint_derive (fun t => (sin (IZR row * t) / IZR row, - (cos (IZR row * t) / IZR row))%R))].
    + apply C_ext; cbn; field; exact Hr.
    + intros x. cbn. auto_derive; [trivial|field; exact Hr].
    + intros x. cbn. auto_derive; [trivial|field; exact Hr].
    + intros x. cbn. cont.
    + intros x. cbn. cont.
Qed.

(** ** The colatitudes *)
Definition Q_of (theta_min theta_max : R) (col : Z) : C :=
  match int_inverse (col ^ 2 - 1) with
  | Ok inv =>
      Cmult (RtoC inv)
        (Cplus
           (Cmult (cexp (IZR col * theta_min))
              (Cminus (Cmult (Cmult im (RtoC (IZR col))) (RtoC (sin theta_min))) (RtoC (cos theta_min))))
           (Cmult (cexp (IZR col * theta_max))
              (Cminus (RtoC (cos theta_max)) (Cmult (Cmult im (RtoC (IZR col))) (RtoC (sin theta_max))))))
  | Err _ =>
      Cmult (RtoC (1 / 4))
        (Cminus
           (Cplus (Cmult (Cmult (Cmult (RtoC 2) im) (RtoC (IZR col))) (RtoC (theta_max - theta_min)))
              (cexp (2 * IZR col * theta_min)))
           (cexp (2 * IZR col * theta_max)))
  end.

Lemma colatitude_integral theta_min theta_max col :
  cint (fun theta => Cmult (RtoC (sin theta)) (expi (IZR col * theta))) theta_min theta_max (Q_of theta_min theta_max col).
Proof.
  unfold Q_of, int_inverse. destruct (Z.eqb_spec (col ^ 2 - 1) 0) as [H|H].
  - assert (Hc : col = 1%Z \/ col = (-1)%Z) by (assert (((col - 1) * (col + 1))%Z = 0%Z) by lia; assert (col - 1 = 0 \/ col + 1 = 0)%Z as [|] by (apply Z.mul_eq_0; assumption); lia).
    assert (Hs : forall x, cos (2 * x) = (1 - 2 * sin x * sin x)%R) by (intros x; rewrite cos_2a_sin; ring).
    eapply cint_val; [|apply (cint_derive (fun t => (- (cos (2 * IZR col * t)) / 4, IZR col * (t / 2 - sin (2 * t) / 4))%R))].
    + apply C_ext; cbn; [field|]. destruct Hc as [-> | ->].
      * replace (2 * 1 * theta_min)%R with (2 * theta_min)%R by ring. replace (2 * 1 * theta_max)%R with (2 * theta_max)%R by ring. field.
      * replace (2 * -1 * theta_min)%R with (- (2 * theta_min))%R by ring. replace (2 * -1 * theta_max)%R with (- (2 * theta_max))%R by ring.
        rewrite !sin_neg. field.
    + intros x. cbn. auto_derive; [trivial|]. destruct Hc as [-> | ->].
      * replace (2 * 1 * x)%R with (2 * x)%R by ring. rewrite sin_2a, !Rmult_1_l. field.
      * replace (2 * -1 * x)%R with (- (2 * x))%R by ring. replace (-1 * x)%R with (- x)%R by ring. rewrite sin_neg, cos_neg, sin_2a. field.
    + intros x. cbn. auto_derive; [trivial|]. rewrite Hs. destruct Hc as [-> | ->].
      * rewrite !Rmult_1_l. field.
      * replace (-1 * x)%R with (- x)%R by ring. rewrite sin_neg. field.
    + intros x. cbn. cont.
    + intros x. cbn. cont.
  - assert (Hc : (IZR col * IZR col - 1 <> 0)%R).
    { rewrite <- mult_IZR. intros Q. apply H. apply eq_IZR. rewrite minus_IZR, Z.pow_2_r. exact Q. }
    assert (E : IZR (col ^ 2 - 1) = (IZR col * IZR col - 1)%R) by (rewrite minus_IZR, Z.pow_2_r, mult_IZR; reflexivity).
    rewrite E. set (c := IZR col) in *.
    eapply cint_val; [|apply (cint_derive (fun t => ((c * sin (c * t) * sin t + cos (c * t) * cos t) / (c * c - 1),
                                                    (sin (c * t) * cos t - c * cos (c * t) * sin t) / (c * c - 1))%R))].
    + apply C_ext; cbn; field; exact Hc.
    + intros x. cbn. auto_derive; [trivial|]. field. exact Hc.
    + intros x. cbn. auto_derive; [trivial|]. field. exact Hc.
    + intros x. cbn. cont.
    + intros x. cbn. cont.
Qed.

(** ** Conjugates *)
Lemma expi_neg x : expi (- x) = Cconj (expi x).
Proof. apply C_ext; cbn; [apply cos_neg|apply sin_neg]. Qed.

Lemma S_conj pmin pmax row : S_of pmin pmax (- row) = Cconj (S_of pmin pmax row).
Proof.
  eapply cint_unique; [apply longitude_integral|]. eapply cint_ext; [|apply cint_conj, longitude_integral].
  intros x. cbn beta. rewrite <- expi_neg. f_equal. rewrite opp_IZR. ring.
Qed.

Lemma Q_conj tmin tmax col : Q_of tmin tmax (- col) = Cconj (Q_of tmin tmax col).
Proof.
  eapply cint_unique; [apply colatitude_integral|]. eapply cint_ext; [|apply cint_conj, colatitude_integral].
  intros x. cbn beta. rewrite opp_IZR, Ropp_mult_distr_l_reverse, expi_neg. apply C_ext; cbn; ring.
Qed.

(** The table. *)
Definition T_of (tmin tmax pmin pmax : R) (row col : Z) : C := Cmult (Q_of tmin tmax col) (S_of pmin pmax row).
Lemma T_conj tmin tmax pmin pmax row col :
  T_of tmin tmax pmin pmax (- row) (- col) = Cconj (T_of tmin tmax pmin pmax row col).
Proof. unfold T_of. rewrite S_conj, Q_conj. apply C_ext; cbn; ring. Qed.
