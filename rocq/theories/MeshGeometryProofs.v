(** * Proofs about the geometry of meshes. *)
From Coq Require Import String List ZArith Arith Bool Reals Lra Lia Psatz.
From Verif Require Import Base ListLemmas RSum RealOrtho PyNum Numpy Mesh SpecMesh MeshGeometry SpecMeshGeometry.
Import ListNotations.
Local Open Scope R_scope.

(** ** The algebra of one triangle *)

Definition gram (e1 e2 : point) : R := dot e1 e1 * dot e2 e2 - dot e1 e2 * dot e1 e2.

Lemma dot_cross e1 e2 : dot (cross e1 e2) (cross e1 e2) = gram e1 e2.
Proof. destruct e1 as [[x y] z], e2 as [[x' y'] z']. unfold gram, dot, cross. ring. Qed.

Lemma dot_self_nonneg p : 0 <= dot p p.
Proof. destruct p as [[x y] z]. unfold dot. nra. Qed.

Lemma dot_self_zero p : dot p p = 0 -> p = (0, 0, 0).
Proof.
  destruct p as [[x y] z]. unfold dot. intros H.
  assert (x = 0 /\ y = 0 /\ z = 0) as (-> & -> & ->) by (repeat split; nra). reflexivity.
Qed.

Lemma gram_pos V f : proper V f -> 0 < gram (side1 V f) (side2 V f).
Proof.
  intros [_ H]. rewrite <- dot_cross. destruct (Rle_lt_or_eq_dec 0 (dot (cross (side1 V f) (side2 V f)) (cross (side1 V f) (side2 V f)))) as [L|E].
  - apply dot_self_nonneg.
  - exact L.
  - exfalso. apply H, dot_self_zero. symmetry. exact E.
Qed.

Section Face.
  Variable V : list point.
  Variables a b c : nat.
  Let l0 := sqdist (corner V b) (corner V c).
  Let l1 := sqdist (corner V c) (corner V a).
  Let l2 := sqdist (corner V a) (corner V b).
  Let e1 := side1 V (a, b, c).
  Let e2 := side2 V (a, b, c).

  Lemma len0 : l0 = dot e1 e1 + dot e2 e2 - 2 * dot e1 e2.
  Proof.
    unfold l0, e1, e2, side1, side2, sqdist, dot, vminus.
    destruct (corner V a) as [[? ?] ?], (corner V b) as [[? ?] ?], (corner V c) as [[? ?] ?]. ring.
  Qed.
  Lemma len1 : l1 = dot e2 e2.
  Proof.
    unfold l1, e2, side2, sqdist, dot, vminus.
    destruct (corner V a) as [[? ?] ?], (corner V c) as [[? ?] ?]. ring.
  Qed.
  Lemma len2 : l2 = dot e1 e1.
  Proof.
    unfold l2, e1, side1, sqdist, dot, vminus.
    destruct (corner V a) as [[? ?] ?], (corner V b) as [[? ?] ?]. ring.
  Qed.

  Lemma doublearea_gram : doublearea l0 l1 l2 = sqrt (gram e1 e2).
  Proof.
    unfold doublearea. rewrite len0, len1, len2.
    replace (_ - _) with (2 * 2 * gram e1 e2) by (unfold gram; ring).
    rewrite sqrt_mult_alt by lra. rewrite sqrt_square by lra. field.
  Qed.

  Lemma entries : let D := 2 * sqrt (gram e1 e2) in
    cotmatrix_entries V (a, b, c)
    = (dot e1 e2 / D, (dot e1 e1 - dot e1 e2) / D, (dot e2 e2 - dot e1 e2) / D).
  Proof.
    unfold cotmatrix_entries. fold l0 l1 l2. rewrite doublearea_gram, len0, len1, len2.
    destruct (Req_EM_T (sqrt (gram e1 e2)) 0) as [->|N].
    - unfold Rdiv. rewrite Rmult_0_r. rewrite RIneq.Rinv_0. f_equal; [f_equal|]; ring.
    - f_equal; [f_equal|]; field; exact N.
  Qed.

  Lemma area_gram : area V (a, b, c) = sqrt (gram e1 e2) / 2.
  Proof. unfold area, norm. fold e1 e2. rewrite dot_cross. reflexivity. Qed.
End Face.

(** The form of one triangle. *)
Definition form (V : list point) (f : face) (x y : nat -> R) : R :=
  let '(a, b, c) := f in
  let '(c0, c1, c2) := cotmatrix_entries V f in
  c0 * ((x b - x c) * (y b - y c)) + c1 * ((x c - x a) * (y c - y a)) + c2 * ((x a - x b) * (y a - y b)).

Lemma form_gradient V f x g : proper V f -> gradient V f x g -> form V f x x = area V f * dot g g.
Proof.
  intros P G. pose proof (gram_pos V f P) as Hg. destruct f as [[a b] c].
  destruct G as ((s & t & ->) & H1 & H2). unfold form. rewrite entries, area_gram.
  set (e1 := side1 V (a, b, c)) in *. set (e2 := side2 V (a, b, c)) in *.
  assert (C1 : dot (combination s e1 t e2) e1 = s * dot e1 e1 + t * dot e1 e2).
  { destruct e1 as [[? ?] ?], e2 as [[? ?] ?]. unfold dot, combination. ring. }
  assert (C2 : dot (combination s e1 t e2) e2 = s * dot e1 e2 + t * dot e2 e2).
  { destruct e1 as [[? ?] ?], e2 as [[? ?] ?]. unfold dot, combination. ring. }
  assert (C3 : dot (combination s e1 t e2) (combination s e1 t e2)
               = s * s * dot e1 e1 + 2 * s * t * dot e1 e2 + t * t * dot e2 e2).
  { destruct e1 as [[? ?] ?], e2 as [[? ?] ?]. unfold dot, combination. ring. }
  rewrite C1 in H1. rewrite C2 in H2. rewrite C3. clear C1 C2 C3.
  assert (S : sqrt (gram e1 e2) * sqrt (gram e1 e2) = gram e1 e2) by (apply sqrt_sqrt; lra).
  pose proof (sqrt_lt_R0 _ Hg) as Q. set (D := sqrt (gram e1 e2)) in *. unfold gram in S, Hg.
  set (A := dot e1 e1) in *. set (B := dot e1 e2) in *. set (C := dot e2 e2) in *. clearbody A B C D e1 e2.
  apply (Rmult_eq_reg_r (2 * D)); [|lra].
  replace ((B / (2 * D) * ((x b - x c) * (x b - x c)) + (A - B) / (2 * D) * ((x c - x a) * (x c - x a)) +
            (C - B) / (2 * D) * ((x a - x b) * (x a - x b))) * (2 * D))
    with (C * (x b - x a) ^ 2 - 2 * B * (x b - x a) * (x c - x a) + A * (x c - x a) ^ 2) by (field; lra).
  rewrite <- H1, <- H2.
  replace (D / 2 * (s * s * A + 2 * s * t * B + t * t * C) * (2 * D))
    with (D * D * (s * s * A + 2 * s * t * B + t * t * C)) by field.
  rewrite S. ring.
Qed.

Lemma gradient_exists V f x : proper V f -> exists g, gradient V f x g.
Proof.
  intros P. pose proof (gram_pos V f P) as Hg. destruct f as [[a b] c]. unfold gradient.
  set (e1 := side1 V (a, b, c)) in *. set (e2 := side2 V (a, b, c)) in *.
  set (u := x b - x a). set (v := x c - x a). unfold gram in Hg.
  set (s := (u * dot e2 e2 - v * dot e1 e2) / gram e1 e2). set (t := (v * dot e1 e1 - u * dot e1 e2) / gram e1 e2).
  exists (combination s e1 t e2).
  assert (C1 : dot (combination s e1 t e2) e1 = s * dot e1 e1 + t * dot e1 e2).
  { destruct e1 as [[? ?] ?], e2 as [[? ?] ?]. unfold dot, combination. ring. }
  assert (C2 : dot (combination s e1 t e2) e2 = s * dot e1 e2 + t * dot e2 e2).
  { destruct e1 as [[? ?] ?], e2 as [[? ?] ?]. unfold dot, combination. ring. }
  split; [exists s, t; reflexivity|]. rewrite C1, C2. unfold s, t, gram. split; field; lra.
Qed.

Lemma form_nonneg V f x : proper V f -> 0 <= form V f x x.
Proof.
  intros P. destruct (gradient_exists V f x P) as (g & G). rewrite (form_gradient V f x g P G).
  apply Rmult_le_pos; [|apply dot_self_nonneg]. unfold area, norm.
  apply Rmult_le_pos; [apply sqrt_pos|lra].
Qed.

Lemma form_zero V f x : proper V f -> form V f x x = 0 -> forall u v, In u (corners f) -> In v (corners f) -> x u = x v.
Proof.
  intros P Z. destruct (gradient_exists V f x P) as (g & G). rewrite (form_gradient V f x g P G) in Z.
  pose proof (gram_pos V f P) as Hg. destruct f as [[a b] c]. rewrite area_gram in Z.
  apply Rmult_integral in Z. destruct Z as [Z|Z]; [pose proof (sqrt_lt_R0 _ Hg); lra|].
  apply dot_self_zero in Z. destruct G as (_ & H1 & H2). rewrite Z in H1, H2.
  assert (N : forall q : point, dot (0, 0, 0) q = 0) by (intros [[? ?] ?]; unfold dot; ring).
  rewrite N in H1, H2. intros u v Hu Hv. cbn in Hu, Hv.
  destruct Hu as [<-|[<-|[<-|[]]]], Hv as [<-|[<-|[<-|[]]]]; lra.
Qed.

(** ** The matrix *)

Definition all_in (n : nat) (l : list (nat * nat * R)) : Prop :=
  forall i j c, In (i, j, c) l -> (i < n)%nat /\ (j < n)%nat.

Lemma rsum_delta n k f : (k < n)%nat -> rsum n (fun i => if Nat.eqb i k then f i else 0) = f k.
Proof.
  intros H. rewrite (rsum_single n k).
  - rewrite Nat.eqb_refl. reflexivity.
  - exact H.
  - intros i _ N. apply Nat.eqb_neq in N. rewrite N. reflexivity.
Qed.

Lemma triplets_form n l x y : all_in n l ->
  rsum n (fun i => y i * times n (of_triplets l) x i) = rlsum (map (fun t : nat * nat * R => let '(i, j, c) := t in c * (y i * x j)) l).
Proof.
  induction l as [|[[i j] c] l IH]; intros H.
  - cbn. apply rsum_zero. intros i _. unfold times. rewrite rsum_zero; [ring|]. intros. unfold of_triplets. cbn. ring.
  - assert (H' : all_in n l) by (intros i' j' c' Hin; apply (H i' j' c'); right; exact Hin).
    destruct (H i j c (or_introl eq_refl)) as [Hi Hj].
    cbn [map]. change (rlsum (?h :: ?t)) with (h + rlsum t). rewrite <- (IH H').
    rewrite <- (rsum_delta n i (fun i => c * (y i * x j))) by exact Hi. rewrite <- rsum_plus. apply rsum_ext. intros r Hr.
    unfold times at 1.
    rewrite (rsum_ext n _ (fun s => (if Nat.eqb s j then (if Nat.eqb r i then c else 0) * x s else 0) + of_triplets l r s * x s)).
    + rewrite rsum_plus, (rsum_delta n j (fun s => (if Nat.eqb r i then c else 0) * x s)) by exact Hj.
      unfold times. destruct (Nat.eqb_spec r i) as [->|]; ring.
    + intros s Hs. unfold of_triplets. cbn [map]. change (rlsum (?h :: ?t)) with (h + rlsum t).
      destruct (Nat.eqb r i), (Nat.eqb s j); cbn [andb]; ring.
Qed.

Lemma rlsum_flat_map {A B} (g : B -> R) (f : A -> list B) l :
  rlsum (map g (flat_map f l)) = rlsum (map (fun a => rlsum (map g (f a))) l).
Proof.
  induction l as [|a l IH]; [reflexivity|]. cbn [flat_map map]. rewrite map_app, rlsum_app, IH. reflexivity.
Qed.

Lemma triplets_in V F : (forall f, In f F -> forall v, In v (corners f) -> (v < length V)%nat) ->
  all_in (length V) (flat_map (cot_triplets V) F).
Proof.
  intros H i j c Hin. apply in_flat_map in Hin. destruct Hin as (f & Hf & Hin). specialize (H f Hf).
  destruct f as [[p q] r]. unfold cot_triplets in Hin. destruct (cotmatrix_entries V (p, q, r)) as [[c0 c1] c2].
  assert (Hp : (p < length V)%nat) by (apply H; cbn; tauto). assert (Hq : (q < length V)%nat) by (apply H; cbn; tauto).
  assert (Hr : (r < length V)%nat) by (apply H; cbn; tauto).
  cbn in Hin. repeat (destruct Hin as [Hin|Hin]; [injection Hin as <- <- _; split; assumption|]). destruct Hin.
Qed.

Lemma laplacian_form V F x y : (forall f, In f F -> forall v, In v (corners f) -> (v < length V)%nat) ->
  rip (length V) y (times (length V) (mesh_laplacian V F) x) = rlsum (map (fun f => form V f y x) F).
Proof.
  intros H. unfold rip.
  rewrite (rsum_ext _ _ (fun i => - (y i * times (length V) (cotmatrix V F) x i))).
  2:{ intros i _. unfold times, mesh_laplacian. rewrite (rsum_ext _ _ (fun j => - (cotmatrix V F i j * x j))) by (intros; ring).
      rewrite rsum_opp. ring. }
  rewrite rsum_opp. unfold cotmatrix. rewrite triplets_form by (apply triplets_in, H).
  rewrite rlsum_flat_map. clear H. induction F as [|f F IH]; [cbn; ring|]. cbn [map].
  change (rlsum (?h :: ?t)) with (h + rlsum t). rewrite <- IH, Ropp_plus_distr. f_equal.
  destruct f as [[a b] c]. unfold form, cot_triplets. destruct (cotmatrix_entries V (a, b, c)) as [[c0 c1] c2].
  cbn [flat_map List.app map]. unfold rlsum. cbn [fold_right]. ring.
Qed.

(** ** Edges *)

Lemma same_edge_spec e e' : same_edge e e' = true <-> e = e' \/ e = (snd e', fst e').
Proof.
  destruct e as [u v], e' as [u' v']. unfold same_edge. cbn [fst snd].
  rewrite orb_true_iff, !andb_true_iff, !Nat.eqb_eq. split.
  - intros [[-> ->]|[-> ->]]; [left|right]; reflexivity.
  - intros [E|E]; injection E as -> ->; [left|right]; split; reflexivity.
Qed.

Lemma same_edge_refl e : same_edge e e = true.
Proof. apply same_edge_spec. left. reflexivity. Qed.

Lemma same_edge_sym e e' : same_edge e e' = true -> same_edge e' e = true.
Proof. rewrite !same_edge_spec. intros [->| ->]; [left; reflexivity|right; destruct e'; reflexivity]. Qed.

Lemma same_edge_trans e e' e'' : same_edge e e' = true -> same_edge e' e'' = true -> same_edge e e'' = true.
Proof.
  rewrite !same_edge_spec. intros [->| ->] [->| ->].
  - left. reflexivity.
  - right. reflexivity.
  - right. reflexivity.
  - left. destruct e''; reflexivity.
Qed.

Definition distinct (es : list (nat * nat)) : Prop :=
  forall i j e e', nth_error es i = Some e -> nth_error es j = Some e' -> same_edge e e' = true -> i = j.

Lemma numbering l : forall acc, distinct acc ->
  let es := fold_left (fun es e => if existsb (same_edge e) es then es else es ++ [e])%list l acc in
  distinct es /\ (forall e, In e es -> In e acc \/ In e l) /\ (exists t, es = (acc ++ t)%list) /\
  (forall e, In e l -> existsb (same_edge e) es = true).
Proof.
  induction l as [|e l IH]; intros acc D; cbn [fold_left].
  - split; [exact D|]. split; [tauto|]. split; [exists []; rewrite app_nil_r; reflexivity|]. intros e [].
  - destruct (existsb (same_edge e) acc) eqn:X.
    + destruct (IH acc D) as (H1 & H2 & (t & H3) & H4). split; [exact H1|]. split; [intros e' He; destruct (H2 e' He); cbn; tauto|].
      split; [exists t; exact H3|]. intros e' [<-|He]; [|apply H4, He].
      cbv zeta in H3. rewrite H3, existsb_app, X. reflexivity.
    + assert (D' : distinct (acc ++ [e])).
      { intros i j f f' Hi Hj S.
        assert (N : forall k g, nth_error acc k = Some g -> same_edge e g = true -> False).
        { intros k g Hk S'. rewrite <- not_true_iff_false in X. apply X, existsb_exists. exists g. split; [|exact S'].
          apply (nth_error_In _ _ Hk). }
        destruct (Nat.lt_ge_cases i (length acc)) as [Li|Li]; destruct (Nat.lt_ge_cases j (length acc)) as [Lj|Lj].
        - rewrite nth_error_app1 in Hi by exact Li. rewrite nth_error_app1 in Hj by exact Lj. exact (D i j f f' Hi Hj S).
        - exfalso. rewrite nth_error_app1 in Hi by exact Li. rewrite nth_error_app2 in Hj by exact Lj.
          destruct (j - length acc)%nat as [|[|k]]; cbn in Hj; [|discriminate|discriminate]. injection Hj as <-.
          exact (N i f Hi (same_edge_sym _ _ S)).
        - exfalso. rewrite nth_error_app2 in Hi by exact Li. rewrite nth_error_app1 in Hj by exact Lj.
          destruct (i - length acc)%nat as [|[|k]]; cbn in Hi; [|discriminate|discriminate]. injection Hi as <-.
          exact (N j f' Hj S).
        - pose proof (proj1 (nth_error_Some (acc ++ [e]) i) ltac:(congruence)) as Bi.
          pose proof (proj1 (nth_error_Some (acc ++ [e]) j) ltac:(congruence)) as Bj.
          rewrite app_length in Bi, Bj. cbn in Bi, Bj. lia. }
      destruct (IH (acc ++ [e])%list D') as (H1 & H2 & (t & H3) & H4). split; [exact H1|].
      split; [intros e' He; destruct (H2 e' He) as [Q|Q]; [apply in_app_or in Q; cbn in Q |- *; tauto|cbn; tauto]|].
      split; [exists (e :: t); cbv zeta in H3; rewrite H3, <- app_assoc; reflexivity|].
      intros e' [<-|He]; [|apply H4, He]. cbv zeta in H3. rewrite H3, !existsb_app. cbn [existsb].
      rewrite same_edge_refl, orb_true_l, orb_true_r. reflexivity.
Qed.

Lemma edge_number_at e es : existsb (same_edge e) es = true ->
  exists e', nth_error es (edge_number e es) = Some e' /\ same_edge e e' = true.
Proof.
  induction es as [|e' es IH]; [discriminate|]. cbn [existsb edge_number]. destruct (same_edge e e') eqn:S.
  - intros _. exists e'. split; [reflexivity|exact S].
  - cbn [orb]. exact IH.
Qed.

Section Subdivision.
  Variable V : list point.
  Variable F : list face.
  Hypothesis range : forall f, In f F -> forall v, In v (corners f) -> (v < length V)%nat.

  Let es := numbered_edges F.
  Let n := length V.
  Definition mid (u v : nat) : nat := (length V + edge_number (u, v) (numbered_edges F))%nat.
  Let V' := fst (subdivide (V, F)).

  Lemma es_facts : distinct es /\ (forall e, In e es -> exists f, In f F /\ In e (edges_of f)) /\
    (forall f e, In f F -> In e (edges_of f) -> existsb (same_edge e) es = true).
  Proof.
    destruct (numbering (flat_map edges_of F) []) as (H1 & H2 & _ & H4).
    { intros i j e e' Hi. destruct i; discriminate. }
    split; [exact H1|]. split.
    - intros e He. destruct (H2 e He) as [[]|Q]. apply in_flat_map in Q. exact Q.
    - intros f e Hf He. apply H4, in_flat_map. exists f. tauto.
  Qed.

  Lemma edge_covered u v : edge F u v -> existsb (same_edge (u, v)) es = true.
  Proof.
    intros (f & Hf & [He|He]); pose proof (proj2 (proj2 es_facts) f _ Hf He) as X; [exact X|].
    apply existsb_exists in X. destruct X as (e & Hin & S). apply existsb_exists. exists e. split; [exact Hin|].
    apply (same_edge_trans _ (v, u)); [|exact S]. apply same_edge_spec. right. reflexivity.
  Qed.

  Lemma edge_range u v : edge F u v -> (u < length V)%nat /\ (v < length V)%nat.
  Proof.
    intros (f & Hf & He). pose proof (range f Hf) as R. destruct f as [[a b] c].
    assert ((a < length V)%nat /\ (b < length V)%nat /\ (c < length V)%nat) as (Ra & Rb & Rc) by (repeat split; apply R; cbn; tauto).
    cbn in He. destruct He as [[E|[E|[E|[]]]]|[E|[E|[E|[]]]]]; injection E as <- <-; split; assumption.
  Qed.

  Lemma V'_eq : V' = (V ++ map (fun e => midpoint (corner V (fst e)) (corner V (snd e))) es)%list.
  Proof. reflexivity. Qed.

  Lemma old_corner i : (i < length V)%nat -> corner V' i = corner V i.
  Proof. intros H. unfold corner. rewrite V'_eq, app_nth1 by exact H. reflexivity. Qed.

  Lemma midpoint_comm p q : midpoint p q = midpoint q p.
  Proof. destruct p as [[? ?] ?], q as [[? ?] ?]. unfold midpoint. f_equal; [f_equal|]; apply Rplus_comm. Qed.

  Lemma mid_facts u v : edge F u v ->
    (length V <= mid u v < length V')%nat /\ corner V' (mid u v) = midpoint (corner V u) (corner V v).
  Proof.
    intros H. destruct (edge_number_at (u, v) es (edge_covered u v H)) as (e & He & S).
    pose proof (proj1 (nth_error_Some es (edge_number (u, v) es)) ltac:(congruence)) as B.
    unfold mid. fold es. split.
    - rewrite V'_eq, app_length, map_length. lia.
    - unfold corner at 1. rewrite V'_eq, app_nth2 by lia.
      replace (length V + edge_number (u, v) es - length V)%nat with (edge_number (u, v) es) by lia.
      apply nth_error_nth. rewrite nth_error_map, He. cbn [option_map]. f_equal.
      apply same_edge_spec in S. destruct S as [<-|S]; [reflexivity|]. destruct e as [p q]. injection S as -> ->.
      apply midpoint_comm.
  Qed.

  Lemma mid_same u v u' v' : edge F u v -> edge F u' v' ->
    (mid u v = mid u' v' <-> same_edge (u, v) (u', v') = true).
  Proof.
    intros H H'. destruct (edge_number_at _ _ (edge_covered u v H)) as (e & He & S).
    destruct (edge_number_at _ _ (edge_covered u' v' H')) as (e' & He' & S'). unfold mid. fold es. split.
    - intros E. assert (E2 : edge_number (u, v) es = edge_number (u', v') es) by lia. rewrite E2 in He.
      rewrite He in He'. injection He' as <-. exact (same_edge_trans _ _ _ S (same_edge_sym _ _ S')).
    - intros Q. f_equal. apply (proj1 es_facts _ _ e e' He He').
      exact (same_edge_trans _ _ _ (same_edge_sym _ _ S) (same_edge_trans _ _ _ Q S')).
  Qed.

  Lemma mid_sym u v : edge F u v -> mid u v = mid v u.
  Proof.
    intros H. apply mid_same; [exact H| |apply same_edge_spec; right; reflexivity].
    destruct H as (f & Hf & He). exists f. tauto.
  Qed.

  Lemma mid_onto k : (length V <= k < length V')%nat -> exists u v, edge F u v /\ k = mid u v.
  Proof.
    intros [L B]. rewrite V'_eq, app_length, map_length in B.
    destruct (nth_error es (k - length V)) as [[u v]|] eqn:E; [|apply nth_error_None in E; lia].
    exists u, v.
    assert (H : edge F u v).
    { destruct (proj1 (proj2 es_facts) (u, v) (nth_error_In _ _ E)) as (f & Hf & He). exists f. tauto. }
    split; [exact H|]. destruct (edge_number_at _ _ (edge_covered u v H)) as (e & He & S).
    pose proof (proj1 es_facts _ _ _ _ E He S) as Q. unfold mid. fold es. lia.
  Qed.

  Definition quarter (f : face) : list face :=
    let '(a, b, c) := f in
    [(a, mid a b, mid c a); (b, mid b c, mid a b); (mid a b, mid b c, mid c a); (mid b c, c, mid c a)].

  Lemma F'_eq : snd (subdivide (V, F)) = flat_map quarter F.
  Proof. unfold subdivide. cbn [snd]. apply flat_map_ext. intros [[a b] c]. reflexivity. Qed.

  Lemma face_edges a b c : In (a, b, c) F -> edge F a b /\ edge F b c /\ edge F c a.
  Proof. intros H. repeat split; exists (a, b, c); cbn; tauto. Qed.

  (** A function on the vertices and its linear continuation. *)
  Definition continues (x y : nat -> R) : Prop :=
    (forall i, (i < length V)%nat -> y i = x i) /\ (forall u v, edge F u v -> y (mid u v) = (x u + x v) / 2).

  Definition rise1 (x : nat -> R) (f : face) : R := let '(a, b, c) := f in x b - x a.
  Definition rise2 (x : nat -> R) (f : face) : R := let '(a, b, c) := f in x c - x a.

  (** The sides of the four triangles. *)
  Lemma quarter_sides' x y f f' : continues x y -> In f F -> In f' (quarter f) -> exists p q r s,
    side1 V' f' = combination p (side1 V f) q (side2 V f) /\ side2 V' f' = combination r (side1 V f) s (side2 V f) /\
    p * s - q * r = / 4 /\ rise1 y f' = p * rise1 x f + q * rise2 x f /\ rise2 y f' = r * rise1 x f + s * rise2 x f.
  Proof.
    intros [Ho Hm] Hf Hq. destruct f as [[a b] c]. destruct (face_edges a b c Hf) as (Hab & Hbc & Hca).
    destruct (edge_range _ _ Hab) as [Ra Rb]. destruct (edge_range _ _ Hbc) as [_ Rc].
    pose proof (proj2 (mid_facts _ _ Hab)) as Mab. pose proof (proj2 (mid_facts _ _ Hbc)) as Mbc.
    pose proof (proj2 (mid_facts _ _ Hca)) as Mca.
    pose proof (Hm _ _ Hab) as Yab. pose proof (Hm _ _ Hbc) as Ybc. pose proof (Hm _ _ Hca) as Yca.
    unfold quarter in Hq. cbn [In] in Hq.
    destruct Hq as [<-|[<-|[<-|[<-|[]]]]]; unfold side1, side2, rise1, rise2;
      rewrite ?Mab, ?Mbc, ?Mca, ?Yab, ?Ybc, ?Yca, ?(old_corner a), ?(old_corner b), ?(old_corner c), ?(Ho a), ?(Ho b), ?(Ho c) by assumption;
      destruct (corner V a) as [[xa ya] za], (corner V b) as [[xb yb] zb], (corner V c) as [[xc yc] zc];
      unfold vminus, combination, midpoint.
    - exists (/ 2), 0, 0, (/ 2). repeat split; try (f_equal; [f_equal|]); field.
    - exists (- / 2), (/ 2), (- / 2), 0. repeat split; try (f_equal; [f_equal|]); field.
    - exists 0, (/ 2), (- / 2), (/ 2). repeat split; try (f_equal; [f_equal|]); field.
    - exists (- / 2), (/ 2), (- / 2), 0. repeat split; try (f_equal; [f_equal|]); field.
  Qed.

  Lemma quarter_sides f f' : In f F -> In f' (quarter f) -> exists p q r s,
    side1 V' f' = combination p (side1 V f) q (side2 V f) /\ side2 V' f' = combination r (side1 V f) s (side2 V f) /\
    p * s - q * r = / 4.
  Proof.
    intros Hf Hq. destruct (quarter_sides' (fun _ => 0) (fun _ => 0) f f') as (p & q & r & s & H1 & H2 & H3 & _).
    - split; intros; field.
    - exact Hf.
    - exact Hq.
    - exists p, q, r, s. tauto.
  Qed.

  Lemma quarter_range f f' : In f F -> In f' (quarter f) -> forall v, In v (corners f') -> (v < length V')%nat.
  Proof.
    intros Hf Hq v Hv. destruct f as [[a b] c]. destruct (face_edges a b c Hf) as (Hab & Hbc & Hca).
    destruct (edge_range _ _ Hab) as [Ra Rb]. destruct (edge_range _ _ Hbc) as [_ Rc].
    pose proof (proj1 (mid_facts _ _ Hab)). pose proof (proj1 (mid_facts _ _ Hbc)). pose proof (proj1 (mid_facts _ _ Hca)).
    unfold quarter in Hq. cbn [In] in Hq.
    destruct Hq as [<-|[<-|[<-|[<-|[]]]]]; cbn in Hv; destruct Hv as [<-|[<-|[<-|[]]]]; lia.
  Qed.

  Lemma quarter_cross f f' : In f F -> In f' (quarter f) ->
    cross (side1 V' f') (side2 V' f') = combination (/ 4) (cross (side1 V f) (side2 V f)) 0 (0, 0, 0).
  Proof.
    intros Hf Hq. destruct (quarter_sides f f' Hf Hq) as (p & q & r & s & -> & -> & D). rewrite <- D.
    destruct (side1 V f) as [[? ?] ?], (side2 V f) as [[? ?] ?]. unfold cross, combination. f_equal; [f_equal|]; ring.
  Qed.

  Lemma quarter_proper f f' : In f F -> In f' (quarter f) -> proper V f -> proper V' f'.
  Proof.
    intros Hf Hq [_ N]. split; [exact (quarter_range f f' Hf Hq)|]. rewrite (quarter_cross f f' Hf Hq).
    destruct (cross (side1 V f) (side2 V f)) as [[x y] z]. unfold combination. intros E. apply N.
    injection E as E1 E2 E3. f_equal; [f_equal|]; lra.
  Qed.

  Lemma quarter_area f f' : In f F -> In f' (quarter f) -> area V' f' = area V f / 4.
  Proof.
    intros Hf Hq. unfold area, norm. rewrite (quarter_cross f f' Hf Hq).
    replace (dot _ _) with (/ 4 * / 4 * dot (cross (side1 V f) (side2 V f)) (cross (side1 V f) (side2 V f))) at 1.
    - rewrite sqrt_mult_alt by lra. rewrite sqrt_square by lra. field.
    - destruct (cross (side1 V f) (side2 V f)) as [[x y] z]. unfold combination, dot. ring.
  Qed.

  Lemma quarter_gradient x y f f' g : continues x y -> In f F -> In f' (quarter f) ->
    gradient V f x g -> gradient V' f' y g.
  Proof.
    intros Hc Hf Hq G. destruct (quarter_sides' x y f f' Hc Hf Hq) as (p & q & r & s & E1 & E2 & D & Y1 & Y2).
    assert (L : (exists s t, g = combination s (side1 V f) t (side2 V f))) by (destruct f as [[a b] c]; exact (proj1 G)).
    assert (S : exists s t, g = combination s (side1 V' f') t (side2 V' f')).
    { destruct L as (al & be & ->). exists (4 * (al * s - be * r)), (4 * (be * p - al * q)). rewrite E1, E2.
      destruct (side1 V f) as [[? ?] ?], (side2 V f) as [[? ?] ?]. unfold combination.
      f_equal; [f_equal|];
      match goal with |- al * ?u + be * ?v = _ =>
        replace (al * u + be * v) with (4 * (p * s - q * r) * (al * u + be * v)) by (rewrite D; field) end; ring. }
    assert (G1 : dot g (side1 V f) = rise1 x f) by (destruct f as [[a b] c]; exact (proj1 (proj2 G))).
    assert (G2 : dot g (side2 V f) = rise2 x f) by (destruct f as [[a b] c]; exact (proj2 (proj2 G))).
    assert (C1 : dot g (side1 V' f') = rise1 y f').
    { rewrite Y1, E1, <- G1, <- G2.
      destruct g as [[? ?] ?], (side1 V f) as [[? ?] ?], (side2 V f) as [[? ?] ?]. unfold dot, combination. ring. }
    assert (C2 : dot g (side2 V' f') = rise2 y f').
    { rewrite Y2, E2, <- G1, <- G2.
      destruct g as [[? ?] ?], (side1 V f) as [[? ?] ?], (side2 V f) as [[? ?] ?]. unfold dot, combination. ring. }
    destruct f' as [[i j] k]. split; [exact S|]. split; [exact C1|exact C2].
  Qed.

  Lemma quarter_form x y f : continues x y -> In f F -> proper V f ->
    rlsum (map (fun f' => form V' f' y y) (quarter f)) = form V f x x.
  Proof.
    intros Hc Hf P. destruct (gradient_exists V f x P) as (g & G). rewrite (form_gradient V f x g P G).
    assert (E : forall f', In f' (quarter f) -> form V' f' y y = area V f / 4 * dot g g).
    { intros f' Hq. rewrite (form_gradient V' f' y g).
      - rewrite (quarter_area f f' Hf Hq). reflexivity.
      - exact (quarter_proper f f' Hf Hq P).
      - exact (quarter_gradient x y f f' g Hc Hf Hq G). }
    rewrite (rlsum_map_ext _ (fun _ => area V f / 4 * dot g g)) by exact E.
    destruct f as [[a b] c]. unfold rlsum. cbn [quarter map fold_right]. field.
  Qed.

  Lemma refined_form x y : continues x y -> (forall f, In f F -> proper V f) ->
    rlsum (map (fun f' => form V' f' y y) (flat_map quarter F)) = rlsum (map (fun f => form V f x x) F).
  Proof.
    intros Hc P. rewrite rlsum_flat_map. apply rlsum_map_ext. intros f Hf. apply quarter_form; [exact Hc|exact Hf|apply P, Hf].
  Qed.

  Lemma refined_area : total_area V' (flat_map quarter F) = total_area V F.
  Proof.
    unfold total_area. rewrite rlsum_flat_map. apply rlsum_map_ext. intros f Hf.
    rewrite (rlsum_map_ext _ (fun _ => area V f / 4)) by (intros f' Hq; exact (quarter_area f f' Hf Hq)).
    destruct f as [[a b] c]. unfold rlsum. cbn [quarter map fold_right]. field.
  Qed.

  (** ** Walking on the refined mesh *)

  Let F' := flat_map quarter F.

  Lemma joined_trans G u v w : joined G u v -> joined G v w -> joined G u w.
  Proof. intros H J. induction J as [|w z J IH N]; [exact H|]. exact (joined_step _ _ _ _ IH N). Qed.

  Lemma joined_sym G u v : joined G u v -> joined G v u.
  Proof.
    intros J. induction J as [|v w J IH (f & Hf & Hv & Hw)]; [constructor|].
    apply (joined_trans _ _ v); [|exact IH]. apply (joined_step _ _ w); [constructor|]. exists f. tauto.
  Qed.

  Lemma joined_one G u v f : In f G -> In u (corners f) -> In v (corners f) -> joined G u v.
  Proof. intros. apply (joined_step _ _ u); [constructor|]. exists f. tauto. Qed.

  Lemma in_F' f f' : In f F -> In f' (quarter f) -> In f' F'.
  Proof. intros Hf Hq. apply in_flat_map. exists f. tauto. Qed.

  Lemma walk_edge u v : edge F u v -> joined F' u (mid u v) /\ joined F' u v.
  Proof.
    assert (H : forall u v f, In f F -> In (u, v) (edges_of f) -> joined F' u (mid u v) /\ joined F' (mid u v) v).
    { clear u v. intros u v f Hf He. destruct f as [[a b] c].
      cbn in He. destruct He as [E|[E|[E|[]]]]; injection E as <- <-.
      - split; [apply (joined_one _ _ _ (a, mid a b, mid c a))|apply (joined_one _ _ _ (b, mid b c, mid a b))];
          try (apply (in_F' (a, b, c)); [exact Hf|]); cbn; tauto.
      - split; [apply (joined_one _ _ _ (b, mid b c, mid a b))|apply (joined_one _ _ _ (mid b c, c, mid c a))];
          try (apply (in_F' (a, b, c)); [exact Hf|]); cbn; tauto.
      - split; [apply (joined_one _ _ _ (mid b c, c, mid c a))|apply (joined_one _ _ _ (a, mid a b, mid c a))];
          try (apply (in_F' (a, b, c)); [exact Hf|]); cbn; tauto. }
    intros E. pose proof (mid_sym u v E) as S. destruct E as (f & Hf & [He|He]).
    - destruct (H u v f Hf He) as [H1 H2]. split; [exact H1|]. exact (joined_trans _ _ _ _ H1 H2).
    - destruct (H v u f Hf He) as [H1 H2]. rewrite S. split; [apply joined_sym, H2|].
      apply joined_sym, (joined_trans _ _ _ _ H1 H2).
  Qed.

  Lemma walk_old u v : joined F u v -> joined F' u v.
  Proof.
    intros J. induction J as [|v w J IH (f & Hf & Hv & Hw)]; [constructor|]. apply (joined_trans _ _ v); [exact IH|].
    destruct f as [[a b] c]. destruct (face_edges a b c Hf) as (Hab & Hbc & Hca).
    pose proof (proj2 (walk_edge _ _ Hab)) as Jab. pose proof (proj2 (walk_edge _ _ Hbc)) as Jbc.
    pose proof (proj2 (walk_edge _ _ Hca)) as Jca.
    cbn in Hv, Hw. destruct Hv as [<-|[<-|[<-|[]]]], Hw as [<-|[<-|[<-|[]]]];
      first [constructor | assumption | apply joined_sym; assumption].
  Qed.

  Lemma refined_connected : connected (length V) F -> connected (length V') F'.
  Proof.
    intros C.
    assert (H : forall u, (u < length V')%nat -> exists w, (w < length V)%nat /\ joined F' u w).
    { intros u Hu. destruct (Nat.lt_ge_cases u (length V)) as [L|L]; [exists u; split; [exact L|constructor]|].
      destruct (mid_onto u (conj L Hu)) as (p & q & E & ->). exists p. split; [apply (edge_range p q E)|].
      apply joined_sym, (walk_edge p q E). }
    intros u v Hu Hv. destruct (H u Hu) as (w & Hw & J). destruct (H v Hv) as (w' & Hw' & J').
    apply (joined_trans _ _ w); [exact J|]. apply (joined_trans _ _ w'); [apply walk_old, C; assumption|apply joined_sym, J'].
  Qed.
End Subdivision.

Lemma subdivide_good V F : good V F -> good (fst (subdivide (V, F))) (snd (subdivide (V, F))).
Proof.
  intros [P C]. assert (R : forall f, In f F -> forall v, In v (corners f) -> (v < length V)%nat) by (intros f Hf; apply (P f Hf)).
  rewrite F'_eq. split; [|apply refined_connected; assumption].
  intros f' H. apply in_flat_map in H. destruct H as (f & Hf & Hq). exact (quarter_proper V F R f f' Hf Hq (P f Hf)).
Qed.

Lemma upsample_S V F k : upsample V F (S k) = subdivide (upsample V F k).
Proof. reflexivity. Qed.

Lemma upsample_good V F k : good V F -> good (fst (upsample V F k)) (snd (upsample V F k)).
Proof.
  intros G. induction k as [|k IH]; [exact G|]. rewrite upsample_S.
  destruct (upsample V F k) as [V1 F1]. apply subdivide_good, IH.
Qed.
