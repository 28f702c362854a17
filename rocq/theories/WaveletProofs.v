(** * Lemmas about the wavelet transforms. *)
From Coq Require Import List ZArith Arith Bool Reals Lra Lia.
From Coquelicot Require Import Complex.
From Verif Require Import Base ListLemmas RSum CSum PyNum Index IndexProofs Numpy NoiseProofs Eigen SpecField
  Convolution ConvolutionProofs Transform SpecTransform TransformProofs Functions FunctionsProofs Wavelet.
Import ListNotations.
Local Open Scope nat_scope.

(** ** Slepian wavelets *)

Lemma transpose_prefix N cols rows : N <= cols ->
  firstn N (transpose cols rows) = transpose N (map (firstn N) rows).
Proof.
  intros H. rewrite transpose_firstn. replace (Nat.min N cols) with N by lia.
  unfold transpose. apply map_ext_in. intros j Hj. apply in_seq in Hj. rewrite map_map.
  apply map_ext. intros row. symmetry. apply nth_firstn_lt. lia.
Qed.

Lemma arr_prefix_T N cols rows : N <= cols ->
  arr_prefix (Some (Z.of_nat N)) (arr_T (A2 cols rows)) = arr_T (A2 N (map (firstn N) rows)).
Proof.
  intros H. cbn [arr_T arr_prefix py_prefix_opt]. unfold py_prefix.
  destruct (Z.leb_spec 0 (Z.of_nat N)); [|lia]. rewrite Nat2Z.id, map_length, transpose_prefix by exact H. reflexivity.
Qed.

Definition cmul (f g : list C) : list C := zip (fun x y => Cmult x (Cconj y)) f g.

Lemma sifting_row N cols rows g : regular cols rows -> N <= cols -> N <= length g ->
  sifting_convolution (A2 cols rows) (A1 g) (Some (Z.of_nat N))
  = Ok (A2 N (map (fun row => cmul (firstn N row) (firstn N g)) rows)).
Proof.
  intros Hr Hc Hg.
  transitivity (sifting_convolution (A2 N (map (firstn N) rows)) (A1 (firstn N g)) None).
  - unfold sifting_convolution. cbn [ndim Nat.ltb Nat.leb arr_newaxis arr_conj map].
    rewrite !arr_prefix_T by assumption. cbn [map]. rewrite firstn_map, firstn_length, Nat.min_l by exact Hg. reflexivity.
  - rewrite sifting_2d_1d.
    + cbn [kept]. do 2 f_equal. rewrite map_map. apply map_ext_in. intros row Hin. unfold cmul.
      apply firstn_all2. rewrite zip_length, !firstn_length. lia.
    + intros r Hin. apply in_map_iff in Hin. destruct Hin as (row & <- & Hin). rewrite firstn_length, (Hr row Hin). lia.
    + rewrite firstn_length. lia.
Qed.

Lemma sifting_rows N cols cols' rows rows' : regular cols rows -> regular cols' rows' ->
  N <= cols -> N <= cols' -> length rows = length rows' ->
  sifting_convolution (A2 cols rows) (A2 cols' rows') (Some (Z.of_nat N))
  = Ok (A2 N (map (fun p => cmul (firstn N (fst p)) (firstn N (snd p))) (combine rows rows'))).
Proof.
  intros Hr Hr' Hc Hc' Hl.
  transitivity (sifting_convolution (A2 N (map (firstn N) rows)) (A2 N (map (firstn N) rows')) None).
  - unfold sifting_convolution. cbn [ndim Nat.ltb Nat.leb arr_conj].
    rewrite !arr_prefix_T by assumption. rewrite !map_map.
    rewrite (map_ext (fun x => firstn N (map Cconj x)) (fun x => map Cconj (firstn N x))) by (intros x; apply firstn_map).
    reflexivity.
  - assert (P : forall c rs, regular c rs -> N <= c -> regular N (map (firstn N) rs)).
    { intros c rs H Hn r Hin. apply in_map_iff in Hin. destruct Hin as (row & <- & Hin). rewrite firstn_length, (H row Hin). lia. }
    rewrite sifting_2d_2d; [|apply (P cols); assumption|apply (P cols'); assumption|rewrite !map_length; exact Hl].
    cbn [kept]. do 2 f_equal. clear Hr Hr' P. revert rows' Hl.
    induction rows as [|a rows IH]; intros [|b rows'] Hl; try discriminate; [reflexivity|].
    cbn [map combine fst snd]. f_equal.
    + unfold cmul. apply firstn_all2. rewrite zip_length, !firstn_length. lia.
    + apply IH. injection Hl. auto.
Qed.

Lemma cmul_length f g : length (cmul f g) = Nat.min (length f) (length g).
Proof. apply zip_length. Qed.

Lemma nth_cmul N f g p : N <= length f -> N <= length g -> p < N ->
  nth p (cmul (firstn N f) (firstn N g)) (RtoC 0) = Cmult (nth p f (RtoC 0)) (Cconj (nth p g (RtoC 0))).
Proof.
  intros Hf Hg Hp. unfold cmul. rewrite nth_zip by (rewrite !firstn_length; lia).
  rewrite !nth_firstn_lt by exact Hp. reflexivity.
Qed.

Lemma Cnonzero_false z : Cnonzero z = false <-> z = RtoC 0.
Proof.
  unfold Cnonzero, Reqb. destruct z as [a b]. cbn [fst snd Re Im].
  destruct (Req_EM_T a 0) as [->|Ha], (Req_EM_T b 0) as [->|Hb]; cbn; split; try discriminate; try reflexivity;
    intros [= ]; subst; contradiction.
Qed.

Lemma dead_row r : existsb Cnonzero r = false <-> forall p, p < length r -> nth p r (RtoC 0) = RtoC 0.
Proof.
  induction r as [|x r IH]; cbn [existsb].
  - split; [intros _ p Hp; cbn in Hp; lia|reflexivity].
  - rewrite orb_false_iff, Cnonzero_false, IH. split.
    + intros [-> H] [|p] Hp; [reflexivity|]. apply H. cbn in Hp. lia.
    + intros H. split; [apply (H 0); cbn; lia|]. intros p Hp. apply (H (S p)). cbn. lia.
Qed.

(** When the zero rows are the last ones, dropping them is taking a prefix. *)
Lemma filter_prefix {A} (f : A -> bool) l k d : k <= length l ->
  (forall j, j < length l -> f (nth j l d) = (j <? k)) -> filter f l = firstn k l.
Proof.
  revert k. induction l as [|x l IH]; intros k Hk H; [rewrite firstn_nil; reflexivity|].
  pose proof (H 0 ltac:(cbn; lia)) as H0. cbn [nth] in H0. cbn [filter]. rewrite H0.
  destruct k as [|k]; cbn [Nat.ltb Nat.leb firstn].
  - rewrite (IH 0); [reflexivity|lia|]. intros j Hj. apply (H (S j)). cbn. lia.
  - cbn in Hk. f_equal. apply IH; [lia|]. intros j Hj. apply (H (S j)). cbn. lia.
Qed.

Lemma combine_map_map {A B D} (f : A -> B) (g : A -> D) l :
  combine (map f l) (map g l) = map (fun x => (f x, g x)) l.
Proof. induction l; cbn; congruence. Qed.

Lemma clsum_zero l : (forall x, In x l -> x = RtoC 0) -> clsum l = RtoC 0.
Proof.
  induction l as [|x l IH]; intros H; [reflexivity|]. cbn. rewrite (H x) by (left; reflexivity).
  rewrite IH by (intros; apply H; right; assumption). apply C_ext; cbn; ring.
Qed.

(** ** Columns of a matrix *)

Lemma np_col_ok w i n : (forall r, In r w -> length r = n) -> i < n ->
  np_col w i = Ok (map (fun r => nth i r (RtoC 0)) w).
Proof.
  unfold np_col. induction w as [|r w IH]; intros H Hi; [reflexivity|]. cbn [rmap map].
  unfold np_get at 1. rewrite (nth_error_nth' _ (RtoC 0)) by (rewrite (H r (or_introl eq_refl)); exact Hi).
  cbn [rbind]. rewrite IH by (try exact Hi; intros; apply H; right; assumption). reflexivity.
Qed.

Lemma rmap_rows {J : Type} (js : list J) (r r1 : J -> list C) (i : nat) (v : J -> C) :
  (forall j, In j js -> np_set i (v j) (r j) = Ok (r1 j)) ->
  np_set_col i (map v js) (map r js) = Ok (map r1 js).
Proof.
  intros H. unfold np_set_col. rewrite !map_length, Nat.eqb_refl, combine_map_map.
  induction js as [|j js IH]; [reflexivity|]. cbn [map rmap fst snd].
  rewrite (H j (or_introl eq_refl)). cbn [rbind]. rewrite IH by (intros; apply H; right; assumption). reflexivity.
Qed.

(** A loop of column assignments works row by row. *)
Lemma set_cols {J P : Type} (js : list J) (idx : P -> nat) (v : J -> P -> C) l (r r' : J -> list C) :
  (forall j, In j js -> rfold (fun a p => np_set (idx p) (v j p) a) l (r j) = Ok (r' j)) ->
  rfold (fun w p => np_set_col (idx p) (map (fun j => v j p) js) w) l (map r js) = Ok (map r' js).
Proof.
  revert r. induction l as [|p l IH]; intros r H.
  - cbn [rfold]. f_equal. apply map_ext_in. intros j Hj. specialize (H j Hj). cbn in H. congruence.
  - cbn [rfold].
    set (r1 := fun j => match np_set (idx p) (v j p) (r j) with Ok x => x | Err _ => [] end).
    rewrite (rmap_rows js r r1).
    + cbn [rbind]. apply IH. intros j Hj. specialize (H j Hj). cbn [rfold] in H. unfold r1.
      destruct (np_set (idx p) (v j p) (r j)); [exact H|discriminate].
    + intros j Hj. specialize (H j Hj). cbn [rfold] in H. unfold r1.
      destruct (np_set (idx p) (v j p) (r j)); [reflexivity|discriminate].
Qed.

(** The array of [L^2] coefficients with the values [v]. *)
Definition table (L : nat) (v : nat -> Z -> C) : list C :=
  map (fun i => v (fst (ind2elm i)) (snd (ind2elm i))) (seq 0 (L * L)).
Lemma table_length L v : length (table L v) = L * L.
Proof. unfold table. rewrite map_length, seq_length. reflexivity. Qed.
Lemma coeff_table L v el m : valid L el m -> coeff (table L v) el m = v el m.
Proof.
  intros [H1 H2]. unfold coeff. fold (elm2ind el m). unfold table.
  rewrite nth_map_seq by (apply elm2ind_lt; assumption). rewrite ind2elm_elm2ind by exact H2. reflexivity.
Qed.

Lemma fill_lm_table L v :
  rfold (fun flm ell => rfold (fun flm m => np_set (elm2ind ell m) (v ell m) flm)
           (zrange (- Z.of_nat ell) (Z.of_nat ell + 1)) flm) (seq 0 L) (zeros (L * L)) = Ok (table L v).
Proof.
  destruct (fill_lm L v) as (flm & E & Hl & H). rewrite E. f_equal. apply (coeff_ext L).
  - exact Hl.
  - apply table_length.
  - intros el m V. rewrite H, coeff_table by exact V. reflexivity.
Qed.

Lemma fill_m0_table L (v : nat -> C) :
  rfold (fun flm ell => np_set (elm2ind ell 0) (v ell) flm) (seq 0 L) (zeros (L * L))
  = Ok (table L (fun el m => if (m =? 0)%Z then v el else RtoC 0)).
Proof.
  destruct (fill_m0 L 0 L v) as (flm & E & Hl & H); [lia|]. rewrite E. f_equal. apply (coeff_ext L).
  - exact Hl.
  - apply table_length.
  - intros el m V. rewrite H, coeff_table by exact V. destruct (m =? 0)%Z; cbn [andb]; [|reflexivity].
    destruct V as [V _]. destruct (Nat.leb_spec 0 el); [|lia]. destruct (Nat.ltb_spec el (0 + L)); [reflexivity|lia].
Qed.

Lemma axisymmetric_forward_ok L flm wavelets : length flm = L * L ->
  (forall r, In r wavelets -> length r = L * L) ->
  axisymmetric_wavelet_forward L flm wavelets
  = Ok (map (fun psi => table L (fun el m =>
          Cmult (Cmult (RtoC (sqrt (4 * PI / (2 * INR el + 1)))) (Cconj (coeff psi el 0))) (coeff flm el m))) wavelets).
Proof.
  intros Hf Hw. unfold axisymmetric_wavelet_forward.
  set (v := fun psi el m => Cmult (Cmult (RtoC (sqrt (4 * PI / (2 * INR el + 1)))) (Cconj (coeff psi el 0))) (coeff flm el m)).
  assert (E : map (fun row => zeros (length row)) wavelets = map (fun _ => zeros (L * L)) wavelets).
  { apply map_ext_in. intros r Hr. rewrite (Hw r Hr). reflexivity. }
  rewrite E.
  rewrite (rfold_ext _ (fun w el => rfold (fun w m => np_set_col (elm2ind el m) (map (fun psi => v psi el m) wavelets) w)
             (zrange (- Z.of_nat el) (Z.of_nat el + 1)) w)).
  - rewrite (rfold_nested (fun w el m => np_set_col (elm2ind el m) (map (fun psi => v psi el m) wavelets) w)).
    fold (lm_pairs L).
    apply (set_cols wavelets (fun p => elm2ind (fst p) (snd p)) (fun psi p => v psi (fst p) (snd p)) (lm_pairs L)
             (fun _ => zeros (L * L)) (fun psi => table L (v psi))).
    intros psi _. rewrite <- (fill_lm_table L (v psi)). unfold lm_pairs.
    rewrite (rfold_nested (fun flm ell m => np_set (elm2ind ell m) (v psi ell m) flm)). reflexivity.
  - intros w el Hel. apply in_seq in Hel.
    rewrite (np_col_ok wavelets (elm2ind el 0) (L * L)); [|exact Hw|apply elm2ind_lt; lia].
    cbn [rbind]. apply rfold_ext. intros w' m Hm. apply in_zrange in Hm.
    assert (Hi : elm2ind el m < length flm) by (rewrite Hf; apply elm2ind_lt; lia).
    unfold np_get. rewrite (nth_error_nth' _ (RtoC 0)) by exact Hi. cbn [rbind].
    f_equal. rewrite !map_map. reflexivity.
Qed.

Lemma axisymmetric_inverse_ok L W wavelets : length W = length wavelets ->
  (forall r, In r W -> length r = L * L) -> (forall r, In r wavelets -> length r = L * L) ->
  axisymmetric_wavelet_inverse L W wavelets
  = Ok (table L (fun el m => csum (length W) (fun j =>
          Cmult (coeff (nth j W []) el m)
                (Cmult (RtoC (sqrt (4 * PI / (2 * INR el + 1)))) (coeff (nth j wavelets []) el 0))))).
Proof.
  intros Hl HW Hw. unfold axisymmetric_wavelet_inverse.
  rewrite <- (fill_lm_table L). apply rfold_ext. intros flm el Hel. apply in_seq in Hel.
  rewrite (np_col_ok wavelets (elm2ind el 0) (L * L)); [|exact Hw|apply elm2ind_lt; lia]. cbn [rbind].
  apply rfold_ext. intros flm' m Hm. apply in_zrange in Hm.
  rewrite (np_col_ok W (elm2ind el m) (L * L)); [|exact HW|apply elm2ind_lt; lia]. cbn [rbind].
  unfold broadcast. rewrite !map_length, Hl, Nat.eqb_refl. cbn [rbind]. f_equal.
  rewrite clsum_nth. rewrite map_length, combine_length, !map_length, Hl, Nat.min_id.
  apply csum_ext. intros j Hj. rewrite map_map.
  assert (Hj' : j < length W) by lia.
  rewrite (nth_error_nth _ j _ (x := Cmult (coeff (nth j W []) el m)
    (Cmult (RtoC (sqrt (4 * PI / (2 * INR el + 1)))) (coeff (nth j wavelets []) el 0)))); [reflexivity|].
  rewrite nth_error_map.
  rewrite (nth_error_nth' _ (RtoC 0, RtoC 0)) by (rewrite combine_length, !map_length; lia).
  rewrite combine_nth by (rewrite !map_length; exact Hl). cbn [option_map fst snd]. do 2 f_equal.
  - rewrite (nth_indep _ (RtoC 0) (nth (elm2ind el m) [] (RtoC 0))) by (rewrite map_length; exact Hj').
    rewrite (map_nth (fun r => nth (elm2ind el m) r (RtoC 0))). reflexivity.
  - rewrite (nth_indep _ (RtoC 0) (Cmult (RtoC (sqrt (4 * PI / (2 * INR el + 1)))) (nth (elm2ind el 0) [] (RtoC 0))))
      by (rewrite map_length; exact Hj).
    rewrite (map_nth (fun r => Cmult (RtoC (sqrt (4 * PI / (2 * INR el + 1)))) (nth (elm2ind el 0) r (RtoC 0)))). reflexivity.
Qed.

Lemma rmap_np_get {A} (ks : list (list A)) ell d : (forall k, In k ks -> ell < length k) ->
  rmap (fun row => np_get row ell) ks = Ok (map (fun row => nth ell row d) ks).
Proof.
  induction ks as [|k ks IH]; intros H; [reflexivity|]. cbn [rmap map]. unfold np_get at 1.
  rewrite (nth_error_nth' _ d) by (apply H; left; reflexivity). cbn [rbind].
  rewrite IH by (intros; apply H; right; assumption). reflexivity.
Qed.

Lemma create_axisymmetric_ok awl L B jm :
  (forall k, In k (create_kappas awl L B jm) -> length k = L) ->
  create_axisymmetric_wavelets awl L B jm
  = Ok (map (fun k => table L (fun el m => if (m =? 0)%Z then RtoC (sqrt ((2 * INR el + 1) / (4 * PI)) * nth el k 0%R) else RtoC 0))
            (create_kappas awl L B jm)).
Proof.
  intros H. unfold create_axisymmetric_wavelets. set (ks := create_kappas awl L B jm) in *.
  rewrite (rfold_ext _ (fun w el => np_set_col (elm2ind el 0) (map (fun k => RtoC (sqrt ((2 * INR el + 1) / (4 * PI)) * nth el k 0%R)) ks) w)).
  - apply (set_cols ks (fun el => elm2ind el 0) (fun k el => RtoC (sqrt ((2 * INR el + 1) / (4 * PI)) * nth el k 0%R)) (seq 0 L)
      (fun _ => zeros (L * L))). intros k _. apply (fill_m0_table L (fun el => RtoC (sqrt ((2 * INR el + 1) / (4 * PI)) * nth el k 0%R))).
  - intros w el Hel. apply in_seq in Hel. rewrite (rmap_np_get ks el 0%R).
    + cbn [rbind]. f_equal. rewrite map_map. reflexivity.
    + intros k Hk. rewrite (H k Hk). lia.
Qed.

Lemma create_ridgelets_ok awl gammaln L B jm spin ring :
  (forall k, In k (create_kappas awl L B jm) -> length k = L) ->
  compute_ring gammaln L spin = Ok ring -> length ring = L * L ->
  exists k0 ks, create_kappas awl L B jm = k0 :: ks /\
  create_ridgelets awl gammaln L B jm spin
  = Ok (table L (fun el m => if (m =? 0)%Z then Cmult (RtoC (nth el k0 0%R)) (coeff ring el 0) else RtoC 0)
        :: map (fun k => table L (fun el m =>
             if (m =? 0)%Z then Cdiv (Cmult (RtoC (nth el k 0%R)) (coeff ring el 0)) (RtoC (sqrt (2 * PI))) else RtoC 0)) ks).
Proof.
  intros H Er Hr. unfold create_ridgelets. rewrite Er. cbn [rbind].
  destruct (create_kappas awl L B jm) as [|k0 ks] eqn:Ek.
  { unfold create_kappas in Ek. destruct (awl B L jm) as [[? ?] ?]. discriminate. }
  exists k0, ks. split; [reflexivity|].
  set (v0 := fun el => Cmult (RtoC (nth el k0 0%R)) (coeff ring el 0)).
  set (v := fun k el => Cdiv (Cmult (RtoC (nth el k 0%R)) (coeff ring el 0)) (RtoC (sqrt (2 * PI)))).
  assert (G : forall l w0 ws w0' ws', (forall el, In el l -> el < L) ->
    rfold (fun a el => np_set (elm2ind el 0) (v0 el) a) l w0 = Ok w0' ->
    rfold (fun w el => np_set_col (elm2ind el 0) (map (fun k => v k el) ks) w) l ws = Ok ws' ->
    rfold (fun w ell =>
             let* x := np_get ring (elm2ind ell 0) in
             match w with
             | w0 :: ws =>
                 let* k := np_get k0 ell in
                 let* w0 := np_set (elm2ind ell 0) (Cmult (RtoC k) x) w0 in
                 let* col := rmap (fun row => np_get row ell) ks in
                 let* ws := np_set_col (elm2ind ell 0)
                              (map (fun k => Cdiv (Cmult (RtoC k) x) (RtoC (sqrt (2 * PI)))) col) ws in
                 Ok (w0 :: ws)
             | [] => Err IndexError
             end) l (w0 :: ws) = Ok (w0' :: ws')).
  { induction l as [|el l IH]; intros w0 ws w0' ws' Hin E0 E1.
    - cbn in *. congruence.
    - cbn [rfold] in *. assert (Hel : el < L) by (apply Hin; left; reflexivity).
      unfold np_get at 1. rewrite (nth_error_nth' ring (RtoC 0)) by (rewrite Hr; apply elm2ind_lt; lia). cbn [rbind].
      unfold np_get at 1. rewrite (nth_error_nth' k0 0%R) by (rewrite (H k0); [exact Hel|left; reflexivity]). cbn [rbind].
      change (Cmult (RtoC (nth el k0 0%R)) (nth (elm2ind el 0) ring (RtoC 0))) with (v0 el).
      destruct (np_set (elm2ind el 0) (v0 el) w0) as [w1|]; [|discriminate]. cbn [rbind] in *.
      rewrite (rmap_np_get ks el 0%R) by (intros k Hk; rewrite (H k); [exact Hel|right; exact Hk]). cbn [rbind].
      rewrite map_map.
      change (map (fun x => Cdiv (Cmult (RtoC (nth el x 0%R)) (nth (elm2ind el 0) ring (RtoC 0))) (RtoC (sqrt (2 * PI)))) ks)
        with (map (fun k => v k el) ks).
      destruct (np_set_col (elm2ind el 0) (map (fun k => v k el) ks) ws) as [ws1|]; [|discriminate]. cbn [rbind] in *.
      apply IH; [|assumption..]. intros x Hx. apply Hin. right. exact Hx. }
  cbn [map].
  apply G.
  - intros el Hel. apply in_seq in Hel. lia.
  - apply (fill_m0_table L v0).
  - apply (set_cols ks (fun el => elm2ind el 0) v (seq 0 L) (fun _ => zeros (L * L))).
    intros k _. apply (fill_m0_table L (v k)).
Qed.
