(** * C41: arguments of the coefficient classes. *)
From Coq Require Import List ZArith QArith Qpower Arith Bool String Lia.
From Coq Require Import Reals.
From Coquelicot Require Import Complex.
From Verif Require Import Base Numpy Index IndexProofs ListLemmas NoiseProofs PyNum Wavelet Names Mesh Args.
Import ListNotations.
Local Open Scope string_scope.
Local Open Scope list_scope.
Local Open Scope Z_scope.

(** The documented number of extra arguments. *)
Definition arity (c : cls) : nat :=
  match c with
  | Gaussian | NoiseEarth | Slepian | SlepianNoiseAfrica | SlepianNoiseSouthAmerica => 1
  | HarmonicGaussian | ElongatedGaussian | SquashedGaussian | SphericalHarmonic => 2
  | AxisymmetricWavelets | AxisymmetricWaveletCoefficientsAfrica | AxisymmetricWaveletCoefficientsEarth
  | AxisymmetricWaveletCoefficientsSouthAmerica | SlepianWavelets | SlepianWaveletCoefficientsAfrica
  | SlepianWaveletCoefficientsSouthAmerica => 3
  | Ridgelets => 4
  | Africa | DiracDelta | Earth | Identity | SouthAmerica | Wmap | SlepianAfrica | SlepianDiracDelta
  | SlepianIdentity | SlepianSouthAmerica => 0
  end%nat.

(** The ranges: [0 <= ell < L], [|m| <= ell]; a scale between 0 and
    [j_max - j_min]; a rank that is not negative. *)
Definition in_range (jmax : Z -> nat -> Z -> Z) (c : cls) (L : nat) (p : params) : Prop :=
  let limit := match c with
               | SlepianWavelets | SlepianWaveletCoefficientsAfrica | SlepianWaveletCoefficientsSouthAmerica => (L * L)%nat
               | _ => L
               end in
  match p with
  | Degree_order ell m => 0 <= ell < Z.of_nat L /\ - ell <= m <= ell
  | Scale B j_min (Some j) | Spin_scale B j_min _ (Some j) => 0 <= j <= jmax B limit j_min - j_min
  | Rank r => 0 <= r
  | _ => True
  end.

(** Keywords the class has. *)
Definition has_fields (c : cls) (p : params) : Prop := same_fields (default_params c) p = true.

Lemma check_ell_spec L v : 0 <= v < Z.of_nat L /\ check_ell L v = Ok v \/ ~ 0 <= v < Z.of_nat L /\ check_ell L v = Err ValueError.
Proof.
  unfold check_ell. destruct (Z.ltb_spec v 0); [right; split; [lia|reflexivity]|].
  destruct (Z.leb_spec (Z.of_nat L) v); [right|left]; (split; [lia|reflexivity]).
Qed.
Lemma check_m_spec ell v : - ell <= v <= ell /\ check_m (Some ell) v = Ok v \/ ~ - ell <= v <= ell /\ check_m (Some ell) v = Err ValueError.
Proof. unfold check_m. destruct (Z.ltb_spec ell (Z.abs v)); [right|left]; (split; [lia|reflexivity]). Qed.
Lemma check_j_spec jmax n B jm v : 0 <= v <= jmax B n jm - jm /\ check_j jmax n B jm (Some v) = Ok (Some v) \/
  ~ 0 <= v <= jmax B n jm - jm /\ check_j jmax n B jm (Some v) = Err ValueError.
Proof.
  unfold check_j. destruct (Z.ltb_spec v 0); [right; split; [lia|reflexivity]|].
  destruct (Z.ltb_spec (jmax B n jm - jm) v); [right|left]; (split; [lia|reflexivity]).
Qed.
Lemma check_rank_spec v : 0 <= v /\ check_rank v = Ok v \/ ~ 0 <= v /\ check_rank v = Err ValueError.
Proof. unfold check_rank. destruct (Z.ltb_spec v 0); [right|left]; (split; [lia|reflexivity]). Qed.

Lemma construct_fields jmax c L kw args : has_fields c kw -> construct jmax c L kw args =
  (let* _ := validate_fields jmax c L kw in
   let* _ := match c with Slepian => slepian_validate_rank L args | _ => Ok tt end in setup_args jmax c L kw args).
Proof. intros H. unfold construct, has_fields in *. rewrite H. reflexivity. Qed.

(** The keywords are accepted exactly when they are in range. *)
Theorem C41_keywords : forall jmax c L kw, has_fields c kw ->
  (in_range jmax c L kw /\ construct jmax c L kw None = Ok kw) \/
  (~ in_range jmax c L kw /\ exists e, construct jmax c L kw None = Err e).
Proof.
  intros jmax c L kw H. rewrite (construct_fields jmax c L kw None H).
  assert (K : (match c with Slepian => slepian_validate_rank L None | _ => Ok tt end) = Ok tt) by (destruct c; reflexivity).
  rewrite K. cbn [rbind setup_args]. destruct kw as [| | | |ell m|B jm [j|]|B jm spin [j|]|r]; cbn [validate_fields rbind];
    try (left; split; [exact I|reflexivity]).
  - destruct (check_ell_spec L ell) as [[Hl ->]|[Hl ->]].
    + destruct (check_m_spec ell m) as [[Hm ->]|[Hm ->]]; [left|right]; cbn; (split; [tauto|]); [reflexivity|eexists; reflexivity].
    + right. cbn. split; [tauto|eexists; reflexivity].
  - destruct (check_j_spec jmax (wavelet_limit c L) B jm j) as [[Hj E]|[Hj E]]; rewrite E; [left|right];
      (split; [exact Hj|]); [reflexivity|eexists; reflexivity].
  - destruct (check_j_spec jmax (wavelet_limit c L) B jm j) as [[Hj E]|[Hj E]]; rewrite E; [left|right];
      (split; [exact Hj|]); [reflexivity|eexists; reflexivity].
  - destruct (check_rank_spec r) as [[Hr ->]|[Hr ->]]; [left|right]; (split; [exact Hr|]); [reflexivity|eexists; reflexivity].
Qed.
Print Assumptions C41_keywords.

(** A wrong number of extra arguments is rejected, whatever the values. *)
Theorem C41_count : forall jmax c L kw args, has_fields c kw -> in_range jmax c L kw ->
  List.length args <> arity c \/ arity c = 0%nat ->
  construct jmax c L kw (Some args) =
    Err (match c, args with
         | Slepian, [] => IndexError
         | _, _ => if (arity c =? 0)%nat then TypeError else ValueError
         end).
Proof.
  intros jmax c L kw args Hf Hr Hn.
  destruct (C41_keywords jmax c L kw Hf) as [[_ E]|[E _]]; [|contradiction].
  rewrite (construct_fields jmax c L kw None Hf) in E. rewrite (construct_fields jmax c L kw (Some args) Hf).
  destruct (validate_fields jmax c L kw) as [[]|]; [|discriminate]. cbn [rbind].
  destruct c, kw; try discriminate Hf; cbn [arity] in Hn; cbn [rbind setup_args];
    destruct args as [|a [|b [|d [|e [|f args]]]]]; cbn [List.length] in Hn; try lia; try reflexivity;
    cbn [slepian_validate_rank]; destruct (_ <=? _); reflexivity.
Qed.
Print Assumptions C41_count.

(** The documented meaning of the arguments. *)
Definition meaning (c : cls) (args : list Z) : option params :=
  let pow x := Qpower 10 x in
  match c, args with
  | Gaussian, [sigma] => Some (Sigma (pow sigma))
  | HarmonicGaussian, [l_sigma; m_sigma] => Some (Two_sigmas (pow l_sigma) (pow m_sigma))
  | ElongatedGaussian, [t_sigma; p_sigma] => Some (Two_sigmas (pow t_sigma) (pow p_sigma))
  | SquashedGaussian, [t_sigma; freq] => Some (Two_sigmas (pow t_sigma) (pow freq))
  | NoiseEarth, [SNR] | SlepianNoiseAfrica, [SNR] | SlepianNoiseSouthAmerica, [SNR] => Some (Snr (inject_Z SNR))
  | SphericalHarmonic, [ell; m] => Some (Degree_order ell m)
  | AxisymmetricWavelets, [B; j_min; j] | AxisymmetricWaveletCoefficientsAfrica, [B; j_min; j]
  | AxisymmetricWaveletCoefficientsEarth, [B; j_min; j] | AxisymmetricWaveletCoefficientsSouthAmerica, [B; j_min; j]
  | SlepianWavelets, [B; j_min; j] | SlepianWaveletCoefficientsAfrica, [B; j_min; j]
  | SlepianWaveletCoefficientsSouthAmerica, [B; j_min; j] => Some (Scale B j_min (Some j))
  | Ridgelets, [B; j_min; spin; j] => Some (Spin_scale B j_min spin (Some j))
  | Slepian, [rank] => Some (Rank rank)
  | _, _ => None
  end.

(** Extra arguments are accepted exactly when they are in range (for a rank also
    below [L^2]), and then they replace the keywords. *)
Theorem C41_values : forall jmax c L kw args p, has_fields c kw -> in_range jmax c L kw -> meaning c args = Some p ->
  let ok := in_range jmax c L p /\ (forall r, p = Rank r -> r < Z.of_nat (L * L)) in
  (ok /\ construct jmax c L kw (Some args) = Ok p) \/ (~ ok /\ construct jmax c L kw (Some args) = Err ValueError).
Proof.
  intros jmax c L kw args p Hf Hr Hm ok.
  destruct (C41_keywords jmax c L kw Hf) as [[_ E]|[E _]]; [|contradiction].
  rewrite (construct_fields jmax c L kw None Hf) in E. rewrite (construct_fields jmax c L kw (Some args) Hf).
  destruct (validate_fields jmax c L kw) as [[]|]; [|discriminate]. clear E Hr. cbn [rbind]. subst ok.
  destruct c; cbn [meaning] in Hm; destruct args as [|a [|b [|d [|e [|f args]]]]]; try discriminate Hm; injection Hm as <-;
    destruct kw; try discriminate Hf; cbn [rbind setup_args in_range];
    lazymatch goal with
    | |- context [check_ell L a] =>
        destruct (check_ell_spec L a) as [[Hl ->]|[Hl ->]]; cbn [rbind];
        [destruct (check_m_spec a b) as [[Hm ->]|[Hm ->]]|]; [left|right|right];
        (split; [|reflexivity]); [split; [tauto|discriminate]|tauto|tauto]
    | |- context [check_j jmax ?n ?x ?y (Some ?v)] =>
        destruct (check_j_spec jmax n x y v) as [[Hj ->]|[Hj ->]]; [left|right]; (split; [|reflexivity]);
        [split; [exact Hj|discriminate]|intros [K _]; exact (Hj K)]
    | |- context [check_rank a] =>
        cbn [slepian_validate_rank]; destruct (Z.leb_spec (Z.of_nat (L * L)) a) as [K|K];
        [right; split; [intros [_ B]; specialize (B a eq_refl); lia|reflexivity]|];
        destruct (check_rank_spec a) as [[Ha ->]|[Ha ->]]; [left|right]; (split; [|reflexivity]);
        [split; [exact Ha|intros r Er; injection Er as <-; exact K]|intros [B _]; exact (Ha B)]
    | |- _ => left; split; [split; [exact I|discriminate]|reflexivity]
    end.
Qed.
Print Assumptions C41_values.

(** Every list of the documented length has a meaning, so the two theorems cover
    all lists. *)
Theorem C41_total : forall c args, (exists p, meaning c args = Some p) <-> List.length args = arity c /\ arity c <> 0%nat.
Proof.
  intros c args. destruct c; cbn [meaning arity]; destruct args as [|a [|b [|d [|e [|f args]]]]]; cbn [List.length];
    split; try (intros [p Hp]; try discriminate Hp; split; lia); try (intros [H1 H2]; try lia; eexists; reflexivity).
Qed.
Print Assumptions C41_total.

(** Unknown keywords are a [TypeError]. *)
Theorem C41_unknown_keyword : forall jmax c L kw args, ~ has_fields c kw -> construct jmax c L kw args = Err TypeError.
Proof. intros jmax c L kw args H. unfold construct, has_fields in *. destruct (same_fields _ _); [contradiction|reflexivity]. Qed.
Print Assumptions C41_unknown_keyword.

(** An accepted spherical harmonic has exactly one non-zero coefficient, the one
    of its degree and order. *)
Theorem C41_harmonic : forall jmax L kw args ell m,
  construct jmax SphericalHarmonic L kw args = Ok (Degree_order ell m) ->
  exists flm, spherical_harmonic_coefficients L ell m = Ok flm /\ List.length flm = (L * L)%nat /\
    forall l k, (l < L)%nat -> - Z.of_nat l <= k <= Z.of_nat l ->
      nth_error flm (elm2ind l k) = Some (RtoC (if (Z.of_nat l =? ell) && (k =? m) then 1 else 0)).
Proof.
  intros jmax L kw args ell m H.
  assert (Hf : has_fields SphericalHarmonic kw).
  { unfold has_fields, construct in *. destruct (same_fields _ _); [reflexivity|discriminate]. }
  assert (R : 0 <= ell < Z.of_nat L /\ - ell <= m <= ell).
  { destruct (C41_keywords jmax SphericalHarmonic L kw Hf) as [[Hr E]|[_ [e E]]].
    - destruct args as [args|]; [|rewrite H in E; injection E as <-; exact Hr].
      destruct (meaning SphericalHarmonic args) as [p|] eqn:Em.
      + destruct (C41_values jmax _ L kw args p Hf Hr Em) as [[[Ok1 _] Ev]|[_ Ev]]; rewrite Ev in H; [|discriminate].
        injection H as ->. exact Ok1.
      + rewrite C41_count in H; [discriminate|exact Hf|exact Hr|]. left. intros K.
        destruct (proj2 (C41_total SphericalHarmonic args)) as [p Hp]; [split; [exact K|discriminate]|congruence].
    - rewrite (construct_fields jmax _ L kw None Hf) in E. rewrite (construct_fields jmax _ L kw args Hf) in H. destruct (validate_fields _ _ _ _) as [[]|]; [discriminate E|discriminate H]. }
  unfold spherical_harmonic_coefficients, create_spherical_harmonic. set (n := Z.to_nat ell).
  assert (Hn : Z.of_nat n = ell) by (unfold n; lia). assert (Hm : Z.abs m <= Z.of_nat n) by lia.
  assert (B : (elm2ind n m < List.length (repeat (RtoC 0) (L * L)))%nat).
  { rewrite repeat_length. apply elm2ind_lt; [lia|exact Hm]. }
  rewrite (np_set_ok _ _ _ B). eexists. split; [reflexivity|]. split; [rewrite set_nth_length, repeat_length; reflexivity|].
  intros l k Hl Hk. assert (Hk' : Z.abs k <= Z.of_nat l) by lia.
  destruct (Z.eqb_spec (Z.of_nat l) ell) as [El|El]; [destruct (Z.eqb_spec k m) as [Ek|Ek]|]; cbn [andb].
  - subst k. replace l with n by lia. apply nth_error_set_nth_eq. exact B.
  - rewrite nth_error_set_nth_neq by (intros K; apply elm2ind_inj in K; [lia|exact Hm|exact Hk'] || intros K; apply elm2ind_inj in K; [lia|exact Hk'|exact Hm]).
    apply nth_error_repeat. apply elm2ind_lt; assumption.
  - rewrite nth_error_set_nth_neq by (intros K; apply elm2ind_inj in K; [lia|exact Hm|exact Hk'] || intros K; apply elm2ind_inj in K; [lia|exact Hk'|exact Hm]).
    apply nth_error_repeat. apply elm2ind_lt; assumption.
Qed.
Print Assumptions C41_harmonic.

(** Changing the order or the degree later: the new value is checked as at the
    start, the order against the degree ... *)
Theorem C41_assign : forall jmax L ell m v, in_range jmax SphericalHarmonic L (Degree_order ell m) ->
  (forall p, assign_m (Degree_order ell m) v = Ok p <-> p = Degree_order ell v /\ in_range jmax SphericalHarmonic L p) /\
  (forall p, assign_ell L (Degree_order ell m) v = Ok p <-> p = Degree_order v m /\ 0 <= v < Z.of_nat L).
Proof.
  intros jmax L ell m v [Hl Hm]. unfold assign_m, assign_ell. split; intros p.
  - destruct (check_m_spec ell v) as [[Hv ->]|[Hv ->]]; cbn [rbind]; split.
    + intros E. injection E as <-. cbn. auto.
    + intros [-> _]. reflexivity.
    + discriminate.
    + intros [-> [_ K]]. contradiction.
  - destruct (check_ell_spec L v) as [[Hv ->]|[Hv ->]]; cbn [rbind]; split.
    + intros E. injection E as <-. auto.
    + intros [-> _]. reflexivity.
    + discriminate.
    + intros [-> K]. contradiction.
Qed.
Print Assumptions C41_assign.

(** ... but the degree not against the order, so an object can leave the
    range. *)
Theorem C41_assign_degree_refuted : exists jmax L p p', construct jmax SphericalHarmonic L (Degree_order 0 0) (Some [3; 3]) = Ok p /\
  assign_ell L p 2 = Ok p' /\ ~ in_range jmax SphericalHarmonic L p'.
Proof. exists (fun _ _ _ => 0), 4%nat, (Degree_order 3 3), (Degree_order 2 3). vm_compute. intuition congruence. Qed.
Print Assumptions C41_assign_degree_refuted.

(** As a keyword a rank is not checked against [L^2]. *)
Theorem C41_rank_keyword_refuted : forall jmax L r, 0 <= r -> construct jmax Slepian L (Rank r) None = Ok (Rank r).
Proof.
  intros jmax L r Hr. destruct (C41_keywords jmax Slepian L (Rank r) eq_refl) as [[_ E]|[K _]]; [exact E|]. exfalso. exact (K Hr).
Qed.
Print Assumptions C41_rank_keyword_refuted.

(** The classes of Africa and South America require that region. *)
Theorem C41_region : forall c ending,
  check_region_name c ending = Err RuntimeError <->
  (In c [SlepianAfrica; SlepianNoiseAfrica; SlepianWaveletCoefficientsAfrica] /\ ending <> "africa"%string) \/
  (In c [SlepianSouthAmerica; SlepianNoiseSouthAmerica; SlepianWaveletCoefficientsSouthAmerica] /\ ending <> "south_america"%string).
Proof.
  intros c ending. unfold check_region_name.
  destruct (String.eqb_spec ending "africa") as [Ha|Ha], (String.eqb_spec ending "south_america") as [Hs|Hs];
    destruct c; cbn; (split; [intros K; try discriminate K; tauto|]); intros K; try reflexivity;
    exfalso; intuition discriminate.
Qed.
Print Assumptions C41_region.

(** The mesh classes. *)
Definition mesh_arity (c : mesh_cls) : nat :=
  match c with
  | MeshField | MeshSlepianField => 0
  | MeshBasisFunctions | MeshSlepianFunctions | MeshNoiseField | MeshSlepianNoiseField => 1
  | MeshSlepianWavelets | MeshSlepianWaveletCoefficients => 3
  end%nat.
Definition mesh_meaning (c : mesh_cls) (args : list Z) : option params :=
  match c, args with
  | MeshBasisFunctions, [rank] | MeshSlepianFunctions, [rank] => Some (Rank rank)
  | MeshNoiseField, [SNR] | MeshSlepianNoiseField, [SNR] => Some (Snr (inject_Z SNR))
  | MeshSlepianWavelets, [B; j_min; j] | MeshSlepianWaveletCoefficients, [B; j_min; j] => Some (Scale B j_min (Some j))
  | _, _ => None
  end.
Definition mesh_in_range (jmax : Z -> nat -> Z -> Z) (m : mesh) (p : params) : Prop :=
  match p with
  | Scale B j_min (Some j) => 0 <= j <= jmax B (List.length (m_evals m)) j_min - j_min
  | Rank r => 0 <= r
  | _ => True
  end.
Definition mesh_has_fields (c : mesh_cls) (p : params) : Prop := same_fields (mesh_default_params c) p = true.

Lemma check_mesh_rank_spec v : 0 <= v /\ check_mesh_rank v = Ok v \/ ~ 0 <= v /\ check_mesh_rank v = Err ValueError.
Proof. unfold check_mesh_rank. destruct (Z.ltb_spec v 0); [right|left]; (split; [lia|reflexivity]). Qed.

Theorem C41_mesh_keywords : forall jmax c m kw, mesh_has_fields c kw ->
  (mesh_in_range jmax m kw /\ mesh_construct jmax c m kw None = Ok kw) \/
  (~ mesh_in_range jmax m kw /\ mesh_construct jmax c m kw None = Err ValueError).
Proof.
  intros jmax c m kw H. unfold mesh_construct. unfold mesh_has_fields in H. rewrite !H.
  destruct kw as [| | | |ell k|B jm [j|]|B jm spin j|r]; try (left; split; [exact I|reflexivity]).
  - destruct (check_j_spec jmax (List.length (m_evals m)) B jm j) as [[Hj ->]|[Hj ->]]; [left|right]; (split; [exact Hj|reflexivity]).
  - destruct (check_mesh_rank_spec r) as [[Hr ->]|[Hr ->]]; [left|right]; (split; [exact Hr|]).
    + destruct c; reflexivity.
    + reflexivity.
Qed.
Print Assumptions C41_mesh_keywords.

Theorem C41_mesh_count : forall jmax c m kw args, mesh_has_fields c kw -> mesh_in_range jmax m kw ->
  List.length args <> mesh_arity c \/ mesh_arity c = 0%nat ->
  mesh_construct jmax c m kw (Some args) =
    Err (match c, args with
         | MeshBasisFunctions, [] => IndexError
         | _, _ => if (mesh_arity c =? 0)%nat then TypeError else ValueError
         end).
Proof.
  intros jmax c m kw args H Hr Hn.
  destruct (C41_mesh_keywords jmax c m kw H) as [[_ E]|[E _]]; [|contradiction].
  unfold mesh_construct in *. unfold mesh_has_fields in H. rewrite H in *.
  destruct c, kw; try discriminate H; cbn [mesh_arity] in Hn.
  all: try (destruct (check_j _ _ _ _ _) as [ok1|]; [|discriminate E]).
  all: try (destruct (check_mesh_rank rank) as [ok1|]; [|discriminate E]).
  all: cbn [rbind]; destruct args as [|a [|b [|d [|e args]]]]; cbn [List.length] in Hn; try lia; try reflexivity;
    cbn [mesh_basis_validate_rank]; destruct (_ <? _); reflexivity.
Qed.
Print Assumptions C41_mesh_count.

(** Only [MeshBasisFunctions] checks the rank from above, and lets the number of
    eigenvalues through. *)
Theorem C41_mesh_values : forall jmax c m kw args p, mesh_has_fields c kw -> mesh_in_range jmax m kw -> mesh_meaning c args = Some p ->
  let ok := mesh_in_range jmax m p /\
            (forall r, c = MeshBasisFunctions -> p = Rank r -> r <= Z.of_nat (List.length (m_evals m))) in
  (ok /\ mesh_construct jmax c m kw (Some args) = Ok p) \/ (~ ok /\ mesh_construct jmax c m kw (Some args) = Err ValueError).
Proof.
  intros jmax c m kw args p H Hr Hm ok.
  destruct (C41_mesh_keywords jmax c m kw H) as [[_ E]|[E _]]; [|contradiction].
  unfold mesh_construct in *. unfold mesh_has_fields in H. rewrite H in *. subst ok.
  destruct c, kw; try discriminate H; destruct args as [|a [|b [|d [|e args]]]]; try discriminate Hm; injection Hm as <-.
  all: try (destruct (check_j _ _ _ _ j) as [ok1|]; [|discriminate E]).
  all: try (destruct (check_mesh_rank rank) as [ok1|]; [|discriminate E]).
  all: cbn [rbind mesh_in_range mesh_rank_setup_args mesh_basis_validate_rank].
  all: try (left; split; [split; [exact I|discriminate]|reflexivity]).
  all: try (destruct (check_j_spec jmax (List.length (m_evals m)) a b d) as [[Hj ->]|[Hj ->]]; [left|right]; (split; [|reflexivity]);
            [split; [exact Hj|discriminate]|intros [K _]; exact (Hj K)]).
  - destruct (Z.ltb_spec (Z.of_nat (List.length (m_evals m))) a) as [K|K]; cbn [rbind].
    + right. split; [|reflexivity]. intros [_ B]. specialize (B a eq_refl eq_refl). lia.
    + destruct (check_mesh_rank_spec a) as [[Ha ->]|[Ha ->]]; [left|right]; (split; [|reflexivity]).
      * split; [exact Ha|]. intros r _ Er. injection Er as <-. exact K.
      * intros [B _]. exact (Ha B).
  - destruct (check_mesh_rank_spec a) as [[Ha ->]|[Ha ->]]; [left|right]; (split; [|reflexivity]).
    + split; [exact Ha|discriminate].
    + intros [B _]. exact (Ha B).
Qed.
Print Assumptions C41_mesh_values.

(** *** Examples *)
Example C41_harmonic_example : construct (fun _ _ _ => 0) SphericalHarmonic 4 (Degree_order 0 0) (Some [3; -2]) = Ok (Degree_order 3 (-2)) /\
  construct (fun _ _ _ => 0) SphericalHarmonic 4 (Degree_order 0 0) (Some [4; 0]) = Err ValueError /\
  construct (fun _ _ _ => 0) SphericalHarmonic 4 (Degree_order 0 0) (Some [2; 3]) = Err ValueError /\
  construct (fun _ _ _ => 0) SphericalHarmonic 4 (Degree_order 4 0) None = Err KeyError.
Proof. vm_compute. auto. Qed.
Example C41_wavelet_example : construct (fun _ _ _ => 3) SlepianWavelets 4 (Scale 3 2 None) (Some [3; 2; 1]) = Ok (Scale 3 2 (Some 1)) /\
  construct (fun _ _ _ => 3) SlepianWavelets 4 (Scale 3 2 None) (Some [3; 2; 2]) = Err ValueError /\
  construct (fun _ _ _ => 3) Ridgelets 4 (Spin_scale 3 2 2 None) (Some [3; 2; 0; 1]) = Ok (Spin_scale 3 2 0 (Some 1)).
Proof. vm_compute. auto. Qed.
Example C41_gaussian_example : construct (fun _ _ _ => 0) ElongatedGaussian 4 (Two_sigmas 1 (1 # 10)) (Some [2; -1]) = Ok (Two_sigmas 100 (1 # 10)).
Proof. vm_compute. reflexivity. Qed.
Example C41_region_example : check_region_name SlepianNoiseAfrica "south_america" = Err RuntimeError /\ check_region_name SlepianIdentity "south_america" = Ok tt.
Proof. vm_compute. auto. Qed.
