(** C103: the unit tests of the subspaces (tests/test_subspaces.py). *)
From Coq Require Import String Reals Lra Lia List Arith ZArith Bool.
From Verif Require Import Prelude Py NumArr LinAlg Lsq Sorting Spectral Det EighRef Toy M_Misc P_Misc M_SimRunners M_Gradients M_QP M_RespSurf M_Subspaces M_Domains P_LocalLinear P_Subspaces P_Estimators
  P_Qphd P_PolyTrain P_Partition P_SubsState P_SubsLive Properties_Subspaces Properties_SubsState M_Tests P_Tests Properties_Tests P_Notebooks Properties_ComputeLive M_TestsSpace P_Bootstrap P_TestsSpace.
Import ListNotations.
Open Scope R_scope.

(** number k drawn after np.random.seed(42) *)
Definition drawn (G : gen) (k : nat) : R := normal_at (g_seed G 42) k.
(** vectors of R^m *)
Definition unit_vector (m : nat) (x : nat -> R) : Prop := sumf m (fun j => x j * x j) = 1.
Definition perpendicular (m : nat) (x y : nat -> R) : Prop := sumf m (fun j => x j * y j) = 0.

Lemma equal_weights_pos : forall M i, (i < M)%nat -> 0 < (equal_weights M).[i, 0%nat].
Proof. intros M i H. change (0 < / INR M). apply Rinv_0_lt_compat, lt_0_INR. lia. Qed.

(** the assertion at the end of five of the tests *)
Lemma ends : forall (W : Type) (w : W) m C e V lam q, eigsorted m C e V lam -> psd m C -> (2 <= m)%nat -> (forall x, quad m C x = q x) ->
  (fst (mlift (second_below_first e) w) = Ok tt <-> exists x, unit_vector m x /\ forall y, unit_vector m y -> perpendicular m x y -> q y < q x) /\
  (fst (mlift (second_below_first e) w) <> Ok tt -> fst (mlift (second_below_first e) w) = Err AssertionError).
Proof.
  intros W w m C e V lam q L P Hm Q. destruct (below_spec e m (es_e _ _ _ _ _ L) Hm) as (H1 & H2). unfold mlift. cbn [fst]. split; [|exact H2].
  rewrite H1, (gap_iff m C e V lam L P Hm), (sole_maximum_ext m _ _ Q). reflexivity.
Qed.

Lemma seed_step : forall (G : gen) (U B : Type) n (k : unit -> Py.M (world G U (nd R)) B) w, mbind (seed n) k w = k tt (set_rng w (g_seed G n)).
Proof. reflexivity. Qed.

(** The tests of sorted_eigh and of the gradient-based subspace pass if and only if some
    direction exists in which the drawn vectors have a larger sum of squared components
    than in every perpendicular one. *)
Theorem C103_sorted_eigh : forall eigh argsort (G : gen) (U : Type) (w : world G U (nd R)), eigh_contract eigh -> eigh_total eigh -> argsort_contract argsort ->
  let q x := sumf 3 (fun i => (sumf 3 (fun j => drawn G (i * 3 + j) * x j)) ^ 2) in
  (fst (test_sorted_eigh eigh argsort w) = Ok tt <->
     exists x, unit_vector 3 x /\ forall y, unit_vector 3 y -> perpendicular 3 x y -> q y < q x) /\
  (fst (test_sorted_eigh eigh argsort w) <> Ok tt -> fst (test_sorted_eigh eigh argsort w) = Err AssertionError).
Proof.
  intros eigh argsort G U w HE HT HA q. unfold test_sorted_eigh. rewrite seed_step. set (w0 := set_rng w _).
  destruct (normal2_ev G 3 3 w0) as (X & E1 & SX & VX). rewrite (nb _ _ w0 _ _ E1).
  assert (ST : shape (tr X) = [3; 3]%nat) by (unfold tr; rewrite shape_mk2, (nrows_shape2 _ X 3 3 SX), (ncols_shape2 _ X 3 3 SX); reflexivity).
  rewrite bind_lift, (mdot_ok (tr X) X 3 3 3 ST SX). set (C := mk2 3 3 _).
  assert (CV : forall i k, ent C i k = gradC 3 (ent X) (fun _ => 1) i k).
  { intros i k. unfold ent, C. rewrite at_mk2. apply sumf_ext. intros s Hs. unfold tr. rewrite at_mk2. ring. }
  assert (Sy : symmetric 3 (ent C)) by (intros i k Hi Hk; rewrite !CV; apply (gradC_sym 3 _ _ 3); auto).
  destruct (sorted_eigh_returns eigh argsort HE 3 C HT ltac:(lia) eq_refl) as ((e & V) & ES). rewrite bind_lift, ES.
  destruct (sorted_eigh_spec eigh argsort HE HA 3 C e V eq_refl Sy ES) as (lam & L).
  apply (ends _ _ 3 (gradC 3 (ent X) (fun _ => 1)) e V lam).
  - apply (eigsorted_ext 3 (ent C)); auto.
  - apply gradC_psd. intros; lra.
  - lia.
  - intros x. rewrite gradC_quad. apply sumf_ext. intros i Hi. unfold dot, ent.
    rewrite (sumf_ext 3 (fun j => X.[i, j] * x j) (fun j => drawn G (i * 3 + j) * x j)) by (intros j Hj; rewrite VX by auto; reflexivity). ring.
Qed.
Print Assumptions C103_sorted_eigh.

Theorem C103_active_subspace : forall eigh argsort (G : gen) (U : Type) (w : world G U (nd R)), eigh_contract eigh -> eigh_total eigh -> argsort_contract argsort ->
  let q x := sumf 10 (fun i => (sumf 3 (fun j => drawn G (i * 3 + j) * x j)) ^ 2) in
  (fst (test_active_subspace eigh argsort w) = Ok tt <->
     exists x, unit_vector 3 x /\ forall y, unit_vector 3 y -> perpendicular 3 x y -> q y < q x) /\
  (fst (test_active_subspace eigh argsort w) <> Ok tt -> fst (test_active_subspace eigh argsort w) = Err AssertionError).
Proof.
  intros eigh argsort G U w HE HT HA q. unfold test_active_subspace. rewrite seed_step. set (w0 := set_rng w _).
  destruct (normal2_ev G 10 3 w0) as (X & E1 & SX & VX). rewrite (nb _ _ w0 _ _ E1).
  destruct (active_subspace_returns eigh argsort HE 10 3 X (equal_weights 10) HT ltac:(lia) SX eq_refl) as ((e & V) & ES). rewrite bind_lift, ES.
  destruct (active_subspace_spec eigh argsort HE HA 10 3 X (equal_weights 10) e V SX eq_refl ES) as (lam & L).
  match goal with |- context [mlift _ ?w'] => destruct (ends _ w' 3 _ e V lam (fun x => / INR 10 * q x) L) as (A1 & A2) end; [| | |split; [|exact A2]].
  - apply gradC_psd. intros s Hs. left. now apply equal_weights_pos.
  - lia.
  - intros x. rewrite gradC_quad. unfold q. rewrite <- sumf_scal_l. apply sumf_ext. intros i Hi. change ((equal_weights 10).[i, 0%nat]) with (/ INR 10). unfold dot, ent.
    rewrite (sumf_ext 3 (fun j => X.[i, j] * x j) (fun j => drawn G (i * 3 + j) * x j)) by (intros j Hj; rewrite VX by auto; reflexivity). ring.
  - rewrite A1. assert (P : 0 < / INR 10) by (apply Rinv_0_lt_compat, lt_0_INR; lia).
    split; intros (x & X1 & X2); exists x; (split; [exact X1|]); intros y Y1 Y2; specialize (X2 y Y1 Y2).
    + now apply Rmult_lt_reg_l in X2.
    + now apply Rmult_lt_compat_l.
Qed.
Print Assumptions C103_active_subspace.

(** every vector the same nonzero one: its own direction stands alone; every vector zero: none does *)
Example C103_sorted_eigh_case :
  fst (test_sorted_eigh eigh_ref argsort_ref (same_world (/ 2) 1 half01)) = Ok tt /\
  fst (test_sorted_eigh eigh_ref argsort_ref (same_world (/ 2) 0 half01)) = Err AssertionError /\
  fst (test_active_subspace eigh_ref argsort_ref (same_world (/ 2) 1 half01)) = Ok tt /\
  fst (test_active_subspace eigh_ref argsort_ref (same_world (/ 2) 0 half01)) = Err AssertionError.
Proof.
  assert (K : forall n z x, sumf (S n) (fun i => (sumf 3 (fun j => drawn (same_gen (/ 2) z half01) (i * 3 + j) * x j)) ^ 2) = INR (S n) * (z * (x 0%nat + x 1%nat + x 2%nat)) ^ 2).
  { intros n z x. rewrite <- sumf_const. apply sumf_ext. intros i _. unfold drawn. cbn [sumf]. rewrite !same_normal. f_equal. ring. }
  set (s := / sqrt 3). assert (Hs : s * s = / 3) by (unfold s; rewrite <- Rinv_mult; f_equal; apply sqrt_sqrt; lra).
  assert (S3 : 0 < s) by (apply Rinv_0_lt_compat, sqrt_lt_R0; lra).
  assert (Pass : forall n, exists x, unit_vector 3 x /\ forall y, unit_vector 3 y -> perpendicular 3 x y ->
     sumf (S n) (fun i => (sumf 3 (fun j => drawn (same_gen (/ 2) 1 half01) (i * 3 + j) * y j)) ^ 2) < sumf (S n) (fun i => (sumf 3 (fun j => drawn (same_gen (/ 2) 1 half01) (i * 3 + j) * x j)) ^ 2)).
  { intros n. exists (fun _ => s). split; [unfold unit_vector; cbn [sumf]; rewrite Hs; lra|]. intros y Hy Hp. rewrite !K. apply Rmult_lt_compat_l; [apply lt_0_INR; lia|].
    unfold perpendicular in Hp. cbn [sumf] in Hp. assert (y 0%nat + y 1%nat + y 2%nat = 0) as -> by nra. nra. }
  assert (Fail : forall n, ~ exists x, unit_vector 3 x /\ forall y, unit_vector 3 y -> perpendicular 3 x y ->
     sumf (S n) (fun i => (sumf 3 (fun j => drawn (same_gen (/ 2) 0 half01) (i * 3 + j) * y j)) ^ 2) < sumf (S n) (fun i => (sumf 3 (fun j => drawn (same_gen (/ 2) 0 half01) (i * 3 + j) * x j)) ^ 2)).
  { intros n (x & Hx & H). destruct (Req_dec (x 0%nat * x 0%nat + x 1%nat * x 1%nat) 0) as [Z|Z].
    - specialize (H (fun j => if Nat.eqb j 0 then 1 else 0)). rewrite !K in H. enough (INR (S n) * (0 * (1 + 0 + 0)) ^ 2 < INR (S n) * (0 * (x 0%nat + x 1%nat + x 2%nat)) ^ 2) by nra.
      apply H; unfold unit_vector, perpendicular; cbn [sumf Nat.eqb]; nra.
    - set (d := sqrt (x 0%nat * x 0%nat + x 1%nat * x 1%nat)). assert (Hd : d * d = x 0%nat * x 0%nat + x 1%nat * x 1%nat) by (apply sqrt_sqrt; nra).
      assert (Nd : d <> 0) by (intros E; rewrite E in Hd; lra).
      set (y := fun j => match j with 0%nat => x 1%nat / d | 1%nat => - x 0%nat / d | _ => 0 end).
      specialize (H y). rewrite !K in H. enough (INR (S n) * (0 * (y 0%nat + y 1%nat + y 2%nat)) ^ 2 < INR (S n) * (0 * (x 0%nat + x 1%nat + x 2%nat)) ^ 2) by nra.
      apply H; unfold unit_vector, perpendicular; cbn [sumf y].
      + transitivity ((x 0%nat * x 0%nat + x 1%nat * x 1%nat) / (d * d)); [field; auto|]. rewrite Hd. field. auto.
      + field. auto. }
  assert (C1 := fun z => C103_sorted_eigh eigh_ref argsort_ref _ unit (same_world (/ 2) z half01) eigh_ref_contract eigh_ref_total argsort_ref_contract).
  assert (C2 := fun z => C103_active_subspace eigh_ref argsort_ref _ unit (same_world (/ 2) z half01) eigh_ref_contract eigh_ref_total argsort_ref_contract).
  cbv zeta in C1, C2. split; [|split; [|split]].
  - apply C1. apply (Pass 2%nat).
  - apply C1. intros E. apply C1 in E. exact (Fail 2%nat E).
  - apply C2. apply (Pass 9%nat).
  - apply C2. intros E. apply C2 in E. exact (Fail 9%nat E).
Qed.

(** ** The linear model *)

(** two best fits have the same fitted values *)
Lemma best_fits_agree : forall M m X f w a b a' b', (forall i, (i < M)%nat -> 0 < w.[i, 0%nat]) ->
  (forall a'' b'', wls M m X f w a b <= wls M m X f w a'' b'') -> wls M m X f w a' b' <= wls M m X f w a b ->
  forall i, (i < M)%nat -> (a - a') + sumf m (fun j => (b j - b' j) * X.[i, j]) = 0.
Proof.
  intros M m X f w a b a' b' Hw Hmin Hle.
  set (r := fun i => f.[i, 0%nat] - a - sumf m (fun j => b j * X.[i, j])). set (d := fun i => (a - a') + sumf m (fun j => (b j - b' j) * X.[i, j])).
  assert (R' : forall i, f.[i, 0%nat] - a' - sumf m (fun j => b' j * X.[i, j]) = r i + d i).
  { intros i. unfold r, d. rewrite (sumf_ext m (fun j => (b j - b' j) * X.[i, j]) (fun j => b j * X.[i, j] - b' j * X.[i, j])) by (intros; ring). rewrite sumf_minus. ring. }
  assert (RM : forall i, f.[i, 0%nat] - (a + a') / 2 - sumf m (fun j => (b j + b' j) / 2 * X.[i, j]) = r i + d i / 2).
  { intros i. unfold r, d. rewrite (sumf_ext m (fun j => (b j - b' j) * X.[i, j]) (fun j => b j * X.[i, j] - b' j * X.[i, j])) by (intros; ring). rewrite sumf_minus.
    rewrite (sumf_ext m (fun j => (b j + b' j) / 2 * X.[i, j]) (fun j => / 2 * (b j * X.[i, j]) + / 2 * (b' j * X.[i, j]))) by (intros; field). rewrite sumf_plus, !sumf_scal_l. field. }
  specialize (Hmin ((a + a') / 2) (fun j => (b j + b' j) / 2)). unfold wls in Hmin, Hle.
  rewrite (sumf_ext M (fun i => w.[i, 0%nat] * ((f.[i, 0%nat] - (a + a') / 2 - sumf m (fun j => (b j + b' j) / 2 * X.[i, j])) * (f.[i, 0%nat] - (a + a') / 2 - sumf m (fun j => (b j + b' j) / 2 * X.[i, j]))))
    (fun i => w.[i, 0%nat] * (r i * r i) + (w.[i, 0%nat] * (r i * d i) + / 4 * (w.[i, 0%nat] * (d i * d i))))) in Hmin by (intros; rewrite RM; field).
  rewrite (sumf_ext M (fun i => w.[i, 0%nat] * ((f.[i, 0%nat] - a' - sumf m (fun j => b' j * X.[i, j])) * (f.[i, 0%nat] - a' - sumf m (fun j => b' j * X.[i, j]))))
    (fun i => w.[i, 0%nat] * (r i * r i) + (2 * (w.[i, 0%nat] * (r i * d i)) + w.[i, 0%nat] * (d i * d i)))) in Hle by (intros; rewrite R'; ring).
  fold r in Hmin, Hle. rewrite !sumf_plus, ?sumf_scal_l in Hmin, Hle.
  change (sumf M (fun i => w.[i, 0%nat] * ((f.[i, 0%nat] - a - sumf m (fun j => b j * X.[i, j])) * (f.[i, 0%nat] - a - sumf m (fun j => b j * X.[i, j]))))) with (sumf M (fun i => w.[i, 0%nat] * (r i * r i))) in Hmin, Hle.
  set (sd := sumf M (fun i => w.[i, 0%nat] * (d i * d i))) in *. set (sr := sumf M (fun i => w.[i, 0%nat] * (r i * d i))) in *.
  assert (P : forall i, (i < M)%nat -> 0 <= w.[i, 0%nat] * (d i * d i)) by (intros i Hi; specialize (Hw i Hi); nra).
  assert (P0 : 0 <= sd) by (apply sumf_nonneg; exact P). assert (Z : sd = 0) by lra.
  intros i Hi. assert (Q := sumf_nonneg_eq0 M _ P Z i Hi). cbv beta in Q. specialize (Hw i Hi). change (d i = 0). apply Rmult_integral in Q. destruct Q as [Q|Q]; [lra|]. apply Rmult_integral in Q. tauto.
Qed.

(** The test of the linear model passes if some affine function of the points fits the
    random outputs strictly better than every constant; if the points do not lie in a
    plane, only then. *)
Theorem C103_ols_subspace : forall eigh argsort lstsq (G : gen) (U : Type) (w : world G U (nd R)),
  eigh_contract eigh -> eigh_total eigh -> argsort_contract argsort -> lstsq_contract lstsq -> lstsq_total lstsq ->
  let x i j := drawn G (i * 3 + j) in
  let misfit a b := sumf 20 (fun i => (drawn G (60 + i) - a - sumf 3 (fun j => b j * x i j)) ^ 2) in
  let beats_constants := exists a b, forall a', misfit a b < misfit a' (fun _ => 0) in
  (beats_constants -> fst (test_ols_subspace eigh argsort lstsq w) = Ok tt) /\
  ((forall a b, (forall i, (i < 20)%nat -> a + sumf 3 (fun j => b j * x i j) = 0) -> forall j, (j < 3)%nat -> b j = 0) ->
     fst (test_ols_subspace eigh argsort lstsq w) = Ok tt -> beats_constants) /\
  (fst (test_ols_subspace eigh argsort lstsq w) <> Ok tt -> fst (test_ols_subspace eigh argsort lstsq w) = Err AssertionError).
Proof.
  intros eigh argsort lstsq G U w HE HT HA HL HLT x misfit better. unfold test_ols_subspace. rewrite seed_step. set (w0 := set_rng w _).
  destruct (normal2_ev G 20 3 w0) as (X & E1 & SX & VX). rewrite (nb _ _ w0 _ _ E1). set (w1 := set_rng w0 _).
  destruct (normal2_ev G 20 1 w1) as (f & E2 & Sf & Vf). rewrite (nb _ _ w1 _ _ E2).
  destruct (ols_subspace_returns eigh argsort lstsq HE HL 20 3 X f (equal_weights 20) HLT HT ltac:(lia) SX Sf eq_refl) as ((e & V) & ES). rewrite bind_lift, ES.
  destruct (ols_subspace_spec eigh argsort lstsq HE HA HL 20 3 X f (equal_weights 20) e V SX Sf eq_refl ltac:(intros; left; now apply equal_weights_pos) ES) as (a & b & lam & Hmin & L).
  destruct (rank_one 3 b e V lam L) as (R1 & R2 & _). specialize (R2 1%nat ltac:(lia) ltac:(lia)).
  destruct (below_spec e 3 (es_e _ _ _ _ _ L) ltac:(lia)) as (H1 & H2). unfold mlift. cbn [fst]. rewrite R1, R2 in H1.
  assert (W : forall a b, wls 20 3 X f (equal_weights 20) a b = / INR 20 * misfit a b).
  { intros a' b'. unfold wls, misfit. rewrite <- sumf_scal_l. apply sumf_ext. intros i Hi. change ((equal_weights 20).[i, 0%nat]) with (/ INR 20).
    assert (F : f.[i, 0%nat] = drawn G (60 + i)) by (rewrite Vf by lia; unfold w1; cbn [rng set_rng]; rewrite normal_at_add; unfold drawn, w0; cbn [rng set_rng]; f_equal; lia).
    rewrite F, (sumf_ext 3 (fun j => b' j * X.[i, j]) (fun j => b' j * x i j)) by (intros j Hj; rewrite VX by auto; reflexivity). ring. }
  assert (P : 0 < / INR 20) by (apply Rinv_0_lt_compat, lt_0_INR; lia).
  assert (B0 : 0 <= dot 3 b b) by apply dot_self_nonneg.
  split; [|split].
  - intros (a1 & b1 & Hb). apply H1. destruct (Req_dec (dot 3 b b) 0) as [Z|Z]; [|lra]. exfalso.
    assert (Z' : forall j, (j < 3)%nat -> b j = 0) by (intros j Hj; exact (sumf_sq_eq0 3 b Z j Hj)).
    specialize (Hb a). specialize (Hmin a1 b1). rewrite !W in Hmin. apply Rmult_le_reg_l in Hmin; auto.
    assert (E : misfit a b = misfit a (fun _ => 0)).
    { apply sumf_ext. intros i Hi. do 2 f_equal. apply sumf_ext. intros j Hj. now rewrite Z'. }
    lra.
  - intros HR Ho. apply H1 in Ho. exists a, b. intros a'. destruct (Rlt_le_dec (misfit a b) (misfit a' (fun _ => 0))) as [Hlt|Hle]; auto. exfalso.
    assert (Q := best_fits_agree 20 3 X f (equal_weights 20) a b a' (fun _ => 0) (equal_weights_pos 20) Hmin ltac:(rewrite !W; apply Rmult_le_compat_l; lra)).
    assert (Z : forall j, (j < 3)%nat -> b j = 0).
    { apply (HR (a - a')). intros i Hi. rewrite <- (Q i Hi). f_equal. apply sumf_ext. intros j Hj. rewrite VX by auto. unfold x, drawn. cbn [w0 rng set_rng]. ring. }
    assert (dot 3 b b = 0) by (apply sumf_zero; intros j Hj; rewrite Z by auto; ring). lra.
  - exact H2.
Qed.
Print Assumptions C103_ols_subspace.

(** ** The quadratic model *)
(** The test of the quadratic model passes if and only if the fitted gradient b + H x,
    with inputs of mean 0 and covariance gamma I, has a direction of larger mean square
    than every perpendicular one. *)
Theorem C103_qphd_subspace : forall eigh argsort lstsq (G : gen) (U : Type) (w : world G U (nd R)),
  eigh_contract eigh -> eigh_total eigh -> argsort_contract argsort -> lstsq_contract lstsq -> lstsq_total lstsq ->
  let x i j := drawn G (i * 3 + j) in
  let misfit c b H := sumf 50 (fun i => (drawn G (150 + i) - quadratic 3 c b H (x i)) ^ 2) in
  exists c b H gamma,
    (forall c' b' H', misfit c b H <= misfit c' b' H') /\ (forall i k, (i < 3)%nat -> (k < 3)%nat -> H i k = H k i) /\
    ((exists i j, (i < 50)%nat /\ (j < 3)%nat /\ 1 < x i j) -> gamma = 1) /\ ((forall i j, (i < 50)%nat -> (j < 3)%nat -> x i j <= 1) -> gamma = / 3) /\
    let q y := (sumf 3 (fun i => b i * y i)) ^ 2 + gamma * sumf 3 (fun l => (sumf 3 (fun i => H i l * y i)) ^ 2) in
    (fst (test_qphd_subspace eigh argsort lstsq w) = Ok tt <->
       exists x, unit_vector 3 x /\ forall y, unit_vector 3 y -> perpendicular 3 x y -> q y < q x) /\
    (fst (test_qphd_subspace eigh argsort lstsq w) <> Ok tt -> fst (test_qphd_subspace eigh argsort lstsq w) = Err AssertionError).
Proof.
  intros eigh argsort lstsq G U w HE HT HA HL HLT x misfit. unfold test_qphd_subspace. rewrite seed_step. set (w0 := set_rng w _).
  destruct (normal2_ev G 50 3 w0) as (X & E1 & SX & VX). rewrite (nb _ _ w0 _ _ E1). set (w1 := set_rng w0 _).
  destruct (normal2_ev G 50 1 w1) as (f & E2 & Sf & Vf). rewrite (nb _ _ w1 _ _ E2).
  destruct (qphd_subspace_returns eigh argsort lstsq HE HL 50 3 X f (equal_weights 50) HLT HT ltac:(lia) SX Sf eq_refl ltac:(cbn; lia)) as ((e & V) & ES). rewrite bind_lift, ES.
  destruct (qphd_subspace_spec eigh argsort lstsq HE HA HL 50 3 X f (equal_weights 50) e V SX Sf eq_refl ES) as (c & b & H & g & lam & Sy & Hmin & (G1 & G2) & L).
  assert (XV : forall i j, (i < 50)%nat -> (j < 3)%nat -> X.[i, j] = x i j) by (intros; rewrite VX by auto; reflexivity).
  assert (FV : forall i, (i < 50)%nat -> f.[i, 0%nat] = drawn G (150 + i)).
  { intros i Hi. rewrite Vf by lia. unfold w1. cbn [rng set_rng]. rewrite normal_at_add. unfold drawn, w0. cbn [rng set_rng]. f_equal. lia. }
  assert (P : 0 < / INR 50) by (apply Rinv_0_lt_compat, lt_0_INR; lia).
  assert (W : forall c b H, wq 50 3 X f (equal_weights 50) c b H = (/ INR 50 * / INR 50) * misfit c b H).
  { intros c' b' H'. rewrite <- quadratic_cost_wq. unfold quadratic_cost, misfit. rewrite <- sumf_scal_l. apply sumf_ext. intros i Hi. change ((equal_weights 50).[i, 0%nat]) with (/ INR 50).
    assert (Q : quadratic 3 c' b' H' (fun j => X.[i, j]) = quadratic 3 c' b' H' (x i)).
    { unfold quadratic. f_equal; [f_equal; apply sumf_ext; intros; rewrite XV by auto; ring|]. f_equal. apply sumf_ext. intros j Hj. apply sumf_ext. intros k Hk. rewrite !XV by auto. ring. }
    rewrite Q, FV by auto. ring. }
  assert (PG : 0 <= g).
  { destruct (existsb (fun i => existsb (fun j => rltb 1 (X.[i, j])) (seq 0 3)) (seq 0 50)) eqn:EX.
    - rewrite G1; [lra|]. apply existsb_exists in EX. destruct EX as (i & Hi & EX). apply existsb_exists in EX. destruct EX as (j & Hj & EX). apply in_seq in Hi, Hj. apply rltb_spec in EX.
      exists i, j. repeat split; auto; lia.
    - rewrite G2; [lra|]. intros i j Hi Hj. apply Rnot_lt_le. intros Hl. enough (T : existsb (fun i => existsb (fun j => rltb 1 (X.[i, j])) (seq 0 3)) (seq 0 50) = true) by congruence.
      apply existsb_exists. exists i. split; [apply in_seq; lia|]. apply existsb_exists. exists j. split; [apply in_seq; lia|]. now apply rltb_spec. }
  exists c, b, H, g. split; [|split; [|split; [|split]]].
  - intros c' b' H'. specialize (Hmin c' b' H'). rewrite !W in Hmin. apply Rmult_le_reg_l in Hmin; auto. nra.
  - exact Sy.
  - intros (i & j & Hi & Hj & Hl). apply G1. exists i, j. rewrite XV by auto. auto.
  - intros Hl. rewrite G2; [lra|]. intros i j Hi Hj. rewrite XV by auto. auto.
  - cbv zeta.
    assert (Q : forall y, quad 3 (quadC 3 g b H) y = (sumf 3 (fun i => b i * y i)) ^ 2 + g * sumf 3 (fun l => (sumf 3 (fun i => H i l * y i)) ^ 2)).
    { intros y. unfold quad, quadC. cbn [sumf]. ring. }
    refine (ends _ _ 3 _ e V lam (fun y => (sumf 3 (fun i => b i * y i)) ^ 2 + g * sumf 3 (fun l => (sumf 3 (fun i => H i l * y i)) ^ 2)) L _ _ Q); [|lia].
    intros y. rewrite Q. assert (0 <= sumf 3 (fun l => (sumf 3 (fun i => H i l * y i)) ^ 2)) by (apply sumf_nonneg; intros; nra). nra.
Qed.
Print Assumptions C103_qphd_subspace.

(** ** Local linear models *)
(** points drawn after seed 42 *)
Definition distinct_draws (G : gen) : Prop :=
  forall i i', (i < 50)%nat -> (i' < 50)%nat -> i <> i' -> exists j, (j < 3)%nat /\ drawn G (i * 3 + j) <> drawn G (i' * 3 + j).

Lemma draws_distinct : forall (G : gen) X, distinct_draws G -> shape X = [50; 3]%nat -> (forall i j, (i < 50)%nat -> (j < 3)%nat -> X.[i, j] = drawn G (i * 3 + j)) -> distinct_rows X 50.
Proof.
  intros G X HD SX VX i i' Hi Hi' Hne E. destruct (HD i i' Hi Hi' Hne) as (j & Hj & N). apply N. unfold sqdist in E. rewrite (ncols_shape2 _ X 50 3 SX) in E.
  assert (Q := sumf_sq_eq0 3 (fun k => X.[i, k] - X.[i', k]) E j Hj). cbv beta in Q. rewrite !VX in Q by auto. lra.
Qed.

Lemma spread_of_distinct : forall X M k, distinct_rows X M -> (k < M)%nat -> forall ii, (ii < M)%nat -> (k <= List.length (filter (fun i => neq0b (sqdist X i ii)) (seq 0 M)))%nat.
Proof.
  intros X M k HD Hk ii Hii.
  rewrite (filter_ext_in _ (fun i => negb (Nat.eqb (nth i (seq 0 M) 0%nat) ii))).
  - pose proof (filter_count (seq 0 M) ii) as T. rewrite seq_length in T.
    assert (C : (count_occ Nat.eq_dec (seq 0 M) ii <= 1)%nat) by (apply NoDup_count_occ, seq_NoDup). lia.
  - intros i Hi. apply in_seq in Hi. rewrite seq_nth by lia. cbn [Nat.add]. unfold neq0b.
    destruct (Nat.eqb_spec i ii) as [->|N]; cbn [negb].
    + rewrite sqdist_self. destruct (Req_EM_T 0 0); auto; lra.
    + destruct (Req_EM_T (sqdist X i ii) 0) as [Z|]; auto. exfalso. revert Z. apply HD; auto; lia.
Qed.

Lemma five_of_50 : (17 * 3 / 10 < 50)%nat.
Proof. change (17 * 3 / 10)%nat with 5%nat. lia. Qed.

(** Distinct points: the test of the outer product of local gradients ends, with at worst a failed assertion. *)
Theorem C103_opg_subspace : forall eigh argsort lstsq (G : gen) (U : Type) (w : world G U (nd R)),
  eigh_contract eigh -> eigh_total eigh -> argsort_contract argsort -> lstsq_total lstsq -> distinct_draws G ->
  fst (test_opg_subspace eigh argsort lstsq w) = Ok tt \/ fst (test_opg_subspace eigh argsort lstsq w) = Err AssertionError.
Proof.
  intros eigh argsort lstsq G U w HE HT HA HLT HD. unfold test_opg_subspace. rewrite seed_step. set (w0 := set_rng w _).
  destruct (normal2_ev G 50 3 w0) as (X & E1 & SX & VX). rewrite (nb _ _ w0 _ _ E1). set (w1 := set_rng w0 _).
  destruct (normal2_ev G 50 1 w1) as (f & E2 & Sf & Vf). rewrite (nb _ _ w1 _ _ E2). set (w2 := set_rng w1 _).
  destruct (opg_returns_spread eigh argsort lstsq G U X f (equal_weights 50) 50 3 w2 HE HT HA HLT SX Sf eq_refl (equal_weights_pos 50) ltac:(lia) five_of_50) as (e & V & w3 & lam & C & EO & L & PC).
  { apply spread_of_distinct; [|exact five_of_50]. apply (draws_distinct G); auto. }
  rewrite (nb _ _ w2 _ _ EO). unfold mlift. cbn [fst]. unfold second_below_first. apply compare_cases.
Qed.
Print Assumptions C103_opg_subspace.

(** ** The bootstrap replicate *)
(** the rows drawn are rows of the data: the test always passes *)
Theorem C103_bootstrap_replicate : forall (G : gen) (U : Type) (w : world G U (nd R)), fst (test_bootstrap_replicate w) = Ok tt.
Proof.
  intros G U w. unfold test_bootstrap_replicate. rewrite seed_step. set (w0 := set_rng w _).
  destruct (normal2_ev G 10 3 w0) as (X & E1 & SX & VX). rewrite (nb _ _ w0 _ _ E1). set (w1 := set_rng w0 _).
  destruct (normal2_ev G 10 1 w1) as (f & E2 & Sf & Vf). rewrite (nb _ _ w1 _ _ E2). set (w2 := set_rng w1 _).
  destruct (normal2_ev G 10 3 w2) as (df & E3 & Sd & Vd). rewrite (nb _ _ w2 _ _ E3). set (w3 := set_rng w2 _). cbv zeta.
  destruct (replicate_drawn (G := G) (U := U) 10 (Some X) (Some f) (Some df) (equal_weights 10) ltac:(lia) eq_refl) with (w := w3) as (ind & X0 & f0 & d0 & wt & w4 & ER & _ & L1 & L2 & _ & (g & -> & Qf) & _ & Qw).
  { intros y Hy. injection Hy as <-. eauto. }
  { intros y Hy. injection Hy as <-. eauto. }
  { intros y Hy. injection Hy as <-. eauto. }
  rewrite (nb _ _ w3 _ _ ER).
  destruct Qf as (r & c & S1 & S2 & _ & VF). rewrite Sf in S1. injection S1 as <- <-. rewrite L1 in S2, VF.
  destruct Qw as (r & c & S3 & S4 & _ & VW). injection S3 as <- <-. rewrite L1 in S4, VW.
  assert (IN : forall i, (i < 10)%nat -> (nth i ind 0 < 10)%nat) by (intros i Hi; rewrite Forall_forall in L2; apply L2, nth_In; lia).
  assert (AI : forall Y Y0 i, shape Y = [10; 1]%nat -> (i < 10)%nat -> (forall i j, (i < 10)%nat -> (j < 1)%nat -> Y0.[i, j] = Y.[nth i ind 0%nat, j]) -> any_is Y Y0 i = true).
  { intros Y Y0 i SY Hi HV. unfold any_is. rewrite (nrows_shape2 _ Y 10 1 SY). apply existsb_exists. exists (nth i ind 0%nat). split; [apply in_seq; specialize (IN i Hi); lia|].
    rewrite HV by lia. destruct (Req_EM_T _ _); auto; contradiction. }
  rewrite bind_lift, (nrows_shape2 _ wt 10 1 S4). cbn [Nat.ltb Nat.leb guard].
  rewrite bind_lift, (AI (equal_weights 10) wt 0%nat eq_refl ltac:(lia) VW). cbn [assert_].
  rewrite bind_lift. rewrite bind_lift, (nrows_shape2 _ g 10 1 S2). cbn [Nat.ltb Nat.leb guard].
  rewrite (AI f g 1%nat Sf ltac:(lia) VF). reflexivity.
Qed.
Print Assumptions C103_bootstrap_replicate.

(** ** Choosing the dimension *)
Section Methods.
  Context {G : gen} {U : Type}.
  Notation W := (world G U (nd R)).
  Variable eigh : nd R -> res (nd R * nd R).
  Variable argsort : list R -> list nat.
  Variable lstsq : nd R -> nd R -> res (nd R).
  Hypothesis HE : eigh_contract eigh.
  Hypothesis HT : eigh_total eigh.
  Hypothesis HA : argsort_contract argsort.
  Hypothesis HL : lstsq_contract lstsq.
  Hypothesis HLT : lstsq_total lstsq.

  Lemma gradients_ok : forall M m d wt, shape d = [M; m] -> shape wt = [M; 1%nat] -> (0 < m)%nat ->
    exists e V lam C, active_subspace eigh argsort d wt = Ok (e, V) /\ eigsorted m C e V lam.
  Proof.
    intros M m d wt Sd Sw Hm. destruct (active_subspace_returns eigh argsort HE M m d wt HT Hm Sd Sw) as ((e & V) & ES).
    destruct (active_subspace_spec eigh argsort HE HA M m d wt e V Sd Sw ES) as (lam & L). eauto 7.
  Qed.
  Lemma ols_ok : forall M m x f wt, shape x = [M; m] -> shape f = [M; 1%nat] -> shape wt = [M; 1%nat] -> (forall i, (i < M)%nat -> 0 <= wt.[i, 0%nat]) -> (0 < m)%nat ->
    exists e V lam C, ols_subspace eigh argsort lstsq x f wt = Ok (e, V) /\ eigsorted m C e V lam.
  Proof.
    intros M m x f wt Sx Sf Sw Pw Hm. destruct (ols_subspace_returns eigh argsort lstsq HE HL M m x f wt HLT HT Hm Sx Sf Sw) as ((e & V) & ES).
    destruct (ols_subspace_spec eigh argsort lstsq HE HA HL M m x f wt e V Sx Sf Sw Pw ES) as (a & b & lam & _ & L). eauto 7.
  Qed.
  Lemma qphd_ok : forall M m x f wt, shape x = [M; m] -> shape f = [M; 1%nat] -> shape wt = [M; 1%nat] -> (0 < m)%nat -> (binom (2 + m) m <= M)%nat ->
    exists e V lam C, qphd_subspace eigh argsort lstsq x f wt = Ok (e, V) /\ eigsorted m C e V lam.
  Proof.
    intros M m x f wt Sx Sf Sw Hm HM. destruct (qphd_subspace_returns eigh argsort lstsq HE HL M m x f wt HLT HT Hm Sx Sf Sw HM) as ((e & V) & ES).
    destruct (qphd_subspace_spec eigh argsort lstsq HE HA HL M m x f wt e V Sx Sf Sw ES) as (c & b & H & g & lam & _ & _ & _ & L). eauto 7.
  Qed.

  Variable norm2 : nd R -> R.
  Variable det : nd R -> R.

  Lemma resampled_shape : forall M c (x x0 : nd R) ind, shape x = [M; c] -> List.length ind = M -> rows_of x ind x0 -> shape x0 = [M; c].
  Proof. intros M c x x0 ind Sx L (r & k & S1 & S2 & _). rewrite Sx in S1. injection S1 as <- <-. now rewrite L in S2. Qed.
  Lemma resampled_weights : forall M (x x0 : nd R) ind, shape x = [M; 1%nat] -> List.length ind = M -> rows_of x ind x0 -> (forall i, (i < M)%nat -> 0 < x.[i, 0%nat]) -> forall i, (i < M)%nat -> 0 < x0.[i, 0%nat].
  Proof.
    intros M x x0 ind Sx L (r & k & S1 & S2 & F & V) P i Hi. rewrite Sx in S1. injection S1 as <- <-. rewrite L in V. rewrite V by lia. apply P.
    rewrite Forall_forall in F. apply F, nth_In. lia.
  Qed.

  (** ten replicates of the gradients *)
  Lemma boot_gradients : forall M m d wt e V nboot (w : W), (1 <= M)%nat -> (1 <= m)%nat -> shape d = [M; m] -> shape wt = [M; 1%nat] -> shape V = [m; m] ->
    exists e_br sub_br li_F w', bootstrap_ranges norm2 det e V None None (Some d) wt (by_gradients eigh argsort) nboot w = (Ok (e_br, sub_br, li_F), w') /\
      shape sub_br = [(m - 1)%nat; 3%nat] /\ shape li_F = [m; 1%nat].
  Proof.
    intros M m d wt e V nboot w HM Hm Sd Sw SV.
    apply (gen_bootstrap norm2 det (by_gradients eigh argsort) M m None None (Some d) wt HM Hm Sw); auto; try discriminate.
    - intros y Hy. injection Hy as <-. eauto.
    - intros ind X0 f0 d0 w0 st _ L1 L2 _ _ (d1 & -> & Qd) Qw.
      destruct (gradients_ok M m d1 w0 (resampled_shape _ _ _ _ _ Sd L1 Qd) (resampled_shape _ _ _ _ _ Sw L1 Qw) Hm) as (e0 & V0 & lam & C & ES & L).
      exists e0, V0, st. split; [unfold by_gradients, given, mbind, mret, mlift; now rewrite ES|]. split; [apply (es_e _ _ _ _ _ L)|apply (es_V _ _ _ _ _ L)].
  Qed.
End Methods.

(** whatever is drawn, the three tests of the choice of dimension run to the end *)
Theorem C103_partitions : forall eigh argsort norm2 det (G : gen) (U : Type) (w : world G U (nd R)), eigh_contract eigh -> eigh_total eigh -> argsort_contract argsort ->
  fst (test_eig_partition eigh argsort w) = Ok tt /\ fst (test_errbnd_partition eigh argsort norm2 det w) = Ok tt /\ fst (test_ladle_partition eigh argsort norm2 det w) = Ok tt.
Proof.
  intros eigh argsort norm2 det G U w HE HT HA.
  assert (B : forall k : nd R -> nd R -> nd R -> Py.M (world G U (nd R)) unit,
    (forall df e V w', shape df = [10; 3]%nat -> shape e = [3; 1]%nat -> shape V = [3; 3]%nat -> (forall i, (i < 3)%nat -> 0 <= e.[i, 0%nat]) -> fst (k df e V w') = Ok tt) ->
    fst ((dom _ <- seed 42; dom df <- normal2 10 3; dom (e, V) <- mlift (active_subspace eigh argsort df (equal_weights 10)); k df e V) w) = Ok tt).
  { intros k Hk. rewrite seed_step. set (w0 := set_rng w _). destruct (normal2_ev G 10 3 w0) as (X & E1 & SX & VX). rewrite (nb _ _ w0 _ _ E1).
    destruct (gradients_ok eigh argsort HE HT HA 10 3 X (equal_weights 10) SX eq_refl ltac:(lia)) as (e & V & lam & C & ES & L). rewrite bind_lift, ES.
    apply Hk; auto; [apply (es_e _ _ _ _ _ L)|apply (es_V _ _ _ _ _ L)|apply (eigsorted_nonneg _ _ _ _ _ L)]. }
  split; [|split].
  - apply (B (fun df e V => dom _ <- mlift (eig_partition e); mret tt)). intros df e V w' Sd Se SV Pe.
    destruct (eig_partition_eq 3 e Se ltac:(lia)) as (k & ed & -> & _). reflexivity.
  - apply (B (fun df e V => dom (e_br, sub_br, li_F) <- bootstrap_ranges norm2 det e V None None (Some df) (equal_weights 10) (by_gradients eigh argsort) 10;
      dom sub_err <- mlift (reshape [2; 1]%nat (mk1 (nrows sub_br) (fun i => sub_br.[i, 1%nat])));
      dom _ <- mlift (errbnd_partition e sub_err); mret tt)). intros df e V w' Sd Se SV Pe.
    destruct (boot_gradients eigh argsort HE HT HA norm2 det 10 3 df (equal_weights 10) e V 10 w' ltac:(lia) ltac:(lia) Sd eq_refl SV) as (e_br & sub_br & li_F & w1 & EB & S1 & S2).
    rewrite (nb _ _ w' _ _ EB). rewrite (nrows_shape2 _ sub_br 2 3 S1).
    destruct (reshape_ok _ [2; 1]%nat (mk1 2 (fun i => sub_br.[i, 1%nat]))) as (err & F1 & F2 & F3); [reflexivity|]. rewrite bind_lift, F1.
    destruct (errbnd_partition_eq 3 e err Se F2 ltac:(lia) Pe) as (k & eb & EP & _). rewrite bind_lift, EP. reflexivity.
  - apply (B (fun df e V => dom (e_br, sub_br, li_F) <- bootstrap_ranges norm2 det e V None None (Some df) (equal_weights 10) (by_gradients eigh argsort) 10;
      dom _ <- mlift (ladle_partition e li_F); mret tt)). intros df e V w' Sd Se SV Pe.
    destruct (boot_gradients eigh argsort HE HT HA norm2 det 10 3 df (equal_weights 10) e V 10 w' ltac:(lia) ltac:(lia) Sd eq_refl SV) as (e_br & sub_br & li_F & w1 & EB & S1 & S2).
    rewrite (nb _ _ w' _ _ EB). destruct (ladle_sum 3 e li_F Se S2) as (Gm & G1 & _ & EL).
    destruct (np_argmin_col 3 Gm G1 ltac:(lia)) as (k & Ek & _). rewrite bind_lift, EL, Ek. reflexivity.
Qed.
Print Assumptions C103_partitions.

(** ** Bootstrap ranges and the class *)
(** no 50 successive draws of an index below 50 take one index more than 45 times *)
Definition spread_draws (G : gen) (U : Type) : Prop :=
  forall ind (w w' : world G U (nd R)), repeatM 50 (draw_randint 50) w = (Ok ind, w') -> forall k, (count_occ Nat.eq_dec ind k <= 45)%nat.

Section Boots.
  Context {G : gen} {U : Type}.
  Notation W := (world G U (nd R)).
  Variable eigh : nd R -> res (nd R * nd R).
  Variable argsort : list R -> list nat.
  Variable lstsq : nd R -> nd R -> res (nd R).
  Variable norm2 : nd R -> R.
  Variable det : nd R -> R.
  Hypothesis HE : eigh_contract eigh.
  Hypothesis HT : eigh_total eigh.
  Hypothesis HA : argsort_contract argsort.
  Hypothesis HL : lstsq_contract lstsq.
  Hypothesis HLT : lstsq_total lstsq.
  Variables (x f d : nd R).
  Hypothesis Sx : shape x = [50; 3]%nat.
  Hypothesis Sf : shape f = [50; 1]%nat.
  Hypothesis Sd : shape d = [50; 3]%nat.
  Notation wt := (equal_weights 50).

  Lemma binom_50 : (binom (2 + 3) 3 <= 50)%nat.
  Proof. change (binom (2 + 3) 3) with 10%nat. lia. Qed.

  (** the three methods other than OPG return on the data and on all resamplings *)
  Definition simple (s : string) : Prop := (s = "AS" \/ s = "OLS" \/ s = "QPHD")%string.
  Lemma simple_ok : forall s x0 f0 d0 w0 (st : W), simple s -> shape x0 = [50; 3]%nat -> shape f0 = [50; 1]%nat -> shape d0 = [50; 3]%nat -> shape w0 = [50; 1]%nat ->
    (forall i, (i < 50)%nat -> 0 < w0.[i, 0%nat]) ->
    exists e V, ssmethod eigh argsort lstsq s (Some x0) (Some f0) (Some d0) w0 st = (Ok (e, V), st).
  Proof.
    intros s x0 f0 d0 w0 st Hs S1 S2 S3 S4 P. assert (P' : forall i, (i < 50)%nat -> 0 <= w0.[i, 0%nat]) by (intros; left; auto).
    destruct Hs as [Hs|[Hs|Hs]]; subst s; unfold ssmethod; cbn [String.eqb Ascii.eqb Bool.eqb]; unfold mlift.
    - destruct (gradients_ok eigh argsort HE HT HA 50 3 d0 w0 S3 S4 ltac:(lia)) as (e & V & lam & C & -> & _). eauto.
    - destruct (ols_ok eigh argsort lstsq HE HT HA HL HLT 50 3 x0 f0 w0 S1 S2 S4 P' ltac:(lia)) as (e & V & lam & C & -> & _). eauto.
    - destruct (qphd_ok eigh argsort lstsq HE HT HA HL HLT 50 3 x0 f0 w0 S1 S2 S4 ltac:(lia) binom_50) as (e & V & lam & C & -> & _). eauto.
  Qed.

  Lemma simple_compute : forall s ptype nboot (ws : W * subspaces), simple s -> (ptype = "EVG"%string \/ (ptype = "RS" \/ ptype = "LI")%string /\ (0 < nboot)%Z) ->
    exists ws', ss_compute eigh argsort lstsq norm2 det (Some x) (Some f) (Some d) (Some wt) s ptype nboot ws = (Ok tt, ws').
  Proof.
    intros s ptype nboot ws Hs Hp.
    apply (gen_compute eigh argsort lstsq norm2 det HE HA 50 3 s x f d wt ltac:(lia) ltac:(lia) Sx Sf Sd eq_refl) with (boot := true).
    - intros st. destruct (simple_ok s x f d wt st Hs Sx Sf Sd eq_refl (equal_weights_pos 50)) as (e & V & E). eauto.
    - intros _ ind x0 f0 d0 w0 st _ L1 L2 Q1 Q2 Q3 Q4.
      destruct (simple_ok s x0 f0 d0 w0 st Hs (resampled_shape _ _ _ _ _ Sx L1 Q1) (resampled_shape _ _ _ _ _ Sf L1 Q2) (resampled_shape _ _ _ _ _ Sd L1 Q3) (resampled_shape 50 1 wt _ _ eq_refl L1 Q4)
        (resampled_weights 50 wt w0 ind eq_refl L1 Q4 (equal_weights_pos 50))) as (e & V & E). eauto.
    - destruct Hp as [Hp|Hp]; tauto.
  Qed.

  Hypothesis HD : distinct_rows x 50.

  Lemma opg_full : forall (st : W), exists e V st' lam C, opg_subspace eigh argsort lstsq x f wt st = (Ok (e, V), st') /\ eigsorted 3 C e V lam.
  Proof.
    intros st. destruct (opg_returns_spread eigh argsort lstsq G U x f wt 50 3 st HE HT HA HLT Sx Sf eq_refl (equal_weights_pos 50) ltac:(lia) five_of_50) as (e & V & st' & lam & C & EO & L & _).
    - apply spread_of_distinct; [auto|exact five_of_50].
    - eauto 7.
  Qed.
  Lemma opg_resampled : forall ind x0 f0 w0 (st : W), (forall k, (count_occ Nat.eq_dec ind k <= 45)%nat) -> List.length ind = 50%nat -> Forall (fun k => (k < 50)%nat) ind ->
    rows_of x ind x0 -> rows_of f ind f0 -> rows_of wt ind w0 ->
    exists e V st' lam C, opg_subspace eigh argsort lstsq x0 f0 w0 st = (Ok (e, V), st') /\ eigsorted 3 C e V lam.
  Proof.
    intros ind x0 f0 w0 st HS L1 L2 Q1 Q2 Q3.
    destruct (opg_returns_spread eigh argsort lstsq G U x0 f0 w0 50 3 st HE HT HA HLT (resampled_shape _ _ _ _ _ Sx L1 Q1) (resampled_shape _ _ _ _ _ Sf L1 Q2) (resampled_shape 50 1 wt _ _ eq_refl L1 Q3)
      (resampled_weights 50 wt w0 ind eq_refl L1 Q3 (equal_weights_pos 50)) ltac:(lia) five_of_50) as (e & V & st' & lam & C & EO & L & _).
    - intros ii Hii. apply (resampled_spread x 50 3 ind x0 (17 * 3 / 10) ii Sx HD Q1 L1 L2 Hii). change (17 * 3 / 10)%nat with 5%nat. specialize (HS (nth ii ind 0%nat)). lia.
    - eauto 7.
  Qed.
  Lemma opg_compute : forall nboot (ws : W * subspaces), ((0 < nboot)%Z -> spread_draws G U) ->
    exists ws', ss_compute eigh argsort lstsq norm2 det (Some x) (Some f) (Some d) (Some wt) "OPG" "EVG" nboot ws = (Ok tt, ws').
  Proof.
    intros nboot ws HS.
    apply (gen_compute eigh argsort lstsq norm2 det HE HA 50 3 "OPG" x f d wt ltac:(lia) ltac:(lia) Sx Sf Sd eq_refl) with (boot := Z.ltb 0 nboot).
    - intros st. destruct (opg_full st) as (e & V & st' & lam & C & E & _). exists e, V, st'. exact E.
    - intros Hb ind x0 f0 d0 w0 st (sa & sb & ED) L1 L2 Q1 Q2 Q3 Q4. apply Z.ltb_lt in Hb.
      destruct (opg_resampled ind x0 f0 w0 st (HS Hb _ _ _ ED) L1 L2 Q1 Q2 Q4) as (e & V & st' & lam & C & E & _). exists e, V, st'. exact E.
    - left. split; auto. intros Hb. now apply Z.ltb_lt.
  Qed.

  (** one step of test_bootstrap_ranges *)
  Notation step := (fun s : (option (nd R) -> option (nd R) -> option (nd R) -> nd R -> Py.M W (nd R * nd R)) * bool =>
      let (ssmethod, grads) := s in
      dom (e, V) <- ssmethod (Some x) (Some f) (Some d) wt;
      dom _ <- (if grads : bool then bootstrap_ranges norm2 det e V None None (Some d) wt ssmethod 10
                else bootstrap_ranges norm2 det e V (Some x) (Some f) None wt ssmethod 10);
      mret tt).

  Lemma pair_boot : forall (meth : option (nd R) -> option (nd R) -> option (nd R) -> nd R -> Py.M W (nd R * nd R)) e V (w : W), shape V = [3; 3]%nat ->
    (forall ind x0 f0 w0 (st : W), (exists sa sb : W, repeatM 50 (draw_randint 50) sa = (Ok ind, sb)) -> List.length ind = 50%nat -> Forall (fun k => (k < 50)%nat) ind ->
       rows_of x ind x0 -> rows_of f ind f0 -> rows_of wt ind w0 ->
       exists e V st' lam C, meth (Some x0) (Some f0) None w0 st = (Ok (e, V), st') /\ eigsorted 3 C e V lam) ->
    exists r w', bootstrap_ranges norm2 det e V (Some x) (Some f) None wt meth 10 w = (Ok r, w').
  Proof.
    intros meth e V w SV Hm.
    destruct (gen_bootstrap norm2 det meth 50 3 (Some x) (Some f) None wt ltac:(lia) ltac:(lia) eq_refl) with (e := e) (Wm := V) (nboot := 10%nat) (w := w) as (a & b & c & w' & E & _); eauto.
    - intros y Hy. injection Hy as <-. eauto.
    - intros y Hy. injection Hy as <-. eauto.
    - discriminate.
    - intros ind X0 f0 d0 w0 st R1 L1 L2 (x1 & -> & Q1) (f1 & -> & Q2) Q3 Q4. cbn in Q3. subst d0.
      destruct (Hm ind x1 f1 w0 st R1 L1 L2 Q1 Q2 Q4) as (e0 & V0 & st' & lam & C & EM & L).
      exists e0, V0, st'. split; auto. split; [apply (es_e _ _ _ _ _ L)|apply (es_V _ _ _ _ _ L)].
  Qed.

  Lemma step_gradients : forall w : W, exists w', step (by_gradients eigh argsort, true) w = (Ok tt, w').
  Proof.
    intros w. cbv beta iota. destruct (gradients_ok eigh argsort HE HT HA 50 3 d wt Sd eq_refl ltac:(lia)) as (e & V & lam & C & ES & L).
    assert (E : by_gradients eigh argsort (Some x) (Some f) (Some d) wt w = (Ok (e, V), w)) by (unfold by_gradients, given, mbind, mret, mlift; now rewrite ES).
    rewrite (nb _ _ w _ _ E). destruct (boot_gradients eigh argsort HE HT HA norm2 det 50 3 d wt e V 10 w ltac:(lia) ltac:(lia) Sd eq_refl (es_V _ _ _ _ _ L)) as (a & b & c & w' & EB & _).
    rewrite (nb _ _ w _ _ EB). eexists. reflexivity.
  Qed.
  Lemma step_ols : forall w : W, exists w', step (by_ols eigh argsort lstsq, false) w = (Ok tt, w').
  Proof.
    intros w. cbv beta iota. assert (P : forall i, (i < 50)%nat -> 0 <= wt.[i, 0%nat]) by (intros; left; now apply equal_weights_pos).
    destruct (ols_ok eigh argsort lstsq HE HT HA HL HLT 50 3 x f wt Sx Sf eq_refl P ltac:(lia)) as (e & V & lam & C & ES & L).
    assert (E : by_ols eigh argsort lstsq (Some x) (Some f) (Some d) wt w = (Ok (e, V), w)) by (unfold by_ols, given, mbind, mret, mlift; now rewrite ES).
    rewrite (nb _ _ w _ _ E). destruct (pair_boot (by_ols eigh argsort lstsq) e V w (es_V _ _ _ _ _ L)) as (r & w' & EB).
    - intros ind x0 f0 w0 st _ L1 L2 Q1 Q2 Q3.
      assert (P' : forall i, (i < 50)%nat -> 0 <= w0.[i, 0%nat]) by (intros; left; apply (resampled_weights 50 wt w0 ind eq_refl L1 Q3 (equal_weights_pos 50)); auto).
      destruct (ols_ok eigh argsort lstsq HE HT HA HL HLT 50 3 x0 f0 w0 (resampled_shape _ _ _ _ _ Sx L1 Q1) (resampled_shape _ _ _ _ _ Sf L1 Q2) (resampled_shape 50 1 wt _ _ eq_refl L1 Q3) P' ltac:(lia))
        as (e0 & V0 & lam0 & C0 & ES0 & L0).
      exists e0, V0, st, lam0, C0. split; auto. unfold by_ols, given, mbind, mret, mlift. now rewrite ES0.
    - rewrite (nb _ _ w _ _ EB). eexists. reflexivity.
  Qed.
  Lemma step_qphd : forall w : W, exists w', step (by_qphd eigh argsort lstsq, false) w = (Ok tt, w').
  Proof.
    intros w. cbv beta iota.
    destruct (qphd_ok eigh argsort lstsq HE HT HA HL HLT 50 3 x f wt Sx Sf eq_refl ltac:(lia) binom_50) as (e & V & lam & C & ES & L).
    assert (E : by_qphd eigh argsort lstsq (Some x) (Some f) (Some d) wt w = (Ok (e, V), w)) by (unfold by_qphd, given, mbind, mret, mlift; now rewrite ES).
    rewrite (nb _ _ w _ _ E). destruct (pair_boot (by_qphd eigh argsort lstsq) e V w (es_V _ _ _ _ _ L)) as (r & w' & EB).
    - intros ind x0 f0 w0 st _ L1 L2 Q1 Q2 Q3.
      destruct (qphd_ok eigh argsort lstsq HE HT HA HL HLT 50 3 x0 f0 w0 (resampled_shape _ _ _ _ _ Sx L1 Q1) (resampled_shape _ _ _ _ _ Sf L1 Q2) (resampled_shape 50 1 wt _ _ eq_refl L1 Q3) ltac:(lia) binom_50)
        as (e0 & V0 & lam0 & C0 & ES0 & L0).
      exists e0, V0, st, lam0, C0. split; auto. unfold by_qphd, given, mbind, mret, mlift. now rewrite ES0.
    - rewrite (nb _ _ w _ _ EB). eexists. reflexivity.
  Qed.
  Lemma step_opg : spread_draws G U -> forall w : W, exists w', step (by_opg eigh argsort lstsq, false) w = (Ok tt, w').
  Proof.
    intros HS w. cbv beta iota. destruct (opg_full w) as (e & V & w1 & lam & C & EO & L).
    assert (E : by_opg eigh argsort lstsq (Some x) (Some f) (Some d) wt w = (Ok (e, V), w1)) by exact EO.
    rewrite (nb _ _ w _ _ E). destruct (pair_boot (by_opg eigh argsort lstsq) e V w1 (es_V _ _ _ _ _ L)) as (r & w' & EB).
    - intros ind x0 f0 w0 st (sa & sb & ED) L1 L2 Q1 Q2 Q3. exact (opg_resampled ind x0 f0 w0 st (HS _ _ _ ED) L1 L2 Q1 Q2 Q3).
    - rewrite (nb _ _ w1 _ _ EB). eexists. reflexivity.
  Qed.
End Boots.

Lemma three_draws : forall (G : gen) (U B : Type) (k : nd R -> nd R -> nd R -> Py.M (world G U (nd R)) B) w, exists X f df w',
  (dom _ <- seed 42; dom X <- normal2 50 3; dom f <- normal2 50 1; dom df <- normal2 50 3; k X f df) w = k X f df w' /\
  shape X = [50; 3]%nat /\ shape f = [50; 1]%nat /\ shape df = [50; 3]%nat /\ forall i j, (i < 50)%nat -> (j < 3)%nat -> X.[i, j] = drawn G (i * 3 + j).
Proof.
  intros G U B k w. rewrite seed_step. set (w0 := set_rng w _).
  destruct (normal2_ev G 50 3 w0) as (X & E1 & SX & VX). rewrite (nb _ _ w0 _ _ E1). set (w1 := set_rng w0 _).
  destruct (normal2_ev G 50 1 w1) as (f & E2 & Sf & Vf). rewrite (nb _ _ w1 _ _ E2). set (w2 := set_rng w1 _).
  destruct (normal2_ev G 50 3 w2) as (df & E3 & Sd & Vd). rewrite (nb _ _ w2 _ _ E3). exists X, f, df. eexists. split; [reflexivity|]. repeat (split; auto).
Qed.

(** With distinct points, and resamplings that leave five points other than any given
    one, the test of the bootstrap and the test of the class run to the end. *)
Theorem C103_bootstrap : forall eigh argsort lstsq norm2 det (G : gen) (U : Type) (w : world G U (nd R)),
  eigh_contract eigh -> eigh_total eigh -> argsort_contract argsort -> lstsq_contract lstsq -> lstsq_total lstsq -> distinct_draws G -> spread_draws G U ->
  fst (test_bootstrap_ranges eigh argsort lstsq norm2 det w) = Ok tt /\ fst (test_subspace_class eigh argsort lstsq norm2 det w) = Ok tt.
Proof.
  intros eigh argsort lstsq norm2 det G U w HE HT HA HL HLT HD HS. split.
  - unfold test_bootstrap_ranges.
    destruct (three_draws G U unit (fun X f df => test_bootstrap_ranges_of norm2 det [(by_gradients eigh argsort, true); (by_ols eigh argsort lstsq, false); (by_qphd eigh argsort lstsq, false); (by_opg eigh argsort lstsq, false)] X f df (equal_weights 50)) w)
      as (X & f & df & w0 & -> & SX & Sf & Sd & VX). assert (DR := draws_distinct G X HD SX VX).
    unfold test_bootstrap_ranges_of. cbn [mmap].
    destruct (step_gradients (U := U) eigh argsort norm2 det HE HT HA X f df Sd w0) as (w1 & E1).
    destruct (step_ols eigh argsort lstsq norm2 det HE HT HA HL HLT X f df SX Sf w1) as (w2 & E2).
    destruct (step_qphd eigh argsort lstsq norm2 det HE HT HA HL HLT X f df SX Sf w2) as (w3 & E3).
    destruct (step_opg eigh argsort lstsq norm2 det HE HT HA HLT X f df SX Sf DR HS w3) as (w4 & E4).
    unfold mbind at 1. unfold mbind at 1. rewrite E1. unfold mbind at 1. unfold mbind at 1. rewrite E2. unfold mbind at 1. unfold mbind at 1. rewrite E3. unfold mbind at 1. unfold mbind at 1. rewrite E4. reflexivity.
  - unfold test_subspace_class.
    destruct (three_draws G U unit (fun X f df => dom _ <- on_new (dom _ <- mmap (fun c : string * string * Z => let '(sstype, ptype, nboot) := c in
               ss_compute eigh argsort lstsq norm2 det (Some X) (Some f) (Some df) (Some (equal_weights 50)) sstype ptype nboot) class_calls; mret tt); mret tt) w)
      as (X & f & df & w0 & -> & SX & Sf & Sd & VX). assert (DR := draws_distinct G X HD SX VX).
    assert (HC : forall l (ws : world G U (nd R) * subspaces), incl l class_calls -> exists bs ws', mmap (fun c : string * string * Z => let '(sstype, ptype, nboot) := c in
               ss_compute eigh argsort lstsq norm2 det (Some X) (Some f) (Some df) (Some (equal_weights 50)) sstype ptype nboot) l ws = (Ok bs, ws')).
    { induction l as [|((s & p) & n) l IH]; intros ws Hi; [eexists; eexists; reflexivity|]. cbn [mmap].
      assert (H1 : exists ws', ss_compute eigh argsort lstsq norm2 det (Some X) (Some f) (Some df) (Some (equal_weights 50)) s p n ws = (Ok tt, ws')).
      { assert (Q := Hi _ (or_introl eq_refl)). unfold class_calls in Q. cbn [In] in Q.
        assert (K : simple s /\ (p = "EVG"%string \/ (p = "RS" \/ p = "LI")%string /\ (0 < n)%Z) \/ s = "OPG"%string /\ p = "EVG"%string).
        { unfold simple. repeat destruct Q as [Q|Q]; try contradiction; injection Q as <- <- <-; try (right; tauto); left; (split; [tauto|]); try (left; reflexivity); right; split; try tauto; lia. }
        destruct K as [[K1 K2]|[-> ->]].
        - apply simple_compute; auto.
        - apply opg_compute; auto. }
      destruct H1 as (ws1 & E). rewrite (nb _ _ ws _ _ E). destruct (IH ws1) as (bs & ws2 & E2); [intros c Hc; apply Hi; now right|].
      rewrite (nb _ _ ws1 _ _ E2). eexists; eexists; reflexivity. }
    unfold mbind at 1. unfold on_new. destruct (HC class_calls (w0, subs_new) (incl_refl _)) as (bs & (w' & s') & E). rewrite (nb _ _ (w0, subs_new) _ _ E). reflexivity.
Qed.
Print Assumptions C103_bootstrap.

(** A generator whose normal numbers are 0, 1, 2, ... and whose indices run through
    0, 1, 2, ... or are always 0. *)
Definition row_gen (stuck : bool) : gen :=
  Gen nat (fun _ => 0%nat) (fun k => (INR k, S k)) (fun k => (0, S k)) (fun hi k => (if stuck then 0%nat else Nat.modulo k hi, S k)) (fun _ => zero01)
    (fun hi k (H : (0 < hi)%nat) => match stuck as b return ((if b then 0 else Nat.modulo k hi) < hi)%nat with true => H | false => Nat.mod_upper_bound k hi (Nat.neq_sym _ _ (Nat.lt_neq _ _ H)) end).

Lemma row_gen_normal : forall b k s, @normal_at (row_gen b) s k = INR (s + k).
Proof.
  intros b. assert (S1 : forall k s, @normal_state (row_gen b) k s = (s + k)%nat).
  { induction k as [|k IH]; intros s; [exact (eq_sym (Nat.add_0_r s))|]. transitivity (@normal_state (row_gen b) k (S s)); [reflexivity|]. rewrite IH. exact (Nat.add_succ_comm s k). }
  intros k s. unfold normal_at. rewrite S1. reflexivity.
Qed.
Lemma row_gen_distinct : forall b, distinct_draws (row_gen b).
Proof.
  intros b i i' Hi Hi' Hne. exists 0%nat. split; [lia|]. unfold drawn. rewrite !row_gen_normal. cbn [row_gen g_seed]. apply not_INR. lia.
Qed.

Lemma row_gen_indices : forall U n (w : world (row_gen false) U (nd R)), exists w', repeatM n (draw_randint 50) w = (Ok (map (fun i => Nat.modulo (rng w + i) 50) (seq 0 n)), w').
Proof.
  intros U. induction n as [|n IH]; intros w; [eexists; reflexivity|]. cbn [repeatM].
  assert (E : draw_randint 50 w = (Ok (Nat.modulo (rng w) 50), set_rng w (S (rng w)))) by reflexivity.
  rewrite (nb _ _ w _ _ E). destruct (IH (set_rng w (S (rng w)))) as (w' & E2). rewrite (nb _ _ _ _ _ E2). exists w'. unfold mret. f_equal. f_equal.
  change (seq 0 (S n)) with (0%nat :: seq 1 n). cbn [map]. rewrite Nat.add_0_r. f_equal. rewrite <- seq_shift, map_map. apply map_ext. intros a. cbn [set_rng rng]. f_equal. lia.
Qed.
Lemma nth_map_seq_nat : forall (f : nat -> nat) n k d, (k < n)%nat -> nth k (map f (seq 0 n)) d = f k.
Proof.
  intros f n k d H. rewrite (nth_indep _ d (f 0%nat)) by (rewrite map_length, seq_length; auto). rewrite map_nth, seq_nth by auto. reflexivity.
Qed.
Lemma row_gen_spread : forall U, spread_draws (row_gen false) U.
Proof.
  intros U ind w w' E k. destruct (row_gen_indices U 50 w) as (w2 & E2). rewrite E in E2. injection E2 as E2 _. subst ind. change (gst (row_gen false)) with nat in *. generalize (rng w : nat). intros s0.
  enough (N : NoDup (map (fun i => Nat.modulo (s0 + i) 50) (seq 0 50))).
  { apply Nat.le_trans with 1%nat; [exact (proj1 (NoDup_count_occ Nat.eq_dec _) N k)|lia]. }
  apply (NoDup_nth _ 0%nat). intros i j. rewrite map_length, seq_length. intros Hi Hj.
  rewrite !(nth_map_seq_nat (fun i => Nat.modulo (s0 + i) 50)) by auto.
  intros H. assert (A := Nat.div_mod (s0 + i) 50 ltac:(lia)). assert (B := Nat.div_mod (s0 + j) 50 ltac:(lia)). rewrite H in A.
  set (a := ((s0 + i) / 50)%nat) in *. set (b := ((s0 + j) / 50)%nat) in *. set (r := ((s0 + j) mod 50)%nat) in *. clearbody a b r. lia.
Qed.

Example C103_bootstrap_case :
  fst (test_bootstrap_ranges eigh_ref argsort_ref lstsq_ref norm2_ref det_ref (World (G := row_gen false) 7%nat tt [] 0%nat)) = Ok tt /\
  fst (test_subspace_class eigh_ref argsort_ref lstsq_ref norm2_ref det_ref (World (G := row_gen false) 7%nat tt [] 0%nat)) = Ok tt.
Proof. apply C103_bootstrap; auto using eigh_ref_contract, eigh_ref_total, argsort_ref_contract, lstsq_ref_contract, lstsq_ref_total, row_gen_distinct, row_gen_spread. Qed.

(** Not so for every generator: the same distinct points, but resamplings that take one
    point 50 times, and both tests end in a ValueError. *)
Lemma stuck_indices : forall U n (w : world (row_gen true) U (nd R)) ind w', repeatM n (draw_randint 50) w = (Ok ind, w') -> ind = repeat 0%nat n.
Proof.
  intros U. induction n as [|n IH]; intros w ind w' E; [injection E as <- _; reflexivity|]. cbn [repeatM] in E.
  rewrite (nb (draw_randint 50) _ w 0%nat (set_rng w (S (rng w))) eq_refl) in E. apply mbind_ok in E. destruct E as (l & w1 & E1 & E2). injection E2 as <- _.
  cbn [repeat]. f_equal. eapply IH. exact E1.
Qed.
Lemma stuck_step : forall eigh argsort lstsq norm2 det U (meth : option (nd R) -> option (nd R) -> option (nd R) -> nd R -> Py.M (world (row_gen true) U (nd R)) (nd R * nd R)) x f (df : option (nd R)) V (w : world (row_gen true) U (nd R)),
  argsort_contract argsort -> shape x = [50; 3]%nat -> shape f = [50; 1]%nat -> (forall d, df = Some d -> exists k, shape d = [50%nat; k]) ->
  (forall x0 f0 d0 w0 st, meth (Some x0) (Some f0) d0 w0 st = opg_subspace eigh argsort lstsq x0 f0 w0 st) ->
  exists w', boot_step norm2 det 3 V (Some x) (Some f) df (equal_weights 50) meth w = (Err ValueError, w').
Proof.
  intros eigh argsort lstsq norm2 det U meth x f df V w HA Sx Sf Hd Hmeth. unfold boot_step.
  destruct (replicate_drawn (G := row_gen true) (U := U) 50 (Some x) (Some f) df (equal_weights 50) ltac:(lia) eq_refl) with (w := w)
    as (ind & X0 & f0 & d0 & wt & w4 & ER & (sa & sb & ED) & L1 & L2 & (x1 & -> & Qx) & (f1 & -> & Qf) & _); auto.
  { intros y Hy. injection Hy as <-. eauto. }
  { intros y Hy. injection Hy as <-. eauto. }
  rewrite (nb _ _ w _ _ ER). apply stuck_indices in ED. subst ind.
  exists (set_rng w4 (S (rng w4))). unfold mbind at 1. rewrite Hmeth.
  assert (S1 := resampled_shape 50 3 x x1 _ Sx L1 Qx). assert (S2 := resampled_shape 50 1 f f1 _ Sf L1 Qf).
  destruct Qx as (r & c & S3 & _ & _ & VX). rewrite Sx in S3. injection S3 as <- <-. rewrite L1 in VX.
  rewrite (opg_starved eigh argsort lstsq (row_gen true) U x1 f1 wt 50 3 0 w4 (set_rng w4 (S (rng w4))) HA S1 S2 ltac:(lia) five_of_50 eq_refl); [reflexivity|].
  assert (Z : filter (fun i => neq0b (sqdist x1 i 0)) (seq 0 50) = filter (fun _ => false) (seq 0 50)).
  { apply filter_ext_in. intros i Hi. apply in_seq in Hi. unfold neq0b. assert (sqdist x1 i 0 = 0) as ->; [|destruct (Req_EM_T 0 0); auto; lra].
    unfold sqdist. rewrite (ncols_shape2 _ x1 50 3 S1). apply sumf_zero. intros j Hj. rewrite !VX by lia. rewrite !nth_repeat. ring. }
  rewrite Z. change (List.length (filter (fun _ : nat => false) (seq 0 50))) with 0%nat. change (17 * 3 / 10)%nat with 5%nat. lia.
Qed.

Theorem C103_bootstrap_refuted : exists G : gen, distinct_draws G /\ forall eigh argsort lstsq norm2 det (U : Type) (w : world G U (nd R)),
  eigh_contract eigh -> eigh_total eigh -> argsort_contract argsort -> lstsq_contract lstsq -> lstsq_total lstsq ->
  fst (test_bootstrap_ranges eigh argsort lstsq norm2 det w) = Err ValueError /\ fst (test_subspace_class eigh argsort lstsq norm2 det w) = Err ValueError.
Proof.
  exists (row_gen true). split; [apply row_gen_distinct|]. intros eigh argsort lstsq norm2 det U w HE HT HA HL HLT. set (G := row_gen true) in *. assert (HD : distinct_draws G) by apply row_gen_distinct. split.
  - unfold test_bootstrap_ranges.
    destruct (three_draws G U unit (fun X f df => test_bootstrap_ranges_of norm2 det [(by_gradients eigh argsort, true); (by_ols eigh argsort lstsq, false); (by_qphd eigh argsort lstsq, false); (by_opg eigh argsort lstsq, false)] X f df (equal_weights 50)) w)
      as (X & f & df & w0 & -> & SX & Sf & Sd & VX). assert (DR := draws_distinct G X HD SX VX).
    unfold test_bootstrap_ranges_of. cbn [mmap].
    destruct (step_gradients (U := U) eigh argsort norm2 det HE HT HA X f df Sd w0) as (w1 & E1).
    destruct (step_ols eigh argsort lstsq norm2 det HE HT HA HL HLT X f df SX Sf w1) as (w2 & E2).
    destruct (step_qphd eigh argsort lstsq norm2 det HE HT HA HL HLT X f df SX Sf w2) as (w3 & E3).
    unfold mbind at 1. unfold mbind at 1. rewrite E1. unfold mbind at 1. unfold mbind at 1. rewrite E2. unfold mbind at 1. unfold mbind at 1. rewrite E3. unfold mbind at 1. unfold mbind at 1.
    destruct (opg_full eigh argsort lstsq HE HT HA HLT X f SX Sf DR w3) as (e & V & w4 & lam & C & EO & L).
    assert (E4 : by_opg eigh argsort lstsq (Some X) (Some f) (Some df) (equal_weights 50) w3 = (Ok (e, V), w4)) by exact EO.
    rewrite (nb _ _ w3 _ _ E4).
    destruct (stuck_step eigh argsort lstsq norm2 det U (by_opg eigh argsort lstsq) X f None V w4 HA SX Sf ltac:(discriminate) ltac:(reflexivity)) as (w5 & E5).
    assert (EB : bootstrap_ranges norm2 det e V (Some X) (Some f) None (equal_weights 50) (by_opg eigh argsort lstsq) 10 w4 = (Err ValueError, w5)).
    { unfold bootstrap_ranges. rewrite (process_inputs_eq _ X 50 3 SX). cbn [rbind]. rewrite bind_lift. cbn [Nat.eqb seq mmap]. fold G in E5. unfold mbind at 1 2. now rewrite E5. }
    unfold mbind at 1. rewrite EB. reflexivity.
  - unfold test_subspace_class.
    destruct (three_draws G U unit (fun X f df => dom _ <- on_new (dom _ <- mmap (fun c : string * string * Z => let '(sstype, ptype, nboot) := c in
               ss_compute eigh argsort lstsq norm2 det (Some X) (Some f) (Some df) (Some (equal_weights 50)) sstype ptype nboot) class_calls; mret tt); mret tt) w)
      as (X & f & df & w0 & -> & SX & Sf & Sd & VX). assert (DR := draws_distinct G X HD SX VX).
    assert (S1 := fun s n ws Hs => simple_compute (U := U) (G := G) eigh argsort lstsq norm2 det HE HT HA HL HLT X f df SX Sf Sd s "EVG" n ws Hs (or_introl eq_refl)).
    assert (O1 := fun ws => opg_compute (U := U) (G := G) eigh argsort lstsq norm2 det HE HT HA HLT X f df SX Sf Sd DR 0 ws ltac:(lia)).
    assert (O2 : forall ws : world G U (nd R) * subspaces, exists ws', ss_compute eigh argsort lstsq norm2 det (Some X) (Some f) (Some df) (Some (equal_weights 50)) "OPG" "EVG" 10 ws = (Err ValueError, ws')).
    { intros [v s]. unfold ss_compute. rewrite (process_inputs_eq _ X 50 3 SX). cbn [rbind]. unfold mlift at 1, mbind at 1.
      destruct (opg_full eigh argsort lstsq HE HT HA HLT X f SX Sf DR v) as (e & V & w4 & lam & C & EO & L).
      assert (E4 : ssmethod eigh argsort lstsq "OPG" (Some X) (Some f) (Some df) (equal_weights 50) v = (Ok (e, V), w4)) by exact EO.
      unfold liftW at 1, mbind at 1. cbn [fst snd]. rewrite E4.
      unfold mbind at 1, getS at 1. cbn [snd fst]. unfold mbind at 1, setS at 1. cbn [snd fst]. cbn [Z.ltb Z.compare].
      destruct (stuck_step eigh argsort lstsq norm2 det U (ssmethod eigh argsort lstsq "OPG") X f (Some df) V w4 HA SX Sf ltac:(intros y Hy; injection Hy as <-; eauto) ltac:(reflexivity)) as (w5 & E5).
      assert (EB : bootstrap_ranges norm2 det e V (Some X) (Some f) (Some df) (equal_weights 50) (ssmethod eigh argsort lstsq "OPG") (Z.to_nat 10) w4 = (Err ValueError, w5)).
      { unfold bootstrap_ranges. rewrite (process_inputs_eq _ df 50 3 Sd). cbn [rbind]. rewrite bind_lift. change (Z.to_nat 10) with 10%nat. cbn [Nat.eqb seq mmap]. fold G in E5. unfold mbind at 1 2. now rewrite E5. }
      unfold mbind at 1. unfold mbind at 1. unfold liftW at 1. cbn [fst snd]. rewrite EB. eexists. reflexivity. }
    unfold mbind at 1, on_new, class_calls. set (run := fun c : string * string * Z => let '(sstype, ptype, nboot) := c in _).
    assert (N : forall s p n l ws ws', run (s, p, n) ws = (Ok tt, ws') -> forall r ws2, mmap run l ws' = (r, ws2) -> mmap run ((s, p, n) :: l) ws = (match r with Ok ys => Ok (tt :: ys) | Err e => Err e end, ws2)).
    { intros s p n l ws ws' E r ws2 E2. cbn [mmap]. rewrite (nb _ _ ws _ _ E). unfold mbind. rewrite E2. destruct r; reflexivity. }
    assert (K : forall l ws, exists ws', mmap run (("OPG", "EVG", 10)%string%Z :: l) ws = (Err ValueError, ws')).
    { intros l ws. destruct (O2 ws) as (ws' & E). exists ws'. cbn [mmap]. unfold mbind, run at 1. now rewrite E. }
    assert (K1 : forall s n l, simple s -> (forall ws, exists ws', mmap run l ws = (Err ValueError, ws')) -> forall ws, exists ws', mmap run ((s, "EVG"%string, n) :: l) ws = (Err ValueError, ws')).
    { intros s n l Hs Hl ws. destruct (S1 s n ws Hs) as (ws1 & E). destruct (Hl ws1) as (ws2 & E2). exists ws2. exact (N s "EVG"%string n l ws ws1 E _ _ E2). }
    assert (K2 : forall l, (forall ws, exists ws', mmap run l ws = (Err ValueError, ws')) -> forall ws, exists ws', mmap run (("OPG", "EVG", 0)%string%Z :: l) ws = (Err ValueError, ws')).
    { intros l Hl ws. destruct (O1 ws) as (ws1 & E). destruct (Hl ws1) as (ws2 & E2). exists ws2. exact (N "OPG"%string "EVG"%string 0%Z l ws ws1 E _ _ E2). }
    assert (A1 : simple "AS") by (left; reflexivity). assert (A2 : simple "OLS") by (right; left; reflexivity). assert (A3 : simple "QPHD") by (right; right; reflexivity).
    match goal with |- context [mmap run ?l] => assert (F : forall ws, exists ws', mmap run l ws = (Err ValueError, ws')) end.
    { do 4 (apply K1; [assumption|]). apply K2. do 3 (apply K1; [assumption|]). intros ws. apply K. }
    destruct (F (w0, subs_new)) as ((w' & s') & E). unfold mbind at 1. rewrite E. reflexivity.
Qed.
Print Assumptions C103_bootstrap_refuted.

(** The tests of the other three estimators on points 0, 1, 2, ...: the values are a
    linear function of the points and no constant, so the one of OLS passes; the others end
    regularly. *)
Example C103_estimators_case : forall b,
  let w := World (G := row_gen b) 7%nat tt [] 0%nat in
  fst (test_ols_subspace eigh_ref argsort_ref lstsq_ref w) = Ok tt /\
  (fst (test_qphd_subspace eigh_ref argsort_ref lstsq_ref w) = Ok tt \/ fst (test_qphd_subspace eigh_ref argsort_ref lstsq_ref w) = Err AssertionError) /\
  (fst (test_opg_subspace eigh_ref argsort_ref lstsq_ref w) = Ok tt \/ fst (test_opg_subspace eigh_ref argsort_ref lstsq_ref w) = Err AssertionError) /\
  fst (test_bootstrap_replicate w) = Ok tt /\
  fst (test_eig_partition eigh_ref argsort_ref w) = Ok tt.
Proof.
  intros b w. split; [|split; [|split; [|split]]].
  - apply C103_ols_subspace; auto using eigh_ref_contract, eigh_ref_total, argsort_ref_contract, lstsq_ref_contract, lstsq_ref_total.
    assert (D : forall k, drawn (row_gen b) k = INR k) by (intros k; unfold drawn; now rewrite row_gen_normal).
    exists 60, (fun j => if Nat.eqb j 0 then / 3 else 0). intros a'.
    assert (P : forall i, 0 <= (drawn (row_gen b) (60 + i) - a' - sumf 3 (fun j => 0 * drawn (row_gen b) (i * 3 + j))) ^ 2) by (intros i; apply pow2_ge_0).
    apply Rle_lt_trans with 0.
    { right. apply sumf_zero. intros i _. cbn [sumf Nat.eqb]. rewrite !D, !plus_INR, mult_INR, (INR_IZR_INZ 60), (INR_IZR_INZ 3). cbn [Z.of_nat Pos.of_succ_nat Pos.succ]. cbn [INR]. field. }
    rewrite (sumf_split2 20) by lia.
    assert (K := sumf_nonneg (20 - 2) (fun i => (drawn (row_gen b) (60 + (2 + i)) - a' - sumf 3 (fun j => 0 * drawn (row_gen b) ((2 + i) * 3 + j))) ^ 2) (fun i _ => P (2 + i)%nat)).
    assert (Q : forall i, (drawn (row_gen b) (60 + i) - a' - sumf 3 (fun j => 0 * drawn (row_gen b) (i * 3 + j))) ^ 2 = (60 + INR i - a') ^ 2).
    { intros i. cbn [sumf]. rewrite (D (60 + i)%nat), plus_INR, (INR_IZR_INZ 60). cbn [Z.of_nat Pos.of_succ_nat Pos.succ]. ring. }
    cbv beta in K |- *. rewrite (Q 0%nat), (Q 1%nat). apply Rplus_lt_le_0_compat; [cbn [INR]; assert (Z := pow2_ge_0 (2 * a' - 121)); nra|exact K].
  - destruct (C103_qphd_subspace eigh_ref argsort_ref lstsq_ref (row_gen b) unit w) as (c & g & H & gamma & _ & _ & _ & _ & _ & F);
      auto using eigh_ref_contract, eigh_ref_total, argsort_ref_contract, lstsq_ref_contract, lstsq_ref_total.
    destruct (fst (test_qphd_subspace eigh_ref argsort_ref lstsq_ref w)) as [[]|e]; [now left|right]. apply F. discriminate.
  - apply C103_opg_subspace; auto using eigh_ref_contract, eigh_ref_total, argsort_ref_contract, lstsq_ref_total, row_gen_distinct.
  - apply C103_bootstrap_replicate.
  - exact (proj1 (C103_partitions eigh_ref argsort_ref norm2_ref det_ref (row_gen b) unit w eigh_ref_contract eigh_ref_total argsort_ref_contract)).
Qed.
