(** C101: the repository's own unit tests. *)
From Coq Require Import String Reals Lra Lia List Arith ZArith Bool.
From Verif Require Import Prelude Py NumArr Toy M_Misc P_Misc Properties_Misc Cholesky SolveRef M_SimRunners P_SimRunners M_Gradients P_Gradients Lsq Sorting P_LocalLinear Properties_Gradients
  M_QP P_QP Properties_QP M_Subspaces M_Quadrature P_Quadrature Properties_Quadrature M_Domains P_Domains M_Designs P_Designs P_Multistart Properties_Designs P_Notebooks M_Tests P_Tests.
Import ListNotations.
Open Scope R_scope.

(** three columns side by side *)
Lemma three_cols : forall (a b c : nd R) N, shape a = [N; 1%nat] -> shape b = [N; 1%nat] -> shape c = [N; 1%nat] ->
  exists ab X, hstack a b = Ok ab /\ hstack ab c = Ok X /\ shape X = [N; 3%nat] /\
    forall i, X.[i, 0%nat] = a.[i, 0%nat] /\ X.[i, 1%nat] = b.[i, 0%nat] /\ X.[i, 2%nat] = c.[i, 0%nat].
Proof.
  intros a b c N Ha Hb Hc. destruct (hstack2 a b N 1 1 Ha Hb) as (ab & E1 & S1 & V1). destruct (hstack2 ab c N 2 1 S1 Hc) as (X & E2 & S2 & V2).
  exists ab, X. split; [exact E1|]. split; [exact E2|]. split; [exact S2|]. intros i. rewrite !V2. cbn [Nat.ltb Nat.leb Nat.sub]. rewrite !V1. auto.
Qed.

(** ** tests/test_misc.py *)

(** the test of the bounded normalizer passes unless one of its 30 uniform numbers is
    exactly 0, which a draw from [lo, hi) may be: then it fails *)
Theorem C101_bounded_normalizer : forall (G : gen) (U : Type) (w : world G U (nd R)),
  (fst (test_bounded_normalizer w) = Ok tt <-> forall k, (k < 30)%nat -> unif_at (rng w) k <> 0) /\
  (fst (test_bounded_normalizer w) <> Ok tt -> fst (test_bounded_normalizer w) = Err AssertionError) /\
  snd (test_bounded_normalizer w) = set_rng w (unif_state 30 (rng w)).
Proof.
  intros G U w. unfold test_bounded_normalizer.
  destruct (uniform2_ev G (-4) 7 10 1 w) as (a & E1 & S1 & V1). rewrite (nb _ _ w _ _ E1). set (w1 := set_rng w _) in *.
  destruct (uniform2_ev G 4 6 10 1 w1) as (b & E2 & S2 & V2). rewrite (nb _ _ w1 _ _ E2). set (w2 := set_rng w1 _) in *.
  destruct (uniform2_ev G 2 3 10 1 w2) as (c & E3 & S3 & V3). rewrite (nb _ _ w2 _ _ E3). set (w3 := set_rng w2 _) in *.
  destruct (three_cols a b c 10 S1 S2 S3) as (ab & X & E4 & E5 & SX & VX). rewrite bind_lift, E4, bind_lift, E5. cbv zeta.
  set (lb := entries_of [-4; 4; 2]). set (ub := entries_of [7; 6; 3]).
  assert (Sl : size lb = 3%nat) by reflexivity. assert (Su : size ub = size lb) by reflexivity.
  destruct (bounded_init_ok lb ub Su) as (s & Es & L1 & L2 & L3). rewrite bind_lift, Es.
  assert (FL : flat lb 0 = -4 /\ flat lb 1 = 4 /\ flat lb 2 = 2) by (repeat split; reflexivity).
  assert (FU : flat ub 0 = 7 /\ flat ub 1 = 6 /\ flat ub 2 = 3) by (repeat split; reflexivity).
  destruct FL as (FL0 & FL1 & FL2), FU as (FU0 & FU1 & FU2).
  assert (LU : forall j, (j < 3)%nat -> flat lb j < flat ub j).
  { intros [|[|[|j]]] Hj; [rewrite FL0, FU0|rewrite FL1, FU1|rewrite FL2, FU2|]; try lra; lia. }
  destruct (C01_bounded_normalizer_round_trip lb ub X 10 s Su SX (fun j H => Rlt_not_eq _ _ (LU j H)) Es) as (Y & Z & _ & _ & EY & EZ & RT & _).
  rewrite Sl in L1, L2, L3.
  destruct (bounded_normalize_ok s 3 (flat lb) (flat ub) L1 L2 (fun j H => proj1 (L3 j H)) (fun j H => proj2 (L3 j H)) (amap Fin X) 10 SX) as (Y' & EY' & SY & VY).
  assert (Y' = Y) as -> by congruence. rewrite bind_lift, EY, bind_lift, EZ.
  assert (RV : unif_state 30 (rng w) = rng w3).
  { unfold w3, w2, w1. cbn [rng set_rng]. change (10 * 1)%nat with 10%nat. now rewrite <- !unif_state_add. }
  set (u := fun i j => unif_at (rng w) (j * 10 + i)).
  assert (VU : forall i j, (i < 10)%nat -> (j < 3)%nat -> X.[i, j] = flat lb j + (flat ub j - flat lb j) * u i j).
  { intros i j Hi Hj. destruct (VX i) as (X0 & X1 & X2). unfold u. destruct j as [|[|[|j]]]; [rewrite X0, FL0, FU0, V1|rewrite X1, FL1, FU1, V2|rewrite X2, FL2, FU2, V3|lia]; try lia.
    - do 3 f_equal. lia.
    - unfold w1. cbn [rng set_rng]. rewrite unif_at_add. do 3 f_equal. lia.
    - unfold w2, w1. cbn [rng set_rng]. rewrite !unif_at_add. do 3 f_equal. lia. }
  assert (NY : forall i j, (i < 10)%nat -> (j < 3)%nat -> Y.[i, j] = Fin (2 * u i j - 1)).
  { intros i j Hi Hj. rewrite VY by auto. change ((amap Fin X).[i, j]) with (Fin (X.[i, j])). specialize (LU j Hj). unfold xsub. cbn [xadd xneg xmul]. rewrite xdiv_fin by lra. cbn [xadd xneg]. f_equal. rewrite (VU i j Hi Hj). field. lra. }
  assert (R : forall i j, 0 <= u i j < 1) by (intros; apply unif_at_range).
  assert (SXf : shape (amap Fin X) = [10; 3]%nat) by exact SX.
  assert (A1 : assert_almost_equalx 7 (amap Fin X) Z = Ok tt).
  { pose proof (eq_trans (proj1 RT) SXf) as SZ. apply (compare2 _ _ _ _ _ 10 3 SXf SZ). intros i j Hi Hj. rewrite (eqnd_at2 _ Z (amap Fin X) 10 3 i j RT SZ Hi Hj). apply nearx_refl. }
  rewrite (bind_assert _ _ _ _ _ A1).
  assert (A2 : assert_array_lessx Y (num (Fin 1)) = Ok tt).
  { apply (compare2_num _ _ ltx Y (Fin 1) 10 3 SY). intros i j Hi Hj. rewrite NY by auto. apply rltb_spec. specialize (R i j). lra. }
  rewrite (bind_assert _ _ _ _ _ A2).
  assert (A3 : assert_array_lessx (amap xneg Y) (num (Fin 1)) = Ok tt <-> forall k, (k < 30)%nat -> unif_at (rng w) k <> 0).
  { unfold assert_array_lessx. rewrite (compare2_num _ _ ltx (amap xneg Y) (Fin 1) 10 3 SY). split.
    - intros H k Hk. specialize (H (k mod 10) (k / 10))%nat.
      assert (H1 : (k mod 10 < 10)%nat) by (apply Nat.mod_upper_bound; lia). assert (H2 : (k / 10 < 3)%nat) by (apply Nat.div_lt_upper_bound; lia).
      specialize (H H1 H2). change ((amap xneg Y).[(k mod 10)%nat, (k / 10)%nat]) with (xneg (Y.[(k mod 10)%nat, (k / 10)%nat])) in H. rewrite NY in H by auto.
      cbn [xneg ltx] in H. apply rltb_spec in H. unfold u in H.
      replace (k / 10 * 10 + k mod 10)%nat with k in H by (rewrite (Nat.div_mod k 10) at 1 by lia; lia). lra.
    - intros H i j Hi Hj. change ((amap xneg Y).[i, j]) with (xneg (Y.[i, j])). rewrite NY by auto. cbn [xneg ltx]. apply rltb_spec.
      specialize (R i j). specialize (H (j * 10 + i)%nat ltac:(lia)). change (unif_at (rng w) (j * 10 + i)) with (u i j) in H. lra. }
  unfold mlift. cbn [fst snd]. split; [exact A3|]. split.
  - intros N. destruct (compare_cases _ _ ltx (amap xneg Y) (num (Fin 1))) as [E|E]; [contradiction|exact E].
  - rewrite RV. reflexivity.
Qed.
Print Assumptions C101_bounded_normalizer.

(** a generator that always draws the same numbers *)
Definition same_gen (u z : R) (Hu : 0 <= u < 1) : gen :=
  Gen unit (fun _ => tt) (fun s => (z, s)) (fun s => (u, s)) (fun _ s => (0%nat, s)) (fun _ => Hu) (fun hi _ H => H).
Definition same_world (u z : R) (Hu : 0 <= u < 1) : world (same_gen u z Hu) unit (nd R) := World (tt : gst (same_gen u z Hu)) tt [] 0%nat.
Lemma same_unif : forall u z Hu s k, @unif_at (same_gen u z Hu) s k = u.
Proof. reflexivity. Qed.
Lemma same_normal : forall u z Hu s k, @normal_at (same_gen u z Hu) s k = z.
Proof. reflexivity. Qed.
Definition half01 : 0 <= / 2 < 1 := ltac:(split; lra).
Definition zero01 : 0 <= 0 < 1 := ltac:(split; lra).

Example C101_bounded_normalizer_case :
  fst (test_bounded_normalizer (same_world (/ 2) 0 half01)) = Ok tt /\
  fst (test_bounded_normalizer (same_world 0 0 zero01)) = Err AssertionError.
Proof.
  split.
  - apply C101_bounded_normalizer. intros k Hk. rewrite same_unif. lra.
  - apply C101_bounded_normalizer. intros H. refine (proj1 (proj1 (C101_bounded_normalizer _ _ _)) H 0%nat _ _); [lia|]. apply same_unif.
Qed.

(** the test of the unbounded normalizer passes if and only if in each of the three
    columns the mean of the 100 standard normal numbers lies in [-1, 1] *)
Theorem C101_unbounded_normalizer : forall cholesky solve (G : gen) (U : Type) (w : world G U (nd R)), cholesky_contract cholesky -> solve_contract solve ->
  (fst (test_unbounded_normalizer cholesky solve w) = Ok tt <->
     forall j, (j < 3)%nat -> Rabs (sumf 100 (fun i => normal_at (rng w) (j * 100 + i)) / 100) <= 1) /\
  (fst (test_unbounded_normalizer cholesky solve w) <> Ok tt -> fst (test_unbounded_normalizer cholesky solve w) = Err AssertionError) /\
  snd (test_unbounded_normalizer cholesky solve w) = set_rng w (normal_state 300 (rng w)).
Proof.
  intros cholesky solve G U w HC HS. unfold test_unbounded_normalizer, normal2_at.
  assert (EV : forall loc sc (v : world G U (nd R)), exists X, (dom X <- normal2 100 1; mret (amap (fun x => loc + sc * x) X)) v = (Ok X, set_rng v (normal_state 100 (rng v))) /\ shape X = [100; 1]%nat /\
    forall i, (i < 100)%nat -> X.[i, 0%nat] = loc + sc * normal_at (rng v) i).
  { intros loc sc v. destruct (normal2_ev G 100 1 v) as (X & E & SX & VX). change (100 * 1)%nat with 100%nat in E. exists (amap (fun x => loc + sc * x) X).
    rewrite (nb _ _ v _ _ E). split; [reflexivity|]. split; [exact SX|]. intros i Hi.
    change ((amap (fun x => loc + sc * x) X).[i, 0%nat]) with (loc + sc * X.[i, 0%nat]). rewrite VX by lia. do 3 f_equal. lia. }
  destruct (EV (-4) 7 w) as (a & E1 & S1 & V1). rewrite (nb _ _ w _ _ E1). set (w1 := set_rng w _) in *.
  destruct (EV 4 6 w1) as (b & E2 & S2 & V2). rewrite (nb _ _ w1 _ _ E2). set (w2 := set_rng w1 _) in *.
  destruct (EV 2 3 w2) as (c & E3 & S3 & V3). rewrite (nb _ _ w2 _ _ E3). set (w3 := set_rng w2 _) in *. clear EV.
  destruct (three_cols a b c 100 S1 S2 S3) as (ab & X & E4 & E5 & SX & VX). rewrite bind_lift, E4, bind_lift, E5. cbv zeta.
  set (C := mk2 3 3 _). destruct (reshape [3; 1]%nat (entries_of [-4; 4; 2])) as [mu|e] eqn:Emu; [|discriminate]. rewrite bind_lift.
  assert (Smu : size mu = 3%nat) by (apply reshape_inv in Emu; destruct Emu as (_ & E); unfold size; now rewrite E).
  assert (Fmu : flat mu 0 = -4 /\ flat mu 1 = 4 /\ flat mu 2 = 2) by (injection Emu as <-; repeat split; reflexivity).
  set (sd := fun j => nth j [7; 6; 3] 0).
  assert (CV : forall i j, (i < 3)%nat -> (j < 3)%nat -> C.[i, j] = if Nat.eqb i j then sd i * sd i else 0).
  { intros i j Hi Hj. unfold C, sd. rewrite at_mk2. destruct (Nat.eqb_spec i j); [|reflexivity]. destruct i as [|[|[|i]]]; cbn [nth]; try ring. lia. }
  assert (SDP : forall j, (j < 3)%nat -> 0 < sd j) by (intros [|[|[|j]]] Hj; unfold sd; cbn [nth]; try lra; lia).
  destruct (HC 3%nat C eq_refl) as (HP & _).
  { intros i j Hi Hj. rewrite !CV by auto. destruct (Nat.eqb_spec i j) as [->|]; [now rewrite Nat.eqb_refl|]. destruct (Nat.eqb_spec j i); [congruence|reflexivity]. }
  destruct HP as (L & EL & CF).
  { intros x (i & Hi & Hx). unfold C. cbn [sumf at_ mk2 nth Nat.eqb]. destruct i as [|[|[|i]]]; [| | |lia]; nra. }
  assert (DL : chol_factor 3 C (mk2 3 3 (fun i j => if Nat.eqb i j then sd i else 0))).
  { split; [reflexivity|]. split; [intros i j Hij Hj; rewrite at_mk2; destruct (Nat.eqb_spec i j); [lia|reflexivity]|]. split; [intros i Hi; rewrite at_mk2, Nat.eqb_refl; now apply SDP|].
    intros i j Hi Hj. rewrite CV by auto. rewrite (sumf_single 3 i); auto.
    - rewrite !at_mk2, Nat.eqb_refl. destruct (Nat.eqb_spec j i) as [->|]; [now rewrite Nat.eqb_refl|]. destruct (Nat.eqb_spec i j); [congruence|ring].
    - intros k Hk Hki. rewrite at_mk2. destruct (Nat.eqb_spec i k); [congruence|ring]. }
  assert (LV : forall i j, (i < 3)%nat -> (j < 3)%nat -> L.[i, j] = if Nat.eqb i j then sd i else 0).
  { intros i j Hi Hj. rewrite (chol_unique 3 C L _ CF DL i j Hi Hj). reflexivity. }
  destruct (unbounded_init cholesky mu C) as [un|e] eqn:Eu.
  2:{ exfalso. unfold unbounded_init in Eu. destruct (reshape_row _ mu) as (mu' & Em & _). rewrite Em in Eu. cbn [rbind] in Eu. rewrite EL in Eu. discriminate. }
  assert (HL : forall L', cholesky C = Ok L' -> chol_factor 3 C L') by (intros L' E; congruence).
  rewrite bind_lift.
  destruct (C02_unbounded_normalizer_round_trip cholesky solve 3 mu C un X 100 Smu HL HS Eu SX) as (Y & Z & _ & _ & EY & EZ & RT & _).
  destruct (P_Misc.norm_ok cholesky solve 3 mu C un Smu HL HS Eu X 100 SX) as (Y' & EY' & SY & VY). assert (Y' = Y) as -> by congruence.
  assert (UL : un_L un = L).
  { unfold unbounded_init in Eu. destruct (reshape_row _ mu) as (mu' & Em & _). rewrite Em in Eu. cbn [rbind] in Eu. rewrite EL in Eu. cbn [rbind] in Eu. now injection Eu as <-. }
  rewrite bind_lift, EY, bind_lift, EZ.
  set (z := fun i j => normal_at (rng w) (j * 100 + i)).
  assert (VZ : forall i j, (i < 100)%nat -> (j < 3)%nat -> X.[i, j] = flat mu j + sd j * z i j).
  { intros i j Hi Hj. destruct (VX i) as (X0 & X1 & X2), Fmu as (M0 & M1 & M2). unfold z, sd.
    destruct j as [|[|[|j]]]; cbn [nth]; [rewrite X0, M0, V1|rewrite X1, M1, V2|rewrite X2, M2, V3|lia]; try exact Hi.
    - reflexivity.
    - unfold w1. cbn [rng set_rng]. rewrite normal_at_add. do 3 f_equal; lia.
    - unfold w2, w1. cbn [rng set_rng]. rewrite !normal_at_add. do 3 f_equal; lia. }
  assert (NY : forall i j, (i < 100)%nat -> (j < 3)%nat -> Y.[i, j] = z i j).
  { intros i j Hi Hj. specialize (VY i j Hi Hj). rewrite (sumf_single 3 j) in VY; auto.
    - rewrite UL, LV, Nat.eqb_refl, VZ in VY by auto. specialize (SDP j Hj). nra.
    - intros k Hk Hne. rewrite UL, LV by auto. destruct (Nat.eqb_spec j k); [congruence|ring]. }
  assert (A1 : assert_almost_equal 7 X Z = Ok tt).
  { apply (almost_same 7 X Z 100 3 SX (eq_trans (proj1 RT) SX)). intros i j Hi Hj. symmetry. apply (eqnd_at2 _ Z X 100 3 i j RT (eq_trans (proj1 RT) SX) Hi Hj). }
  rewrite (bind_assert _ _ _ _ _ A1). unfold mlift. cbn [fst snd].
  assert (SM : shape (col_means Y) = [3; 1]%nat) by (unfold col_means; rewrite (ncols_shape2 _ _ _ _ SY); reflexivity).
  assert (VM : forall j, (j < 3)%nat -> (col_means Y).[j, 0%nat] = sumf 100 (fun i => z i j) / 100).
  { intros j Hj. unfold col_means. rewrite at_mk2, (nrows_shape2 _ _ _ _ SY). f_equal; [|rewrite INR_IZR_INZ; reflexivity]. apply sumf_ext. intros i Hi. now apply NY. }
  assert (TW : forall j, (j < 3)%nat -> (Rabs ((col_means Y).[j, 0%nat] - (zeros2 3 1).[j, 0%nat]) <= 1 + / 10 ^ 7 * Rabs ((zeros2 3 1).[j, 0%nat]) <->
     Rabs (sumf 100 (fun i => z i j) / 100) <= 1)).
  { intros j Hj. rewrite VM by auto. change ((zeros2 3 1).[j, 0%nat]) with 0. rewrite Rabs_R0, Rmult_0_r, Rplus_0_r, Rminus_0_r. reflexivity. }
  split; [|split].
  - unfold assert_allclose. rewrite (compare2 _ _ _ (col_means Y) (zeros2 3 1) 3 1 SM eq_refl). split.
    + intros H j Hj. apply (TW j Hj). apply rleb_spec. apply H; auto.
    + intros H i j Hi Hj. replace j with 0%nat by lia. apply rleb_spec. apply (TW i Hi). now apply H.
  - intros N. destruct (compare_cases _ _ (fun x y => rleb (Rabs (x - y)) (1 + / 10 ^ 7 * Rabs y)) (col_means Y) (zeros2 3 1)) as [E|E]; [contradiction|exact E].
  - unfold w3, w2, w1. cbn [rng set_rng usr calls files]. rewrite <- !normal_state_add. reflexivity.
Qed.
Print Assumptions C101_unbounded_normalizer.

Example C101_unbounded_normalizer_case :
  fst (test_unbounded_normalizer cholesky_ref solve_ref (same_world 0 (1 / 2) zero01)) = Ok tt /\
  fst (test_unbounded_normalizer cholesky_ref solve_ref (same_world 0 2 zero01)) = Err AssertionError.
Proof.
  assert (K : forall z, sumf 100 (fun _ => z) / 100 = z).
  { intros z. rewrite sumf_const. rewrite INR_IZR_INZ. change (IZR (Z.of_nat 100)) with 100. field. }
  split.
  - apply (C101_unbounded_normalizer _ _ _ _ _ cholesky_ref_contract solve_ref_contract). intros j Hj. rewrite (sumf_ext 100 _ (fun _ => 1 / 2)) by (intros; apply same_normal). rewrite K.
    rewrite Rabs_right; lra.
  - apply (C101_unbounded_normalizer _ _ _ _ _ cholesky_ref_contract solve_ref_contract). intros H.
    pose proof (proj1 (proj1 (C101_unbounded_normalizer _ _ _ _ (same_world 0 2 zero01) cholesky_ref_contract solve_ref_contract)) H 0%nat ltac:(lia)) as Q.
    rewrite (sumf_ext 100 _ (fun _ => 2)) in Q by (intros; apply same_normal). rewrite K in Q. rewrite Rabs_right in Q; lra.
Qed.

(** the other tests of test_misc.py pass, whatever the random state *)
Theorem C101_misc_tests : forall (G : gen) (U : Type) (w : world G U (nd R)),
  test_process_inputs_bad_inputs w = (Ok tt, w) /\
  test_process_inputs w = (Ok tt, set_rng w (unif_state 30 (rng w))) /\
  test_conditional_expectations w = (Ok tt, w).
Proof.
  intros G U w. split; [reflexivity|]. split.
  - unfold test_process_inputs. destruct (uniform2_ev G (-1) 1 10 3 w) as (X & E & SX & _). rewrite (nb _ _ w _ _ E). change (10 * 3)%nat with 30%nat.
    rewrite bind_lift, (process_inputs_eq _ X 10 3 SX). cbv beta iota.
    rewrite (bind_assert _ _ _ _ _ (almost_same 7 X X 10 3 SX SX (fun _ _ _ _ => eq_refl))).
    assert (E1 : assert_almost_equal 7 (num (INR 10)) (num 10) = Ok tt) by (replace (INR 10) with 10 by (simpl; lra); apply almost_nums).
    assert (E2 : assert_almost_equal 7 (num (INR 3)) (num 3) = Ok tt) by (replace (INR 3) with 3 by (simpl; lra); apply almost_nums).
    rewrite (bind_assert _ _ _ _ _ E1). unfold mlift. now rewrite E2.
  - unfold test_conditional_expectations. rewrite bind_lift. unfold conditional_expectations, np_amax_nat. cbn [rbind list_max fold_right Nat.max List.length Nat.eqb negb].
    unfold select. cbn [seq map combine filter fst snd Nat.eqb np_mean np_var List.length sumr fold_right].
    assert (M0 : (2 / 10 + (2 / 10 + 0)) / INR 2 = 2 / 10) by (simpl; lra).
    assert (M1 : (1 + (2 + 0)) / INR 2 = 15 / 10) by (simpl; lra).
    set (V0 := Fin (_ / INR 2)) at 3. set (V1 := Fin (_ / INR 2)) at 3. rewrite M0, M1 in *.
    assert (EV0 : V0 = Fin 0) by (unfold V0; f_equal; simpl; lra). assert (EV1 : V1 = Fin (25 / 100)) by (unfold V1; f_equal; simpl; lra).
    rewrite EV0, EV1. cbv zeta beta iota.
    match goal with |- mbind (mlift (assert_almost_equalx 7 ?X ?Y)) _ _ = _ => assert (A1 : assert_almost_equalx 7 X Y = Ok tt) end.
    { apply (compare2 _ _ (nearx 7) _ _ 2 1); [reflexivity|reflexivity|]. intros i j Hi Hj. replace j with 0%nat by lia. destruct i as [|[|i]]; [| |lia]; apply nearx_refl. }
    rewrite (bind_assert _ _ _ _ _ A1). unfold mlift. f_equal.
    apply (compare2 _ _ (nearx 7) _ _ 2 1); [reflexivity|reflexivity|]. intros i j Hi Hj. replace j with 0%nat by lia. destruct i as [|[|i]]; [| |lia]; apply nearx_refl.
Qed.
Print Assumptions C101_misc_tests.
