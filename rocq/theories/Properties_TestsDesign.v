(** C101: the repository's own unit tests of the quadrature rules, the designs
    and the solvers. *)
From Coq Require Import String Classical Reals Lra Lia List Arith ZArith Bool.
From Verif Require Import Prelude Py NumArr Toy M_Misc P_Misc Properties_Misc Cholesky SolveRef M_SimRunners P_SimRunners M_Gradients P_Gradients Lsq Sorting P_LocalLinear Properties_Gradients
  M_QP P_QP Properties_QP M_Subspaces M_Quadrature P_Quadrature Properties_Quadrature M_Domains P_Domains M_Designs P_Designs P_Multistart Properties_Designs P_Notebooks M_Tests P_Tests Properties_Zonotope Properties_Tests.
Import ListNotations.
Open Scope R_scope.

(** ** tests/test_quadrature.py *)

(** all of its tests pass *)
Theorem C101_quadrature : forall eig argsort (G : gen) (U : Type) (w : world G U (nd R)) t, eig_contract eig -> eig_total eig -> argsort_contract argsort ->
  In t [test_r_hermite_type_error; test_r_hermite_0; test_r_hermite_1; test_r_hermite_2; test_r_hermite_5;
        test_jacobi_matrix_dimension (entries_of [0]); test_jacobi_matrix_dimension (rows_of [[0]; [1/10]]);
        test_jacobi_matrix_dimension (rows_of [[0; 24/10; 52/10]; [1/10; 215/10; 3/10]]);
        test_jacobi_matrix_one_row 0; test_jacobi_matrix_one_row 2; test_jacobi_matrix_5; test_gh1d_7pts eig argsort;
        test_gauss_hermite eig argsort (NList [7%Z]); test_gauss_hermite eig argsort (NInt 7); test_gauss_hermite eig argsort (NList [3; 3]%Z);
        test_gauss_hermite eig argsort (NList [3; 3; 4]%Z); test_gauss_hermite_type_error eig argsort] ->
  t w = (Ok tt, w).
Proof.
  intros eig argsort G U w t HE HT HA Ht.
  assert (HR : forall N l, (exists v, r_hermite (IsA N) = Ok v /\ shape v = [List.length l; 2%nat] /\ (List.length (nth 0 l []) = 2)%nat /\ forall i j, (i < List.length l)%nat -> (j < 2)%nat -> v.[i, j] = nth j (nth i l []) 0) ->
    @test_r_hermite G U N l w = (Ok tt, w)).
  { intros N l (v & Ev & Sv & Sl & Vv). unfold test_r_hermite. rewrite bind_lift, Ev. unfold mlift. rewrite (almost_same 7 v (rows_of l) (List.length l) 2 Sv); [reflexivity|unfold rows_of; now rewrite Sl|].
    intros i j Hi Hj. rewrite Vv by auto. reflexivity. }
  assert (GH : forall l, Forall (fun n => 1 <= n)%Z l -> @test_gauss_hermite G U eig argsort (NList l) w = (Ok tt, w)).
  { intros l Hl. destruct (C31_gauss_hermite_tensor eig argsort l HE HT HA Hl) as (x & v & E & _). unfold test_gauss_hermite. rewrite bind_lift, E. reflexivity. }
  assert (JM : forall a, @test_jacobi_matrix_one_row G U a w = (Ok tt, w)).
  { intros a. unfold test_jacobi_matrix_one_row. rewrite bind_lift. cbn [jacobi_matrix rows_of shape mk2 List.length nth negb Nat.eqb]. unfold mlift.
    match goal with |- (assert_almost_equal 7 ?J _, w) = _ => assert (EJ : assert_almost_equal 7 J (num a) = Ok tt) by (apply (compare_nums _ _ (near_ 7) a a); apply near_refl); rewrite EJ end. reflexivity. }
  cbn [In] in Ht.
  repeat match type of Ht with _ \/ _ => destruct Ht as [<-|Ht] end.
  - reflexivity.
  - reflexivity.
  - apply HR. eexists. split; [reflexivity|]. split; [reflexivity|]. split; [reflexivity|]. intros [|i] [|[|j]] Hi Hj; cbn in *; try lia; reflexivity.
  - apply HR. eexists. split; [reflexivity|]. split; [reflexivity|]. split; [reflexivity|]. intros [|[|[|i]]] [|[|j]] Hi Hj; cbn in *; try lia; try reflexivity; lra.
  - apply HR. eexists. split; [reflexivity|]. split; [reflexivity|]. split; [reflexivity|]. intros [|[|[|[|[|[|i]]]]]] [|[|j]] Hi Hj; cbn in *; try lia; try reflexivity; lra.
  - reflexivity.
  - reflexivity.
  - reflexivity.
  - apply JM.
  - apply JM.
  - reflexivity.
  - destruct (C29_returns eig argsort 7 HE HT HA) as (x & v & E). unfold test_gh1d_7pts. rewrite bind_lift, E. reflexivity.
  - apply GH. repeat constructor; lia.
  - destruct (C29_returns eig argsort 7 HE HT HA) as (x & v & E). unfold test_gauss_hermite, gauss_hermite, tensor_rule. cbn [rbind]. rewrite bind_lift, E. reflexivity.
  - apply GH. repeat constructor; lia.
  - apply GH. repeat constructor; lia.
  - reflexivity.
  - destruct Ht.
Qed.
Print Assumptions C101_quadrature.

(** ** tests/test_designs.py *)

Lemma compare_refl : forall A (p : A -> A -> bool) X, (forall x, p x x = true) -> compare p X X = Ok tt.
Proof.
  intros A p X H. unfold compare. destruct (shape X) as [|a s] eqn:E.
  - apply assert_ok, forallb_forall. auto.
  - destruct (list_eq_dec Nat.eq_dec (a :: s) (a :: s)); [|contradiction]. apply assert_ok, forallb_forall. auto.
Qed.

(** the designs that need no optimisation *)
Theorem C101_plain_designs : forall eig argsort (G : gen) (U : Type) (w : world G U (nd R)) t,
  In t [test_interval_design; test_gauss_hermite_design_1 eig argsort; test_gauss_hermite_design_2 eig argsort] -> t w = (Ok tt, w).
Proof.
  intros eig argsort G U w t Ht. destruct Ht as [<-|[<-|[<-|[]]]].
  - unfold test_interval_design. destruct (C33_interval_design (-1) 1 3 ltac:(lra)) as (D & E & S & V & _). change (Z.of_nat 3) with 3%Z in E. rewrite bind_lift, E. unfold mlift.
    rewrite (almost_same 7 D (rows_of [[-5/10]; [0]; [5/10]]) 3 1 S eq_refl); [reflexivity|]. intros i j Hi Hj. replace j with 0%nat by lia. rewrite V by lia.
    destruct i as [|[|[|i]]]; [| | |lia]; cbn; lra.
  - unfold test_gauss_hermite_design_1, mlift, mbind. cbn -[assert_almost_equal]. rewrite (almost_same 7 _ (rows_of [[0]]) 1 1); try reflexivity. intros [|i] [|j] Hi Hj; try lia. reflexivity.
  - unfold test_gauss_hermite_design_2, gauss_hermite_design, gauss_hermite, tensor_rule. rewrite bind_lift. cbn [rbind fold_left tensor_step gh1d g1d Z.ltb Z.compare].
    unfold tensor_step, gh1d, g1d. cbn -[assert_almost_equal mlift]. unfold mlift. rewrite (almost_same 7 _ (rows_of [[0; 0]]) 1 2); try reflexivity.
    intros [|i] [|[|j]] Hi Hj; try lia; cbn; lra.
Qed.
Print Assumptions C101_plain_designs.

(** the two tests of the random state: they never fail an assertion; they pass exactly
    when the design is found, and otherwise stop with its exception *)
Theorem C101_maximin_states : forall B convex_hull (G : gen) (U : Type) (w v : world G U (nd R)),
  fst (test_maximin_design_random_state B convex_hull w) = match fst (maximin_design B convex_hull square 3 v) with Ok _ => Ok tt | Err e => Err e end /\
  fst (test_maximin_design_repeatable B convex_hull w) = match fst (maximin_design B convex_hull square 10 v) with Ok _ => Ok tt | Err e => Err e end.
Proof.
  intros B ch G U w v. split.
  - destruct (C35_maximin_design_partial G U (nd R) B ch square 3) as [H1 H2]. unfold test_maximin_design_random_state.
    rewrite (nb (seed 99) _ w tt (set_rng w (g_seed G 99)) eq_refl). set (w1 := set_rng w _). rewrite (H2 v w1).
    destruct (maximin_design B ch square 3 w1) as [[Y1|e] w2] eqn:E1; [|unfold mbind at 1; rewrite E1; reflexivity].
    rewrite (nb _ _ w1 _ _ E1), (nb (seed 999) _ w2 tt (set_rng w2 (g_seed G 999)) eq_refl). set (w3 := set_rng w2 _).
    specialize (H2 w1 w3). rewrite E1 in H2. destruct (maximin_design B ch square 3 w3) as [r w4] eqn:E3. cbn [fst] in H2. subst r. rewrite (nb _ _ w3 _ _ E3).
    unfold mlift. cbn [fst]. apply compare_refl, near_refl.
  - destruct (C35_maximin_design_partial G U (nd R) B ch square 10) as [H1 H2]. unfold test_maximin_design_repeatable. rewrite (H2 v w).
    destruct (maximin_design B ch square 10 w) as [[Y1|e] w2] eqn:E1; [|unfold mbind at 1; rewrite E1; reflexivity].
    rewrite (nb _ _ w _ _ E1). specialize (H2 w w2). rewrite E1 in H2. destruct (maximin_design B ch square 10 w2) as [r w4] eqn:E3. cbn [fst] in H2. subst r. rewrite (nb _ _ w2 _ _ E3).
    unfold mlift. cbn [fst]. apply compare_refl, near_refl.
Qed.
Print Assumptions C101_maximin_states.

(** test_maximin_design: with one point in the square there is one best place, the
    centre.  It passes whenever the solver's answers are global minimisers of the problems
    posed, and stops with the design's exception otherwise. *)
Lemma square_smallest : forall y, - 1 <= y 0%nat <= 1 -> - 1 <= y 1%nat <= 1 ->
  smallest square 4 2 1 y ((1 - Rabs (y 0%nat)) * (1 - Rabs (y 0%nat)) + (1 - Rabs (y 1%nat)) * (1 - Rabs (y 1%nat))).
Proof.
  intros y H0 H1.
  assert (V : forall j, (j < 4)%nat -> vsq square 2 y 0 j = (y 0%nat - nth j [-1; 1; -1; 1] 0) * (y 0%nat - nth j [-1; 1; -1; 1] 0) + (y 1%nat - nth j [-1; -1; 1; 1] 0) * (y 1%nat - nth j [-1; -1; 1; 1] 0)).
  { intros j Hj. unfold vsq. cbn [sumf Nat.mul Nat.add]. destruct j as [|[|[|[|j]]]]; [| | | |lia]; cbn; ring. }
  split; [|split].
  - right. destruct (Rle_dec 0 (y 0%nat)) as [P0|P0], (Rle_dec 0 (y 1%nat)) as [P1|P1].
    + exists 0%nat, 3%nat. split; [lia|]. split; [lia|]. rewrite V by lia. cbn [nth]. rewrite !Rabs_right by lra. ring.
    + exists 0%nat, 1%nat. split; [lia|]. split; [lia|]. rewrite V by lia. cbn [nth]. rewrite (Rabs_right (y 0%nat)), (Rabs_left (y 1%nat)) by lra. ring.
    + exists 0%nat, 2%nat. split; [lia|]. split; [lia|]. rewrite V by lia. cbn [nth]. rewrite (Rabs_left (y 0%nat)), (Rabs_right (y 1%nat)) by lra. ring.
    + exists 0%nat, 0%nat. split; [lia|]. split; [lia|]. rewrite V by lia. cbn [nth]. rewrite !Rabs_left by lra. ring.
  - intros i j Hi Hj NE. lia.
  - intros i j Hi Hj. replace i with 0%nat by lia. rewrite V by auto.
    assert (Q : forall a s, - 1 <= a <= 1 -> s = 1 \/ s = - 1 -> (1 - Rabs a) * (1 - Rabs a) <= (a - s) * (a - s)).
    { intros a s Ha Hs. unfold Rabs. destruct (Rcase_abs a), Hs as [-> | ->]; nra. }
    apply Rplus_le_compat; apply Q; auto; destruct j as [|[|[|[|j]]]]; cbn; auto; lia.
Qed.
Lemma square_conv : forall x, conv square 4 2 x <-> (- 1 <= x 0%nat <= 1 /\ - 1 <= x 1%nat <= 1).
Proof.
  intros x. split.
  - intros (lam & L0 & L1 & Lx). assert (X0 := Lx 0%nat ltac:(lia)). assert (X1 := Lx 1%nat ltac:(lia)). cbn in X0, X1, L1.
    assert (P0 := L0 0%nat ltac:(lia)). assert (P1 := L0 1%nat ltac:(lia)). assert (P2 := L0 2%nat ltac:(lia)). assert (P3 := L0 3%nat ltac:(lia)). rewrite X0, X1. lra.
  - intros [H0 H1]. set (a := x 0%nat) in *. set (b := x 1%nat) in *.
    exists (fun v => match v with O => (1 - a) * (1 - b) / 4 | 1%nat => (1 + a) * (1 - b) / 4 | 2%nat => (1 - a) * (1 + b) / 4 | _ => (1 + a) * (1 + b) / 4 end).
    split; [|split].
    + assert (K : forall p q, 0 <= p -> 0 <= q -> 0 <= p * q / 4) by (intros; apply Rmult_le_pos; [now apply Rmult_le_pos|lra]). intros [|[|[|v]]] Hv; apply K; lra.
    + cbn. field.
    + intros [|[|j]] Hj; [| |lia]; cbn; [fold a|fold b]; field.
Qed.

Theorem C101_maximin_design : forall B convex_hull (G : gen) (U : Type) (w : world G U (nd R)) eqs, convex_hull square = Ok eqs -> hull_of square 4 2 eqs ->
  (forall y0, minimize_ok_at (sp_minimize B) (maximin_problem square eqs 1 2 y0) 2) ->
  (exists Y, maximin_design B convex_hull square 1 w = (Ok Y, w) /\ test_maximin_design B convex_hull w = (Ok tt, w)) \/
  (exists e w', maximin_design B convex_hull square 1 w = (Err e, w') /\ test_maximin_design B convex_hull w = (Err e, w')).
Proof.
  intros B ch G U w eqs EH HH HM. unfold test_maximin_design.
  destruct (maximin_design B ch square 1 w) as [[Y|e] w'] eqn:E; [left|right; exists e, w'; split; [reflexivity|]; unfold mbind; rewrite E; reflexivity].
  destruct (maximin_run (G := G) (U := U) (L := nd R) B ch square 4 2 eqs 1 w eq_refl EH) as [(i & e & _ & _ & E')|(_ & o & Bt & E')]; change (Z.of_nat 1) with 1%Z in E'; rewrite E in E'; [discriminate|].
  injection E' as E' ->. exists Y. split; [reflexivity|]. rewrite (nb _ _ w _ _ E).
  destruct Bt as [[-> _]|(k & v & Hk & -> & [Gv Sv] & _)]; [discriminate|].
  destruct (mr_x v) as [x|x] eqn:Ex; [|discriminate].
  destruct (HM _ v Gv Sv) as (Dx & Fx & Mx). rewrite Ex in Dx, Fx, Mx. cbn [xdim xpoint] in Dx, Fx, Mx.
  assert (FE : forall y y0, (- 1 <= y 0%nat <= 1 /\ - 1 <= y 1%nat <= 1) <-> mp_feas (maximin_problem square eqs 1 2 y0) 2 y).
  { intros y y0. change 2%nat with (1 * 2)%nat at 2. rewrite (C26_maximin_constraint square 4 2 eqs 1 y0 y HH ltac:(lia)). split.
    - intros H i Hi. replace i with 0%nat by lia. apply square_conv. cbn [Nat.mul Nat.add]. lra.
    - intros H. specialize (H 0%nat ltac:(lia)). apply square_conv in H. cbn [Nat.mul Nat.add] in H. lra. }
  assert (OB : forall y y0, - 1 <= y 0%nat <= 1 -> - 1 <= y 1%nat <= 1 -> mp_fun (maximin_problem square eqs 1 2 y0) (mk1 2 y) = Ok (- ((1 - Rabs (y 0%nat)) * (1 - Rabs (y 0%nat)) + (1 - Rabs (y 1%nat)) * (1 - Rabs (y 1%nat))))).
  { intros y y0 H0 H1. change (maximin_obj square (mk1 (1 * 2) y) = Ok (- ((1 - Rabs (y 0%nat)) * (1 - Rabs (y 0%nat)) + (1 - Rabs (y 1%nat)) * (1 - Rabs (y 1%nat))))).
    apply (C34_objective_partial square 4 2 1 y _ eq_refl); try lia; [now apply square_smallest|].
    assert (A0 : 0 <= Rabs (y 0%nat) <= 1) by (split; [apply Rabs_pos|apply Rabs_le; lra]). assert (A1 : 0 <= Rabs (y 1%nat) <= 1) by (split; [apply Rabs_pos|apply Rabs_le; lra]).
    revert A0 A1. generalize (Rabs (y 0%nat)) (Rabs (y 1%nat)). intros p q A0 A1. assert (2 <= 10 ^ 10) by lra. nra. }
  apply FE in Fx. destruct Fx as [F0 F1].
  assert (Q := Mx (fun _ => 0) _ _ (proj1 (FE (fun _ => 0) _) ltac:(cbv beta; lra)) (OB (fun j => x.[j]) _ F0 F1) (OB (fun _ => 0) _ ltac:(cbv beta; lra) ltac:(cbv beta; lra))). cbv beta in Q. rewrite Rabs_R0 in Q.
  cbn [xpoint] in F0, F1. assert (Z : x.[0%nat] = 0 /\ x.[1%nat] = 0).
  { assert (A0 : 0 <= Rabs (x.[0%nat]) <= 1) by (split; [apply Rabs_pos|apply Rabs_le; lra]). assert (A1 : 0 <= Rabs (x.[1%nat]) <= 1) by (split; [apply Rabs_pos|apply Rabs_le; lra]).
    assert (Z0 : Rabs (x.[0%nat]) = 0 /\ Rabs (x.[1%nat]) = 0).
    { revert Q A0 A1. generalize (Rabs (x.[0%nat])) (Rabs (x.[1%nat])). intros p q Q A0 A1.
      assert (S1 : (1 - p) * (1 - p) <= 1 - p) by nra. assert (S2 : (1 - q) * (1 - q) <= 1 - q) by nra. lra. }
    split; apply NNPP; intros N; apply Rabs_pos_lt in N; lra. }
  destruct (reshape_ok _ [1; 2]%nat x) as (Y' & EY & SY & VY); [unfold size; rewrite Dx; reflexivity|]. assert (Y' = Y) as -> by congruence.
  assert (VX : forall i j, (i < 1)%nat -> (j < 2)%nat -> Y.[i, j] = 0).
  { intros i j Hi Hj. rewrite VY by (constructor; [exact Hi|constructor; [exact Hj|constructor]]). rewrite Dx. cbn [unravel ravel prodn at_ nth]. rewrite Nat.div_1_r.
    replace (i * (2 * 1) + (j * 1 + 0))%nat with j by lia. destruct Z as [Z0 Z1]. destruct j as [|[|j]]; [exact Z0|exact Z1|lia]. }
  unfold mlift. rewrite (almost_same 4 Y (zeros2 1 2) 1 2 SY eq_refl); [reflexivity|]. intros i j Hi Hj. rewrite VX by auto. reflexivity.
Qed.
Print Assumptions C101_maximin_design.

(** the square's sides, and a solver that answers with the centre *)
Definition square_eqs : nd R := rows_of [[1; 0; -1]; [-1; 0; -1]; [0; 1; -1]; [0; -1; -1]].
Lemma square_hull : hull_of square 4 2 square_eqs.
Proof.
  exists 4%nat. split; [reflexivity|]. intros x. rewrite square_conv. split.
  - intros H f Hf. destruct f as [|[|[|[|f]]]]; [| | | |lia]; cbn; lra.
  - intros H. assert (A := H 0%nat ltac:(lia)). assert (B := H 1%nat ltac:(lia)). assert (C := H 2%nat ltac:(lia)). assert (D := H 3%nat ltac:(lia)). cbn in A, B, C, D. lra.
Qed.
Definition centre_backend : backend := const_backend (MR true (XArr (entries_of [0; 0])) (-2)).
Lemma centre_ok : forall y0, minimize_ok_at (sp_minimize centre_backend) (maximin_problem square square_eqs 1 2 y0) 2.
Proof.
  intros y0 r Er _. injection Er as <-. cbn [mr_x xdim xpoint]. split; [reflexivity|].
  assert (FE : forall y, mp_feas (maximin_problem square square_eqs 1 2 y0) 2 y <-> (- 1 <= y 0%nat <= 1 /\ - 1 <= y 1%nat <= 1)).
  { intros y. change 2%nat with (1 * 2)%nat at 2. rewrite (C26_maximin_constraint square 4 2 square_eqs 1 y0 y square_hull ltac:(lia)). split.
    - intros H. specialize (H 0%nat ltac:(lia)). apply square_conv in H. cbn [Nat.mul Nat.add] in H. lra.
    - intros H i Hi. replace i with 0%nat by lia. apply square_conv. cbn [Nat.mul Nat.add]. lra. }
  assert (OB : forall y a, - 1 <= y 0%nat <= 1 -> - 1 <= y 1%nat <= 1 -> mp_fun (maximin_problem square square_eqs 1 2 y0) (mk1 2 y) = Ok a -> a = - ((1 - Rabs (y 0%nat)) * (1 - Rabs (y 0%nat)) + (1 - Rabs (y 1%nat)) * (1 - Rabs (y 1%nat)))).
  { intros y a H0 H1 Ea. change (maximin_obj square (mk1 (1 * 2) y) = Ok a) in Ea.
    destruct (C34_objective_partial square 4 2 1 y _ eq_refl ltac:(lia) ltac:(lia) ltac:(lia) (square_smallest y H0 H1)) as [_ K]. rewrite K in Ea; [now injection Ea as <-|].
    assert (A0 : 0 <= Rabs (y 0%nat) <= 1) by (split; [apply Rabs_pos|apply Rabs_le; lra]). assert (A1 : 0 <= Rabs (y 1%nat) <= 1) by (split; [apply Rabs_pos|apply Rabs_le; lra]).
    revert A0 A1. generalize (Rabs (y 0%nat)) (Rabs (y 1%nat)). intros p q A0 A1. assert (2 <= 10 ^ 10) by lra. nra. }
  split.
  - apply FE. cbn. lra.
  - intros y a b Hy Ea Eb. apply FE in Hy. apply OB in Ea; [|cbn; lra|cbn; lra]. apply OB in Eb; [|tauto|tauto]. rewrite Ea, Eb. cbn. rewrite Rabs_R0.
    assert (A0 : 0 <= Rabs (y 0%nat) <= 1) by (split; [apply Rabs_pos|apply Rabs_le; lra]). assert (A1 : 0 <= Rabs (y 1%nat) <= 1) by (split; [apply Rabs_pos|apply Rabs_le; lra]).
    revert A0 A1. generalize (Rabs (y 0%nat)) (Rabs (y 1%nat)). intros p q A0 A1. nra.
Qed.
Example C101_maximin_design_case : exists Y, maximin_design centre_backend (fun _ => Ok square_eqs) square 1 (same_world (/ 2) 0 half01) = (Ok Y, same_world (/ 2) 0 half01) /\
  fst (test_maximin_design centre_backend (fun _ => Ok square_eqs) (same_world (/ 2) 0 half01)) = Ok tt.
Proof.
  destruct (C101_maximin_design centre_backend (fun _ => Ok square_eqs) _ _ (same_world (/ 2) 0 half01) square_eqs eq_refl square_hull centre_ok) as [(Y & E1 & E2)|(e & w' & E1 & _)].
  - exists Y. split; [exact E1|]. now rewrite E2.
  - exfalso. destruct (maximin_run (G := same_gen (/ 2) 0 half01) (U := unit) (L := nd R) centre_backend (fun _ => Ok square_eqs) square 4 2 square_eqs 1 (same_world (/ 2) 0 half01) eq_refl eq_refl) as [(i & e' & _ & [_ F] & _)|(H & o & Bt & E')].
    + destruct F as [F|(v & F & Sv & _)]; [discriminate|]. injection F as <-. discriminate.
    + change (Z.of_nat 1) with 1%Z in E'. rewrite E1 in E'. destruct Bt as [[-> Bt]|(k & v & _ & -> & [Gv _] & _)].
      * destruct (H 0%nat ltac:(lia)) as (v & Gv). assert (K := Bt 0%nat v ltac:(lia) Gv). destruct Gv as [Gv _]. injection Gv as <-. cbn [mr_fun] in K. lra.
      * injection Gv as <-. cbn [mr_x] in E'. discriminate.
Qed.

(** ** the test of the gradient against finite differences *)

(** the pair of the design y that is closest, and still closest (if no longer alone)
    after the step h in coordinate q *)
Definition stays_closest (y : nat -> R) (h : R) (i0 j0 : nat) : Prop :=
  (closest_points square 4 2 5 y i0 j0 /\ dsq 2 y i0 j0 < 10 ^ 10 /\
     forall q, (q < 10)%nat -> smallest square 4 2 5 (bump y q h) (dsq 2 (bump y q h) i0 j0) /\ dsq 2 (bump y q h) i0 j0 <= 10 ^ 10) \/
  (closest_vertex square 4 2 5 y i0 j0 /\ vsq square 2 y i0 j0 < 10 ^ 10 /\
     forall q, (q < 10)%nat -> smallest square 4 2 5 (bump y q h) (vsq square 2 (bump y q h) i0 j0) /\ vsq square 2 (bump y q h) i0 j0 <= 10 ^ 10).

Lemma one_01 : forall a i, one a i = 0 \/ one a i = 1.
Proof. intros a i. unfold one. destruct (Nat.eqb i a); auto. Qed.

(** then difference quotient and gradient differ by at most h *)
Lemma fd_close : forall y h i0 j0, 0 < h -> stays_closest y h i0 j0 -> exists f0 g, maximin_obj square (mk1 10 y) = Ok f0 /\ maximin_grad square (mk1 10 y) = Ok g /\
  forall q, (q < 10)%nat -> exists f1, maximin_obj square (mk1 10 (bump y q h)) = Ok f1 /\ Rabs ((f1 - f0) / h - g.[q]) <= h.
Proof.
  intros y h i0 j0 Hh HS.
  destruct (maximin_core square 4 2 5 y eq_refl) as (i & j & i1 & j1 & g & Hi & Hj & Hi1 & Hj1 & M0 & M1 & E & EG & SG & VG); try lia. change (5 * 2)%nat with 10%nat in *.
  destruct HS as [((H1 & H2 & NE & HP & HQ) & L & HB)|((H1 & H2 & HP & HQ) & L & HB)].
  - assert (P0 : psq 2 y i0 j0 = dsq 2 y i0 j0) by (unfold psq; destruct (Nat.eqb_spec i0 j0); [contradiction|reflexivity]).
    assert (NIJ : i <> j).
    { intros ->. specialize (M0 i0 j0 H1 H2). rewrite P0 in M0. unfold psq in M0. rewrite Nat.eqb_refl in M0. lra. }
    assert (PR : (i = i0 /\ j = j0) \/ (i = j0 /\ j = i0)).
    { apply NNPP. intros NP. assert (dsq 2 y i0 j0 < dsq 2 y i j) by (apply HP; auto; tauto). specialize (M0 i0 j0 H1 H2). rewrite P0 in M0. unfold psq in M0. destruct (Nat.eqb_spec i j); [congruence|]. lra. }
    assert (PV : psq 2 y i j = dsq 2 y i0 j0).
    { unfold psq. destruct (Nat.eqb_spec i j); [contradiction|]. destruct PR as [[-> ->]|[-> ->]]; [reflexivity|apply dsq_sym]. }
    assert (PL : dsq 2 y i0 j0 < vsq square 2 y i1 j1) by auto.
    rewrite PV, Rmin_left in E by lra. rewrite PV in VG. destruct (Rlt_dec (dsq 2 y i0 j0) (vsq square 2 y i1 j1)) as [_|C0]; [|lra].
    exists (- dsq 2 y i0 j0), g. split; [exact E|]. split; [exact EG|]. intros q Hq. destruct (HB q Hq) as [SB LB].
    exists (- dsq 2 (bump y q h) i0 j0). split; [apply (C34_objective_partial square 4 2 5 (bump y q h) _ eq_refl); auto; lia|].
    set (a := (q / 2)%nat). set (b := (q mod 2)%nat). assert (Hb : (b < 2)%nat) by (apply Nat.mod_upper_bound; lia).
    assert (Ha : (a < 5)%nat) by (apply Nat.div_lt_upper_bound; lia). assert (Eq : q = (a * 2 + b)%nat) by (unfold a, b; rewrite (Nat.div_mod q 2) at 1 by lia; lia).
    assert (GV : g.[q] = - (2 * ((y (i0 * 2 + b)%nat - y (j0 * 2 + b)%nat) * (one a i0 - one a j0)))).
    { rewrite Eq, VG by auto. unfold one. rewrite (Nat.eqb_sym i0 a), (Nat.eqb_sym j0 a). destruct PR as [[-> ->]|[-> ->]]; destruct (Nat.eqb_spec a i0), (Nat.eqb_spec a j0); try congruence; ring. }
    assert (DV : dsq 2 (bump y q h) i0 j0 = dsq 2 y i0 j0 + h * (2 * ((y (i0 * 2 + b)%nat - y (j0 * 2 + b)%nat) * (one a i0 - one a j0))) + h * h * ((one a i0 - one a j0) * (one a i0 - one a j0))).
    { unfold dsq. cbn [sumf]. rewrite Eq, !bump_at by lia. unfold kron_delta. destruct b as [|[|b]]; [| |lia]; cbn [Nat.eqb]; ring. }
    rewrite GV, DV. replace (_ - _) with (- (h * ((one a i0 - one a j0) * (one a i0 - one a j0)))) by (field; lra). rewrite Rabs_Ropp, Rabs_mult, (Rabs_right h) by lra.
    rewrite <- (Rmult_1_r h) at 2. apply Rmult_le_compat_l; [lra|]. destruct (one_01 a i0) as [-> | ->], (one_01 a j0) as [-> | ->]; apply Rabs_le; lra.
  - assert (PR : i1 = i0 /\ j1 = j0).
    { apply NNPP. intros NP. specialize (HQ i1 j1 Hi1 Hj1 NP). specialize (M1 i0 j0 H1 H2). lra. }
    destruct PR as [-> ->].
    assert (PL : vsq square 2 y i0 j0 < psq 2 y i j).
    { unfold psq. destruct (Nat.eqb_spec i j); [lra|]. auto. }
    rewrite Rmin_right in E by lra. destruct (Rlt_dec (psq 2 y i j) (vsq square 2 y i0 j0)) as [C0|_]; [lra|].
    exists (- vsq square 2 y i0 j0), g. split; [exact E|]. split; [exact EG|]. intros q Hq. destruct (HB q Hq) as [SB LB].
    exists (- vsq square 2 (bump y q h) i0 j0). split; [apply (C34_objective_partial square 4 2 5 (bump y q h) _ eq_refl); auto; lia|].
    set (a := (q / 2)%nat). set (b := (q mod 2)%nat). assert (Hb : (b < 2)%nat) by (apply Nat.mod_upper_bound; lia).
    assert (Ha : (a < 5)%nat) by (apply Nat.div_lt_upper_bound; lia). assert (Eq : q = (a * 2 + b)%nat) by (unfold a, b; rewrite (Nat.div_mod q 2) at 1 by lia; lia).
    assert (GV : g.[q] = - (2 * ((y (i0 * 2 + b)%nat - square.[j0, b]) * one a i0))).
    { rewrite Eq, VG by auto. unfold one. rewrite (Nat.eqb_sym i0 a). destruct (Nat.eqb_spec a i0); ring. }
    assert (DV : vsq square 2 (bump y q h) i0 j0 = vsq square 2 y i0 j0 + h * (2 * ((y (i0 * 2 + b)%nat - square.[j0, b]) * one a i0)) + h * h * (one a i0 * one a i0)).
    { unfold vsq. cbn [sumf]. rewrite Eq, !bump_at by lia. unfold kron_delta. destruct b as [|[|b]]; [| |lia]; cbn [Nat.eqb]; ring. }
    rewrite GV, DV. replace (_ - _) with (- (h * (one a i0 * one a i0))) by (field; lra). rewrite Rabs_Ropp, Rabs_mult, (Rabs_right h) by lra.
    rewrite <- (Rmult_1_r h) at 2. apply Rmult_le_compat_l; [lra|]. destruct (one_01 a i0) as [-> | ->]; apply Rabs_le; lra.
Qed.

(** sequences of checks that leave the world alone *)
Lemma mmap_checks : forall W A (f : A -> M W unit) (w : W) l, (forall x, In x l -> f x w = (Ok tt, w) \/ f x w = (Err AssertionError, w)) ->
  ((forall x, In x l -> f x w = (Ok tt, w)) /\ exists r, mmap f l w = (Ok r, w)) \/ ((exists x, In x l /\ f x w = (Err AssertionError, w)) /\ mmap f l w = (Err AssertionError, w)).
Proof.
  intros W A f w l. induction l as [|a l IH]; intros H.
  - left. split; [intros x []|]. exists []. reflexivity.
  - destruct (H a (or_introl eq_refl)) as [E|E].
    + destruct (IH (fun x Hx => H x (or_intror Hx))) as [(A1 & r & A2)|((x & A1 & A3) & A2)].
      * left. split; [intros x [<-|Hx]; auto|]. exists (tt :: r). cbn [mmap]. rewrite (nb _ _ w _ _ E), (nb _ _ w _ _ A2). reflexivity.
      * right. split; [exists x; simpl; auto|]. cbn [mmap]. rewrite (nb _ _ w _ _ E). unfold mbind at 1. rewrite A2. reflexivity.
    + right. split; [exists a; simpl; auto|]. cbn [mmap]. unfold mbind at 1. rewrite E. reflexivity.
Qed.

(** the ten numbers of round r *)
Definition round_draws {G : gen} (s : gst G) (r : nat) : list R := map (normal_at s) (seq (r * 10) 10).
(** what one round checks *)
Definition round_ok (l : list R) : Prop := exists f0 g, maximin_obj square (mk1 10 (fun q => nth q l 0)) = Ok f0 /\ maximin_grad square (mk1 10 (fun q => nth q l 0)) = Ok g /\
  forall q, (q < 10)%nat -> exists f1, maximin_obj square (mk1 10 (bump (fun q => nth q l 0) q (/ 10 ^ 6))) = Ok f1 /\ Rabs ((f1 - f0) / / 10 ^ 6 - g.[q]) < 15 / 10 * / 10 ^ 5.

Lemma fd_test_rounds : forall (G : gen) (U : Type) (w : world G U (nd R)),
  (fst (test_gradient_with_finite_difference w) = Ok tt <-> forall r, (r < 5)%nat -> round_ok (round_draws (rng w) r)) /\
  (fst (test_gradient_with_finite_difference w) <> Ok tt -> fst (test_gradient_with_finite_difference w) = Err AssertionError).
Proof.
  intros G U w. unfold test_gradient_with_finite_difference.
  match goal with |- context [mmap ?f (seq 0 5)] => set (F := f) end.
  assert (ST : forall r (v : world G U (nd R)), (round_ok (map (normal_at (rng v)) (seq 0 10)) /\ F r v = (Ok tt, set_rng v (normal_state 10 (rng v)))) \/
    (~ round_ok (map (normal_at (rng v)) (seq 0 10)) /\ F r v = (Err AssertionError, set_rng v (normal_state 10 (rng v))))).
  { intros r v. unfold F. assert (ER := repeat_normal G 10 v). rewrite (nb _ _ v _ _ ER). set (l := map (normal_at (rng v)) (seq 0 10)). set (v1 := set_rng v _). cbv zeta.
    assert (LL : List.length l = 10%nat) by reflexivity. clearbody l. clear ER.
    assert (EY : entries_of l = mk1 10 (fun q => nth q l 0)) by (unfold entries_of; rewrite LL; reflexivity). rewrite EY.
    destruct (maximin_core square 4 2 5 (fun q => nth q l 0) eq_refl) as (i & j & i1 & j1 & g & _ & _ & _ & _ & _ & _ & E & EG & SG & _); try lia. change (5 * 2)%nat with 10%nat in *.
    rewrite bind_lift, E, bind_lift, EG. set (f0 := - Rmin _ _) in *. clearbody f0.
    set (CH := fun j0 : nat => _ : M (world G U (nd R)) unit).
    assert (OB : forall q, exists f1, maximin_obj square (mk1 10 (bump (fun q => nth q l 0) q (/ 10 ^ 6))) = Ok f1).
    { intros q. destruct (maximin_core square 4 2 5 (bump (fun q => nth q l 0) q (/ 10 ^ 6)) eq_refl) as (? & ? & ? & ? & ? & _ & _ & _ & _ & _ & _ & E1 & _); try lia. eauto. }
    assert (EC : forall q f1, maximin_obj square (mk1 10 (bump (fun q => nth q l 0) q (/ 10 ^ 6))) = Ok f1 -> CH q v1 = (assert_almost_equal 5 (num (g.[q])) (num ((f1 - f0) / / 10 ^ 6)), v1)).
    { intros q f1 E1. unfold CH. rewrite bind_lift. change (mk1 10 (fun q0 : nat => if (q0 =? q)%nat then (mk1 10 (fun q1 : nat => nth q1 l 0)).[q0] + / 10 ^ 6 else (mk1 10 (fun q1 : nat => nth q1 l 0)).[q0])) with (mk1 10 (bump (fun q => nth q l 0) q (/ 10 ^ 6))). rewrite E1. reflexivity. }
    destruct (mmap_checks _ _ CH v1 (seq 0 10)) as [(A1 & rr & A2)|((x & Hx & A1) & A2)].
    - intros q _. destruct (OB q) as (f1 & E1). rewrite (EC q f1 E1). destruct (compare_cases _ _ (near_ 5) (num (g.[q])) (num ((f1 - f0) / / 10 ^ 6))) as [K|K]; unfold assert_almost_equal; rewrite K; auto.
    - left. split; [|rewrite (nb _ _ v1 _ _ A2); reflexivity]. exists f0, g. split; [exact E|]. split; [exact EG|]. intros q Hq. destruct (OB q) as (f1 & E1). exists f1. split; [exact E1|].
      assert (Q := A1 q ltac:(apply in_seq; lia)). rewrite (EC q f1 E1) in Q. assert (Q' : assert_almost_equal 5 (num (g.[q])) (num ((f1 - f0) / / 10 ^ 6)) = Ok tt) by congruence.
      apply compare_nums in Q'. now apply near_spec in Q'.
    - right. split; [|unfold mbind; rewrite A2; reflexivity]. intros (f0' & g' & E' & EG' & H). assert (f0' = f0) as -> by congruence. assert (g' = g) as -> by congruence.
      apply in_seq in Hx. destruct (H x ltac:(lia)) as (f1 & E1 & B1). rewrite (EC x f1 E1) in A1.
      assert (K : assert_almost_equal 5 (num (g.[x])) (num ((f1 - f0) / / 10 ^ 6)) = Ok tt) by (apply compare_nums, near_spec; exact B1). congruence. }
  clearbody F.
  assert (DR : forall r (v : world G U (nd R)), rng v = normal_state (r * 10) (rng w) -> map (normal_at (rng v)) (seq 0 10) = round_draws (rng w) r).
  { intros r v E. unfold round_draws. rewrite E. generalize 10%nat at 2 4. intros n. generalize (rng w). intros s. replace (seq (r * 10) n) with (map (fun k => r * 10 + k)%nat (seq 0 n)).
    - rewrite map_map. apply map_ext. intros k. apply normal_at_add.
    - clear. generalize (r * 10)%nat. intros a. transitivity (seq (a + 0) n); [|f_equal; lia]. generalize 0%nat. induction n; intros b; cbn [seq map]; [reflexivity|]. f_equal. rewrite IHn. f_equal. lia. }
  assert (RUN : forall n k (v : world G U (nd R)), rng v = normal_state (k * 10) (rng w) ->
    ((forall r, (k <= r < k + n)%nat -> round_ok (round_draws (rng w) r)) /\ exists x v', mmap F (seq k n) v = (Ok x, v')) \/
    (~ (forall r, (k <= r < k + n)%nat -> round_ok (round_draws (rng w) r)) /\ exists v', mmap F (seq k n) v = (Err AssertionError, v'))).
  { induction n; intros k v Ev; [left; split; [intros; lia|]; exists [], v; reflexivity|]. cbn [seq mmap].
    destruct (ST k v) as [[A1 A2]|[A1 A2]]; rewrite (DR k v Ev) in A1.
    - rewrite (nb _ _ v _ _ A2). destruct (IHn (S k) (set_rng v (normal_state 10 (rng v)))) as [(B1 & x & v' & B2)|(B1 & v' & B2)].
      + cbn [rng set_rng]. rewrite Ev, <- normal_state_add. f_equal. lia.
      + left. split; [|exists (tt :: x), v'; rewrite (nb _ _ _ _ _ B2); reflexivity]. intros r Hr. destruct (Nat.eq_dec r k) as [->|]; [exact A1|apply B1; lia].
      + right. split; [|exists v'; unfold mbind; rewrite B2; reflexivity]. intros H. apply B1. intros r Hr. apply H. lia.
    - right. split; [intros H; apply A1, H; lia|]. exists (set_rng v (normal_state 10 (rng v))). unfold mbind. rewrite A2. reflexivity. }
  destruct (RUN 5%nat 0%nat w eq_refl) as [(A1 & x & v & A2)|(A1 & v & A2)].
  - rewrite (nb _ _ w _ _ A2). cbn [fst mret]. split; [|intros H; exfalso; apply H; reflexivity]. split; [intros _ r Hr; apply A1; lia|reflexivity].
  - unfold mbind. rewrite A2. cbn [fst]. split; [|reflexivity]. split; [discriminate|]. intros H. exfalso. apply A1. intros r Hr. apply H. lia.
Qed.

(** it passes when in each of the five rounds one pair is closest and stays so during
    the ten steps *)
Theorem C101_gradient_with_finite_difference_partial : forall (G : gen) (U : Type) (w : world G U (nd R)),
  (forall r, (r < 5)%nat -> exists i0 j0, stays_closest (fun q => nth q (map (normal_at (rng w)) (seq (r * 10) 10)) 0) (/ 10 ^ 6) i0 j0) ->
  fst (test_gradient_with_finite_difference w) = Ok tt.
Proof.
  intros G U w H. apply fd_test_rounds. intros r Hr. destruct (H r Hr) as (i0 & j0 & SC).
  destruct (fd_close _ (/ 10 ^ 6) i0 j0 ltac:(apply Rinv_0_lt_compat, pow_lt; lra) SC) as (f0 & g & E & EG & K). exists f0, g. split; [exact E|]. split; [exact EG|].
  intros q Hq. destruct (K q Hq) as (f1 & E1 & B). exists f1. split; [exact E1|]. eapply Rle_lt_trans; [exact B|].
  assert (0 < / 10 ^ 6) by (apply Rinv_0_lt_compat, pow_lt; lra). replace (/ 10 ^ 5) with (10 * / 10 ^ 6) by (cbn; field). lra.
Qed.
Print Assumptions C101_gradient_with_finite_difference_partial.

(** but it fails for some draws: two points equally far from their nearest vertices *)
Definition tied : list R := [0; 0; 2; 0; 10; 0; 20; 0; 30; 0].
Lemma tied_smallest : forall b h, (b = 1 \/ b = 3)%nat -> 0 <= h <= 1 / 10 -> smallest square 4 2 5 (bump (fun q => nth q tied 0) b h) (2 - 2 * h + h * h).
Proof.
  intros b h Hb Hh. split; [|split].
  - right. destruct Hb as [-> | ->]; [exists 0%nat, 2%nat|exists 1%nat, 3%nat]; (split; [lia|]); (split; [lia|]); unfold vsq; cbn; ring.
  - intros i j Hi Hj NE. unfold dsq. destruct Hb as [-> | ->]; (destruct i as [|[|[|[|[|i]]]]]; [| | | | |lia]); (destruct j as [|[|[|[|[|j]]]]]; [| | | | |lia]); try congruence; cbn; nra.
  - intros i j Hi Hj. unfold vsq. destruct Hb as [-> | ->]; (destruct i as [|[|[|[|[|i]]]]]; [| | | | |lia]); (destruct j as [|[|[|[|j]]]]; [| | | |lia]); cbn; nra.
Qed.
Program Definition tied_gen : gen := {|
  gst := nat; g_seed := fun n => n; g_normal := fun s => (nth (s mod 10) tied 0, S s); g_unif := fun s => (/ 2, S s); g_randint := fun hi s => (Nat.modulo s hi, S s) |}.
Next Obligation. cbn. lra. Qed.
Next Obligation. apply Nat.mod_upper_bound. lia. Qed.

Theorem C101_gradient_with_finite_difference_refuted : exists G (w : world G unit (nd R)), fst (test_gradient_with_finite_difference w) = Err AssertionError.
Proof.
  exists tied_gen, (World (0%nat : gst tied_gen) tt [] 0%nat). apply fd_test_rounds. intros H. assert (K := proj1 (proj1 (fd_test_rounds _ _ _)) H 0%nat ltac:(lia)). clear H.
  assert (ET : @round_draws tied_gen 0%nat 0 = tied) by reflexivity. cbn [rng] in K. rewrite ET in K. clear ET.
  destruct K as (f0 & g & E & EG & K).
  set (h := / 10 ^ 6) in *. assert (Hh : 0 < h < 1 / 1000) by (unfold h; cbn; lra). 
  assert (S0 : smallest square 4 2 5 (fun q => nth q tied 0) 2).
  { assert (Q := tied_smallest 1 0 (or_introl eq_refl) ltac:(lra)). replace (2 - 2 * 0 + 0 * 0) with 2 in Q by ring.
    assert (X : forall k, bump (fun q => nth q tied 0) 1 0 k = nth k tied 0) by (intros k; unfold bump; destruct (Nat.eqb k 1); lra).
    assert (D : forall i j, dsq 2 (bump (fun q => nth q tied 0) 1 0) i j = dsq 2 (fun q => nth q tied 0) i j) by (intros; unfold dsq; apply sumf_ext; intros; now rewrite !X).
    assert (V : forall i j, vsq square 2 (bump (fun q => nth q tied 0) 1 0) i j = vsq square 2 (fun q => nth q tied 0) i j) by (intros; unfold vsq; apply sumf_ext; intros; now rewrite !X).
    destruct Q as ([(i & j & A & B & C & D1)|(i & j & A & B & D1)] & Q1 & Q2); (split; [|split; intros; [rewrite <- D; now apply Q1|rewrite <- V; now apply Q2]]).
    - left. exists i, j. rewrite <- D. auto.
    - right. exists i, j. rewrite <- V. auto. }
  assert (BIG : 2 <= 10 ^ 10) by lra.
  destruct (C34_objective_partial square 4 2 5 _ 2 eq_refl ltac:(lia) ltac:(lia) ltac:(lia) S0) as [_ E0]. specialize (E0 BIG). change (5 * 2)%nat with 10%nat in *. assert (f0 = Ropp 2) as -> by congruence.
  assert (FD : forall b, (b = 1 \/ b = 3)%nat -> g.[b] <> 0).
  { intros b Hb G0. destruct (K b ltac:(lia)) as (f1 & E1 & B1). destruct (C34_objective_partial square 4 2 5 _ _ eq_refl ltac:(lia) ltac:(lia) ltac:(lia) (tied_smallest b h Hb ltac:(lra))) as [_ E2].
    specialize (E2 ltac:(nra)). change (5 * 2)%nat with 10%nat in E2. assert (f1 = - (2 - 2 * h + h * h)) as -> by congruence. rewrite G0 in B1.
    replace ((- (2 - 2 * h + h * h) - Ropp 2) / h - 0) with (2 - h) in B1 by (field; lra). rewrite Rabs_right in B1 by lra. cbn in B1. lra. }
  destruct (maximin_core square 4 2 5 (fun q => nth q tied 0) eq_refl) as (i & j & i1 & j1 & g' & Hi & Hj & Hi1 & Hj1 & M0 & M1 & E' & EG' & SG & VG); try lia. change (5 * 2)%nat with 10%nat in *.
  assert (g' = g) as -> by congruence.
  assert (P4 : 4 <= psq 2 (fun q => nth q tied 0) i j).
  { unfold psq. destruct (Nat.eqb_spec i j) as [->|NE]; [lra|]. unfold dsq. (destruct i as [|[|[|[|[|i]]]]]; [| | | | |lia]); (destruct j as [|[|[|[|[|j]]]]]; [| | | | |lia]); try congruence; cbn; lra. }
  assert (V2 : vsq square 2 (fun q => nth q tied 0) i1 j1 <= 2).
  { eapply Rle_trans; [apply (M1 0%nat 0%nat); lia|]. unfold vsq. cbn. lra. }
  destruct (Rlt_dec (psq 2 (fun q => nth q tied 0) i j) (vsq square 2 (fun q => nth q tied 0) i1 j1)) as [C0|_]; [lra|].
  destruct (Nat.eq_dec i1 0) as [->|N0].
  - apply (FD 3%nat (or_intror eq_refl)). change 3%nat with (1 * 2 + 1)%nat. rewrite VG by lia. cbn [Nat.eqb]. ring.
  - apply (FD 1%nat (or_introl eq_refl)). change 1%nat with (0 * 2 + 1)%nat. rewrite VG by lia. destruct i1; [contradiction|]. cbn [Nat.eqb]. ring.
Qed.
Print Assumptions C101_gradient_with_finite_difference_refuted.

(** a design with a single closest pair, drawn five times *)
Definition apart : list R := [1/2; 1/2; 10; 0; 20; 0; 30; 0; 40; 0].
Program Definition apart_gen : gen := {|
  gst := nat; g_seed := fun n => n; g_normal := fun s => (nth (s mod 10) apart 0, S s); g_unif := fun s => (/ 2, S s); g_randint := fun hi s => (Nat.modulo s hi, S s) |}.
Next Obligation. cbn. lra. Qed.
Next Obligation. apply Nat.mod_upper_bound. lia. Qed.
Lemma apart_stays : forall h, 0 <= h <= 1 / 10 -> stays_closest (fun q => nth q apart 0) h 0 3.
Proof.
  intros h Hh. right. split; [|split].
  - split; [lia|]. split; [lia|]. split.
    + intros i j Hi Hj NE. unfold dsq, vsq. (destruct i as [|[|[|[|[|i]]]]]; [| | | | |lia]); (destruct j as [|[|[|[|[|j]]]]]; [| | | | |lia]); try congruence; cbn; lra.
    + intros i j Hi Hj NE. unfold vsq. (destruct i as [|[|[|[|[|i]]]]]; [| | | | |lia]); (destruct j as [|[|[|[|j]]]]; [| | | |lia]); try (exfalso; apply NE; auto; fail); cbn; lra.
  - unfold vsq. cbn. lra.
  - intros q Hq. split; [split; [|split]|].
    + right. exists 0%nat, 3%nat. split; [lia|]. split; [lia|]. reflexivity.
    + intros i j Hi Hj NE. unfold dsq, vsq, bump. do 10 (destruct q as [|q]; [(destruct i as [|[|[|[|[|i]]]]]; [| | | | |lia]); (destruct j as [|[|[|[|[|j]]]]]; [| | | | |lia]); try congruence; cbn; nra|]). lia.
    + intros i j Hi Hj. unfold vsq, bump. do 10 (destruct q as [|q]; [(destruct i as [|[|[|[|[|i]]]]]; [| | | | |lia]); (destruct j as [|[|[|[|j]]]]; [| | | |lia]); cbn; nra|]). lia.
    + unfold vsq, bump. do 10 (destruct q as [|q]; [cbn; nra|]). lia.
Qed.
Example C101_gradient_with_finite_difference_case : fst (test_gradient_with_finite_difference (World (0%nat : gst apart_gen) tt [] 0%nat)) = Ok tt.
Proof.
  apply C101_gradient_with_finite_difference_partial. intros r Hr. exists 0%nat, 3%nat.
  assert (E : map (@normal_at apart_gen 0%nat) (seq (r * 10) 10) = apart) by (destruct r as [|[|[|[|[|r]]]]]; [| | | | |lia]; reflexivity).
  cbn [rng]. rewrite E. apply apart_stays. cbn. lra.
Qed.
