(** C101: the repository's own unit tests of the linear and quadratic programs. *)
From Coq Require Import String Classical Reals Lra Lia List Arith ZArith Bool.
From Verif Require Import Prelude Py NumArr Toy M_Misc P_Misc M_SimRunners M_Gradients M_QP P_QP Properties_QP P_DomWitness P_Notebooks M_Tests P_Tests Properties_Tests.
Import ListNotations.
Open Scope R_scope.

(** ** tests/test_qp_solver.py *)

(** the test passes if the call returns; otherwise it stops with the call's exception *)
Definition passes_if_returns {W A} (call : M W A) (t : M W unit) (w : W) : Prop :=
  (exists z, call w = (Ok z, w) /\ t w = (Ok tt, w)) \/ (exists e w', call w = (Err e, w') /\ t w = (Err e, w')).

Lemma call_then_check : forall W (call : M W (nd R)) (chk : nd R -> res unit) (w : W),
  (forall z w', call w = (Ok z, w') -> w' = w /\ chk z = Ok tt) -> passes_if_returns call (dom x <- call; mlift (chk x)) w.
Proof.
  intros W call chk w H. destruct (call w) as [[z|e] w'] eqn:E.
  - destruct (H z w' eq_refl) as [-> C]. left. exists z. split; [exact E|]. rewrite (nb _ _ w _ _ E), C. reflexivity.
  - right. exists e, w'. split; [exact E|]. unfold mbind. rewrite E. reflexivity.
Qed.

Lemma column_check : forall z Y n, shape z = [n; 1%nat] -> shape Y = [n; 1%nat] -> (forall j, (j < n)%nat -> z.[j, 0%nat] = Y.[j, 0%nat]) -> assert_almost_equal 7 z Y = Ok tt.
Proof. intros z Y n Sz SY H. apply (almost_same 7 z Y n 1 Sz SY). intros i j Hi Hj. replace j with 0%nat by lia. auto. Qed.

(** the linear programs have the one solution that the tests name *)
Theorem C101_linear_programs : forall B solver (G : gen) (U : Type) (w : world G U (nd R)), linprog_ok (linprog B) -> gurobi_ok (gurobi B) ->
  passes_if_returns (linear_program_ineq B (qp_init B solver) (ones2 2 1) (rows_of [[1; 0]; [0; 1]; [1; 1]]) (rows_of [[1/10]; [1/10]; [1/10]])) (test_linear_program_ineq B solver) w /\
  passes_if_returns (linear_program_eq B (qp_init B solver) (ones2 5 1) (rows_of [[2; 1; 0; 0; 0]; [0; 0; 2; 1; 0]]) (rows_of [[5/10]; [5/10]]) (amap Ropp (ones2 5 1)) (ones2 5 1)) (test_linear_program_eq B solver) w.
Proof.
  intros B solver G U w HL HG. split; apply call_then_check; intros z w' E.
  - destruct (C51_linear_programs_solved (G := G) (U := U) (L := nd R) B solver 3 2 (ones2 2 1) (rows_of [[1; 0]; [0; 1]; [1; 1]]) (rows_of [[1/10]; [1/10]; [1/10]]) (ones2 2 1) (ones2 2 1) w w' z HL HG eq_refl eq_refl eq_refl eq_refl eq_refl) as [_ K].
    destruct (K E) as [(Sz & Fz & Oz) ->]. split; [reflexivity|]. apply (column_check _ _ 2 Sz); [reflexivity|].
    assert (Q := Oz (fun _ => 1 / 10)). assert (F : doc_ineq (rows_of [[1; 0]; [0; 1]; [1; 1]]) (rows_of [[1/10]; [1/10]; [1/10]]) 3 2 (fun _ => 1 / 10)) by (intros [|[|[|i]]] Hi; [| | |lia]; cbn; lra).
    specialize (Q F). assert (F0 := Fz 0%nat ltac:(lia)). assert (F1 := Fz 1%nat ltac:(lia)). cbn in Q, F0, F1.
    intros [|[|j]] Hj; [| |lia]; cbn; lra.
  - destruct (C51_linear_programs_solved (G := G) (U := U) (L := nd R) B solver 2 5 (ones2 5 1) (rows_of [[2; 1; 0; 0; 0]; [0; 0; 2; 1; 0]]) (rows_of [[5/10]; [5/10]]) (amap Ropp (ones2 5 1)) (ones2 5 1) w w' z HL HG eq_refl eq_refl eq_refl eq_refl eq_refl) as [K _].
    destruct (K E) as [(Sz & (Fz & Bz) & Oz) ->]. split; [reflexivity|]. apply (column_check _ _ 5 Sz); [reflexivity|].
    assert (Q := Oz (fun j => nth j [75/100; -1; 75/100; -1; -1] 0)).
    assert (F : doc_eq (rows_of [[2; 1; 0; 0; 0]; [0; 0; 2; 1; 0]]) (rows_of [[5/10]; [5/10]]) (amap Ropp (ones2 5 1)) (ones2 5 1) 2 5 (fun j => nth j [75/100; -1; 75/100; -1; -1] 0)).
    { split; [intros [|[|i]] Hi; [| |lia]; cbn; lra|]. intros [|[|[|[|[|j]]]]] Hj; [| | | | |lia]; cbn; lra. }
    specialize (Q F). assert (F0 := Fz 0%nat ltac:(lia)). assert (F1 := Fz 1%nat ltac:(lia)). assert (B1 := Bz 1%nat ltac:(lia)). assert (B3 := Bz 3%nat ltac:(lia)). assert (B4 := Bz 4%nat ltac:(lia)).
    cbn in Q, F0, F1, B1, B3, B4. intros [|[|[|[|[|j]]]]] Hj; [| | | | |lia]; cbn; lra.
Qed.
Print Assumptions C101_linear_programs.

(** and so have the quadratic ones; minimize is asked for global minimisers of this
    objective *)
Lemma half_solution : forall (x : nat -> R), quad_obj (ones2 5 1) (eye 5) 5 x <= quad_obj (ones2 5 1) (eye 5) 5 (fun _ => -5/10) -> forall j, (j < 5)%nat -> x j = -5/10.
Proof.
  intros x H.
  assert (E : forall y, quad_obj (ones2 5 1) (eye 5) 5 y = sumf 5 (fun j => (y j + 5/10) * (y j + 5/10)) - 5/4) by (intros y; unfold quad_obj; cbn; field).
  rewrite !E in H. assert (Z : sumf 5 (fun j => (x j + 5/10) * (x j + 5/10)) <= 0).
  { rewrite (sumf_ext 5 (fun j => (-5/10 + 5/10) * (-5/10 + 5/10)) (fun _ => 0)) in H by (intros; field). rewrite sumf_const in H. lra. }
  assert (S : forall j, 0 <= (x j + 5/10) * (x j + 5/10)) by (intros; apply Rle_0_sqr).
  assert (S0 := S 0%nat). assert (S1 := S 1%nat). assert (S2 := S 2%nat). assert (S3 := S 3%nat). assert (S4 := S 4%nat). cbn in Z.
  assert (K : forall a, (a + 5/10) * (a + 5/10) <= 0 -> a = -5/10) by (intros a Ha; nra).
  intros [|[|[|[|[|j]]]]] Hj; [| | | | |lia]; apply K; lra.
Qed.

Theorem C101_quadratic_programs : forall B solver (G : gen) (U : Type) (w : world G U (nd R)),
  (forall P, (forall x, mp_fun P (mk1 5 x) = Ok (quad_obj (ones2 5 1) (eye 5) 5 x)) -> minimize_ok_at (sp_minimize B) P 5) -> gurobi_ok (gurobi B) ->
  passes_if_returns (quadratic_program_bnd B (qp_init B solver) (ones2 5 1) (eye 5) (amap Ropp (ones2 5 1)) (ones2 5 1)) (test_quadratic_program_bnd B solver) w /\
  passes_if_returns (quadratic_program_ineq B (qp_init B solver) (ones2 5 1) (eye 5) (rows_of [[1; 0; 0; 0; 0]; [0; 1; 0; 0; 0]]) (rows_of [[-1]; [-1]])) (test_quadratic_program_ineq B solver) w.
Proof.
  intros B solver G U w HM HG. set (A := rows_of [[1; 0; 0; 0; 0]; [0; 1; 0; 0; 0]]). set (b := rows_of [[-1]; [-1]]).
  split; apply call_then_check; intros z w' E; destruct (C51_quadratic_programs_solved (G := G) (U := U) (L := nd R) B solver 2 5 (ones2 5 1) (eye 5) A b (amap Ropp (ones2 5 1)) (ones2 5 1) w w' z HM HG eq_refl eq_refl eq_refl eq_refl eq_refl eq_refl) as [K1 K2].
  - destruct (K1 E) as [(Sz & Fz & Oz) ->]. split; [reflexivity|]. apply (column_check _ _ 5 Sz); [reflexivity|].
    assert (Q := Oz (fun _ => -5/10) ltac:(intros [|[|[|[|[|j]]]]] Hj; [| | | | |lia]; cbn; lra)).
    intros j Hj. rewrite (half_solution _ Q j Hj). cbn. field.
  - destruct (K2 E) as [(Sz & Fz & Oz) ->]. split; [reflexivity|]. apply (column_check _ _ 5 Sz); [reflexivity|].
    assert (Q := Oz (fun _ => -5/10) ltac:(intros [|[|i]] Hi; [| |lia]; cbn; lra)).
    intros j Hj. rewrite (half_solution _ Q j Hj). cbn. field.
Qed.
Print Assumptions C101_quadratic_programs.

(** an unknown solver name is accepted silently: the test passes because the
    constructor does nothing with it *)
Theorem C101_bad_solver : forall B (G : gen) (U : Type) (w : world G U (nd R)), test_bad_solver B w = (Ok tt, w) /\ qp_init B "CVXOPT" = "SCIPY"%string.
Proof. intros. split; [reflexivity|]. unfold qp_init. reflexivity. Qed.
Print Assumptions C101_bad_solver.

(** with the exact linear-programming solver the first of them returns *)
Example C101_linear_program_case : fst (test_linear_program_ineq backend_ref "GUROBI" (same_world (/ 2) 0 half01)) = Ok tt.
Proof.
  assert (HG : gurobi_ok (gurobi backend_ref)) by (intros P' l H; discriminate).
  destruct (C101_linear_programs backend_ref "GUROBI" _ _ (same_world (/ 2) 0 half01) linprog_ref_ok HG) as [[(z & _ & E)|(e & w' & E & _)] _]; [now rewrite E|]. exfalso.
  destruct (ref_ineq (same_gen (/ 2) 0 half01) unit (nd R) 3 2 (ones2 2 1) (rows_of [[1; 0]; [0; 1]; [1; 1]]) (rows_of [[1/10]; [1/10]; [1/10]]) 0 (same_world (/ 2) 0 half01) eq_refl eq_refl eq_refl) as (z & E' & _).
  - exists (fun _ => 1). intros [|[|[|i]]] Hi; [| | |lia]; cbn; lra.
  - intros x Hx. assert (F0 := Hx 0%nat ltac:(lia)). assert (F1 := Hx 1%nat ltac:(lia)). cbn in F0, F1. cbn. lra.
  - rewrite E' in E. discriminate.
Qed.
