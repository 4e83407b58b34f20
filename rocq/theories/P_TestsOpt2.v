(** Lemmas for C109: the quadratic fitted to the data of the tests, and the map to the inactive variables. *)
From Coq Require Import String Reals Lra Lia List Arith ZArith Bool.
From Verif Require Import Prelude Py NumArr LinAlg Lsq Sorting Spectral M_Misc P_Misc M_SimRunners M_Gradients M_QP M_RespSurf M_Subspaces M_Quadrature M_Domains M_Designs M_ASRS M_Integrals M_Optimizers P_Subspaces P_Partition P_SubsState P_SubsLive
  P_Domains P_IndexSet P_Poly P_PolyTrain P_PolyFacts GaussPD P_Rbf SolveRef Cholesky P_QP P_Multistart P_Optimizers P_ASRS Properties_RespSurf Properties_RbfObj Properties_QP Properties_Domains Properties_ASRS Properties_Optimizers Properties_MinMap Properties_Callbacks
  M_Tests P_Tests P_Notebooks M_TestsSpace P_TestsDomain M_TestsAS P_TestsSurf P_TestsAS M_TestsOpt P_TestsOpt.
Import ListNotations.
Open Scope R_scope.

Lemma quadratic_ext : forall x y, (forall i, (i < 3)%nat -> x i = y i) -> quadratic x = quadratic y.
Proof. intros x y H. unfold quadratic. f_equal. now apply bil_ext. Qed.

(** ** the fit is exact when all three directions are used *)
Definition term_c (Wm : nd R) (t : nat) : R := / 2 * bil (fun i => Wm.[i, (t / 3)%nat]) (fun j => Wm.[j, (t mod 3)%nat]).
Definition term_e (t j : nat) : nat := ((if Nat.eqb j (t / 3) then 1 else 0) + (if Nat.eqb j (t mod 3) then 1 else 0))%nat.
Lemma terms9 : forall (Wm : nd R) u, terms_eval 3 9 (term_c Wm) term_e u = quadratic (fun i => sumf 3 (fun a => Wm.[i, a] * u a)).
Proof.
  intros Wm u.
  assert (L : forall x, bil (fun i => sumf 3 (fun a => Wm.[i, a] * u a)) x = u 0%nat * bil (fun i => Wm.[i, 0%nat]) x + u 1%nat * bil (fun i => Wm.[i, 1%nat]) x + u 2%nat * bil (fun i => Wm.[i, 2%nat]) x /\
    bil x (fun i => sumf 3 (fun a => Wm.[i, a] * u a)) = u 0%nat * bil x (fun i => Wm.[i, 0%nat]) + u 1%nat * bil x (fun i => Wm.[i, 1%nat]) + u 2%nat * bil x (fun i => Wm.[i, 2%nat])).
  { intros. unfold bil. cbn [sumf]. split; ring. }
  unfold quadratic. rewrite (proj1 (L _)). rewrite !(proj2 (L _)). unfold terms_eval, term_c. cbn [sumf prodf]. unfold term_e.
  cbn [Nat.div Nat.modulo Nat.divmod fst snd Nat.sub Nat.eqb Nat.add pow]. ring.
Qed.

Lemma quad_fit : forall lstsq (X0 f0 Wm : nd R) K pr x, lstsq_contract lstsq -> shape f0 = [K; 1%nat] ->
  (forall i, (i < K)%nat -> f0.[i, 0%nat] = quadratic (fun j => X0.[i, j])) ->
  (forall i j, (i < K)%nat -> (j < 3)%nat -> X0.[i, j] = x i j) -> no_quadric K 3 x ->
  (forall a b, (a < 3)%nat -> (b < 3)%nat -> sumf 3 (fun i => Wm.[i, a] * Wm.[i, b]) = if Nat.eqb a b then 1 else 0) ->
  fitted lstsq X0 f0 Wm K 3 3 pr -> forall u, poly_value pr 3 u = quadratic (fun i => sumf 3 (fun a => Wm.[i, a] * u a)).
Proof.
  intros lstsq X0 f0 Wm K pr x HL Sf Vf VX NQ OR (Yp & SY & VY & EP) u.
  assert (ON : orthonormal 3 3 (fun i j => Wm.[i, j])) by (intros a b Ha Hb; exact (OR a b Ha Hb)).
  destruct (C38_reproduces_polynomials lstsq 2 Yp f0 None K 3 pr 9 (term_c Wm) term_e HL SY Sf ltac:(lia) ltac:(lia) Logic.I EP) with (Y := pt 3 u) (P := 1%nat) as (F & EF & _ & VF).
  - apply (rotated_poised K x Wm Yp SY); auto. intros r j Hr Hj. rewrite VY by auto. apply sumf_ext. intros i Hi. now rewrite VX.
  - intros t Ht. do 9 (destruct t as [|t]; [cbn; lia|]). lia.
  - intros r Hr. rewrite Vf, terms9 by auto. apply quadratic_ext. intros i Hi. 
    rewrite (ortho_expand 3 _ ON (fun j => X0.[r, j]) i Hi). apply sumf_ext. intros a Ha. rewrite VY by auto. rewrite Rmult_comm. f_equal. unfold dot. apply sumf_ext. intros; ring.
  - reflexivity.
  - unfold poly_value. rewrite EF, VF by lia. rewrite <- terms9. apply terms_ext. intros j Hj. reflexivity.
Qed.

(** ** the attributes of the trained map *)
Lemma mvm_two : forall lstsq d Wm W1 W2 (X0 f0 : nd R) K x v, lstsq_contract lstsq -> frame (d_subs d) 3 2 Wm W1 W2 -> shape X0 = [K; 3%nat] -> shape f0 = [K; 1%nat] ->
  (forall i, (i < K)%nat -> f0.[i, 0%nat] = quadratic (fun j => X0.[i, j])) ->
  (forall i j, (i < K)%nat -> (j < 3)%nat -> X0.[i, j] = x i j) -> no_quadric K 3 x -> mvm_train lstsq d X0 f0 = Ok v ->
  let w2 := fun i => W2.[i, 0%nat] in
  shape (mv_bz v) = [1%nat; 1%nat] /\ shape (mv_zAy v) = [1%nat; 2%nat] /\ shape (mv_zAz v) = [1%nat; 1%nat] /\ (mv_zAz v).[0%nat, 0%nat] = bil w2 w2 + 1 / 100 /\
  forall y, (mv_bz v).[0%nat, 0%nat] + sumf 2 (fun j => (mv_zAy v).[0%nat, j] * y j) = bil w2 (fun i => sumf 2 (fun j => W1.[i, j] * y j)).
Proof.
  intros lstsq d Wm W1 W2 X0 f0 K x v HL F SX Sf Vf VX NQ HT w2.
  destruct (mvm_train_spec lstsq d 3 2 Wm W1 W2 X0 f0 K v HL F ltac:(lia) SX Sf HT) as (pr & FT & Sb & SA & SQ & _ & MV).
  change (Nat.min (mvm_p 3 2) 3) with 3%nat in *. change (3 - 2)%nat with 1%nat in *. do 3 (split; [assumption|]).
  assert (ON := frame_ortho _ _ _ _ _ _ F).
  assert (MM : forall y z, min_model pr 3 3 2 Wm W1 W2 y z = quadratic (fun i => sumf 2 (fun j => W1.[i, j] * y j) + z 0%nat * w2 i) + / 2 * (1 / 100) * (z 0%nat * z 0%nat)).
  { intros y z. unfold min_model. f_equal; [|change (3 - 2)%nat with 1%nat; cbn [sumf]; ring]. rewrite (quad_fit lstsq X0 f0 Wm K pr x HL Sf Vf VX NQ (fr_o _ _ _ _ _ _ F) FT). apply quadratic_ext. intros i Hi.
    transitivity (xpt W1 W2 2 (3 - 2) y z i); [|unfold xpt, w2; change (3 - 2)%nat with 1%nat; cbn [sumf]; ring].
    rewrite (ortho_expand 3 _ ON (xpt W1 W2 2 (3 - 2) y z) i Hi) at 1. apply sumf_ext. intros a Ha. apply Rmult_comm. }
  assert (EX : forall y t, quadratic (fun i => sumf 2 (fun j => W1.[i, j] * y j) + t * w2 i) = quadratic (fun i => sumf 2 (fun j => W1.[i, j] * y j)) + t * bil w2 (fun i => sumf 2 (fun j => W1.[i, j] * y j)) + / 2 * (t * t) * bil w2 w2).
  { intros y t. set (p := fun i => sumf 2 (fun j => W1.[i, j] * y j)).
    assert (E : forall i, p i + t * w2 i = 1 * p i + t * w2 i) by (intros; ring). unfold quadratic.
    rewrite (bil_ext _ _ (fun i => 1 * p i + t * w2 i) (fun i => 1 * p i + t * w2 i)) by (intros; apply E). rewrite (proj1 (bil_lin p w2 _ 1 t)), (proj2 (bil_lin p w2 p 1 t)), (proj2 (bil_lin p w2 w2 1 t)), (bil_sym p w2). field. }
  assert (E : forall y t, t * bil w2 (fun i => sumf 2 (fun j => W1.[i, j] * y j)) + / 2 * (t * t) * (bil w2 w2 + 1 / 100) =
     ((mv_bz v).[0%nat, 0%nat] + sumf 2 (fun j => (mv_zAy v).[0%nat, j] * y j)) * t + / 2 * (t * (mv_zAz v).[0%nat, 0%nat] * t)).
  { intros y t. assert (Q := MV y (fun _ => t)). rewrite !MM in Q. rewrite !EX in Q.
    change (sumf 1 (fun l => ((mv_bz v).[l, 0%nat] + sumf 2 (fun j => (mv_zAy v).[l, j] * y j)) * t)) with (0 + ((mv_bz v).[0%nat, 0%nat] + sumf 2 (fun j => (mv_zAy v).[0%nat, j] * y j)) * t) in Q.
    change (sumf 1 (fun a => sumf 1 (fun b => t * (mv_zAz v).[a, b] * t))) with (0 + (0 + t * (mv_zAz v).[0%nat, 0%nat] * t)) in Q. lra. }
  assert (E1 := E (fun _ => 0) 1). assert (E2 := E (fun _ => 0) (-1)). split; [lra|]. intros y. assert (E3 := E y 1). assert (E4 := E y (-1)). lra.
Qed.

Lemma mvm_one : forall lstsq d Wm W1 W2 (X0 f0 : nd R) K v, lstsq_contract lstsq -> frame (d_subs d) 3 1 Wm W1 W2 -> shape X0 = [K; 3%nat] -> shape f0 = [K; 1%nat] -> mvm_train lstsq d X0 f0 = Ok v ->
  shape (mv_bz v) = [2%nat; 1%nat] /\ shape (mv_zAy v) = [2%nat; 1%nat] /\ shape (mv_zAz v) = [2%nat; 2%nat] /\
  (mv_zAz v).[0%nat, 1%nat] = 0 /\ (mv_zAz v).[1%nat, 0%nat] = 0 /\ (mv_zAz v).[1%nat, 1%nat] = 1 / 100.
Proof.
  intros lstsq d Wm W1 W2 X0 f0 K v HL F SX Sf HT.
  destruct (mvm_train_spec lstsq d 3 1 Wm W1 W2 X0 f0 K v HL F ltac:(lia) SX Sf HT) as (pr & FT & Sb & SA & SQ & QS & MV).
  change (Nat.min (mvm_p 3 1) 3) with 2%nat in *. change (3 - 1)%nat with 2%nat in *. do 3 (split; [assumption|]).
  assert (MM : forall s t, min_model pr 2 3 1 Wm W1 W2 (fun _ => 0) (fun l => match l with O => s | _ => t end) = poly_value pr 2 (fun a => match a with O => 0 | _ => s end) + / 2 * (1 / 100) * (s * s + t * t)).
  { intros s t. unfold min_model. change (3 - 1)%nat with 2%nat. f_equal; [|cbn [sumf]; ring].
    assert (V : forall a, (a < 2)%nat -> sumf 3 (fun i => Wm.[i, a] * xpt W1 W2 1 2 (fun _ => 0) (fun l => match l with O => s | _ => t end) i) = match a with O => 0 | _ => s end).
    { intros a Ha. transitivity (s * sumf 3 (fun i => Wm.[i, a] * Wm.[i, 1%nat]) + t * sumf 3 (fun i => Wm.[i, a] * Wm.[i, 2%nat])).
      - rewrite <- !sumf_scal_l, <- sumf_plus. apply sumf_ext. intros i Hi. unfold xpt. cbn [sumf]. rewrite !(fr_e2 _ _ _ _ _ _ F) by lia. cbn [Nat.add]. ring.
      - rewrite !(fr_o _ _ _ _ _ _ F) by lia. destruct a as [|[|a]]; try lia; cbn [Nat.eqb]; ring. }
    destruct FT as (Yp & SY & _ & EP). destruct (poly_train_inv lstsq HL 2 Yp f0 None K 2 SY Sf ltac:(lia) ltac:(lia) Logic.I) as (L & EL & _ & Htr & _).
    rewrite !(trained_value 2 Yp f0 None K 2 L pr ltac:(lia) EL (Htr pr EP)). now apply poly_eval_ext. }
  assert (E : forall s t, / 2 * (1 / 100) * (t * t) = ((mv_bz v).[1%nat, 0%nat] + (mv_zAy v).[1%nat, 0%nat] * 0) * t + s * (mv_zAz v).[0%nat, 1%nat] * t + / 2 * (t * (mv_zAz v).[1%nat, 1%nat] * t)).
  { intros s t. assert (Q := MV (fun _ => 0) (fun l => match l with O => s | _ => t end)). assert (Q0 := MV (fun _ => 0) (fun l => match l with O => s | _ => 0 end)). rewrite (MM s t) in Q. rewrite (MM s 0) in Q0.
    cbn [sumf] in Q, Q0. rewrite (QS 1%nat 0%nat) in Q, Q0 by lia. lra. }
  assert (E1 := E 0 1). assert (E2 := E 0 (-1)). assert (E3 := E 1 1). assert (E4 : (mv_zAz v).[0%nat, 1%nat] = 0) by lra. split; [exact E4|]. split; [rewrite QS by lia; exact E4|lra].
Qed.
