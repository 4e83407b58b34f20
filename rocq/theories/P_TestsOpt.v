(** Lemmas for C109: the unit tests of the optimisers. *)
From Coq Require Import String Reals Lra Lia List Arith ZArith Bool.
From Verif Require Import Prelude Py NumArr LinAlg Lsq Sorting Spectral M_Misc P_Misc M_SimRunners M_Gradients M_QP M_RespSurf M_Subspaces M_Quadrature M_Domains M_Designs M_ASRS M_Integrals M_Optimizers P_Subspaces P_Partition P_SubsState P_SubsLive
  P_Domains P_IndexSet P_Poly P_PolyTrain P_PolyFacts GaussPD P_Rbf SolveRef Cholesky P_QP P_Multistart P_Optimizers Properties_RespSurf Properties_RbfObj Properties_QP Properties_Domains Properties_ASRS Properties_Optimizers Properties_MinMap Properties_Callbacks
  M_Tests P_Tests P_Notebooks M_TestsSpace P_TestsDomain M_TestsAS P_TestsSurf P_TestsAS M_TestsOpt.
Import ListNotations.
Open Scope R_scope.

(** ** the quadratic function *)
(** its matrix, the function x^T A x / 2, and the bilinear form *)
Definition qA (i j : nat) : R := quad_matrix.[i, j].
Definition bil (x y : nat -> R) : R := sumf 3 (fun i => sumf 3 (fun j => x i * qA i j * y j)).
Definition quadratic (x : nat -> R) : R := / 2 * bil x x.

Lemma qA_sym : forall i j, (i < 3)%nat -> (j < 3)%nat -> qA i j = qA j i.
Proof. intros i j Hi Hj. unfold qA, quad_matrix, rows_of. destruct i as [|[|[|i]]]; try lia; destruct j as [|[|[|j]]]; try lia; reflexivity. Qed.

Lemma pd3 : forall a b c d e f x y z, 0 < a -> 0 < a * d - b * b -> 0 < (a * d - b * b) * (a * f - c * c) - (a * e - b * c) * (a * e - b * c) ->
  let q := a * (x * x) + 2 * b * (x * y) + 2 * c * (x * z) + d * (y * y) + 2 * e * (y * z) + f * (z * z) in 0 <= q /\ (q = 0 -> x = 0 /\ y = 0 /\ z = 0).
Proof.
  intros a b c d e f x y z Ha Hd Hf q. set (D := a * d - b * b) in *. set (E := a * e - b * c) in *. set (F := a * f - c * c) in *.
  assert (S1 : a * q = (a * x + b * y + c * z) * (a * x + b * y + c * z) + (D * (y * y) + 2 * E * (y * z) + F * (z * z))) by (unfold q, D, E, F; ring).
  assert (S2 : D * (D * (y * y) + 2 * E * (y * z) + F * (z * z)) = (D * y + E * z) * (D * y + E * z) + (D * F - E * E) * (z * z)) by ring.
  set (r := D * (y * y) + 2 * E * (y * z) + F * (z * z)) in *.
  assert (P1 := Rle_0_sqr (a * x + b * y + c * z)). assert (P2 := Rle_0_sqr (D * y + E * z)). assert (P3 := Rle_0_sqr z). unfold Rsqr in *.
  assert (P4 : 0 <= (D * F - E * E) * (z * z)) by (apply Rmult_le_pos; lra).
  assert (Hr : 0 <= r) by (apply (Rmult_le_reg_l D); lra).
  split; [apply (Rmult_le_reg_l a); lra|]. intros Q. rewrite Q in S1.
  assert (r = 0) as R0 by lra. rewrite R0 in S2. assert (Z2 : z * z = 0). { apply (Rmult_eq_reg_l (D * F - E * E)); lra. }
  assert (z = 0) as -> by (destruct (Rmult_integral _ _ Z2); auto).
  assert (Y2 : (D * y + E * 0) * (D * y + E * 0) = 0) by lra. assert (Y1 : D * y + E * 0 = 0) by (destruct (Rmult_integral _ _ Y2); auto).
  assert (y = 0) as -> by (apply (Rmult_eq_reg_l D); lra).
  assert (X2 : (a * x + b * 0 + c * 0) * (a * x + b * 0 + c * 0) = 0) by lra. assert (X1 : a * x + b * 0 + c * 0 = 0) by (destruct (Rmult_integral _ _ X2); auto).
  split; [apply (Rmult_eq_reg_l a); lra|auto].
Qed.

Lemma quadratic_pos : forall x, 0 <= bil x x /\ (bil x x = 0 -> forall j, (j < 3)%nat -> x j = 0).
Proof.
  intros x. 
  destruct (pd3 (2406659045776698 / 10 ^ 16) (- (3159904335007421 / 10 ^ 16)) (- (1746908591702878 / 10 ^ 16)) (5532215729009683 / 10 ^ 16) (3777995408101305 / 10 ^ 16) (3161125225213613 / 10 ^ 16) (x 0%nat) (x 1%nat) (x 2%nat)) as [P Q].
  1-3: lra.
  match type of P with 0 <= ?e => assert (E : bil x x = e) by (unfold bil, qA, quad_matrix, rows_of; cbn [sumf at_ mk2 nth]; ring) end.
  rewrite E. split; [exact P|]. intros H. destruct (Q H) as (X0 & X1 & X2). intros [|[|[|j]]] Hj; try lia; auto.
Qed.

Lemma bil_lin : forall (a b c : nat -> R) s t, bil (fun i => s * a i + t * b i) c = s * bil a c + t * bil b c /\ bil c (fun i => s * a i + t * b i) = s * bil c a + t * bil c b.
Proof. intros a b c s t. unfold bil. cbn [sumf]. split; ring. Qed.
Lemma bil_sym : forall a b, bil a b = bil b a.
Proof. intros a b. unfold bil. cbn [sumf]. rewrite (qA_sym 1 0), (qA_sym 2 0), (qA_sym 2 1) by lia. ring. Qed.
Lemma bil_ext : forall a b a' b', (forall i, (i < 3)%nat -> a i = a' i) -> (forall i, (i < 3)%nat -> b i = b' i) -> bil a b = bil a' b'.
Proof. intros a b a' b' Ha Hb. unfold bil. apply sumf_ext. intros i Hi. apply sumf_ext. intros j Hj. now rewrite Ha, Hb. Qed.

(** ** the loop *)
Section Fill.
  Context {G : gen} {U : Type}.
  Notation W := (world G U (nd R)).
  Lemma opt_row_ok : forall x, shape x = [3%nat] -> exists f d, opt_row x = Ok (f, d) /\ f = quadratic (fun j => x.[j]) /\ forall j, (j < 3)%nat -> d.[j] = sumf 3 (fun k => qA j k * x.[k]).
  Proof.
    intros x Sx. destruct (flat_col x 3 Sx) as (c & Ec & Sc & Vc). unfold opt_row, opt_fun, opt_dfun. rewrite Ec. cbn [rbind].
    assert (SQ : shape quad_matrix = [3; 3]%nat) by reflexivity. unfold mdot at 1. rewrite SQ, Sc. cbn [Nat.eqb rbind].
    set (p := mk2 3 1 _). unfold mdot at 1. unfold tr at 1. rewrite shape_mk2, (nrows_shape2 _ c _ _ Sc), (ncols_shape2 _ c _ _ Sc). cbn [shape mk2 p Nat.eqb rbind amap]. unfold get2 at 1. cbn [shape amap mk2 Nat.ltb Nat.leb andb rbind].
    unfold mdot. rewrite SQ, Sc. cbn [Nat.eqb rbind]. fold p.
    destruct (col_flat p 3 eq_refl) as (d & Ed & _ & Vd). change (size p) with 3%nat in Ed. rewrite Ed. cbn [rbind]. eexists _, d. split; [reflexivity|]. split.
    - transitivity (5 / 10 * sumf 3 (fun k => c.[k, 0%nat] * sumf 3 (fun l => quad_matrix.[k, l] * c.[l, 0%nat]))); [reflexivity|]. unfold quadratic, bil, qA. cbn [sumf]. rewrite !Vc by lia. field.
    - intros j Hj. rewrite Vd by auto. unfold p. rewrite at_mk2. apply sumf_ext. intros k Hk. now rewrite Vc.
  Qed.
  Lemma mmap_val : forall A C (f : A -> Py.M W C) l (w : W) (P : A -> C -> Prop), (forall x, exists y, f x w = (Ok y, w) /\ P x y) ->
    exists ys, mmap f l w = (Ok ys, w) /\ List.length ys = List.length l /\ forall i d d', (i < List.length l)%nat -> P (nth i l d) (nth i ys d').
  Proof.
    intros A C f l w P H. induction l as [|x l (ys & E & EL & V)]; cbn [mmap].
    - exists []. split; [reflexivity|]. split; [reflexivity|]. cbn. lia.
    - destruct (H x) as (y & Ey & Py). exists (y :: ys). unfold mbind. rewrite Ey, E. split; [reflexivity|]. split; [cbn; lia|]. intros [|i] d d' Hi; cbn [nth]; [exact Py|]. apply V. cbn in Hi. lia.
  Qed.
  Lemma fill_ok : forall X0 (w : W), shape X0 = [50%nat; 3%nat] -> exists f0 df0, fill X0 w = (Ok (f0, df0), w) /\ shape f0 = [50%nat; 1%nat] /\ shape df0 = [50%nat; 3%nat] /\
    (forall i, (i < 50)%nat -> f0.[i, 0%nat] = quadratic (fun j => X0.[i, j])) /\ forall i j, (i < 50)%nat -> (j < 3)%nat -> df0.[i, j] = sumf 3 (fun k => qA j k * X0.[i, k]).
  Proof.
    intros X0 w SX. unfold fill.
    destruct (mmap_val _ _ (fun i => mlift (opt_row (row1 X0 i))) (seq 0 50) w (fun i y => fst y = quadratic (fun j => X0.[i, j]) /\ forall j, (j < 3)%nat -> (snd y).[j] = sumf 3 (fun k => qA j k * X0.[i, k]))) as (ys & E & EL & V).
    { intros i. destruct (opt_row_ok (row1 X0 i)) as (f & d & Er & Vf & Vd); [unfold row1; cbn [shape mk1]; now rewrite (ncols_shape2 _ X0 _ _ SX)|]. exists (f, d). unfold mlift. rewrite Er. split; [reflexivity|]. cbn [fst snd]. unfold row1 in Vf, Vd. split.
      - rewrite Vf. unfold quadratic. f_equal.
      - intros j Hj. rewrite Vd by auto. apply sumf_ext. intros k _. now rewrite at_mk1. }
    rewrite (nb _ _ w _ _ E). rewrite seq_length in V. eexists _, _. split; [reflexivity|]. split; [reflexivity|]. split; [reflexivity|].
    assert (V' : forall i, (i < 50)%nat -> fst (nth i ys (0, mk1 3 (fun _ => 0))) = quadratic (fun j => X0.[i, j]) /\ forall j, (j < 3)%nat -> (snd (nth i ys (0, mk1 3 (fun _ => 0)))).[j] = sumf 3 (fun k => qA j k * X0.[i, k])).
    { intros i Hi. assert (Q := V i 0%nat (0, mk1 3 (fun _ => 0)) Hi). rewrite seq_nth in Q by auto. exact Q. }
    split; intros; rewrite at_mk2; now apply V'.
  Qed.
End Fill.

(** ** the gradients span, and the eigenvalues are positive *)
Lemma gradients_span : forall K x, no_quadric K 3 x -> spanning K 3 (fun i j => sumf 3 (fun k => qA j k * x i k)).
Proof.
  intros K x NQ v H.
  assert (Z : forall y, sumf 3 (fun k => sumf 3 (fun j => qA j k * v j) * y k) = 0).
  { intros y. assert (Q := NQ 0 (fun k => sumf 3 (fun j => qA j k * v j)) (fun _ _ => 0)). cbv zeta in Q. specialize (Q ltac:(intros i Hi; etransitivity; [|exact (H i Hi)]; cbn [sumf]; ring) y). etransitivity; [|exact Q]. cbn [sumf]. ring. }
  apply (proj2 (quadratic_pos v)). etransitivity; [|exact (Z v)]. unfold bil. cbn [sumf]. rewrite (qA_sym 1 0), (qA_sym 2 0), (qA_sym 2 1) by lia. ring.
Qed.

(** ** the images in all three rotated variables are poised *)
Lemma mono3 : forall p q r x, mono 3 [p; q; r] x = x 0%nat ^ p * x 1%nat ^ q * x 2%nat ^ r.
Proof. intros. unfold mono. cbn [prodf nth]. ring. Qed.

Lemma rotated_poised : forall K x (Wm Y : nd R), shape Y = [K; 3%nat] ->
  (forall r j, (r < K)%nat -> (j < 3)%nat -> Y.[r, j] = sumf 3 (fun i => x r i * Wm.[i, j])) ->
  (forall a b, (a < 3)%nat -> (b < 3)%nat -> sumf 3 (fun i => Wm.[i, a] * Wm.[i, b]) = if Nat.eqb a b then 1 else 0) ->
  no_quadric K 3 x -> poised Y 2 K.
Proof.
  intros K x Wm Y SY VY OR NQ.
  apply (poised_of Y 2 K 3 [[0; 0; 0]; [1; 0; 0]; [0; 1; 0]; [0; 0; 1]; [2; 0; 0]; [1; 1; 0]; [0; 2; 0]; [1; 0; 1]; [0; 1; 1]; [0; 0; 2]]%nat SY ltac:(lia) eq_refl). intros c H. cbn [List.length] in *.
  set (u := fun (y : nat -> R) a => sumf 3 (fun i => y i * Wm.[i, a])).
  set (P := fun u0 u1 u2 => c 0%nat + c 1%nat * u0 + c 2%nat * u1 + c 3%nat * u2 + c 4%nat * (u0 * u0) + c 5%nat * (u0 * u1) + c 6%nat * (u1 * u1) + c 7%nat * (u0 * u2) + c 8%nat * (u1 * u2) + c 9%nat * (u2 * u2)).
  assert (Q0 : forall y, P (u y 0%nat) (u y 1%nat) (u y 2%nat) = 0).
  { intros y. assert (Q := NQ (c 0%nat) (fun j => c 1%nat * Wm.[j, 0%nat] + c 2%nat * Wm.[j, 1%nat] + c 3%nat * Wm.[j, 2%nat])
      (fun j k => c 4%nat * (Wm.[j, 0%nat] * Wm.[k, 0%nat]) + c 5%nat * (Wm.[j, 0%nat] * Wm.[k, 1%nat]) + c 6%nat * (Wm.[j, 1%nat] * Wm.[k, 1%nat]) + c 7%nat * (Wm.[j, 0%nat] * Wm.[k, 2%nat]) + c 8%nat * (Wm.[j, 1%nat] * Wm.[k, 2%nat]) + c 9%nat * (Wm.[j, 2%nat] * Wm.[k, 2%nat]))). cbv zeta in Q.
    assert (QE : forall y : nat -> R, c 0%nat + sumf 3 (fun j => (c 1%nat * Wm.[j, 0%nat] + c 2%nat * Wm.[j, 1%nat] + c 3%nat * Wm.[j, 2%nat]) * y j) +
      sumf 3 (fun j => sumf 3 (fun k => (c 4%nat * (Wm.[j, 0%nat] * Wm.[k, 0%nat]) + c 5%nat * (Wm.[j, 0%nat] * Wm.[k, 1%nat]) + c 6%nat * (Wm.[j, 1%nat] * Wm.[k, 1%nat]) + c 7%nat * (Wm.[j, 0%nat] * Wm.[k, 2%nat]) + c 8%nat * (Wm.[j, 1%nat] * Wm.[k, 2%nat]) + c 9%nat * (Wm.[j, 2%nat] * Wm.[k, 2%nat])) * (y j * y k))) = P (u y 0%nat) (u y 1%nat) (u y 2%nat)).
    { intros y0. unfold P, u. cbn [sumf]. ring. }
    rewrite <- QE. apply Q. intros i Hi. rewrite QE. etransitivity; [|exact (H i Hi)]. cbn [sumf nth]. rewrite !mono3, !VY by lia. unfold P, u. cbn [pow]. ring. }
  assert (Q1 : forall s t r, P s t r = 0).
  { intros s t r. set (y := fun i => s * Wm.[i, 0%nat] + t * Wm.[i, 1%nat] + r * Wm.[i, 2%nat]).
    assert (U : forall a, (a < 3)%nat -> u y a = s * (if Nat.eqb 0 a then 1 else 0) + t * (if Nat.eqb 1 a then 1 else 0) + r * (if Nat.eqb 2 a then 1 else 0)).
    { intros a Ha. rewrite <- !OR by lia. unfold u, y. cbn [sumf]. ring. }
    rewrite <- (Q0 y), !U by lia. cbn [Nat.eqb]. unfold P. ring. }
  unfold P in Q1. assert (A0 := Q1 0 0 0). assert (A1 := Q1 1 0 0). assert (A2 := Q1 (-1) 0 0). assert (A3 := Q1 0 1 0). assert (A4 := Q1 0 (-1) 0). assert (A5 := Q1 0 0 1). assert (A6 := Q1 0 0 (-1)). assert (A7 := Q1 1 1 0). assert (A8 := Q1 1 0 1). assert (A9 := Q1 0 1 1).
  clear Q1 Q0 H NQ. intros [|[|[|[|[|[|[|[|[|[|i]]]]]]]]]] Hi; try lia; lra.
Qed.
