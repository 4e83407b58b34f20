(** C106: when the repository's own tests of the response surfaces pass *)
From Coq Require Import String Reals Lra Lia List Arith ZArith Bool.
From Verif Require Import Prelude Py NumArr LinAlg Lsq Sorting M_Misc M_RespSurf M_Tests M_TestsSurf P_Misc P_IndexSet P_Poly P_PolyTrain P_PolyFacts GaussPD P_Rbf SolveRef Cholesky Properties_RespSurf Properties_RbfObj
  P_Notebooks P_Tests Properties_Tests Properties_TestsSpace P_TestsSurf.
Import ListNotations.
Open Scope R_scope.

(** The tests that only call the basis and kernel functions pass for every generator, and so
    does the one that compares the gradient of the Gaussian with finite differences. *)
Theorem C106_functions : forall (G : gen) (U : Type) (w : world G U (nd R)),
  fst (test_index_set w) = Ok tt /\
  fst (test_polynomial_bases w) = Ok tt /\
  fst (test_grad_polynomial_bases w) = Ok tt /\
  fst (test_exponential_squared w) = Ok tt /\
  fst (test_grad_exponential_squared w) = Ok tt /\
  fst (test_grad_exponential_squared_fd w) = Ok tt.
Proof.
  intros G U w. split; [reflexivity|]. set (w0 := set_rng w (g_seed G 42)).
  destruct (normal2_ev G (U := U) (L := nd R) 10 2 w0) as (X & EX & SX & _).
  split; [|split; [|split; [|split]]].
  - unfold test_polynomial_bases. rewrite seed_step. fold w0. rewrite (nb _ _ w0 _ _ EX). destruct (polynomial_bases_ok X 3 10 2 SX ltac:(lia)) as (L & _ & E). rewrite bind_lift, E. reflexivity.
  - unfold test_grad_polynomial_bases. rewrite seed_step. fold w0. rewrite (nb _ _ w0 _ _ EX). destruct (grad_polynomial_bases_ok X 3 10 2 SX ltac:(lia)) as (L & _ & E). rewrite bind_lift, E. reflexivity.
  - unfold test_exponential_squared. rewrite seed_step. fold w0. rewrite (nb _ _ w0 _ _ EX), bind_lift, (exponential_squared_ok X X 1 ones2 10 10 2 SX SX eq_refl). reflexivity.
  - unfold test_grad_exponential_squared. rewrite seed_step. fold w0. rewrite (nb _ _ w0 _ _ EX). destruct (grad_exponential_squared_ok X X 1 ones2 10 10 2 SX SX eq_refl) as (D & E & _). rewrite bind_lift, E. reflexivity.
  - apply gauss_fd.
Qed.
Print Assumptions C106_functions.

(** The test that compares the gradient of the cubic basis with finite differences passes
    exactly if every number drawn lies strictly between -5 and 5, both moved down by a third of
    the step 10^-6; otherwise it ends in an AssertionError. *)
Theorem C106_basis_differences : forall (G : gen) (U : Type) (w : world G U (nd R)),
  let t := test_grad_polynomial_bases_fd w in
  (fst t = Ok tt <-> forall k, (k < 20)%nat -> -5 - / 3000000 < drawn G k < 5 - / 3000000) /\
  (fst t = Ok tt \/ fst t = Err AssertionError).
Proof.
  intros G U w t. destruct (basis_fd (G := G) w) as (A & B). split; [|exact B]. unfold t. rewrite A. rewrite h6_val.
  split; intros H k Hk; specialize (H k Hk); lra.
Qed.
Print Assumptions C106_basis_differences.

(** Hence the cubic test does not pass for every generator. *)
Theorem C106_basis_differences_refuted : exists (G : gen) (w : world G unit (nd R)), fst (test_grad_polynomial_bases_fd w) = Err AssertionError.
Proof.
  exists (same_gen (/ 2) 5 half01), (same_world (/ 2) 5 half01). destruct (C106_basis_differences (same_gen (/ 2) 5 half01) unit (same_world (/ 2) 5 half01)) as (A & [B|B]); [|exact B].
  exfalso. assert (K := proj1 A B 0%nat ltac:(lia)). unfold drawn in K. rewrite same_normal in K. lra.
Qed.
Print Assumptions C106_basis_differences_refuted.

(** ** exact data *)
(** among the first coordinates drawn there are three different ones *)
Definition three_values (x : nat -> R) (M : nat) : Prop :=
  exists i j l, (i < M)%nat /\ (j < M)%nat /\ (l < M)%nat /\ x i <> x j /\ x i <> x l /\ x j <> x l.

Lemma lin1_terms : forall x, terms_eval 1 2 (fun t => nth t [2; 5] 0) (fun t _ => t) x = 2 + 5 * x 0%nat.
Proof. intros x. unfold terms_eval. cbn [sumf prodf nth pow]. ring. Qed.
Lemma quad1_terms : forall x, terms_eval 1 3 (fun t => nth t [2; -3; 5] 0) (fun t _ => t) x = 2 - 3 * x 0%nat + 5 * x 0%nat * x 0%nat.
Proof. intros x. unfold terms_eval. cbn [sumf prodf nth pow]. ring. Qed.
Definition ex2 (l : list (list nat)) (t j : nat) : nat := nth j (nth t l []) 0%nat.
Lemma lin2_terms : forall x, terms_eval 2 3 (fun t => nth t [2; 5; -4] 0) (ex2 [[0; 0]; [1; 0]; [0; 1]]%nat) x = 2 + 5 * x 0%nat - 4 * x 1%nat.
Proof. intros x. unfold terms_eval, ex2. cbn [sumf prodf nth pow]. ring. Qed.
Lemma bil2_terms : forall x, terms_eval 2 3 (fun t => nth t [2; -3; 5] 0) (ex2 [[0; 0]; [0; 1]; [1; 1]]%nat) x = 2 - 3 * x 1%nat + 5 * x 0%nat * x 1%nat.
Proof. intros x. unfold terms_eval, ex2. cbn [sumf prodf nth pow]. ring. Qed.

Lemma lim_is : forall f x a b, derivable_pt_lim f x a -> a = b -> derivable_pt_lim f x b.
Proof. intros f x a b H <-. exact H. Qed.
Lemma d_lin : forall b c x, derivable_pt_lim (fun t => b + c * t) x c.
Proof. intros b c x. eapply lim_is; [apply derivable_pt_lim_plus; [apply derivable_pt_lim_const|apply (derivable_pt_lim_scal id); apply derivable_pt_lim_id]|ring]. Qed.
Lemma d_lin_ext : forall f b c x, (forall t, f t = b + c * t) -> derivable_pt_lim f x c.
Proof. intros f b c x H. eapply derivable_pt_lim_ext; [|apply (d_lin b c)]. intros t. cbv beta. now rewrite H. Qed.
Lemma d_quad : forall x, derivable_pt_lim (fun t => 2 - 3 * t + 5 * t * t) x (-3 + 10 * x).
Proof.
  intros x. apply (derivable_pt_lim_ext (fun t => (2 + -3 * t) + 5 * (t * t))); [intros t; ring|].
  eapply lim_is; [apply derivable_pt_lim_plus; [apply d_lin|apply (derivable_pt_lim_scal (id * id)%F), derivable_pt_lim_mult; apply derivable_pt_lim_id]|]. unfold id. ring.
Qed.

Section Exact.
  Context {G : gen} {U S : Type}.
  Notation W := (world G U (nd R)).
  Variable train : nat -> nd R -> nd R -> res S.
  Variable predict : S -> nd R -> bool -> res (nd R * option (nd R)).
  Hypothesis RET : forall N X f M m, shape X = [M; m] -> shape f = [M; 1%nat] -> (1 <= m)%nat -> (1 <= N)%nat -> (binom (N + m) m <= M)%nat -> poised X N M -> exists s, train N X f = Ok s.
  Hypothesis FIT : forall N X f M m s T a e, shape X = [M; m] -> shape f = [M; 1%nat] -> (1 <= m)%nat -> (1 <= N)%nat -> train N X f = Ok s -> poised X N M ->
    (forall t, (t < T)%nat -> (nsum m (e t) <= N)%nat) -> (forall r, (r < M)%nat -> f.[r, 0%nat] = terms_eval m T a e (fun j => X.[r, j])) -> fits predict s m T a e.

  Lemma exact_1d_ok : forall (w : W), three_values (fun i => drawn G (2 * i)) 10 -> fst (test_exact_1d train predict w) = Ok tt.
  Proof.
    intros w (i & j & l & Hi & Hj & Hl & N1 & N2 & N3). unfold test_exact_1d. rewrite seed_step. set (w0 := set_rng w _).
    destruct (normal2_ev G (U := U) (L := nd R) 10 2 w0) as (Z & EZ & SZ & VZ). rewrite (nb _ _ w0 _ _ EZ). set (w1 := set_rng w0 _). set (X := column Z 0).
    assert (SX : shape X = [10%nat; 1%nat]) by exact (column_shape Z 10 2 0 SZ).
    assert (VX : forall i, (i < 10)%nat -> X.[i, 0%nat] = drawn G (2 * i)) by (intros k Hk; unfold X, column; rewrite at_mk2, VZ by lia; unfold drawn; cbn [w0 rng set_rng]; f_equal; lia).
    assert (P1 : poised X 1 10) by (apply poised_1_1; [exact SX|]; exists i, j; rewrite !VX by auto; auto).
    assert (P2 : poised X 2 10) by (apply poised_2_1; [exact SX|]; exists i, j, l; rewrite !VX by auto; repeat split; auto).
    destruct (RET 1 X (of_col X (fun x => 2 + 5 * x)) 10 1 SX (of_col_shape X 10 1 _ SX) ltac:(lia) ltac:(lia) ltac:(cbn; lia) P1) as (s1 & E1).
    destruct (RET 2 X (of_col X (fun x => 2 - 3 * x + 5 * x * x)) 10 1 SX (of_col_shape X 10 1 _ SX) ltac:(lia) ltac:(lia) ltac:(cbn; lia) P2) as (s2 & E2).
    assert (F1 : fits predict s1 1 2 (fun t => nth t [2; 5] 0) (fun t _ => t)).
    { apply (FIT 1 X _ 10 1 s1 _ _ _ SX (of_col_shape X 10 1 _ SX) ltac:(lia) ltac:(lia) E1 P1); [intros t Ht; unfold nsum; cbn; lia|]. intros r Hr. now rewrite lin1_terms. }
    assert (F2 : fits predict s2 1 3 (fun t => nth t [2; -3; 5] 0) (fun t _ => t)).
    { apply (FIT 2 X _ 10 1 s2 _ _ _ SX (of_col_shape X 10 1 _ SX) ltac:(lia) ltac:(lia) E2 P2); [intros t Ht; unfold nsum; cbn; lia|]. intros r Hr. now rewrite quad1_terms. }
    destruct (part_1d train predict 1 (fun x => 2 + 5 * x) (fun _ => 5) X 2 _ _ s1 w1 SX E1 F1 lin1_terms (fun x => d_lin 2 5 x)) as (w2 & EE1). rewrite (nb _ _ w1 _ _ EE1).
    destruct (part_1d train predict 2 (fun x => 2 - 3 * x + 5 * x * x) (fun x => -3 + 10 * x) X 3 _ _ s2 w2 SX E2 F2 quad1_terms d_quad) as (w3 & EE2). now rewrite EE2.
  Qed.

  Lemma exact_2d_ok : forall (w : W), no_conic (fun i => drawn G (2 * i)) (fun i => drawn G (2 * i + 1)) 10 -> fst (test_exact_2d train predict w) = Ok tt.
  Proof.
    intros w NC. unfold test_exact_2d. rewrite seed_step. set (w0 := set_rng w _).
    destruct (normal2_ev G (U := U) (L := nd R) 10 2 w0) as (X & EZ & SX & VX). rewrite (nb _ _ w0 _ _ EZ). set (w1 := set_rng w0 _).
    assert (V0 : forall i, (i < 10)%nat -> X.[i, 0%nat] = drawn G (2 * i)) by (intros k Hk; rewrite VX by lia; unfold drawn; cbn [w0 rng set_rng]; f_equal; lia).
    assert (V1 : forall i, (i < 10)%nat -> X.[i, 1%nat] = drawn G (2 * i + 1)) by (intros k Hk; rewrite VX by lia; unfold drawn; cbn [w0 rng set_rng]; f_equal; lia).
    assert (NC' : no_conic (fun i => X.[i, 0%nat]) (fun i => X.[i, 1%nat]) 10).
    { intros c0 c1 c2 c3 c4 c5 H. apply NC. intros i Hi. rewrite <- V0, <- V1 by auto. now apply H. }
    assert (P1 : poised X 1 10) by (apply poised_1_2; [exact SX|]; now apply conic_line). assert (P2 : poised X 2 10) by (now apply poised_2_2).
    set (g1 := fun x y => 2 + 5 * x - 4 * y). set (g2 := fun x y => 2 - 3 * y + 5 * x * y).
    destruct (RET 1 X (of_row X g1) 10 2 SX (of_row_shape X 10 2 _ SX) ltac:(lia) ltac:(lia) ltac:(cbn; lia) P1) as (s1 & E1).
    destruct (RET 2 X (of_row X g2) 10 2 SX (of_row_shape X 10 2 _ SX) ltac:(lia) ltac:(lia) ltac:(cbn; lia) P2) as (s2 & E2).
    assert (F1 : fits predict s1 2 3 (fun t => nth t [2; 5; -4] 0) (ex2 [[0; 0]; [1; 0]; [0; 1]]%nat)).
    { apply (FIT 1 X _ 10 2 s1 _ _ _ SX (of_row_shape X 10 2 _ SX) ltac:(lia) ltac:(lia) E1 P1); [intros [|[|[|t]]] Ht; cbn; lia|]. intros r Hr. now rewrite lin2_terms. }
    assert (F2 : fits predict s2 2 3 (fun t => nth t [2; -3; 5] 0) (ex2 [[0; 0]; [0; 1]; [1; 1]]%nat)).
    { apply (FIT 2 X _ 10 2 s2 _ _ _ SX (of_row_shape X 10 2 _ SX) ltac:(lia) ltac:(lia) E2 P2); [intros [|[|[|t]]] Ht; cbn; lia|]. intros r Hr. now rewrite bil2_terms. }
    destruct (part_2d train predict 1 g1 (fun _ _ => 5) (fun _ _ => -4) X 3 _ _ s1 w1 E1 F1 lin2_terms) as (w2 & EE1).
    { intros x y. apply (d_lin_ext _ (2 - 4 * y)). intros t. unfold g1. ring. } { intros x y. apply (d_lin_ext _ (2 + 5 * x)). intros t. unfold g1. ring. }
    rewrite (nb _ _ w1 _ _ EE1).
    destruct (part_2d train predict 2 g2 (fun _ y => 5 * y) (fun x _ => -3 + 5 * x) X 3 _ _ s2 w2 E2 F2 bil2_terms) as (w3 & EE2).
    { intros x y. apply (d_lin_ext _ (2 - 3 * y)). intros t. unfold g2. ring. } { intros x y. apply (d_lin_ext _ 2). intros t. unfold g2. ring. }
    now rewrite EE2.
  Qed.
End Exact.

(** The tests of exact linear and quadratic data pass for both classes whenever the first
    coordinates of the ten points take three different values (one variable) and whenever no conic
    passes through the ten points (two variables).  The test of exact data in three
    variables asserts nothing and passes for every generator. *)
Theorem C106_exact : forall lstsq solve cholesky fminbound (G : gen) (U : Type) (w : world G U (nd R)),
  lstsq_contract lstsq -> lstsq_total lstsq -> solve_contract solve -> solve_sound solve -> cholesky_contract cholesky -> fminbound_ok fminbound ->
  let x i := drawn G (2 * i) in let y i := drawn G (2 * i + 1) in
  (three_values x 10 ->
     fst (test_exact_polynomial_approximation_1d lstsq w) = Ok tt /\
     fst (test_exact_rbf_approximation_1d solve cholesky fminbound w) = Ok tt) /\
  ((forall c0 c1 c2 c3 c4 c5, (forall i, (i < 10)%nat -> c0 + c1 * x i + c2 * y i + c3 * x i * x i + c4 * x i * y i + c5 * y i * y i = 0) ->
      c0 = 0 /\ c1 = 0 /\ c2 = 0 /\ c3 = 0 /\ c4 = 0 /\ c5 = 0) ->
     fst (test_exact_polynomial_approximation_2d lstsq w) = Ok tt /\
     fst (test_exact_rbf_approximation_2d solve cholesky fminbound w) = Ok tt) /\
  fst (test_exact_polynomial_approximation_3d lstsq w) = Ok tt.
Proof.
  intros lstsq solve cholesky fminbound G U w HL HT HS HS' HC HF x y.
  assert (R1 := fun N X f M m SX Sf Hm HN HM (_ : poised X N M) => ptrain_returns lstsq HL HT N X f M m SX Sf Hm HN HM). assert (F1 := poly_fits lstsq HL).
  assert (R2 := fun N X f M m SX Sf Hm (_ : (1 <= N)%nat) => rtrain_returns solve cholesky fminbound HS HC HF N X f M m SX Sf Hm).
  assert (F2 := fun N X f M m s T a e SX Sf Hm (_ : (1 <= N)%nat) => rbf_fits solve cholesky fminbound HS' N X f M m s T a e SX Sf Hm).
  split; [|split].
  - intros H. split; [exact (exact_1d_ok _ _ R1 F1 w H)|exact (exact_1d_ok _ _ R2 F2 w H)].
  - intros H. split; [exact (exact_2d_ok _ _ R1 F1 w H)|exact (exact_2d_ok _ _ R2 F2 w H)].
  - unfold test_exact_polynomial_approximation_3d. rewrite seed_step. set (w0 := set_rng w _).
    destruct (normal2_ev G (U := U) (L := nd R) 20 3 w0) as (X & EZ & SX & _). rewrite (nb _ _ w0 _ _ EZ). set (f := mk2 20 1 _).
    destruct (ptrain_returns lstsq HL HT 3 X f 20 3 SX eq_refl ltac:(lia) ltac:(lia) ltac:(cbn; lia)) as (s & E). rewrite bind_lift, E. reflexivity.
Qed.
Print Assumptions C106_exact.

(** ** gradients and convergence *)
(** The tests of gradients of trained surfaces end in a pass or an AssertionError: for
    polynomials and for one variable always, for the Gaussian surface with quintic tail if no
    curve of degree five passes through the two hundred points. *)
Theorem C106_gradients : forall lstsq solve cholesky fminbound (G : gen) (U : Type) (w : world G U (nd R)),
  lstsq_contract lstsq -> lstsq_total lstsq -> solve_contract solve -> solve_sound solve -> cholesky_contract cholesky -> fminbound_ok fminbound ->
  let ends (r : res unit) := r = Ok tt \/ r = Err AssertionError in
  ends (fst (test_polynomial_grad_1d lstsq w)) /\ ends (fst (test_polynomial_grad_2d lstsq w)) /\
  ends (fst (test_rbf_grad_1d solve cholesky fminbound w)) /\
  ((forall c : nat -> nat -> R,
      (forall i, (i < 200)%nat -> sumf 6 (fun p => sumf (6 - p) (fun q => c p q * drawn G (2 * i) ^ p * drawn G (2 * i + 1) ^ q)) = 0) -> forall p q, (p + q <= 5)%nat -> c p q = 0) ->
   ends (fst (test_rbf_grad_2d solve cholesky fminbound w))).
Proof.
  intros lstsq solve cholesky fminbound G U w HL HT HS HS' HC HF ends. split; [|split; [|split]].
  - apply grad_1d_ends. intros X SX _. destruct (ptrain_returns lstsq HL HT 7 X (of_col X cos) 10 1 SX (of_col_shape X 10 1 _ SX) ltac:(lia) ltac:(lia) ltac:(cbn; lia)) as (s & E).
    exists s. split; [exact E|]. exact (poly_works lstsq HL 7 X _ 10 1 s SX (of_col_shape X 10 1 _ SX) ltac:(lia) ltac:(lia) E).
  - apply grad_2d_ends. intros X SX _. set (g := fun x y => cos x * sin y). assert (LE : (binom (5 + 2) 2 <= 200)%nat) by (change (binom (5 + 2) 2) with 21%nat; lia).
    destruct (ptrain_returns lstsq HL HT 5 X (of_row X g) 200 2 SX (of_row_shape X 200 2 _ SX) ltac:(lia) ltac:(lia) LE) as (s & E).
    exists s. split; [exact E|]. exact (poly_works lstsq HL 5 X _ 200 2 s SX (of_row_shape X 200 2 _ SX) ltac:(lia) ltac:(lia) E).
  - apply grad_1d_ends. intros X SX _. destruct (rtrain_returns solve cholesky fminbound HS HC HF 0 X (of_col X cos) 10 1 SX (of_col_shape X 10 1 _ SX) ltac:(lia) ltac:(cbn; lia) (poised_0_1 X 10 SX ltac:(lia))) as (s & E).
    exists s. split; [exact E|]. exact (rbf_works solve cholesky fminbound HS' 0 X _ None None 10 1 s SX (of_col_shape X 10 1 _ SX) ltac:(lia) E).
  - intros NQ. apply grad_2d_ends. intros X SX VX. set (g := fun x y => cos x * sin y). assert (LE : (binom (5 + 2) 2 <= 200)%nat) by (change (binom (5 + 2) 2) with 21%nat; lia).
    assert (PO : poised X 5 200).
    { apply poised_5_2; [exact SX|]. intros c H. apply NQ. intros i Hi. rewrite <- (H i Hi). apply sumf_ext. intros p Hp. apply sumf_ext. intros q Hq. cbv beta. rewrite !VX by (auto; lia). do 2 f_equal; f_equal; f_equal; lia. }
    destruct (rtrain_returns solve cholesky fminbound HS HC HF 5 X (of_row X g) 200 2 SX (of_row_shape X 200 2 _ SX) ltac:(lia) LE PO) as (s & E).
    exists s. split; [exact E|]. exact (rbf_works solve cholesky fminbound HS' 5 X _ None None 200 2 s SX (of_row_shape X 200 2 _ SX) ltac:(lia) E).
Qed.
Print Assumptions C106_gradients.

(** The convergence tests assert nothing: they pass for every generator, because every
    training in them returns and every prediction has the right shape. *)
Theorem C106_convergence : forall lstsq solve cholesky fminbound (G : gen) (U : Type) (w : world G U (nd R)),
  lstsq_contract lstsq -> lstsq_total lstsq -> solve_contract solve -> solve_sound solve -> cholesky_contract cholesky -> fminbound_ok fminbound ->
  fst (test_poly_order_1d lstsq w) = Ok tt /\ fst (test_poly_order_2d lstsq w) = Ok tt /\
  fst (test_rbf_points_1d solve cholesky fminbound w) = Ok tt /\ fst (test_rbf_points_2d solve cholesky fminbound w) = Ok tt.
Proof.
  intros lstsq solve cholesky fminbound G U w HL HT HS HS' HC HF. set (w0 := set_rng w (g_seed G 42)).
  destruct (uniform2_ev G (U := U) (L := nd R) (-1) 1 50 2 w0) as (X & EX & SX & _). set (w1 := set_rng w0 _) in *.
  assert (SC := column_shape X 50 2 0 SX). split; [|split; [|split]].
  - unfold test_poly_order_1d. rewrite seed_step. fold w0. rewrite (nb _ _ w0 _ _ EX). rewrite each_ok; [reflexivity|]. intros N HN.
    assert (LE : (binom (N + 1) 1 <= 201)%nat) by (cbn [seq In] in HN; destruct HN as [<-|[<-|[<-|[<-|[<-|[<-|[<-|[]]]]]]]]; apply Nat.leb_le; vm_compute; reflexivity). apply in_seq in HN.
    destruct (ptrain_returns lstsq HL HT N (line_col 201) (of_col (line_col 201) (fun x => sin (PI * x))) 201 1 eq_refl eq_refl ltac:(lia) ltac:(lia) LE) as (s & E).
    apply (converge_1d_ok _ _ N 201 _ s); [exact SC|exact E|]. exact (poly_works lstsq HL N (line_col 201) (of_col (line_col 201) (fun x => sin (PI * x))) 201 1 s eq_refl eq_refl ltac:(lia) ltac:(lia) E).
  - unfold test_poly_order_2d. rewrite seed_step. fold w0. rewrite (nb _ _ w0 _ _ EX). rewrite each_ok; [reflexivity|]. intros N HN.
    assert (LE : (binom (N + 2) 2 <= 21 * 21)%nat) by (cbn [seq In] in HN; destruct HN as [<-|[<-|[<-|[<-|[<-|[<-|[<-|[]]]]]]]]; apply Nat.leb_le; vm_compute; reflexivity). apply in_seq in HN.
    set (g := fun x y => sin (PI * x) * cos (PI * y)).
    destruct (ptrain_returns lstsq HL HT N (mesh 21) (of_row (mesh 21) g) (21 * 21) 2 eq_refl eq_refl ltac:(lia) ltac:(lia) LE) as (s & E).
    apply (converge_2d_ok _ _ N 21 _ s); [exact SX|exact E|]. exact (poly_works lstsq HL N (mesh 21) (of_row (mesh 21) g) (21 * 21) 2 s eq_refl eq_refl ltac:(lia) ltac:(lia) E).
  - unfold test_rbf_points_1d. rewrite seed_step. fold w0. rewrite (nb _ _ w0 _ _ EX). rewrite each_ok; [reflexivity|]. intros N HN. set (p := (2 ^ N + 1)%nat).
    assert (LE : (binom (0 + 1) 1 <= p)%nat) by (unfold p; cbn; lia).
    destruct (rtrain_returns solve cholesky fminbound HS HC HF 0 (line_col p) (of_col (line_col p) (fun x => sin (PI * x))) p 1 eq_refl eq_refl ltac:(lia) LE (poised_0_1 (line_col p) p eq_refl ltac:(unfold p; lia))) as (s & E).
    apply (converge_1d_ok _ _ 0 p _ s); [exact SC|exact E|]. exact (rbf_works solve cholesky fminbound HS' 0 (line_col p) (of_col (line_col p) (fun x => sin (PI * x))) None None p 1 s eq_refl eq_refl ltac:(lia) E).
  - unfold test_rbf_points_2d. rewrite seed_step. fold w0. rewrite (nb _ _ w0 _ _ EX). rewrite each_ok; [reflexivity|]. intros N HN. apply in_seq in HN.
    destruct N as [|N]; [lia|]. set (p := (2 ^ S N + 1)%nat). assert (Hp : p = (2 * 2 ^ N + 1)%nat) by reflexivity. assert (Q : (1 <= 2 ^ N)%nat) by (apply Nat.neq_0_lt_0, Nat.pow_nonzero; lia).
    assert (LE : (binom (2 + 2) 2 <= p * p)%nat) by (change (binom (2 + 2) 2) with 6%nat; nia). set (g := fun x y => sin (PI * x) * cos (PI * y)).
    assert (PO : poised (mesh p) 2 (p * p)) by (rewrite Hp; now apply poised_mesh).
    destruct (rtrain_returns solve cholesky fminbound HS HC HF 2 (mesh p) (of_row (mesh p) g) (p * p) 2 eq_refl eq_refl ltac:(lia) LE PO) as (s & E).
    apply (converge_2d_ok _ _ 2 p _ s); [exact SX|exact E|]. exact (rbf_works solve cholesky fminbound HS' 2 (mesh p) (of_row (mesh p) g) None None (p * p) 2 s eq_refl eq_refl ltac:(lia) E).
Qed.
Print Assumptions C106_convergence.

(** The test that passes eigenvalues to the Gaussian surface passes unless its two hundred
    points lie on one line. *)
Theorem C106_eigenvalues : forall solve cholesky fminbound (G : gen) (U : Type) (w : world G U (nd R)),
  solve_contract solve -> solve_sound solve -> cholesky_contract cholesky -> fminbound_ok fminbound ->
  let u k := unif_at (g_seed G 42) k in
  (exists i j l, (i < 200)%nat /\ (j < 200)%nat /\ (l < 200)%nat /\
     (u (2 * j)%nat - u (2 * i)%nat) * (u (2 * l + 1)%nat - u (2 * i + 1)%nat) <> (u (2 * l)%nat - u (2 * i)%nat) * (u (2 * j + 1)%nat - u (2 * i + 1)%nat)) ->
  fst (test_rbf_as solve cholesky fminbound w) = Ok tt.
Proof.
  intros solve cholesky fminbound G U w HS HS' HC HF u (i & j & l & Hi & Hj & Hl & NE). unfold test_rbf_as. rewrite seed_step. set (w0 := set_rng w _).
  destruct (uniform2_ev G (U := U) (L := nd R) (-1) 1 50 2 w0) as (Xt & EX & ST & _). rewrite (nb _ _ w0 _ _ EX). set (w1 := set_rng w0 _). rewrite seed_step. set (w2 := set_rng w1 _).
  destruct (uniform2_ev G (U := U) (L := nd R) (-1) 1 200 2 w2) as (X & EX2 & SX & VX). rewrite (nb _ _ w2 _ _ EX2). set (w3 := set_rng w2 _).
  set (f := of_row X _). set (e := mk2 5 1 _). set (v := mk1 200 _). assert (Sf : shape f = [200%nat; 1%nat]) by exact (of_row_shape X 200 2 _ SX).
  assert (V0 : forall k, (k < 200)%nat -> X.[k, 0%nat] = -1 + 2 * u (2 * k)%nat) by (intros k Hk; rewrite VX by lia; unfold u; cbn [w2 rng set_rng]; replace (k * 2 + 0)%nat with (2 * k)%nat by lia; lra).
  assert (V1 : forall k, (k < 200)%nat -> X.[k, 1%nat] = -1 + 2 * u (2 * k + 1)%nat) by (intros k Hk; rewrite VX by lia; unfold u; cbn [w2 rng set_rng]; replace (k * 2 + 1)%nat with (2 * k + 1)%nat by lia; lra).
  assert (PO : poised X 1 200).
  { apply poised_1_2; [exact SX|]. intros c0 c1 c2 H. assert (Ki := H i Hi). assert (Kj := H j Hj). assert (Kl := H l Hl). cbv beta in Ki, Kj, Kl. rewrite V0, V1 in Ki by auto. rewrite V0, V1 in Kj by auto. rewrite V0, V1 in Kl by auto.
    set (xi := u (2 * i)%nat) in *. set (yi := u (2 * i + 1)%nat) in *. set (xj := u (2 * j)%nat) in *. set (yj := u (2 * j + 1)%nat) in *. set (xl := u (2 * l)%nat) in *. set (yl := u (2 * l + 1)%nat) in *.
    set (D := (xj - xi) * (yl - yi) - (xl - xi) * (yj - yi)). assert (ND : D <> 0) by (unfold D; lra).
    assert (A : c1 * (xj - xi) + c2 * (yj - yi) = 0) by lra. assert (B : c1 * (xl - xi) + c2 * (yl - yi) = 0) by lra.
    assert (Z1 : c1 = 0). { apply (Rmult_eq_reg_r D); [|exact ND]. transitivity ((c1 * (xj - xi) + c2 * (yj - yi)) * (yl - yi) - (c1 * (xl - xi) + c2 * (yl - yi)) * (yj - yi)); [unfold D; ring|rewrite A, B; ring]. }
    assert (Z2 : c2 = 0). { apply (Rmult_eq_reg_r D); [|exact ND]. transitivity ((c1 * (xl - xi) + c2 * (yl - yi)) * (xj - xi) - (c1 * (xj - xi) + c2 * (yj - yi)) * (xl - xi)); [unfold D; ring|rewrite A, B; ring]. }
    rewrite Z1, Z2 in Ki. repeat split; auto. lra. }
  assert (LE : (binom (1 + 2) 2 <= 200)%nat) by (change (binom (1 + 2) 2) with 3%nat; lia).
  assert (EO : eigs_ok 2 (Some e)).
  { split; [|split].
    - intros k Hk. unfold e. rewrite at_mk2. destruct k as [|[|k]]; cbn [nth]; lra || lia.
    - intros k Hk. change (nrows e) with 5%nat in Hk. unfold e. rewrite at_mk2. destruct k as [|[|[|[|[|k]]]]]; cbn [nth]; lra || lia.
    - change (nrows e) with 5%nat. lia. }
  destruct (C78_training_returns_partial solve cholesky fminbound 1 X f None (Some e) 200 2 HS HC HF SX Sf ltac:(lia) LE PO Logic.I EO) as (s1 & E1).
  { left. exists 2%nat. change (nrows e) with 5%nat. split; [lia|]. unfold e. rewrite at_mk2. cbn [nth]. lra. }
  destruct (C78_training_returns_partial solve cholesky fminbound 1 X f (Some v) (Some e) 200 2 HS HC HF SX Sf ltac:(lia) LE PO eq_refl EO) as (s2 & E2).
  { left. intros k Hk. change (flat v k) with (1 / 10000). lra. }
  destruct (rbf_works solve cholesky fminbound HS' 1 X f None (Some e) 200 2 s1 SX Sf ltac:(lia) E1 Xt 50%nat ST) as (F1 & D1 & _ & Q1 & _).
  destruct (rbf_works solve cholesky fminbound HS' 1 X f (Some v) (Some e) 200 2 s2 SX Sf ltac:(lia) E2 Xt 50%nat ST) as (F2 & D2 & _ & Q2 & _).
  rewrite bind_lift, E1, bind_lift, Q1, bind_lift, E2, bind_lift, Q2. reflexivity.
Qed.
Print Assumptions C106_eigenvalues.

(** Points of a triangular lattice, one coordinate after the other: every condition of the
    theorems holds, and every test of the file passes or ends in an AssertionError of the
    finite differences. *)
Definition lattice : list R := [0; 0; 1; 0; 0; 1; 2; 0; 1; 1; 0; 2; 3; 0; 2; 1; 1; 2; 0; 3; 4; 0; 3; 1; 2; 2; 1; 3; 0; 4; 5; 0; 4; 1; 3; 2; 2; 3; 1; 4; 0; 5].
Lemma lattice_range : forall k, 0 <= nth k lattice 0 <= 5.
Proof.
  intros k. assert (F : Forall (fun r => 0 <= r <= 5) lattice) by (unfold lattice; repeat (apply Forall_cons; [lra|]); apply Forall_nil).
  destruct (Nat.lt_ge_cases k (List.length lattice)) as [H|H]; [|rewrite nth_overflow by auto; lra]. exact (proj1 (Forall_forall _ _) F _ (nth_In lattice 0 H)).
Qed.
Lemma lattice_unif : forall k, 0 <= nth k lattice 0 / 10 < 1.
Proof. intros k. assert (K := lattice_range k). lra. Qed.
Definition lattice_gen : gen := Gen nat (fun _ => 0%nat) (fun k => (nth k lattice 0, S k)) (fun k => (nth k lattice 0 / 10, S k)) (fun _ k => (0%nat, S k)) lattice_unif (fun hi k (H : (0 < hi)%nat) => H).
Lemma lattice_drawn : forall k, drawn lattice_gen k = nth k lattice 0.
Proof.
  assert (K : forall k s, @normal_state lattice_gen k s = (s + k)%nat) by (induction k as [|k IH]; intros s; cbn; [lia|rewrite IH; cbn; lia]).
  intros k. unfold drawn, normal_at. rewrite K. reflexivity.
Qed.
Lemma lattice_at : forall k, @unif_at lattice_gen 0%nat k = nth k lattice 0 / 10.
Proof.
  assert (K : forall k s, @unif_state lattice_gen k s = (s + k)%nat) by (induction k as [|k IH]; intros s; cbn; [lia|rewrite IH; cbn; lia]).
  intros k. unfold unif_at. rewrite K. reflexivity.
Qed.

Lemma uni0 : forall a0, (a0 * 1 = 0) -> a0 = 0.
Proof. intros. lra. Qed.
Lemma uni1 : forall a0 a1, (a0 * 1 + a1 * 0 = 0) -> (a0 * 1 + a1 * 1 = 0) -> a0 = 0 /\ a1 = 0.
Proof. intros. lra. Qed.
Lemma uni2 : forall a0 a1 a2, (a0 * 1 + a1 * 0 + a2 * 0 = 0) -> (a0 * 1 + a1 * 1 + a2 * 1 = 0) -> (a0 * 1 + a1 * 2 + a2 * 4 = 0) -> a0 = 0 /\ a1 = 0 /\ a2 = 0.
Proof. intros. lra. Qed.
Lemma uni3 : forall a0 a1 a2 a3, (a0 * 1 + a1 * 0 + a2 * 0 + a3 * 0 = 0) -> (a0 * 1 + a1 * 1 + a2 * 1 + a3 * 1 = 0) -> (a0 * 1 + a1 * 2 + a2 * 4 + a3 * 8 = 0) -> (a0 * 1 + a1 * 3 + a2 * 9 + a3 * 27 = 0) -> a0 = 0 /\ a1 = 0 /\ a2 = 0 /\ a3 = 0.
Proof. intros. lra. Qed.
Lemma uni4 : forall a0 a1 a2 a3 a4, (a0 * 1 + a1 * 0 + a2 * 0 + a3 * 0 + a4 * 0 = 0) -> (a0 * 1 + a1 * 1 + a2 * 1 + a3 * 1 + a4 * 1 = 0) -> (a0 * 1 + a1 * 2 + a2 * 4 + a3 * 8 + a4 * 16 = 0) -> (a0 * 1 + a1 * 3 + a2 * 9 + a3 * 27 + a4 * 81 = 0) -> (a0 * 1 + a1 * 4 + a2 * 16 + a3 * 64 + a4 * 256 = 0) -> a0 = 0 /\ a1 = 0 /\ a2 = 0 /\ a3 = 0 /\ a4 = 0.
Proof. intros. lra. Qed.
Lemma uni5 : forall a0 a1 a2 a3 a4 a5, (a0 * 1 + a1 * 0 + a2 * 0 + a3 * 0 + a4 * 0 + a5 * 0 = 0) -> (a0 * 1 + a1 * 1 + a2 * 1 + a3 * 1 + a4 * 1 + a5 * 1 = 0) -> (a0 * 1 + a1 * 2 + a2 * 4 + a3 * 8 + a4 * 16 + a5 * 32 = 0) -> (a0 * 1 + a1 * 3 + a2 * 9 + a3 * 27 + a4 * 81 + a5 * 243 = 0) -> (a0 * 1 + a1 * 4 + a2 * 16 + a3 * 64 + a4 * 256 + a5 * 1024 = 0) -> (a0 * 1 + a1 * 5 + a2 * 25 + a3 * 125 + a4 * 625 + a5 * 3125 = 0) -> a0 = 0 /\ a1 = 0 /\ a2 = 0 /\ a3 = 0 /\ a4 = 0 /\ a5 = 0.
Proof. intros. lra. Qed.
(** the lattice lies on no curve of degree five: one row after the other *)
Lemma lattice_quintic : forall c : nat -> nat -> R,
  (forall i, (i < 21)%nat -> sumf 6 (fun p => sumf (6 - p) (fun q => c p q * nth (2 * i) lattice 0 ^ p * nth (2 * i + 1) lattice 0 ^ q)) = 0) -> forall p q, (p + q <= 5)%nat -> c p q = 0.
Proof.
  intros c K.
  assert (P0_0 : (c 0%nat 0%nat * 1 + c 0%nat 1%nat * 0 + c 0%nat 2%nat * 0 + c 0%nat 3%nat * 0 + c 0%nat 4%nat * 0 + c 0%nat 5%nat * 0) * 1 + (c 1%nat 0%nat * 1 + c 1%nat 1%nat * 0 + c 1%nat 2%nat * 0 + c 1%nat 3%nat * 0 + c 1%nat 4%nat * 0) * 0 + (c 2%nat 0%nat * 1 + c 2%nat 1%nat * 0 + c 2%nat 2%nat * 0 + c 2%nat 3%nat * 0) * 0 + (c 3%nat 0%nat * 1 + c 3%nat 1%nat * 0 + c 3%nat 2%nat * 0) * 0 + (c 4%nat 0%nat * 1 + c 4%nat 1%nat * 0) * 0 + (c 5%nat 0%nat * 1) * 0 = 0).
  { etransitivity; [|exact (K 0%nat ltac:(lia))]. cbn [Nat.mul Nat.add Nat.sub lattice nth sumf pow]. ring. }
  assert (P1_0 : (c 0%nat 0%nat * 1 + c 0%nat 1%nat * 0 + c 0%nat 2%nat * 0 + c 0%nat 3%nat * 0 + c 0%nat 4%nat * 0 + c 0%nat 5%nat * 0) * 1 + (c 1%nat 0%nat * 1 + c 1%nat 1%nat * 0 + c 1%nat 2%nat * 0 + c 1%nat 3%nat * 0 + c 1%nat 4%nat * 0) * 1 + (c 2%nat 0%nat * 1 + c 2%nat 1%nat * 0 + c 2%nat 2%nat * 0 + c 2%nat 3%nat * 0) * 1 + (c 3%nat 0%nat * 1 + c 3%nat 1%nat * 0 + c 3%nat 2%nat * 0) * 1 + (c 4%nat 0%nat * 1 + c 4%nat 1%nat * 0) * 1 + (c 5%nat 0%nat * 1) * 1 = 0).
  { etransitivity; [|exact (K 1%nat ltac:(lia))]. cbn [Nat.mul Nat.add Nat.sub lattice nth sumf pow]. ring. }
  assert (P2_0 : (c 0%nat 0%nat * 1 + c 0%nat 1%nat * 0 + c 0%nat 2%nat * 0 + c 0%nat 3%nat * 0 + c 0%nat 4%nat * 0 + c 0%nat 5%nat * 0) * 1 + (c 1%nat 0%nat * 1 + c 1%nat 1%nat * 0 + c 1%nat 2%nat * 0 + c 1%nat 3%nat * 0 + c 1%nat 4%nat * 0) * 2 + (c 2%nat 0%nat * 1 + c 2%nat 1%nat * 0 + c 2%nat 2%nat * 0 + c 2%nat 3%nat * 0) * 4 + (c 3%nat 0%nat * 1 + c 3%nat 1%nat * 0 + c 3%nat 2%nat * 0) * 8 + (c 4%nat 0%nat * 1 + c 4%nat 1%nat * 0) * 16 + (c 5%nat 0%nat * 1) * 32 = 0).
  { etransitivity; [|exact (K 3%nat ltac:(lia))]. cbn [Nat.mul Nat.add Nat.sub lattice nth sumf pow]. ring. }
  assert (P3_0 : (c 0%nat 0%nat * 1 + c 0%nat 1%nat * 0 + c 0%nat 2%nat * 0 + c 0%nat 3%nat * 0 + c 0%nat 4%nat * 0 + c 0%nat 5%nat * 0) * 1 + (c 1%nat 0%nat * 1 + c 1%nat 1%nat * 0 + c 1%nat 2%nat * 0 + c 1%nat 3%nat * 0 + c 1%nat 4%nat * 0) * 3 + (c 2%nat 0%nat * 1 + c 2%nat 1%nat * 0 + c 2%nat 2%nat * 0 + c 2%nat 3%nat * 0) * 9 + (c 3%nat 0%nat * 1 + c 3%nat 1%nat * 0 + c 3%nat 2%nat * 0) * 27 + (c 4%nat 0%nat * 1 + c 4%nat 1%nat * 0) * 81 + (c 5%nat 0%nat * 1) * 243 = 0).
  { etransitivity; [|exact (K 6%nat ltac:(lia))]. cbn [Nat.mul Nat.add Nat.sub lattice nth sumf pow]. ring. }
  assert (P4_0 : (c 0%nat 0%nat * 1 + c 0%nat 1%nat * 0 + c 0%nat 2%nat * 0 + c 0%nat 3%nat * 0 + c 0%nat 4%nat * 0 + c 0%nat 5%nat * 0) * 1 + (c 1%nat 0%nat * 1 + c 1%nat 1%nat * 0 + c 1%nat 2%nat * 0 + c 1%nat 3%nat * 0 + c 1%nat 4%nat * 0) * 4 + (c 2%nat 0%nat * 1 + c 2%nat 1%nat * 0 + c 2%nat 2%nat * 0 + c 2%nat 3%nat * 0) * 16 + (c 3%nat 0%nat * 1 + c 3%nat 1%nat * 0 + c 3%nat 2%nat * 0) * 64 + (c 4%nat 0%nat * 1 + c 4%nat 1%nat * 0) * 256 + (c 5%nat 0%nat * 1) * 1024 = 0).
  { etransitivity; [|exact (K 10%nat ltac:(lia))]. cbn [Nat.mul Nat.add Nat.sub lattice nth sumf pow]. ring. }
  assert (P5_0 : (c 0%nat 0%nat * 1 + c 0%nat 1%nat * 0 + c 0%nat 2%nat * 0 + c 0%nat 3%nat * 0 + c 0%nat 4%nat * 0 + c 0%nat 5%nat * 0) * 1 + (c 1%nat 0%nat * 1 + c 1%nat 1%nat * 0 + c 1%nat 2%nat * 0 + c 1%nat 3%nat * 0 + c 1%nat 4%nat * 0) * 5 + (c 2%nat 0%nat * 1 + c 2%nat 1%nat * 0 + c 2%nat 2%nat * 0 + c 2%nat 3%nat * 0) * 25 + (c 3%nat 0%nat * 1 + c 3%nat 1%nat * 0 + c 3%nat 2%nat * 0) * 125 + (c 4%nat 0%nat * 1 + c 4%nat 1%nat * 0) * 625 + (c 5%nat 0%nat * 1) * 3125 = 0).
  { etransitivity; [|exact (K 15%nat ltac:(lia))]. cbn [Nat.mul Nat.add Nat.sub lattice nth sumf pow]. ring. }
  assert (P0_1 : (c 0%nat 0%nat * 1 + c 0%nat 1%nat * 1 + c 0%nat 2%nat * 1 + c 0%nat 3%nat * 1 + c 0%nat 4%nat * 1 + c 0%nat 5%nat * 1) * 1 + (c 1%nat 0%nat * 1 + c 1%nat 1%nat * 1 + c 1%nat 2%nat * 1 + c 1%nat 3%nat * 1 + c 1%nat 4%nat * 1) * 0 + (c 2%nat 0%nat * 1 + c 2%nat 1%nat * 1 + c 2%nat 2%nat * 1 + c 2%nat 3%nat * 1) * 0 + (c 3%nat 0%nat * 1 + c 3%nat 1%nat * 1 + c 3%nat 2%nat * 1) * 0 + (c 4%nat 0%nat * 1 + c 4%nat 1%nat * 1) * 0 + (c 5%nat 0%nat * 1) * 0 = 0).
  { etransitivity; [|exact (K 2%nat ltac:(lia))]. cbn [Nat.mul Nat.add Nat.sub lattice nth sumf pow]. ring. }
  assert (P1_1 : (c 0%nat 0%nat * 1 + c 0%nat 1%nat * 1 + c 0%nat 2%nat * 1 + c 0%nat 3%nat * 1 + c 0%nat 4%nat * 1 + c 0%nat 5%nat * 1) * 1 + (c 1%nat 0%nat * 1 + c 1%nat 1%nat * 1 + c 1%nat 2%nat * 1 + c 1%nat 3%nat * 1 + c 1%nat 4%nat * 1) * 1 + (c 2%nat 0%nat * 1 + c 2%nat 1%nat * 1 + c 2%nat 2%nat * 1 + c 2%nat 3%nat * 1) * 1 + (c 3%nat 0%nat * 1 + c 3%nat 1%nat * 1 + c 3%nat 2%nat * 1) * 1 + (c 4%nat 0%nat * 1 + c 4%nat 1%nat * 1) * 1 + (c 5%nat 0%nat * 1) * 1 = 0).
  { etransitivity; [|exact (K 4%nat ltac:(lia))]. cbn [Nat.mul Nat.add Nat.sub lattice nth sumf pow]. ring. }
  assert (P2_1 : (c 0%nat 0%nat * 1 + c 0%nat 1%nat * 1 + c 0%nat 2%nat * 1 + c 0%nat 3%nat * 1 + c 0%nat 4%nat * 1 + c 0%nat 5%nat * 1) * 1 + (c 1%nat 0%nat * 1 + c 1%nat 1%nat * 1 + c 1%nat 2%nat * 1 + c 1%nat 3%nat * 1 + c 1%nat 4%nat * 1) * 2 + (c 2%nat 0%nat * 1 + c 2%nat 1%nat * 1 + c 2%nat 2%nat * 1 + c 2%nat 3%nat * 1) * 4 + (c 3%nat 0%nat * 1 + c 3%nat 1%nat * 1 + c 3%nat 2%nat * 1) * 8 + (c 4%nat 0%nat * 1 + c 4%nat 1%nat * 1) * 16 + (c 5%nat 0%nat * 1) * 32 = 0).
  { etransitivity; [|exact (K 7%nat ltac:(lia))]. cbn [Nat.mul Nat.add Nat.sub lattice nth sumf pow]. ring. }
  assert (P3_1 : (c 0%nat 0%nat * 1 + c 0%nat 1%nat * 1 + c 0%nat 2%nat * 1 + c 0%nat 3%nat * 1 + c 0%nat 4%nat * 1 + c 0%nat 5%nat * 1) * 1 + (c 1%nat 0%nat * 1 + c 1%nat 1%nat * 1 + c 1%nat 2%nat * 1 + c 1%nat 3%nat * 1 + c 1%nat 4%nat * 1) * 3 + (c 2%nat 0%nat * 1 + c 2%nat 1%nat * 1 + c 2%nat 2%nat * 1 + c 2%nat 3%nat * 1) * 9 + (c 3%nat 0%nat * 1 + c 3%nat 1%nat * 1 + c 3%nat 2%nat * 1) * 27 + (c 4%nat 0%nat * 1 + c 4%nat 1%nat * 1) * 81 + (c 5%nat 0%nat * 1) * 243 = 0).
  { etransitivity; [|exact (K 11%nat ltac:(lia))]. cbn [Nat.mul Nat.add Nat.sub lattice nth sumf pow]. ring. }
  assert (P4_1 : (c 0%nat 0%nat * 1 + c 0%nat 1%nat * 1 + c 0%nat 2%nat * 1 + c 0%nat 3%nat * 1 + c 0%nat 4%nat * 1 + c 0%nat 5%nat * 1) * 1 + (c 1%nat 0%nat * 1 + c 1%nat 1%nat * 1 + c 1%nat 2%nat * 1 + c 1%nat 3%nat * 1 + c 1%nat 4%nat * 1) * 4 + (c 2%nat 0%nat * 1 + c 2%nat 1%nat * 1 + c 2%nat 2%nat * 1 + c 2%nat 3%nat * 1) * 16 + (c 3%nat 0%nat * 1 + c 3%nat 1%nat * 1 + c 3%nat 2%nat * 1) * 64 + (c 4%nat 0%nat * 1 + c 4%nat 1%nat * 1) * 256 + (c 5%nat 0%nat * 1) * 1024 = 0).
  { etransitivity; [|exact (K 16%nat ltac:(lia))]. cbn [Nat.mul Nat.add Nat.sub lattice nth sumf pow]. ring. }
  assert (P0_2 : (c 0%nat 0%nat * 1 + c 0%nat 1%nat * 2 + c 0%nat 2%nat * 4 + c 0%nat 3%nat * 8 + c 0%nat 4%nat * 16 + c 0%nat 5%nat * 32) * 1 + (c 1%nat 0%nat * 1 + c 1%nat 1%nat * 2 + c 1%nat 2%nat * 4 + c 1%nat 3%nat * 8 + c 1%nat 4%nat * 16) * 0 + (c 2%nat 0%nat * 1 + c 2%nat 1%nat * 2 + c 2%nat 2%nat * 4 + c 2%nat 3%nat * 8) * 0 + (c 3%nat 0%nat * 1 + c 3%nat 1%nat * 2 + c 3%nat 2%nat * 4) * 0 + (c 4%nat 0%nat * 1 + c 4%nat 1%nat * 2) * 0 + (c 5%nat 0%nat * 1) * 0 = 0).
  { etransitivity; [|exact (K 5%nat ltac:(lia))]. cbn [Nat.mul Nat.add Nat.sub lattice nth sumf pow]. ring. }
  assert (P1_2 : (c 0%nat 0%nat * 1 + c 0%nat 1%nat * 2 + c 0%nat 2%nat * 4 + c 0%nat 3%nat * 8 + c 0%nat 4%nat * 16 + c 0%nat 5%nat * 32) * 1 + (c 1%nat 0%nat * 1 + c 1%nat 1%nat * 2 + c 1%nat 2%nat * 4 + c 1%nat 3%nat * 8 + c 1%nat 4%nat * 16) * 1 + (c 2%nat 0%nat * 1 + c 2%nat 1%nat * 2 + c 2%nat 2%nat * 4 + c 2%nat 3%nat * 8) * 1 + (c 3%nat 0%nat * 1 + c 3%nat 1%nat * 2 + c 3%nat 2%nat * 4) * 1 + (c 4%nat 0%nat * 1 + c 4%nat 1%nat * 2) * 1 + (c 5%nat 0%nat * 1) * 1 = 0).
  { etransitivity; [|exact (K 8%nat ltac:(lia))]. cbn [Nat.mul Nat.add Nat.sub lattice nth sumf pow]. ring. }
  assert (P2_2 : (c 0%nat 0%nat * 1 + c 0%nat 1%nat * 2 + c 0%nat 2%nat * 4 + c 0%nat 3%nat * 8 + c 0%nat 4%nat * 16 + c 0%nat 5%nat * 32) * 1 + (c 1%nat 0%nat * 1 + c 1%nat 1%nat * 2 + c 1%nat 2%nat * 4 + c 1%nat 3%nat * 8 + c 1%nat 4%nat * 16) * 2 + (c 2%nat 0%nat * 1 + c 2%nat 1%nat * 2 + c 2%nat 2%nat * 4 + c 2%nat 3%nat * 8) * 4 + (c 3%nat 0%nat * 1 + c 3%nat 1%nat * 2 + c 3%nat 2%nat * 4) * 8 + (c 4%nat 0%nat * 1 + c 4%nat 1%nat * 2) * 16 + (c 5%nat 0%nat * 1) * 32 = 0).
  { etransitivity; [|exact (K 12%nat ltac:(lia))]. cbn [Nat.mul Nat.add Nat.sub lattice nth sumf pow]. ring. }
  assert (P3_2 : (c 0%nat 0%nat * 1 + c 0%nat 1%nat * 2 + c 0%nat 2%nat * 4 + c 0%nat 3%nat * 8 + c 0%nat 4%nat * 16 + c 0%nat 5%nat * 32) * 1 + (c 1%nat 0%nat * 1 + c 1%nat 1%nat * 2 + c 1%nat 2%nat * 4 + c 1%nat 3%nat * 8 + c 1%nat 4%nat * 16) * 3 + (c 2%nat 0%nat * 1 + c 2%nat 1%nat * 2 + c 2%nat 2%nat * 4 + c 2%nat 3%nat * 8) * 9 + (c 3%nat 0%nat * 1 + c 3%nat 1%nat * 2 + c 3%nat 2%nat * 4) * 27 + (c 4%nat 0%nat * 1 + c 4%nat 1%nat * 2) * 81 + (c 5%nat 0%nat * 1) * 243 = 0).
  { etransitivity; [|exact (K 17%nat ltac:(lia))]. cbn [Nat.mul Nat.add Nat.sub lattice nth sumf pow]. ring. }
  assert (P0_3 : (c 0%nat 0%nat * 1 + c 0%nat 1%nat * 3 + c 0%nat 2%nat * 9 + c 0%nat 3%nat * 27 + c 0%nat 4%nat * 81 + c 0%nat 5%nat * 243) * 1 + (c 1%nat 0%nat * 1 + c 1%nat 1%nat * 3 + c 1%nat 2%nat * 9 + c 1%nat 3%nat * 27 + c 1%nat 4%nat * 81) * 0 + (c 2%nat 0%nat * 1 + c 2%nat 1%nat * 3 + c 2%nat 2%nat * 9 + c 2%nat 3%nat * 27) * 0 + (c 3%nat 0%nat * 1 + c 3%nat 1%nat * 3 + c 3%nat 2%nat * 9) * 0 + (c 4%nat 0%nat * 1 + c 4%nat 1%nat * 3) * 0 + (c 5%nat 0%nat * 1) * 0 = 0).
  { etransitivity; [|exact (K 9%nat ltac:(lia))]. cbn [Nat.mul Nat.add Nat.sub lattice nth sumf pow]. ring. }
  assert (P1_3 : (c 0%nat 0%nat * 1 + c 0%nat 1%nat * 3 + c 0%nat 2%nat * 9 + c 0%nat 3%nat * 27 + c 0%nat 4%nat * 81 + c 0%nat 5%nat * 243) * 1 + (c 1%nat 0%nat * 1 + c 1%nat 1%nat * 3 + c 1%nat 2%nat * 9 + c 1%nat 3%nat * 27 + c 1%nat 4%nat * 81) * 1 + (c 2%nat 0%nat * 1 + c 2%nat 1%nat * 3 + c 2%nat 2%nat * 9 + c 2%nat 3%nat * 27) * 1 + (c 3%nat 0%nat * 1 + c 3%nat 1%nat * 3 + c 3%nat 2%nat * 9) * 1 + (c 4%nat 0%nat * 1 + c 4%nat 1%nat * 3) * 1 + (c 5%nat 0%nat * 1) * 1 = 0).
  { etransitivity; [|exact (K 13%nat ltac:(lia))]. cbn [Nat.mul Nat.add Nat.sub lattice nth sumf pow]. ring. }
  assert (P2_3 : (c 0%nat 0%nat * 1 + c 0%nat 1%nat * 3 + c 0%nat 2%nat * 9 + c 0%nat 3%nat * 27 + c 0%nat 4%nat * 81 + c 0%nat 5%nat * 243) * 1 + (c 1%nat 0%nat * 1 + c 1%nat 1%nat * 3 + c 1%nat 2%nat * 9 + c 1%nat 3%nat * 27 + c 1%nat 4%nat * 81) * 2 + (c 2%nat 0%nat * 1 + c 2%nat 1%nat * 3 + c 2%nat 2%nat * 9 + c 2%nat 3%nat * 27) * 4 + (c 3%nat 0%nat * 1 + c 3%nat 1%nat * 3 + c 3%nat 2%nat * 9) * 8 + (c 4%nat 0%nat * 1 + c 4%nat 1%nat * 3) * 16 + (c 5%nat 0%nat * 1) * 32 = 0).
  { etransitivity; [|exact (K 18%nat ltac:(lia))]. cbn [Nat.mul Nat.add Nat.sub lattice nth sumf pow]. ring. }
  assert (P0_4 : (c 0%nat 0%nat * 1 + c 0%nat 1%nat * 4 + c 0%nat 2%nat * 16 + c 0%nat 3%nat * 64 + c 0%nat 4%nat * 256 + c 0%nat 5%nat * 1024) * 1 + (c 1%nat 0%nat * 1 + c 1%nat 1%nat * 4 + c 1%nat 2%nat * 16 + c 1%nat 3%nat * 64 + c 1%nat 4%nat * 256) * 0 + (c 2%nat 0%nat * 1 + c 2%nat 1%nat * 4 + c 2%nat 2%nat * 16 + c 2%nat 3%nat * 64) * 0 + (c 3%nat 0%nat * 1 + c 3%nat 1%nat * 4 + c 3%nat 2%nat * 16) * 0 + (c 4%nat 0%nat * 1 + c 4%nat 1%nat * 4) * 0 + (c 5%nat 0%nat * 1) * 0 = 0).
  { etransitivity; [|exact (K 14%nat ltac:(lia))]. cbn [Nat.mul Nat.add Nat.sub lattice nth sumf pow]. ring. }
  assert (P1_4 : (c 0%nat 0%nat * 1 + c 0%nat 1%nat * 4 + c 0%nat 2%nat * 16 + c 0%nat 3%nat * 64 + c 0%nat 4%nat * 256 + c 0%nat 5%nat * 1024) * 1 + (c 1%nat 0%nat * 1 + c 1%nat 1%nat * 4 + c 1%nat 2%nat * 16 + c 1%nat 3%nat * 64 + c 1%nat 4%nat * 256) * 1 + (c 2%nat 0%nat * 1 + c 2%nat 1%nat * 4 + c 2%nat 2%nat * 16 + c 2%nat 3%nat * 64) * 1 + (c 3%nat 0%nat * 1 + c 3%nat 1%nat * 4 + c 3%nat 2%nat * 16) * 1 + (c 4%nat 0%nat * 1 + c 4%nat 1%nat * 4) * 1 + (c 5%nat 0%nat * 1) * 1 = 0).
  { etransitivity; [|exact (K 19%nat ltac:(lia))]. cbn [Nat.mul Nat.add Nat.sub lattice nth sumf pow]. ring. }
  assert (P0_5 : (c 0%nat 0%nat * 1 + c 0%nat 1%nat * 5 + c 0%nat 2%nat * 25 + c 0%nat 3%nat * 125 + c 0%nat 4%nat * 625 + c 0%nat 5%nat * 3125) * 1 + (c 1%nat 0%nat * 1 + c 1%nat 1%nat * 5 + c 1%nat 2%nat * 25 + c 1%nat 3%nat * 125 + c 1%nat 4%nat * 625) * 0 + (c 2%nat 0%nat * 1 + c 2%nat 1%nat * 5 + c 2%nat 2%nat * 25 + c 2%nat 3%nat * 125) * 0 + (c 3%nat 0%nat * 1 + c 3%nat 1%nat * 5 + c 3%nat 2%nat * 25) * 0 + (c 4%nat 0%nat * 1 + c 4%nat 1%nat * 5) * 0 + (c 5%nat 0%nat * 1) * 0 = 0).
  { etransitivity; [|exact (K 20%nat ltac:(lia))]. cbn [Nat.mul Nat.add Nat.sub lattice nth sumf pow]. ring. }
  clear K.
  assert (T0_0 : (c 0%nat 0%nat * 1 + c 0%nat 1%nat * 0 + c 0%nat 2%nat * 0 + c 0%nat 3%nat * 0 + c 0%nat 4%nat * 0 + c 0%nat 5%nat * 0) * 1 + (c 1%nat 0%nat * 1 + c 1%nat 1%nat * 0 + c 1%nat 2%nat * 0 + c 1%nat 3%nat * 0 + c 1%nat 4%nat * 0) * 0 + (c 2%nat 0%nat * 1 + c 2%nat 1%nat * 0 + c 2%nat 2%nat * 0 + c 2%nat 3%nat * 0) * 0 + (c 3%nat 0%nat * 1 + c 3%nat 1%nat * 0 + c 3%nat 2%nat * 0) * 0 + (c 4%nat 0%nat * 1 + c 4%nat 1%nat * 0) * 0 + (c 5%nat 0%nat * 1) * 0 = 0) by (etransitivity; [|exact P0_0];  ring).
  assert (T1_0 : (c 0%nat 0%nat * 1 + c 0%nat 1%nat * 0 + c 0%nat 2%nat * 0 + c 0%nat 3%nat * 0 + c 0%nat 4%nat * 0 + c 0%nat 5%nat * 0) * 1 + (c 1%nat 0%nat * 1 + c 1%nat 1%nat * 0 + c 1%nat 2%nat * 0 + c 1%nat 3%nat * 0 + c 1%nat 4%nat * 0) * 1 + (c 2%nat 0%nat * 1 + c 2%nat 1%nat * 0 + c 2%nat 2%nat * 0 + c 2%nat 3%nat * 0) * 1 + (c 3%nat 0%nat * 1 + c 3%nat 1%nat * 0 + c 3%nat 2%nat * 0) * 1 + (c 4%nat 0%nat * 1 + c 4%nat 1%nat * 0) * 1 + (c 5%nat 0%nat * 1) * 1 = 0) by (etransitivity; [|exact P1_0];  ring).
  assert (T2_0 : (c 0%nat 0%nat * 1 + c 0%nat 1%nat * 0 + c 0%nat 2%nat * 0 + c 0%nat 3%nat * 0 + c 0%nat 4%nat * 0 + c 0%nat 5%nat * 0) * 1 + (c 1%nat 0%nat * 1 + c 1%nat 1%nat * 0 + c 1%nat 2%nat * 0 + c 1%nat 3%nat * 0 + c 1%nat 4%nat * 0) * 2 + (c 2%nat 0%nat * 1 + c 2%nat 1%nat * 0 + c 2%nat 2%nat * 0 + c 2%nat 3%nat * 0) * 4 + (c 3%nat 0%nat * 1 + c 3%nat 1%nat * 0 + c 3%nat 2%nat * 0) * 8 + (c 4%nat 0%nat * 1 + c 4%nat 1%nat * 0) * 16 + (c 5%nat 0%nat * 1) * 32 = 0) by (etransitivity; [|exact P2_0];  ring).
  assert (T3_0 : (c 0%nat 0%nat * 1 + c 0%nat 1%nat * 0 + c 0%nat 2%nat * 0 + c 0%nat 3%nat * 0 + c 0%nat 4%nat * 0 + c 0%nat 5%nat * 0) * 1 + (c 1%nat 0%nat * 1 + c 1%nat 1%nat * 0 + c 1%nat 2%nat * 0 + c 1%nat 3%nat * 0 + c 1%nat 4%nat * 0) * 3 + (c 2%nat 0%nat * 1 + c 2%nat 1%nat * 0 + c 2%nat 2%nat * 0 + c 2%nat 3%nat * 0) * 9 + (c 3%nat 0%nat * 1 + c 3%nat 1%nat * 0 + c 3%nat 2%nat * 0) * 27 + (c 4%nat 0%nat * 1 + c 4%nat 1%nat * 0) * 81 + (c 5%nat 0%nat * 1) * 243 = 0) by (etransitivity; [|exact P3_0];  ring).
  assert (T4_0 : (c 0%nat 0%nat * 1 + c 0%nat 1%nat * 0 + c 0%nat 2%nat * 0 + c 0%nat 3%nat * 0 + c 0%nat 4%nat * 0 + c 0%nat 5%nat * 0) * 1 + (c 1%nat 0%nat * 1 + c 1%nat 1%nat * 0 + c 1%nat 2%nat * 0 + c 1%nat 3%nat * 0 + c 1%nat 4%nat * 0) * 4 + (c 2%nat 0%nat * 1 + c 2%nat 1%nat * 0 + c 2%nat 2%nat * 0 + c 2%nat 3%nat * 0) * 16 + (c 3%nat 0%nat * 1 + c 3%nat 1%nat * 0 + c 3%nat 2%nat * 0) * 64 + (c 4%nat 0%nat * 1 + c 4%nat 1%nat * 0) * 256 + (c 5%nat 0%nat * 1) * 1024 = 0) by (etransitivity; [|exact P4_0];  ring).
  assert (T5_0 : (c 0%nat 0%nat * 1 + c 0%nat 1%nat * 0 + c 0%nat 2%nat * 0 + c 0%nat 3%nat * 0 + c 0%nat 4%nat * 0 + c 0%nat 5%nat * 0) * 1 + (c 1%nat 0%nat * 1 + c 1%nat 1%nat * 0 + c 1%nat 2%nat * 0 + c 1%nat 3%nat * 0 + c 1%nat 4%nat * 0) * 5 + (c 2%nat 0%nat * 1 + c 2%nat 1%nat * 0 + c 2%nat 2%nat * 0 + c 2%nat 3%nat * 0) * 25 + (c 3%nat 0%nat * 1 + c 3%nat 1%nat * 0 + c 3%nat 2%nat * 0) * 125 + (c 4%nat 0%nat * 1 + c 4%nat 1%nat * 0) * 625 + (c 5%nat 0%nat * 1) * 3125 = 0) by (etransitivity; [|exact P5_0];  ring).
  destruct (uni5 (c 0%nat 0%nat * 1 + c 0%nat 1%nat * 0 + c 0%nat 2%nat * 0 + c 0%nat 3%nat * 0 + c 0%nat 4%nat * 0 + c 0%nat 5%nat * 0) (c 1%nat 0%nat * 1 + c 1%nat 1%nat * 0 + c 1%nat 2%nat * 0 + c 1%nat 3%nat * 0 + c 1%nat 4%nat * 0) (c 2%nat 0%nat * 1 + c 2%nat 1%nat * 0 + c 2%nat 2%nat * 0 + c 2%nat 3%nat * 0) (c 3%nat 0%nat * 1 + c 3%nat 1%nat * 0 + c 3%nat 2%nat * 0) (c 4%nat 0%nat * 1 + c 4%nat 1%nat * 0) (c 5%nat 0%nat * 1) T0_0 T1_0 T2_0 T3_0 T4_0 T5_0) as (V0_0 & V1_0 & V2_0 & V3_0 & V4_0 & V5_0).
  assert (Z5_1 : (c 5%nat 0%nat * 1) = 0) by (clear - V5_0; lra).
  assert (T0_1 : (c 0%nat 0%nat * 1 + c 0%nat 1%nat * 1 + c 0%nat 2%nat * 1 + c 0%nat 3%nat * 1 + c 0%nat 4%nat * 1 + c 0%nat 5%nat * 1) * 1 + (c 1%nat 0%nat * 1 + c 1%nat 1%nat * 1 + c 1%nat 2%nat * 1 + c 1%nat 3%nat * 1 + c 1%nat 4%nat * 1) * 0 + (c 2%nat 0%nat * 1 + c 2%nat 1%nat * 1 + c 2%nat 2%nat * 1 + c 2%nat 3%nat * 1) * 0 + (c 3%nat 0%nat * 1 + c 3%nat 1%nat * 1 + c 3%nat 2%nat * 1) * 0 + (c 4%nat 0%nat * 1 + c 4%nat 1%nat * 1) * 0 = 0) by (etransitivity; [|exact P0_1]; rewrite Z5_1; ring).
  assert (T1_1 : (c 0%nat 0%nat * 1 + c 0%nat 1%nat * 1 + c 0%nat 2%nat * 1 + c 0%nat 3%nat * 1 + c 0%nat 4%nat * 1 + c 0%nat 5%nat * 1) * 1 + (c 1%nat 0%nat * 1 + c 1%nat 1%nat * 1 + c 1%nat 2%nat * 1 + c 1%nat 3%nat * 1 + c 1%nat 4%nat * 1) * 1 + (c 2%nat 0%nat * 1 + c 2%nat 1%nat * 1 + c 2%nat 2%nat * 1 + c 2%nat 3%nat * 1) * 1 + (c 3%nat 0%nat * 1 + c 3%nat 1%nat * 1 + c 3%nat 2%nat * 1) * 1 + (c 4%nat 0%nat * 1 + c 4%nat 1%nat * 1) * 1 = 0) by (etransitivity; [|exact P1_1]; rewrite Z5_1; ring).
  assert (T2_1 : (c 0%nat 0%nat * 1 + c 0%nat 1%nat * 1 + c 0%nat 2%nat * 1 + c 0%nat 3%nat * 1 + c 0%nat 4%nat * 1 + c 0%nat 5%nat * 1) * 1 + (c 1%nat 0%nat * 1 + c 1%nat 1%nat * 1 + c 1%nat 2%nat * 1 + c 1%nat 3%nat * 1 + c 1%nat 4%nat * 1) * 2 + (c 2%nat 0%nat * 1 + c 2%nat 1%nat * 1 + c 2%nat 2%nat * 1 + c 2%nat 3%nat * 1) * 4 + (c 3%nat 0%nat * 1 + c 3%nat 1%nat * 1 + c 3%nat 2%nat * 1) * 8 + (c 4%nat 0%nat * 1 + c 4%nat 1%nat * 1) * 16 = 0) by (etransitivity; [|exact P2_1]; rewrite Z5_1; ring).
  assert (T3_1 : (c 0%nat 0%nat * 1 + c 0%nat 1%nat * 1 + c 0%nat 2%nat * 1 + c 0%nat 3%nat * 1 + c 0%nat 4%nat * 1 + c 0%nat 5%nat * 1) * 1 + (c 1%nat 0%nat * 1 + c 1%nat 1%nat * 1 + c 1%nat 2%nat * 1 + c 1%nat 3%nat * 1 + c 1%nat 4%nat * 1) * 3 + (c 2%nat 0%nat * 1 + c 2%nat 1%nat * 1 + c 2%nat 2%nat * 1 + c 2%nat 3%nat * 1) * 9 + (c 3%nat 0%nat * 1 + c 3%nat 1%nat * 1 + c 3%nat 2%nat * 1) * 27 + (c 4%nat 0%nat * 1 + c 4%nat 1%nat * 1) * 81 = 0) by (etransitivity; [|exact P3_1]; rewrite Z5_1; ring).
  assert (T4_1 : (c 0%nat 0%nat * 1 + c 0%nat 1%nat * 1 + c 0%nat 2%nat * 1 + c 0%nat 3%nat * 1 + c 0%nat 4%nat * 1 + c 0%nat 5%nat * 1) * 1 + (c 1%nat 0%nat * 1 + c 1%nat 1%nat * 1 + c 1%nat 2%nat * 1 + c 1%nat 3%nat * 1 + c 1%nat 4%nat * 1) * 4 + (c 2%nat 0%nat * 1 + c 2%nat 1%nat * 1 + c 2%nat 2%nat * 1 + c 2%nat 3%nat * 1) * 16 + (c 3%nat 0%nat * 1 + c 3%nat 1%nat * 1 + c 3%nat 2%nat * 1) * 64 + (c 4%nat 0%nat * 1 + c 4%nat 1%nat * 1) * 256 = 0) by (etransitivity; [|exact P4_1]; rewrite Z5_1; ring).
  destruct (uni4 (c 0%nat 0%nat * 1 + c 0%nat 1%nat * 1 + c 0%nat 2%nat * 1 + c 0%nat 3%nat * 1 + c 0%nat 4%nat * 1 + c 0%nat 5%nat * 1) (c 1%nat 0%nat * 1 + c 1%nat 1%nat * 1 + c 1%nat 2%nat * 1 + c 1%nat 3%nat * 1 + c 1%nat 4%nat * 1) (c 2%nat 0%nat * 1 + c 2%nat 1%nat * 1 + c 2%nat 2%nat * 1 + c 2%nat 3%nat * 1) (c 3%nat 0%nat * 1 + c 3%nat 1%nat * 1 + c 3%nat 2%nat * 1) (c 4%nat 0%nat * 1 + c 4%nat 1%nat * 1) T0_1 T1_1 T2_1 T3_1 T4_1) as (V0_1 & V1_1 & V2_1 & V3_1 & V4_1).
  assert (Z4_2 : (c 4%nat 0%nat * 1 + c 4%nat 1%nat * 2) = 0) by (clear - V4_0 V4_1; lra).
  assert (Z5_2 : (c 5%nat 0%nat * 1) = 0) by (clear - V5_0; lra).
  assert (T0_2 : (c 0%nat 0%nat * 1 + c 0%nat 1%nat * 2 + c 0%nat 2%nat * 4 + c 0%nat 3%nat * 8 + c 0%nat 4%nat * 16 + c 0%nat 5%nat * 32) * 1 + (c 1%nat 0%nat * 1 + c 1%nat 1%nat * 2 + c 1%nat 2%nat * 4 + c 1%nat 3%nat * 8 + c 1%nat 4%nat * 16) * 0 + (c 2%nat 0%nat * 1 + c 2%nat 1%nat * 2 + c 2%nat 2%nat * 4 + c 2%nat 3%nat * 8) * 0 + (c 3%nat 0%nat * 1 + c 3%nat 1%nat * 2 + c 3%nat 2%nat * 4) * 0 = 0) by (etransitivity; [|exact P0_2]; rewrite Z4_2; rewrite Z5_2; ring).
  assert (T1_2 : (c 0%nat 0%nat * 1 + c 0%nat 1%nat * 2 + c 0%nat 2%nat * 4 + c 0%nat 3%nat * 8 + c 0%nat 4%nat * 16 + c 0%nat 5%nat * 32) * 1 + (c 1%nat 0%nat * 1 + c 1%nat 1%nat * 2 + c 1%nat 2%nat * 4 + c 1%nat 3%nat * 8 + c 1%nat 4%nat * 16) * 1 + (c 2%nat 0%nat * 1 + c 2%nat 1%nat * 2 + c 2%nat 2%nat * 4 + c 2%nat 3%nat * 8) * 1 + (c 3%nat 0%nat * 1 + c 3%nat 1%nat * 2 + c 3%nat 2%nat * 4) * 1 = 0) by (etransitivity; [|exact P1_2]; rewrite Z4_2; rewrite Z5_2; ring).
  assert (T2_2 : (c 0%nat 0%nat * 1 + c 0%nat 1%nat * 2 + c 0%nat 2%nat * 4 + c 0%nat 3%nat * 8 + c 0%nat 4%nat * 16 + c 0%nat 5%nat * 32) * 1 + (c 1%nat 0%nat * 1 + c 1%nat 1%nat * 2 + c 1%nat 2%nat * 4 + c 1%nat 3%nat * 8 + c 1%nat 4%nat * 16) * 2 + (c 2%nat 0%nat * 1 + c 2%nat 1%nat * 2 + c 2%nat 2%nat * 4 + c 2%nat 3%nat * 8) * 4 + (c 3%nat 0%nat * 1 + c 3%nat 1%nat * 2 + c 3%nat 2%nat * 4) * 8 = 0) by (etransitivity; [|exact P2_2]; rewrite Z4_2; rewrite Z5_2; ring).
  assert (T3_2 : (c 0%nat 0%nat * 1 + c 0%nat 1%nat * 2 + c 0%nat 2%nat * 4 + c 0%nat 3%nat * 8 + c 0%nat 4%nat * 16 + c 0%nat 5%nat * 32) * 1 + (c 1%nat 0%nat * 1 + c 1%nat 1%nat * 2 + c 1%nat 2%nat * 4 + c 1%nat 3%nat * 8 + c 1%nat 4%nat * 16) * 3 + (c 2%nat 0%nat * 1 + c 2%nat 1%nat * 2 + c 2%nat 2%nat * 4 + c 2%nat 3%nat * 8) * 9 + (c 3%nat 0%nat * 1 + c 3%nat 1%nat * 2 + c 3%nat 2%nat * 4) * 27 = 0) by (etransitivity; [|exact P3_2]; rewrite Z4_2; rewrite Z5_2; ring).
  destruct (uni3 (c 0%nat 0%nat * 1 + c 0%nat 1%nat * 2 + c 0%nat 2%nat * 4 + c 0%nat 3%nat * 8 + c 0%nat 4%nat * 16 + c 0%nat 5%nat * 32) (c 1%nat 0%nat * 1 + c 1%nat 1%nat * 2 + c 1%nat 2%nat * 4 + c 1%nat 3%nat * 8 + c 1%nat 4%nat * 16) (c 2%nat 0%nat * 1 + c 2%nat 1%nat * 2 + c 2%nat 2%nat * 4 + c 2%nat 3%nat * 8) (c 3%nat 0%nat * 1 + c 3%nat 1%nat * 2 + c 3%nat 2%nat * 4) T0_2 T1_2 T2_2 T3_2) as (V0_2 & V1_2 & V2_2 & V3_2).
  assert (Z3_3 : (c 3%nat 0%nat * 1 + c 3%nat 1%nat * 3 + c 3%nat 2%nat * 9) = 0) by (clear - V3_0 V3_1 V3_2; lra).
  assert (Z4_3 : (c 4%nat 0%nat * 1 + c 4%nat 1%nat * 3) = 0) by (clear - V4_0 V4_1; lra).
  assert (Z5_3 : (c 5%nat 0%nat * 1) = 0) by (clear - V5_0; lra).
  assert (T0_3 : (c 0%nat 0%nat * 1 + c 0%nat 1%nat * 3 + c 0%nat 2%nat * 9 + c 0%nat 3%nat * 27 + c 0%nat 4%nat * 81 + c 0%nat 5%nat * 243) * 1 + (c 1%nat 0%nat * 1 + c 1%nat 1%nat * 3 + c 1%nat 2%nat * 9 + c 1%nat 3%nat * 27 + c 1%nat 4%nat * 81) * 0 + (c 2%nat 0%nat * 1 + c 2%nat 1%nat * 3 + c 2%nat 2%nat * 9 + c 2%nat 3%nat * 27) * 0 = 0) by (etransitivity; [|exact P0_3]; rewrite Z3_3; rewrite Z4_3; rewrite Z5_3; ring).
  assert (T1_3 : (c 0%nat 0%nat * 1 + c 0%nat 1%nat * 3 + c 0%nat 2%nat * 9 + c 0%nat 3%nat * 27 + c 0%nat 4%nat * 81 + c 0%nat 5%nat * 243) * 1 + (c 1%nat 0%nat * 1 + c 1%nat 1%nat * 3 + c 1%nat 2%nat * 9 + c 1%nat 3%nat * 27 + c 1%nat 4%nat * 81) * 1 + (c 2%nat 0%nat * 1 + c 2%nat 1%nat * 3 + c 2%nat 2%nat * 9 + c 2%nat 3%nat * 27) * 1 = 0) by (etransitivity; [|exact P1_3]; rewrite Z3_3; rewrite Z4_3; rewrite Z5_3; ring).
  assert (T2_3 : (c 0%nat 0%nat * 1 + c 0%nat 1%nat * 3 + c 0%nat 2%nat * 9 + c 0%nat 3%nat * 27 + c 0%nat 4%nat * 81 + c 0%nat 5%nat * 243) * 1 + (c 1%nat 0%nat * 1 + c 1%nat 1%nat * 3 + c 1%nat 2%nat * 9 + c 1%nat 3%nat * 27 + c 1%nat 4%nat * 81) * 2 + (c 2%nat 0%nat * 1 + c 2%nat 1%nat * 3 + c 2%nat 2%nat * 9 + c 2%nat 3%nat * 27) * 4 = 0) by (etransitivity; [|exact P2_3]; rewrite Z3_3; rewrite Z4_3; rewrite Z5_3; ring).
  destruct (uni2 (c 0%nat 0%nat * 1 + c 0%nat 1%nat * 3 + c 0%nat 2%nat * 9 + c 0%nat 3%nat * 27 + c 0%nat 4%nat * 81 + c 0%nat 5%nat * 243) (c 1%nat 0%nat * 1 + c 1%nat 1%nat * 3 + c 1%nat 2%nat * 9 + c 1%nat 3%nat * 27 + c 1%nat 4%nat * 81) (c 2%nat 0%nat * 1 + c 2%nat 1%nat * 3 + c 2%nat 2%nat * 9 + c 2%nat 3%nat * 27) T0_3 T1_3 T2_3) as (V0_3 & V1_3 & V2_3).
  assert (Z2_4 : (c 2%nat 0%nat * 1 + c 2%nat 1%nat * 4 + c 2%nat 2%nat * 16 + c 2%nat 3%nat * 64) = 0) by (clear - V2_0 V2_1 V2_2 V2_3; lra).
  assert (Z3_4 : (c 3%nat 0%nat * 1 + c 3%nat 1%nat * 4 + c 3%nat 2%nat * 16) = 0) by (clear - V3_0 V3_1 V3_2; lra).
  assert (Z4_4 : (c 4%nat 0%nat * 1 + c 4%nat 1%nat * 4) = 0) by (clear - V4_0 V4_1; lra).
  assert (Z5_4 : (c 5%nat 0%nat * 1) = 0) by (clear - V5_0; lra).
  assert (T0_4 : (c 0%nat 0%nat * 1 + c 0%nat 1%nat * 4 + c 0%nat 2%nat * 16 + c 0%nat 3%nat * 64 + c 0%nat 4%nat * 256 + c 0%nat 5%nat * 1024) * 1 + (c 1%nat 0%nat * 1 + c 1%nat 1%nat * 4 + c 1%nat 2%nat * 16 + c 1%nat 3%nat * 64 + c 1%nat 4%nat * 256) * 0 = 0) by (etransitivity; [|exact P0_4]; rewrite Z2_4; rewrite Z3_4; rewrite Z4_4; rewrite Z5_4; ring).
  assert (T1_4 : (c 0%nat 0%nat * 1 + c 0%nat 1%nat * 4 + c 0%nat 2%nat * 16 + c 0%nat 3%nat * 64 + c 0%nat 4%nat * 256 + c 0%nat 5%nat * 1024) * 1 + (c 1%nat 0%nat * 1 + c 1%nat 1%nat * 4 + c 1%nat 2%nat * 16 + c 1%nat 3%nat * 64 + c 1%nat 4%nat * 256) * 1 = 0) by (etransitivity; [|exact P1_4]; rewrite Z2_4; rewrite Z3_4; rewrite Z4_4; rewrite Z5_4; ring).
  destruct (uni1 (c 0%nat 0%nat * 1 + c 0%nat 1%nat * 4 + c 0%nat 2%nat * 16 + c 0%nat 3%nat * 64 + c 0%nat 4%nat * 256 + c 0%nat 5%nat * 1024) (c 1%nat 0%nat * 1 + c 1%nat 1%nat * 4 + c 1%nat 2%nat * 16 + c 1%nat 3%nat * 64 + c 1%nat 4%nat * 256) T0_4 T1_4) as (V0_4 & V1_4).
  assert (Z1_5 : (c 1%nat 0%nat * 1 + c 1%nat 1%nat * 5 + c 1%nat 2%nat * 25 + c 1%nat 3%nat * 125 + c 1%nat 4%nat * 625) = 0) by (clear - V1_0 V1_1 V1_2 V1_3 V1_4; lra).
  assert (Z2_5 : (c 2%nat 0%nat * 1 + c 2%nat 1%nat * 5 + c 2%nat 2%nat * 25 + c 2%nat 3%nat * 125) = 0) by (clear - V2_0 V2_1 V2_2 V2_3; lra).
  assert (Z3_5 : (c 3%nat 0%nat * 1 + c 3%nat 1%nat * 5 + c 3%nat 2%nat * 25) = 0) by (clear - V3_0 V3_1 V3_2; lra).
  assert (Z4_5 : (c 4%nat 0%nat * 1 + c 4%nat 1%nat * 5) = 0) by (clear - V4_0 V4_1; lra).
  assert (Z5_5 : (c 5%nat 0%nat * 1) = 0) by (clear - V5_0; lra).
  assert (T0_5 : (c 0%nat 0%nat * 1 + c 0%nat 1%nat * 5 + c 0%nat 2%nat * 25 + c 0%nat 3%nat * 125 + c 0%nat 4%nat * 625 + c 0%nat 5%nat * 3125) * 1 = 0) by (etransitivity; [|exact P0_5]; rewrite Z1_5; rewrite Z2_5; rewrite Z3_5; rewrite Z4_5; rewrite Z5_5; ring).
  assert (V0_5 := uni0 (c 0%nat 0%nat * 1 + c 0%nat 1%nat * 5 + c 0%nat 2%nat * 25 + c 0%nat 3%nat * 125 + c 0%nat 4%nat * 625 + c 0%nat 5%nat * 3125) ltac:(rewrite <- T0_5; ring)).
  assert (C0 : c 0%nat 0%nat = 0 /\ c 0%nat 1%nat = 0 /\ c 0%nat 2%nat = 0 /\ c 0%nat 3%nat = 0 /\ c 0%nat 4%nat = 0 /\ c 0%nat 5%nat = 0) by (clear - V0_0 V0_1 V0_2 V0_3 V0_4 V0_5; lra).
  assert (C1 : c 1%nat 0%nat = 0 /\ c 1%nat 1%nat = 0 /\ c 1%nat 2%nat = 0 /\ c 1%nat 3%nat = 0 /\ c 1%nat 4%nat = 0) by (clear - V1_0 V1_1 V1_2 V1_3 V1_4; lra).
  assert (C2 : c 2%nat 0%nat = 0 /\ c 2%nat 1%nat = 0 /\ c 2%nat 2%nat = 0 /\ c 2%nat 3%nat = 0) by (clear - V2_0 V2_1 V2_2 V2_3; lra).
  assert (C3 : c 3%nat 0%nat = 0 /\ c 3%nat 1%nat = 0 /\ c 3%nat 2%nat = 0) by (clear - V3_0 V3_1 V3_2; lra).
  assert (C4 : c 4%nat 0%nat = 0 /\ c 4%nat 1%nat = 0) by (clear - V4_0 V4_1; lra).
  assert (C5 : c 5%nat 0%nat = 0) by (clear - V5_0; lra).
  clear - C0 C1 C2 C3 C4 C5. intros p q Hpq. destruct p as [|[|[|[|[|[|p]]]]]], q as [|[|[|[|[|[|q]]]]]]; try (exfalso; lia); tauto.
Qed.

Example C106_case : let w := World (G := lattice_gen) 7%nat tt [] 0%nat in
  fst (test_grad_polynomial_bases_fd w) = Ok tt /\
  fst (test_exact_polynomial_approximation_1d lstsq_ref w) = Ok tt /\
  fst (test_exact_rbf_approximation_1d solve_ref cholesky_ref fmin_ref w) = Ok tt /\
  fst (test_exact_polynomial_approximation_2d lstsq_ref w) = Ok tt /\
  fst (test_exact_rbf_approximation_2d solve_ref cholesky_ref fmin_ref w) = Ok tt /\
  (let r := fst (test_rbf_grad_2d solve_ref cholesky_ref fmin_ref w) in r = Ok tt \/ r = Err AssertionError) /\
  fst (test_rbf_as solve_ref cholesky_ref fmin_ref w) = Ok tt.
Proof.
  intros w.
  destruct (C106_exact lstsq_ref solve_ref cholesky_ref fmin_ref lattice_gen unit w lstsq_ref_contract lstsq_ref_total solve_ref_contract solve_ref_sound cholesky_ref_contract fmin_ref_ok) as (E1 & E2 & _).
  destruct (C106_gradients lstsq_ref solve_ref cholesky_ref fmin_ref lattice_gen unit w lstsq_ref_contract lstsq_ref_total solve_ref_contract solve_ref_sound cholesky_ref_contract fmin_ref_ok) as (_ & _ & _ & E3).
  destruct E1 as (A1 & A2).
  { exists 0%nat, 1%nat, 3%nat. rewrite !lattice_drawn. cbn [Nat.mul Nat.add lattice nth]. repeat split; lia || lra. }
  destruct E2 as (B1 & B2).
  { intros c0 c1 c2 c3 c4 c5 H. assert (K0 := H 0%nat ltac:(lia)). assert (K1 := H 1%nat ltac:(lia)). assert (K2 := H 2%nat ltac:(lia)). assert (K3 := H 3%nat ltac:(lia)). assert (K4 := H 4%nat ltac:(lia)). assert (K5 := H 5%nat ltac:(lia)). clear H.
    rewrite !lattice_drawn in K0. rewrite !lattice_drawn in K1. rewrite !lattice_drawn in K2. rewrite !lattice_drawn in K3. rewrite !lattice_drawn in K4. rewrite !lattice_drawn in K5.
    cbn [Nat.mul Nat.add lattice nth] in K0, K1, K2, K3, K4, K5. lra. }
  split; [|split; [exact A1|split; [exact A2|split; [exact B1|split; [exact B2|split]]]]].
  - apply C106_basis_differences. intros k Hk. rewrite lattice_drawn. assert (F : Forall (fun r => 0 <= r <= 3) (firstn 20 lattice)) by (cbn [firstn lattice]; repeat (apply Forall_cons; [lra|]); apply Forall_nil).
    assert (LL : (k < List.length (firstn 20 lattice))%nat) by exact Hk.
    assert (K := proj1 (Forall_forall _ _) F _ (nth_In (firstn 20 lattice) 0 LL)). rewrite <- (firstn_skipn 20 lattice), app_nth1 by exact LL. cbv beta in K. lra.
  - apply E3. intros c H.
    assert (K : forall i, (i < 21)%nat -> sumf 6 (fun p => sumf (6 - p) (fun q => c p q * nth (2 * i) lattice 0 ^ p * nth (2 * i + 1) lattice 0 ^ q)) = 0).
    { intros i Hi. etransitivity; [|exact (H i ltac:(lia))]. apply sumf_ext. intros p Hp. apply sumf_ext. intros q Hq. rewrite !lattice_drawn. reflexivity. }
    exact (lattice_quintic c K).
  - apply C106_eigenvalues; auto using solve_ref_contract, solve_ref_sound, cholesky_ref_contract, fmin_ref_ok.
    exists 0%nat, 1%nat, 2%nat. cbn [lattice_gen g_seed]. rewrite !lattice_at. cbn [Nat.mul Nat.add lattice nth]. repeat split; lia || lra.
Qed.
