(** Model of the repository's own unit tests tests/test_response_surfaces.py.

    Printing is left out: what the tests print cannot fail.  Arrays with one axis that are
    passed as length scales, eigenvalues or noise are columns here; the code flattens or
    reshapes them before use. *)
From Coq Require Import String Reals Lra Lia List Arith ZArith Bool.
From Verif Require Import Prelude Py NumArr M_Misc M_RespSurf M_Subspaces M_Domains M_Tests.
Import ListNotations.
Open Scope R_scope.

(** e = 1e-6 *)
Definition h6 : R := / 10 ^ 6.
(** Y = X.copy(); Y[:,k] += e *)
Definition nudge (X : nd R) (k : nat) : nd R := mk2 (nrows X) (ncols X) (fun i j => if Nat.eqb j k then X.[i, j] + h6 else X.[i, j]).
(** D[:,:,k] *)
Definition face (D : nd R) (k : nat) : nd R := mk2 (nrows D) (ncols D) (fun i j => D.[i, j, k]).
(** (B1 - B0)/e *)
Definition quotient (B1 B0 : nd R) : res (nd R) := do d <- bcast2 Rminus B1 B0; Ok (amap (fun x => x / h6) d).
(** the gradient that predict(..., compgrad=True) returns *)
Definition need_grad (o : option (nd R)) : res (nd R) := match o with Some d => Ok d | None => Err TypeError end.
(** a function of the entries of each row, as a column *)
Definition of_row (X : nd R) (g : R -> R -> R) : nd R := mk2 (nrows X) 1 (fun i _ => g (X.[i, 0%nat]) (X.[i, 1%nat])).
(** a function of the entries of a column *)
Definition of_col (X : nd R) (g : R -> R) : nd R := mk2 (nrows X) 1 (fun i _ => g (X.[i, 0%nat])).
(** np.linspace(-1.0, 1.0, p) for p > 1 *)
Definition line (p i : nat) : R := -1 + 2 * INR i / INR (p - 1).
(** np.linspace(-1.0, 1.0, p).reshape((p,1)) *)
Definition line_col (p : nat) : nd R := mk2 p 1 (fun i _ => line p i).
(** xx = np.linspace(-1.0, 1.0, p); X1, X2 = np.meshgrid(xx, xx);
    np.hstack((X1.reshape((p*p,1)), X2.reshape((p*p,1)))) *)
Definition mesh (p : nat) : nd R := mk2 (p * p) 2 (fun i j => if Nat.eqb j 0 then line p (i mod p) else line p (i / p)).

Section Tests.
  Context {G : gen} {U : Type}.
  Notation W := (world G U (nd R)).
  Notation test := (M W unit).
  Variable lstsq : nd R -> nd R -> res (nd R).
  Variable solve : nd R -> nd R -> res (nd R).
  Variable cholesky : nd R -> res (nd R).
  Variable fminbound : (R -> res R) -> res R.

  (** lines 8-9 *)
  Definition test_index_set : test := dom _ <- mlift (index_set 7 3); mret tt.
  (** lines 11-14 *)
  Definition test_polynomial_bases : test :=
    dom _ <- seed 42; dom X <- normal2 10 2; dom _ <- mlift (polynomial_bases X 3); mret tt.
  (** lines 16-19 *)
  Definition test_grad_polynomial_bases : test :=
    dom _ <- seed 42; dom X <- normal2 10 2; dom _ <- mlift (grad_polynomial_bases X 3); mret tt.
  (** lines 21-39 *)
  Definition test_grad_polynomial_bases_fd : test :=
    dom _ <- seed 42; dom X0 <- normal2 10 2;
    dom dB <- mlift (grad_polynomial_bases X0 3);
    dom (B0, _) <- mlift (polynomial_bases X0 3);
    dom (B1, _) <- mlift (polynomial_bases (nudge X0 0) 3);
    dom dB1 <- mlift (quotient B1 B0);
    dom _ <- mlift (assert_almost_equal 5 (face dB 0) dB1);
    dom (B2, _) <- mlift (polynomial_bases (nudge X0 1) 3);
    dom dB2 <- mlift (quotient B2 B0);
    mlift (assert_almost_equal 5 (face dB 1) dB2).

  (** np.array([1.0,1.0]) *)
  Definition ones2 : nd R := mk2 2 1 (fun _ _ => 1).
  (** lines 41-46 *)
  Definition test_exponential_squared : test :=
    dom _ <- seed 42; dom X <- normal2 10 2; dom _ <- mlift (exponential_squared X X 1 ones2); mret tt.
  (** lines 48-68 *)
  Definition test_grad_exponential_squared_fd : test :=
    dom _ <- seed 42; dom X <- normal2 10 2;
    dom C0 <- mlift (exponential_squared X X 1 ones2);
    dom dC <- mlift (grad_exponential_squared X X 1 ones2);
    dom C1 <- mlift (exponential_squared X (nudge X 0) 1 ones2);
    dom dC1 <- mlift (quotient C1 C0);
    dom _ <- mlift (assert_almost_equal 5 (face dC 0) dC1);
    dom C2 <- mlift (exponential_squared X (nudge X 1) 1 ones2);
    dom dC2 <- mlift (quotient C2 C0);
    mlift (assert_almost_equal 5 (face dC 1) dC2).
  (** lines 70-75 *)
  Definition test_grad_exponential_squared : test :=
    dom _ <- seed 42; dom X <- normal2 10 2; dom _ <- mlift (grad_exponential_squared X X 1 ones2); mret tt.

  (** ** exact data.  The tests of the two classes have the same text but for the class:
      [S] is the class's trained state, [train N X f] and [predict] its methods *)
  Section Exact.
    Context {S : Type}.
    Variable train : nat -> nd R -> nd R -> res S.
    Variable predict : S -> nd R -> bool -> res (nd R * option (nd R)).

    (** lines 82-94 and 96-108 (160-172 and 173-185): one half of the test in one variable, with the polynomial g,
        its derivative g' and its degree N; the test points are drawn after seeding again *)
    Definition exact_1d_part (N : nat) (g g' : R -> R) (X_1d : nd R) : test :=
      dom s <- mlift (train N X_1d (of_col X_1d g));
      dom _ <- seed 42; dom X <- normal2 10 2;
      let Xt := column X 0 in
      dom (f, df) <- mlift (predict s Xt true);
      dom df <- mlift (need_grad df);
      dom _ <- mlift (assert_almost_equal 10 f (of_col Xt g));
      mlift (assert_almost_equal 10 df (of_col Xt g')).
    (** lines 77-108 (155-185) *)
    Definition test_exact_1d : test :=
      dom _ <- seed 42; dom X <- normal2 10 2;
      let X_1d := column X 0 in
      dom _ <- exact_1d_part 1 (fun x => 2 + 5 * x) (fun _ => 5) X_1d;
      exact_1d_part 2 (fun x => 2 - 3 * x + 5 * x * x) (fun x => -3 + 10 * x) X_1d.

    (** lines 114-126 and 128-142 (191-203 and 205-219): one half of the test in two variables, with the partial
        derivatives g1 and g2; fresh test points *)
    Definition exact_2d_part (N : nat) (g g1 g2 : R -> R -> R) (X_train : nd R) : test :=
      dom s <- mlift (train N X_train (of_row X_train g));
      dom Xt <- normal2 10 2;
      dom (f, df) <- mlift (predict s Xt true);
      dom df <- mlift (need_grad df);
      dom _ <- mlift (assert_almost_equal 10 f (of_row Xt g));
      dom _ <- mlift (assert_almost_equal 10 (column df 0) (of_row Xt g1));
      mlift (assert_almost_equal 10 (column df 1) (of_row Xt g2)).
    (** lines 111-142 (188-219) *)
    Definition test_exact_2d : test :=
      dom _ <- seed 42; dom X <- normal2 10 2;
      dom _ <- exact_2d_part 1 (fun x y => 2 + 5 * x - 4 * y) (fun _ _ => 5) (fun _ _ => -4) X;
      exact_2d_part 2 (fun x y => 2 - 3 * y + 5 * x * y) (fun _ y => 5 * y) (fun x _ => -3 + 5 * x) X.

    (** lines 221-240 (271-290): gradients against finite differences in one variable; N is the
        degree *)
    Definition test_grad_1d (N : nat) : test :=
      dom _ <- seed 42; dom X <- normal2 10 2;
      let X_1d := column X 0 in
      dom s <- mlift (train N X_1d (of_col X_1d cos));
      dom X <- normal2 10 2;
      let Xt := column X 0 in
      dom (f0, df0) <- mlift (predict s Xt true);
      dom df0 <- mlift (need_grad df0);
      dom (f1, _) <- mlift (predict s (nudge Xt 0) false);
      dom fd <- mlift (quotient f1 f0);
      mlift (assert_almost_equal 5 df0 fd).
    (** lines 243-268 (293-318): the same in two variables *)
    Definition test_grad_2d (N : nat) : test :=
      dom _ <- seed 42; dom X <- normal2 200 2;
      dom s <- mlift (train N X (of_row X (fun x y => cos x * sin y)));
      dom Xt <- normal2 10 2;
      dom (f0, df0) <- mlift (predict s Xt true);
      dom df0 <- mlift (need_grad df0);
      dom (f1, _) <- mlift (predict s (nudge Xt 0) false);
      dom fd1 <- mlift (quotient f1 f0);
      dom _ <- mlift (assert_almost_equal 5 (column df0 0) fd1);
      dom (f1, _) <- mlift (predict s (nudge Xt 1) false);
      dom fd2 <- mlift (quotient f1 f0);
      mlift (assert_almost_equal 5 (column df0 1) fd2).

    (** the body of the loops of lines 331-340 and 374-387: train on p equally spaced points,
        predict, subtract the true values *)
    Definition converge_1d (N p : nat) (Xt : nd R) : test :=
      dom s <- mlift (train N (line_col p) (of_col (line_col p) (fun x => sin (PI * x))));
      dom (f, df) <- mlift (predict s Xt true);
      dom df <- mlift (need_grad df);
      dom _ <- mlift (bcast2 Rminus f (of_col Xt (fun x => sin (PI * x))));
      dom _ <- mlift (bcast2 Rminus df (of_col Xt (fun x => PI * cos (PI * x))));
      mret tt.
    (** the body of the loops of lines 354-365 and 396-412: train on a p-by-p mesh *)
    Definition converge_2d (N p : nat) (Xt : nd R) : test :=
      dom s <- mlift (train N (mesh p) (of_row (mesh p) (fun x y => sin (PI * x) * cos (PI * y))));
      dom (f, df) <- mlift (predict s Xt true);
      dom df <- mlift (need_grad df);
      dom _ <- mlift (bcast2 Rminus f (of_row Xt (fun x y => sin (PI * x) * cos (PI * y))));
      dom _ <- mlift (bcast2 Rminus (column df 0) (of_row Xt (fun x y => cos (PI * y) * PI * cos (PI * x))));
      dom _ <- mlift (bcast2 Rminus (column df 1) (of_row Xt (fun x y => - sin (PI * x) * PI * sin (PI * y))));
      mret tt.
  End Exact.

  (** for x in l: body(x) *)
  Fixpoint each (body : nat -> test) (l : list nat) : test :=
    match l with [] => mret tt | x :: l => dom _ <- body x; each body l end.

  Definition ptrain (N : nat) (X f : nd R) : res poly := poly_train lstsq N X f None.
  Definition rtrain (N : nat) (X f : nd R) : res rbf := rbf_train solve cholesky fminbound N X f None None.

  Definition test_exact_polynomial_approximation_1d : test := test_exact_1d ptrain poly_predict.
  Definition test_exact_polynomial_approximation_2d : test := test_exact_2d ptrain poly_predict.
  Definition test_exact_rbf_approximation_1d : test := test_exact_1d rtrain rbf_predict.
  Definition test_exact_rbf_approximation_2d : test := test_exact_2d rtrain rbf_predict.
  (** lines 145-152 *)
  Definition test_exact_polynomial_approximation_3d : test :=
    dom _ <- seed 42; dom X <- normal2 20 3;
    let f := mk2 20 1 (fun i _ => 2 + 5 * X.[i, 0%nat] - 4 * X.[i, 1%nat] + 2 * X.[i, 2%nat]) in
    dom _ <- mlift (ptrain 3 X f); mret tt.
  Definition test_polynomial_grad_1d : test := test_grad_1d ptrain poly_predict 7.
  Definition test_polynomial_grad_2d : test := test_grad_2d ptrain poly_predict 5.
  Definition test_rbf_grad_1d : test := test_grad_1d rtrain rbf_predict 0.
  Definition test_rbf_grad_2d : test := test_grad_2d rtrain rbf_predict 5.

  (** lines 321-340 *)
  Definition test_poly_order_1d : test :=
    dom _ <- seed 42; dom X <- uniform2 (-1) 1 50 2;
    each (fun N => converge_1d ptrain poly_predict N 201 (column X 0)) (seq 3 7).
  (** lines 343-365 *)
  Definition test_poly_order_2d : test :=
    dom _ <- seed 42; dom X <- uniform2 (-1) 1 50 2;
    each (fun N => converge_2d ptrain poly_predict N 21 X) (seq 3 7).
  (** lines 368-387 *)
  Definition test_rbf_points_1d : test :=
    dom _ <- seed 42; dom X <- uniform2 (-1) 1 50 2;
    each (fun N => converge_1d rtrain rbf_predict 0 (2 ^ N + 1) (column X 0)) (seq 1 8).
  (** lines 390-412 *)
  Definition test_rbf_points_2d : test :=
    dom _ <- seed 42; dom X <- uniform2 (-1) 1 50 2;
    each (fun N => converge_2d rtrain rbf_predict 2 (2 ^ N + 1) X) (seq 1 4).
  (** lines 414-428 *)
  Definition test_rbf_as : test :=
    dom _ <- seed 42; dom Xt <- uniform2 (-1) 1 50 2;
    dom _ <- seed 42; dom X <- uniform2 (-1) 1 200 2;
    let f := of_row X (fun x y => 2 + 5 * x - 4 * y + 2 * x * y) in
    let e := mk2 5 1 (fun i _ => nth i [1; 5/10; 1/10; 5/100; 1/100] 0) in
    dom s <- mlift (rbf_train solve cholesky fminbound 1 X f None (Some e));
    dom _ <- mlift (rbf_predict s Xt true);
    let v := mk1 200 (fun _ => 1 / 10000) in
    dom s <- mlift (rbf_train solve cholesky fminbound 1 X f (Some v) (Some e));
    dom _ <- mlift (rbf_predict s Xt true);
    mret tt.
End Tests.
