(** Model of the repository's own unit tests: tests/test_misc.py, test_gradients.py,
    test_simrunners.py, test_designs.py, test_quadrature.py and test_qp_solver.py.

    A test is a program that sees numpy's random state.  It passes when it returns;
    it fails when an assertion does not hold; any other exception is an error.  Decimal
    numbers are the rationals they denote and arithmetic is exact, so that a test
    here says what it would say without rounding. *)
From Coq Require Import String Reals Lra Lia List Arith ZArith Bool.
From Verif Require Import Prelude Py NumArr M_Misc M_SimRunners M_Gradients M_QP M_Subspaces M_Quadrature M_Domains M_Designs.
Import ListNotations.
Open Scope R_scope.

(** raise AssertionError *)
Definition AssertionError : exn := Exc "AssertionError".
Definition assert_ (b : bool) : res unit := if b then Ok tt else Err AssertionError.

(** ** numpy.testing *)

(** a number, as numpy.testing sees it: an array without axes *)
Definition num {A} (x : A) : nd A := ND [] (fun _ => x).
(** entry number k of an array in row-major order; of a number: the number *)
Definition entry {A} (X : nd A) (k : nat) : A := match shape X with [] => at_ X [] | _ => at_ X (unravel (shape X) k) end.
(** assert_array_compare: the shapes must agree unless one operand is a number;
    then every pair of entries must pass *)
Definition compare {A B} (p : A -> B -> bool) (X : nd A) (Y : nd B) : res unit :=
  match shape X, shape Y with
  | [], _ => assert_ (forallb (fun k => p (entry X k) (entry Y k)) (seq 0 (size Y)))
  | _, [] => assert_ (forallb (fun k => p (entry X k) (entry Y k)) (seq 0 (size X)))
  | s, t => if list_eq_dec Nat.eq_dec s t then assert_ (forallb (fun k => p (entry X k) (entry Y k)) (seq 0 (size X)))
            else Err AssertionError
  end.
Definition rltb (x y : R) : bool := if Rlt_dec x y then true else false.
Definition rleb (x y : R) : bool := if Rle_dec x y then true else false.
(** assert_almost_equal(X, Y, decimal=d): abs(X - Y) < 1.5 * 10**(-d); decimal is 7
    if it is not given *)
Definition near_ (d : nat) (x y : R) : bool := rltb (Rabs (y - x)) (15 / 10 * / 10 ^ d).
Definition assert_almost_equal (d : nat) (X Y : nd R) : res unit := compare (near_ d) X Y.
(** the same for floats that may be infinite or NaN: infinities and NaNs must match *)
Definition nearx (d : nat) (x y : xr) : bool :=
  match x, y with Fin x, Fin y => near_ d x y | PInf, PInf | NInf, NInf | NaN, NaN => true | _, _ => false end.
Definition assert_almost_equalx (d : nat) (X Y : nd xr) : res unit := compare (nearx d) X Y.
(** assert_array_less(X, Y): X < Y *)
Definition ltx (x y : xr) : bool :=
  match x, y with Fin x, Fin y => rltb x y | Fin _, PInf | NInf, Fin _ | NInf, PInf => true | _, _ => false end.
Definition assert_array_lessx (X Y : nd xr) : res unit := compare ltx X Y.
(** assert_allclose(X, Y, atol=a): abs(X - Y) <= a + 1e-7 * abs(Y) *)
Definition assert_allclose (a : R) (X Y : nd R) : res unit :=
  compare (fun x y => rleb (Rabs (x - y)) (a + / 10 ^ 7 * Rabs y)) X Y.

(** unittest: assertRaises(E, ...) for the exception given: another exception is
    passed on; none at all is a failure *)
Definition raises_value_error {A} (r : res A) : res unit :=
  match r with Err ValueError => Ok tt | Err e => Err e | Ok _ => Err AssertionError end.
Definition raises_type_error {A} (r : res A) : res unit :=
  match r with Err TypeError => Ok tt | Err e => Err e | Ok _ => Err AssertionError end.

(** literals: np.array([[...], ...]), np.array([...]) *)
Definition rows_of (l : list (list R)) : nd R := mk2 (List.length l) (List.length (nth 0 l [])) (fun i j => nth j (nth i l []) 0).
Definition entries_of (l : list R) : nd R := mk1 (List.length l) (fun i => nth i l 0).
(** X[:,j] as a column *)
Definition column (X : nd R) (j : nat) : nd R := mk2 (nrows X) 1 (fun i _ => X.[i, j]).
(** np.mean(X, axis=0).reshape((m,1)); the test's arrays have rows *)
Definition col_means (X : nd R) : nd R := mk2 (ncols X) 1 (fun j _ => sumf (nrows X) (fun i => X.[i, j]) / INR (nrows X)).

Section Tests.
  Context {G : gen} {U : Type}.
  Notation W := (world G U (nd R)).
  Notation test := (M W unit).
  Notation ufunc := (ufun (U:=U) (nd R) (nd R)).
  Variable eig : nd R -> res (nd R * nd R).
  Variable argsort : list R -> list nat.
  Variable lstsq : nd R -> nd R -> res (nd R).
  Variable cholesky : nd R -> res (nd R).
  Variable solve : nd R -> nd R -> res (nd R).
  Variable B : backend.
  Variable convex_hull : nd R -> res (nd R).

  (** ** tests/test_misc.py *)

  (** lines 7-19; np.hstack of three columns *)
  Definition test_bounded_normalizer : test :=
    dom a <- uniform2 (-4) 7 10 1; dom b <- uniform2 4 6 10 1; dom c <- uniform2 2 3 10 1;
    dom ab <- mlift (hstack a b); dom XX <- mlift (hstack ab c);
    let XX := amap Fin XX in
    dom bn <- mlift (bounded_init (amap Fin (entries_of [-4; 4; 2])) (amap Fin (entries_of [7; 6; 3])));
    dom X0 <- mlift (bounded_normalize bn XX);
    dom X1 <- mlift (bounded_unnormalize bn X0);
    dom _ <- mlift (assert_almost_equalx 7 XX X1);
    dom _ <- mlift (assert_array_lessx X0 (num (Fin 1)));
    mlift (assert_array_lessx (amap xneg X0) (num (Fin 1))).

  (** np.random.normal(loc, scale, size=(r,c)) *)
  Definition normal2_at (loc scale : R) (r c : nat) : M W (nd R) :=
    dom X <- normal2 r c; mret (amap (fun x => loc + scale * x) X).

  (** lines 21-34 *)
  Definition test_unbounded_normalizer : test :=
    dom a <- normal2_at (-4) 7 100 1; dom b <- normal2_at 4 6 100 1; dom c <- normal2_at 2 3 100 1;
    dom ab <- mlift (hstack a b); dom XX <- mlift (hstack ab c);
    let C := mk2 3 3 (fun i j => if Nat.eqb i j then nth i [7 ^ 2; 6 ^ 2; 3 ^ 2] 0 else 0) in
    dom mu <- mlift (reshape [3; 1]%nat (entries_of [-4; 4; 2]));
    dom un <- mlift (unbounded_init cholesky mu C);
    dom X0 <- mlift (unbounded_normalize solve un XX);
    dom X1 <- mlift (unbounded_unnormalize un X0);
    dom _ <- mlift (assert_almost_equal 7 XX X1);
    mlift (assert_allclose 1 (col_means X0) (zeros2 3 1)).

  (** lines 36-37 *)
  Definition test_process_inputs_bad_inputs : test :=
    mlift (raises_value_error (process_inputs (entries_of [1; 1; -1]))).

  (** lines 39-44 *)
  Definition test_process_inputs : test :=
    dom X0 <- uniform2 (-1) 1 10 3;
    dom (X, M, m) <- mlift (process_inputs X0);
    dom _ <- mlift (assert_almost_equal 7 X X0);
    dom _ <- mlift (assert_almost_equal 7 (num (INR M)) (num 10));
    mlift (assert_almost_equal 7 (num (INR m)) (num 3)).

  (** lines 46-51; the results are columns *)
  Definition test_conditional_expectations : test :=
    dom (E, V) <- mlift (conditional_expectations [2/10; 2/10; 1; 2] [0; 0; 1; 1]%nat);
    let col := fun l => mk2 (List.length l) 1 (fun i _ => nth i l NaN) in
    dom _ <- mlift (assert_almost_equalx 7 (col E) (amap Fin (rows_of [[2/10]; [15/10]])));
    mlift (assert_almost_equalx 7 (col V) (amap Fin (rows_of [[0]; [25/100]]))).

  (** ** tests/test_gradients.py *)

  (** np.tile(np.array([-5.0, 4.0]), (M,1)) *)
  Definition tiled (M : nat) : nd R := mk2 M 2 (fun _ j => nth j [-5; 4] 0).

  (** lines 9-25.  f has one axis in the test; here it is a column, which
      local_linear_gradients treats the same way: it takes entries of f, multiplies
      them by a number and hands them to lstsq. *)
  Definition test_local_linear_gradients : test :=
    dom _ <- seed 42;
    dom X <- uniform2 (-1) 1 200 2;
    let f := mk2 200 1 (fun i _ => 2 - 5 * X.[i, 0%nat] + 4 * X.[i, 1%nat]) in
    dom df <- local_linear_gradients argsort lstsq X f None None;
    dom _ <- mlift (assert_almost_equal 9 df (tiled (nrows df)));
    dom df <- local_linear_gradients argsort lstsq X f (Some (IsA 8%Z)) None;
    dom _ <- mlift (assert_almost_equal 9 df (tiled (nrows df)));
    let f := mk2 200 1 (fun i _ => 2 - sin (X.[i, 0%nat]) + cos (X.[i, 1%nat])) in
    dom _ <- seed 1234;
    dom df <- local_linear_gradients argsort lstsq X f None None;
    mret tt.

  (** lines 27-37; h is 1e-6, the default *)
  Definition myfun : ufunc := fun x u => (Ok (num (2 - 5 * x.[0%nat, 0%nat] + 4 * x.[0%nat, 1%nat])), u).
  Definition test_finite_difference_gradients : test :=
    dom _ <- seed 42;
    dom X <- uniform2 (-1) 1 10 2;
    dom df <- finite_difference_gradients X (IsA myfun) (/ 10 ^ 6);
    mlift (assert_almost_equal 6 df (tiled (nrows df))).

  (** ** tests/test_simrunners.py *)

  (** lines 6-19: 0.5*np.dot(x, x.T) and three gradients; x is a row *)
  Definition half_square : ufunc := fun x u => (do p <- mdot x (tr x); Ok (amap (Rmult (5/10)) p), u).
  Definition dfun1 : ufunc := fun x u => (reshape [size x; 1%nat] x, u).
  Definition dfun2 : ufunc := fun x u => (reshape [1%nat; size x] x, u).
  Definition dfun3 : ufunc := fun x u => (reshape [size x] x, u).
  Definition X3 : nd R := rows_of [[0; 1]; [1; 0]; [0; 0]].

  (** lines 23-28 *)
  Definition test_simulation_runner : test :=
    dom sr <- mlift (SimulationRunner_init (IsA half_square));
    dom f <- sim_run sr X3;
    mlift (assert_almost_equal 7 f (rows_of [[5/10]; [5/10]; [0]])).
  (** lines 30-34, 36-40 and 42-46 *)
  Definition test_simulation_grad_runner (dfun : ufunc) : test :=
    dom sgr <- mlift (SimulationGradientRunner_init (IsA dfun));
    dom df <- simgrad_run sgr X3;
    mlift (assert_almost_equal 7 df X3).

  (** ** tests/test_designs.py *)

  Definition square : nd R := rows_of [[-1; -1]; [1; -1]; [-1; 1]; [1; 1]].

  (** lines 8-11 *)
  Definition test_interval_design : test :=
    dom y <- mlift (interval_design (-1) 1 3);
    mlift (assert_almost_equal 7 y (rows_of [[-5/10]; [0]; [5/10]])).
  (** lines 13-16 *)
  Definition test_maximin_design : test :=
    dom Y <- maximin_design B convex_hull square 1;
    mlift (assert_almost_equal 4 Y (zeros2 1 2)).
  (** lines 18-24 *)
  Definition test_maximin_design_random_state : test :=
    dom _ <- seed 99; dom Y1 <- maximin_design B convex_hull square 3;
    dom _ <- seed 999; dom Y2 <- maximin_design B convex_hull square 3;
    mlift (assert_almost_equal 6 Y1 Y2).
  (** lines 26-30 *)
  Definition test_maximin_design_repeatable : test :=
    dom Y1 <- maximin_design B convex_hull square 10;
    dom Y2 <- maximin_design B convex_hull square 10;
    mlift (assert_almost_equal 7 Y1 Y2).
  (** lines 32-35 and 37-40 *)
  Definition test_gauss_hermite_design_1 : test :=
    dom Y <- mlift (gauss_hermite_design eig argsort (NList [1%Z]));
    mlift (assert_almost_equal 7 Y (rows_of [[0]])).
  Definition test_gauss_hermite_design_2 : test :=
    dom Y <- mlift (gauss_hermite_design eig argsort (NList [1; 1]%Z));
    mlift (assert_almost_equal 7 Y (rows_of [[0; 0]])).
  (** lines 42-54: five times, ten normal numbers y0; y0p is y0 with h = 1e-6 added to entry j *)
  Definition test_gradient_with_finite_difference : test :=
    dom _ <- mmap (fun _ : nat =>
      dom l <- repeatM 10 draw_normal;
      let y0 := entries_of l in
      dom f0 <- mlift (maximin_obj square y0);
      dom df0 <- mlift (maximin_grad square y0);
      dom _ <- mmap (fun j =>
        dom f0p <- mlift (maximin_obj square (mk1 10 (fun q => if Nat.eqb q j then y0.[q] + / 10 ^ 6 else y0.[q])));
        mlift (assert_almost_equal 5 (num (df0.[j])) (num ((f0p - f0) / / 10 ^ 6)))) (seq 0 10);
      mret tt) (seq 0 5);
    mret tt.

  (** ** tests/test_quadrature.py *)

  (** lines 8-12 *)
  Definition test_r_hermite_type_error : test := mlift (raises_type_error (r_hermite NotA)).
  Definition test_r_hermite_0 : test := mlift (raises_value_error (r_hermite (IsA 0%Z))).
  (** lines 14-27: the results are arrays *)
  Definition test_r_hermite (N : Z) (v0 : list (list R)) : test :=
    dom v <- mlift (r_hermite (IsA N)); mlift (assert_almost_equal 7 v (rows_of v0)).
  Definition test_r_hermite_1 := test_r_hermite 1 [[0; 1]].
  Definition test_r_hermite_2 := test_r_hermite 2 [[0; 1]; [0; 1]; [0; 2]].
  Definition test_r_hermite_5 := test_r_hermite 5 [[0; 1]; [0; 1]; [0; 2]; [0; 3]; [0; 4]; [0; 5]].
  (** lines 29-36 *)
  Definition test_jacobi_matrix_dimension (a : nd R) : test := mlift (raises_value_error (jacobi_matrix a)).
  (** lines 38-44 *)
  Definition test_jacobi_matrix_one_row (a : R) : test :=
    dom J <- mlift (jacobi_matrix (rows_of [[a; 1]])); mlift (assert_almost_equal 7 J (num a)).
  (** lines 46-47 *)
  Definition test_jacobi_matrix_5 : test :=
    dom ab <- mlift (r_hermite (IsA 5%Z)); dom _ <- mlift (jacobi_matrix ab); mret tt.
  (** lines 49-50, 52-62, 64-65 *)
  Definition test_gh1d_7pts : test := dom (p, w) <- mlift (gh1d eig argsort 7); mret tt.
  Definition test_gauss_hermite (N : nodes_arg) : test := dom (p, w) <- mlift (gauss_hermite eig argsort N); mret tt.
  Definition test_gauss_hermite_type_error : test := mlift (raises_type_error (gauss_hermite eig argsort NOther)).

  (** ** tests/test_qp_solver.py; the solver is the default "GUROBI" in lines 7-47, "SCIPY" in 49-89 *)

  (** lines 7-15 and 49-57 *)
  Definition test_linear_program_ineq (solver : string) : test :=
    let c := ones2 2 1 in
    let A := rows_of [[1; 0]; [0; 1]; [1; 1]] in
    let b := rows_of [[1/10]; [1/10]; [1/10]] in
    dom x <- linear_program_ineq B (qp_init B solver) c A b;
    mlift (assert_almost_equal 7 x (rows_of [[1/10]; [1/10]])).
  (** lines 17-26 and 59-68 *)
  Definition test_linear_program_eq (solver : string) : test :=
    let c := ones2 5 1 in
    let A := rows_of [[2; 1; 0; 0; 0]; [0; 0; 2; 1; 0]] in
    let b := rows_of [[5/10]; [5/10]] in
    dom x <- linear_program_eq B (qp_init B solver) c A b (amap Ropp (ones2 5 1)) (ones2 5 1);
    mlift (assert_almost_equal 7 x (rows_of [[75/100]; [-1]; [75/100]; [-1]; [-1]])).
  (** lines 28-36 and 70-78 *)
  Definition test_quadratic_program_bnd (solver : string) : test :=
    dom x <- quadratic_program_bnd B (qp_init B solver) (ones2 5 1) (eye 5) (amap Ropp (ones2 5 1)) (ones2 5 1);
    mlift (assert_almost_equal 7 x (amap (Rmult (-5/10)) (ones2 5 1))).
  (** lines 38-47 and 80-89 *)
  Definition test_quadratic_program_ineq (solver : string) : test :=
    let A := rows_of [[1; 0; 0; 0; 0]; [0; 1; 0; 0; 0]] in
    let b := rows_of [[-1]; [-1]] in
    dom x <- quadratic_program_ineq B (qp_init B solver) (ones2 5 1) (eye 5) A b;
    mlift (assert_almost_equal 7 x (amap (Rmult (-5/10)) (ones2 5 1))).
  (** lines 91-92: the attribute is all there is *)
  Definition test_bad_solver : test := let gs := qp_init B "CVXOPT" in mret tt.
End Tests.
