(** Model of the repository's own unit tests tests/test_as_response_surfaces.py,
    tests/test_as_integrals.py and tests/test_plotters.py. *)
From Coq Require Import String Reals Lra Lia List Arith ZArith Bool.
From Verif Require Import Prelude Py NumArr M_Misc M_SimRunners M_Gradients M_QP M_RespSurf M_Subspaces M_Quadrature M_Domains M_Designs M_ASRS M_Integrals M_Tests M_TestsSpace M_Plotters.
Import ListNotations.
Open Scope R_scope.

(** the matrix of quad_fun; test_as_response_surfaces.py 13-15, test_as_integrals.py 13-15 *)
Definition quad_matrix : nd R := rows_of
  [[ 2406659045776698 / 10 ^ 16; - (3159904335007421 / 10 ^ 16); - (1746908591702878 / 10 ^ 16)];
   [- (3159904335007421 / 10 ^ 16);  5532215729009683 / 10 ^ 16;  3777995408101305 / 10 ^ 16];
   [- (1746908591702878 / 10 ^ 16);  3777995408101305 / 10 ^ 16;  3161125225213613 / 10 ^ 16]].

Section Tests.
  Context {G : gen} {U : Type}.
  Notation W := (world G U (nd R)).
  Notation test := (Py.M W unit).
  Notation ufunc := (ufun (U:=U) (nd R) (nd R)).
  Variable eigh : nd R -> res (nd R * nd R).
  Variable argsort : list R -> list nat.
  Variable lstsq : nd R -> nd R -> res (nd R).
  Variable norm2 : nd R -> R.
  Variable det : nd R -> R.
  Variable B : backend.
  Variable convex_hull : nd R -> res (nd R).
  Variable solve : nd R -> nd R -> res (nd R).
  Variable cholesky : nd R -> res (nd R).
  Variable fminbound : (R -> res R) -> res R.
  Variable eig : nd R -> res (nd R * nd R).
  Variable delaunay : nd R -> res (list (list nat) * (nd R -> list Z)).

  (** ** tests/test_as_response_surfaces.py *)

  (** lines 12-17: 0.5 * x^T A x, where x is reshaped to a column of three *)
  Definition quad_fun : ufunc := fun x u =>
    (do c <- reshape [3; 1]%nat x; do p <- mdot quad_matrix c; do q <- mdot (tr c) p; Ok (amap (Rmult (5/10)) q), u).

  (** the first lines of the tests: np.random.seed(42), then X0 (uniform on the cube in the
      bounded tests, normal in the others), f0 and df0 with K rows *)
  Definition points (bnd : bool) (K : nat) : Py.M W (nd R) := if bnd then uniform2 (-1) 1 K 3 else normal2 K 3.
  Definition draw_data (bnd : bool) (K : nat) : Py.M W (nd R * nd R * nd R) :=
    dom _ <- seed 42;
    dom X0 <- points bnd K; dom f0 <- normal2 K 1; dom df0 <- normal2 K 3;
    mret (X0, f0, df0).
  (** sub = ss.Subspaces(); sub.compute(df=df0); and in some tests sub.partition(n) *)
  Definition subspace_of (df0 : nd R) (part : option Z) : Py.M W subspaces :=
    on_new (dom _ <- ss_compute eigh argsort lstsq norm2 det None None (Some df0) None "AS" "EVG" 0;
            match part with None => mret tt | Some n => ss_partition (IsA n) end).
  (** avd and avm, both Unbounded or both Bounded *)
  Definition map_of (bnd : bool) (sub : subspaces) : Py.M W avmap :=
    if bnd then dom avd <- bounded_domain convex_hull (IsA sub); mret (AVM MBounded avd)
    else dom avd <- mlift (unbounded_domain (IsA sub)); mret (AVM MUnbounded avd).
  (** rs.PolynomialApproximation() *)
  Definition pr : respsurf := RSPoly 2 None.

  (** lines 25-33: only the constructors *)
  Definition test_rs_0 : test :=
    dom _ <- seed 42;
    dom df0 <- normal2 10 2;
    dom sub <- subspace_of df0 None;
    dom avm <- map_of false sub;
    dom _ <- mlift (asrs_init (IsA avm) None); mret tt.

  (** asrs.train_with_data(X0, f0); XX; asrs.predict(XX, compgrad=True).  [part]: the argument of
      sub.partition, if it is called; [surf]: the argument respsurf; [XX]: how XX is drawn *)
  Definition data_test (bnd : bool) (K : nat) (part : option Z) (surf : option respsurf) (XX : Py.M W (nd R)) : test :=
    dom (X0, f0, df0) <- draw_data bnd K;
    dom sub <- subspace_of df0 part;
    dom avm <- map_of bnd sub;
    dom s <- mlift (asrs_init (IsA avm) surf);
    dom s <- mlift (train_with_data solve cholesky fminbound lstsq s X0 f0 None);
    dom XX <- XX;
    dom _ <- mlift (asrs_predict s XX true); mret tt.
  (** lines 35-51 *)
  Definition test_rs_data_train_gp_ubnd : test := data_test false 50 None None (dom _ <- seed 43; normal2 10 3).
  (** lines 53-69 *)
  Definition test_rs_data_train_pr_ubnd : test := data_test false 50 None (Some pr) (normal2 10 3).
  (** lines 71-87; ten rows only *)
  Definition test_rs_data_train_gp_bnd : test := data_test true 10 None None (dom _ <- seed 43; uniform2 (-1) 1 10 3).
  (** lines 89-104 *)
  Definition test_rs_data_train_pr_bnd : test := data_test true 50 None (Some pr) (uniform2 (-1) 1 10 3).
  (** lines 107-123 *)
  Definition test_rs_data_train_gp_ubnd_2d : test := data_test false 50 (Some 2%Z) None (normal2 10 3).
  (** lines 125-142 *)
  Definition test_rs_data_train_pr_ubnd_2d : test := data_test false 50 (Some 2%Z) (Some pr) (normal2 10 3).
  (** lines 144-160; XX is normal although the domain is bounded *)
  Definition test_rs_data_train_gp_bnd_2d : test := data_test true 50 (Some 2%Z) None (normal2 10 3).
  (** lines 162-179; likewise *)
  Definition test_rs_data_train_pr_bnd_2d : test := data_test true 50 (Some 2%Z) (Some pr) (normal2 10 3).

  (** asrs.train_with_interface(self.quad_fun, 10), with NMC = 10 by default *)
  Definition fun_test (bnd : bool) (part : option Z) (surf : option respsurf) : test :=
    dom (X0, f0, df0) <- draw_data bnd 50;
    dom sub <- subspace_of df0 part;
    dom avm <- map_of bnd sub;
    dom s <- mlift (asrs_init (IsA avm) surf);
    dom s <- train_with_interface solve cholesky fminbound lstsq B convex_hull eig argsort s (IsA quad_fun) (IsA 10%Z) (IsA 10%Z);
    dom XX <- points bnd 10;
    dom _ <- mlift (asrs_predict s XX true); mret tt.
  (** lines 181-197 *)
  Definition test_rs_fun_train_gp_ubnd : test := fun_test false None None.
  (** lines 199-215; no PolynomialApproximation is made in spite of the name *)
  Definition test_rs_fun_train_pr_ubnd : test := fun_test false None None.
  (** lines 217-233 *)
  Definition test_rs_fun_train_gp_bnd : test := fun_test true None None.
  (** lines 235-252 *)
  Definition test_rs_fun_train_pr_bnd : test := fun_test true None (Some pr).
  (** lines 254-271 *)
  Definition test_rs_fun_train_gp_ubnd_2d : test := fun_test false (Some 2%Z) None.
  (** lines 273-291 *)
  Definition test_rs_fun_train_pr_ubnd_2d : test := fun_test false (Some 2%Z) (Some pr).
  (** lines 293-310 *)
  Definition test_rs_fun_train_gp_bnd_2d : test := fun_test true (Some 2%Z) None.
  (** lines 312-330 *)
  Definition test_rs_fun_train_pr_bnd_2d : test := fun_test true (Some 2%Z) (Some pr).

  (** ** tests/test_as_integrals.py *)

  (** train a surface on data, then I = asi.av_integrate(asrs, avm, 10) *)
  Definition rs_int_test (bnd : bool) (part : Z) : test :=
    dom (X0, f0, df0) <- draw_data bnd 50;
    dom sub <- subspace_of df0 (Some part);
    dom avm <- map_of bnd sub;
    dom s <- mlift (asrs_init (IsA avm) None);
    dom s <- mlift (train_with_data solve cholesky fminbound lstsq s X0 f0 None);
    dom _ <- av_integrate B convex_hull eig argsort delaunay (AVSurface s) (IsA avm) (IsA 10%Z); mret tt.
  (** lines 25-40, 42-57, 59-74 and 76-91 *)
  Definition test_rs_ubnd_int : test := rs_int_test false 1.
  Definition test_rs_bnd_int : test := rs_int_test true 1.
  Definition test_rs_ubnd_2d_int : test := rs_int_test false 2.
  Definition test_rs_bnd_2d_int : test := rs_int_test true 2.

  (** mu, lb, ub = asi.integrate(self.quad_fun, avm, 10), with NMC = 10 by default *)
  Definition fun_int_test (bnd : bool) (part : Z) : test :=
    dom (X0, f0, df0) <- draw_data bnd 50;
    dom sub <- subspace_of df0 (Some part);
    dom avm <- map_of bnd sub;
    dom _ <- integrate B convex_hull eig argsort delaunay (IsA quad_fun) (IsA avm) (IsA 10%Z) (IsA 10%Z); mret tt.
  (** lines 93-106, 108-121, 123-136 and 138-151 *)
  Definition test_fun_ubnd_int : test := fun_int_test false 1.
  Definition test_fun_bnd_int : test := fun_int_test true 1.
  Definition test_fun_ubnd_2d_int : test := fun_int_test false 2.
  Definition test_fun_bnd_2d_int : test := fun_int_test true 2.
End Tests.

(** ** tests/test_plotters.py; lines 105-174 are a string: the tests of zonotope_2d_plot do not run *)

Notation ptest := (Py.M pyplot unit).
(** lines 9-10, tearDown: mplt.close("all"), whether the test passed or not *)
Definition with_teardown (t : ptest) : ptest := fun w => let (r, w') := t w in (r, PP [] (p_shown w') (p_files w') (p_dir w')).

(** e = np.power(10*np.ones(6),-np.arange(1,7)).reshape((6,1)): 10^-1, ..., 10^-6 *)
Definition e6 : nd R := mk2 6 1 (fun i _ => / 10 ^ S i).
(** np.hstack((0.5*e, 1.3*e)) *)
Definition e6_br : res (nd R) := hstack (amap (Rmult (5/10)) e6) (amap (Rmult (13/10)) e6).
(** lines 12-14, 16-19 and 21-24 *)
Definition test_eigenvalues : ptest := eigenvalues e6 None None None.
Definition test_eigenvalues_br : ptest := dom br <- mlift e6_br; eigenvalues e6 (Some br) None None.
Definition test_eigenvalues_br_label : ptest := dom br <- mlift e6_br; eigenvalues e6 (Some br) (Some "testing"%string) None.
(** lines 26-28 *)
Definition test_subspace_errors : ptest :=
  subspace_errors (rows_of [[1/100; 5/100; 1/10]; [1/10; 25/100; 5/10]; [2/10; 4/10; 8/10]]) (Some "testing"%string) None.

(** the first c columns of np.eye(4) *)
Definition eye4 (c : nat) : nd R := mk2 4 c (fun i j => if Nat.eqb i j then 1 else 0).
Definition abcd : list string := ["a"; "b"; "c"; "d"]%string.
(** W_br of lines 66-94 with c pairs of columns: (0.9, 1.0) in row j of pair j, (-0.1, 0.1) elsewhere *)
Definition eye4_br (c : nat) : nd R :=
  mk2 4 (2 * c) (fun i j => if Nat.eqb i (j / 2) then (if Nat.even j then 9/10 else 1) else (if Nat.even j then - (1/10) else 1/10)).
(** lines 30-36 and 48-54, 38-46 and 56-64, 66-94: 1, 2, 3 and 4 columns *)
Definition test_eigenvectors (c : nat) : ptest := eigenvectors (eye4 c) None None None None.
Definition test_eigenvectors_labels (c : nat) : ptest := eigenvectors (eye4 c) None (Some abcd) (Some "data"%string) None.
Definition test_eigenvectors_br (c : nat) : ptest := eigenvectors (eye4 c) (Some (eye4_br c)) (Some abcd) (Some "data"%string) None.

(** lines 96-103; y is drawn without a seed: here it is an argument.  f = np.sin(y) is a column,
    np.sin(y[:,0])*np.sin(y[:,1]) has one axis *)
Definition test_ssp1 (y : nd R) : ptest := sufficient_summary y (amap sin y) None None.
Definition test_ssp2 (y : nd R) : ptest := sufficient_summary y (mk1 (nrows y) (fun i => sin (y.[i, 0%nat]) * sin (y.[i, 1%nat]))) None None.
