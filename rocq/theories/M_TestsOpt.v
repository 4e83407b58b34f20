(** Model of the repository's own unit tests tests/test_as_optimizers.py.  Its four
    tests have the names of tests of tests/test_as_integrals.py; here they are called test_opt_... *)
From Coq Require Import String Reals Lra Lia List Arith ZArith Bool.
From Verif Require Import Prelude Py NumArr M_Misc M_SimRunners M_Gradients M_QP M_RespSurf M_Subspaces M_Domains M_Designs M_ASRS M_Optimizers M_Tests M_TestsSpace M_TestsAS.
Import ListNotations.
Open Scope R_scope.

(** lines 11-16: 0.5 * x^T A x, of shape (1, 1); the matrix is that of M_TestsAS, digit for digit *)
Definition opt_fun (x : nd R) : res (nd R) :=
  do c <- reshape [3; 1]%nat x; do p <- mdot quad_matrix c; do q <- mdot (tr c) p; Ok (amap (Rmult (5/10)) q).
(** lines 18-22: A x, of shape (3, 1) *)
Definition opt_dfun (x : nd R) : res (nd R) :=
  do c <- reshape [3; 1]%nat x; mdot quad_matrix c.

Section Tests.
  Context {G : gen} {U : Type}.
  Notation W := (world G U (nd R)).
  Notation test := (Py.M W unit).
  Variable eigh : nd R -> res (nd R * nd R).
  Variable argsort : list R -> list nat.
  Variable lstsq : nd R -> nd R -> res (nd R).
  Variable norm2 : nd R -> R.
  Variable det : nd R -> R.
  Variable B : backend.
  Variable convex_hull : nd R -> res (nd R).
  Variable solve : nd R -> nd R -> res (nd R).
  Variable cholesky : nd R -> res (nd R).
  (** fminbound as it is called by the surfaces and by interval_minimize *)
  Variable fminbound : (R -> res R) -> res R.
  Variable fminbound_in : (R -> res R) -> R -> R -> res (R * R * bool).

  (** one turn of the loop of lines 29-32: the value f0[i,0] (NumPy stores the only entry of a
      1-by-1 array) and the row df0[i,:] *)
  Definition opt_row (x : nd R) : res (R * nd R) :=
    do f <- opt_fun x; do f <- get2 f 0 0; do d <- opt_dfun x; do d <- reshape [3%nat] d; Ok (f, d).
  (** the loop: f0 and df0, both full of zeros before it *)
  Definition fill (X0 : nd R) : Py.M W (nd R * nd R) :=
    dom l <- mmap (fun i => mlift (opt_row (row1 X0 i))) (seq 0 50);
    let z := (0, mk1 3 (fun _ => 0)) in
    mret (mk2 50 1 (fun i _ => fst (nth i l z)), mk2 50 3 (fun i j => (snd (nth i l z)).[j])).

  (** lines 25-43, 46-64, 67-85 and 88-106 up to and including aso.minimize; X0 is uniform on the
      cube in the bounded tests and normal in the others *)
  Definition opt_run (bnd : bool) (part : Z) : Py.M W (nd R * R) :=
    dom _ <- seed 42;
    dom X0 <- points bnd 50;
    dom (f0, df0) <- fill X0;
    dom sub <- subspace_of eigh argsort lstsq norm2 det df0 (Some part);
    dom avm <- map_of convex_hull bnd sub;
    dom s <- mlift (asrs_init (IsA avm) None);
    dom s <- mlift (train_with_data solve cholesky fminbound lstsq s X0 f0 None);
    opt_minimize B lstsq solve fminbound_in s X0 f0.
  (** xstar and fstar are not looked at *)
  Definition opt_test (bnd : bool) (part : Z) : test := dom _ <- opt_run bnd part; mret tt.
  (** lines 24-43, test_rs_ubnd_int *)
  Definition test_opt_ubnd : test := opt_test false 1.
  (** lines 45-64, test_rs_bnd_int *)
  Definition test_opt_bnd : test := opt_test true 1.
  (** lines 66-85, test_rs_ubnd_2d_int *)
  Definition test_opt_ubnd_2d : test := opt_test false 2.
  (** lines 87-106, test_rs_bnd_2d_int *)
  Definition test_opt_bnd_2d : test := opt_test true 2.
End Tests.
