(** Floating point, continued: the arithmetic of gradients.py and subspaces.py
    with rounding after every operation, as in M_Float.  Overflow is left out,
    and so are the rounding errors inside LAPACK's eigensolver. *)
From Coq Require Import Reals ZArith List Lia Bool.
From Verif Require Import Prelude Py NumArr M_Misc M_SimRunners M_Gradients M_Subspaces M_Float.
Import ListNotations.
Open Scope R_scope.

(** gradients.py 87-88: the entries of the two Kronecker products are exact
    (factors 0 and 1); [h*...] and the sum are rounded *)
Definition fd_points_fl (F : format) (X : nd R) (M m : nat) (h : R) : res (nd R) :=
  do S0 <- vstack (zeros2 1 m) (eye m);
  bcast2 (fun a b => rnd F (a + b)) (kron (ones2 (m + 1) 1) X) (amap (fun a => rnd F (h * a)) (kron S0 (ones2 M 1))).

Section FD.
  Context {G : gen} {U : Type}.
  Notation W := (world G U (nd R)).
  Notation ufunc := (ufun (U:=U) (nd R) (nd R)).

  (** gradients.py 65-97: the differences and the quotients are rounded *)
  Definition finite_difference_gradients_fl (F : format) (X : nd R) (fn : pyarg ufunc) (h : R) : Py.M W (nd R) :=
    dom (X, M, m) <- mlift (process_inputs X);
    dom XX <- mlift (fd_points_fl F X M m h);
    dom f <- mlift (SimulationRunner_init fn);
    dom V <- sim_run f XX;
    dom V1 <- mlift (reshape [m; M] (rows_slice V M (nrows V)));
    dom D <- mlift (bcast2 (fun a b => rnd F (a - b)) (tr V1) (rows_slice V 0 M));
    mlift (reshape [M; m] (amap (fun a => rnd F (a / h)) D)).
End FD.

Section Active.
  Variable eigh : nd R -> res (nd R * nd R).
  Variable argsort : list R -> list nat.

  (** subspaces.py 203: [df * weights] is rounded; entry (i, j) of the product
      is added up in the order [t i j] *)
  Definition gradient_matrix_fl (F : format) (t : nat -> nat -> dtree) (df weights : nd R) : res (nd R) :=
    do dw <- bcast2 (fun a b => rnd F (a * b)) df weights;
    if negb (Nat.eqb (nrows df) (nrows dw)) then Err ValueError else
    Ok (mk2 (ncols df) (ncols dw) (fun i j => dfl F (t i j) (fun s => df.[s, i]) (fun s => dw.[s, j]))).
  (** subspaces.py 182-205 *)
  Definition active_subspace_fl (F : format) (t : nat -> nat -> dtree) (df weights : nd R) : res (nd R * nd R) :=
    do (df, M, m) <- process_inputs df;
    do C <- gradient_matrix_fl F t df weights;
    sorted_eigh eigh argsort C.
End Active.
