(** Model of active_subspaces/utils/simrunners.py *)
From Coq Require Import Reals Lra Lia List Arith ZArith String Bool.
From Verif Require Import Prelude Py NumArr M_Misc.
Import ListNotations.
Open Scope R_scope.

Section SimRunners.
  Context {G : gen} {U : Type}.
  Notation W := (world G U (nd R)).
  Notation ufunc := (ufun (U:=U) (nd R) (nd R)).

  (** The value stored by [F[i] = v] with F of shape (M,1): v must hold
      exactly one number (scalar, (1,) or (1,1)), otherwise NumPy cannot
      broadcast it into the slot. *)
  Definition as_scalar (v : nd R) : res R :=
    if Nat.eqb (size v) 1 then Ok (at_ v (unravel (shape v) 0)) else Err ValueError.

  (** utils/simrunners.py 39-42 and 122-125: constructors reject non-callables *)
  Definition SimulationRunner_init (fn : pyarg ufunc) : res ufunc :=
    match fn with IsA f => Ok f | NotA => Err TypeError end.
  Definition SimulationGradientRunner_init (fn : pyarg ufunc) : res ufunc :=
    match fn with IsA f => Ok f | NotA => Err TypeError end.

  (** utils/simrunners.py 71-83, SimulationRunner.run *)
  Definition sim_run (f : ufunc) (X : nd R) : M W (nd R) :=
    dom (X, M, m) <- mlift (process_inputs X);
    dom F <- mmap (fun i => dom v <- ucall f (row2 X i); mlift (as_scalar v)) (seq 0 M);
    mret (mk2 M 1 (fun i _ => nth i F 0)).

  (** utils/simrunners.py 157-170, SimulationGradientRunner.run *)
  Definition simgrad_run (df : ufunc) (X : nd R) : M W (nd R) :=
    dom (X, M, m) <- mlift (process_inputs X);
    dom D <- mmap (fun i => dom v <- ucall df (row2 X i); mlift (reshape [1%nat; m] v)) (seq 0 M);
    mret (mk2 M m (fun i j => (nth i D (zeros2 1 m)).[0%nat, j])).
End SimRunners.
