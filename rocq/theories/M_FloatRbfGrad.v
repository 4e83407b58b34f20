(** Floating point, continued: grad_exponential_squared and the gradient of
    RadialBasisApproximation.predict of utils/response_surfaces.py with rounding after every operation, as in
    M_FloatRbf.  The products of line 450 are taken from left to right, as
    Python does. *)
From Coq Require Import Reals ZArith List Lia Bool.
From Verif Require Import Prelude Py NumArr M_Misc M_RespSurf M_Float M_FloatPoly M_FloatRbf.
Import ListNotations.
Open Scope R_scope.

Section FloatRbfGrad.
  Variable F : format.
  (** np.exp, the function of the C library *)
  Variable ex : R -> R.
  (** the order in which np.dot(B*B, c) adds the terms of row a *)
  Variable eord : nat -> nat -> dtree.

  (** 420-451, grad_exponential_squared *)
  Definition grad_exponential_squared_fl (X1 X2 : nd R) (sigma : R) (ell : nd R) : res (nd R) :=
    do (m, d1) <- shape2 X1;
    do (n, d2) <- shape2 X2;
    let looping := negb (Nat.eqb n 0 || Nat.eqb d1 0)%bool in
    match bdim d1 d2 with
    | Some d =>
        if (looping && Nat.eqb (size ell) 0)%bool then Err IndexError else
        if (looping && negb (Nat.eqb d (size ell)))%bool then Err ValueError else
        let B a i k := rnd F (X1.[a, bidx d1 k] - X2.[i, bidx d2 k]) in
        let c k := rnd F (-1 / ell.[k, 0%nat]) in
        Ok (mk3 m n d1 (fun a i k =>
          rnd F (rnd F (sigma * rnd F (rnd F (-2 * c k) * B a i k))
                 * ex (row_dot_fl F eord a d (fun l => rnd F (B a i l * B a i l)) c))))
    | None => if looping then Err ValueError else Ok (mk3 m n d1 (fun _ _ _ => 0))
    end.

  (** np.power, np.prod and the two np.dot of lines 322-323 *)
  Variable pw : R -> nat -> R.
  Variable pord : nat -> stree.
  Variables kord dord : nat -> nat -> dtree.

  (** 309 and 317-324, the gradient of RadialBasisApproximation.predict; the
      weights are columns, as train stores them *)
  Definition rbf_gradient_fl (s : rbf) (X : nd R) : res (nd R) :=
    do (X, M, m) <- process_inputs X;
    do dK <- grad_exponential_squared_fl (rb_X s) X 1 (rb_ell s);
    do dB <- grad_polynomial_bases_fl F pw pord X (rb_N s);
    let v := rb_rw s in
    let w := rb_pw s in
    if negb (Nat.eqb (nrows v) (nrows dK) && Nat.eqb (ncols v) 1 && Nat.eqb (nrows w) (ncols dB) && Nat.eqb (ncols w) 1)%bool then Err ValueError else
    Ok (mk2 M m (fun r i => rnd F (row_dot_fl F kord r (nrows dK) (fun a => dK.[a, r, i]) (fun a => v.[a, 0%nat])
                                 + row_dot_fl F dord r (ncols dB) (fun c => dB.[r, c, i]) (fun c => w.[c, 0%nat])))).
End FloatRbfGrad.
