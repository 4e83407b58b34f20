(** Floating point, continued: exponential_squared and the values of
    RadialBasisApproximation.predict of utils/response_surfaces.py with rounding
    after every operation, as in M_Float and M_FloatPoly.  The gradient of
    predict is in M_FloatRbfGrad. *)
From Coq Require Import Reals ZArith List Lia Bool.
From Verif Require Import Prelude Py NumArr M_Misc M_RespSurf M_Float M_FloatPoly.
Import ListNotations.
Open Scope R_scope.

Section FloatRbf.
  Variable F : format.
  (** np.exp, the function of the C library *)
  Variable ex : R -> R.
  (** the order in which np.dot(B*B, c) adds the terms of row a *)
  Variable eord : nat -> nat -> dtree.

  (** 390-418, exponential_squared *)
  Definition exponential_squared_fl (X1 X2 : nd R) (sigma : R) (ell : nd R) : res (nd R) :=
    do (m, d1) <- shape2 X1;
    do (n, d2) <- shape2 X2;
    match bdim d1 d2 with
    | Some d =>
        if (negb (Nat.eqb n 0) && negb (Nat.eqb d (size ell)))%bool then Err ValueError else
        let B a i k := rnd F (X1.[a, bidx d1 k] - X2.[i, bidx d2 k]) in
        let c k := rnd F (-1 / ell.[k, 0%nat]) in
        Ok (mk2 m n (fun a i => rnd F (sigma * ex (row_dot_fl F eord a d (fun k => rnd F (B a i k * B a i k)) c))))
    | None => if Nat.eqb n 0 then Ok (zeros2 m n) else Err ValueError
    end.

  (** np.power, np.prod and the two np.dot of predict *)
  Variable pw : R -> nat -> R.
  Variable pord : nat -> stree.
  Variables kord dord : nat -> nat -> dtree.

  (** 309-316, the values of RadialBasisApproximation.predict; the weights are
      columns, as train stores them *)
  Definition rbf_predict_fl (s : rbf) (X : nd R) : res (nd R) :=
    do (X, M, m) <- process_inputs X;
    do K <- exponential_squared_fl X (rb_X s) 1 (rb_ell s);
    do (B, _) <- polynomial_bases_fl F pw pord X (rb_N s);
    let v := rb_rw s in
    let w := rb_pw s in
    if negb (Nat.eqb (nrows v) (ncols K) && Nat.eqb (ncols v) 1 && Nat.eqb (nrows w) (ncols B) && Nat.eqb (ncols w) 1)%bool then Err ValueError else
    Ok (mk2 M 1 (fun r _ => rnd F (row_dot_fl F kord r (ncols K) (fun i => K.[r, i]) (fun i => v.[i, 0%nat])
                                 + row_dot_fl F dord r (ncols B) (fun i => B.[r, i]) (fun i => w.[i, 0%nat])))).
End FloatRbf.
