(** Floating point, continued: PolynomialApproximation.predict of
    utils/response_surfaces.py with rounding after every operation, as in
    M_Float.  The degrees in the index set are small integers, which are exact;
    overflow is left out. *)
From Coq Require Import Reals ZArith List Lia Bool.
From Verif Require Import Prelude Py NumArr M_Misc M_RespSurf M_Float.
Import ListNotations.
Open Scope R_scope.

(** np.prod of numbers x, multiplied in the order [t] *)
Fixpoint pfl (F : format) (t : stree) (x : nat -> R) : R :=
  match t with Leaf i => x i | Node l r => rnd F (pfl F l x * pfl F r x) end.

Section FloatPoly.
  Variable F : format.
  (** np.power of a float and a degree: the power function of the C library,
      not always the nearest float *)
  Variable pw : R -> nat -> R.
  (** the order in which np.prod multiplies m numbers *)
  Variable pord : nat -> stree.
  (** the order in which np.dot adds the n products for row r *)
  Variable dord : nat -> nat -> dtree.

  (** 477: np.prod(np.power(X, ind), axis=1) at row r *)
  Definition power_prod_fl (X : nd R) (m : nat) (ind : list nat) (r : nat) : R :=
    pfl F (pord m) (fun j => pw (X.[r, j]) (nth j ind 0%nat)).

  (** 453-478, polynomial_bases *)
  Definition polynomial_bases_fl (X : nd R) (N : nat) : res (nd R * list (list nat)) :=
    do (M, m) <- shape2 X;
    do II <- index_set N m;
    Ok (mk2 M (List.length II) (fun r i => power_prod_fl X m (nth i II []) r), II).

  (** 480-512, grad_polynomial_bases *)
  Definition grad_polynomial_bases_fl (X : nd R) (N : nat) : res (nd R) :=
    do (M, m) <- shape2 X;
    do II <- index_set N m;
    Ok (mk3 M (List.length II) m (fun r i k =>
          let ind := nth i II [] in
          let indk := nth k ind 0%nat in
          if Nat.eqb indk 0 then 0
          else rnd F (INR indk * power_prod_fl X m (dec_at k ind) r))).

  (** np.dot of row r of a matrix with n columns and a column of n weights *)
  Definition row_dot_fl (r n : nat) (a w : nat -> R) : R :=
    match n with O => 0 | _ => dfl F (dord r n) a w end.

  (** 129-164, PolynomialApproximation.predict; the weights are a column, as
      train stores them *)
  Definition poly_predict_fl (s : poly) (X : nd R) (compgrad : bool) : res (nd R * option (nd R)) :=
    do (X, M, m) <- process_inputs X;
    do (B, _) <- polynomial_bases_fl X (pa_N s);
    let w := pa_weights s in
    if negb (Nat.eqb (nrows w) (ncols B) && Nat.eqb (ncols w) 1)%bool then Err ValueError else
    let f := mk2 M 1 (fun r _ => row_dot_fl r (ncols B) (fun c => B.[r, c]) (fun c => w.[c, 0%nat])) in
    if compgrad then
      do dB <- grad_polynomial_bases_fl X (pa_N s);
      Ok (f, Some (mk2 M m (fun r i => row_dot_fl r (ncols dB) (fun c => dB.[r, c, i]) (fun c => w.[c, 0%nat]))))
    else Ok (f, None).
End FloatPoly.
